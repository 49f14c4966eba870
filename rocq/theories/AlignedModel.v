(** Model of crates/aligned-vec/src/lib.rs.  No proofs here.

    The memory is a list of heap blocks whose cells hold one element each; an
    element has a value and an identity (to see double drops).  Everything the Rust
    rules forbid (access outside a live block, reading a cell never written, wrong
    layout in realloc or dealloc, dropping an element twice) is the outcome [UB].
    Simplified: cells are as large as an element, so bytes are not modelled; realloc
    always moves; destructors of elements do not panic. *)
From Coq Require Import List Bool Arith.
Require Import Verif.Prelude.
Import ListNotations.

(** The parameters of an instance: largest [usize], size and alignment of [T], the
    [ALIGN] type parameter, whether [T] has a destructor, whether integer overflow
    wraps (release profile) or panics. Parameters of [AlignedVec<T, ALIGN>], lib.rs 11-17. *)
Record aparams := AParams { umax : nat; esize : nat; ealign : nat; align : nat; needs_drop : bool; wraps : bool }.

(** [isize::MAX]. Bound of [Layout::from_size_align] (lib.rs 49, 120, 166). *)
Definition imax (p : aparams) : nat := umax p / 2.

(** [Layout::from_size_align(size, ALIGN)] succeeds (lib.rs 49, 120, 166): the size
    rounded up to the alignment is at most [isize::MAX]. *)
Definition layout_ok (p : aparams) (size : nat) : bool := size + (align p - 1) <=? imax p.

(** An element: identity and value. The [T] of lib.rs 11-17; the identity is an auxiliary of
    the model. *)
Definition elem (V : Type) : Type := nat * V.

(** A heap block with the layout it was allocated with. What [alloc] and [realloc] return
    (lib.rs 48-50, 122, 128). *)
Record block (V : Type) := Block { b_live : bool; b_size : nat; b_align : nat; b_cells : list (option (elem V)) }.
Arguments Block {V}. Arguments b_live {V}. Arguments b_size {V}. Arguments b_align {V}. Arguments b_cells {V}.

(** The memory: blocks, identities of dropped elements, next fresh identity. Auxiliary: the
    state of the allocator behind lib.rs 48, 122, 128, 219 and the destructor calls of lib.rs
    104, 217. *)
Record amem (V : Type) := AMem { m_heap : list (block V); m_dropped : list nat; m_next : nat }.
Arguments AMem {V}. Arguments m_heap {V}. Arguments m_dropped {V}. Arguments m_next {V}.

(** lib.rs 11-17 [AlignedVec]; the pointer is a block number, or dangling. *)
Record avec := AVec { a_ptr : option nat; a_cap : nat; a_len : nat }.

(** Why behaviour is undefined. The safety conditions of the [unsafe] blocks of lib.rs 47,
    94, 119, 126, 141, 146, 154, 158, 184, 218, 228. *)
Inductive ub := UBAccess | UBLayout | UBDoubleDrop | UBReallocSize.

(** A call returns, panics (with the state left behind), or is undefined. Result of any
    function of lib.rs 19-325. *)
Inductive outcome (A : Type) := Ret (a : A) | Pan (a : A) | Undef (u : ub).
Arguments Ret {A}. Arguments Pan {A}. Arguments Undef {A}.

(** A fresh value made by the caller or by [T::clone] (lib.rs 193, 259). *)
Definition fresh {V} (m : amem V) (v : V) : elem V * amem V :=
  ((m_next m, v), AMem (m_heap m) (m_dropped m) (S (m_next m))).

(** Running the destructor of an element. Called at lib.rs 104 and 217. *)
Definition drop_elem {V} (p : aparams) (m : amem V) (e : elem V) : option (amem V) :=
  if needs_drop p then
    if existsb (Nat.eqb (fst e)) (m_dropped m) then None
    else Some (AMem (m_heap m) (fst e :: m_dropped m) (m_next m))
  else Some m.

(** [ptr::read] of cell [i] (lib.rs 141), and reads through slices (153-159). *)
Definition cell_read {V} (m : amem V) (ptr : option nat) (i : nat) : option (elem V) :=
  b <- ptr ;; blk <- nth_error (m_heap m) b ;;
  if b_live blk then o <- nth_error (b_cells blk) i ;; o else None.

(** [ptr::write] to cell [i] (lib.rs 148, 193, 201). *)
Definition cell_write {V} (m : amem V) (ptr : option nat) (i : nat) (e : elem V) : option (amem V) :=
  b <- ptr ;; blk <- nth_error (m_heap m) b ;;
  if b_live blk && (i <? length (b_cells blk)) then
    Some (AMem (upd b (Block true (b_size blk) (b_align blk) (upd i (Some e) (b_cells blk))) (m_heap m)) (m_dropped m) (m_next m))
  else None.

(** [alloc] of a layout of [cap] elements (lib.rs 48-50, 122). *)
Definition mem_alloc {V} (p : aparams) (m : amem V) (cap : nat) : nat * amem V :=
  (length (m_heap m), AMem (m_heap m ++ [Block true (cap * esize p) (align p) (repeat None cap)]) (m_dropped m) (m_next m)).

(** The block behind a pointer when it is live and has the given layout. The precondition of
    [realloc] (lib.rs 128) and [dealloc] (lib.rs 219). *)
Definition block_with {V} (p : aparams) (m : amem V) (ptr : option nat) (size : nat) : option (nat * block V) :=
  b <- ptr ;; blk <- nth_error (m_heap m) b ;;
  if b_live blk && (b_size blk =? size) && (b_align blk =? align p) then Some (b, blk) else None.

(** A freed block. After [realloc] (lib.rs 128) or [dealloc] (lib.rs 219). *)
Definition kill {V} (blk : block V) : block V := Block false (b_size blk) (b_align blk) (b_cells blk).

(** [checked_next_power_of_two] (lib.rs 112). *)
Definition next_pow2 (p : aparams) (n : nat) : option nat :=
  let r := 2 ^ Nat.log2_up n in if r <=? umax p then Some r else None.

(** lib.rs 20-33 [new]. *)
Definition a_new (p : aparams) : outcome (option avec) :=
  if (esize p =? 0) || (align p <? ealign p) then Pan None else Ret (Some (AVec None 0 0)).

(** lib.rs 35-60 [with_capacity]; [ok] says whether the allocator succeeds. *)
Definition a_with_capacity {V} (p : aparams) (m : amem V) (cap : nat) (ok : bool) : outcome (amem V * option avec) :=
  if (esize p =? 0) || (align p <? ealign p) then Pan (m, None) else
  if cap =? 0 then Ret (m, Some (AVec None 0 0)) else
  if umax p <? cap * esize p then Pan (m, None) else
  if negb (layout_ok p (cap * esize p)) then Pan (m, None) else
  if negb ok then Pan (m, None) else
  let '(b, m) := mem_alloc p m cap in Ret (m, Some (AVec (Some b) cap 0)).

(** Dropping the [n] elements from cell [i] on (lib.rs 104 [drop_in_place]). *)
Fixpoint drop_cells {V} (p : aparams) (m : amem V) (ptr : option nat) (i n : nat) : outcome (amem V) :=
  match n with
  | 0 => Ret m
  | S n =>
      match cell_read m ptr i with
      | None => Undef UBAccess
      | Some e => match drop_elem p m e with None => Undef UBDoubleDrop | Some m => drop_cells p m ptr (S i) n end
      end
  end.

(** lib.rs 86-106 [truncate]; 82-84 [clear] is [truncate 0]. *)
Definition a_truncate {V} (p : aparams) (m : amem V) (v : avec) (len : nat) : outcome (amem V * avec) :=
  if a_len v <? len then Ret (m, v) else
  match drop_cells p m (a_ptr v) len (a_len v - len) with
  | Ret m => Ret (m, AVec (a_ptr v) (a_cap v) len)
  | Pan m => Pan (m, AVec (a_ptr v) (a_cap v) len)
  | Undef u => Undef u
  end.

(** lib.rs 108-134 [reserve].  The new size is compared with [isize::MAX] only
    when nothing was allocated before; [realloc] requires it always. *)
Definition a_reserve {V} (p : aparams) (m : amem V) (v : avec) (additional : nat) (ok : bool) : outcome (amem V * avec) :=
  let sum := a_len v + additional in
  if negb (wraps p) && (umax p <? sum) then Pan (m, v) else
  let new_cap := sum mod (umax p + 1) in
  if new_cap <=? a_cap v then Ret (m, v) else
  match next_pow2 p new_cap with
  | None => Pan (m, v)
  | Some new_cap =>
      let new_size := new_cap * esize p in
      if umax p <? new_size then Pan (m, v) else
      if new_size =? 0 then Pan (m, v) else
      if a_cap v =? 0 then
        if negb (layout_ok p new_size) then Pan (m, v) else
        if negb ok then Pan (m, v) else
        let '(b, m) := mem_alloc p m new_cap in Ret (m, AVec (Some b) new_cap (a_len v))
      else
        if negb (layout_ok p (a_cap v * esize p)) then Pan (m, v) else
        match block_with p m (a_ptr v) (a_cap v * esize p) with
        | None => Undef UBLayout
        | Some (b, blk) =>
            if negb (layout_ok p new_size) then Undef UBReallocSize else
            if negb ok then Pan (m, v) else
            let cells := firstn new_cap (b_cells blk) ++ repeat None (new_cap - length (b_cells blk)) in
            Ret (AMem (upd b (kill blk) (m_heap m) ++ [Block true new_size (align p) cells]) (m_dropped m) (m_next m),
                 AVec (Some (length (m_heap m))) new_cap (a_len v))
        end
  end.

(** lib.rs 136-143 [pop]. *)
Definition a_pop {V} (m : amem V) (v : avec) : outcome (option (elem V) * avec) :=
  match a_len v with
  | 0 => Ret (None, v)
  | S n => match cell_read m (a_ptr v) n with
           | None => Undef UBAccess
           | Some e => Ret (Some e, AVec (a_ptr v) (a_cap v) n)
           end
  end.

(** A value owned by a function that unwinds is dropped. The argument of [push] (lib.rs 145)
    or [resize] (lib.rs 171). *)
Definition unwind_drop {V} (p : aparams) (m : amem V) (e : elem V) (v : avec) : outcome (amem V * avec) :=
  match drop_elem p m e with None => Undef UBDoubleDrop | Some m => Pan (m, v) end.

(** lib.rs 145-151 [push]. *)
Definition a_push {V} (p : aparams) (m : amem V) (v : avec) (e : elem V) (ok : bool) : outcome (amem V * avec) :=
  match a_reserve p m v 1 ok with
  | Ret (m, v) =>
      match cell_write m (a_ptr v) (a_len v) e with
      | None => Undef UBAccess
      | Some m => Ret (m, AVec (a_ptr v) (a_cap v) (S (a_len v)))
      end
  | Pan (m, v) => unwind_drop p m e v
  | Undef u => Undef u
  end.

(** lib.rs 192-204, the loop of [extend_with] with [SetLenOnDrop] (300-325):
    [n] values remain to be written, [clones] calls of [clone] succeed. *)
Fixpoint a_extend {V} (p : aparams) (m : amem V) (v : avec) (n clones : nat) (e : elem V) : outcome (amem V * avec) :=
  match n with
  | 0 => match drop_elem p m e with None => Undef UBDoubleDrop | Some m => Ret (m, v) end
  | 1 => match cell_write m (a_ptr v) (a_len v) e with
         | None => Undef UBAccess
         | Some m => Ret (m, AVec (a_ptr v) (a_cap v) (S (a_len v)))
         end
  | S n =>
      match clones with
      | 0 => unwind_drop p m e v
      | S clones =>
          let '(c, m) := fresh m (snd e) in
          match cell_write m (a_ptr v) (a_len v) c with
          | None => Undef UBAccess
          | Some m => a_extend p m (AVec (a_ptr v) (a_cap v) (S (a_len v))) n clones e
          end
      end
  end.

(** lib.rs 171-179 [resize] and 181-207 [extend_with].  When nothing is appended
    the value is dropped after [truncate]. *)
Definition a_resize {V} (p : aparams) (m : amem V) (v : avec) (new_len : nat) (e : elem V) (ok : bool) (clones : nat)
  : outcome (amem V * avec) :=
  if a_len v <? new_len then
    match a_reserve p m v (new_len - a_len v) ok with
    | Ret (m, v) => a_extend p m v (new_len - a_len v) clones e
    | Pan (m, v) => unwind_drop p m e v
    | Undef u => Undef u
    end
  else
    match a_truncate p m v new_len with
    | Ret (m, v) => match drop_elem p m e with None => Undef UBDoubleDrop | Some m => Ret (m, v) end
    | Pan (m, v) => unwind_drop p m e v
    | Undef u => Undef u
    end.

(** lib.rs 217: popping and dropping all elements. *)
Fixpoint a_pop_all {V} (p : aparams) (m : amem V) (ptr : option nat) (n : nat) : outcome (amem V) :=
  match n with
  | 0 => Ret m
  | S n =>
      match cell_read m ptr n with
      | None => Undef UBAccess
      | Some e => match drop_elem p m e with None => Undef UBDoubleDrop | Some m => a_pop_all p m ptr n end
      end
  end.

(** lib.rs 210-223 [drop]. *)
Definition a_drop {V} (p : aparams) (m : amem V) (v : avec) : outcome (amem V) :=
  if negb (a_cap v =? 0) && negb (esize p =? 0) then
    match a_pop_all p m (a_ptr v) (a_len v) with
    | Ret m =>
        if negb (layout_ok p (a_cap v * esize p)) then Pan m else
        match block_with p m (a_ptr v) (a_cap v * esize p) with
        | None => Undef UBLayout
        | Some (b, blk) => Ret (AMem (upd b (kill blk) (m_heap m)) (m_dropped m) (m_next m))
        end
    | o => o
    end
  else Ret m.

(** lib.rs 231 [copy_nonoverlapping] of the first [len] cells between two live
    blocks; with [len = 0] the pointers are not used. *)
Definition cells_copy {V} (m : amem V) (src dst : option nat) (len : nat) : option (amem V) :=
  if len =? 0 then Some m else
  s <- src ;; d <- dst ;; sb <- nth_error (m_heap m) s ;; db <- nth_error (m_heap m) d ;;
  if b_live sb && b_live db && (len <=? length (b_cells sb)) && (len <=? length (b_cells db)) then
    Some (AMem (upd d (Block true (b_size db) (b_align db) (firstn len (b_cells sb) ++ skipn len (b_cells db))) (m_heap m)) (m_dropped m) (m_next m))
  else None.

(** lib.rs 225-235 [clone]: the elements are copied bit by bit, without
    [T::clone]. *)
Definition a_clone {V} (p : aparams) (m : amem V) (v : avec) (ok : bool) : outcome (amem V * option avec) :=
  match a_with_capacity p m (a_len v) ok with
  | Ret (m, Some r) =>
      match cells_copy m (a_ptr v) (a_ptr r) (a_len v) with
      | None => Undef UBAccess
      | Some m => Ret (m, Some (AVec (a_ptr r) (a_cap r) (a_len v)))
      end
  | o => o
  end.

(** lib.rs 259: pushing clones of the elements of a slice; on a panic the new
    vector is dropped. *)
Fixpoint a_push_all {V} (p : aparams) (m : amem V) (v : avec) (l : list V) (clones : nat) (ok : bool) : outcome (amem V * option avec) :=
  let give_up m v := match a_drop p m v with Undef u => Undef u | Ret m | Pan m => Pan (m, None) end in
  match l with
  | [] => Ret (m, Some v)
  | x :: l =>
      match clones with
      | 0 => give_up m v
      | S clones =>
          let '(e, m) := fresh m x in
          match a_push p m v e ok with
          | Ret (m, v) => a_push_all p m v l clones ok
          | Pan (m, v) => give_up m v
          | Undef u => Undef u
          end
      end
  end.

(** lib.rs 253-262 [From<&[T]>]; the slice stays with its owner. *)
Definition a_from {V} (p : aparams) (m : amem V) (l : list V) (ok : bool) (clones : nat) : outcome (amem V * option avec) :=
  match a_with_capacity p m (length l) ok with
  | Ret (m, Some v) => a_push_all p m v l clones ok
  | o => o
  end.

(** Calls a program can make on its vectors (numbered in order of creation).
    [Write] is [v[j] = x] through [index_mut] (lib.rs 273-280), [Read] is [v[j]]
    (264-271). *)
Inductive aop (V : Type) :=
| ONew | OWithCapacity (cap : nat) (ok : bool) | OReserve (i n : nat) (ok : bool) | OPush (i : nat) (x : V) (ok : bool)
| OPop (i : nat) | OResize (i n : nat) (x : V) (ok : bool) (clones : nat) | OTruncate (i n : nat)
| OClone (i : nat) (ok : bool) | ODrop (i : nat) | ORead (i j : nat) | OWrite (i j : nat) (x : V)
| OFrom (l : list V) (ok : bool) (clones : nat).
Arguments ONew {V}. Arguments OWithCapacity {V}. Arguments OReserve {V}. Arguments OPush {V}. Arguments OPop {V}.
Arguments OResize {V}. Arguments OTruncate {V}. Arguments OClone {V}. Arguments ODrop {V}. Arguments ORead {V}.
Arguments OWrite {V}. Arguments OFrom {V}.

(** The program: memory, its vectors ([None] after drop), elements it got from
    [pop]. Not part of lib.rs: user code calling lib.rs 19-325. *)
Record aworld (V : Type) := AWorld { w_mem : amem V; w_vecs : list (option avec); w_held : list (elem V) }.
Arguments AWorld {V}. Arguments w_mem {V}. Arguments w_vecs {V}. Arguments w_held {V}.

(** Result visible to the program: the element of [Pop] or [Read]. What [pop] (lib.rs 136)
    or indexing (lib.rs 264-271) returns. *)
Definition oseen {V} (o : option (elem V)) : option V := option_map snd o.

(** What the program sees of a call: completed or not, and the value. Scaffolding for calls
    of the functions of lib.rs 82-207. *)
Definition lift {V} (w : aworld V) (i : nat) (o : outcome (amem V * avec)) : outcome (aworld V * option V) :=
  match o with
  | Ret (m, v) => Ret (AWorld m (upd i (Some v) (w_vecs w)) (w_held w), None)
  | Pan (m, v) => Pan (AWorld m (upd i (Some v) (w_vecs w)) (w_held w), None)
  | Undef u => Undef u
  end.

(** A call that makes a new vector. Scaffolding for lib.rs 20, 35, 227, 257. *)
Definition lift_new {V} (w : aworld V) (o : outcome (amem V * option avec)) : outcome (aworld V * option V) :=
  match o with
  | Ret (m, v) => Ret (AWorld m (w_vecs w ++ [v]) (w_held w), None)
  | Pan (m, _) => Pan (AWorld m (w_vecs w) (w_held w), None)
  | Undef u => Undef u
  end.

(** One call; calls on vectors that do not exist are excluded by the compiler and
    do nothing here. Dispatches to the functions of lib.rs 19-325. *)
Definition a_step {V} (p : aparams) (w : aworld V) (o : aop V) : outcome (aworld V * option V) :=
  let on i k := match nth_error (w_vecs w) i with Some (Some v) => k v | _ => Ret (w, None) end in
  match o with
  | ONew => lift_new w (match a_new p with Ret v => Ret (w_mem w, v) | Pan v => Pan (w_mem w, v) | Undef u => Undef u end)
  | OWithCapacity cap ok => lift_new w (a_with_capacity p (w_mem w) cap ok)
  | OReserve i n ok => on i (fun v => lift w i (a_reserve p (w_mem w) v n ok))
  | OPush i x ok => on i (fun v => let '(e, m) := fresh (w_mem w) x in lift w i (a_push p m v e ok))
  | OPop i => on i (fun v =>
      match a_pop (w_mem w) v with
      | Ret (None, v) | Pan (None, v) => Ret (AWorld (w_mem w) (upd i (Some v) (w_vecs w)) (w_held w), None)
      | Ret (Some e, v) | Pan (Some e, v) => Ret (AWorld (w_mem w) (upd i (Some v) (w_vecs w)) (e :: w_held w), Some (snd e))
      | Undef u => Undef u
      end)
  | OResize i n x ok clones => on i (fun v => let '(e, m) := fresh (w_mem w) x in lift w i (a_resize p m v n e ok clones))
  | OTruncate i n => on i (fun v => lift w i (a_truncate p (w_mem w) v n))
  | OClone i ok => on i (fun v => lift_new w (a_clone p (w_mem w) v ok))
  | ODrop i => on i (fun v =>
      match a_drop p (w_mem w) v with
      | Ret m => Ret (AWorld m (upd i None (w_vecs w)) (w_held w), None)
      | Pan m => Pan (AWorld m (upd i None (w_vecs w)) (w_held w), None)
      | Undef u => Undef u
      end)
  | ORead i j => on i (fun v =>
      if a_len v <=? j then Pan (w, None) else
      match cell_read (w_mem w) (a_ptr v) j with None => Undef UBAccess | Some e => Ret (w, Some (snd e)) end)
  | OWrite i j x => on i (fun v =>
      let '(e, m) := fresh (w_mem w) x in
      if a_len v <=? j then
        match drop_elem p m e with None => Undef UBDoubleDrop | Some m => Pan (AWorld m (w_vecs w) (w_held w), None) end
      else
        match cell_read m (a_ptr v) j with
        | None => Undef UBAccess
        | Some old =>
            match drop_elem p m old with
            | None => Undef UBDoubleDrop
            | Some m => match cell_write m (a_ptr v) j e with
                        | None => Undef UBAccess
                        | Some m => Ret (AWorld m (w_vecs w) (w_held w), None)
                        end
            end
        end)
  | OFrom l ok clones => lift_new w (a_from p (w_mem w) l ok clones)
  end.

(** A program: the calls in order, with what each of them returned (panics are
    caught by the caller). Not part of lib.rs: any sequence of calls of its functions (19-325). *)
Fixpoint a_run {V} (p : aparams) (w : aworld V) (ops : list (aop V)) : (aworld V * list (bool * option V)) + ub :=
  match ops with
  | [] => inl (w, [])
  | o :: ops =>
      match a_step p w o with
      | Undef u => inr u
      | Ret (w, r) => match a_run p w ops with inl (w, rs) => inl (w, (true, r) :: rs) | inr u => inr u end
      | Pan (w, r) => match a_run p w ops with inl (w, rs) => inl (w, (false, r) :: rs) | inr u => inr u end
      end
  end.

(** Nothing allocated, no vectors. The state before any call of lib.rs 20 or 35. *)
Definition a_start {V} : aworld V := AWorld (AMem [] [] 0) [] [].
