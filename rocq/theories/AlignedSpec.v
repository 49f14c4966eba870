(** What the calls of [AlignedVec] mean for plain vectors, written without looking
    at the implementation. *)
From Coq Require Import List Bool Arith Permutation.
Require Import Verif.Prelude Verif.AlignedModel.
Import ListNotations.

(** Plain vectors, [None] once dropped. *)
Definition plain (V : Type) : Type := list (option (list V)).

(** The vectors and the result after a call that completes; [None] when the call
    must not complete. *)
Definition plain_ret {V} (s : plain V) (o : aop V) : option (plain V * option V) :=
  let on i k := match nth_error s i with Some (Some l) => k l | _ => Some (s, None) end in
  match o with
  | ONew | OWithCapacity _ _ => Some (s ++ [Some []], None)
  | OFrom l _ _ => Some (s ++ [Some l], None)
  | OReserve _ _ _ => Some (s, None)
  | OPush i x _ => on i (fun l => Some (upd i (Some (l ++ [x])) s, None))
  | OPop i => on i (fun l => Some (upd i (Some (removelast l)) s, nth_error l (length l - 1)))
  | OResize i n x _ _ => on i (fun l => Some (upd i (Some (firstn n l ++ repeat x (n - length l))) s, None))
  | OTruncate i n => on i (fun l => Some (upd i (Some (firstn n l)) s, None))
  | OClone i _ => on i (fun l => Some (s ++ [Some l], None))
  | ODrop i => on i (fun l => Some (upd i None s, None))
  | ORead i j => on i (fun l => match nth_error l j with Some x => Some (s, Some x) | None => None end)
  | OWrite i j x => on i (fun l => if j <? length l then Some (upd i (Some (upd j x l)) s, None) else None)
  end.

(** Too many elements for the address space (with the rounding to powers of two). *)
Definition too_big (p : aparams) (n : nat) : Prop := imax p < 2 * n * esize p + align p.

(** Types the vector does not support. *)
Definition unsupported (p : aparams) : Prop := esize p = 0 \/ align p < ealign p.

(** When a call may panic, and the vectors after that. *)
Definition plain_pan {V} (p : aparams) (s : plain V) (o : aop V) (s' : plain V) : Prop :=
  match o with
  | ONew => unsupported p /\ s' = s
  | OWithCapacity n ok => (unsupported p \/ ok = false \/ too_big p n) /\ s' = s
  | OFrom l ok clones => (unsupported p \/ ok = false \/ clones < length l \/ too_big p (length l)) /\ s' = s
  | OReserve i n ok => (exists l, nth_error s i = Some (Some l) /\ (ok = false \/ too_big p (length l + n))) /\ s' = s
  | OPush i x ok => (exists l, nth_error s i = Some (Some l) /\ (ok = false \/ too_big p (length l + 1))) /\ s' = s
  | OResize i n x ok clones => exists l, nth_error s i = Some (Some l) /\ length l < n /\
      ((ok = false \/ too_big p n) /\ s' = s \/
       clones + 1 < n - length l /\ s' = upd i (Some (l ++ repeat x clones)) s)
  | OClone i ok => (exists l, nth_error s i = Some (Some l) /\ (unsupported p \/ ok = false \/ too_big p (length l))) /\ s' = s
  | ORead i j => (exists l, nth_error s i = Some (Some l) /\ length l <= j) /\ s' = s
  | OWrite i j x => (exists l, nth_error s i = Some (Some l) /\ length l <= j) /\ s' = s
  | OPop _ | OTruncate _ _ | ODrop _ => False
  end.

(** A program on plain vectors, with what each call returned. *)
Fixpoint plain_run {V} (p : aparams) (s : plain V) (ops : list (aop V)) (rs : list (bool * option V)) (s' : plain V) : Prop :=
  match ops, rs with
  | [], [] => s' = s
  | o :: ops, (true, r) :: rs => exists s1, plain_ret s o = Some (s1, r) /\ plain_run p s1 ops rs s'
  | o :: ops, (false, r) :: rs => exists s1, plain_pan p s o s1 /\ r = None /\ plain_run p s1 ops rs s'
  | _, _ => False
  end.

(** Elements asked for by a program. *)
Definition demand {V} (ops : list (aop V)) : nat :=
  sum_list (map (fun o => match o with
    | OWithCapacity n _ | OReserve _ n _ | OResize _ n _ _ _ => n
    | OPush _ _ _ => 1 | OFrom l _ _ => length l | _ => 0 end) ops).

(** Arguments are [usize] values. *)
Definition args_ok {V} (p : aparams) (ops : list (aop V)) : Prop :=
  forall o, In o ops -> match o with
    | OWithCapacity n _ | OReserve _ n _ | OResize _ n _ _ _ => n <= umax p
    | _ => True end.

(** Programs that never clone a vector. *)
Definition no_clone {V} (ops : list (aop V)) : Prop := forall i ok, ~ In (OClone i ok) ops.

(** The vectors of the program show these contents when read. *)
Definition shows {V} (w : aworld V) (s : plain V) : Prop :=
  length (w_vecs w) = length s /\
  forall i, match nth_error (w_vecs w) i, nth_error s i with
    | Some (Some v), Some (Some l) =>
        a_len v = length l /\
        forall j, j < length l -> exists t, cell_read (w_mem w) (a_ptr v) j = option_map (fun x => (t, x)) (nth_error l j)
    | Some None, Some None => True
    | None, None => True
    | _, _ => False
    end.

(** The block a vector owns. *)
Definition vblock (v : avec) : option nat := if a_cap v =? 0 then None else a_ptr v.

(** Every vector has its own live block with the layout of its capacity, and every
    live block belongs to a vector. *)
Definition blocks_ok {V} (p : aparams) (w : aworld V) : Prop :=
  (forall i v, nth_error (w_vecs w) i = Some (Some v) -> a_len v <= a_cap v /\
     (a_cap v <> 0 -> exists b blk, a_ptr v = Some b /\ nth_error (m_heap (w_mem w)) b = Some blk /\
        b_live blk = true /\ b_size blk = a_cap v * esize p /\ b_align blk = align p /\ length (b_cells blk) = a_cap v)) /\
  (forall i j vi vj b, nth_error (w_vecs w) i = Some (Some vi) -> nth_error (w_vecs w) j = Some (Some vj) ->
     vblock vi = Some b -> vblock vj = Some b -> i = j) /\
  (forall b blk, nth_error (m_heap (w_mem w)) b = Some blk -> b_live blk = true ->
     exists i v, nth_error (w_vecs w) i = Some (Some v) /\ vblock v = Some b).

(** Identities of the elements in the vectors. *)
Definition inside {V} (w : aworld V) : list nat :=
  concat (map (fun o => match o with
    | Some v => concat (map (fun j => match cell_read (w_mem w) (a_ptr v) j with Some e => [fst e] | None => [] end) (seq 0 (a_len v)))
    | None => [] end) (w_vecs w)).

(** Every element ever made is in exactly one place: dropped, with the program, or
    in a vector. *)
Definition elements_ok {V} (w : aworld V) : Prop :=
  Permutation (m_dropped (w_mem w) ++ map fst (w_held w) ++ inside w) (seq 0 (m_next (w_mem w))).
