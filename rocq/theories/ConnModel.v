(** Model of crates/seec/src/circuit/circuit_connections.rs and of the connecting
    functions of crates/seec/src/circuit/builder.rs.  No proofs here.

    Hash maps are association lists; B-tree maps are association lists sorted by
    key.  Gate ids are unbounded naturals; [imax] stands for the largest index
    [Idx::max()]. *)
From Coq Require Import List Bool Arith.
Require Import Verif.Prelude Verif.GateModel Verif.CircuitModel Verif.ExecModel.
Import ListNotations.

(** builder.rs 49-53: the derived order on [SubCircuitGate] is lexicographic. *)
Definition gid_ltb (a b : gid) : bool :=
  (fst a <? fst b) || ((fst a =? fst b) && (snd a <? snd b)).
(** builder.rs 49-53: [<=] of the derived order. *)
Definition gid_leb (a b : gid) : bool := gid_ltb a b || gid_eqb a b.

(** builder.rs 74-79 [successor]. *)
Definition gid_succ (a : gid) : gid := (fst a, S (snd a)).

(** [RangeInclusive<SubCircuitGate>]: first and last element. Keys and values of
    circuit_connections.rs 38-45. *)
Definition grange : Type := gid * gid.

(** utils.rs 31-73 [RangeInclusiveStartWrapper]: ordered by start, then by end. *)
Definition rk_eqb (a b : grange) : bool := gid_eqb (fst a) (fst b) && gid_eqb (snd a) (snd b).
(** utils.rs 52-73: [<=] of the order of the wrapper. *)
Definition rk_leb (a b : grange) : bool :=
  gid_ltb (fst a) (fst b) || (gid_eqb (fst a) (fst b) && gid_leb (snd a) (snd b)).

(** circuit_connections.rs 21-22: the one-to-one map. *)
Definition o2o := list (gid * list gid).

(** [get(&id)] with an absent entry read as empty, as in circuit_connections.rs 80-103. *)
Fixpoint o2o_get (m : o2o) (k : gid) : list gid :=
  match m with
  | [] => []
  | (k', l) :: r => if gid_eqb k k' then l else o2o_get r k
  end.

(** [entry(k).or_default().push(v)]. builder.rs 271-282, 326-336. *)
Fixpoint o2o_push (m : o2o) (k v : gid) : o2o :=
  match m with
  | [] => [(k, [v])]
  | (k', l) :: r => if gid_eqb k k' then (k', l ++ [v]) :: r else (k', l) :: o2o_push r k v
  end.

(** circuit_connections.rs 38-45: per circuit a B-tree from ranges to ranges. *)
Definition btree := list (grange * list grange).
(** circuit_connections.rs 44: the map from circuit ids. *)
Definition rmap := list (nat * btree).

(** [entry(k).or_default().push(v)] on a B-tree. circuit_connections.rs 182. *)
Fixpoint bt_push (t : btree) (k v : grange) : btree :=
  match t with
  | [] => [(k, [v])]
  | (k', l) :: r =>
      if rk_eqb k k' then (k', l ++ [v]) :: r
      else if rk_leb k k' then (k, [v]) :: t
      else (k', l) :: bt_push r k v
  end.

(** [range(..=k)] of a B-tree, ascending. circuit_connections.rs 203. *)
Definition bt_upto (t : btree) (k : grange) : btree := filter (fun e => rk_leb (fst e) k) t.

(** [HashMap::get] on the map of circuit_connections.rs 44. *)
Fixpoint rm_get (m : rmap) (c : nat) : option btree :=
  match m with
  | [] => None
  | (c', t) :: r => if c =? c' then Some t else rm_get r c
  end.

(** [entry(k).or_default()] and assignment, circuit_connections.rs 166. *)
Fixpoint rm_set (m : rmap) (c : nat) (t : btree) : rmap :=
  match m with
  | [] => [(c, t)]
  | (c', t') :: r => if c =? c' then (c', t) :: r else (c', t') :: rm_set r c t
  end.

(** circuit_connections.rs 151-183 [insert]; both assertions are [None]. *)
Definition rc_insert (m : rmap) (from to : grange) : option rmap :=
  _ <- oassert (gid_leb (fst from) (snd from)) ;;
  let c := fst (fst from) in
  let bm := match rm_get m c with Some t => t | None => [] end in
  _ <- match rev (bt_upto bm from) with
       | (pc, _) :: _ =>
           oassert (negb (gid_ltb (fst pc) (fst from) && gid_leb (snd from) (snd pc)))
       | [] => Some tt
       end ;;
  Some (rm_set m c (bt_push bm from to)).

(** [Iterator::take_while] of circuit_connections.rs 205. *)
Fixpoint take_while {A} (f : A -> bool) (l : list A) : list A :=
  match l with x :: r => if f x then x :: take_while f r else [] | [] => [] end.

(** circuit_connections.rs 185-212 [get_mapped_ranges]. *)
Definition rc_mapped (imax : nat) (m : rmap) (g : gid) : btree :=
  match rm_get m (fst g) with
  | None => []
  | Some bm =>
      take_while (fun e => gid_leb (fst (fst e)) g && gid_leb g (snd (fst e)))
                 (rev (bt_upto bm (g, (fst g, imax))))
  end.

(** circuit_connections.rs 109-126 and 130-147: the same computation for parents
    and outgoing gates.  The [unreachable!] test repeats the [take_while] test;
    the offset does not underflow because start and gate are in the same
    circuit. *)
Definition rc_gates (imax : nat) (m : rmap) (g : gid) : list gid :=
  flat_map (fun e => map (fun to => (fst (fst to), snd (fst to) + (snd g - snd (fst (fst e)))))
                         (snd e))
           (rc_mapped imax m g).

(** circuit_connections.rs 14-36 [CrossCircuitConnections]. *)
Record conns := CN { cn_oout : o2o; cn_oin : o2o; cn_rout : rmap; cn_rin : rmap }.
(** circuit_connections.rs 14-36: the derived [Default]. *)
Definition cn_empty : conns := CN [] [] [] [].

(** circuit_connections.rs 48-64 [parent_gates], [outgoing_gates]. *)
Definition cn_parents (imax : nat) (cn : conns) (g : gid) : list gid :=
  o2o_get (cn_oin cn) g ++ rc_gates imax (cn_rin cn) g.
(** circuit_connections.rs 57-64 [outgoing_gates]. *)
Definition cn_outgoing (imax : nat) (cn : conns) (g : gid) : list gid :=
  o2o_get (cn_oout cn) g ++ rc_gates imax (cn_rout cn) g.

(** circuit_connections.rs 66-77 [clone_incoming]. *)
Definition cn_clone_incoming (cn : conns) : conns := CN [] (cn_oin cn) [] (cn_rin cn).

(** builder.rs 406-423: the keys computed by the closure of [group_gates_iter],
    one per gate; [start] is [curr_range_start]. *)
Fixpoint gg_keys (start : gid) (l : list gid) : list (gid * gid) :=
  match l with
  | [] => []
  | x :: r =>
      match r with
      | [] => [(start, x)]
      | y :: _ => (start, x) :: gg_keys (if gid_eqb (gid_succ x) y then start else y) r
      end
  end.

(** itertools [group_by]: adjacent elements with equal keys. builder.rs 411. *)
Fixpoint group_adj (l : list (gid * gid)) : list (gid * list gid) :=
  match l with
  | [] => []
  | (k, x) :: r =>
      match group_adj r with
      | (k', g) :: gs => if gid_eqb k k' then (k, x :: g) :: gs else (k, [x]) :: (k', g) :: gs
      | [] => [(k, [x])]
      end
  end.

(** builder.rs 392-425 [group_gates_iter]; [None] for an empty slice. *)
Definition group_gates (l : list gid) : option (list (gid * list gid)) :=
  match l with [] => None | x :: _ => Some (group_adj (gg_keys x l)) end.

(** builder.rs 149-152: [to_are_consecutive]. *)
Fixpoint consecutive (l : list nat) : bool :=
  match l with
  | x :: (y :: _) as r => (S x =? y) && consecutive r
  | _ => true
  end.

(** Checked subtraction of gate indices. builder.rs 184-185; underflow panics. *)
Definition csub (a b : nat) : option nat := if b <=? a then Some (a - b) else None.

(** builder.rs 165-196: the loop over the groups; [ic] is [inputs_connected].
    [last] of an empty group does not occur.  Slicing out of range and the
    [assert_eq] panic. *)
Fixpoint connect_ranges (gs : list (gid * list gid)) (to_c : nat) (to_ids : list nat) (ic : nat)
  (cn : conns) : option conns :=
  match gs with
  | [] => Some cn
  | (first, grp) :: r =>
      lst <- nth_error grp (length grp - 1) ;;
      let count := length grp in
      _ <- oassert (ic + count <=? length to_ids) ;;
      t0 <- nth_error to_ids ic ;;
      t1 <- nth_error to_ids (ic + count - 1) ;;
      let fr := (first, lst) in
      let tr := ((to_c, t0), (to_c, t1)) in
      d1 <- csub (snd lst) (snd first) ;;
      d2 <- csub t1 t0 ;;
      _ <- oassert (d1 =? d2) ;;
      ro <- rc_insert (cn_rout cn) fr tr ;;
      ri <- rc_insert (cn_rin cn) tr fr ;;
      connect_ranges r to_c to_ids (ic + count) (CN (cn_oout cn) (cn_oin cn) ro ri)
  end.

(** builder.rs 320-338 [connect_circuits_unchecked]. *)
Definition connect_unchecked (cn : conns) (l : list (gid * gid)) : conns :=
  fold_left (fun cn ft => CN (o2o_push (cn_oout cn) (fst ft) (snd ft))
                             (o2o_push (cn_oin cn) (snd ft) (fst ft))
                             (cn_rout cn) (cn_rin cn)) l cn.

(** builder.rs 203-215: each target gate takes as many of the inputs as its
    [input_size]. *)
Fixpoint deal_inputs (sizes : list (nat * nat)) (to_c : nat) (inputs : list gid) : list (gid * gid) :=
  match sizes with
  | [] => []
  | (t, k) :: r =>
      map (fun f => (f, (to_c, t))) (firstn k inputs) ++ deal_inputs r to_c (skipn k inputs)
  end.

(** builder.rs 132-217 [connect_sub_circuit_gates].  [isz] is [input_size] of a
    gate; looking up a gate that does not exist panics. *)
Definition connect_sc_gates {G} (isz : G -> nat) (cn : conns) (from : list gid) (to_circ : circuit G)
  (to_c : nat) (to_ids : list nat) : option conns :=
  match group_gates from with
  | None => Some cn
  | Some groups =>
      if consecutive to_ids && negb (match to_ids with [] => true | _ => false end) then
        connect_ranges groups to_c to_ids 0 cn
      else
        sizes <- omap (fun t => g <- nth_error (c_gates to_circ) t ;; Some (t, isz g)) to_ids ;;
        Some (connect_unchecked cn (deal_inputs sizes to_c from))
  end.
