(** Model of crates/seec/src/protocols/boolean_gmw.rs and of the triple storage
    in crates/seec/src/mul_triple/boolean/mod.rs.  [W] is the number of bits of
    [usize]. *)
From Coq Require Import List Bool Arith.
Require Import Verif.Prelude Verif.BitVecModel Verif.GateModel Verif.ProtocolModel Verif.CircuitModel.
Import ListNotations.

(** boolean_gmw.rs 33-39 [BooleanGate]. *)
Inductive bool_gate := BBase (b : base_gate bool) | BAnd | BXor | BInv.

(** boolean_gmw.rs 278-280 [is_interactive]. *)
Definition bool_is_interactive (g : bool_gate) : bool :=
  match g with BAnd => true | _ => false end.

(** boolean_gmw.rs 282-288 [input_size]; crates/seec/src/gate/base.rs: 1. *)
Definition bool_input_size (g : bool_gate) : nat :=
  match g with BBase _ => 1 | BInv => 1 | BAnd => 2 | BXor => 2 end.

(** boolean_gmw.rs 290-295 [as_base_gate]. *)
Definition bool_as_base (g : bool_gate) : option (base_gate bool) :=
  match g with BBase b => Some b | _ => None end.

(** boolean_gmw.rs 269-300 [impl Gate<bool> for BooleanGate]: the part used by
    the circuit code. *)
Definition bool_ops : gate_ops bool bool_gate :=
  GateOps bool bool_gate bool_is_interactive bool_as_base BBase.

(** boolean_gmw.rs 57-63 [share_constant]. *)
Definition bool_share_constant (party : nat) (_output : bool) (val : bool) : bool :=
  match party with 0 => val | _ => false end.

(** boolean_gmw.rs 65-86 [evaluate_non_interactive]. *)
Definition bool_eval_ni (party : nat) (g : bool_gate) (inputs : list bool) : option bool :=
  match g with
  | BBase b => default_evaluate b inputs
  | BAnd => None
  | BXor => match inputs with x :: y :: _ => Some (xorb x y) | _ => None end
  | BInv => match inputs with
            | x :: _ => Some (match party with 0 => negb x | _ => x end)
            | [] => None
            end
  end.

(** [BitVec::clone]: [to_bitvec] of the whole vector. Used at protocols/boolean_gmw.rs 100,
    103, 248. *)
Definition bv_clone (W : nat) (v : bitvec) : bitvec := bv_copy W (bv_head v) (bv_bits v).

(** boolean_gmw.rs 88-111 [evaluate_non_interactive_simd]. *)
Definition bool_eval_ni_simd (W party : nat) (g : bool_gate) (inputs : list bitvec)
  : option bitvec :=
  match g with
  | BBase b => default_evaluate_simd (bv_clone W) b inputs
  | BAnd => None
  | BXor => match inputs with
            | x :: y :: _ => Some (fast_bit_xor (bv_clone W x) y)
            | _ => None
            end
  | BInv => match inputs with
            | x :: _ => Some (match party with
                              | 0 => bv_not (bv_clone W x)
                              | _ => bv_clone W x
                              end)
            | [] => None
            end
  end.

(** mul_triple/boolean/mod.rs 26-31 [MulTriples]. *)
Record mul_triples := MTS { ts_a : bitvec; ts_b : bitvec; ts_c : bitvec }.

(** mul_triple/boolean/mod.rs 78-82 [from_raw]. *)
Definition mts_from_raw (a b c : bitvec) : option mul_triples :=
  if (bv_len a =? bv_len b) && (bv_len b =? bv_len c) then Some (MTS a b c) else None.

(** mul_triple/boolean/mod.rs 85-87 [len]. *)
Definition mts_len (t : mul_triples) : nat := bv_len (ts_a t).

(** mul_triple/boolean/mod.rs 140-147 [MulTriplesSlice::iter] (zip of the three
    component iterators) and 95-97. *)
Definition mts_iter (t : mul_triples) : list triple :=
  zip_with (fun ab c => MT (fst ab) (snd ab) c)
           (zip_with pair (bv_bits (ts_a t)) (bv_bits (ts_b t))) (bv_bits (ts_c t)).

(** mul_triple/boolean/mod.rs 221-227 [split_off_last]; [len - count] panics on
    underflow (or makes [split_off] panic in release mode).  Returns (self,
    returned value). *)
Definition mts_split_off_last (W : nat) (t : mul_triples) (count : nat)
  : option (mul_triples * mul_triples) :=
  if count <=? mts_len t then
    let at_ := mts_len t - count in
    '(a1, a2) <- bv_split_off W (ts_a t) at_ ;;
    '(b1, b2) <- bv_split_off W (ts_b t) at_ ;;
    '(c1, c2) <- bv_split_off W (ts_c t) at_ ;;
    Some (MTS a1 b1 c1, MTS a2 b2 c2)
  else None.

(** mul_triple/boolean/mod.rs 240-242 [remove_first]. *)
Definition mts_remove_first := mts_split_off_last.

(** mul_triple/boolean/mod.rs 229-233 [append], 131-135 [extend_from_mts]. *)
Definition mts_append (W : nat) (t o : mul_triples) : mul_triples :=
  MTS (bv_extend W (ts_a t) (bv_bits (ts_a o)))
      (bv_extend W (ts_b t) (bv_bits (ts_b o)))
      (bv_extend W (ts_c t) (bv_bits (ts_c o))).

(** boolean_gmw.rs 18-25 [Msg::AndLayer]; [e], [d] are words. *)
Record bmsg := BMsg { bm_size : nat; bm_e : list bool; bm_d : list bool }.

(** boolean_gmw.rs 27-31 [SimdMsg]. *)
Record bsimdmsg := BSimdMsg { bs_data : bmsg; bs_sizes : list nat }.

(** boolean_gmw.rs 122-135: the zipped map of [compute_msg]; result (d, e). *)
Fixpoint bool_msg_loop (gates : list bool_gate) (mts : list triple) (inputs : list bool)
  : option (list bool * list bool) :=
  match gates, mts with
  | g :: gs, mt :: ms =>
      match g with
      | BAnd =>
          match inputs with
          | x :: y :: rest =>
              let '(d, e) := and_compute_shares x y mt in
              '(ds, es) <- bool_msg_loop gs ms rest ;;
              Some (d :: ds, e :: es)
          | _ => None
          end
      | _ => None
      end
  | _, _ => Some ([], [])
  end.

(** boolean_gmw.rs 113-141 [compute_msg]. *)
Definition bool_compute_msg (W _party : nat) (gates : list bool_gate)
  (_outputs inputs : list bool) (mts : mul_triples) : option (bmsg * mul_triples) :=
  '(d, e) <- bool_msg_loop gates (rev (mts_iter mts)) inputs ;;
  Some (BMsg (length e) (bv_into_vec (bv_of_bits W e)) (bv_into_vec (bv_of_bits W d)), mts).

(** boolean_gmw.rs 154-161: the chunks loop; result (sizes, d, e).  An odd number
    of inputs panics at 156.  The unequal size check (158) is a debug assertion
    and kept as a panic. *)
Fixpoint bool_simd_chunks (inputs : list bitvec)
  : option (list nat * list bool * list bool) :=
  match inputs with
  | [] => Some ([], [], [])
  | x :: y :: rest =>
      _ <- oassert (bv_len x =? bv_len y) ;;
      '(sizes, d, e) <- bool_simd_chunks rest ;;
      Some (bv_len x :: sizes, bv_bits y ++ d, bv_bits x ++ e)
  | _ => None
  end.

(** boolean_gmw.rs 143-175 [compute_msg_simd]. *)
Definition bool_compute_msg_simd (W _party : nat) (_gates : list bool_gate)
  (_outputs inputs : list bitvec) (mts : mul_triples)
  : option (bsimdmsg * mul_triples) :=
  '(sizes, dl, el) <- bool_simd_chunks inputs ;;
  let d := bv_of_bits W dl in
  let e := bv_of_bits W el in
  _ <- oassert (bv_len d <=? mts_len mts) ;;
  let from := mts_len mts - bv_len d in
  let d := fast_bit_xor d (bv_slice_from W (ts_a mts) from) in
  let e := fast_bit_xor e (bv_slice_from W (ts_b mts) from) in
  Some (BSimdMsg (BMsg 0 (bv_into_vec e) (bv_into_vec d)) sizes, mts).

(** boolean_gmw.rs 197-207: the zipped map of [evaluate_interactive]. *)
Fixpoint bool_eval_loop (party : nat) (d e rd re : list bool) (mts : list triple)
  : list bool :=
  match d, e, rd, re, mts with
  | d :: ds, e :: es, rd :: rds, re :: res, mt :: ms =>
      and_evaluate d rd e re mt party :: bool_eval_loop party ds es rds res ms
  | _, _, _, _, _ => []
  end.

(** boolean_gmw.rs 177-208 [evaluate_interactive]. *)
Definition bool_eval_int (W party : nat) (_gates : list bool_gate) (_outputs : list bool)
  (own other : bmsg) (mts : mul_triples) : option (list bool * mul_triples) :=
  _ <- oassert (bm_size own =? bm_size other) ;;
  '(rest, used) <- mts_split_off_last W mts (bm_size own) ;;
  Some (bool_eval_loop party (bv_bits (bv_from_vec (bm_d own))) (bv_bits (bv_from_vec (bm_e own)))
          (bv_bits (bv_from_vec (bm_d other))) (bv_bits (bv_from_vec (bm_e other)))
          (rev (mts_iter used)), rest).

(** boolean_gmw.rs 256-264: cut the result vector into one vector per gate;
    slicing panics when out of range.  [off] is how much was cut already. *)
Fixpoint bool_cut (W : nat) (res : bitvec) (off : nat) (sizes : list nat)
  : option (list bitvec) :=
  match sizes with
  | [] => Some []
  | n :: ns =>
      _ <- oassert (off + n <=? bv_len res) ;;
      rest <- bool_cut W res (off + n) ns ;;
      Some (bv_slice_range W res off n :: rest)
  end.

(** Equality of the vectors [simd_sizes] (boolean_gmw.rs 238-241). *)
Fixpoint list_nat_eqb (a b : list nat) : bool :=
  match a, b with
  | [], [] => true
  | x :: a', y :: b' => (x =? y) && list_nat_eqb a' b'
  | _, _ => false
  end.

(** boolean_gmw.rs 210-265 [evaluate_interactive_simd]. *)
Definition bool_eval_int_simd (W party : nat) (_gates : list bool_gate)
  (_outputs : list bitvec) (own other : bsimdmsg) (mts : mul_triples)
  : option (list bitvec * mul_triples) :=
  let own_d := bv_from_vec (bm_d (bs_data own)) in
  let own_e := bv_from_vec (bm_e (bs_data own)) in
  let resp_d := bv_from_vec (bm_d (bs_data other)) in
  let resp_e := bv_from_vec (bm_e (bs_data other)) in
  _ <- oassert (bm_size (bs_data own) =? bm_size (bs_data other)) ;;
  _ <- oassert (list_nat_eqb (bs_sizes own) (bs_sizes other)) ;;
  let total := sum_list (bs_sizes own) in
  '(rest, used) <- mts_split_off_last W mts total ;;
  let d := fast_bit_xor own_d resp_d in
  let e := fast_bit_xor own_e resp_e in
  let res := match party with
             | 0 => fast_bit_and (bv_clone W d) e
             | _ => bv_of_bits W (repeat false total)
             end in
  let res := fast_bit_xor res (fast_bit_and d (ts_b used)) in
  let res := fast_bit_xor res (fast_bit_and e (ts_a used)) in
  let res := fast_bit_xor res (ts_c used) in
  outs <- bool_cut W res 0 (bs_sizes own) ;;
  Some (outs, rest).

(** protocols/mod.rs 57-66 [share_constant_simd] (default, not overridden by
    BooleanGmw) with [BitVec::repeat]. *)
Definition bool_share_constant_simd (W party : nat) (_output : bitvec) (val : bool)
  (n : nat) : bitvec :=
  bv_of_bits W (repeat (bool_share_constant party false val) n).

(** [impl Protocol for BooleanGmw], boolean_gmw.rs 46-266. *)
Definition bool_gmw (W : nat) : protocol := {|
  p_plain := bool; p_share := bool; p_simd := bitvec; p_gate := bool_gate;
  p_msg := bmsg; p_simdmsg := bsimdmsg; p_setup := mul_triples;
  p_simd_support := true;
  p_simd_get := fun v i => nth_error (bv_bits v) i;
  p_simd_collect := bv_of_bits W;
  p_default_share := false;
  p_default_simd := BV 0 0 [];
  p_is_interactive := bool_is_interactive;
  p_input_size := bool_input_size;
  p_as_base := bool_as_base;
  p_share_constant := bool_share_constant;
  p_share_constant_simd := bool_share_constant_simd W;
  p_eval_ni := bool_eval_ni;
  p_eval_ni_simd := bool_eval_ni_simd W;
  p_compute_msg := bool_compute_msg W;
  p_compute_msg_simd := bool_compute_msg_simd W;
  p_eval_int := bool_eval_int W;
  p_eval_int_simd := bool_eval_int_simd W
|}.

(** boolean_gmw.rs 328-332 [XorSharing::share]; the generator is [fill]. *)
Definition xor_share {S} (fill : S -> nat -> list bool * S) (W : nat) (s : S)
  (input : bitvec) : bitvec * bitvec * S :=
  let '(rand, s') := rand_bitvec fill W (bv_len input) s in
  (rand, bv_xor W input rand, s').

(** boolean_gmw.rs 334-337 [XorSharing::reconstruct]. *)
Definition xor_reconstruct (W : nat) (a b : bitvec) : bitvec := bv_xor W a b.

(** mul_triple/boolean/mod.rs 174-176 [compute_c] (178-180 [compute_c_owned] is
    the same on owned values). *)
Definition mts_compute_c (W : nat) (mts : mul_triples) (a b : bitvec) : bitvec :=
  bv_xor W (bv_and W (bv_xor W a (ts_a mts)) (bv_xor W b (ts_b mts))) (ts_c mts).

(** mul_triple/boolean/mod.rs 54-60 [random_pair]; [rand_bitvecs] draws in the
    order a1, a2, b1, b2, c1 (utils.rs 75-81). *)
Definition mts_random_pair {S} (fill : S -> nat -> list bool * S) (W size : nat) (s : S)
  : option (mul_triples * mul_triples * S) :=
  let '(a1, s) := rand_bitvec fill W size s in
  let '(a2, s) := rand_bitvec fill W size s in
  let '(b1, s) := rand_bitvec fill W size s in
  let '(b2, s) := rand_bitvec fill W size s in
  let '(c1, s) := rand_bitvec fill W size s in
  m1 <- mts_from_raw a1 b1 c1 ;;
  let c2 := mts_compute_c W m1 a2 b2 in
  m2 <- mts_from_raw a2 b2 c2 ;;
  Some (m1, m2, s).

(** mul_triple/boolean/mod.rs 63-66 [random]. *)
Definition mts_random {S} (fill : S -> nat -> list bool * S) (W size : nat) (s : S)
  : option (mul_triples * S) :=
  let '(a, s) := rand_bitvec fill W size s in
  let '(b, s) := rand_bitvec fill W size s in
  let '(c, s) := rand_bitvec fill W size s in
  m <- mts_from_raw a b c ;; Some (m, s).

(** mul_triple/boolean/mod.rs 69-72 [random_with_fixed_c]. *)
Definition mts_random_with_fixed_c {S} (fill : S -> nat -> list bool * S) (W : nat)
  (c : bitvec) (s : S) : option (mul_triples * S) :=
  let '(a, s) := rand_bitvec fill W (bv_len c) s in
  let '(b, s) := rand_bitvec fill W (bv_len c) s in
  m <- mts_from_raw a b c ;; Some (m, s).

(** crates/seec/src/executor.rs 353-457: one interactive layer of both parties
    over the same setup storage: scalar message, SIMD message, scalar
    evaluation, SIMD evaluation.  [in_p] and [sin_p] are the scalar and SIMD
    operands of party [p].  Result: outputs and remaining storages. *)
Definition bool_layer (W : nat) (ng : nat) (in0 in1 : list bool) (ns : nat)
  (sin0 sin1 : list bitvec) (T0 T1 : mul_triples)
  : option ((list bool * list bool) * (list bitvec * list bitvec) * (mul_triples * mul_triples)) :=
  let gs := repeat BAnd ng in
  let ss := repeat BAnd ns in
  '(m0, T0) <- bool_compute_msg W 0 gs [] in0 T0 ;;
  '(s0, T0) <- bool_compute_msg_simd W 0 ss [] sin0 T0 ;;
  '(m1, T1) <- bool_compute_msg W 1 gs [] in1 T1 ;;
  '(s1, T1) <- bool_compute_msg_simd W 1 ss [] sin1 T1 ;;
  '(o0, T0) <- bool_eval_int W 0 gs [] m0 m1 T0 ;;
  '(p0, T0) <- bool_eval_int_simd W 0 ss [] s0 s1 T0 ;;
  '(o1, T1) <- bool_eval_int W 1 gs [] m1 m0 T1 ;;
  '(p1, T1) <- bool_eval_int_simd W 1 ss [] s1 s0 T1 ;;
  Some ((o0, o1), (p0, p1), (T0, T1)).
