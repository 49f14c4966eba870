(** Model of the sharing of test inputs and of the execution helpers of
    crates/seec/src/private_test_utils.rs, for boolean GMW.  No proofs here. *)
From Coq Require Import List Bool Arith NArith.
Require Import Verif.Prelude Verif.BitVecModel Verif.GateModel Verif.CircuitModel Verif.ProtocolModel Verif.BoolGmwModel Verif.InlineModel
  Verif.ExecModel Verif.BenchModel.
Import ListNotations.

(** private_test_utils.rs 116-118, 125-194: the types with [IntoShares] for XOR sharing,
    bool and the unsigned integers; [w] is the number of bits of the type. *)
Inductive titem := TBool (b : bool) | TUint (w : nat) (v : N).

(** private_test_utils.rs 131-132: [store] of an integer of [w] bits, least significant
    bit first (a little-endian target is assumed). *)
Fixpoint store_bits (w : nat) (v : N) : list bool :=
  match w with
  | 0 => []
  | S w' => N.odd v :: store_bits w' (N.div2 v)
  end.

(** private_test_utils.rs 120-122, 212-287: the types with [IntoInput]: one value, tuples
    of one to three values, vectors, and shares. *)
Inductive tinput :=
| TOne (x : titem)
| TTup1 (x : titem)
| TTup2 (x y : titem)
| TTup3 (x y z : titem)
| TVec (l : list titem)
| TShares (a b : bitvec).

Section TestUtil.
Context {S : Type}.
Variables (fill : S -> nat -> list bool * S) (W : nat).

(** private_test_utils.rs 130-135 and 187-194 [into_shares]; [fill] is [thread_rng]. *)
Definition into_shares (s : S) (x : titem) : bitvec * bitvec * S :=
  match x with
  | TBool b => (bv_of_bits W [false], bv_of_bits W [b], s)
  | TUint w v => xor_share fill W s (bv_of_bits W (store_bits w v))
  end.

(** private_test_utils.rs 269-279: the fold over a vector. *)
Fixpoint vec_input (s : S) (p1 p2 : bitvec) (l : list titem) : bitvec * bitvec * S :=
  match l with
  | [] => (p1, p2, s)
  | x :: l =>
      let '(s1, s2, s) := into_shares s x in
      vec_input s (bv_extend W p1 (bv_bits s1)) (bv_extend W p2 (bv_bits s2)) l
  end.

(** private_test_utils.rs 212-287 [into_input]. *)
Definition into_input (s : S) (i : tinput) : bitvec * bitvec * S :=
  match i with
  | TOne x => into_shares s x
  | TTup1 x => into_shares s x
  | TTup2 x y =>
      let '(p1, p2, s) := into_shares s x in
      let '(a, b, s) := into_shares s y in
      (bv_extend W p1 (bv_bits a), bv_extend W p2 (bv_bits b), s)
  | TTup3 x y z =>
      let '(p1, p2, s) := into_shares s x in
      let '(a, b, s) := into_shares s y in
      let '(c, d, s) := into_shares s z in
      (bv_extend W (bv_extend W p1 (bv_bits a)) (bv_bits c), bv_extend W (bv_extend W p2 (bv_bits b)) (bv_bits d), s)
  | TVec l => vec_input s (bv_of_bits W []) (bv_of_bits W []) l
  | TShares a b => (a, b, s)
  end.

(** private_test_utils.rs 310-358 [execute_circuit] with [BooleanGmw], whose insecure
    setup is the provider, with generator [pfill] seeded with [s42].  The two kinds of channel are not
    distinguished: messages arrive. *)
Definition execute_circuit {Sp} (pfill : Sp -> nat -> list bool * Sp) (s42 : Sp) (s : S) (ec : ecirc bool_gate) (i : tinput) : option bitvec :=
  let '(a, b, _) := into_input s i in
  '(o1, o2, _) <- ex2_run (pr:=bool_gmw W) (ip_request pfill s42 W) ec (@IScalar (bool_gmw W) (bv_bits a)) (@IScalar (bool_gmw W) (bv_bits b))
    ((go_init (pr:=bool_gmw W) ec, None), (go_init (pr:=bool_gmw W) ec, None)) ;;
  match o1, o2 with
  | IScalar l1, IScalar l2 => Some (xor_reconstruct W (bv_of_bits W l1) (bv_of_bits W l2))
  | _, _ => None
  end.

(** private_test_utils.rs 290-308 [execute_bristol] on a parsed file; errors are panics. *)
Definition execute_bristol {Sp} (pfill : Sp -> nat -> list bool * Sp) (s42 : Sp) (s : S) (f : br_circuit) (i : tinput) : option bitvec :=
  r <- from_bristol bool_ops (from_br_kind BAnd BXor BInv) f LoadCircuit ;;
  c <- r ;;
  ec <- ec_of_base bool_ops c ;;
  execute_circuit pfill s42 s ec i.
End TestUtil.
