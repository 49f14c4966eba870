(** Specification vocabulary for the boolean GMW properties, independent of the
    protocol functions. *)
From Coq Require Import List Bool Arith.
Require Import Verif.Prelude Verif.BitVecModel Verif.BitVecSpec Verif.GateModel Verif.BoolGmwModel.
Import ListNotations.

(** Two triple shares belong together: the shared product is right. *)
Definition triple_ok (x y : triple) : Prop :=
  xorb (mt_c x) (mt_c y) = andb (xorb (mt_a x) (mt_a y)) (xorb (mt_b x) (mt_b y)).

Definition triples_ok : list triple -> list triple -> Prop := Forall2 triple_ok.

(** Lane-wise XOR of two equally long bit lists. *)
Definition bits_xor : list bool -> list bool -> list bool := zip_with xorb.
Definition bits_and : list bool -> list bool -> list bool := zip_with andb.

(** Operand pairs [(x, y)] of a layer written as the flat input sequence. *)
Definition flat_pairs {A} (ps : list (A * A)) : list A :=
  flat_map (fun p => [fst p; snd p]) ps.

(** The AND of the shared operands, gate by gate. *)
Definition and_of_pairs (ps0 ps1 : list (bool * bool)) : list bool :=
  zip_with (fun p q => andb (xorb (fst p) (fst q)) (xorb (snd p) (snd q))) ps0 ps1.

(** The words (as bits) that carry the bits [l], filled up with zeros. *)
Definition words_of (W : nat) (l : list bool) : list bool :=
  l ++ repeat false ((W - length l mod W) mod W).

(** Plaintext meaning of a boolean gate on the values of its operands
    (constants and inputs are not determined by operands). *)
Definition bool_gate_sem (g : bool_gate) (ins : list bool) : option bool :=
  match g, ins with
  | BAnd, x :: y :: _ => Some (andb x y)
  | BXor, x :: y :: _ => Some (xorb x y)
  | BInv, x :: _ => Some (negb x)
  | BBase (GConstant c), _ => Some c
  | BBase (GConnectToMainFromSimd _), _ => None
  | BBase _, x :: _ => Some x
  | _, _ => None
  end.

(** A storage of [n] triples whose three vectors have head offset [h]. *)
Definition mts_wf (W h n : nat) (t : mul_triples) : Prop :=
  bv_wf W (ts_a t) /\ bv_wf W (ts_b t) /\ bv_wf W (ts_c t) /\
  bv_head (ts_a t) = h /\ bv_head (ts_b t) = h /\ bv_head (ts_c t) = h /\
  bv_len (ts_a t) = n /\ bv_len (ts_b t) = n /\ bv_len (ts_c t) = n.

(** Lane counts of the operand pairs of a SIMD layer. *)
Definition simd_sizes (ps : list (bitvec * bitvec)) : list nat := map (fun p => bv_len (fst p)) ps.

(** Operand pairs of one party: well formed vectors of equal lengths. *)
Definition simd_pairs_ok (W : nat) (ps : list (bitvec * bitvec)) : Prop :=
  Forall (fun p => bv_wf W (fst p) /\ bv_wf W (snd p) /\ bv_len (fst p) = bv_len (snd p)) ps.

(** Lane-wise AND of the shared operands of one SIMD gate. *)
Definition simd_and (p0 p1 : bitvec * bitvec) : list bool :=
  bits_and (bits_xor (bv_bits (fst p0)) (bv_bits (fst p1)))
           (bits_xor (bv_bits (snd p0)) (bv_bits (snd p1))).

(** The empty vector, default of [nth]. *)
Definition bv0 : bitvec := BV 0 0 [].

(** Gates evaluated locally from their operands. *)
Definition local_gate (g : bool_gate) : Prop :=
  match g with
  | BAnd | BBase (GConstant _) | BBase (GConnectToMainFromSimd _) => False
  | _ => True
  end.

(** Hiding: with the generator delivering [raw]. *)
Definition const_fill (raw : list bool) : unit -> nat -> list bool * unit := fun u _ => (raw, u).

(** Operations a user can perform on a triple storage. *)
Inductive sop := SAppend (t : mul_triples) | SSplitLast (n : nat) | SRemoveFirst (n : nat).

(** Run a history; collects what was handed out. *)
Definition sop_step (W : nat) (st : mul_triples * list mul_triples) (o : sop)
  : option (mul_triples * list mul_triples) :=
  let '(t, out) := st in
  match o with
  | SAppend u => Some (mts_append W t u, out)
  | SSplitLast n => '(r, u) <- mts_split_off_last W t n ;; Some (r, out ++ [u])
  | SRemoveFirst n => '(r, u) <- mts_remove_first W t n ;; Some (r, out ++ [u])
  end.

(** Three components of equal length in well-formed vectors. *)
Definition mts_ok (W : nat) (t : mul_triples) : Prop := exists h n, mts_wf W h n t.

Definition sop_put (o : sop) : list triple := match o with SAppend t => mts_iter t | _ => [] end.
