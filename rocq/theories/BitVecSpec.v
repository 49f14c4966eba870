(** Representation invariant of the bit vectors of [BitVecModel]. *)
From Coq Require Import List Arith.
Require Import Verif.BitVecModel.

(** The head offset is inside the first word and the buffer holds exactly the
    words touched by the live bits. *)
Definition bv_wf (W : nat) (v : bitvec) : Prop :=
  bv_head v < W /\ length (bv_raw v) = W * bv_words W (bv_head v) (bv_len v).
