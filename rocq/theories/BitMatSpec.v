(** Specification vocabulary for bit matrices (C38, C39). *)
From Coq Require Import List Bool Arith NArith.
Require Import Verif.BitMatModel.
Import ListNotations.
Open Scope nat_scope.

(** Bit [j] of a list of bytes. *)
Definition byte_bit (bs : list N) (j : nat) : bool := N.testbit (nth (j / 8) bs 0%N) (N.of_nat (j mod 8)).

(** Entry of a matrix stored row by row. *)
Definition entry (m : bitmat) (r c : nat) : bool := nth (r * bm_cols m + c) (bm_data m) false.

(** The storage has exactly one bit per entry (what all constructors check). *)
Definition exact (m : bitmat) : Prop := length (bm_data m) = bm_rows m * bm_cols m.
(** The storage has a bit for every entry (results of a multiplication). *)
Definition covers (m : bitmat) : Prop := bm_rows m * bm_cols m <= length (bm_data m).

(** XOR over [k < n]. *)
Fixpoint xor_sum (n : nat) (f : nat -> bool) : bool :=
  match n with 0 => false | S n => xorb (xor_sum n f) (f n) end.
