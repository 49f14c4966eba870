(** Specification vocabulary: bits of a list of 128-bit blocks. *)
From Coq Require Import List Bool Arith NArith.
Import ListNotations.

(** Bit [j] of a list of blocks; false outside. *)
Definition bit (l : list N) (j : nat) : bool :=
  N.testbit (nth (j / 128) l 0%N) (N.of_nat (j mod 128)).

Definition blocks_ok (l : list N) : Prop := Forall (fun x => (x < 2 ^ 128)%N) l.

(** XOR of [f 0 .. f (n-1)]. *)
Fixpoint xor_upto (n : nat) (f : nat -> bool) : bool :=
  match n with 0 => false | S k => xorb (xor_upto k f) (f k) end.

(** XOR of the input bits at positions congruent to [j] modulo [p]. *)
Definition residue_xor (l : list N) (p j : nat) : bool :=
  xor_upto (length l * 128) (fun x => if x mod p =? j then bit l x else false).

(** Some chunk after the first starts at a block boundary and has more than one
    block. *)
Definition aligned_chunk (n p : nat) : Prop :=
  exists i, 1 <= i /\ (i * p) mod 128 = 0 /\ 128 < p /\ i * p + 128 < n * 128.
