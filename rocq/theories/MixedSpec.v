(** Specification vocabulary for the mixed protocol: bits of numbers, and the
    values of the gates of a mixed circuit. *)
From Coq Require Import List Bool Arith ZArith.
Require Import Verif.Prelude Verif.GateModel Verif.CircuitModel Verif.BoolGmwModel Verif.ArithGmwModel
  Verif.MixedModel.
Import ListNotations.
Open Scope nat_scope.

(** The [n] low bits of a number, least significant first. *)
Definition bits_of (n : nat) (x : Z) : list bool := map (fun i => Z.testbit x (Z.of_nat i)) (seq 0 n).

(** The number denoted by a list of bits, least significant first. *)
Definition bits_value (l : list bool) : Z :=
  fold_right (fun (b : bool) r => (2 * r + (if b then 1 else 0))%Z) 0%Z l.

(** Plaintext meaning of the boolean and pass-through gates. *)
Definition plain_sem (g : mixed_gate) (ins : list bool) : option bool :=
  match g, ins with
  | MGBool BAnd, [x; y] => Some (andb x y)
  | MGBool BXor, [x; y] => Some (xorb x y)
  | MGBool BInv, [x] => Some (negb x)
  | MGBase (GIdentity | GScOutput | GScInput | GOutput), [x] => Some x
  | _, _ => None
  end.

(** [v] gives every gate of [c'] beyond those of [c] its plaintext value. *)
Definition new_valued (c c' : circuit mixed_gate) (v : nat -> bool) : Prop :=
  forall g x, c_count c <= g -> nth_error (c_gates c') g = Some x ->
  plain_sem x (map v (parents c' g)) = Some (v g).
