(** Specification vocabulary for inlining: values of the gates of a circuit
    graph for an arbitrary gate semantics. *)
From Coq Require Import List Bool Arith.
Require Import Verif.Prelude Verif.GateModel Verif.CircuitModel Verif.CircuitSpec.
Import ListNotations.

(** Gates whose value is given from outside. *)
Definition source_gate {P G} (ops : gate_ops P G) (x : G) : bool :=
  is_input_gate ops x || is_scin_gate ops x.

(** [v] gives every gate that is not a source the value that [sem] computes from
    the values of its parents. *)
Definition valued {P G V} (ops : gate_ops P G) (sem : G -> list V -> option V)
  (c : circuit G) (v : nat -> V) : Prop :=
  forall g x, nth_error (c_gates c) g = Some x -> source_gate ops x = false ->
  sem x (map v (parents c g)) = Some (v g).

(** Circuits that can be called: inputs are [SubCircuitInput] gates only. *)
Definition callable {P G} (ops : gate_ops P G) (sub : circuit G) : Prop :=
  sub_ok ops sub /\ c_is_main sub = false /\
  (forall g x, nth_error (c_gates sub) g = Some x ->
     match g_base ops x with
     | Some GInput | Some GConnectToMain | Some (GConnectToMainFromSimd _) => False
     | _ => True
     end).

(** The semantics passes sub-circuit outputs and identities through, and
    wrapping is the inverse of [as_base_gate] on identities. *)
Definition passes_through {P G V} (ops : gate_ops P G) (sem : G -> list V -> option V) : Prop :=
  g_base ops (g_wrap ops GIdentity) = Some GIdentity /\
  (forall v, sem (g_wrap ops GIdentity) [v] = Some v) /\
  (forall x l, g_base ops x = Some GScOutput -> sem x l = sem (g_wrap ops GIdentity) l).

(** The semantics of every gate of the circuit does not depend on the direction
    in which its operands are listed. *)
Definition reversible {G V} (sem : G -> list V -> option V) (sub : circuit G) : Prop :=
  forall g x, nth_error (c_gates sub) g = Some x ->
  forall l, length l = length (parents sub g) -> sem x (rev l) = sem x l.
