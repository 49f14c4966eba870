(** Plaintext meaning of a single boolean circuit, stated on the circuit graph
    only; independent of layers and of the executor. *)
From Coq Require Import List Bool Arith.
Require Import Verif.Prelude Verif.GateModel Verif.CircuitModel Verif.BoolGmwModel Verif.BoolGmwSpec.
Import ListNotations.

(** Number of lanes; 1 for a scalar circuit. *)
Definition c_lanes {G} (c : circuit G) : nat :=
  match c_simd c with Some n => n | None => 1 end.

(** [v] assigns to every gate its value, one bit per lane, when the input gates
    carry [ins]. *)
Definition plain_value (c : circuit bool_gate) (ins : list (list bool)) (v : nat -> list bool)
  : Prop :=
  forall g gate, nth_error (c_gates c) g = Some gate ->
  length (v g) = c_lanes c /\
  match gate with
  | BBase GInput => exists i, nth_error (c_inputs c) i = Some g /\ nth_error ins i = Some (v g)
  | _ => forall i, i < c_lanes c ->
      bool_gate_sem gate (map (fun p => nth i (v p) false) (parents c g)) = Some (nth i (v g) false)
  end.

(** Every gate has the number of operands its kind needs. *)
Definition operands_ok (c : circuit bool_gate) : Prop :=
  forall g gate, nth_error (c_gates c) g = Some gate ->
  match gate with
  | BBase GInput | BBase (GConstant _) => True
  | BBase (GConnectToMainFromSimd _) => False
  | BAnd | BXor => length (parents c g) = 2
  | _ => length (parents c g) = 1
  end.

(** Scalar circuit, or SIMD circuit with a positive whole number of words of [W]
    bits per share and output gates that are not operands of other gates. *)
Definition simd_ok (W : nat) (c : circuit bool_gate) : Prop :=
  match c_simd c with
  | None => True
  | Some n => n <> 0 /\ n mod W = 0 /\ (forall o, In o (c_outputs c) -> children c o = [])
  end.
