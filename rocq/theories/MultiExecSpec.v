(** Meaning of a program made of several circuits: the single circuit obtained by
    putting a copy of the called circuit in the place of every call.  Independent
    of layers, connections as stored, and the executor. *)
From Coq Require Import List Bool Arith.
Require Import Verif.Prelude Verif.GateModel Verif.CircuitModel Verif.CircuitSpec Verif.BoolGmwModel
  Verif.BoolGmwSpec Verif.ExecModel Verif.ExecCircuitSpec.
Import ListNotations.

(** [cl] are the circuits by circuit id, the main circuit first; a circuit that
    is called twice occurs twice.  In the single circuit the gates of circuit [k]
    start at [flat_off cl k]. *)
Fixpoint flat_off {G} (cl : list (circuit G)) (k : nat) : nat :=
  match k, cl with
  | S k', c :: r => c_count c + flat_off r k'
  | _, _ => 0
  end.

Definition flat_id {G} (cl : list (circuit G)) (g : gid) : nat := flat_off cl (fst g) + snd g.

(** The wires inside the circuits, renumbered. *)
Fixpoint flat_edges {G} (o : nat) (cl : list (circuit G)) : list (nat * nat) :=
  match cl with
  | [] => []
  | c :: r => map (fun e => (o + fst e, o + snd e)) (c_edges c) ++ flat_edges (o + c_count c) r
  end.

Definition put_wire {G} (c : circuit G) (e : nat * nat) : circuit G :=
  match add_wire c (fst e) (snd e) with Some c' => c' | None => c end.

(** All gates of all circuits, the wires inside the circuits, and the wires [h]
    between circuits, as one main circuit built through the public API. *)
Definition inline_all {P G} (ops : gate_ops P G) (cl : list (circuit G)) (h : list (gid * gid)) : circuit G :=
  let c0 := match cl with
            | c :: _ => match c_simd c with Some n => c_set_simd c_new_main n | None => c_new_main end
            | [] => c_new_main
            end in
  let c1 := fold_left (fun c g => fst (add_gate ops c g)) (concat (map c_gates cl)) c0 in
  fold_right (fun e c => put_wire c e) c1
    (flat_edges 0 cl ++ map (fun w => (flat_id cl (fst w), flat_id cl (snd w))) h).

(** Operand counts; inputs and outputs only in the main circuit. *)
Definition program_gate (k : nat) (c : circuit bool_gate) (g : nat) (gate : bool_gate) : Prop :=
  match gate with
  | BBase GInput => k = 0
  | BBase GOutput => k = 0 /\ length (parents c g) = 1
  | BBase (GConstant _) | BBase GScInput | BBase GConnectToMain => True
  | BBase (GConnectToMainFromSimd _) => False
  | BAnd | BXor => length (parents c g) = 2
  | _ => length (parents c g) = 1
  end.

(** All circuits have the SIMD size [simd] of the main circuit; a SIMD size is a
    positive number of words of [W] bits. *)
Record program_base (W : nat) (cl : list (circuit bool_gate)) (simd : option nat) : Prop := {
  po_gates : forall k c g gate, nth_error cl k = Some c -> nth_error (c_gates c) g = Some gate ->
     program_gate k c g gate;
  po_simd : forall k c, nth_error cl k = Some c -> c_simd c = simd;
  po_lanes : forall n, simd = Some n -> n <> 0 /\ n mod W = 0 }.

(** In addition, if there is a SIMD size, gates that are outputs or have
    consumers in other circuits have no consumers in their own circuit (see C51
    for what happens otherwise). *)
Record program_ok (W : nat) (cl : list (circuit bool_gate)) (h : list (gid * gid)) (simd : option nat) : Prop := {
  po_base : program_base W cl simd;
  po_outs : forall c o, simd <> None -> nth_error cl 0 = Some c -> In o (c_outputs c) ->
     children c o = [] /\ forall t, ~ In ((0, o), t) h;
  po_wires : forall p t c, simd <> None -> In (p, t) h -> nth_error cl (fst p) = Some c -> children c (snd p) = [] }.
