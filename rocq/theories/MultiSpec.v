(** Specification vocabulary for circuits made of several base circuits:
    which gates are executed at all, and when a set of connections is well
    formed.  Independent of the iterators. *)
From Coq Require Import List Bool Arith.
Require Import Verif.Prelude Verif.GateModel Verif.CircuitModel Verif.CircuitSpec Verif.ExecModel.
Import ListNotations.

Section Multi.
Context {P G : Type}.
Variable ops : gate_ops P G.
(** The circuits by id, and the wires between circuits as (from, to). *)
Variable circ : nat -> option (circuit G).
Variable h : list (gid * gid).

(** [p] is an operand of [g], in the same or in another circuit. *)
Definition operand (p g : gid) : Prop :=
  In (p, g) h \/
  exists c, circ (fst g) = Some c /\ fst p = fst g /\ In (snd p) (parents c (snd g)).

(** The gates that get executed: inputs and constants of the main circuit,
    targets of wires of executed gates, constants of circuits reached by such a
    wire, and gates all of whose operands (at least one) in their circuit are
    executed. *)
Inductive runs : gid -> Prop :=
| runs_main c g x : circ 0 = Some c -> nth_error (c_gates c) g = Some x ->
    is_input_gate ops x || is_const_gate ops x = true -> runs (0, g)
| runs_wire p g : runs p -> In (p, g) h -> runs g
| runs_const p k t c g x : runs p -> In (p, (k, t)) h -> circ k = Some c ->
    nth_error (c_gates c) g = Some x -> is_const_gate ops x = true -> runs (k, g)
| runs_gate k c g : circ k = Some c -> g < c_count c -> parents c g <> [] ->
    (forall p, In p (parents c g) -> runs (k, p)) -> runs (k, g).

(** Every circuit is one the public API can build, and its inputs, constants and
    sub-circuit inputs have no operands in their own circuit. *)
Definition circuits_ok : Prop :=
  (exists c, circ 0 = Some c) /\
  forall k c, circ k = Some c -> api ops c /\
    forall g x, nth_error (c_gates c) g = Some x ->
      is_input_gate ops x || is_const_gate ops x || is_scin_gate ops x = true -> parents c g = [].

(** Wires lead to sub-circuit inputs, and no gate is the target of two wires. *)
Definition wires_ok : Prop :=
  NoDup (map snd h) /\
  forall p t, In (p, t) h -> exists c x, circ (fst t) = Some c /\
    nth_error (c_gates c) (snd t) = Some x /\ is_scin_gate ops x = true.

(** Gate [g] exists. *)
Definition gate_exists (g : gid) : Prop :=
  exists c, circ (fst g) = Some c /\ snd g < c_count c.

(** No cyclic dependency: a ranking that increases along operands, and for a
    constant of a called circuit also along some call of that circuit.  Gates
    without operands are inputs and constants of the main circuit or constants
    and connected inputs of called circuits. *)
Definition all_callable : Prop :=
  exists rank : gid -> nat,
    (forall p g, operand p g -> rank p < rank g) /\
    (forall k c g x, circ k = Some c -> nth_error (c_gates c) g = Some x -> parents c g = [] ->
       (k = 0 /\ is_input_gate ops x || is_const_gate ops x = true) \/
       (exists p, In (p, (k, g)) h /\ gate_exists p) \/
       (is_const_gate ops x = true /\ exists p t, In (p, (k, t)) h /\ gate_exists p /\ rank p < rank (k, g))).

End Multi.

(** Gate [g] is emitted in layer number [i]. *)
Definition in_mlayer (ls : list elayer) (i : nat) (g : gid) : Prop :=
  exists l sc s b, nth_error ls i = Some l /\ In (sc, s, b) l /\ fst g = sc /\ In (snd g) (bl_ni b ++ bl_int b).

(** All gates in the order in which they are emitted. *)
Definition emitted (ls : list elayer) : list gid :=
  concat (map (fun l => concat (map (fun '(sc, _, b) => map (pair sc) (bl_ni b ++ bl_int b)) l)) ls).
