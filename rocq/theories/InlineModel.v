(** Model of [add_sub_circuit] and [from_bristol] of
    crates/seec/src/circuit/base_circuit.rs.  No proofs here. *)
From Coq Require Import List Bool Arith.
Require Import Verif.Prelude Verif.GateModel Verif.CircuitModel.
Import ListNotations.

(** base_circuit.rs 233-238: sub-circuit inputs and outputs become identity
    gates. *)
Definition asc_gate {P G} (ops : gate_ops P G) (g : G) : G :=
  match g_base ops g with
  | Some GScInput | Some GScOutput => g_wrap ops GIdentity
  | _ => g
  end.

(** base_circuit.rs 230-245: body of the loop over [circuit.iter()].  [gmap] is
    [gate_id_map]; indexing it out of bounds panics. *)
Definition asc_step {P G} (ops : gate_ops P G) (sub : circuit G)
  (st : circuit G * list nat) (id : nat) : option (circuit G * list nat) :=
  let '(c, gmap) := st in
  gate <- nth_error (c_gates sub) id ;;
  let '(c1, new_id) := add_gate ops c (asc_gate ops gate) in
  _ <- oassert (id <? length gmap) ;;
  let gmap1 := upd id new_id gmap in
  c2 <- ofold (fun c p => np <- nth_error gmap1 p ;; add_wire c np new_id) c1 (parents sub id) ;;
  Some (c2, gmap1).

(** base_circuit.rs 218-259 [add_sub_circuit].  [inputs] is the iterator as a
    list; [zip] stops at the shorter side. *)
Definition add_sub_circuit {P G} (ops : gate_ops P G) (c sub : circuit G) (inputs : list nat)
  : option (circuit G * list nat) :=
  _ <- oassert (negb (c_is_main sub)) ;;
  _ <- oassert (match c_inputs sub with [] => true | _ => false end) ;;
  order <- c_iter ops sub ;;
  '(c1, gmap) <- ofold (asc_step ops sub) (c, repeat 0 (c_count sub)) order ;;
  let pairs := combine inputs (c_scins sub) in
  c2 <- ofold (fun c ft => to <- nth_error gmap (snd ft) ;; add_wire c (fst ft) to) c1 pairs ;;
  _ <- oassert (length pairs =? length (c_scins sub)) ;;
  outs <- omap (fun o => nth_error gmap o) (c_scouts sub) ;;
  Some (c2, outs).

(** crates/seec/src/parse/bristol.rs 61-65 [GateData] and 32-37 [Gate]. *)
Inductive br_kind := BrAnd | BrXor | BrInv.
(** crates/seec/src/parse/bristol.rs 32-37 [Gate] with 61-65 [GateData]. *)
Record br_gate := BrGate { br_op : br_kind; br_in : list nat; br_out : list nat }.

(** crates/seec/src/parse/bristol.rs 22-30 [Header]. *)
Record br_header := BrHeader {
  bh_gates : nat; bh_wires : nat; bh_ins : list nat; bh_outs : list nat }.

(** crates/seec/src/parse/bristol.rs 16-20 [Circuit]. *)
Record br_circuit := BrCircuit { bc_header : br_header; bc_gates : list br_gate }.

(** crates/seec/src/parse/bristol.rs 45-51 [total_input_wires],
    [total_output_wires]. *)
Definition br_total_in (b : br_circuit) : nat := sum_list (bh_ins (bc_header b)).
(** crates/seec/src/parse/bristol.rs 49-51 [total_output_wires]. *)
Definition br_total_out (b : br_circuit) : nat := sum_list (bh_outs (bc_header b)).

(** base_circuit.rs 314-318 [Load]. *)
Inductive load := LoadCircuit | LoadSub.

(** Result of [from_bristol]: panics are [None], [Err(ConversionError)] is
    [Some None]. base_circuit.rs 326. *)
Definition br_result (A : Type) := option (option A).

(** base_circuit.rs 337-343: input and output gates by kind of [load]. *)
Definition load_in {P} (l : load) : base_gate P :=
  match l with LoadCircuit => GInput | LoadSub => GScInput end.
(** base_circuit.rs 337-343: the output gate. *)
Definition load_out {P} (l : load) : base_gate P :=
  match l with LoadCircuit => GOutput | LoadSub => GScOutput end.

(** base_circuit.rs 344-347: loop over the mutable slice
    [wire_mapping[0..total_input_wires]]. *)
Fixpoint br_inputs {P G} (ops : gate_ops P G) (l : load) (n i : nat)
  (st : circuit G * list nat) : circuit G * list nat :=
  match n with
  | 0 => st
  | S n' =>
      let '(c1, id) := add_gate ops (fst st) (g_wrap ops (load_in l)) in
      br_inputs ops l n' (S i) (c1, upd i id (snd st))
  end.

(** base_circuit.rs 351-356: every output wire is mapped to the new gate;
    [None] is the error return. *)
Fixpoint br_map_out (outs : list nat) (id : nat) (wm : list nat) : option (list nat) :=
  match outs with
  | [] => Some wm
  | w :: r => if w <? length wm then br_map_out r id (upd w id wm) else None
  end.

(** base_circuit.rs 357-362: wires from the mapped inputs. *)
Fixpoint br_wire_in {G} (ins : list nat) (id : nat) (wm : list nat) (c : circuit G)
  : br_result (circuit G) :=
  match ins with
  | [] => Some (Some c)
  | w :: r =>
      match nth_error wm w with
      | None => Some None
      | Some m => c' <- add_wire c m id ;; br_wire_in r id wm c'
      end
  end.

(** base_circuit.rs 348-363: the loop over the gates. *)
Fixpoint br_gates_loop {P G} (ops : gate_ops P G) (from : br_kind -> G) (gs : list br_gate)
  (c : circuit G) (wm : list nat) : br_result (circuit G * list nat) :=
  match gs with
  | [] => Some (Some (c, wm))
  | g :: r =>
      let '(c1, id) := add_gate ops c (from (br_op g)) in
      match br_map_out (br_out g) id wm with
      | None => Some None
      | Some wm1 =>
          rc <- br_wire_in (br_in g) id wm1 c1 ;;
          match rc with
          | None => Some None
          | Some c2 => br_gates_loop ops from r c2 wm1
          end
      end
  end.

(** base_circuit.rs 364-369: output gates for the last wires. *)
Fixpoint br_outputs {P G} (ops : gate_ops P G) (l : load) (ws : list nat) (c : circuit G)
  : option (circuit G) :=
  match ws with
  | [] => Some c
  | w :: r =>
      let '(c1, id) := add_gate ops c (g_wrap ops (load_out l)) in
      c2 <- add_wire c1 w id ;;
      br_outputs ops l r c2
  end.

(** base_circuit.rs 326-371 [from_bristol].  The slices panic when they exceed
    [wire_mapping]; [wires - total_output_wires] panics on underflow.
    Capacities and tracing are dropped. *)
Definition from_bristol {P G} (ops : gate_ops P G) (from : br_kind -> G) (b : br_circuit)
  (l : load) : br_result (circuit G) :=
  let wires := bh_wires (bc_header b) in
  let nin := br_total_in b in
  let nout := br_total_out b in
  _ <- oassert (nin <=? wires) ;;
  let '(c0, wm0) := br_inputs ops l nin 0 (c_new, repeat 0 wires) in
  r <- br_gates_loop ops from (bc_gates b) c0 wm0 ;;
  match r with
  | None => Some None
  | Some (c1, wm) =>
      _ <- oassert (nout <=? wires) ;;
      c2 <- br_outputs ops l (skipn (wires - nout) wm) c1 ;;
      Some (Some c2)
  end.

(** crates/seec/src/protocols/boolean_gmw.rs 302-310: [From<&bristol::Gate> for
    BooleanGate] only looks at the kind of the gate. *)
Definition from_br_kind {G} (and_ xor_ inv_ : G) (k : br_kind) : G :=
  match k with BrAnd => and_ | BrXor => xor_ | BrInv => inv_ end.
