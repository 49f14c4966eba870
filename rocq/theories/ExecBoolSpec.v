(** Specification vocabulary for whole boolean executions: plaintext values of
    all gates, typing of circuits, shares of inputs and outputs, valid setup
    data.  Independent of the executor. *)
From Coq Require Import List Bool Arith.
Require Import Verif.Prelude Verif.BitVecModel Verif.BitVecSpec Verif.GateModel
  Verif.ProtocolModel Verif.BoolGmwModel Verif.BoolGmwSpec Verif.CircuitModel
  Verif.ExecModel Verif.ExecSpec.
Import ListNotations.

(** Number of lanes of the circuit a gate belongs to; 1 for scalar circuits. *)
Definition lanes {G} (ec : ecirc G) (g : gid) : nat :=
  match ec_simd ec (fst g) with Some n => n | None => 1 end.

(** [v] assigns to every gate its plaintext value (one bit per lane) when the
    input gates carry [ins]. *)
Definition gate_eq (ec : ecirc bool_gate) (ins : list (list bool)) (v : gid -> list bool)
  (g : gid) (gate : bool_gate) : Prop :=
  match gate with
  | BBase GInput =>
      exists i, nth_error (ec_inputs ec) i = Some (snd g) /\ nth_error ins i = Some (v g)
  | BBase (GConstant c) => v g = repeat c (lanes ec g)
  | BBase (GConnectToMainFromSimd sel) =>
      exists p, ec_parents ec g = [p] /\ v g = [nth sel (v p) false]
  | BBase GScInput =>
      match ec_simd ec 0, ec_simd ec (fst g) with
      | None, Some _ => v g = map (fun p => hd false (v p)) (ec_parents ec g)
      | _, _ => exists p, ec_parents ec g = [p] /\ v g = v p
      end
  | _ =>
      length (v g) = lanes ec g /\
      forall i, i < lanes ec g ->
        bool_gate_sem gate (map (fun p => nth i (v p) false) (ec_parents ec g))
        = Some (nth i (v g) false)
  end.

Definition valuation (ec : ecirc bool_gate) (ins : list (list bool)) (v : gid -> list bool) : Prop :=
  forall g gate, ec_gate ec g = Some gate -> gate_eq ec ins v g gate.

(** Operand counts of gates evaluated on operands of their own circuit. *)
Definition arity (gate : bool_gate) : nat :=
  match gate with BAnd | BXor => 2 | _ => 1 end.

(** Every gate has the operands its kind needs, of the kind (scalar, or the
    number of lanes) its evaluation needs. *)
Definition gate_typed (ec : ecirc bool_gate) (g : gid) (gate : bool_gate) : Prop :=
  let same p := ec_simd ec (fst p) = ec_simd ec (fst g) in
  let scalar p := ec_simd ec (fst p) = None in
  match gate with
  | BBase GInput => fst g = 0 /\ ec_parents ec g = []
  | BBase (GConstant _) => ec_parents ec g = []
  | BBase (GConnectToMainFromSimd sel) =>
      ec_simd ec (fst g) = None /\
      exists p n, ec_parents ec g = [p] /\ ec_simd ec (fst p) = Some n /\ sel < n
  | BBase GScInput =>
      match ec_simd ec 0, ec_simd ec (fst g) with
      | None, Some n => length (ec_parents ec g) = n /\ Forall scalar (ec_parents ec g)
      | Some _, None => False
      | _, _ => length (ec_parents ec g) = 1 /\ Forall same (ec_parents ec g)
      end
  | _ => length (ec_parents ec g) = arity gate /\ Forall same (ec_parents ec g)
  end.

Definition typed (ec : ecirc bool_gate) : Prop :=
  forall g gate, ec_gate ec g = Some gate -> gate_typed ec g gate.

(** Lane counts are whole words (see C53 for what happens otherwise). *)
Definition whole_words {G} (W : nat) (ec : ecirc G) : Prop :=
  forall sc n, ec_simd ec sc = Some n -> n <> 0 /\ n mod W = 0.

(** No layer has scalar and SIMD interaction at once (see C05 for what happens
    otherwise). *)
Definition pure_layers {G} (ec : ecirc G) : Prop :=
  forall l, In l (ec_layers ec) -> el_int (el_scalar l) = [] \/ el_int (el_simd l) = [].

(** A vector as delivered by sharing: well formed, head offset 0, [n] lanes. *)
Definition lane_vec (W n : nat) (x : bitvec) : Prop :=
  bv_wf W x /\ bv_head x = 0 /\ bv_len x = n.

(** [i0], [i1] are XOR shares of the values [vals], one per input/output gate of
    a main circuit with SIMD size [simd]. *)
Definition shares_of (W : nat) (simd : option nat) (i0 i1 : istore (bool_gmw W))
  (vals : list (list bool)) : Prop :=
  match simd, i0, i1 with
  | None, IScalar l0, IScalar l1 =>
      length l0 = length l1 /\ vals = map (fun b => [b]) (bits_xor l0 l1)
  | Some n, ISimd l0, ISimd l1 =>
      length l0 = length l1 /\ Forall (lane_vec W n) l0 /\ Forall (lane_vec W n) l1 /\
      vals = zip_with (fun x y => bits_xor (bv_bits x) (bv_bits y)) l0 l1
  | _, _, _ => False
  end.

(** Setup data for a layer with [n] (lanes of) AND gates: at least [n] valid
    triples.  The two storages have the same head offset. *)
Definition bool_setup_ok (W n : nat) (st0 st1 : mul_triples) : Prop :=
  exists h m, n <= m /\ mts_wf W h m st0 /\ mts_wf W h m st1 /\
    triples_ok (mts_iter st0) (mts_iter st1).
