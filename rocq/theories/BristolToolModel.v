(** Model of [compile] of crates/seec/examples/bristol.rs (lines 109-146), the tool
    that turns a Bristol file into an executable circuit.  No proofs here.

    The file itself is parsed before; writing the result to
    disk (bristol.rs 142-145) is left out.  A panic is [None]. *)
From Coq Require Import List Bool Arith.
Require Import Verif.Prelude Verif.GateModel Verif.CircuitModel Verif.ExecModel Verif.BoolGmwModel Verif.ConnModel
  Verif.InlineModel Verif.BuilderModel Verif.MultiModel Verif.StaticModel Verif.SubCircModel Verif.CbcModel Verif.CbcScModel.
Import ListNotations.

(** bristol.rs 114-115: [load_bristol(..).expect(..)] (base_circuit.rs 373-376) on
    a parsed file; an error panics too. *)
Definition bt_load (b : br_circuit) (l : load) : option (circuit bool_gate) :=
  r <- from_bristol bool_ops (from_br_kind BAnd BXor BInv) b l ;; r.

(** bristol.rs 125: [get_main_circuit().lock().set_simd_size(size)]. *)
Definition b_main_simd (b : builder) (size : nat) : option builder :=
  '(k, c) <- b_cell b 0 ;;
  Some (b_set b k (c_set_simd c size)).

(** bristol.rs 118-136: the builder with [--simd size], before the conversion; the
    builder is new (builder.rs 289-296). *)
Definition bt_build (bc : circuit bool_gate) (size : nat) : option builder :=
  let bc := c_set_simd bc size in
  let circ_input_size := length (c_scins bc) in
  '(b1, inputs) <- sec_inputs circ_input_size (BD [c_new] [0] cn_empty) ;;
  b2 <- b_main_simd b1 size ;;
  let '(b3, circ_id) := b_push_new b2 bc in
  '(b4, output) <- b_connect_sub b3 inputs circ_id ;;
  '(b5, main) <- b_connect_to_main b4 output circ_id ;;
  '(b6, _) <- sec_outputs b5 main ;;
  Some b6.

(** bristol.rs 110-138: the circuit with layers computed on the fly.  Without
    [--simd] it is the loaded circuit alone (dyn_layers.rs 333-341 [From]). *)
Definition bt_circuit (b : br_circuit) (simd : option nat) : option (mcirc bool_gate) :=
  match simd with
  | Some size =>
      bc <- bt_load b LoadSub ;;
      bl <- bt_build bc size ;;
      Some (fst (b_into bl))
  | None =>
      bc <- bt_load b LoadCircuit ;;
      Some (MC [bc] [0] cn_empty)
  end.

(** circuit/mod.rs 81-84 [ExecutableCircuit]. *)
Inductive exec_circuit := XDyn (m : mcirc bool_gate) | XStatic (s : scirc bool_gate).

(** circuit/mod.rs 145-152 [precompute_layers]; [imax] is the largest gate index,
    [perm] the order in which the layers visit the called circuits. *)
Definition x_precompute (geqb : bool_gate -> bool_gate -> bool) (imax : nat) (perm : nat -> miter -> miter) (x : exec_circuit)
  : option exec_circuit :=
  match x with
  | XDyn m => s <- st_precompute bool_ops geqb imax m perm ;; Some (XStatic s)
  | XStatic s => Some (XStatic s)
  end.

(** bristol.rs 109-141 [compile] with the options [simd] and [dyn_layers]. *)
Definition bt_compile (geqb : bool_gate -> bool_gate -> bool) (imax : nat) (perm : nat -> miter -> miter)
  (b : br_circuit) (simd : option nat) (dyn_layers : bool) : option exec_circuit :=
  m <- bt_circuit b simd ;;
  if dyn_layers then Some (XDyn m) else x_precompute geqb imax perm (XDyn m).

(** What the executor uses of the circuit (see ExecModel, circuit/mod.rs 86-240). *)
Definition x_ec (imax : nat) (perm : nat -> miter -> miter) (x : exec_circuit) : option (ecirc bool_gate) :=
  match x with
  | XDyn m => ec_of_mc bool_ops imax m perm
  | XStatic s => ec_of_static imax s
  end.

(** circuit/mod.rs 101-106 [interactive_count_times_simd]. *)
Definition x_int_count (x : exec_circuit) : option nat :=
  match x with
  | XDyn m => Some (mc_int_count m)
  | XStatic s => st_int_count_simd s
  end.

(** circuit/mod.rs 108-113 [input_count] (dyn_layers.rs 149-151, static_layers.rs
    104-106). *)
Definition x_input_count (x : exec_circuit) : option nat :=
  match x with
  | XDyn m => c <- mc_get m 0 ;; Some (length (c_inputs c))
  | XStatic s => Some (length (st_ins s))
  end.

(** circuit/mod.rs 136-141 [simd_size]. *)
Definition x_simd_size (x : exec_circuit) (circ_id : nat) : option (option nat) :=
  match x with
  | XDyn m => c <- mc_get m circ_id ;; Some (c_simd c)
  | XStatic s => c <- st_get s circ_id ;; Some (ss_simd c)
  end.
