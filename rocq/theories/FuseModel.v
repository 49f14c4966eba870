(** Model of the FUSE converter, crates/seec/src/parse/fuse/mod.rs.  No proofs here.
    The decoded flatbuffer tables are the data types below (names are numbers, 0
    stands for "main").  Calls are modelled for [CallMode::InlineCircuits]; conversion
    errors and panics are both [None]. *)
From Coq Require Import List Bool Arith ZArith.
Require Import Verif.ParseModel Verif.Prelude Verif.GateModel Verif.CircuitModel Verif.InlineModel Verif.ChannelModel
  Verif.BoolGmwModel Verif.ArithGmwModel Verif.MixedModel.
Import ListNotations.
Open Scope nat_scope.

(** [PrimitiveType] as far as fuse/mod.rs 186-196 distinguishes it. *)
Inductive fty := FtBool | FtInt32 | FtOther.

(** [PrimitiveOperation] as far as fuse/mod.rs 171-265 distinguishes it, with the first
    output type of a constant and the name of a called circuit. *)
Inductive fop :=
| FAnd | FXor | FNot | FAdd | FMul | FSub | FInput | FOutput | FConstant (ty : option fty) | FMerge
| FSplit | FCall (name : option nat) | FOther.

(** [NodeTable], module_generated.rs 626-690: id, input identifiers, input offsets,
    operation and payload (the number it encodes). *)
Record fnode := FNode { fn_id : nat; fn_inputs : list nat; fn_offsets : list nat; fn_op : fop; fn_payload : Z }.

(** [CircuitTable], module_generated.rs 895-935. *)
Record fcircuit := FCircuit { fc_name : nat; fc_nodes : list fnode }.

(** [ModuleTable], module_generated.rs 1193-1205. *)
Record fmodule := FModule { fm_entry : option nat; fm_circuits : option (list fcircuit) }.

(** fuse/mod.rs 172-201, 270-287: the gate of an operation with a one-to-one mapping;
    [None] for the others and for constants of other types (panic at 194-196). *)
Definition f_gate (op : fop) (in_main : bool) : option mixed_gate :=
  match op with
  | FAnd => Some (MGBool BAnd)
  | FXor => Some (MGBool BXor)
  | FNot => Some (MGBool BInv)
  | FAdd => Some (MGArith AAdd)
  | FMul => Some (MGArith AMul)
  | FSub => Some (MGArith ASub)
  | FInput => Some (MGBase (if in_main then GInput else GScInput))
  | FOutput => Some (MGBase (if in_main then GOutput else GScOutput))
  | FConstant (None | Some FtBool) => Some (MGBase (GConstant (MBool true)))
  | FConstant (Some FtInt32) => Some (MGBase (GConstant (MArith 1)))
  | FConstant (Some FtOther) => None
  | FMerge => Some (MGConv CB2A)
  | FSplit | FCall _ | FOther => None
  end.

(** fuse/mod.rs 209-212: an identity gate behind every bit. *)
Fixpoint f_identities (bc : circuit mixed_gate) (l : list nat) : option (circuit mixed_gate * list nat) :=
  match l with
  | [] => Some (bc, [])
  | sh :: r =>
      '(bc, id) <- add_wired_gate mixed_ops bc (MGBase GIdentity) [sh] ;;
      '(bc, ids) <- f_identities bc r ;;
      Some (bc, id :: ids)
  end.

(** fuse/mod.rs 160-267 [add_node]; [sc_map] holds the sub-circuits by name. *)
Definition f_add_node (maxu cap w : nat) (sc_map : list (nat * circuit mixed_gate)) (bc : circuit mixed_gate)
  (node : fnode) (inputs : list nat) (in_main : bool) : option (circuit mixed_gate * nat) :=
  match f_gate (fn_op node) in_main with
  | Some g => add_wired_gate mixed_ops bc g inputs
  | None =>
      match fn_op node, inputs with
      | FSplit, [a] =>
          '(bc, b_shares) <- a2b maxu cap w bc a ;;
          '(bc, b_shares) <- f_identities bc b_shares ;;
          match b_shares with s :: _ => Some (bc, s) | [] => None end
      | FCall (Some name), _ =>
          sub <- hm_get name sc_map ;;
          '(bc, outputs) <- add_sub_circuit mixed_ops bc sub inputs ;;
          match outputs with o :: _ => Some (bc, o) | [] => None end
      | _, _ => None
      end
  end.

(** fuse/mod.rs 138-150: the loop over the nodes of a circuit with its [key_map]; the
    entry of an id that occurs again is kept (149). *)
Fixpoint f_nodes (maxu cap w : nat) (sc_map : list (nat * circuit mixed_gate)) (is_main : bool)
  (nodes : list fnode) (bc : circuit mixed_gate) (key_map : list (nat * nat)) : option (circuit mixed_gate) :=
  match nodes with
  | [] => Some bc
  | node :: r =>
      inputs <- omap (fun k => hm_get k key_map) (fn_inputs node) ;;
      '(bc, id) <- f_add_node maxu cap w sc_map bc node inputs is_main ;;
      f_nodes maxu cap w sc_map is_main r bc
        (match hm_get (fn_id node) key_map with Some _ => key_map | None => hm_insert (fn_id node) id key_map end)
  end.

(** fuse/mod.rs 132-158 [add_fuse_sub_circ] for the circuits that are not the entry
    point, 96-111. *)
Fixpoint f_sub_circs (maxu cap w ep : nat) (cs : list fcircuit) (sc_map : list (nat * circuit mixed_gate))
  : option (list (nat * circuit mixed_gate)) :=
  match cs with
  | [] => Some sc_map
  | c :: r =>
      if fc_name c =? ep then f_sub_circs maxu cap w ep r sc_map
      else
        bc <- f_nodes maxu cap w sc_map false (fc_nodes c) c_new [] ;;
        f_sub_circs maxu cap w ep r (hm_insert (fc_name c) bc sc_map)
  end.

(** fuse/mod.rs 90-129 [convert_module] with [CallMode::InlineCircuits]: the main circuit
    of the result.  Without a circuit named like the entry point it is the empty
    one of the builder (builder.rs 289-296). *)
Definition f_convert (maxu cap w : nat) (m : fmodule) : option (circuit mixed_gate) :=
  let ep := match fm_entry m with Some e => e | None => 0 end in
  cs <- fm_circuits m ;;
  sc_map <- f_sub_circs maxu cap w ep cs [] ;;
  match find (fun c => fc_name c =? ep) cs with
  | Some c => f_nodes maxu cap w sc_map true (fc_nodes c) c_new []
  | None => Some c_new
  end.
