(** Model of crates/seec/examples/aes_cbc.rs with [--use-sc]: the AES circuit is
    called as a sub-circuit of the builder.  No proofs here.

    Cell 1 of the builder's cells is the static [AES_CIRC] (aes_cbc.rs 431-439),
    which exists before it is pushed; cell 0 is the main circuit.  A panic is
    [None]. *)
From Coq Require Import List Bool Arith.
Require Import Verif.Prelude Verif.GateModel Verif.CircuitModel Verif.ExecModel Verif.BoolGmwModel Verif.ConnModel
  Verif.BuilderModel Verif.MultiModel Verif.SubCircModel Verif.CbcModel.
Import ListNotations.

(** builder.rs 219-243 [connect_sub_circuit]. *)
Definition b_connect_sub (b : builder) (inputs : list secret) (sc_id : nat) : option (builder * list secret) :=
  '(_, c) <- b_cell b sc_id ;;
  cn <- connect_sc_gates bool_input_size (b_cn b) inputs c sc_id (c_scins c) ;;
  Some (BD (b_cells b) (b_ids b) cn, map (pair sc_id) (c_scouts c)).

(** secret.rs 362-370 [sub_circuit_inputs] with a [SubCircuitInput] gate. *)
Fixpoint sec_scins (n : nat) (b : builder) (id : nat) : option (builder * list secret) :=
  match n with
  | 0 => Some (b, [])
  | S k => '(b1, s) <- sec_scin b id ;; '(b2, ss) <- sec_scins k b1 id ;; Some (b2, s :: ss)
  end.

(** builder.rs 490-503: [connect_to_main] of a [Vec<Secret>]. *)
Definition b_connect_to_main (b : builder) (outs : list secret) (circuit_id : nat) : option (builder * list secret) :=
  '(b1, main_inputs) <- sec_scins (length outs) b 0 ;;
  let from := map (fun s : secret => (circuit_id, snd s)) outs in
  '(_, c) <- b_cell b1 0 ;;
  cn <- connect_sc_gates bool_input_size (b_cn b1) from c 0 (map snd main_inputs) ;;
  Some (BD (b_cells b1) (b_ids b1) cn, main_inputs).

(** aes_cbc.rs 426-448 [aes128] with [use_sc = true]. *)
Definition cbc_sc_aes128 (b : builder) (key chunk : list secret) : option (builder * list secret) :=
  let inp := chunk ++ key in
  let '(b1, circ_id) := b_push_shared b 1 in
  '(b2, output) <- b_connect_sub b1 inp circ_id ;;
  b_connect_to_main b2 output circ_id.

(** aes_cbc.rs 408-424 [aes_cbc_chunk] with [use_sc = true]; as [cbc_chunk]. *)
Definition cbc_sc_chunk (key : list secret) (st : builder * (list secret * list nat)) (chunk : list secret)
  : option (builder * (list secret * list nat)) :=
  let '(b, (state, outs)) := st in
  '(b1, inp) <- cbc_xor b chunk state ;;
  '(b2, output) <- cbc_sc_aes128 b1 key inp ;;
  _ <- oassert (length state =? length output) ;;
  '(b3, os) <- sec_outputs b2 output ;;
  Some (b3, (output, outs ++ os)).

(** aes_cbc.rs 382-406 [build_enc_circuit] with [use_sc = true] up to the
    conversion of the builder; [n] is the constant 128 and [sub] the content of
    [AES_CIRC]. *)
Definition cbc_sc_build_n (n : nat) (sub : circuit bool_gate) (data_size_bits : nat) : option (builder * list nat) :=
  _ <- oassert (data_size_bits mod n =? 0) ;;
  '(b1, key) <- sec_inputs n (BD [c_new; sub] [0] cn_empty) ;;
  '(b2, iv) <- sec_inputs n b1 ;;
  '(b3, data) <- sec_inputs data_size_bits b2 ;;
  '(b4, (_, outs)) <- ofold (cbc_sc_chunk key) (b3, (iv, [])) (chunks_exact n data) ;;
  Some (b4, outs).

(** builder.rs 126-130 [global_into_circuit] and 340-373 [into_circuit]: the
    circuit and what is left in the cells. *)
Definition b_into (b : builder) : mcirc bool_gate * list (circuit bool_gate) :=
  let '(heap, circuits, cmap) := sc_into c_new (b_ids b) (b_cells b) [] [] [] in
  (MC circuits cmap (b_cn b), heap).

(** aes_cbc.rs 382-406 [build_enc_circuit] with [use_sc = true]: the circuit, its
    outputs in order, and what is left in [AES_CIRC]. *)
Definition cbc_sc_circuit_n (n : nat) (sub : circuit bool_gate) (data_size_bits : nat)
  : option (mcirc bool_gate * circuit bool_gate) :=
  '(b, _) <- cbc_sc_build_n n sub data_size_bits ;;
  let '(m, heap) := b_into b in
  Some (m, nth 1 heap c_new).
(** aes_cbc.rs 382-406 [build_enc_circuit] with [use_sc = true]. *)
Definition build_enc_circuit_sc := cbc_sc_circuit_n 128.
