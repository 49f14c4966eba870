(** The interface of crates/seec/src/protocols/mod.rs as a record. *)
From Coq Require Import List Bool Arith.
Require Import Verif.Prelude Verif.GateModel.
Import ListNotations.

(** crates/seec/src/protocols/mod.rs 32-165: the [Protocol] and [Gate] traits.
    [None] stands for a panic.  Methods with [&mut SetupStorage] return the new
    storage.  [p_simd_*] are the [ShareStorage] methods (199-245) on the SIMD
    share type; scalar share storages are plain lists. *)
Record protocol := Protocol {
  p_plain : Type;
  p_share : Type;
  p_simd : Type;
  p_gate : Type;
  p_msg : Type;
  p_simdmsg : Type;
  p_setup : Type;
  p_simd_support : bool;
  p_simd_get : p_simd -> nat -> option p_share;
  p_simd_collect : list p_share -> p_simd;
  p_default_share : p_share;
  p_default_simd : p_simd;
  p_is_interactive : p_gate -> bool;
  p_input_size : p_gate -> nat;
  p_as_base : p_gate -> option (base_gate p_plain);
  p_share_constant : nat -> p_share -> p_plain -> p_share;
  p_share_constant_simd : nat -> p_simd -> p_plain -> nat -> p_simd;
  p_eval_ni : nat -> p_gate -> list p_share -> option p_share;
  p_eval_ni_simd : nat -> p_gate -> list p_simd -> option p_simd;
  p_compute_msg : nat -> list p_gate -> list p_share -> list p_share -> p_setup
                  -> option (p_msg * p_setup);
  p_compute_msg_simd : nat -> list p_gate -> list p_simd -> list p_simd -> p_setup
                  -> option (p_simdmsg * p_setup);
  p_eval_int : nat -> list p_gate -> list p_share -> p_msg -> p_msg -> p_setup
                  -> option (list p_share * p_setup);
  p_eval_int_simd : nat -> list p_gate -> list p_simd -> p_simdmsg -> p_simdmsg -> p_setup
                  -> option (list p_simd * p_setup)
}.
