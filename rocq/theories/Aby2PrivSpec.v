(** Specification vocabulary for what a party sees in a session of the ABY2.0 protocol. *)
From Coq Require Import List Bool Arith.
Require Import Verif.Prelude Verif.GateModel Verif.ProtocolModel Verif.CircuitModel Verif.ExecModel
  Verif.PartyModel Verif.ExecSpec Verif.Aby2Model Verif.Aby2Spec.
Import ListNotations.

(** The private part of the share that a storage of gate outputs holds for gate [g]
    (after aby2.rs 221-254 this is the party's part of the mask of [g]). *)
Definition mask_at (go : gouts aby2) (g : gid) : bool :=
  match go_cell (pr:=aby2) go g with Some (CS s) => as_priv s | _ => false end.

(** What one party sends and computes in a session: the masked values of its inputs, the messages
    of the layers, and its shares of the outputs. *)
Record side := Side { sd_deltas : list bool; sd_msgs : list (emsg aby2); sd_outs : list ashare }.

(** A complete session of two parties.  [priv] are the streams of the private generators of the
    parties, [joint i] the stream known to both for the inputs of party [i], [xs] their plain
    inputs, [E] their setup data, one element for every AND gate: shares of the products
    of the masks of its operands.  [m] and [os] say who provides which input.  The parties set up
    the masks of all gates (aby2.rs 221-254), share their inputs, and run the executor
    (executor.rs 123-493) against each other. *)
Definition session (ec : ecirc aby_gate) (m : nat -> option input_by) (os : list input_by)
  (joint priv : nat -> nat -> bool) (xs : nat -> list bool) (E : nat -> list (list bool))
  (w : nat -> side) : Prop :=
  exists s t s1 t1 go0 go1 sh0 sh1 s' t' go0' go1' r0 r1,
    ds_new 0 (priv 0) joint (by_map 0 m) = Some s /\ ds_new 1 (priv 1) joint (by_map 1 m) = Some t /\
    setup_gate_outputs ec s = Some (s1, go0) /\ setup_gate_outputs ec t = Some (t1, go1) /\
    all3 (eval_ok ec (mask_at go0) (mask_at go1)) (ec_int_iter ec) (E 0) (E 1) /\
    ds_share s (xs 0) = (sh0, sd_deltas (w 0), s') /\ ds_share t (xs 1) = (sh1, sd_deltas (w 1), t') /\
    px_run (pr:=aby2) aby_request 0 ec
      (@IScalar aby2 (merge os sh0 (fst (ds_plain_delta_to_share s' (sd_deltas (w 1))))))
      (sd_msgs (w 1)) go0 (from_raw (E 0)) =
      Some (sd_msgs (w 0), [], (@IScalar aby2 (sd_outs (w 0)), go0', r0)) /\
    px_run (pr:=aby2) aby_request 1 ec
      (@IScalar aby2 (merge os (fst (ds_plain_delta_to_share t' (sd_deltas (w 0)))) sh1))
      (sd_msgs (w 0)) go1 (from_raw (E 1)) =
      Some (sd_msgs (w 1), [], (@IScalar aby2 (sd_outs (w 1)), go1', r1)).

(** The streams [priv] with that of party [q] changed by [d]. *)
Definition shifted (q : nat) (d : nat -> bool) (priv : nat -> nat -> bool) : nat -> nat -> bool :=
  fun r i => if r =? q then xorb (priv r i) (d i) else priv r i.

(** Party [p] sees the same in two sessions: what it receives, what it sends itself and its shares
    of the outputs. *)
Definition sees_same (p q : nat) (w w' : nat -> side) : Prop :=
  w' p = w p /\ sd_deltas (w' q) = sd_deltas (w q) /\ sd_msgs (w' q) = sd_msgs (w q).
