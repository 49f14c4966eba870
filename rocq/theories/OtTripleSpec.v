(** Specification vocabulary for OT based triples. *)
From Coq Require Import ZArith List Bool Arith Permutation.
Require Import Verif.Prelude Verif.BitVecModel Verif.GateModel Verif.BoolGmwModel Verif.BoolGmwSpec
  Verif.ArithGmwModel Verif.ArithGmwSpec Verif.OtModel Verif.OtSpec Verif.TripleModel Verif.TripleSpec Verif.OtTripleModel.
Import ListNotations.
Open Scope nat_scope.

(** Two provider states that belong together: base OTs in both directions and
    matching precomputed triples. *)
Definition otmt_ok {R S} (k W : nat) (st0 st1 : otmt R S) : Prop :=
  base_ok k (om_s st0) (om_r st1) /\ base_ok k (om_s st1) (om_r st0) /\
  match om_pre st0, om_pre st1 with
  | None, None => True
  | Some m0, Some m1 => bool_batch W m0 m1
  | _, _ => False
  end.

(** What one party sent is what the other party receives, the rows of each extension
    in some order. *)
Definition deliveries (k : nat) (outbox : list (list (nat * list bool))) (inbox : list (list ext_event)) : Prop :=
  Forall2 (fun msgs evs => exists order, Permutation order (seq 0 k) /\ evs = deliver order msgs) outbox inbox.

(** Outcomes of the parties for the same call. *)
Inductive oout_rel (W : nat) : oop -> oout -> oout -> Prop :=
| or_pre n : oout_rel W (OPre n) (OoPre (ROk tt)) (OoPre (ROk tt))
| or_req n t u : bool_batch W t u -> n <= length (mts_iter t) ->
    oout_rel W (OReq n) (OoReq (ROk t)) (OoReq (ROk u)).

(** The rows a party sends when it asks for arithmetic triples. *)
Definition arith_rows {R} (w : nat) (fill : R -> nat -> list bool * R) (H : list bool -> list bool)
  (rs : otr_state R) (b : list Z) : list (nat * list bool) :=
  snd (fst (ext_receive 8 fill H rs (arith_choices w b))).

(** A generator delivers a stream: fewer bits are a prefix of more bits. *)
Definition stream_fill {R} (fill : R -> nat -> list bool * R) : Prop :=
  forall r n m, n <= m -> fst (fill r n) = firstn n (fst (fill r m)).

(** Elements of the ring of [w] bits. *)
Definition ring_elems (w : nat) (l : list Z) : Prop := Forall (fun z => (0 <= z < 2 ^ Z.of_nat w)%Z) l.
