(** Specification vocabulary for the messages of arithmetic multiplication layers. *)
From Coq Require Import List Bool Arith ZArith.
Require Import Verif.Prelude Verif.GateModel Verif.ArithGmwModel Verif.ArithGmwSpec.
Import ListNotations.
Open Scope Z_scope.

(** One multiplication gate as seen from outside: the receiver's share of the triple,
    the sender's shares of the operands, and the two numbers sent
    (arithmetic_gmw.rs 88-101). *)
Record gate_view := GV { gv_t : atriple; gv_x : Z; gv_y : Z; gv_d : Z; gv_e : Z }.

(** Storage with the given triples (mul_triple/arithmetic/mod.rs 12-17). *)
Definition storage_of (us : list atriple) : amts := AMTS (map at_a us) (map at_b us) (map at_c us).

(** Ring elements in all components (mul_triple/arithmetic/mod.rs 19-23). *)
Definition triple_in_ring (w : Z) (u : atriple) : Prop :=
  in_ring w (at_a u) /\ in_ring w (at_b u) /\ in_ring w (at_c u).

(** The sender's shares [us] are valid together with the receiver's and the layer sends the given
    numbers (arithmetic_gmw.rs 80-103). *)
Definition sends (w : Z) (gs : list gate_view) (us : list atriple) : Prop :=
  Forall (triple_in_ring w) us /\ Forall2 (atriple_ok w) (map gv_t gs) us /\
  forall party outs,
    arith_compute_msg w party (repeat AMul (length gs)) outs
      (flat_zpairs (map (fun g => (gv_x g, gv_y g)) gs)) (storage_of us)
    = Some (AMsg (map gv_e gs) (map gv_d gs), storage_of us).

(** Numbers sent are ring elements (arithmetic_gmw.rs 14-17). *)
Definition sent_in_ring (w : Z) (g : gate_view) : Prop := in_ring w (gv_d g) /\ in_ring w (gv_e g).

(** The first component of the shared triple, as fixed by the receiver's share, the
    sender's first operand and the first number sent (arithmetic_gmw.rs 99). *)
Definition fixed_a (g : gate_view) : Z := at_a (gv_t g) + gv_x g - gv_d g.
