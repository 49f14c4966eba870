(** Specification vocabulary for executions: schedules, related values of the
    two parties, setup providers and plaintext valuations. *)
From Coq Require Import List Bool Arith.
Require Import Verif.Prelude Verif.GateModel Verif.ProtocolModel Verif.CircuitModel
  Verif.ExecModel.
Import ListNotations.

(** [all3 R gs xs ys]: equally long lists whose entries are related. *)
Inductive all3 {A B C} (R : A -> B -> C -> Prop) : list A -> list B -> list C -> Prop :=
| all3_nil : all3 R [] [] []
| all3_cons a b c la lb lc : R a b c -> all3 R la lb lc -> all3 R (a :: la) (b :: lb) (c :: lc).

(** The gates released after the messages of a layer are computed; only layers
    with interaction release anything. *)
Definition freed (l : elayer) : list gid :=
  if el_int_count l =? 0 then [] else el_free (el_simd l).

(** One layer is in dependency order relative to the gates whose value is
    available ([Live]) and the gates not yet computed ([Todo]). *)
Record layer_ok {P G} (ops : gate_ops P G) (ec : ecirc G) (Live Todo : gid -> Prop) (l : elayer)
  : Prop := {
  lo_simd : forall sc simd b, In (sc, simd, b) l -> ec_simd ec sc = simd /\ simd <> Some 0;
  lo_ni : forall l1 g l2, el_ni l = l1 ++ g :: l2 ->
     (exists gate, ec_gate ec g = Some gate /\ g_inter ops gate = false) /\
     Todo g /\ ~ In g l1 /\
     (forall p, In p (ec_parents ec g) -> Live p \/ In p l1);
  lo_int_nodup : NoDup (el_int l);
  lo_int : forall g, In g (el_int l) ->
     (exists gate, ec_gate ec g = Some gate /\ g_inter ops gate = true) /\
     Todo g /\ ~ In g (el_ni l) /\
     (forall p, In p (ec_parents ec g) -> Live p \/ In p (el_ni l));
  lo_free : forall f, In f (freed l) ->
     (exists gate, ec_gate ec f = Some gate) /\ (~ Todo f \/ In f (el_ni l)) }.

Definition live_after (Live : gid -> Prop) (l : elayer) : gid -> Prop :=
  fun g => ((Live g \/ In g (el_ni l)) /\ ~ In g (freed l)) \/ In g (el_int l).
Definition todo_after (Todo : gid -> Prop) (l : elayer) : gid -> Prop :=
  fun g => Todo g /\ ~ In g (el_ni l) /\ ~ In g (el_int l).

(** A whole schedule: every layer in order, the outputs available at the end. *)
Fixpoint sched_ok {P G} (ops : gate_ops P G) (ec : ecirc G) (Live Todo : gid -> Prop)
  (ls : list elayer) : Prop :=
  match ls with
  | [] => forall o, In o (ec_outputs ec) -> Live (0, o)
  | l :: r =>
      layer_ok ops ec Live Todo l /\
      sched_ok ops ec (live_after Live l) (todo_after Todo l) r
  end.

(** The sequence of setup requests of an execution. *)
Definition requests {G} (ec : ecirc G) : list nat :=
  filter (fun n => negb (n =? 0)) (map el_int_count (ec_layers ec)).

(** [J ns s0 s1]: the two providers can serve the requests [ns], every time with
    setup data satisfying [ok n]. *)
Definition serves {Sv St : Type} (req : Sv -> nat -> option (St * Sv))
  (ok : nat -> St -> St -> Prop) (J : list nat -> Sv -> Sv -> Prop) : Prop :=
  forall n ns s0 s1, J (n :: ns) s0 s1 ->
  exists st0 st1 s0' s1',
    req s0 n = Some (st0, s0') /\ req s1 n = Some (st1, s1') /\
    ok n st0 st1 /\ J ns s0' s1'.

(** The gate output buffers have an entry of the right kind for every gate. *)
Definition kind_ok {pr : protocol} (ec : ecirc (p_gate pr)) (g : gid) (c : cell pr) : Prop :=
  match c, ec_simd ec (fst g) with
  | CS _, None => True
  | CD _, Some _ => True
  | _, _ => False
  end.

Definition shape_ok {pr : protocol} (ec : ecirc (p_gate pr)) (go : gouts pr) : Prop :=
  forall g gate, ec_gate ec g = Some gate -> exists c, go_cell go g = Some c /\ kind_ok ec g c.
