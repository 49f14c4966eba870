(** Property theorems about circuits and their layers: C09, C10, C51 (one
    circuit). *)
From Coq Require Import List Bool Arith Lia Permutation.
Require Import Verif.Prelude Verif.GateModel Verif.CircuitModel Verif.CircuitSpec
  Verif.CircuitProofs Verif.CircuitProofs2 Verif.CircuitProofs3 Verif.BoolGmwModel.
Import ListNotations.

(** What C09 asks of a list of layers. *)
Definition layering {P G} (ops : gate_ops P G) (c : circuit G) (ls : list blayer) : Prop :=
  (* every gate exactly once *)
  Permutation (concat (map bl_ids ls)) (seq 0 (c_count c)) /\
  (* parents first *)
  (forall i l g p, nth_error ls i = Some l -> In g (bl_ids l) -> In p (parents c g) ->
     (exists j, j < i /\ in_layer ls j p) \/
     (is_int ops c p = false /\ before (bl_ids l) p g)) /\
  (* gates are filed under their kind *)
  (forall i l g, nth_error ls i = Some l ->
     (In g (bl_ni l) -> is_int ops c g = false) /\ (In g (bl_int l) -> is_int ops c g = true)).

Lemma Sched_layering {P G} (ops : gate_ops P G) c ls :
  Sched ops c [] ls -> Permutation (all_ids ls) (seq 0 (c_count c)) -> layering ops c ls.
Proof.
  intros HS HP. split; auto. split.
  - apply Sched_order; auto.
  - apply Sched_kinds; auto.
Qed.

(** ** C09 *)

(** [Some ls]: the iterator terminates and none of its counters underflows. *)
Theorem C09_layers_complete_and_ordered :
  forall (P G : Type) (ops : gate_ops P G) (c : circuit G),
  main_ok ops c ->
  exists ls, c_layers ops c = Some ls /\ layering ops c ls.
Proof.
  intros P G ops c H. destruct (main_layers ops c H) as (ls & A & B & C & _).
  exists ls. split; auto. apply Sched_layering; auto.
Qed.
Print Assumptions C09_layers_complete_and_ordered.

(** The same for sub-circuits iterated with [visit_sc_inputs] ([iter],
    [interactive_iter], [add_sub_circuit]). *)
Theorem C09_sub_layers_complete_and_ordered :
  forall (P G : Type) (ops : gate_ops P G) (c : circuit G),
  sub_ok ops c ->
  exists ls, c_layers_sc ops c = Some ls /\ layering ops c ls.
Proof.
  intros P G ops c H. destruct (sub_layers ops c H) as (ls & A & B & C & _).
  exists ls. split; auto. apply Sched_layering; auto.
Qed.
Print Assumptions C09_sub_layers_complete_and_ordered.

(** The hypothesis holds for all circuits made by wiring new gates to existing
    ones, and such a gate sees its parents in the order they were given. *)
Theorem C09_wired_circuits_meet_hypotheses :
  forall (P G : Type) (ops : gate_ops P G) (c : circuit G), wired ops c -> main_ok ops c.
Proof. exact @wired_main_ok. Qed.
Print Assumptions C09_wired_circuits_meet_hypotheses.

Theorem C09_wired_gate_parent_order :
  forall (P G : Type) (ops : gate_ops P G) (c c' : circuit G) g from id,
  api ops c -> add_wired_gate ops c g from = Some (c', id) ->
  nth_error (c_gates c') id = Some g /\ parents c' id = from /\
  (forall x, x <> id -> parents c' x = parents c x).
Proof.
  intros P G ops c c' g from id Ha E.
  destruct (add_wired_gate_spec ops c c' g from id Ha E) as (_ & -> & Eg & Ep & _).
  split; [|split].
  - rewrite Eg. unfold c_count. rewrite nth_error_app2, Nat.sub_diag by auto. auto.
  - rewrite Ep, Nat.eqb_refl. auto.
  - intros x Hx. rewrite Ep. apply Nat.eqb_neq in Hx. rewrite Hx. auto.
Qed.
Print Assumptions C09_wired_gate_parent_order.

(** A circuit with two inputs, a constant, fan-out, a gate using the same wire
    twice, two AND layers and an output:
    0 in, 1 in, 2 const, 3 = 0&1, 4 = 3^3, 5 = 4^2, 6 = 5&0, 7 = inv 6, 8 out 7,
    9 out 5. *)
Definition ex_put (c : circuit bool_gate) (g : bool_gate) (from : list nat) : circuit bool_gate :=
  match add_wired_gate bool_ops c g from with Some (c', _) => c' | None => c end.
Definition ex_circ : circuit bool_gate :=
  let src c b := fst (add_gate bool_ops c (BBase b)) in
  let c := src (src (src c_new_main GInput) GInput) (GConstant true) in
  let c := ex_put c BAnd [0; 1] in
  let c := ex_put c BXor [3; 3] in
  let c := ex_put c BXor [4; 2] in
  let c := ex_put c BAnd [5; 0] in
  let c := ex_put c BInv [6] in
  let c := ex_put c (BBase GOutput) [7] in
  ex_put c (BBase GOutput) [5].

Lemma ex_put_wired c g from :
  wired bool_ops c -> is_input_gate bool_ops g || is_const_gate bool_ops g = false ->
  from <> [] -> Forall (fun f => f < c_count c) from ->
  (exists r, add_wired_gate bool_ops c g from = Some r) ->
  wired bool_ops (ex_put c g from).
Proof.
  intros Hw Hk Hne Hf ([c' id] & E). unfold ex_put. rewrite E. eapply wired_gate; eauto.
Qed.

Lemma ex_circ_wired : wired bool_ops ex_circ.
Proof.
  unfold ex_circ.
  repeat (apply ex_put_wired;
    [ | reflexivity | discriminate
      | repeat constructor
      | eexists; vm_compute; reflexivity ]).
  repeat (apply wired_source; [|reflexivity]). apply wired_main.
Qed.

Example C09_case :
  wired bool_ops ex_circ /\
  c_layers bool_ops ex_circ =
    Some [BL [2; 0; 1] [3] []; BL [4; 5; 9] [6] []; BL [7; 8] [] []].
Proof. split; [exact ex_circ_wired|vm_compute; reflexivity]. Qed.

(** A circuit outside the class: a gate wired to itself is never emitted. *)
Definition ex_cycle0 : circuit bool_gate :=
  fst (add_gate bool_ops (fst (add_gate bool_ops c_new_main (BBase GInput))) (BBase GIdentity)).
Definition ex_cycle : circuit bool_gate :=
  match add_wire ex_cycle0 1 1 with Some c => c | None => c_new end.
Example C09_cycle_not_covered :
  api bool_ops ex_cycle /\ c_count ex_cycle = 2 /\
  c_layers bool_ops ex_cycle = Some [BL [0] [] []].
Proof.
  split; [|split; vm_compute; reflexivity].
  apply (api_wire bool_ops ex_cycle0 1 1).
  - apply api_gate, api_gate, api_main.
  - reflexivity.
Qed.

(** ** C10 *)

(** The layer of every gate is its multiplicative depth ... *)
Theorem C10_layer_is_depth :
  forall (P G : Type) (ops : gate_ops P G) (c : circuit G) ls,
  main_ok ops c -> c_layers ops c = Some ls ->
  forall i g, in_layer ls i g -> mult_depth ops c g i.
Proof.
  intros P G ops c ls H E. destruct (main_layers ops c H) as (ls' & A & B & C & D & _).
  rewrite E in A. injection A as <-. auto.
Qed.
Print Assumptions C10_layer_is_depth.

(** ... and the number of layers with communication is the largest number of
    interactive gates on a path. *)
Theorem C10_rounds_equal_depth :
  forall (P G : Type) (ops : gate_ops P G) (c : circuit G) ls,
  main_ok ops c -> c_layers ops c = Some ls ->
  circuit_depth ops c (rounds ls) /\ length ls <= S (rounds ls).
Proof.
  intros P G ops c ls H E. destruct (main_layers ops c H) as (ls' & A & B & C & D & F).
  rewrite E in A. injection A as <-. split.
  - apply layers_depth; auto. apply (aw_range ops). apply api_api_wf. apply H.
  - destruct (rounds_char ls F) as [R _].
    destruct (Nat.leb_spec (length ls) (S (rounds ls))) as [L|L]; auto. exfalso.
    destruct (nth_error ls (rounds ls)) as [l|] eqn:E1;
      [|apply nth_error_None in E1; lia].
    destruct (nth_error ls (S (rounds ls))) as [l'|] eqn:E2;
      [|apply nth_error_None in E2; lia].
    pose proof (F _ _ _ E1 E2) as Hne. apply (R _ _ E1) in Hne. lia.
Qed.
Print Assumptions C10_rounds_equal_depth.

(** Depth 2 for the example: the path 0 - 3 - 4 - 5 - 6. *)
Example C10_case :
  (exists ls, c_layers bool_ops ex_circ = Some ls /\ rounds ls = 2) /\
  int_path bool_ops ex_circ 6 1 /\ is_int bool_ops ex_circ 6 = true.
Proof.
  split; [eexists; split; vm_compute; reflexivity|]. split; [|reflexivity].
  apply (ip_step bool_ops ex_circ 5 6 1); [vm_compute; auto|].
  apply (ip_step bool_ops ex_circ 4 5 1); [vm_compute; auto|].
  apply (ip_step bool_ops ex_circ 3 4 0); [vm_compute; auto|].
  apply (ip_step bool_ops ex_circ 0 3 0); [vm_compute; auto|].
  apply ip_root. reflexivity.
Qed.

(** ** C51, one circuit *)

(** A gate released in a layer has been computed, all its consumers in the same
    circuit are in that layer or an earlier one, and its last consumer is in
    that layer.  Missing: consumers in other circuits (refuted for several
    circuits below, in the multi-circuit part). *)
Theorem C51_freed_gates_not_needed_partial :
  forall (P G : Type) (ops : gate_ops P G) (c : circuit G) ls,
  main_ok ops c -> c_layers ops c = Some ls ->
  forall i l f, nth_error ls i = Some l -> In f (bl_free l) ->
    ((exists j, j < i /\ in_layer ls j f) \/ In f (bl_ni l)) /\
    (forall h, In f (parents c h) -> exists j, j <= i /\ in_layer ls j h) /\
    (exists h, In f (parents c h) /\ In h (bl_ids l)).
Proof.
  intros P G ops c ls H E. destruct (main_layers ops c H) as (ls' & A & B & C & D & F).
  rewrite E in A. injection A as <-. apply (Sched_free ops); auto.
Qed.
Print Assumptions C51_freed_gates_not_needed_partial.

Example C51_case_one_circuit :
  c_layers bool_ops (c_set_simd ex_circ 4) =
    Some [BL [2; 0; 1] [3] [1]; BL [4; 5; 9] [6] [3; 4; 2; 5; 0]; BL [7; 8] [] [6; 7]].
Proof. vm_compute. reflexivity. Qed.
