(** The Bristol tool: its circuits are programs that can be executed, and what
    their gates carry. *)
From Coq Require Import List Bool Arith Lia.
Require Import Verif.Prelude Verif.PreludeProofs Verif.GateModel Verif.CircuitModel Verif.CircuitSpec Verif.CircuitProofs
  Verif.CircuitProofs2 Verif.CircuitProofs3 Verif.ExecModel Verif.BoolGmwModel Verif.BoolGmwSpec Verif.InlineModel Verif.InlineSpec
  Verif.BristolSpec Verif.BristolProofs Verif.ExecCircuitSpec Verif.BristolTheorems Verif.ConnModel Verif.ConnSpec Verif.ConnProofs Verif.ConnProofs2
  Verif.BuilderModel Verif.BuilderSpec Verif.BuilderProofs Verif.BuilderProofs2 Verif.CbcModel Verif.CbcSpec Verif.CbcProofs
  Verif.MultiModel Verif.MultiSpec Verif.MultiProofs Verif.MultiTheorems Verif.SubCircModel Verif.MultiExecSpec Verif.MultiExecProofs Verif.MultiExecProofs2 Verif.MultiExecTheorems
  Verif.CbcScModel Verif.CbcScProofs Verif.CbcScProofs2 Verif.CbcScProofs3 Verif.CbcScProofs4
  Verif.StaticModel Verif.StaticSpec Verif.StaticExecTheorems Verif.BristolToolModel Verif.BristolToolProofs.
Import ListNotations.

(** ** Nothing in a loaded circuit reads its outputs *)

Definition bounded (c : circuit bool_gate) (wm : list nat) : Prop :=
  (forall p g, In (p, g) (c_edges c) -> p < c_count c) /\ Forall (fun w => w < Nat.max 1 (c_count c)) wm.

Lemma bounded_gate c wm g : bounded c wm -> bounded (fst (add_gate bool_ops c g)) wm.
Proof.
  intros [H1 H2]. unfold add_gate. cbn [fst]. split; unfold c_count in *; cbn [c_edges c_gates]; rewrite app_length; cbn [length].
  - intros p x H. apply H1 in H. lia.
  - eapply Forall_impl; [|exact H2]. cbn beta. intros w Hw. lia.
Qed.
Lemma gate_count c g : c_count (fst (add_gate bool_ops c g)) = S (c_count c).
Proof. unfold add_gate, c_count. cbn. rewrite app_length. cbn. lia. Qed.

Lemma inputs_bounded l m : forall i st, bounded (fst st) (snd st) ->
  bounded (fst (br_inputs bool_ops l m i st)) (snd (br_inputs bool_ops l m i st)) /\
  c_count (fst (br_inputs bool_ops l m i st)) = c_count (fst st) + m.
Proof.
  induction m as [|m IH]; intros i [c wm] H; cbn [br_inputs fst snd] in *; [split; auto|].
  pose proof (bounded_gate c wm (g_wrap bool_ops (load_in l)) H) as H1. pose proof (gate_count c (g_wrap bool_ops (load_in l))) as HC.
  destruct (add_gate bool_ops c (g_wrap bool_ops (load_in l))) as [c1 id] eqn:E.
  assert (Eid : id = c_count c) by (unfold add_gate in E; injection E as _ <-; reflexivity). cbn [fst] in *.
  destruct (IH (S i) (c1, upd i id wm)) as [A B]; cbn [fst snd].
  - destruct H1 as [X Y]. split; auto. apply Forall_upd; auto. lia.
  - split; auto. cbn [fst] in B. rewrite B, HC. lia.
Qed.

Lemma map_out_bounded id b : forall outs wm wm', br_map_out outs id wm = Some wm' -> id < b -> Forall (fun w => w < b) wm -> Forall (fun w => w < b) wm'.
Proof.
  induction outs as [|w r IH]; intros wm wm' H Hi HF; cbn [br_map_out] in H; [injection H as <-; auto|].
  destruct (w <? length wm); [|discriminate]. apply (IH _ _ H Hi). apply Forall_upd; auto.
Qed.

Lemma wire_in_bounded id wm : forall ins (c c' : circuit bool_gate), br_wire_in ins id wm c = Some (Some c') -> bounded c wm -> bounded c' wm /\ c_count c' = c_count c.
Proof.
  induction ins as [|w r IH]; intros c c' H HB; cbn [br_wire_in] in H; [injection H as <-; auto|].
  destruct (nth_error wm w) as [x|]; [|discriminate]. unfold add_wire in H.
  destruct ((x <? c_count c) && (id <? c_count c)) eqn:E; [|discriminate]. cbn [obind] in H. apply IH in H.
  - destruct H as [A B]. split; auto.
  - destruct HB as [H1 H2]. apply andb_true_iff in E. destruct E as [E _]. apply Nat.ltb_lt in E.
    split; unfold c_count in *; cbn [c_edges c_gates]; auto. intros p g [F|F]; [injection F as <- <-; auto|eauto].
Qed.

Lemma gates_bounded : forall gs c wm c' wm', br_gates_loop bool_ops bool_from_br gs c wm = Some (Some (c', wm')) -> bounded c wm ->
  bounded c' wm' /\ c_count c <= c_count c'.
Proof.
  induction gs as [|g r IH]; intros c wm c' wm' H HB; cbn [br_gates_loop] in H; [injection H as <- <-; auto|].
  pose proof (bounded_gate c wm (bool_from_br (br_op g)) HB) as B1. pose proof (gate_count c (bool_from_br (br_op g))) as HC.
  destruct (add_gate bool_ops c (bool_from_br (br_op g))) as [c1 id] eqn:E1. assert (Eid : id = c_count c) by (unfold add_gate in E1; injection E1 as _ <-; reflexivity). cbn [fst] in *.
  destruct (br_map_out (br_out g) id wm) as [wm1|] eqn:E2; [|discriminate].
  assert (B2 : bounded c1 wm1) by (destruct B1 as [X Y]; split; auto; apply (map_out_bounded id _ _ _ _ E2); auto; lia).
  destruct (br_wire_in (br_in g) id wm1 c1) as [[c2|]|] eqn:E3; cbn [obind] in H; try discriminate.
  destruct (wire_in_bounded _ _ _ _ _ E3 B2) as [B3 C3]. destruct (IH _ _ _ _ H B3). split; auto. lia.
Qed.

Lemma outputs_bounded o : forall ws c c', br_outputs bool_ops LoadSub ws c = Some c' -> Forall (fun w => w < o) ws ->
  (forall p g, In (p, g) (c_edges c) -> p < o) -> forall p g, In (p, g) (c_edges c') -> p < o.
Proof.
  induction ws as [|w r IH]; intros c c' H HF HE; cbn [br_outputs] in H; [injection H as <-; auto|].
  destruct (add_gate bool_ops c (g_wrap bool_ops (load_out LoadSub))) as [c1 id] eqn:E1.
  unfold add_wire in H. destruct ((w <? c_count c1) && (id <? c_count c1)); [|discriminate]. cbn [obind] in H.
  refine (IH _ _ H _ _); [inversion HF; auto|]. cbn [c_edges]. unfold add_gate in E1. injection E1 as <- _. cbn [c_edges].
  intros p g [F|F]; [injection F as <- <-; inversion HF; auto|eauto].
Qed.

Lemma bristol_last b sub : 0 < br_total_in b -> from_bristol bool_ops bool_from_br b LoadSub = Some (Some sub) ->
  exists o, c_scouts sub = seq o (length (c_scouts sub)) /\ c_count sub = o + length (c_scouts sub) /\ forall x, o <= x -> children sub x = [].
Proof.
  intros Hin H. destruct (bristol_scouts b sub H) as (o & Ho & Hc). exists o. split; auto. split; auto. revert H.
  unfold from_bristol. destruct (br_total_in b <=? bh_wires (bc_header b)); [|discriminate]. cbn [oassert obind].
  destruct (br_inputs bool_ops LoadSub (br_total_in b) 0 (c_new, repeat 0 (bh_wires (bc_header b)))) as [c0 wm0] eqn:E0.
  destruct (br_gates_loop bool_ops bool_from_br (bc_gates b) c0 wm0) as [[[c1 wm]|]|] eqn:E1; cbn [obind]; try discriminate.
  destruct (br_total_out b <=? bh_wires (bc_header b)); [|discriminate]. cbn [oassert obind].
  destruct (br_outputs bool_ops LoadSub (skipn (bh_wires (bc_header b) - br_total_out b) wm) c1) as [c2|] eqn:E2; cbn [obind]; [|discriminate].
  intros H. injection H as <-.
  destruct (inputs_bounded LoadSub (br_total_in b) 0 (c_new, repeat 0 (bh_wires (bc_header b)))) as [B0 C0].
  { split; [intros p g []|]. cbn [fst snd]. apply Forall_forall. intros w Hw. apply repeat_spec in Hw. lia. }
  rewrite E0 in B0, C0. cbn [fst snd] in B0, C0. change (c_count (@c_new bool_gate)) with 0 in C0.
  destruct (gates_bounded _ _ _ _ _ E1 B0) as [[B1 B2] C1].
  destruct (br_outputs_scouts _ _ _ E2) as [S1 S2]. apply br_gates_scouts in E1 as E1'.
  pose proof (br_inputs_scouts (br_total_in b) 0 (c_new, repeat 0 (bh_wires (bc_header b)))) as HI. rewrite E0 in HI. cbn [fst] in HI.
  rewrite HI in E1'. cbn [c_new c_scouts] in E1'. rewrite E1' in S1. cbn [app] in S1.
  assert (Eo : o = c_count c1) by (rewrite S1, seq_length in Hc; lia). subst o.
  assert (HE : forall p g, In (p, g) (c_edges c2) -> p < c_count c1).
  { apply (outputs_bounded _ _ _ _ E2); auto. apply Forall_forall. intros w Hw. rewrite Forall_forall in B2.
    assert (Hx : In w wm) by (rewrite <- (firstn_skipn (bh_wires (bc_header b) - br_total_out b) wm); apply in_or_app; auto).
    specialize (B2 w Hx). lia. }
  intros x Hx. unfold children. destruct (filter (fun e => fst e =? x) (c_edges c2)) as [|[p g] l] eqn:EF; auto. exfalso.
  assert (HF : In (p, g) (filter (fun e => fst e =? x) (c_edges c2))) by (rewrite EF; left; auto).
  apply filter_In in HF. destruct HF as [HF1 HF2]. apply Nat.eqb_eq in HF2. cbn [fst] in HF2. apply HE in HF1. lia.
Qed.

(** ** What the gates of an executed program carry, lane by lane *)

Section Lane.
Variables (W imax : nat) (m : mcirc bool_gate) (cl : list (circuit bool_gate)) (h : list (gid * gid)) (simd : option nat).
Hypothesis HW : 0 < W.
Hypothesis P1 : forall k, mc_get m k = nth_error cl k.
Hypothesis P2 : circuits_ok bool_ops (mc_get m).
Hypothesis P3 : wires_ok bool_ops (mc_get m) h.
Hypothesis P4 : wired_as imax m h.
Hypothesis P5 : all_callable bool_ops (mc_get m) h.
Hypothesis P7 : program_base W cl simd.
Variables (ins : list (list bool)) (v : nat -> list bool).
Hypothesis Hv : plain_value (inline_all bool_ops cl h) ins v.
Definition lane_count : nat := match simd with Some n => n | None => 1 end.
Variable i : nat.
Hypothesis Hi : i < lane_count.
Let w (k g : nat) : bool := nth i (v (flat_id cl (k, g))) false.

Lemma lane_length k c g x : nth_error cl k = Some c -> nth_error (c_gates c) g = Some x -> length (v (flat_id cl (k, g))) = lane_count.
Proof.
  intros Hk Hg. destruct (flat_spec W m h cl simd P1 P2 P3 P5 P7) as (c0 & _ & _ & Eg & Es & _).
  pose proof (flat_gate cl k c g x Hk Hg) as Hf. rewrite <- Eg in Hf. destruct (Hv _ _ Hf) as [HL _].
  unfold c_lanes in HL. rewrite Es in HL. exact HL.
Qed.

Lemma lane_gate k c g x : nth_error cl k = Some c -> nth_error (c_gates c) g = Some x -> x <> BBase GInput ->
  bool_gate_sem x (map (fun p : gid => w (fst p) (snd p)) (map (pair k) (parents c g) ++ sources_of h (k, g))) = Some (w k g).
Proof.
  intros Hk Hg Hx. destruct (flat_spec W m h cl simd P1 P2 P3 P5 P7) as (c0 & _ & _ & Eg & Es & _).
  pose proof (flat_gate cl k c g x Hk Hg) as Hf. rewrite <- Eg in Hf. destruct (Hv _ _ Hf) as [_ HV].
  unfold c_lanes in HV. rewrite Es in HV. fold lane_count in HV.
  assert (Hlt : g < c_count c) by (apply nth_error_Some; congruence).
  assert (HS : bool_gate_sem x (map (fun p => nth i (v p) false) (parents (inline_all bool_ops cl h) (flat_id cl (k, g)))) = Some (w k g)).
  { destruct x as [[]| | |]; try (apply HV; exact Hi). congruence. }
  rewrite (flat_parents' W HW m imax h cl P1 P2 P3 P4 P5 k c g Hk Hlt), map_map in HS.
  rewrite (mc_parents_eq W HW m imax h cl P1 P3 P4 k c g Hk) in HS. rewrite <- HS. reflexivity.
Qed.

Lemma lane_valued k c : nth_error cl k = Some c -> bval c (w k).
Proof.
  intros Hk g x Hx Hs. assert (Hn : x <> BBase GInput) by (intros ->; discriminate).
  pose proof (lane_gate k c g x Hk Hx Hn) as H.
  rewrite (not_wired m h cl P1 P2 P3 k c g x Hk Hx), app_nil_r, map_map in H; [exact H|].
  destruct x as [[]| | |]; try discriminate; reflexivity.
Qed.

Lemma lane_wire p t : In (p, t) h -> w (fst t) (snd t) = w (fst p) (snd p).
Proof.
  intros Hin. destruct t as [k g]. cbn [fst snd].
  destruct (scin_target m h cl P1 P2 P3 p k g Hin) as (c & x & Hk & Hg & Hs & Hp).
  pose proof (lane_gate k c g x Hk Hg ltac:(intros ->; discriminate)) as H.
  pose proof (sources_short m h P3 (k, g)) as HL. apply (sources_In h) in Hin. rewrite Hp in H. cbn [map app] in H.
  destruct (sources_of h (k, g)) as [|q [|]]; [destruct Hin| |cbn [length] in HL; lia].
  destruct Hin as [->|[]]. cbn [map] in H. destruct x as [[]| | |]; try discriminate; cbn in H; congruence.
Qed.

(** The inputs of the main circuit, if they are its first [a] gates. *)
Lemma lane_inputs a c0 : nth_error cl 0 = Some c0 -> c_inputs c0 = seq 0 a -> length ins = a ->
  (forall g, g < a -> nth_error (c_gates c0) g = Some (BBase GInput)) -> c_inputs (inline_all bool_ops cl h) = c_inputs c0 ->
  map (w 0) (seq 0 a) = map (fun x => nth i x false) ins.
Proof.
  intros H0 HI HL HG Ei. apply nth_ext with (d := false) (d' := nth i [] false); [rewrite !map_length, seq_length; auto|].
  intros g Hg. rewrite map_length, seq_length in Hg.
  rewrite (map_nth (fun x => nth i x false)). rewrite (nth_indep _ false (w 0 0)) by (rewrite map_length, seq_length; auto).
  rewrite map_nth, seq_nth by auto. cbn [Nat.add]. unfold w.
  destruct (flat_spec W m h cl simd P1 P2 P3 P5 P7) as (c0' & _ & _ & Eg & _).
  pose proof (flat_gate cl 0 c0 g _ H0 (HG g Hg)) as Hf. rewrite <- Eg in Hf. destruct (Hv _ _ Hf) as [_ (j & J1 & J2)].
  rewrite Ei, HI in J1. rewrite (flat_main_id W m h cl simd P1 P7) in *.
  assert (Hj : j < a) by (rewrite <- (seq_length a 0); apply nth_error_Some; congruence).
  rewrite (nth_error_nth' _ 0), seq_nth in J1 by (rewrite ?seq_length; auto). injection J1 as J1. cbn [Nat.add] in J1. subst j.
  f_equal. symmetry. apply nth_error_nth. exact J2.
Qed.
End Lane.
