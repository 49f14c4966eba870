(** C69: what a party sees in a session of the ABY2.0 protocol. *)
From Coq Require Import List Bool Arith Lia Permutation.
Require Import Verif.Prelude Verif.PreludeProofs Verif.GateModel Verif.ProtocolModel Verif.CircuitModel
  Verif.CircuitSpec Verif.CircuitProofs Verif.CircuitProofs2 Verif.CircuitProofs3
  Verif.ExecModel Verif.ExecSpec Verif.ExecProofs Verif.ExecCircuitProofs Verif.ExecTheorems Verif.ExecLayerProofs
  Verif.PartyModel Verif.PrivacySpec Verif.PrivacyProofs
  Verif.Aby2Model Verif.Aby2Spec Verif.Aby2Proofs Verif.Aby2ExecProofs Verif.Aby2CircuitProofs Verif.Aby2Theorems
  Verif.ConnModel Verif.ConnSpec Verif.MultiModel Verif.MultiSpec Verif.MultiTheorems Verif.CircuitCheck
  Verif.Aby2PrivSpec Verif.Aby2PrivProofs Verif.Aby2TwinProofs Verif.Aby2LeakProofs.
Import ListNotations.
Open Scope nat_scope.

Lemma deltas_eq s xs sh d s' : ds_share s xs = (sh, d, s') ->
  d = zip_with xorb (zip_with xorb xs (draws (ds_priv s) (length xs))) (draws (ds_local s) (length xs)) /\
  ds_remote s' = ds_remote s.
Proof. rewrite ds_share_spec. intros E. injection E as _ <- <-. auto. Qed.

(** A share of the other party is determined by the value and the own share. *)
Lemma other_outs v v' l0 l1 k1 gs : forall o0 o1 o1',
  (forall g, In g gs -> v g = v' g) ->
  all3 (ARS v l0 l1) gs o0 o1 -> all3 (ARS v' l0 k1) gs o0 o1' -> o1 = o1'.
Proof.
  induction gs as [|g gs IH]; intros o0 o1 o1' Hv A B.
  - apply all3_nil_inv in A, B. destruct A as [_ ->], B as [_ ->]. auto.
  - destruct (all3_cons_inv _ _ _ _ _ A) as (a & b & ra & rb & -> & -> & ((P & Q) & _) & A').
    destruct (all3_cons_inv _ _ _ _ _ B) as (a' & b' & ra' & rb' & E & -> & ((P' & Q') & _) & B').
    injection E as <- <-. f_equal; [|eapply IH; eauto; intros; apply Hv; cbn; auto].
    rewrite (Hv g (or_introl eq_refl)), Q' in Q. destruct b as [bp bs], b' as [bp' bs']. cbn in *. subst bp bp'. f_equal.
    destruct (as_pub a), (as_priv a), bs, bs'; cbn in Q; congruence.
Qed.
Lemma ARS_flip v l0 l1 gs : forall o0 o1, all3 (ARS v l0 l1) gs o0 o1 -> all3 (ARS v l1 l0) gs o1 o0.
Proof.
  induction 1 as [|g a b gs o0 o1 ((P & Q) & R & S) H IH]; constructor; auto.
  split; auto. split; auto. rewrite Q, P. destruct (as_pub b), (as_priv a), (as_priv b); reflexivity.
Qed.

(** Whatever inputs the other party [q] has, party [p] sees the same: there is a change of the private
    generator of [q] that depends on the inputs only (so that it maps the equally likely
    streams of [q] one to one onto each other), and after it [q] with other inputs and
    some valid setup data makes [p] see what it has seen before.  If the outputs of the
    circuit are also the same, so are the output shares of [q] that are revealed at the end.
    Missing: circuits made of several circuits, for which the claim is false
    ([C69_sub_circuit_refuted]). *)
Theorem C69_same_view_partial : forall c m os,
  main_ok aby_ops c -> c_simd c = None -> aby_operands c ->
  (forall n, In (AAnd n) (c_gates c) -> n <= 2) ->
  omap m (c_inputs c) = Some os -> (forall g, m g <> None -> In g (c_inputs c)) ->
  exists ec, ec_of_base aby_ops c = Some ec /\
  forall p q, roles p q ->
  forall xs xs' : nat -> list bool,
  length (xs 0) = owned ByP0 os -> length (xs 1) = owned ByP1 os ->
  length (xs' 0) = owned ByP0 os -> length (xs' 1) = owned ByP1 os -> xs' p = xs p ->
  exists v v' d, aby_plain c (merge os (xs 0) (xs 1)) v /\ aby_plain c (merge os (xs' 0) (xs' 1)) v' /\
  forall joint priv E w, session ec m os joint priv xs E w ->
  exists E' w', session ec m os joint (shifted q d priv) xs' E' w' /\ E' p = E p /\ sees_same p q w w' /\
    (map v (c_outputs c) = map v' (c_outputs c) -> sd_outs (w' q) = sd_outs (w q)).
Proof.
  intros c m os Hm Hs Ho Hf Hos Hmi.
  destruct (base_sched aby_ops c Hm) as (ls & Els & Eec & HP & HS & HSO); [congruence|auto|].
  exists (ec_base c ls). split; auto.
  intros p q Hpq xs xs' L0 L1 L0' L1' Hxp.
  pose proof (omap_length _ _ _ Hos) as Los.
  destruct (aby_plain_exists c Hm Ho ls HS HP (merge os (xs 0) (xs 1))) as (v & Hv). { rewrite merge_length; auto. }
  destruct (aby_plain_exists c Hm Ho ls HS HP (merge os (xs' 0) (xs' 1))) as (v' & Hv'). { rewrite merge_length; auto. }
  exists v, v', (shift_of c ls (by_map q m) v v'). split; auto. split; auto.
  intros joint priv E w (s & t & s1 & t1 & go0 & go1 & sh0 & sh1 & s' & t' & go0' & go1' & r0 & r1 & Es & Et & Fs & Ft & HE & X0 & X1 & P0 & P1).
  set (ec := ec_base c ls) in *.
  pose proof (b_typed c Hm Hs Ho ls) as HT.
  pose proof (aby_base_valuation c ls _ _ Hv) as Vv. pose proof (aby_base_valuation c ls _ _ Hv') as Vv'.
  fold ec in Vv, Vv'.
  destruct (b_setup c Hm Hs Ho ls Els HS HP s) as (s1a & go0a & Fs' & Sh0 & M0 & G0 & I0).
  fold ec in Fs'. rewrite Fs in Fs'. injection Fs' as <- <-.
  destruct (b_setup c Hm Hs Ho ls Els HS HP t) as (t1a & go1a & Ft' & Sh1 & M1 & G1 & I1).
  fold ec in Ft'. rewrite Ft in Ft'. injection Ft' as <- <-.
  pose proof (b_fan c Hf ls) as HF. pose proof (b_nodup c Hm ls) as HN. fold ec in HF, HN.
  cbn in Es, Et. injection Es as <-. injection Et as <-.
  cbn [ds_map ds_priv ds_remote] in I0, I1.
  rewrite (input_draws_merge m (c_inputs c) os _ _ _ Hos) in I0 by auto.
  rewrite (input_draws_merge m (c_inputs c) os _ _ _ Hos) in I1 by auto. cbn [Nat.eqb] in I0, I1.
  set (dd := fun g : gid => xorb (v (snd g)) (v' (snd g))).
  assert (Hdd : aby_masks ec dd) by exact (valuations_masks ec _ _ _ _ Vv Vv').
  set (sA := DS (Rng (priv 0) 0) (Rng (joint 0) 0) (Rng (joint 1) 0) (by_map 0 m)) in *.
  set (tA := DS (Rng (priv 1) 0) (Rng (joint 1) 0) (Rng (joint 0) 0) (by_map 1 m)) in *.
  destruct (b_inputs c ls m os Hos sA tA (xs 0) (xs 1) sh0 (sd_deltas (w 0)) s' sh1 (sd_deltas (w 1)) t' (mask_at go0) (mask_at go1)) as (IN & LN0 & LN1); auto.
  pose proof (world_layers ec (fun g => v (snd g)) (mask_at go0) (mask_at go1) _ HT HF Vv M0 M1 HN _ _ IN) as WA.
  pose proof (b_start c ls HSO (fun g => v (snd g)) _ _ go0 go1 Sh0 Sh1 G0 G1) as BA.
  pose proof (b_J c Hm Hs Ho ls HS HSO _ _ _ _ HE) as JA.
  assert (Hiter : forall g, In g (ec_int_iter ec) -> ec_gate ec g <> None).
  { intros g Hg. unfold ec_int_iter in Hg. apply filter_In in Hg. destruct Hg as [_ Hg].
    destruct (ec_gate ec g); congruence. }
  destruct Hpq as [[-> ->]|[-> ->]].
  - (* party 0 watches *)
    set (priv' := shifted 1 (shift_of c ls (by_map 1 m) v v') priv).
    set (tB := DS (Rng (priv' 1) 0) (Rng (joint 1) 0) (Rng (joint 0) 0) (by_map 1 m)).
    destruct (b_setup c Hm Hs Ho ls Els HS HP tB) as (t1B & goB & FtB & ShB & MB & GB & IB).
    cbn [ds_map ds_priv ds_remote tB] in IB. rewrite (input_draws_merge m (c_inputs c) os _ _ _ Hos) in IB by auto. cbn [Nat.eqb] in IB.
    destruct (b_shift c Hm Hs Ho ls Els HS HP m os Hos Hmi 1 v v' (xs 0) (xs 1) (xs' 0) (xs' 1) (priv 1) joint tA tB t1 go1 t1B goB) as (MS & DR); auto.
    { discriminate. }
    cbn [Nat.eqb] in DR. fold dd in MS.
    destruct (eval_other c ls _ _ (mask_at goB) _ _ _ HE) as (EB & HEB).
    destruct (ds_share tB (xs' 1)) as [[shB dB] tB'] eqn:XB.
    assert (dB = sd_deltas (w 1)) as ->.
    { destruct (deltas_eq _ _ _ _ _ X1) as [-> _]. destruct (deltas_eq _ _ _ _ _ XB) as [-> _].
      rewrite L1, L1'. rewrite DR. cbn [ds_local tA tB]. f_equal. apply xor_back; rewrite draws_length; auto. }
    set (lB := xf (mask_at go1) dd).
    assert (MB' : aby_masks ec lB) by (apply masks_xor; auto).
    destruct (b_inputs c ls m os Hos sA tB (xs' 0) (xs' 1) sh0 (sd_deltas (w 0)) s' shB (sd_deltas (w 1)) tB' (mask_at go0) lB) as (INB & LB0 & LB1); auto.
    { rewrite Hxp. exact X0. }
    { change (map (fun i => mask_at goB (0, i)) (c_inputs c) =
        merge os (draws (Rng (joint 0) 0) (owned ByP0 os)) (draws (Rng (priv' 1) 0) (owned ByP1 os))) in IB.
      transitivity (map (fun i => mask_at goB (0, i)) (c_inputs c)); [|exact IB].
      apply map_ext_in. intros i Hi. symmetry. apply MS. rewrite (b_input c Hm ls i Hi). discriminate. }
    assert (GB' : forall g, ec_gate ec g <> None -> exists s, go_get (pr:=aby2) goB g = Some (@CS aby2 s) /\ as_priv s = lB g).
    { intros g Hg. destruct (GB g Hg) as (x & Y1 & Y2). exists x. split; auto. rewrite Y2. apply MS. auto. }
    pose proof (world_layers ec (fun g => v' (snd g)) (mask_at go0) lB _ HT HF Vv' M0 MB' HN _ _ INB) as WB.
    pose proof (b_start c ls HSO (fun g => v' (snd g)) _ _ go0 goB Sh0 ShB G0 GB') as BB.
    assert (HEB' : all3 (eval_ok ec (mask_at go0) lB) (ec_int_iter ec) (E 0) EB).
    { apply (eval_ext c ls HS HP (mask_at go0) (mask_at goB)); auto. }
    pose proof (b_J c Hm Hs Ho ls HS HSO _ _ _ _ HEB') as JB.
    eapply world_step_ext in WB.
    2:{ intros g. instantiate (1 := fun g => xorb (xorb (v (snd g)) (mask_at go0 g)) (mask_at go1 g)).
        unfold lB, xf, dd. cbn beta. destruct (v (snd g)), (v' (snd g)), (mask_at go0 g), (mask_at go1 g); reflexivity. }
    destruct (twin_run ec 0 1 _ _ _ _ _ _ _ _ go0 go1 goB _ _ _
       (all3 (ARS (fun g => v (snd g)) (mask_at go0) (mask_at go1)) (map (pair 0) (ec_outputs ec)))
       (all3 (ARS (fun g => v' (snd g)) (mask_at go0) lB) (map (pair 0) (ec_outputs ec)))
       WA WB BA BB JA JB LN0 LN1 LB1) as (mp & mq & op & oq & oq' & gp1 & gq1 & gq2 & r & ra & rb & Y0 & Y1 & Y2 & RA & RB).
    { intros a b. apply (b_outputs c Hm Hs Ho ls). }
    { intros a b. apply (b_outputs c Hm Hs Ho ls). }
    destruct (run_unique (P:=aby2) aby_request 0 1 ec _ _ go0 go1 _ _ _ _ _ _ _ _ _ _ P0 P1 Y0 Y1) as (U0 & U1 & U2 & U3).
    injection U2 as U2 _ _. injection U3 as U3 _ _.
    exists (fun r => if r =? 0 then E 0 else EB), (fun r => if r =? 0 then w 0 else Side (sd_deltas (w 1)) mq oq').
    cbn [Nat.eqb]. split; [|split; [reflexivity|split; [|]]].
    + exists sA, tB, s1, t1B, go0, goB, sh0, shB, s', tB', gp1, gq2, r, rb. cbn [Nat.eqb sd_deltas sd_msgs sd_outs].
      split; [reflexivity|]. split; [reflexivity|]. split; [exact Fs|]. split; [exact FtB|]. split; [exact HEB|].
      split; [rewrite Hxp; exact X0|]. split; [exact XB|]. rewrite U0, U2. split; [exact Y0|exact Y2].
    + split; [reflexivity|]. split; [reflexivity|]. cbn. auto.
    + intros HO. cbn [sd_outs]. rewrite U3. symmetry. eapply other_outs; [|exact RA|exact RB].
      intros g Hg. apply in_map_iff in Hg. destruct Hg as (o & <- & Hg). cbn [snd].
      cbn in Hg. clear - HO Hg. revert HO Hg. induction (c_outputs c) as [|x r IH]; intros HO Hg; [destruct Hg|].
      cbn in HO. injection HO as H1 H2. destruct Hg as [->|Hg]; auto.
  - (* party 1 watches *)
    set (priv' := shifted 0 (shift_of c ls (by_map 0 m) v v') priv).
    set (sB := DS (Rng (priv' 0) 0) (Rng (joint 0) 0) (Rng (joint 1) 0) (by_map 0 m)).
    destruct (b_setup c Hm Hs Ho ls Els HS HP sB) as (s1B & goB & FsB & ShB & MB & GB & IB).
    cbn [ds_map ds_priv ds_remote sB] in IB. rewrite (input_draws_merge m (c_inputs c) os _ _ _ Hos) in IB by auto. cbn [Nat.eqb] in IB.
    destruct (b_shift c Hm Hs Ho ls Els HS HP m os Hos Hmi 0 v v' (xs 0) (xs 1) (xs' 0) (xs' 1) (priv 0) joint sA sB s1 go0 s1B goB) as (MS & DR); auto.
    { discriminate. }
    cbn [Nat.eqb] in DR. fold dd in MS.
    destruct (eval_other c ls _ _ (mask_at goB) _ _ _ (eval_sym c ls _ _ _ _ _ HE)) as (EB & HEB).
    apply eval_sym in HEB.
    destruct (ds_share sB (xs' 0)) as [[shB dB] sB'] eqn:XB.
    assert (dB = sd_deltas (w 0)) as ->.
    { destruct (deltas_eq _ _ _ _ _ X0) as [-> _]. destruct (deltas_eq _ _ _ _ _ XB) as [-> _].
      rewrite L0, L0'. rewrite DR. cbn [ds_local sA sB]. f_equal. apply xor_back; rewrite draws_length; auto. }
    set (lB := xf (mask_at go0) dd).
    assert (MB' : aby_masks ec lB) by (apply masks_xor; auto).
    destruct (b_inputs c ls m os Hos sB tA (xs' 0) (xs' 1) shB (sd_deltas (w 0)) sB' sh1 (sd_deltas (w 1)) t' lB (mask_at go1)) as (INB & LB0 & LB1); auto.
    { rewrite Hxp. exact X1. }
    { change (map (fun i => mask_at goB (0, i)) (c_inputs c) =
        merge os (draws (Rng (priv' 0) 0) (owned ByP0 os)) (draws (Rng (joint 1) 0) (owned ByP1 os))) in IB.
      transitivity (map (fun i => mask_at goB (0, i)) (c_inputs c)); [|exact IB].
      apply map_ext_in. intros i Hi. symmetry. apply MS. rewrite (b_input c Hm ls i Hi). discriminate. }
    assert (GB' : forall g, ec_gate ec g <> None -> exists s, go_get (pr:=aby2) goB g = Some (@CS aby2 s) /\ as_priv s = lB g).
    { intros g Hg. destruct (GB g Hg) as (x & Y1 & Y2). exists x. split; auto. rewrite Y2. apply MS. auto. }
    pose proof (world_layers ec (fun g => v' (snd g)) lB (mask_at go1) _ HT HF Vv' MB' M1 HN _ _ INB) as WB.
    pose proof (b_start c ls HSO (fun g => v' (snd g)) _ _ goB go1 ShB Sh1 GB' G1) as BB.
    assert (HEB' : all3 (eval_ok ec lB (mask_at go1)) (ec_int_iter ec) EB (E 1)).
    { apply (eval_ext c ls HS HP (mask_at goB) (mask_at go1)); auto. }
    pose proof (b_J c Hm Hs Ho ls HS HSO _ _ _ _ HEB') as JB.
    eapply world_step_ext in WB.
    2:{ intros g. instantiate (1 := fun g => xorb (xorb (v (snd g)) (mask_at go0 g)) (mask_at go1 g)).
        unfold lB, xf, dd. cbn beta. destruct (v (snd g)), (v' (snd g)), (mask_at go0 g), (mask_at go1 g); reflexivity. }
    apply world_step_sym in WA. apply world_step_sym in WB.
    destruct (twin_run ec 1 0 _ _ _ _ _ _ _ _ go1 go0 goB _ _ _
       (all3 (ARS (fun g => v (snd g)) (mask_at go1) (mask_at go0)) (map (pair 0) (ec_outputs ec)))
       (all3 (ARS (fun g => v' (snd g)) (mask_at go1) lB) (map (pair 0) (ec_outputs ec)))
       WA WB BA BB JA JB LN1 LN0 LB0) as (mp & mq & op & oq & oq' & gp1 & gq1 & gq2 & r & ra & rb & Y0 & Y1 & Y2 & RA & RB).
    { intros a b H. destruct (b_outputs c Hm Hs Ho ls _ _ _ _ _ H) as (o0 & o1 & O1 & O2 & O3).
      exists o1, o0. auto using ARS_flip. }
    { intros a b H. destruct (b_outputs c Hm Hs Ho ls _ _ _ _ _ H) as (o0 & o1 & O1 & O2 & O3).
      exists o1, o0. auto using ARS_flip. }
    destruct (run_unique (P:=aby2) aby_request 1 0 ec _ _ go1 go0 _ _ _ _ _ _ _ _ _ _ P1 P0 Y0 Y1) as (U0 & U1 & U2 & U3).
    injection U2 as U2 _ _. injection U3 as U3 _ _.
    exists (fun r => if r =? 0 then EB else E 1), (fun r => if r =? 0 then Side (sd_deltas (w 0)) mq oq' else w 1).
    cbn [Nat.eqb]. split; [|split; [reflexivity|split; [|]]].
    + exists sB, tA, s1B, t1, goB, go1, shB, sh1, sB', t', gq2, gp1, rb, r. cbn [Nat.eqb sd_deltas sd_msgs sd_outs].
      split; [reflexivity|]. split; [reflexivity|]. split; [exact FsB|]. split; [exact Ft|]. split; [exact HEB|].
      split; [exact XB|]. split; [rewrite Hxp; exact X1|]. rewrite U0, U2. split; [exact Y2|exact Y0].
    + split; [reflexivity|]. split; [reflexivity|]. cbn. auto.
    + intros HO. cbn [sd_outs]. rewrite U3. symmetry. eapply other_outs; [|exact RA|exact RB].
      intros g Hg. apply in_map_iff in Hg. destruct Hg as (o & <- & Hg). cbn [snd].
      cbn in Hg. clear - HO Hg. revert HO Hg. induction (c_outputs c) as [|x r IH]; intros HO Hg; [destruct Hg|].
      cbn in HO. injection HO as H1 H2. destruct Hg as [->|Hg]; auto.
Qed.
Print Assumptions C69_same_view_partial.

(** Setup data of party 1 for given data of party 0. *)
Lemma eval_exists ec l0 l1 gs : forall E0,
  Forall2 (fun g e => length e = length (big_subsets (ec_parents ec g))) gs E0 ->
  exists E1, all3 (eval_ok ec l0 l1) gs E0 E1.
Proof.
  induction gs as [|g gs IH]; intros E0 H; inversion H as [|? e ? E0' He HR]; subst; [exists []; constructor|].
  destruct (IH _ HR) as (E1 & IH1).
  exists (zip_with xorb e (map (forallb (fun p => xorb (l0 p) (l1 p))) (big_subsets (ec_parents ec g))) :: E1).
  constructor; auto. exists (ec_parents ec g). split; [apply Permutation_refl|].
  revert He. generalize (big_subsets (ec_parents ec g)). clear. intros bs Lb.
  rewrite zip_with_length, map_length, <- Lb, Nat.min_id.
  split; auto. revert bs Lb. induction e as [|x e IH]; intros [|y bs] L; try discriminate; auto.
  cbn [map zip_with]. injection L as L. rewrite (IH bs L). f_equal. destruct x, (forallb _ y); reflexivity.
Qed.

(** Sessions exist for all streams, inputs and setup data of party 0, and give the outputs. *)
Theorem C69_sessions : forall c m os,
  main_ok aby_ops c -> c_simd c = None -> aby_operands c ->
  (forall n, In (AAnd n) (c_gates c) -> n <= 2) ->
  omap m (c_inputs c) = Some os ->
  exists ec, ec_of_base aby_ops c = Some ec /\
  forall (joint priv : nat -> nat -> bool) (xs : nat -> list bool) E0,
  length (xs 0) = owned ByP0 os -> length (xs 1) = owned ByP1 os ->
  Forall2 (fun g e => length e = length (big_subsets (ec_parents ec g))) (ec_int_iter ec) E0 ->
  exists E w v, session ec m os joint priv xs E w /\ E 0 = E0 /\
    aby_plain c (merge os (xs 0) (xs 1)) v /\
    all3 carries (map v (c_outputs c)) (sd_outs (w 0)) (sd_outs (w 1)).
Proof.
  intros c m os Hm Hs Ho Hf Hos.
  destruct (base_sched aby_ops c Hm) as (ls & Els & Eec & HP & HS & HSO); [congruence|auto|].
  exists (ec_base c ls). split; auto.
  intros joint priv xs E0 L0 L1 HE0. set (ec := ec_base c ls) in *.
  pose proof (omap_length _ _ _ Hos) as Los.
  destruct (aby_plain_exists c Hm Ho ls HS HP (merge os (xs 0) (xs 1))) as (v & Hv). { rewrite merge_length; auto. }
  set (sA := DS (Rng (priv 0) 0) (Rng (joint 0) 0) (Rng (joint 1) 0) (by_map 0 m)) in *.
  set (tA := DS (Rng (priv 1) 0) (Rng (joint 1) 0) (Rng (joint 0) 0) (by_map 1 m)) in *.
  destruct (b_setup c Hm Hs Ho ls Els HS HP sA) as (s1 & go0 & Fs & Sh0 & M0 & G0 & I0).
  destruct (b_setup c Hm Hs Ho ls Els HS HP tA) as (t1 & go1 & Ft & Sh1 & M1 & G1 & I1).
  fold ec in Fs, Ft.
  pose proof (b_typed c Hm Hs Ho ls) as HT.
  pose proof (aby_base_valuation c ls _ _ Hv) as Vv. fold ec in Vv.
  pose proof (b_fan c Hf ls) as HF. pose proof (b_nodup c Hm ls) as HN. fold ec in HF, HN.
  cbn [ds_map ds_priv ds_remote sA tA] in I0, I1.
  rewrite (input_draws_merge m (c_inputs c) os _ _ _ Hos) in I0 by auto.
  rewrite (input_draws_merge m (c_inputs c) os _ _ _ Hos) in I1 by auto. cbn [Nat.eqb] in I0, I1.
  destruct (eval_exists ec (mask_at go0) (mask_at go1) _ _ HE0) as (E1 & HE).
  destruct (ds_share sA (xs 0)) as [[sh0 d0] s'] eqn:X0. destruct (ds_share tA (xs 1)) as [[sh1 d1] t'] eqn:X1.
  destruct (b_inputs c ls m os Hos sA tA (xs 0) (xs 1) sh0 d0 s' sh1 d1 t' (mask_at go0) (mask_at go1)) as (IN & LN0 & LN1); auto.
  pose proof (world_layers ec (fun g => v (snd g)) (mask_at go0) (mask_at go1) _ HT HF Vv M0 M1 HN _ _ IN) as WA.
  pose proof (b_start c ls HSO (fun g => v (snd g)) _ _ go0 go1 Sh0 Sh1 G0 G1) as BA.
  pose proof (b_J c Hm Hs Ho ls HS HSO _ _ _ _ HE) as JA.
  destruct (twin_run ec 0 1 _ _ _ _ _ _ _ _ go0 go1 go1 _ _ _
       (all3 (ARS (fun g => v (snd g)) (mask_at go0) (mask_at go1)) (map (pair 0) (ec_outputs ec)))
       (all3 (ARS (fun g => v (snd g)) (mask_at go0) (mask_at go1)) (map (pair 0) (ec_outputs ec)))
       WA WA BA BA JA JA LN0 LN1 LN1) as (mp & mq & op & oq & oq' & gp1 & gq1 & gq2 & r & ra & rb & Y0 & Y1 & _ & RA & _).
  { intros a b. apply (b_outputs c Hm Hs Ho ls). }
  { intros a b. apply (b_outputs c Hm Hs Ho ls). }
  exists (fun r => if r =? 0 then E0 else E1), (fun r => if r =? 0 then Side d0 mp op else Side d1 mq oq), v.
  split; [|split; [reflexivity|split; [exact Hv|]]].
  - exists sA, tA, s1, t1, go0, go1, sh0, sh1, s', t', gp1, gq1, r, ra. cbn [Nat.eqb sd_deltas sd_msgs sd_outs].
    split; [reflexivity|]. split; [reflexivity|]. split; [exact Fs|]. split; [exact Ft|]. split; [exact HE|].
    split; [exact X0|]. split; [exact X1|]. split; [exact Y0|exact Y1].
  - cbn [Nat.eqb sd_outs]. change (ec_outputs ec) with (c_outputs c) in RA. clear - RA.
    revert op oq RA. induction (c_outputs c) as [|o os IH]; intros op oq RA; cbn [map] in *.
    + apply all3_nil_inv in RA. destruct RA as [-> ->]. constructor.
    + destruct (all3_cons_inv _ _ _ _ _ RA) as (a & b & ra & rb & -> & -> & (C & _) & RA'). constructor; auto.
Qed.
Print Assumptions C69_sessions.

(** C69_same_view_partial does not extend to circuits with sub-circuits: which generator
    the mask of a gate comes from is decided by the id of the gate alone, also if the gate
    belongs to a sub-circuit.  Here the AND gate of a sub-circuit has the id that an input of party 0
    has in the main circuit, and party 1 takes its part of the mask from the stream it
    shares with party 0.  Party 0 computes the AND of the two inputs of party 1 in every session,
    whatever the streams are, even if its own input is 0 and so the output is 0. *)
Theorem C69_sub_circuit_refuted : exists mc h ec m os (guess : (nat -> nat -> bool) -> (nat -> bool) -> list (emsg aby2) -> list (emsg aby2) -> bool),
  circuits_ok aby_ops (mc_get mc) /\ wires_ok aby_ops (mc_get mc) h /\ wired_as 100 mc h /\ all_callable aby_ops (mc_get mc) h /\
  ec_of_mc aby_ops 100 mc (fun _ st => st) = Some ec /\
  omap m (ec_inputs ec) = Some os /\ (forall g, m g <> None -> In g (ec_inputs ec)) /\
  forall joint priv y1 y2 z,
    let xs := fun r => if r =? 0 then [z] else [y1; y2] in
    (exists E w, session ec m os joint priv xs E w) /\
    forall E w, session ec m os joint priv xs E w ->
      guess joint (priv 0) (sd_msgs (w 0)) (sd_msgs (w 1)) = y1 && y2 /\
      all3 carries [z && (y1 && y2)] (sd_outs (w 0)) (sd_outs (w 1)).
Proof.
  exists leak_circuit, leak_wires, leak_ec, leak_map, leak_os, leak_guess.
  destruct leak_ok as (A & B & C & D). destruct leak_inputs_ok as (F & G).
  split; [exact A|]. split; [exact B|]. split; [exact C|]. split; [exact D|]. split; [exact leak_ec_eq|].
  split; [exact F|]. split; [exact G|]. intros. apply leak_sessions.
Qed.
Print Assumptions C69_sub_circuit_refuted.

(** The circuit of C41_case: x AND NOT (y XOR z) and NOT (y XOR z), with x and z of party 0.
    If y and z differ, the outputs are the same for both x, and so is what party 1 sees. *)
Example C69_case :
  main_ok aby_ops aby_demo /\ c_simd aby_demo = None /\ aby_operands aby_demo /\
  (forall n, In (AAnd n) (c_gates aby_demo) -> n <= 2) /\
  omap aby_demo_m (c_inputs aby_demo) = Some [ByP0; ByP1; ByP0] /\
  (forall g, aby_demo_m g <> None -> In g (c_inputs aby_demo)) /\
  (forall z v v', aby_plain aby_demo [true; negb z; z] v -> aby_plain aby_demo [false; negb z; z] v' ->
    map v (c_outputs aby_demo) = map v' (c_outputs aby_demo)) /\
  exists ec, ec_of_base aby_ops aby_demo = Some ec /\
    Forall2 (fun g e => length e = length (big_subsets (ec_parents ec g))) (ec_int_iter ec) [[true]].
Proof.
  assert (EI : c_inputs aby_demo = [0; 1; 2]) by (vm_compute; reflexivity).
  assert (EO : c_outputs aby_demo = [6; 7]) by (vm_compute; reflexivity).
  destruct C41_case as (A & B & C & D & E & F).
  split; [exact A|]. split; [exact B|]. split; [exact C|].
  split. { intros n Hn. rewrite (D n Hn). apply le_n. }
  split; [exact E|].
  split. { rewrite EI. clear. intros [|[|[|g]]] H; cbn; auto. }
  split.
  { intros z v v' H H'.
    assert (K : forall x y z v, aby_plain aby_demo [x; y; z] v -> map v (c_outputs aby_demo) = [x && negb (xorb y z); negb (xorb y z)]).
    { clear - EI EO. intros x y z v H.
      assert (KI : forall g, nth_error (c_gates aby_demo) g = Some (ABase GInput) -> nth_error [x; y; z] g = Some (v g)).
      { intros g Hg. destruct (H g _ Hg) as (i & P & Q). rewrite EI in P. clear - P Q.
        destruct i as [|[|[|[|i]]]]; cbn in P; try discriminate; injection P as <-; exact Q. }
      assert (KG : forall g gate ps, nth_error (c_gates aby_demo) g = Some gate -> parents aby_demo g = ps -> gate <> ABase GInput ->
        aby_sem gate (map v ps) = Some (v g)).
      { intros g gate ps Hg <- Hn. specialize (H g gate Hg). clear - H Hn. destruct gate as [[]| | |]; first [exact H|contradiction Hn; reflexivity]. }
      assert (v 0 = x) as H0. { specialize (KI 0 ltac:(vm_compute; reflexivity)). clear - KI. cbn in KI. injection KI as <-. reflexivity. }
      assert (v 1 = y) as H1. { specialize (KI 1 ltac:(vm_compute; reflexivity)). clear - KI. cbn in KI. injection KI as <-. reflexivity. }
      assert (v 2 = z) as H2. { specialize (KI 2 ltac:(vm_compute; reflexivity)). clear - KI. cbn in KI. injection KI as <-. reflexivity. }
      pose proof (KG 3 AXor [1; 2] ltac:(vm_compute; reflexivity) ltac:(vm_compute; reflexivity) ltac:(discriminate)) as X3.
      pose proof (KG 4 AInv [3] ltac:(vm_compute; reflexivity) ltac:(vm_compute; reflexivity) ltac:(discriminate)) as X4.
      pose proof (KG 5 (AAnd 2) [0; 4] ltac:(vm_compute; reflexivity) ltac:(vm_compute; reflexivity) ltac:(discriminate)) as X5.
      pose proof (KG 6 (ABase GOutput) [5] ltac:(vm_compute; reflexivity) ltac:(vm_compute; reflexivity) ltac:(discriminate)) as X6.
      pose proof (KG 7 (ABase GOutput) [4] ltac:(vm_compute; reflexivity) ltac:(vm_compute; reflexivity) ltac:(discriminate)) as X7.
      clear H KI KG. rewrite EO. clear EI EO. cbn in X3, X4, X5, X6, X7. cbn [map].
      injection X3 as X3. injection X4 as X4. injection X5 as X5. injection X6 as X6. injection X7 as X7.
      rewrite <- X6, <- X7, <- X5, <- X4, <- X3, H0, H1, H2. destruct x, y, z; reflexivity. }
    rewrite (K _ _ _ _ H), (K _ _ _ _ H'). destruct z; reflexivity. }
  assert (K : option_map (fun ec => map (fun g => length (big_subsets (ec_parents ec g))) (ec_int_iter ec)) (ec_of_base aby_ops aby_demo) = Some [1])
    by (vm_compute; reflexivity).
  clear - K. destruct (ec_of_base aby_ops aby_demo) as [ec|]; [|discriminate]. exists ec. split; [reflexivity|].
  cbn [option_map] in K. injection K as K. destruct (ec_int_iter ec) as [|g [|]]; try discriminate. cbn [map] in K. injection K as K.
  constructor; [|constructor]. symmetry. exact K.
Qed.
