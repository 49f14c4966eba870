(** Growing mixed circuits gate by gate and gadget by gadget, with their values. *)
From Coq Require Import List Bool Arith ZArith Lia Permutation.
Require Import Verif.ParseModel Verif.Prelude Verif.PreludeProofs Verif.GateModel Verif.ProtocolModel
  Verif.CircuitModel Verif.CircuitSpec Verif.CircuitProofs Verif.CircuitProofs2 Verif.CircuitProofs3
  Verif.BoolGmwModel Verif.ArithGmwModel Verif.InlineModel Verif.InlineSpec Verif.InlineProofs Verif.AdderData
  Verif.MixedModel Verif.MixedSpec Verif.MixedProgSpec Verif.AdderProofs Verif.AdderProofs2 Verif.AdderProofs3 Verif.AdderTheorems
  Verif.MixedExecProofs.
Import ListNotations.
Open Scope nat_scope.

Definition updV (V : nat -> mval) (n : nat) (v : mval) : nat -> mval := fun h => if h =? n then v else V h.

Definition source (g : mixed_gate) : bool := is_input_gate mixed_ops g || is_const_gate mixed_ops g.

(** Gates that are neither inputs nor outputs nor interactive conversions. *)
Definition quiet (x : mixed_gate) : Prop :=
  match x with MGBase (GInput | GOutput) | MGConv (CSnd | CRcv | CB2A) => False | _ => True end.

(** [c'] is [c] with more gates, all satisfying [Q]. *)
Record grown (Q : mixed_gate -> Prop) (c c' : circuit mixed_gate) : Prop := {
  gr_main : main_ok mixed_ops c';
  gr_simd : c_simd c' = c_simd c;
  gr_gates : exists gs, c_gates c' = c_gates c ++ gs /\ Forall Q gs;
  gr_par : forall g, g < c_count c -> parents c' g = parents c g }.

Lemma grown_old Q c c' g x : grown Q c c' -> nth_error (c_gates c) g = Some x -> nth_error (c_gates c') g = Some x.
Proof.
  intros H E. destruct (gr_gates _ _ _ H) as (gs & -> & _). rewrite nth_error_app1; auto. apply nth_error_Some. congruence.
Qed.

Lemma grown_old' Q c c' g : grown Q c c' -> g < c_count c -> nth_error (c_gates c') g = nth_error (c_gates c) g.
Proof. intros H E. destruct (gr_gates _ _ _ H) as (gs & -> & _). rewrite nth_error_app1; auto. Qed.

Lemma grown_new Q c c' g x : grown Q c c' -> c_count c <= g -> nth_error (c_gates c') g = Some x -> Q x.
Proof.
  intros H Hg E. destruct (gr_gates _ _ _ H) as (gs & Eg & F). rewrite Eg, nth_error_app2 in E by exact Hg.
  rewrite Forall_forall in F. apply F. eapply nth_error_In; eauto.
Qed.

Lemma grown_count Q c c' : grown Q c c' -> c_count c <= c_count c'.
Proof. intros H. unfold c_count. destruct (gr_gates _ _ _ H) as (gs & -> & _). rewrite app_length. lia. Qed.

Lemma grown_trans Q c1 c2 c3 : grown Q c1 c2 -> grown Q c2 c3 -> grown Q c1 c3.
Proof.
  intros H1 H2. constructor.
  - apply (gr_main _ _ _ H2).
  - rewrite (gr_simd _ _ _ H2). apply (gr_simd _ _ _ H1).
  - destruct (gr_gates _ _ _ H1) as (g1 & E1 & F1). destruct (gr_gates _ _ _ H2) as (g2 & E2 & F2).
    exists (g1 ++ g2). split; [rewrite E2, E1, app_assoc; auto|apply Forall_app; auto].
  - intros g Hg. rewrite (gr_par _ _ _ H2) by (pose proof (grown_count _ _ _ H1); lia). apply (gr_par _ _ _ H1). auto.
Qed.

Lemma grown_impl (Q Q' : mixed_gate -> Prop) c c' : (forall x, Q x -> Q' x) -> grown Q c c' -> grown Q' c c'.
Proof.
  intros HI [A B (gs & E & F) D]. constructor; auto. exists gs. split; auto. eapply Forall_impl; eauto.
Qed.

Lemma ids_where_none {G} (f : G -> bool) a b : Forall (fun x => f x = false) b -> ids_where f (a ++ b) = ids_where f a.
Proof.
  intros H. induction b as [|x b IH] using rev_ind; [rewrite app_nil_r; auto|].
  apply Forall_app in H. destruct H as [H1 H2]. inversion H2; subst.
  rewrite app_assoc, ids_where_snoc, H3, app_nil_r. auto.
Qed.

Lemma grown_io c c' : main_ok mixed_ops c -> grown (fun x => match x with MGBase (GInput | GOutput) => False | _ => True end) c c' ->
  c_inputs c' = c_inputs c /\ c_outputs c' = c_outputs c.
Proof.
  intros (Ha & _) H. pose proof (gr_main _ _ _ H) as (Ha' & _). apply api_api_wf in Ha, Ha'.
  rewrite (aw_inputs _ _ Ha), (aw_inputs _ _ Ha'), (aw_outputs _ _ Ha), (aw_outputs _ _ Ha').
  destruct (gr_gates _ _ _ H) as (gs & -> & F).
  split; apply ids_where_none; eapply Forall_impl; try exact F; intros [[]| | |]; cbn; tauto.
Qed.

Lemma main_step c g from c' : main_ok mixed_ops c -> Forall (fun i => i < c_count c) from ->
  (from = [] <-> source g = true) -> add_wired_gate mixed_ops c g from = Some (c', c_count c) -> main_ok mixed_ops c'.
Proof.
  intros (Ha & (rank & Hrank) & Hroot) HF Hs E.
  destruct (add_wired_gate_spec mixed_ops c c' g from _ Ha E) as (Ha' & _ & Eg & Ep & _).
  pose proof (aw_range _ _ (api_api_wf mixed_ops c Ha)) as Hr.
  split; auto. split.
  - exists (fun x => if x =? c_count c then S (fold_right Nat.max 0 (map rank from)) else rank x).
    intros p y Hp. rewrite Ep in Hp. cbv beta. destruct (Nat.eqb_spec y (c_count c)) as [Ey|Hy].
    + rewrite Forall_forall in HF. specialize (HF p Hp). destruct (Nat.eqb_spec p (c_count c)); [lia|].
      clear - Hp. induction from as [|f from IH]; [destruct Hp|]. cbn [map fold_right].
      destruct Hp as [->|Hp]; [lia|]. specialize (IH Hp). lia.
    + destruct (in_range_parents c p y Hr Hp) as [Hpc _]. destruct (Nat.eqb_spec p (c_count c)); [lia|]. auto.
  - intros x y Hy. rewrite Eg in Hy. rewrite Ep. destruct (Nat.eqb_spec x (c_count c)) as [->|Hx].
    + unfold c_count in Hy. rewrite nth_error_app2, Nat.sub_diag in Hy by lia. injection Hy as <-. exact Hs.
    + apply Hroot. destruct (Nat.lt_ge_cases x (c_count c)) as [Hl|Hl].
      * rewrite nth_error_app1 in Hy by exact Hl. auto.
      * rewrite nth_error_app2 in Hy by exact Hl. unfold c_count in *.
        destruct (x - length (c_gates c)) as [|k] eqn:Ek; [lia|]. destruct k; discriminate.
Qed.

Lemma updV_old V n v h : h < n -> updV V n v h = V h.
Proof. intros H. unfold updV. destruct (Nat.eqb_spec h n); [lia|auto]. Qed.
Lemma updV_new V n v : updV V n v n = v.
Proof. unfold updV. rewrite Nat.eqb_refl. auto. Qed.

Section Prog.
Variable w : nat.

Definition pvalued (D : nat -> cdata) (V : nat -> mval) (ins : list mval) (c : circuit mixed_gate) : Prop :=
  forall g gate, nth_error (c_gates c) g = Some gate ->
  match gate with
  | MGBase GInput => exists i, nth_error (c_inputs c) i = Some g /\ nth_error ins i = Some (V g)
  | _ => msem w (D g) gate (map V (parents c g)) = Some (V g)
  end.

Lemma pvalued_ext D V V' ins c c' : api mixed_ops c ->
  (forall g, g < c_count c -> nth_error (c_gates c') g = nth_error (c_gates c) g /\ parents c' g = parents c g) ->
  (forall i g, nth_error (c_inputs c) i = Some g -> nth_error (c_inputs c') i = Some g) ->
  (forall g, g < c_count c -> V' g = V g) -> pvalued D V ins c ->
  (forall g gate, c_count c <= g -> nth_error (c_gates c') g = Some gate ->
     match gate with
     | MGBase GInput => exists i, nth_error (c_inputs c') i = Some g /\ nth_error ins i = Some (V' g)
     | _ => msem w (D g) gate (map V' (parents c' g)) = Some (V' g)
     end) -> pvalued D V' ins c'.
Proof.
  intros Ha Hold Hin HV Hv Hnew g gate Hg. destruct (Nat.lt_ge_cases g (c_count c)) as [Hl|Hl]; [|apply Hnew; auto].
  destruct (Hold g Hl) as [E1 E2]. rewrite E1 in Hg. specialize (Hv g gate Hg). rewrite E2, (HV g Hl).
  assert (Em : map V' (parents c g) = map V (parents c g)).
  { apply map_ext_in. intros p Hp. apply HV. apply (in_range_parents c p g); auto. apply (aw_range _ _ (api_api_wf mixed_ops c Ha)). }
  rewrite Em. destruct gate as [[]| | |]; auto. destruct Hv as (i & A & B). eauto.
Qed.

Lemma grow1 c g from : main_ok mixed_ops c -> Forall (fun i => i < c_count c) from -> (from = [] <-> source g = true) ->
  exists c', add_wired_gate mixed_ops c g from = Some (c', c_count c) /\ grown (eq g) c c' /\ c_count c' = S (c_count c) /\
    nth_error (c_gates c') (c_count c) = Some g /\ parents c' (c_count c) = from /\
    c_inputs c' = c_inputs c ++ (if is_input_gate mixed_ops g then [c_count c] else []) /\
    c_outputs c' = c_outputs c ++ (if is_output_gate mixed_ops g then [c_count c] else []) /\
    (forall D ins V v, pvalued D V ins c ->
       match g with
       | MGBase GInput => nth_error ins (length (c_inputs c)) = Some v
       | _ => msem w (D (c_count c)) g (map V from) = Some v
       end -> pvalued D (updV V (c_count c) v) ins c').
Proof.
  intros Hm HF Hs. pose proof Hm as (Ha & _).
  assert (E : exists c', add_wired_gate mixed_ops c g from = Some (c', c_count c) /\ c_simd c' = c_simd c).
  { unfold add_wired_gate. destruct (add_gate mixed_ops c g) as [c1 id] eqn:E1.
    assert (Ei : id = c_count c) by (injection E1; auto). assert (Ec : c1 = fst (add_gate mixed_ops c g)) by (rewrite E1; auto).
    assert (Hc : c_count c1 = S (c_count c)) by (rewrite Ec; unfold c_count; cbn; rewrite app_length; cbn; lia).
    destruct (add_wires_some id (rev from) c1) as (c2 & E2 & S2 & _); [|lia|].
    - intros f Hf. apply in_rev in Hf. rewrite Forall_forall in HF. specialize (HF f Hf). lia.
    - exists c2. rewrite E2. cbn [obind]. rewrite Ei. split; auto. rewrite S2, Ec. reflexivity. }
  destruct E as (c' & E & Esd). exists c'.
  destruct (add_wired_gate_spec mixed_ops c c' g from _ Ha E) as (Ha' & _ & Eg & Ep & _).
  pose proof (main_step c g from c' Hm HF Hs E) as Hm'.
  assert (Ei : c_inputs c' = c_inputs c ++ (if is_input_gate mixed_ops g then [c_count c] else [])).
  { rewrite (aw_inputs _ _ (api_api_wf _ _ Ha')), (aw_inputs _ _ (api_api_wf _ _ Ha)), Eg, ids_where_snoc. reflexivity. }
  assert (Eo : c_outputs c' = c_outputs c ++ (if is_output_gate mixed_ops g then [c_count c] else [])).
  { rewrite (aw_outputs _ _ (api_api_wf _ _ Ha')), (aw_outputs _ _ (api_api_wf _ _ Ha)), Eg, ids_where_snoc. reflexivity. }
  assert (Hn : nth_error (c_gates c') (c_count c) = Some g).
  { rewrite Eg. unfold c_count. rewrite nth_error_app2, Nat.sub_diag by lia. reflexivity. }
  assert (Hp : parents c' (c_count c) = from) by (rewrite Ep, Nat.eqb_refl; auto).
  assert (HG : grown (eq g) c c').
  { constructor; auto.
    - exists [g]. split; auto.
    - intros x Hx. rewrite Ep. destruct (Nat.eqb_spec x (c_count c)); [lia|auto]. }
  split; auto. split; auto. split; [unfold c_count; rewrite Eg, app_length; cbn; lia|]. split; auto. split; auto. split; auto. split; auto.
  intros D ins V v Hv Hc. apply (pvalued_ext D V _ ins c c'); auto.
  - intros x Hx. split; [apply (grown_old' _ _ _ _ HG); auto|apply (gr_par _ _ _ HG); auto].
  - intros i x Hi. rewrite Ei. rewrite nth_error_app1; auto. apply nth_error_Some. congruence.
  - intros x Hx. unfold updV. destruct (Nat.eqb_spec x (c_count c)); [lia|auto].
  - intros x gate Hx Hgate.
    assert (x = c_count c).
    { assert (x < length (c_gates c')) by (apply nth_error_Some; congruence). rewrite Eg, app_length in H. cbn in H. unfold c_count in *. lia. }
    subst x. rewrite Hn in Hgate. injection Hgate as <-. rewrite Hp.
    assert (Em : map (updV V (c_count c) v) from = map V from).
    { apply map_ext_in. intros p Hpp. unfold updV. rewrite Forall_forall in HF. specialize (HF p Hpp).
      destruct (Nat.eqb_spec p (c_count c)); [lia|auto]. }
    rewrite Em, !updV_new.
    destruct g as [[]| | |]; auto. exists (length (c_inputs c)). split; auto.
    rewrite Ei. cbn [is_input_gate mixed_ops g_base mixed_as_base]. rewrite nth_error_app2, Nat.sub_diag by lia. reflexivity.
Qed.

(** ** The gadgets *)

Lemma split_grow n : forall i c a, main_ok mixed_ops c -> a < c_count c ->
  exists c' ids, a2b_split n i c a = Some (c', ids) /\ grown quiet c c' /\ length ids = n /\
    Forall (fun g => g < c_count c') ids /\
    forall D ins V x0 x1, i + n <= w -> pvalued D V ins c -> V a = VP x0 x1 ->
    exists V', (forall g, g < c_count c -> V' g = V g) /\ pvalued D V' ins c' /\
      map V' ids = map (fun j => VB (xorb (Z.testbit x0 (Z.of_nat j)) (Z.testbit x1 (Z.of_nat j)))) (seq i n).
Proof.
  induction n as [|n IH]; intros i c a Hm Ha.
  - exists c, []. split; [reflexivity|]. split.
    { constructor; auto. exists []. rewrite app_nil_r. auto. }
    split; auto. split; auto. intros D ins V x0 x1 _ HV E. exists V. auto.
  - cbn [a2b_split]. destruct (grow1 c (MGConv (CSelectBit i)) [a] Hm) as (c1 & E1 & G1 & C1 & N1 & P1 & _ & _ & V1).
    { constructor; auto. } { split; discriminate. }
    rewrite E1. cbn [obind].
    destruct (IH (S i) c1 a (gr_main _ _ _ G1) ltac:(lia)) as (c2 & ids & E2 & G2 & L2 & F2 & V2).
    rewrite E2. cbn [obind]. exists c2, (c_count c :: ids). split; auto. split.
    { eapply grown_trans; [|exact G2]. eapply grown_impl; [|exact G1]. intros x <-. exact I. }
    split; [cbn; auto|]. pose proof (grown_count _ _ _ G2) as HC. split; [constructor; auto; lia|].
    intros D ins V x0 x1 Hi HV E.
    set (v := VB (xorb (Z.testbit x0 (Z.of_nat i)) (Z.testbit x1 (Z.of_nat i)))).
    assert (HV1 : pvalued D (updV V (c_count c) v) ins c1).
    { apply V1; auto. cbn [map]. rewrite E. cbn [msem]. replace (i <? w) with true by (symmetry; apply Nat.ltb_lt; lia). reflexivity. }
    destruct (V2 D ins _ x0 x1 ltac:(lia) HV1) as (V' & A & B & C); [rewrite updV_old; auto|].
    exists V'. split; [intros g Hg; rewrite A by lia; apply updV_old; auto|]. split; auto.
    cbn [map seq]. rewrite C, A, updV_new by lia. reflexivity.
Qed.

Lemma VB_inj_map l l' : map VB l = map VB l' -> l = l'.
Proof. revert l'. induction l as [|x l IH]; intros [|y l'] H; try discriminate; auto. injection H as -> H. f_equal. auto. Qed.

Lemma add_grow maxu cap c a b : In w [8; 16; 32; 64] -> 1000 <= maxu -> 2 <= cap -> main_ok mixed_ops c ->
  length a = w -> length b = w -> Forall (fun i => i < c_count c) (a ++ b) ->
  exists c' outs, depth_optimized_add maxu cap w c a b = Some (c', outs) /\ grown quiet c c' /\ length outs = w /\
    Forall (fun g => g < c_count c') outs /\
    forall D ins V la lb, pvalued D V ins c -> map V a = map VB la -> map V b = map VB lb ->
    exists V', (forall g, g < c_count c -> V' g = V g) /\ pvalued D V' ins c' /\
      map V' outs = map VB (bits_of w (bits_value la + bits_value lb)).
Proof.
  intros Hw Hmx Hcp Hm La Lb HF. pose proof Hm as (Ha & _).
  destruct (add_structure maxu cap w c a b Hw Hmx Hcp Ha La Lb HF) as (c' & outs & order & f & E & Hok & HI).
  destruct (C43_adder_adds maxu cap w c a b Hw Hmx Hcp Ha La Lb HF) as (c'' & outs'' & E' & Hold & Hsum & Hex & Hmo).
  rewrite E in E'. injection E' as <- <-.
  assert (HG : grown quiet c c').
  { constructor; auto.
    - apply (in_simd _ _ _ _ _ _ _ _ HI).
    - destruct (in_gates _ _ _ _ _ _ _ _ HI) as (gs & Eg & F). exists gs. split; auto.
      clear - F Hok. induction F as [|g x order gs (y & Hy & ->) F IH]; constructor; auto.
      pose proof (ao_arity _ _ Hok _ _ Hy) as Har. destruct y as [[]|[]| |]; try tauto; exact I.
    - intros g Hg. apply Hold. auto. }
  exists c', outs. split; auto. split; auto.
  assert (Lo : length outs = w) by (rewrite (in_outs _ _ _ _ _ _ _ _ HI), map_length; apply (ao_outs _ _ Hok)).
  split; auto. pose proof (ao_callable _ _ Hok) as Hcall. pose proof Hcall as ((Has & _) & _).
  assert (Hcnt : forall g, g < c_count (adder w) -> f g < c_count c' /\ c_count c <= f g).
  { intros g Hg. destruct (f_pos _ _ _ _ _ _ _ _ HI g Hg) as (j & Hj & Ef).
    destruct (new_gate _ _ _ _ _ _ _ _ HI j g Hj) as (y & _ & Hn). rewrite <- Ef in Hn. split; [|lia].
    unfold c_count. apply nth_error_Some. congruence. }
  split.
  { rewrite (in_outs _ _ _ _ _ _ _ _ HI). apply Forall_forall. intros o Ho. apply in_map_iff in Ho.
    destruct Ho as (g & <- & Hg). apply Hcnt. rewrite (aw_scouts _ _ (api_api_wf _ _ Has)) in Hg. apply ids_where_In in Hg.
    destruct Hg as (x & Hx & _). apply nth_error_Some. congruence. }
  assert (Hpar : forall h p, c_count c <= h -> In p (parents c' h) -> In p (a ++ b) \/ c_count c <= p).
  { intros h p Hh Hp. assert (Hh' : h < c_count c').
    { apply (in_range_parents c' p h); auto. apply (aw_range _ _ (api_api_wf mixed_ops c' (in_api _ _ _ _ _ _ _ _ HI))). }
    assert (Hj : exists g, nth_error order (h - c_count c) = Some g).
    { destruct (nth_error order (h - c_count c)) as [g|] eqn:En; [eauto|]. exfalso.
      apply nth_error_None in En. destruct (in_gates _ _ _ _ _ _ _ _ HI) as (gs & Eg & F).
      unfold c_count in Hh', Hh, En. rewrite Eg, app_length, <- (Forall2_len _ _ _ F) in Hh'. lia. }
    destruct Hj as (g & Hj). assert (Ef : h = f g) by (rewrite (in_f _ _ _ _ _ _ _ _ HI _ _ Hj); lia).
    assert (Hg : g < c_count (adder w)) by (apply (in_order _ _ _ _ _ _ _ _ HI); eapply nth_error_In; eauto).
    rewrite Ef in Hp. destruct (in_dec Nat.eq_dec g (c_scins (adder w))) as [Hs|Hs].
    - apply In_nth_error in Hs. destruct Hs as (i & Hs). destruct (in_sc _ _ _ _ _ _ _ _ HI i g Hs) as (x & Hx & Epp).
      rewrite Epp in Hp. destruct Hp as [<-|[]]. left. eapply nth_error_In; eauto.
    - rewrite (in_new _ _ _ _ _ _ _ _ HI g Hg Hs), <- in_rev in Hp. apply in_map_iff in Hp. destruct Hp as (q & <- & Hq).
      right. apply Hcnt. apply (in_range_parents (adder w) q g); auto. apply (aw_range _ _ (api_api_wf mixed_ops _ Has)). }
  intros D ins V la lb HV HA HB.
  destruct (Hex (fun g => match V g with VB x => x | VP _ _ => false end)) as (v & Hv1 & Hv2).
  set (V' := fun g => if g <? c_count c then V g else VB (v g)).
  assert (HVo : forall g, g < c_count c -> V' g = V g).
  { intros g Hg. unfold V'. destruct (Nat.ltb_spec g (c_count c)); [auto|lia]. }
  assert (HVn : forall g, c_count c <= g -> V' g = VB (v g)).
  { intros g Hg. unfold V'. destruct (Nat.ltb_spec g (c_count c)); [lia|auto]. }
  assert (Hbit : forall g, In g (a ++ b) -> V g = VB (v g) /\ g < c_count c).
  { intros g Hg. rewrite Forall_forall in HF. specialize (HF g Hg). split; auto. rewrite Hv1 by auto.
    assert (exists x, V g = VB x) as (x & ->); auto.
    apply in_app_or in Hg. destruct Hg as [Hg|Hg]; apply (in_map V) in Hg; [rewrite HA in Hg|rewrite HB in Hg];
      apply in_map_iff in Hg; destruct Hg as (x & <- & _); eauto. }
  exists V'. split; auto. split.
  - apply (pvalued_ext D V V' ins c c'); auto.
    + intros i g Hi. destruct (grown_io c c' Hm) as [-> _]; auto. eapply grown_impl; [|exact HG]. intros [[]| | |]; cbn; auto.
    + intros g gate Hg Hgate. pose proof (Hv2 g gate Hg Hgate) as Hs. rewrite (HVn g Hg).
      pose proof (grown_new _ _ _ _ _ HG Hg Hgate) as Hq.
      assert (Em : map V' (parents c' g) = map VB (map v (parents c' g))).
      { rewrite map_map. apply map_ext_in. intros p Hp. destruct (Hpar g p Hg Hp) as [Hin|Hin]; [|apply HVn; auto].
        destruct (Hbit p Hin) as [Ev Hlt]. rewrite HVo by auto. auto. }
      rewrite Em. destruct (map v (parents c' g)) as [|x [|y [|? ?]]]; destruct gate as [[]|[]| |]; cbn in Hs, Hq; try discriminate; try tauto;
        injection Hs as <-; reflexivity.
  - rewrite <- (VB_inj_map (map v a) la), <- (VB_inj_map (map v b) lb).
    + rewrite <- (Hsum v Hv2), map_map. apply map_ext_in. intros o Ho. apply HVn.
      rewrite (in_outs _ _ _ _ _ _ _ _ HI) in Ho. apply in_map_iff in Ho. destruct Ho as (g & <- & Hg). apply Hcnt.
      rewrite (aw_scouts _ _ (api_api_wf _ _ Has)) in Hg. apply ids_where_In in Hg.
      destruct Hg as (x & Hx & _). apply nth_error_Some. congruence.
    + rewrite <- HB, map_map. apply map_ext_in. intros g Hg. symmetry. apply Hbit. apply in_or_app; auto.
    + rewrite <- HA, map_map. apply map_ext_in. intros g Hg. symmetry. apply Hbit. apply in_or_app; auto.
Qed.
End Prog.
