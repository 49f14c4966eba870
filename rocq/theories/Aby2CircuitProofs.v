(** ABY2 on one circuit: order of the setup loop, masks of the inputs, helper setup. *)
From Coq Require Import List Bool Arith Lia Permutation.
Require Import Verif.Prelude Verif.PreludeProofs Verif.GateModel Verif.ProtocolModel
  Verif.CircuitModel Verif.CircuitSpec Verif.CircuitProofs Verif.CircuitProofs2 Verif.CircuitProofs3
  Verif.ExecModel Verif.ExecSpec Verif.ExecProofs Verif.ExecCircuitProofs Verif.ExecTheorems Verif.ExecLayerProofs
  Verif.Aby2Model Verif.Aby2Spec Verif.Aby2Proofs Verif.Aby2ExecProofs.
Import ListNotations.
Open Scope nat_scope.

(** ** The first layer begins with the constants and the inputs *)

Lemma uq_loop_app ch : forall needed q n' q', uq_loop ch needed q = Some (n', q') -> exists t, q' = q ++ t.
Proof.
  induction ch as [|h ch IH]; intros needed q n' q' H; cbn in H.
  - injection H as _ <-. exists []. rewrite app_nil_r. auto.
  - destruct (nth_error needed h) as [[|k]|]; try discriminate. destruct (k =? 0).
    + apply IH in H. destruct H as (t & ->). exists (h :: t). rewrite <- app_assoc. auto.
    + eapply IH; eauto.
Qed.

Lemma update_queue_app {G} (c : circuit G) x needed left q n' l' q' :
  update_queue c x needed left q = Some (n', l', q') -> exists t, q' = q ++ t.
Proof.
  unfold update_queue. destruct (uq_loop _ _ _) as [[a b]|] eqn:E; [|discriminate].
  cbn [obind]. intros H. injection H as _ _ <-. eapply uq_loop_app; eauto.
Qed.

Lemma li_loop_prefix {P G} (ops : gate_ops P G) (c : circuit G) fuel : forall q needed left qr prev l n' l' p' r,
  li_loop ops c fuel needed left (q ++ qr) prev l = Some (n', l', p', r) ->
  (forall x, In x q -> is_int ops c x = false) ->
  exists t, bl_ni r = bl_ni l ++ q ++ t.
Proof.
  induction fuel as [|fuel IH]; intros q needed left qr prev l n' l' p' r H Hq.
  - destruct q as [|x q]; [destruct qr|]; cbn in H; try discriminate.
    injection H as _ _ _ <-. exists []. cbn. rewrite app_nil_r. auto.
  - destruct (q ++ qr) as [|x q0] eqn:Eq.
    + apply app_eq_nil in Eq. destruct Eq as [-> ->]. cbn in H. injection H as _ _ _ <-.
      exists []. cbn. rewrite app_nil_r. auto.
    + cbn [li_loop] in H. destruct (nth_error (c_gates c) x) as [g|] eqn:Eg; [|discriminate]. cbn [obind] in H.
      assert (Hi : q <> [] -> g_inter ops g = false).
      { intros Hne. destruct q as [|y q]; [contradiction|]. injection Eq as -> _.
        specialize (Hq x (or_introl eq_refl)). unfold is_int in Hq. rewrite Eg in Hq. auto. }
      destruct (g_inter ops g) eqn:Ei.
      * destruct q as [|y q]; [|assert (true = false) by (apply Hi; discriminate); discriminate].
        cbn [obind] in H.
        destruct (if c_is_simd c then _ else _) as [[l2 f2]|] eqn:El; [|discriminate]. cbn [obind] in H.
        destruct (IH [] _ _ q0 _ _ _ _ _ _ H) as (t & Ht); [intros ? []|].
        exists t. cbn in *. auto.
      * destruct (update_queue c x needed left q0) as [[[n1 l1] q1]|] eqn:Eu; [|discriminate]. cbn [obind] in H.
        destruct (if c_is_simd c then _ else _) as [[l2 f2]|] eqn:El; [|discriminate]. cbn [obind bl_ni bl_int] in H.
        destruct (update_queue_app _ _ _ _ _ _ _ _ Eu) as (t & ->).
        destruct q as [|y q].
        -- destruct (IH [] _ _ (q0 ++ t) _ _ _ _ _ _ H) as (t' & Ht); [intros ? []|].
           cbn [bl_ni app] in Ht. exists (x :: t'). rewrite Ht, <- app_assoc. reflexivity.
        -- injection Eq as -> <-. rewrite <- app_assoc in H.
           destruct (IH q _ _ (qr ++ t) _ _ _ _ _ _ H) as (t' & Ht); [intros; apply Hq; cbn; auto|].
           cbn [bl_ni] in Ht. exists t'. rewrite Ht, <- app_assoc. reflexivity.
Qed.

Lemma first_layer {P G} (ops : gate_ops P G) (c : circuit G) ls :
  (forall x, In x (c_consts c ++ c_inputs c) -> is_int ops c x = false) ->
  c_layers ops c = Some ls ->
  exists rest, all_ids ls = c_consts c ++ c_inputs c ++ rest.
Proof.
  intros Hq H. unfold c_layers in H. cbn [li_collect] in H.
  destruct (li_next_layer ops c (li_new c)) as [[r st]|] eqn:En; [|discriminate]. cbn [obind] in H.
  unfold li_next_layer, li_new in En. cbn [li_prev li_next li_visit li_needed li_left li_new_uninit li_drain obind] in En.
  destruct (li_loop _ _ _ _ _ _ _ _) as [[[[n2 l2] p2] l]|] eqn:El; [|discriminate]. cbn [obind] in En.
  rewrite <- (app_nil_r (c_consts c ++ c_inputs c)) in El at 2.
  destruct (li_loop_prefix ops c _ _ _ _ _ _ _ _ _ _ _ El Hq) as (t & Ht). cbn [bl_ni app] in Ht.
  unfold bl_empty in En. destruct r as [l'|].
  - destruct (li_collect _ _ _ _) as [ls'|]; [|discriminate]. cbn [obind] in H. injection H as <-.
    destruct (bl_ni l) as [|x nl] eqn:Enl; [destruct (bl_int l) as [|y il] eqn:Eil; [discriminate|]|];
      injection En as <- _; unfold all_ids; cbn [map concat]; unfold bl_ids at 1; rewrite Enl;
      (eexists; rewrite Ht, <- !app_assoc; reflexivity).
  - destruct (bl_ni l) as [|x nl] eqn:Enl; [|destruct (bl_int l); discriminate].
    symmetry in Ht. apply app_eq_nil in Ht. destruct Ht as [Ht _]. apply app_eq_nil in Ht. destruct Ht as [-> ->].
    injection H as <-. exists []. reflexivity.
Qed.

(** Every gate comes after its parents. *)
Lemma Sched_split {P G} (ops : gate_ops P G) (c : circuit G) ls : forall P0, Sched ops c P0 ls ->
  forall l1 g l2, all_ids ls = l1 ++ g :: l2 -> incl (parents c g) (P0 ++ l1).
Proof.
  induction ls as [|l ls IH]; intros P0 HS l1 g l2 E; [destruct l1; discriminate|].
  destruct HS as ([R1 R2 R3 R4] & _ & _ & HS). change (all_ids (l :: ls)) with (bl_ids l ++ all_ids ls) in E.
  unfold bl_ids in *. rewrite <- app_assoc in E.
  assert (SP : forall (a b l1 l2 : list nat) g, a ++ b = l1 ++ g :: l2 ->
     (exists m, a = l1 ++ g :: m /\ l2 = m ++ b) \/ (exists m, l1 = a ++ m /\ b = m ++ g :: l2)).
  { clear. induction a as [|x a IH]; intros b l1 l2 g E; cbn in E; [right; exists l1; auto|].
    destruct l1 as [|y l1]; injection E as -> E; [left; exists a; subst; auto|].
    destruct (IH _ _ _ _ E) as [(m & -> & ->)|(m & -> & ->)]; [left|right]; exists m; auto. }
  destruct (SP _ _ _ _ _ E) as [(m & A & B)|(m & A & B)].
  - intros p Hp. eapply R1; eauto.
  - destruct (SP _ _ _ _ _ B) as [(m' & A' & B')|(m' & A' & B')].
    + intros p Hp. rewrite A. rewrite app_assoc. apply in_or_app. left. apply (R2 g); auto.
      rewrite A'. apply in_or_app. cbn; auto.
    + intros p Hp. rewrite A, A'. rewrite !app_assoc. rewrite <- (app_assoc P0).
      eapply IH; eauto.
Qed.

Lemma ec_iter_base {G} (c : circuit G) ls : ec_iter (ec_base c ls) = map (pair 0) (all_ids ls).
Proof.
  unfold ec_iter, ec_base, all_ids. cbn [ec_layers]. rewrite map_map. unfold wrap1. cbn [map concat].
  induction ls as [|l ls IH]; auto. cbn [map concat]. rewrite app_nil_r, IH. unfold bl_ids at 2. rewrite (map_app _ (bl_ni l ++ bl_int l)). reflexivity.
Qed.

Lemma filter_all_true {A} (f : A -> bool) l : (forall x, In x l -> f x = true) -> filter f l = l.
Proof. induction l as [|x l IH]; intros H; auto. cbn. rewrite H by (cbn; auto). f_equal. apply IH. intros; apply H; cbn; auto. Qed.
Lemma filter_all_false {A} (f : A -> bool) l : (forall x, In x l -> f x = false) -> filter f l = [].
Proof. induction l as [|x l IH]; intros H; auto. cbn. rewrite H by (cbn; auto). apply IH. intros; apply H; cbn; auto. Qed.

Section Circuit.
Variable c : circuit aby_gate.
Hypothesis Hm : main_ok aby_ops c.
Hypothesis Hs : c_simd c = None.
Hypothesis Ho : aby_operands c.
Variable ls : list blayer.
Hypothesis Els : c_layers aby_ops c = Some ls.
Hypothesis HS : Sched aby_ops c [] ls.
Hypothesis HP : Permutation (all_ids ls) (seq 0 (c_count c)).
Notation ec := (ec_base c ls).

Lemma aby_base_typed : aby_typed ec.
Proof.
  split; [intros; exact Hs|]. intros [sc g] gate E. cbn [ec_base ec_gate fst snd] in E.
  destruct (Nat.eqb_spec sc 0) as [->|]; [|discriminate]. pose proof (Ho _ _ E) as HO.
  unfold aby_gate_typed. cbn [ec_base ec_parents ec_inputs fst snd].
  rewrite map_length. destruct gate as [[]|n| |]; auto.
  split; auto. destruct Hm as (Ha & _). apply api_api_wf in Ha. rewrite (aw_inputs _ _ Ha).
  apply ids_where_In. eexists. split; eauto.
Qed.

Lemma aby_base_valuation ins v : aby_plain c ins v -> aby_valuation ec ins (fun g => v (snd g)).
Proof.
  intros Hv [sc g] gate E. cbn [ec_base ec_gate fst snd] in E.
  destruct (Nat.eqb_spec sc 0) as [->|]; [|discriminate]. pose proof (Hv _ _ E) as HV.
  cbn [ec_base ec_parents ec_inputs fst snd]. rewrite map_map. cbn [snd].
  replace (map (fun x => v x) (parents c g)) with (map v (parents c g)) by (apply map_ext; auto).
  exact HV.
Qed.

Lemma all_ids_nodup : NoDup (all_ids ls).
Proof. apply (Permutation_NoDup (Permutation_sym HP)). apply seq_NoDup. Qed.

Lemma all_ids_In x : In x (all_ids ls) <-> x < c_count c.
Proof.
  split; intros H.
  - apply (Permutation_in _ HP) in H. apply in_seq in H. lia.
  - apply (Permutation_in _ (Permutation_sym HP)). apply in_seq. lia.
Qed.

Lemma all_ids_gate x : In x (all_ids ls) -> exists gate, nth_error (c_gates c) x = Some gate.
Proof.
  intros H. apply all_ids_In in H. destruct (nth_error (c_gates c) x) eqn:E; eauto.
  apply nth_error_None in E. unfold c_count in H. lia.
Qed.

Lemma iter_order l1 g l2 : ec_iter ec = l1 ++ g :: l2 ->
  (exists gate, ec_gate ec g = Some gate) /\ ~ In g l1 /\ incl (ec_parents ec g) l1.
Proof.
  rewrite ec_iter_base. intros E. destruct (map_pair0_split _ _ _ _ E) as (m1 & x & m2 & E' & -> & ->).
  split; [|split].
  - cbn. apply all_ids_gate. rewrite E'. apply in_or_app. cbn; auto.
  - rewrite in_pair0. intros H. pose proof all_ids_nodup as HN. rewrite E' in HN.
    eapply (NoDup_app_disj m1); [exact HN|exact H|cbn; auto].
  - intros p Hp. cbn [ec_base ec_parents snd] in Hp. apply in_map_iff in Hp. destruct Hp as (y & <- & Hy).
    rewrite in_pair0. exact (Sched_split _ _ _ _ HS _ _ _ E' y Hy).
Qed.

Lemma inputs_first : exists rest, filter (drawing ec) (ec_iter ec) = map (pair 0) (ec_inputs ec) ++ rest.
Proof.
  pose proof Hm as (Ha & _). apply api_api_wf in Ha.
  assert (HC : forall x, In x (c_consts c) -> exists k, nth_error (c_gates c) x = Some (ABase (GConstant k))).
  { intros x Hx. rewrite (aw_consts _ _ Ha) in Hx. apply ids_where_In in Hx. destruct Hx as (g & E & F).
    destruct g as [[]|n| |]; try discriminate. eauto. }
  assert (HI : forall x, In x (c_inputs c) -> nth_error (c_gates c) x = Some (ABase GInput)).
  { intros x Hx. rewrite (aw_inputs _ _ Ha) in Hx. apply ids_where_In in Hx. destruct Hx as (g & E & F).
    destruct g as [[]|n| |]; try discriminate. auto. }
  destruct (first_layer aby_ops c ls) as (rest & E); auto.
  { intros x Hx. unfold is_int. apply in_app_or in Hx. destruct Hx as [Hx|Hx].
    - destruct (HC x Hx) as (k & ->). reflexivity.
    - rewrite (HI x Hx). reflexivity. }
  exists (filter (drawing ec) (map (pair 0) rest)).
  rewrite ec_iter_base, E, !map_app, !filter_app. cbn [ec_base ec_inputs].
  rewrite (filter_all_false _ (map (pair 0) (c_consts c))), (filter_all_true _ (map (pair 0) (c_inputs c))); [reflexivity| |].
  - intros x Hx. apply in_map_iff in Hx. destruct Hx as (y & <- & Hy). unfold drawing. cbn. rewrite HI; auto.
  - intros x Hx. apply in_map_iff in Hx. destruct Hx as (y & <- & Hy). unfold drawing. cbn.
    destruct (HC y Hy) as (k & ->). auto.
Qed.

Lemma base_setup ds : exists ds' go l, setup_gate_outputs ec ds = Some (ds', go) /\
  shape_ok (pr:=aby2) ec go /\ aby_masks ec l /\
  (forall g gate, ec_gate ec g = Some gate ->
     exists s, go_get (pr:=aby2) go g = Some (@CS aby2 s) /\ as_priv s = l g) /\
  map (fun i => l (0, i)) (c_inputs c) = input_draws (ds_map ds) (c_inputs c) (ds_priv ds) (ds_remote ds).
Proof.
  destruct inputs_first as (rest & HF).
  assert (S0 : SInv ec [] (go_init (pr:=aby2) ec) (fun _ => false)).
  { constructor; [apply (base_shape_init (pr:=aby2))|intros g []|intros g gate b []|intros g []]. }
  assert (HO : forall l1 g l2, ec_iter ec = l1 ++ g :: l2 ->
     (exists gate, ec_gate ec g = Some gate) /\ ~ In g ([] ++ l1) /\ incl (ec_parents ec g) ([] ++ l1)).
  { intros l1 g l2 E. cbn [app]. apply iter_order with (l2 := l2). auto. }
  destruct (setup_fold ec aby_base_typed (ec_iter ec) [] ds _ _ _ rest S0 HO HF)
    as (ds' & go & l & E & [Sh HG HM HC] & _ & HD).
  exists ds', go, l. split.
  { unfold setup_gate_outputs. cbn [ec_base ec_counts forallb snd]. rewrite Hs. cbn [andb oassert obind]. exact E. }
  assert (HV : forall g gate, ec_gate ec g = Some gate -> In g (ec_iter ec)).
  { intros [sc x] gate Eg. cbn [ec_base ec_gate fst snd] in Eg. destruct (Nat.eqb_spec sc 0) as [->|]; [|discriminate].
    rewrite ec_iter_base, in_pair0. apply all_ids_In. unfold c_count. apply nth_error_Some. congruence. }
  cbn [app] in *. split; auto. split; [|split; auto].
  - intros g gate Eg. destruct (mask_sem gate (map l (ec_parents ec g))) as [b|] eqn:Em; auto.
    eapply HM; eauto.
  - intros g gate Eg. apply HG. eapply HV; eauto.
Qed.

(** Plain values exist. *)
Lemma aby_plain_exists ins : length ins = length (c_inputs c) -> exists v, aby_plain c ins v.
Proof.
  intros Hl. pose proof Hm as (Ha & _). apply api_api_wf in Ha.
  assert (Hin : forall g, nth_error (c_gates c) g = Some (ABase GInput) ->
     exists i x, nth_error (c_inputs c) i = Some g /\ nth_error ins i = Some x).
  { intros g Hg. assert (Hi : In g (c_inputs c)).
    { rewrite (aw_inputs _ _ Ha). apply ids_where_In. eexists. split; eauto. }
    apply In_nth_error in Hi. destruct Hi as (i & Hi).
    destruct (nth_error ins i) as [x|] eqn:Ex; eauto. apply nth_error_None in Ex.
    assert (i < length (c_inputs c)) by (apply nth_error_Some; congruence). lia. }
  assert (HE : forall V, (forall l1 g l2, V = l1 ++ g :: l2 ->
      (exists gate, nth_error (c_gates c) g = Some gate) /\ ~ In g l1 /\ incl (parents c g) l1) ->
    exists v, forall g gate, In g V -> nth_error (c_gates c) g = Some gate ->
      match gate with
      | ABase GInput => exists i, nth_error (c_inputs c) i = Some g /\ nth_error ins i = Some (v g)
      | _ => aby_sem gate (map v (parents c g)) = Some (v g)
      end).
  { induction V as [|g V IH] using rev_ind; intros HV; [exists (fun _ => false); intros ? ? []|].
    destruct IH as (v & Hv).
    { intros l1 h l2 ->. apply (HV l1 h (l2 ++ [g])). rewrite <- app_assoc. reflexivity. }
    destruct (HV V g [] eq_refl) as ((gate & Hg) & Hn & Hp).
    assert (Hx : exists x, match gate with
      | ABase GInput => exists i, nth_error (c_inputs c) i = Some g /\ nth_error ins i = Some x
      | _ => aby_sem gate (map v (parents c g)) = Some x end).
    { pose proof (Ho _ _ Hg) as HO.
      assert (L1 : length (parents c g) = 1 -> exists p, map v (parents c g) = [v p]).
      { destruct (parents c g) as [|p [|? ?]]; try discriminate. exists p. reflexivity. }
      destruct gate as [[]|n| |]; try contradiction;
        try (destruct (L1 HO) as (p & ->); eexists; reflexivity).
      - destruct (Hin g Hg) as (i & x & A & B). eauto.
      - eexists; reflexivity.
      - eexists. cbn [aby_sem]. rewrite map_length, HO, Nat.eqb_refl. reflexivity.
      - destruct (parents c g) as [|p [|q [|? ?]]]; try discriminate. eexists; reflexivity. }
    destruct Hx as (x & Hx). exists (fun h => if h =? g then x else v h).
    assert (Hmap : forall h, incl (parents c h) V -> map (fun h => if h =? g then x else v h) (parents c h) = map v (parents c h)).
    { intros h Hh. apply map_ext_in. intros p Hp'. destruct (Nat.eqb_spec p g); auto. subst. exfalso. auto. }
    intros h gt Hh Hgt. apply in_app_or in Hh. destruct (Nat.eqb_spec h g) as [->|Hne].
    - rewrite Hg in Hgt. injection Hgt as <-. rewrite Hmap by auto. exact Hx.
    - destruct Hh as [Hh|[Hh|[]]]; [|congruence].
      apply in_split in Hh. destruct Hh as (a & b & ->).
      rewrite Hmap. { apply Hv; auto. apply in_or_app. cbn; auto. }
      destruct (HV a h (b ++ [g])) as (_ & _ & Hi); [rewrite <- app_assoc; reflexivity|].
      intros p Hpp. apply in_or_app. left. auto. }
  destruct (HE (all_ids ls)) as (v & Hv).
  { intros l1 g l2 E. destruct (iter_order (map (pair 0) l1) (0, g) (map (pair 0) l2)) as (A & B & C).
    { rewrite ec_iter_base, E, map_app. reflexivity. }
    split; [exact A|]. split; [rewrite <- in_pair0; auto|].
    intros p Hp. rewrite <- in_pair0. apply C. cbn [ec_base ec_parents snd]. apply in_pair0. auto. }
  exists v. intros g gate Hg. apply Hv; auto. apply all_ids_In. unfold c_count. apply nth_error_Some. congruence.
Qed.

Lemma int_iter_layers : ec_int_iter ec = concat (map el_int (ec_layers ec)).
Proof.
  unfold ec_int_iter. rewrite ec_iter_base. cbn [ec_base ec_layers]. rewrite map_map.
  enough (HE : forall ls' P0, Sched aby_ops c P0 ls' ->
    filter (fun g => match ec_gate ec g with Some x => aby_is_interactive x | None => false end) (map (pair 0) (all_ids ls')) =
    concat (map (fun x => el_int (wrap1 (c_simd c) x)) ls')) by (eapply HE; exact HS).
  induction ls' as [|l ls' IH]; intros P0 HS'; auto.
  destruct HS' as ([R1 R2 R3 R4] & _ & _ & HS').
  change (all_ids (l :: ls')) with (bl_ids l ++ all_ids ls'). unfold bl_ids.
  cbn [map concat]. rewrite !map_app, !filter_app. refine (f_equal2 (@app gid) _ (IH _ HS')). rewrite wrap1_int.
  rewrite (filter_all_false _ (map (pair 0) (bl_ni l))), (filter_all_true _ (map (pair 0) (bl_int l))); [reflexivity| |].
  - intros x Hx. apply in_map_iff in Hx. destruct Hx as (y & <- & Hy). specialize (R4 y Hy).
    unfold is_int in R4. cbn. destruct (nth_error (c_gates c) y); auto.
  - intros x Hx. apply in_map_iff in Hx. destruct Hx as (y & <- & Hy). specialize (R3 y Hy).
    unfold is_int in R3. cbn. destruct (nth_error (c_gates c) y); auto.
Qed.
End Circuit.

(** ** Shares of the inputs *)

Lemma merge_map {A B} (f : A -> B) os : forall a b, map f (merge os a b) = merge os (map f a) (map f b).
Proof.
  induction os as [|o os IH]; intros a b; auto. destruct o; cbn [merge].
  - destruct a as [|x a]; auto. cbn [map]. rewrite <- IH. reflexivity.
  - destruct b as [|x b]; auto. cbn [map]. rewrite <- IH. reflexivity.
Qed.

Lemma owned_cons o p os : owned o (p :: os) = (match p, o with ByP0, ByP0 | ByP1, ByP1 => 1 | _, _ => 0 end) + owned o os.
Proof. unfold owned. cbn [filter]. destruct p, o; reflexivity. Qed.

Lemma merge_length {A} os : forall (a b : list A), length a = owned ByP0 os -> length b = owned ByP1 os ->
  length (merge os a b) = length os.
Proof.
  induction os as [|o os IH]; intros a b La Lb; auto. rewrite owned_cons in La, Lb. destruct o; cbn [merge] in *.
  - destruct a as [|x a]; [discriminate|]. cbn in *. rewrite IH; auto.
  - destruct b as [|x b]; [discriminate|]. cbn in *. rewrite IH; auto.
Qed.

Lemma merge_all3 {A B C} (R : A -> B -> C -> Prop) os : forall a0 a1 a2 b0 b1 b2,
  all3 R a0 a1 a2 -> all3 R b0 b1 b2 -> all3 R (merge os a0 b0) (merge os a1 b1) (merge os a2 b2).
Proof.
  induction os as [|o os IH]; intros a0 a1 a2 b0 b1 b2 HA HB; [constructor|]. destruct o; cbn [merge].
  - inversion HA; subst; constructor; auto.
  - inversion HB; subst; constructor; auto.
Qed.

Lemma input_draws_merge m ids : forall os p r party, omap m ids = Some os -> party = 0 \/ party = 1 ->
  input_draws (by_map party m) ids p r =
  if party =? 0 then merge os (draws p (owned ByP0 os)) (draws r (owned ByP1 os))
  else merge os (draws r (owned ByP0 os)) (draws p (owned ByP1 os)).
Proof.
  induction ids as [|i ids IH]; intros os p r party E Hp; cbn [omap] in E.
  - injection E as <-. destruct (party =? 0); reflexivity.
  - destruct (m i) as [o|] eqn:Em; [|discriminate]. cbn [obind] in E.
    destruct (omap m ids) as [os'|] eqn:E'; [|discriminate]. cbn [obind] in E. injection E as <-.
    cbn [input_draws]. unfold by_map at 1. rewrite Em. rewrite !owned_cons.
    destruct Hp as [->| ->]; cbn [Nat.eqb]; destruct o; cbn [Nat.add merge]; rewrite ?draws_S;
      rewrite (IH os') by auto; reflexivity.
Qed.

Lemma share_all3 s xs sh d s' t : ds_share s xs = (sh, d, s') -> ds_remote t = ds_local s ->
  all3 carries xs sh (fst (ds_plain_delta_to_share t d)) /\
  map as_priv sh = draws (ds_priv s) (length xs) /\
  map as_priv (fst (ds_plain_delta_to_share t d)) = draws (ds_local s) (length xs) /\
  ds_remote s' = ds_remote s.
Proof.
  revert s sh d s' t. induction xs as [|x xs IH]; intros s sh d s' t E Et; cbn [ds_share] in E.
  - injection E as <- <- <-. cbn. repeat split; auto. constructor.
  - destruct (gen (ds_priv s)) as [my p] eqn:Ep. destruct (gen (ds_local s)) as [o l] eqn:El.
    destruct (ds_share _ xs) as [[sh' d'] s''] eqn:Es. injection E as <- <- <-.
    cbn [ds_plain_delta_to_share]. rewrite Et, El.
    destruct (IH _ _ _ _ (DS (ds_priv t) (ds_local t) l (ds_map t)) Es eq_refl) as (A & B & C & D).
    destruct (ds_plain_delta_to_share _ d') as [sh1 t1] eqn:Ed. cbn [fst] in *.
    cbn [length map as_priv]. rewrite !draws_S, Ep, El. cbn [fst snd ds_priv ds_local ds_remote] in *.
    rewrite B, C. split; [|repeat split; auto].
    constructor; auto. split; [reflexivity|]. cbn. bools.
Qed.

Lemma delta_remote t d t' sh : ds_plain_delta_to_share t d = (sh, t') ->
  ds_priv t' = ds_priv t /\ ds_local t' = ds_local t.
Proof.
  rewrite ds_delta_spec. intros E. injection E as _ <-. auto.
Qed.

(** ** Setup by the helper *)

Lemma helper_msg_ok ec (l0 l1 : gid -> bool) rec lam gs : forall k,
  (forall g, In g gs -> ec_gate ec g = Some (AAnd 2) /\ exists p q, ec_parents ec g = [p; q]) ->
  (forall g p, In g gs -> In p (ec_parents ec g) -> rec p = Some (xorb (l0 p) (l1 p))) ->
  exists msg, helper_msg ec rec gs (Rng lam k) = Some msg /\
    all3 (eval_ok ec l0 l1) gs (map (fun i => [lam i]) (seq k (length gs))) (map (fun b => [b]) msg).
Proof.
  induction gs as [|g gs IH]; intros k Hg Hr.
  - exists []. split; auto. constructor.
  - destruct (Hg g) as (Eg & p & q & Ep); [cbn; auto|].
    destruct (IH (S k)) as (msg & E & HA); [intros; apply Hg; cbn; auto|intros; eapply Hr; eauto; cbn; auto|].
    cbn [helper_msg]. rewrite Eg. cbn [Nat.eqb oassert obind]. rewrite Ep.
    rewrite (Hr g p), (Hr g q) by (rewrite ?Ep; cbn; auto). cbn [obind gen rng_bits rng_pos]. rewrite E. cbn [obind].
    eexists. split; [reflexivity|]. cbn [length seq map]. constructor; auto.
    exists [p; q]. rewrite Ep. split; auto. split; auto. cbn. f_equal. rewrite andb_true_r.
    rewrite xorb_comm, xorb_assoc, xorb_nilpotent, xorb_false_r. reflexivity.
Qed.
