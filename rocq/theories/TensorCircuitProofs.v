(** Tensor ABY2: a main circuit, its setup, and the shares of the inputs. *)
From Coq Require Import List Bool Arith NArith Lia Permutation.
Require Import Verif.Prelude Verif.PreludeProofs Verif.GateModel Verif.ProtocolModel Verif.CircuitModel
  Verif.CircuitSpec Verif.CircuitProofs Verif.CircuitProofs2 Verif.CircuitProofs3 Verif.ExecModel Verif.ExecSpec Verif.ExecProofs Verif.ExecLayerProofs Verif.ExecCircuitProofs Verif.ExecTheorems
  Verif.BitMatModel Verif.BitMatSpec Verif.BitMatTheorems
  Verif.Aby2Model Verif.Aby2Spec Verif.Aby2Proofs Verif.Aby2ExecProofs Verif.Aby2CircuitProofs
  Verif.TensorModel Verif.TensorSpec Verif.TensorProofs Verif.TensorExecProofs.
Import ListNotations.
Open Scope nat_scope.

Lemma forall2_len {A B} (R : A -> B -> Prop) a b : Forall2 R a b -> length a = length b.
Proof. induction 1; cbn; auto. Qed.

Section Circuit.
Variable junk : nat -> bool.
Variable c : circuit tensor_gate.
Variable ty : nat -> tdim.
Hypothesis Hm : main_ok tensor_ops c.
Hypothesis Hs : c_simd c = None.
Hypothesis Ho : tensor_dims c ty.
Variable ls : list blayer.
Hypothesis Els : c_layers tensor_ops c = Some ls.
Hypothesis HS : Sched tensor_ops c [] ls.
Hypothesis HP : Permutation (all_ids ls) (seq 0 (c_count c)).
Notation ec := (ec_base c ls).
Notation tyg := (fun g : gid => ty (snd g)).

Lemma t_all_ids_In x : In x (all_ids ls) <-> x < c_count c.
Proof.
  split; intros H.
  - apply (Permutation_in _ HP) in H. apply in_seq in H. lia.
  - apply (Permutation_in _ (Permutation_sym HP)). apply in_seq. lia.
Qed.

Lemma t_all_ids_gate x : In x (all_ids ls) -> exists gate, nth_error (c_gates c) x = Some gate.
Proof.
  intros H. apply t_all_ids_In in H. destruct (nth_error (c_gates c) x) eqn:E; eauto.
  apply nth_error_None in E. unfold c_count in H. lia.
Qed.

Lemma t_iter_order l1 g l2 : ec_iter ec = l1 ++ g :: l2 ->
  (exists gate, ec_gate ec g = Some gate) /\ ~ In g l1 /\ incl (ec_parents ec g) l1.
Proof.
  rewrite ec_iter_base. intros E. destruct (map_pair0_split _ _ _ _ E) as (m1 & x & m2 & E' & -> & ->).
  split; [|split].
  - cbn. apply t_all_ids_gate. rewrite E'. apply in_or_app. cbn; auto.
  - rewrite in_pair0. intros H.
    assert (HN : NoDup (all_ids ls)) by (apply (Permutation_NoDup (Permutation_sym HP)); apply seq_NoDup). rewrite E' in HN.
    eapply (NoDup_app_disj m1); [exact HN|exact H|cbn; auto].
  - intros p Hp. cbn [ec_base ec_parents snd] in Hp. apply in_map_iff in Hp. destruct Hp as (y & <- & Hy).
    rewrite in_pair0. exact (Sched_split _ _ _ _ HS _ _ _ E' y Hy).
Qed.

(** Induction along the order of the gates. *)
Lemma t_ids_order l1 g l2 : all_ids ls = l1 ++ g :: l2 ->
  (exists gate, nth_error (c_gates c) g = Some gate) /\ ~ In g l1 /\ incl (parents c g) l1.
Proof.
  intros E. destruct (t_iter_order (map (pair 0) l1) (0, g) (map (pair 0) l2)) as (A & B & C).
  { rewrite ec_iter_base, E, map_app. reflexivity. }
  split; [exact A|]. split; [rewrite <- in_pair0; auto|].
  intros p Hp. rewrite <- in_pair0. apply C. cbn [ec_base ec_parents snd]. apply in_pair0. auto.
Qed.

Lemma t_parent_gate g gate p : nth_error (c_gates c) g = Some gate -> In p (parents c g) ->
  exists gate', nth_error (c_gates c) p = Some gate'.
Proof.
  intros Hg Hp. assert (Hi : In g (all_ids ls)) by (apply t_all_ids_In; unfold c_count; apply nth_error_Some; congruence).
  apply in_split in Hi. destruct Hi as (a & b & E). destruct (t_ids_order a g b E) as (_ & _ & HI).
  apply t_all_ids_gate. rewrite E. apply in_or_app. left. apply HI. auto.
Qed.

Lemma t_base_typed : t_typed ec tyg.
Proof.
  split; [intros; exact Hs|]. intros [sc g] gate E. cbn [ec_base ec_gate fst snd] in E.
  destruct (Nat.eqb_spec sc 0) as [->|]; [|discriminate]. destruct (Ho _ _ E) as [HO1 HO2].
  cbn [ec_base ec_parents ec_inputs fst snd]. rewrite map_map. cbn [snd].
  replace (map (fun x => ty x) (parents c g)) with (map ty (parents c g)) by (apply map_ext; auto).
  split; auto. split; auto. split.
  - intros p Hp. apply in_map_iff in Hp. destruct Hp as (y & <- & Hy). destruct (t_parent_gate g gate y E Hy) as (gt & Eg).
    apply (Ho _ _ Eg).
  - destruct gate as [[] dim| | | | | |rows cols|]; auto.
    split; auto. destruct Hm as (Ha & _). apply api_api_wf in Ha. rewrite (aw_inputs _ _ Ha).
    apply ids_where_In. eexists. split; eauto.
Qed.

Lemma t_base_valuation ins v : tensor_plain c ins v -> t_valuation ec ins (fun g => v (snd g)).
Proof.
  intros Hv [sc g] gate E. cbn [ec_base ec_gate fst snd] in E.
  destruct (Nat.eqb_spec sc 0) as [->|]; [|discriminate]. pose proof (Hv _ _ E) as HV.
  cbn [ec_base ec_parents ec_inputs fst snd]. rewrite map_map. cbn [snd].
  replace (map (fun x => v x) (parents c g)) with (map v (parents c g)) by (apply map_ext; auto).
  exact HV.
Qed.

(** Plain values have the dimensions of the circuit. *)
Lemma t_plain_dims ins v : Forall2 has_dim (map ty (c_inputs c)) ins -> tensor_plain c ins v ->
  forall g gate, nth_error (c_gates c) g = Some gate -> has_dim (ty g) (v g).
Proof.
  intros HF Hv.
  enough (HE : forall l1 l2, all_ids ls = l1 ++ l2 -> forall g, In g l1 -> has_dim (ty g) (v g)).
  { intros g gate Hg. apply (HE (all_ids ls) []); [rewrite app_nil_r; auto|]. apply t_all_ids_In. unfold c_count. apply nth_error_Some. congruence. }
  induction l1 as [|x l1 IH] using rev_ind; intros l2 E g Hin; [destruct Hin|].
  rewrite <- app_assoc in E. cbn [app] in E. specialize (IH _ E).
  apply in_app_or in Hin. destruct Hin as [Hin|[<-|[]]]; [auto|].
  destruct (t_ids_order l1 x l2 E) as ((gate & Hg) & _ & HI).
  pose proof (Hv _ _ Hg) as HV. destruct (Ho _ _ Hg) as [_ HK].
  assert (HD : forall p, In p (parents c x) -> has_dim (ty p) (v p)) by (intros p Hp; apply IH, HI, Hp).
  destruct (match gate with TBase GInput _ => true | _ => false end) eqn:Ein.
  - destruct gate as [[] dim| | | | | |rows cols|]; try discriminate. destruct HV as (i & Hi1 & Hi2).
    clear - HF Hi1 Hi2. revert i ins HF Hi1 Hi2. induction (c_inputs c) as [|y ys IH]; intros [|i] ins HF H1 H2; cbn in *; try discriminate;
      inversion HF; subst; cbn in H2.
    + injection H1 as ->. injection H2 as ->. auto.
    + eapply IH; eauto.
  - destruct gate as [[] dim| | | | | |rows cols|]; try discriminate; cbn [gate_dims tensor_sem] in HK, HV; try contradiction;
      try (destruct (parents c x) as [|p [|? ?]]; try discriminate; cbn [map] in HK, HV; injection HK as HK; injection HV as HV;
           rewrite <- HK, <- HV; apply HD; cbn; auto).
    + destruct HK as [_ ->], HV as (a & b & _ & ->). exact I.
    + destruct HK as [_ ->], HV as (a & b & _ & ->). exact I.
    + destruct HK as (k & HK & ->), HV as (a & b & m & _ & -> & R & C & (A1 & A2 & A3 & A4 & _)). cbn. split; [congruence|]. split; [congruence|auto].
Qed.

Lemma t_inputs_first : exists rest, filter (tdrawing ec) (ec_iter ec) = map (pair 0) (ec_inputs ec) ++ rest.
Proof.
  pose proof Hm as (Ha & _). apply api_api_wf in Ha.
  assert (HC : forall x, In x (c_consts c) -> exists k d, nth_error (c_gates c) x = Some (TBase (GConstant k) d)).
  { intros x Hx. rewrite (aw_consts _ _ Ha) in Hx. apply ids_where_In in Hx. destruct Hx as (g & E & F).
    destruct g as [[] dim| | | | | |rows cols|]; try discriminate. eauto. }
  assert (HI : forall x, In x (c_inputs c) -> exists d, nth_error (c_gates c) x = Some (TBase GInput d)).
  { intros x Hx. rewrite (aw_inputs _ _ Ha) in Hx. apply ids_where_In in Hx. destruct Hx as (g & E & F).
    destruct g as [[] dim| | | | | |rows cols|]; try discriminate. eauto. }
  destruct (first_layer tensor_ops c ls) as (rest & E); auto.
  { intros x Hx. unfold is_int. apply in_app_or in Hx. destruct Hx as [Hx|Hx].
    - destruct (HC x Hx) as (k & d & ->). reflexivity.
    - destruct (HI x Hx) as (d & ->). reflexivity. }
  exists (filter (tdrawing ec) (map (pair 0) rest)).
  rewrite ec_iter_base, E, !map_app, !filter_app. cbn [ec_base ec_inputs].
  rewrite (filter_all_false _ (map (pair 0) (c_consts c))), (filter_all_true _ (map (pair 0) (c_inputs c))); [reflexivity| |].
  - intros x Hx. apply in_map_iff in Hx. destruct Hx as (y & <- & Hy). unfold tdrawing. cbn. destruct (HI y Hy) as (d & ->). auto.
  - intros x Hx. apply in_map_iff in Hx. destruct Hx as (y & <- & Hy). unfold tdrawing. cbn.
    destruct (HC y Hy) as (k & d & ->). auto.
Qed.

Lemma t_base_setup ds : exists ds' go l, t_setup_gate_outputs junk ec ds = Some (ds', go) /\
  shape_ok (pr:=tensor junk) ec go /\ t_masks ec tyg l /\
  (forall g gate, ec_gate ec g = Some gate ->
     exists s, go_get (pr:=tensor junk) go g = Some (@CS (tensor junk) s) /\ ts_priv s = l g) /\
  map (fun i => l (0, i)) (c_inputs c) = t_input_draws tyg (td_map ds) (c_inputs c) (td_priv ds) (td_remote ds).
Proof.
  destruct t_inputs_first as (rest & HF).
  assert (S0 : TInv junk ec tyg [] (go_init (pr:=tensor junk) ec) (fun _ => TScalar false)).
  { constructor; [apply (base_shape_init (pr:=tensor junk))|intros g []|intros g gate []|intros g []]. }
  assert (HO : forall l1 g l2, ec_iter ec = l1 ++ g :: l2 ->
     (exists gate, ec_gate ec g = Some gate) /\ ~ In g ([] ++ l1) /\ incl (ec_parents ec g) ([] ++ l1)).
  { intros l1 g l2 E. cbn [app]. apply t_iter_order with (l2 := l2). auto. }
  destruct (t_setup_fold junk ec tyg t_base_typed (ec_iter ec) [] ds _ _ _ rest S0 HO HF)
    as (ds' & go & l & E & [Sh HG HM HC] & _ & HD).
  exists ds', go, l. split.
  { unfold t_setup_gate_outputs. cbn [ec_base ec_counts forallb snd]. rewrite Hs. cbn [andb oassert obind]. exact E. }
  assert (HV : forall g gate, ec_gate ec g = Some gate -> In g (ec_iter ec)).
  { intros [sc x] gate Eg. cbn [ec_base ec_gate fst snd] in Eg. destruct (Nat.eqb_spec sc 0) as [->|]; [|discriminate].
    rewrite ec_iter_base, in_pair0. apply t_all_ids_In. unfold c_count. apply nth_error_Some. congruence. }
  cbn [app] in *. split; auto. split; [|split; auto].
  - intros g gate Eg. split; [|apply HM; eauto]. destruct (HG g) as (s & _ & _ & D); eauto.
  - intros g gate Eg. destruct (HG g) as (s & A & B & _); eauto.
Qed.

(** Plain values exist. *)
Lemma t_plain_exists ins : Forall2 has_dim (map ty (c_inputs c)) ins -> exists v, tensor_plain c ins v.
Proof.
  intros HF. assert (Hl : length (c_inputs c) = length ins) by (rewrite <- (forall2_len _ _ _ HF), map_length; auto).
  pose proof Hm as (Ha & _). apply api_api_wf in Ha.
  assert (Hin : forall g d, nth_error (c_gates c) g = Some (TBase GInput d) ->
     exists i x, nth_error (c_inputs c) i = Some g /\ nth_error ins i = Some x).
  { intros g d Hg. assert (Hi : In g (c_inputs c)).
    { rewrite (aw_inputs _ _ Ha). apply ids_where_In. eexists. split; eauto. }
    apply In_nth_error in Hi. destruct Hi as (i & Hi).
    destruct (nth_error ins i) as [x|] eqn:Ex; eauto. apply nth_error_None in Ex.
    assert (i < length (c_inputs c)) by (apply nth_error_Some; congruence). lia. }
  assert (HE : forall V r, all_ids ls = V ++ r ->
    exists v, forall g gate, In g V -> nth_error (c_gates c) g = Some gate -> has_dim (ty g) (v g) /\
      match gate with
      | TBase GInput _ => exists i, nth_error (c_inputs c) i = Some g /\ nth_error ins i = Some (v g)
      | _ => tensor_sem gate (map v (parents c g)) (v g)
      end).
  { induction V as [|g V IH] using rev_ind; intros r HV; [exists (fun _ => TScalar false); intros ? ? []|].
    rewrite <- app_assoc in HV. cbn [app] in HV.
    destruct (IH _ HV) as (v & Hv). clear IH.
    destruct (t_ids_order V g r HV) as ((gate & Hg) & Hn & Hp).
    assert (HD : forall p, In p (parents c g) -> has_dim (ty p) (v p)).
    { intros p Hp'. destruct (t_parent_gate _ _ _ Hg Hp') as (gt & Egt). apply (Hv p gt); auto. }
    assert (Hx : exists x, has_dim (ty g) x /\ match gate with
      | TBase GInput _ => exists i, nth_error (c_inputs c) i = Some g /\ nth_error ins i = Some x
      | _ => tensor_sem gate (map v (parents c g)) x end).
    { destruct (Ho _ _ Hg) as [Hd HO].
      assert (L1 : map ty (parents c g) = [ty g] -> exists p, map v (parents c g) = [v p] /\ has_dim (ty g) (v p)).
      { destruct (parents c g) as [|p [|? ?]]; try discriminate. cbn. intros E. injection E as <-. exists p. split; auto. apply HD; cbn; auto. }
      assert (L2 : forall d d', map ty (parents c g) = [d; d'] -> exists p q, parents c g = [p; q] /\ map v (parents c g) = [v p; v q] /\
         has_dim d (v p) /\ has_dim d' (v q) /\ dim_ok d).
      { intros d d' E. assert (DP : forall p, In p (parents c g) -> dim_ok (ty p)).
        { intros p Hp'. destruct (t_parent_gate _ _ _ Hg Hp') as (gt & Egt). apply (Ho _ _ Egt). }
        destruct (parents c g) as [|p [|q [|? ?]]]; try discriminate. cbn in E. injection E as <- <-.
        exists p, q. split; auto. split; auto. split; [apply HD; cbn; auto|]. split; [apply HD; cbn; auto|]. apply DP. cbn; auto. }
      destruct gate as [[] dim| | | | | |rows cols|]; cbn [gate_dims tensor_sem] in *; try contradiction;
        try (destruct (L1 HO) as (p & -> & D); exists (v p); auto).
      - destruct (Hin g _ Hg) as (i & x & A & B). exists x. split; [|eauto].
        clear - HF A B. revert i ins HF A B. induction (c_inputs c) as [|y ys IH]; intros [|i] ins HF H1 H2; cbn in *; try discriminate;
          inversion HF; subst; cbn in H2.
        + injection H1 as ->. injection H2 as ->. auto.
        + eapply IH; eauto.
      - destruct HO as [HO ->]. destruct (L2 _ _ HO) as (p & q & _ & -> & Dp & Dq & _).
        destruct (v p) as [a|?|?]; try contradiction. destruct (v q) as [b|?|?]; try contradiction.
        exists (TScalar (a && b)). split; [exact I|]. eauto.
      - destruct HO as [HO ->]. destruct (L2 _ _ HO) as (p & q & _ & -> & Dp & Dq & _).
        destruct (v p) as [a|?|?]; try contradiction. destruct (v q) as [b|?|?]; try contradiction.
        exists (TScalar (xorb a b)). split; [exact I|]. eauto.
      - destruct HO as (k & HO & Et). rewrite Et in *. destruct (L2 _ _ HO) as (p & q & _ & -> & Dp & Dq & Dok).
        destruct (v p) as [?|?|a]; try contradiction. destruct (v q) as [?|?|b]; try contradiction.
        destruct Dp as (P1 & P2 & P3), Dq as (Q1 & Q2 & Q3). destruct Dok as (_ & K & _), Hd as (_ & _ & M).
        destruct (mat_mul_ok junk rows k cols a b) as (m & _ & M1 & M2 & M3 & M4); auto.
        exists (TMatrix m). split; [cbn; auto|]. exists a, b, m. split; auto. split; auto. split; auto. split; auto.
        unfold is_product. split; [congruence|]. split; [congruence|]. split; [congruence|]. split; auto.
        intros i j Hi Hj. rewrite P2. apply M4; congruence. }
    destruct Hx as (x & Hxd & Hx). exists (fun h => if h =? g then x else v h).
    assert (Hmap : forall h, incl (parents c h) V -> map (fun h => if h =? g then x else v h) (parents c h) = map v (parents c h)).
    { intros h Hh. apply map_ext_in. intros p Hp'. destruct (Nat.eqb_spec p g); auto. subst. exfalso. auto. }
    intros h gt Hh Hgt. apply in_app_or in Hh. destruct (Nat.eqb_spec h g) as [->|Hne].
    - rewrite Hg in Hgt. injection Hgt as <-. rewrite Hmap by auto. auto.
    - destruct Hh as [Hh|[Hh|[]]]; [|congruence]. rewrite Hmap; [apply Hv; auto|].
      apply in_split in Hh. destruct Hh as (a & b & Eab).
      destruct (t_ids_order a h (b ++ g :: r)) as (_ & _ & Hi); [rewrite HV, Eab, <- app_assoc; reflexivity|].
      intros p Hpp. rewrite Eab. apply in_or_app. left. auto. }
  destruct (HE (all_ids ls) []) as (v & Hv); [rewrite app_nil_r; auto|].
  exists v. intros g gate Hg. apply Hv; auto. apply t_all_ids_In. unfold c_count. apply nth_error_Some. congruence.
Qed.

Lemma t_int_iter_layers : t_int_iter ec = concat (map el_int (ec_layers ec)).
Proof.
  unfold t_int_iter. rewrite ec_iter_base. cbn [ec_base ec_layers]. rewrite map_map.
  enough (HE : forall ls' P0, Sched tensor_ops c P0 ls' ->
    filter (fun g => match ec_gate ec g with Some x => t_is_interactive x | None => false end) (map (pair 0) (all_ids ls')) =
    concat (map (fun x => el_int (wrap1 (c_simd c) x)) ls')) by (eapply HE; exact HS).
  induction ls' as [|l ls' IH]; intros P0 HS'; auto.
  destruct HS' as ([R1 R2 R3 R4] & _ & _ & HS').
  change (all_ids (l :: ls')) with (bl_ids l ++ all_ids ls'). unfold bl_ids.
  cbn [map concat]. rewrite !map_app, !filter_app. refine (f_equal2 (@app gid) _ (IH _ HS')). rewrite wrap1_int.
  rewrite (filter_all_false _ (map (pair 0) (bl_ni l))), (filter_all_true _ (map (pair 0) (bl_int l))); [reflexivity| |].
  - intros x Hx. apply in_map_iff in Hx. destruct Hx as (y & <- & Hy). specialize (R4 y Hy).
    unfold is_int in R4. cbn. destruct (nth_error (c_gates c) y); auto.
  - intros x Hx. apply in_map_iff in Hx. destruct Hx as (y & <- & Hy). specialize (R3 y Hy).
    unfold is_int in R3. cbn. destruct (nth_error (c_gates c) y); auto.
Qed.
End Circuit.

(** ** Shares of the inputs *)

Lemma t_input_draws_merge ty m ids : forall os xs0 xs1 p r party, omap m ids = Some os -> party = 0 \/ party = 1 ->
  length xs0 = owned ByP0 os -> length xs1 = owned ByP1 os ->
  Forall2 has_dim (map (fun i => ty (0, i)) ids) (merge os xs0 xs1) ->
  t_input_draws ty (by_map party m) ids p r =
  if party =? 0 then merge os (tdraws (map dim_of xs0) p) (tdraws (map dim_of xs1) r)
  else merge os (tdraws (map dim_of xs0) r) (tdraws (map dim_of xs1) p).
Proof.
  induction ids as [|i ids IH]; intros os xs0 xs1 p r party E Hp L0 L1 HF; cbn [omap] in E.
  - injection E as <-. destruct (party =? 0); reflexivity.
  - destruct (m i) as [o|] eqn:Em; [|discriminate]. cbn [obind] in E.
    destruct (omap m ids) as [os'|] eqn:E'; [|discriminate]. cbn [obind] in E. injection E as <-.
    rewrite owned_cons in L0, L1.
    cbn [t_input_draws]. unfold by_map at 1. rewrite Em.
    destruct o.
    + destruct xs0 as [|x xs0]; [discriminate|]. cbn [merge map] in HF. inversion HF as [|? ? ? ? D HF']; subst.
      apply has_dim_of in D. cbn [map tdraws merge]. rewrite D.
      destruct Hp as [->| ->]; cbn [Nat.eqb merge]; rewrite (IH os' xs0 xs1) by (cbn in *; auto; lia); reflexivity.
    + destruct xs1 as [|x xs1]; [discriminate|]. cbn [merge map] in HF. inversion HF as [|? ? ? ? D HF']; subst.
      apply has_dim_of in D. cbn [map tdraws merge]. rewrite D.
      destruct Hp as [->| ->]; cbn [Nat.eqb merge]; rewrite (IH os' xs0 xs1) by (cbn in *; auto; lia); reflexivity.
Qed.

(** The values of both parties are well formed when the merged ones are. *)
Lemma merge_plain_ok os : forall ds xs0 xs1, length xs0 = owned ByP0 os -> length xs1 = owned ByP1 os ->
  Forall dim_ok ds -> Forall2 has_dim ds (merge os xs0 xs1) -> Forall plain_ok xs0 /\ Forall plain_ok xs1.
Proof.
  induction os as [|o os IH]; intros ds xs0 xs1 L0 L1 HD HF.
  - destruct xs0; [|discriminate]. destruct xs1; [|discriminate]. auto.
  - rewrite owned_cons in L0, L1. destruct o; cbn [merge] in HF.
    + destruct xs0 as [|x xs0]; [discriminate|]. inversion HF as [|d ? ds' ? D HF']; subst. inversion HD; subst.
      destruct (IH ds' xs0 xs1) as [A B]; auto; try (cbn in *; lia). split; auto. constructor; auto.
      unfold plain_ok. rewrite (has_dim_of _ _ D). auto.
    + destruct xs1 as [|x xs1]; [discriminate|]. inversion HF as [|d ? ds' ? D HF']; subst. inversion HD; subst.
      destruct (IH ds' xs0 xs1) as [A B]; auto; try (cbn in *; lia). split; auto. constructor; auto.
      unfold plain_ok. rewrite (has_dim_of _ _ D). auto.
Qed.
