(** Executing a program on precomputed layers: lemmas for C23. *)
From Coq Require Import List Bool Arith Lia Permutation Sorting.Sorted.
Require Import Verif.Prelude Verif.PreludeProofs Verif.GateModel Verif.ProtocolModel
  Verif.CircuitModel Verif.CircuitSpec Verif.CircuitProofs Verif.CircuitProofs2
  Verif.CircuitProofs3 Verif.BoolGmwModel Verif.BoolGmwSpec Verif.ExecModel Verif.ExecSpec Verif.ExecBoolSpec
  Verif.ConnModel Verif.ConnSpec Verif.ConnProofs Verif.MultiModel Verif.MultiSpec
  Verif.MultiProofs Verif.MultiExecProofs2 Verif.StaticModel Verif.StaticSpec Verif.StaticProofs3.
Import ListNotations.

(** The layers with nothing released. *)
Definition no_free (L : elayer) : elayer :=
  map (fun e => (fst e, BL (bl_ni (snd e)) (bl_int (snd e)) [])) L.

Lemma no_free_ni L : el_ni (no_free L) = el_ni L.
Proof. unfold el_ni, no_free. rewrite map_map. f_equal. apply map_ext. intros [[sc s] b]. auto. Qed.

Lemma no_free_int L : el_int (no_free L) = el_int L.
Proof. unfold el_int, no_free. rewrite map_map. f_equal. apply map_ext. intros [[sc s] b]. auto. Qed.

Lemma no_free_freed L : freed (no_free L) = [].
Proof.
  destruct (freed (no_free L)) as [|f l] eqn:E; auto. exfalso.
  assert (H : In f (freed (no_free L))) by (rewrite E; simpl; auto). apply in_freed in H.
  destruct H as (k & n & b & x & _ & Hb & Hx). apply in_map_iff in Hb. destruct Hb as (e & Eb & _).
  apply pair_equal_spec in Eb. destruct Eb as [_ <-]. destruct Hx.
Qed.

Lemma in_no_free sc s b L : In (sc, s, b) (no_free L) -> exists b', In (sc, s, b') L.
Proof.
  intros H. apply in_map_iff in H. destruct H as ([[sc' s'] b'] & E & H). cbn [fst snd] in E.
  injection E as -> -> _. eauto.
Qed.

(** *** A schedule that never releases *)
Section Sched.
Context {PT G : Type}.
Variable ops : gate_ops PT G.
Variable m : mcirc G.
Variable imax : nat.
Variable h : list (gid * gid).
Let circ := mc_get m.
Hypothesis Hcirc : circuits_ok ops circ.
Hypothesis Hwires : wires_ok ops circ h.
Hypothesis Hpar : forall g, Permutation (cn_parents imax (mc_conns m) g) (sources_of h g).
Hypothesis Hsimd0 : forall k c, circ k = Some c -> c_simd c <> Some 0.

Lemma kept_sched c0 ls0 : forall ls E (Live Todo : gid -> Prop),
  MSched ops m h E ls -> NoDup (E ++ flat ls) ->
  (forall g, In g (E ++ flat ls) -> gate_exists circ g) ->
  (forall g, In g E -> Live g) ->
  (forall g, In g (flat ls) -> Todo g) ->
  (forall o, In o (c_outputs c0) -> In (0, o) (E ++ flat ls)) ->
  sched_ok ops (ec_multi m imax c0 ls0) Live Todo (map no_free ls).
Proof.
  induction ls as [|L ls IH]; intros E Live Todo HS HN HR HL HT HO.
  - simpl. intros o Ho. specialize (HO o Ho). change (flat []) with (@nil gid) in HO. rewrite app_nil_r in HO. auto.
  - cbn [map sched_ok]. destruct HS as (Hne & [HSo HLo] & HS).
    change (flat (L :: ls)) with (el_ids L ++ flat ls) in *.
    assert (HN1 : NoDup (E ++ el_ids L)) by (rewrite app_assoc in HN; eapply NoDup_app_l; eauto).
    assert (HN2 : NoDup (el_ni L ++ el_int L)).
    { eapply Permutation_NoDup; [apply el_ids_split|]. eapply NoDup_app_r; eauto. }
    assert (Hids : forall g, In g (el_ids L) -> In g (el_ni L) \/ In g (el_int L)).
    { intros g Hg. apply in_app_or. apply (Permutation_in _ (el_ids_split L)). auto. }
    split.
    + constructor; rewrite ?no_free_ni, ?no_free_int, ?no_free_freed.
      * intros sc simd b Hb. destruct (in_no_free _ _ _ _ Hb) as (b' & Hb'). destruct (HLo _ _ _ Hb') as (c & A & -> & _).
        cbn [ec_multi ec_simd]. rewrite A. split; auto. eapply Hsimd0; eauto.
      * intros l1 g l2 El. destruct (el_ni_at _ _ _ _ El) as (k & s & b & m1 & x & m2 & -> & Hb & Em & Hm1).
        destruct (HLo _ _ _ Hb) as (c & A & Es & _ & LR & _ & _ & Mem & Hw).
        change (mc_get m k) with (circ k) in A.
        assert (Hx : In x (bl_ni b)) by (rewrite Em; apply in_or_app; simpl; auto).
        assert (Hxi : In x (bl_ids b)) by (apply in_or_app; auto).
        assert (Hg : In (k, x) (el_ids L)) by (apply in_el_ids; eauto).
        split; [|split; [|split]].
        -- cbn [ec_multi ec_gate]. eapply exists_gate; eauto; [apply (Mem x Hxi)|]. apply (lr_kni _ _ _ _ _ LR x Hx).
        -- apply HT. apply in_or_app; auto.
        -- intros Hin. rewrite El in HN2. apply NoDup_app_l in HN2.
           apply (NoDup_app_disj l1 ((k, x) :: l2) (k, x) HN2 Hin). simpl; auto.
        -- intros p Hp. cbn [ec_multi ec_parents] in Hp. destruct (mc_parents_In m imax h Hpar _ _ _ _ A Hp) as [(y & -> & Hy)|Hh].
           ++ destruct (in_app_or _ _ _ (lr_ni _ _ _ _ _ LR _ _ _ Em y Hy)) as [H|H]; auto.
              left. apply HL. apply in_proj; auto.
           ++ left. eauto.
      * eapply NoDup_app_r; eauto.
      * intros [k x] Hg. pose proof Hg as Hg'. apply in_el_int in Hg'. destruct Hg' as (s & b & Hb & Hx).
        destruct (HLo _ _ _ Hb) as (c & A & Es & _ & LR & _ & _ & Mem & Hw).
        change (mc_get m k) with (circ k) in A.
        assert (Hxi : In x (bl_ids b)) by (apply in_or_app; auto).
        split; [|split; [|split]].
        -- cbn [ec_multi ec_gate]. eapply exists_gate; eauto; [apply (Mem x Hxi)|]. apply (lr_kit _ _ _ _ _ LR x Hx).
        -- apply HT. apply in_or_app. left. eapply Permutation_in; [apply Permutation_sym, el_ids_split|]. apply in_or_app; auto.
        -- intros Hin. exact (NoDup_app_disj (el_ni L) (el_int L) (k, x) HN2 Hin Hg).
        -- intros p Hp. cbn [ec_multi ec_parents] in Hp. destruct (mc_parents_In m imax h Hpar _ _ _ _ A Hp) as [(y & -> & Hy)|Hh].
           ++ destruct (in_app_or _ _ _ (lr_it _ _ _ _ _ LR _ Hx y Hy)) as [H|H].
              ** left. apply HL. apply in_proj; auto.
              ** right. apply in_el_ni. eauto.
           ++ left. eauto.
      * intros f [].
    + apply (IH (E ++ el_ids L)); auto.
      * rewrite <- app_assoc. auto.
      * intros g Hg. apply HR. rewrite <- app_assoc in Hg. auto.
      * intros g Hin. unfold live_after. rewrite no_free_freed, no_free_ni, no_free_int.
        apply in_app_or in Hin. destruct Hin as [Hin|Hin]; [left; split; auto|].
        apply Hids in Hin. destruct Hin; auto.
      * intros g Hg. unfold todo_after. rewrite no_free_ni, no_free_int. split; [apply HT; apply in_or_app; auto|].
        assert (~ In g (el_ids L)).
        { intros H. rewrite app_assoc in HN. refine (NoDup_app_disj (E ++ el_ids L) (flat ls) g HN _ Hg). apply in_or_app; auto. }
        split; intros Hg'; apply H; eapply Permutation_in; try (apply Permutation_sym, el_ids_split); apply in_or_app; auto.
      * intros o Ho. rewrite <- app_assoc. auto.
Qed.

(** *** The gates found in the precomputed layers *)
Lemma gates_view_spec sc : forall ids gs, gates_view m imax sc ids = Some gs ->
  map (fun x => snd (fst x)) gs = ids /\
  forall g id ps, In (g, id, ps) gs -> mc_gate m (sc, id) = Some g /\ ps = mc_parents imax m (sc, id).
Proof.
  unfold gates_view. induction ids as [|i ids IH]; intros gs H; cbn [omap] in H.
  - injection H as <-. split; auto. intros ? ? ? [].
  - destruct (mc_gate m (sc, i)) as [g0|] eqn:Eg; [|discriminate]. cbn [obind] in H.
    destruct (omap _ ids) as [t|] eqn:Et in H; [|discriminate]. cbn [obind] in H. apply some_inj in H. subst gs.
    destruct (IH t Et) as [A B]. split; [cbn [map fst snd]; rewrite A; auto|].
    intros g id ps [E|Hin]; [injection E as <- <- <-; auto|eauto].
Qed.

Lemma layer_view_spec e v : layer_view m imax e = Some v -> exists ni it, v = (fst (fst e), snd (fst e), ni, it) /\
  gates_view m imax (fst (fst e)) (bl_ni (snd e)) = Some ni /\ gates_view m imax (fst (fst e)) (bl_int (snd e)) = Some it.
Proof.
  unfold layer_view. intros H. destruct (gates_view m imax (fst (fst e)) (bl_ni (snd e))) as [ni|] eqn:E1; [|discriminate].
  destruct (gates_view m imax (fst (fst e)) (bl_int (snd e))) as [it|] eqn:E2; [|discriminate]. cbn [obind] in H.
  apply some_inj in H. exists ni, it. auto.
Qed.

Lemma views_layers : forall ls vs, omap (omap (layer_view m imax)) ls = Some vs ->
  map (map (fun '(sc, simd, ni, it) =>
    (sc, simd, BL (map (fun x : G * nat * list gid => snd (fst x)) ni)
                  (map (fun x : G * nat * list gid => snd (fst x)) it) []))) vs = map no_free ls.
Proof.
  induction ls as [|L ls IH]; intros vs H; cbn [omap] in H; [injection H as <-; auto|].
  destruct (omap (layer_view m imax) L) as [t|] eqn:Et; [|discriminate].
  destruct (omap (omap (layer_view m imax)) ls) as [ts|]; [|discriminate]. cbn [obind] in H.
  apply some_inj in H. subst vs. cbn [map]. rewrite (IH ts eq_refl). apply (f_equal (fun x => x :: map no_free ls)).
  clear - Et. revert t Et. induction L as [|e L IH]; intros t Et; cbn [omap] in Et; [injection Et as <-; auto|].
  destruct (layer_view m imax e) as [v|] eqn:Ev; [|discriminate].
  destruct (omap (layer_view m imax) L) as [t'|]; [|discriminate]. cbn [obind] in Et. apply some_inj in Et. subst t.
  unfold no_free. cbn [map]. fold (no_free L). rewrite (IH t' eq_refl).
  destruct (layer_view_spec e v Ev) as (ni & it & -> & A & B). destruct e as [[sc s] b]. cbn [fst snd] in *.
  rewrite (proj1 (gates_view_spec _ _ _ A)), (proj1 (gates_view_spec _ _ _ B)). auto.
Qed.

Lemma items_spec ls vs : omap (omap (layer_view m imax)) ls = Some vs ->
  (forall g gate ps, In (g, (gate, ps)) (st_items vs) -> mc_gate m g = Some gate /\ ps = mc_parents imax m g) /\
  (forall g, In g (flat ls) -> exists e, In (g, e) (st_items vs)).
Proof.
  intros H. split.
  - intros g gate ps Hin. unfold st_items in Hin. apply in_concat in Hin. destruct Hin as (l & Hl & Hin).
    apply in_map_iff in Hl. destruct Hl as (lv & <- & Hlv). apply in_concat in Hin. destruct Hin as (l & Hl & Hin).
    apply in_map_iff in Hl. destruct Hl as (v & <- & Hv).
    apply (omap_In _ _ _ H) in Hlv. destruct Hlv as (L & HL & EL).
    apply (omap_In _ _ _ EL) in Hv. destruct Hv as (e & He & Ev).
    destruct (layer_view_spec e v Ev) as (ni & it & -> & A & B). apply in_map_iff in Hin.
    destruct Hin as ([[g' id] ps'] & E & Hin). injection E as <- <- <-.
    apply in_app_or in Hin. destruct Hin as [Hin|Hin].
    + apply (proj2 (gates_view_spec _ _ _ A)) in Hin. auto.
    + apply (proj2 (gates_view_spec _ _ _ B)) in Hin. auto.
  - intros [k x] Hg. apply in_concat in Hg. destruct Hg as (l & Hl & Hg). apply in_map_iff in Hl.
    destruct Hl as (L & <- & HL). apply in_el_ids in Hg. destruct Hg as (s & b & Hb & Hx).
    destruct (omap (layer_view m imax) L) as [lv|] eqn:EL.
    2:{ exfalso. clear - H EL HL. revert vs H. induction ls as [|L' ls IH]; intros vs H; [destruct HL|].
        cbn [omap] in H. destruct HL as [->|HL]; [rewrite EL in H; discriminate|].
        destruct (omap (layer_view m imax) L'); [|discriminate]. destruct (omap _ ls); [|discriminate]. eapply IH; eauto. }
    assert (Hlv : In lv vs) by (apply (omap_In _ _ _ H); eauto).
    destruct (layer_view m imax (k, s, b)) as [v|] eqn:Ev.
    2:{ exfalso. clear - EL Ev Hb. revert lv EL. induction L as [|e L IH]; intros lv EL; [destruct Hb|].
        cbn [omap] in EL. destruct Hb as [->|Hb]; [rewrite Ev in EL; discriminate|].
        destruct (layer_view m imax e); [|discriminate]. destruct (omap _ L); [|discriminate]. eapply IH; eauto. }
    assert (Hv : In v lv) by (apply (omap_In _ _ _ EL); eauto).
    destruct (layer_view_spec _ _ Ev) as (ni & it & -> & A & B). cbn [fst snd] in *.
    assert (Hx' : In x (map (fun y : G * nat * list gid => snd (fst y)) (ni ++ it))).
    { rewrite map_app, (proj1 (gates_view_spec _ _ _ A)), (proj1 (gates_view_spec _ _ _ B)).
      unfold bl_ids in Hx. rewrite in_app_iff in *. tauto. }
    apply in_map_iff in Hx'. destruct Hx' as ([[gate id] ps] & E & Hin). cbn [fst snd] in E. subst id.
    exists (gate, ps). unfold st_items. apply in_concat. eexists. split; [apply in_map; exact Hlv|].
    cbv beta. apply in_concat. exists (map (fun '(g, id, ps) => ((k, id), (g, ps))) (ni ++ it)). split.
    + apply in_map_iff. exists (k, s, ni, it). auto.
    + apply in_map_iff. exists (gate, x, ps). auto.
Qed.

Lemma look_spec ls vs g : omap (omap (layer_view m imax)) ls = Some vs ->
  (forall g, mc_gate m g <> None -> In g (flat ls)) ->
  let r := find (fun e : gid * (G * list gid) => gid_eqb (fst e) g) (st_items vs) in
  option_map (fun e => fst (snd e)) r = mc_gate m g /\
  (mc_gate m g <> None -> match r with Some e => snd (snd e) | None => [] end = mc_parents imax m g).
Proof.
  intros H Hall r. destruct (items_spec ls vs H) as [A B]. destruct r as [[g' [gate ps]]|] eqn:Er; subst r.
  - apply find_some in Er. destruct Er as [E1 E2]. cbn [fst] in E2. apply gid_eqb_eq in E2. subst g'.
    destruct (A _ _ _ E1) as [E3 E4]. cbn [option_map fst snd]. split; auto.
  - assert (E : mc_gate m g = None).
    { destruct (mc_gate m g) eqn:Eg; auto. exfalso. destruct (B g) as ([gate ps] & Hin); [apply Hall; congruence|].
      pose proof (find_none _ _ Er _ Hin) as X. cbn [fst] in X. rewrite (proj2 (gid_eqb_eq g g) eq_refl) in X. discriminate. }
    rewrite E. split; auto. congruence.
Qed.
End Sched.

(** *** Circuits that agree *)
Record ec_agree {G} (ec ec' : ecirc G) : Prop := {
  ea_gate : forall g, ec_gate ec' g = ec_gate ec g;
  ea_parents : forall g, ec_gate ec g <> None -> ec_parents ec' g = ec_parents ec g;
  ea_simd : forall k, ec_simd ec' k = ec_simd ec k;
  ea_inputs : ec_inputs ec' = ec_inputs ec;
  ea_outputs : ec_outputs ec' = ec_outputs ec;
  ea_counts : ec_counts ec' = ec_counts ec }.

Lemma agree_typed ec ec' : ec_agree ec ec' -> typed ec -> typed ec'.
Proof.
  intros [A B C D E F] H g gate Hg. rewrite A in Hg. specialize (H g gate Hg).
  assert (P : ec_parents ec' g = ec_parents ec g) by (apply B; congruence).
  assert (FA : forall k l, Forall (fun p : gid => ec_simd ec (fst p) = k) l -> Forall (fun p : gid => ec_simd ec' (fst p) = k) l).
  { intros k l. apply Forall_impl. intros p. rewrite C. auto. }
  unfold gate_typed in *. rewrite P, !C.
  destruct gate as [[]| | |]; auto; try (destruct H; split; auto; fail).
  - destruct (ec_simd ec 0), (ec_simd ec (fst g)); auto; destruct H; split; auto.
  - destruct H as (H1 & p & n & H2 & H3 & H4). split; auto. exists p, n. rewrite C. auto.
Qed.

Lemma agree_valuation ec ec' ins v : ec_agree ec ec' -> valuation ec ins v -> valuation ec' ins v.
Proof.
  intros [A B C D E F] H g gate Hg. rewrite A in Hg. specialize (H g gate Hg).
  assert (P : ec_parents ec' g = ec_parents ec g) by (apply B; congruence).
  unfold gate_eq, lanes in *. rewrite P, !C, D. auto.
Qed.

Lemma agree_shape {pr : protocol} (ec ec' : ecirc (p_gate pr)) go : ec_agree ec ec' -> shape_ok ec go -> shape_ok ec' go.
Proof.
  intros [A B C D E F] H g gate Hg. rewrite A in Hg. destruct (H g gate Hg) as (c & H1 & H2). exists c. split; auto.
  unfold kind_ok in *. rewrite C. auto.
Qed.

Lemma agree_init {pr : protocol} (ec ec' : ecirc (p_gate pr)) : ec_agree ec ec' -> go_init ec' = go_init ec.
Proof. intros [A B C D E F]. unfold go_init. rewrite F. auto. Qed.

Lemma agree_sched {P G} (ops : gate_ops P G) ec ec' : ec_agree ec ec' -> forall ls Live Todo,
  sched_ok ops ec Live Todo ls -> sched_ok ops ec' Live Todo ls.
Proof.
  intros [A B C D E F]. induction ls as [|l ls IH]; intros Live Todo H; cbn [sched_ok] in *.
  - rewrite E. auto.
  - destruct H as [[H1 H2 H3 H4 H5] HS]. split; [|auto]. constructor; auto.
    + intros sc s b Hb. rewrite C. eauto.
    + intros l1 g l2 El. destruct (H2 _ _ _ El) as ((gate & G1 & G2) & X & Y & Z).
      split; [exists gate; rewrite A; auto|]. split; auto. split; auto. rewrite B by congruence. auto.
    + intros g Hg. destruct (H4 _ Hg) as ((gate & G1 & G2) & X & Y & Z).
      split; [exists gate; rewrite A; auto|]. split; auto. split; auto. rewrite B by congruence. auto.
    + intros f Hf. rewrite A. auto.
Qed.
