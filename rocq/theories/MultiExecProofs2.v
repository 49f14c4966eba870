(** The layers of a program made of several circuits are a valid schedule. *)
From Coq Require Import List Bool Arith Lia Permutation Sorting.Sorted.
Require Import Verif.Prelude Verif.PreludeProofs Verif.GateModel Verif.ProtocolModel
  Verif.CircuitModel Verif.CircuitSpec Verif.CircuitProofs Verif.CircuitProofs2
  Verif.CircuitProofs3 Verif.ExecModel Verif.ExecSpec Verif.ConnModel Verif.ConnSpec Verif.MultiModel Verif.MultiSpec
  Verif.MultiProofs.
Import ListNotations.

Lemma in_el_ni k x L : In (k, x) (el_ni L) <-> exists s b, In (k, s, b) L /\ In x (bl_ni b).
Proof.
  unfold el_ni. rewrite in_concat. split.
  - intros (l & Hl & Hx). apply in_map_iff in Hl. destruct Hl as ([[sc s] b] & <- & Hb).
    apply in_map_iff in Hx. destruct Hx as (y & E & Hy). injection E as -> ->. eauto.
  - intros (s & b & Hb & Hx). exists (map (pair k) (bl_ni b)). split.
    + apply in_map_iff. exists (k, s, b). auto.
    + apply in_map; auto.
Qed.

Lemma in_el_int k x L : In (k, x) (el_int L) <-> exists s b, In (k, s, b) L /\ In x (bl_int b).
Proof.
  unfold el_int. rewrite in_concat. split.
  - intros (l & Hl & Hx). apply in_map_iff in Hl. destruct Hl as ([[sc s] b] & <- & Hb).
    apply in_map_iff in Hx. destruct Hx as (y & E & Hy). injection E as -> ->. eauto.
  - intros (s & b & Hb & Hx). exists (map (pair k) (bl_int b)). split.
    + apply in_map_iff. exists (k, s, b). auto.
    + apply in_map; auto.
Qed.

Lemma in_freed f L : In f (freed L) -> exists k n b x, f = (k, x) /\ In (k, Some n, b) L /\ In x (bl_free b).
Proof.
  unfold freed. destruct (el_int_count L =? 0); [intros []|].
  unfold el_free. rewrite in_concat. intros (l & Hl & Hx). apply in_map_iff in Hl.
  destruct Hl as ([[sc s] b] & <- & Hb). unfold el_simd in Hb. apply filter_In in Hb. destruct Hb as [Hb Hs].
  apply in_map_iff in Hx. destruct Hx as (y & <- & Hy). destruct s as [n|]; [|discriminate].
  exists sc, n, b, y. auto.
Qed.

Lemma el_ids_split L : Permutation (el_ids L) (el_ni L ++ el_int L).
Proof.
  induction L as [|[[sc s] b] L IH]; auto. unfold el_ids, el_ni, el_int in *. cbn [map concat].
  unfold bl_ids. rewrite map_app, IH, <- !app_assoc. apply Permutation_app_head.
  rewrite !app_assoc. apply Permutation_app_tail. apply Permutation_app_comm.
Qed.

Lemma el_ni_at L : forall l1 g l2, el_ni L = l1 ++ g :: l2 ->
  exists k s b m1 x m2, g = (k, x) /\ In (k, s, b) L /\ bl_ni b = m1 ++ x :: m2 /\
    forall y, In y m1 -> In (k, y) l1.
Proof.
  induction L as [|[[sc s] b] L IH]; intros l1 g l2 E; [destruct l1; discriminate|].
  unfold el_ni in E. cbn [map concat] in E. fold (el_ni L) in E.
  apply app_eq_app in E. destruct E as (l & [[E1 E2]|[E1 E2]]).
  - destruct l as [|y l].
    + rewrite app_nil_r in E1. simpl in E2. destruct (IH [] g l2 (eq_sym E2)) as (k & s' & b' & m1 & x & m2 & A & B & C & D).
      exists k, s', b', m1, x, m2. repeat split; simpl; auto. intros y Hy. destruct (D y Hy).
    + injection E2 as <- E2.
      assert (H : exists m1 x m2, bl_ni b = m1 ++ x :: m2 /\ l1 = map (pair sc) m1 /\ g = (sc, x)).
      { clear -E1. revert l1 E1. induction (bl_ni b) as [|a r IH]; intros [|b0 l1] E; simpl in E; try discriminate.
        - injection E as <- _. exists [], a, r. auto.
        - injection E as <- E. destruct (IH _ E) as (m1 & x & m2 & -> & -> & ->). exists (a :: m1), x, m2. auto. }
      destruct H as (m1 & x & m2 & A & -> & ->). exists sc, s, b, m1, x, m2. repeat split; simpl; auto.
      intros y Hy. apply in_map; auto.
  - destruct (IH _ _ _ E2) as (k & s' & b' & m1 & x & m2 & A & B & C & D).
    exists k, s', b', m1, x, m2. repeat split; simpl; auto. intros y Hy. rewrite E1. apply in_or_app; auto.
Qed.

Section Sched.
Context {PT G : Type}.
Variable ops : gate_ops PT G.
Variable m : mcirc G.
Variable imax : nat.
Variable h : list (gid * gid).
Let circ := mc_get m.
Hypothesis Hcirc : circuits_ok ops circ.
Hypothesis Hwires : wires_ok ops circ h.
Hypothesis Hpar : forall g, Permutation (cn_parents imax (mc_conns m) g) (sources_of h g).
Hypothesis Hsimd0 : forall k c, circ k = Some c -> c_simd c <> Some 0.
Hypothesis Hsrc : forall p t c, In (p, t) h -> circ (fst p) = Some c -> c_simd c = None \/ children c (snd p) = [].

Definition ec_multi (c0 : circuit G) (ls : list elayer) : ecirc G :=
  EC (mc_gate m) (mc_parents imax m) ls
     (fun id => match mc_get m id with Some c => c_simd c | None => None end)
     (c_inputs c0) (c_outputs c0)
     (map (fun id => match mc_get m id with
                     | Some c => (c_count c, c_simd c)
                     | None => (0, None)
                     end) (seq 0 (length (mc_map m)))).

Lemma sources_In p g : In p (sources_of h g) <-> In (p, g) h.
Proof.
  unfold sources_of. rewrite in_map_iff. split.
  - intros ([a b] & <- & H). apply filter_In in H. destruct H as [H E]. apply andb_true_iff in E.
    rewrite !Nat.eqb_eq in E. simpl in *. destruct E as [E1 E2]. destruct b, g. simpl in *. subst. auto.
  - intros H. exists (p, g). split; auto. apply filter_In. split; auto. simpl. rewrite !Nat.eqb_refl. auto.
Qed.

Lemma mc_parents_In p k c x : circ k = Some c -> In p (mc_parents imax m (k, x)) ->
  (exists y, p = (k, y) /\ In y (parents c x)) \/ In (p, (k, x)) h.
Proof.
  intros Hc H. unfold mc_parents in H. cbn [fst snd] in H. change (mc_get m k) with (circ k) in H.
  rewrite Hc in H. apply in_app_or in H. destruct H as [H|H].
  - left. apply in_map_iff in H. destruct H as (y & <- & H). eauto.
  - right. apply (Permutation_in _ (Hpar (k, x))) in H. apply sources_In in H. auto.
Qed.

Lemma exists_gate k x c b : circ k = Some c -> x < c_count c -> is_int ops c x = b ->
  exists gate, mc_gate m (k, x) = Some gate /\ g_inter ops gate = b.
Proof.
  intros Hc Hx Hb. unfold mc_gate. cbn [fst snd]. change (mc_get m k) with (circ k). rewrite Hc. cbn [obind].
  unfold is_int in Hb. destruct (nth_error (c_gates c) x) eqn:E; eauto.
  apply nth_error_None in E. unfold c_count in Hx. lia.
Qed.

Lemma multi_sched_aux c0 ls0 : circ 0 = Some c0 ->
  (c_simd c0 = None \/ forall o, In o (c_outputs c0) -> children c0 o = []) ->
  forall ls E (Live Todo : gid -> Prop),
  MSched ops m h E ls -> NoDup (E ++ flat ls) ->
  (forall g, In g (E ++ flat ls) -> gate_exists circ g) ->
  (forall k x c, In (k, x) E -> circ k = Some c ->
     (c_simd c = None \/ children c x = [] \/ exists y, In y (children c x) /\ ~ In (k, y) E) -> Live (k, x)) ->
  (forall g, In g (flat ls) -> Todo g) ->
  (forall g, In g E -> ~ Todo g) ->
  (forall o, In o (c_outputs c0) -> In (0, o) (E ++ flat ls)) ->
  sched_ok ops (ec_multi c0 ls0) Live Todo ls.
Proof.
  intros Hc0 Hout. induction ls as [|L ls IH]; intros E Live Todo HS HN HR HL HT HP HO.
  - simpl. intros o Ho. specialize (HO o Ho). change (flat []) with (@nil gid) in HO. rewrite app_nil_r in HO.
    apply (HL 0 o c0); auto. destruct Hout as [H|H]; auto.
  - cbn [sched_ok]. destruct HS as (Hne & [HSo HLo] & HS).
    change (flat (L :: ls)) with (el_ids L ++ flat ls) in *.
    assert (HN1 : NoDup (E ++ el_ids L)) by (rewrite app_assoc in HN; eapply NoDup_app_l; eauto).
    assert (HN2 : NoDup (el_ni L ++ el_int L)).
    { eapply Permutation_NoDup; [apply el_ids_split|]. eapply NoDup_app_r; eauto. }
    assert (Hnew : forall g, In g (el_ids L) -> ~ In g E).
    { intros g Hx Hx'. exact (NoDup_app_disj E (el_ids L) g HN1 Hx' Hx). }
    assert (Hni : forall g, In g (el_ni L) -> In g (el_ids L)).
    { intros g Hg. eapply Permutation_in; [apply Permutation_sym, el_ids_split|]. apply in_or_app; auto. }
    assert (Hit : forall g, In g (el_int L) -> In g (el_ids L)).
    { intros g Hg. eapply Permutation_in; [apply Permutation_sym, el_ids_split|]. apply in_or_app; auto. }
    assert (Hids : forall g, In g (el_ids L) -> In g (el_ni L) \/ In g (el_int L)).
    { intros g Hg. apply in_app_or. apply (Permutation_in _ (el_ids_split L)). auto. }
    assert (HexE : forall g, In g (E ++ el_ids L) -> gate_exists circ g).
    { intros g Hg. apply HR. rewrite app_assoc. apply in_or_app; auto. }
    (* parents that are already emitted are live *)
    assert (HLp : forall k c p x, circ k = Some c -> In p (parents c x) -> In (k, x) (el_ids L) -> In (k, p) E -> Live (k, p)).
    { intros k c p x Hc Hp Hx Hin. apply (HL k p c); auto. right. right. exists x.
      split; [apply parents_children; auto|auto]. }
    assert (HLw : forall p t, In (p, t) h -> In p E -> Live p).
    { intros [kp p] t Hh Hin. destruct (HexE (kp, p)) as (c & Hc & _); [apply in_or_app; auto|].
      apply (HL kp p c); auto. destruct (Hsrc _ _ _ Hh Hc) as [H|H]; auto. }
    assert (Hfr : forall k x c, circ k = Some c -> In (k, x) (freed L) ->
       In (k, x) (E ++ el_ids L) /\ (In (k, x) E \/ In (k, x) (el_ni L)) /\ c_simd c <> None /\
       (exists y, In y (children c x)) /\ forall y, In y (children c x) -> In (k, y) (E ++ el_ids L)).
    { intros k x c Hc Hf. apply in_freed in Hf. destruct Hf as (k' & n & b & y & Eq & Hb & Hy).
      injection Eq as <- <-. destruct (HLo _ _ _ Hb) as (c' & A & Es & _ & LR & FR & _).
      change (mc_get m k) with (circ k) in A. rewrite Hc in A. injection A as <-. destruct (FR x Hy) as (F1 & F2 & z & F3 & F4).
      assert (Hb' : forall u, In u (bl_ids b) -> In (k, u) (el_ids L)).
      { intros u Hu. apply in_el_ids. eauto. }
      split; [|split; [|split; [congruence|split; [eauto|]]]].
      - apply in_app_or in F1. apply in_or_app. destruct F1 as [F1|F1]; [left; apply in_proj; auto|right].
        apply Hb'. apply in_or_app; auto.
      - apply in_app_or in F1. destruct F1 as [F1|F1]; [left; apply in_proj; auto|right].
        apply in_el_ni. eauto.
      - intros u Hu. apply F2 in Hu. apply in_app_or in Hu. apply in_or_app.
        destruct Hu as [Hu|Hu]; [left; apply in_proj; auto|right; auto]. }
    split.
    + constructor.
      * intros sc simd b Hb. destruct (HLo _ _ _ Hb) as (c & A & -> & _).
        cbn [ec_multi ec_simd]. rewrite A. split; auto. eapply Hsimd0; eauto.
      * intros l1 g l2 El. destruct (el_ni_at _ _ _ _ El) as (k & s & b & m1 & x & m2 & -> & Hb & Em & Hm1).
        destruct (HLo _ _ _ Hb) as (c & A & Es & _ & LR & _ & _ & Mem & Hw).
        change (mc_get m k) with (circ k) in A.
        assert (Hx : In x (bl_ni b)) by (rewrite Em; apply in_or_app; simpl; auto).
        assert (Hxi : In x (bl_ids b)) by (apply in_or_app; auto).
        assert (Hg : In (k, x) (el_ids L)) by (apply in_el_ids; eauto).
        split; [|split; [|split]].
        -- cbn [ec_multi ec_gate]. eapply exists_gate; eauto; [apply (Mem x Hxi)|]. apply (lr_kni _ _ _ _ _ LR x Hx).
        -- apply HT. apply in_or_app; auto.
        -- intros Hin. rewrite El in HN2. apply NoDup_app_l in HN2.
           apply (NoDup_app_disj l1 ((k, x) :: l2) (k, x) HN2 Hin). simpl; auto.
        -- intros p Hp. cbn [ec_multi ec_parents] in Hp. destruct (mc_parents_In _ _ _ _ A Hp) as [(y & -> & Hy)|Hh].
           ++ destruct (in_app_or _ _ _ (lr_ni _ _ _ _ _ LR _ _ _ Em y Hy)) as [H|H]; auto.
              left. eapply HLp; eauto. apply in_proj; auto.
           ++ left. eapply HLw; eauto.
      * eapply NoDup_app_r; eauto.
      * intros [k x] Hg. pose proof Hg as Hg'. apply in_el_int in Hg'. destruct Hg' as (s & b & Hb & Hx).
        destruct (HLo _ _ _ Hb) as (c & A & Es & _ & LR & _ & _ & Mem & Hw).
        change (mc_get m k) with (circ k) in A.
        assert (Hxi : In x (bl_ids b)) by (apply in_or_app; auto).
        split; [|split; [|split]].
        -- cbn [ec_multi ec_gate]. eapply exists_gate; eauto; [apply (Mem x Hxi)|]. apply (lr_kit _ _ _ _ _ LR x Hx).
        -- apply HT. apply in_or_app; auto.
        -- intros Hin. exact (NoDup_app_disj (el_ni L) (el_int L) (k, x) HN2 Hin Hg).
        -- intros p Hp. cbn [ec_multi ec_parents] in Hp. destruct (mc_parents_In _ _ _ _ A Hp) as [(y & -> & Hy)|Hh].
           ++ destruct (in_app_or _ _ _ (lr_it _ _ _ _ _ LR _ Hx y Hy)) as [H|H].
              ** left. eapply HLp; eauto. apply in_proj; auto.
              ** right. apply in_el_ni. eauto.
           ++ left. eapply HLw; eauto.
      * intros [k x] Hf. pose proof Hf as Hf'. apply in_freed in Hf'. destruct Hf' as (k' & n & b & y & Eq & Hb & Hy).
        injection Eq as -> ->. destruct (HLo _ _ _ Hb) as (c & A & _).
        destruct (Hfr k' y c A Hf) as (F1 & F2 & _). split.
        -- cbn [ec_multi ec_gate]. destruct (HexE _ F1) as (c' & A' & Hn). simpl in A', Hn.
           destruct (exists_gate k' y c' _ A' Hn eq_refl) as (gate & Eg & _). eauto.
        -- destruct F2 as [F2|F2]; auto.
    + apply (IH (E ++ el_ids L)); auto.
      * rewrite <- app_assoc. auto.
      * intros g Hg. apply HR. rewrite <- app_assoc in Hg. auto.
      * intros k x c Hin Hc Hcase. unfold live_after.
        assert (Hnf : ~ In (k, x) (freed L)).
        { intros Hf. destruct (Hfr k x c Hc Hf) as (_ & _ & F3 & (y & F4) & F5).
          destruct Hcase as [H|[H|(z & H & H')]]; auto.
          rewrite H in F4. destruct F4. }
        apply in_app_or in Hin. destruct Hin as [Hin|Hin].
        -- left. split; auto. left. apply (HL k x c); auto.
           destruct Hcase as [H|[H|(z & H & H')]]; auto. right. right. exists z. split; auto.
           intros Hz. apply H'. apply in_or_app; auto.
        -- apply Hids in Hin. tauto.
      * intros g Hg. unfold todo_after. split; [apply HT; apply in_or_app; auto|].
        assert (~ In g (el_ids L)).
        { intros H. rewrite app_assoc in HN. refine (NoDup_app_disj (E ++ el_ids L) (flat ls) g HN _ Hg). apply in_or_app; auto. }
        split; auto.
      * intros g Hg (A & B & C). apply in_app_or in Hg. destruct Hg as [Hg|Hg]; [apply (HP g); auto|].
        apply Hids in Hg. tauto.
      * intros o Ho. rewrite <- app_assoc. auto.
Qed.

End Sched.
