(** Invariants of the circuit construction API and of the layer iterator. *)
From Coq Require Import List Bool Arith Lia Permutation.
Require Import Verif.Prelude Verif.PreludeProofs Verif.GateModel Verif.CircuitModel
  Verif.CircuitSpec.
Import ListNotations.

Definition memb (x : nat) (l : list nat) : bool := existsb (Nat.eqb x) l.

Lemma memb_In x l : memb x l = true <-> In x l.
Proof.
  unfold memb. rewrite existsb_exists. split.
  - intros (y & H & E). apply Nat.eqb_eq in E. subst; auto.
  - intros H. exists x. split; auto. apply Nat.eqb_refl.
Qed.

Lemma memb_not x l : memb x l = false <-> ~ In x l.
Proof. rewrite <- memb_In. destruct (memb x l); split; congruence. Qed.

Lemma NoDup_app_intro {A} (a b : list A) :
  NoDup a -> NoDup b -> (forall x, In x a -> ~ In x b) -> NoDup (a ++ b).
Proof.
  induction a; simpl; intros Ha Hb H; auto. inversion Ha; subst. constructor.
  - rewrite in_app_iff. intros [?|?]; auto. eapply H; eauto.
  - apply IHa; auto.
Qed.

Definition occ (l : list nat) (x : nat) : nat := count_occ Nat.eq_dec l x.
Arguments occ : simpl never.

Lemma occ_app a b x : occ (a ++ b) x = occ a x + occ b x.
Proof. apply count_occ_app. Qed.

Lemma occ_cons_eq x l : occ (x :: l) x = S (occ l x).
Proof. apply count_occ_cons_eq; auto. Qed.

Lemma occ_cons_neq x y l : y <> x -> occ (y :: l) x = occ l x.
Proof. intros; apply count_occ_cons_neq; auto. Qed.

Lemma occ_In l x : In x l <-> occ l x > 0.
Proof. apply count_occ_In. Qed.

(** Edges (x,g) counted from both ends. *)
Lemma parents_children_occ {G} (c : circuit G) x g :
  occ (parents c g) x = occ (children c x) g.
Proof.
  unfold parents, children. induction (c_edges c) as [|[a b] l IH]; auto. simpl.
  destruct (Nat.eqb_spec b g), (Nat.eqb_spec a x); simpl; subst; auto.
  - rewrite !occ_cons_eq. auto.
  - rewrite occ_cons_neq by auto. auto.
  - rewrite occ_cons_neq by auto. auto.
Qed.

Lemma parents_children {G} (c : circuit G) x g :
  In x (parents c g) <-> In g (children c x).
Proof. rewrite !occ_In, parents_children_occ. tauto. Qed.

(** Parents of [g] that are not in [V], with multiplicity. *)
Definition missing (V l : list nat) : list nat := filter (fun p => negb (memb p V)) l.

Lemma missing_nil V l : missing V l = [] <-> incl l V.
Proof.
  unfold missing, incl. induction l; simpl.
  - split; auto. intros _ a [].
  - destruct (memb a V) eqn:E; simpl.
    + rewrite IHl. apply memb_In in E. firstorder subst; auto.
    + apply memb_not in E. split; [discriminate|]. intros H. exfalso; apply E, H; auto.
Qed.

Lemma missing_cons x V l : ~ In x V ->
  length (missing V l) = length (missing (x :: V) l) + occ l x.
Proof.
  intros Hx. unfold missing. induction l; cbn [filter]; auto.
  destruct (Nat.eqb_spec a x).
  - subst. replace (memb x (x :: V)) with true
      by (symmetry; apply memb_In; simpl; auto).
    apply memb_not in Hx. rewrite Hx. cbn [negb length].
    rewrite occ_cons_eq, IHl. lia.
  - rewrite occ_cons_neq by auto.
    replace (memb a (x :: V)) with (memb a V)
      by (unfold memb; simpl; destruct (Nat.eqb_spec a x); simpl; auto; congruence).
    destruct (memb a V); cbn [negb length]; rewrite IHl; lia.
Qed.

Lemma missing_ext V V' l : (forall x, In x V <-> In x V') -> missing V l = missing V' l.
Proof.
  intros H. unfold missing. apply filter_ext. intros a. f_equal.
  destruct (memb a V) eqn:E, (memb a V') eqn:E'; auto.
  - apply memb_In in E. apply memb_not in E'. apply H in E. tauto.
  - apply memb_not in E. apply memb_In in E'. apply H in E'. tauto.
Qed.

Lemma nth_default_nth_error l i (k : nat) : nth_error l i = Some k -> nth i l 0 = k.
Proof. intros; apply nth_error_nth; auto. Qed.

Lemma uq_loop_spec ch : forall needed queue,
  (forall g, In g ch -> g < length needed) ->
  (forall g, occ ch g <= nth g needed 0) ->
  exists needed' pushed,
    uq_loop ch needed queue = Some (needed', queue ++ pushed) /\
    length needed' = length needed /\
    (forall g, nth g needed' 0 = nth g needed 0 - occ ch g) /\
    NoDup pushed /\
    (forall g, In g pushed <-> In g ch /\ nth g needed' 0 = 0).
Proof.
  induction ch as [|h r IH]; intros needed queue Hr Hc.
  - exists needed, []. rewrite app_nil_r. simpl. repeat split; auto; try constructor;
      try tauto. intros; unfold occ; simpl; lia.
  - assert (Hh : h < length needed) by (apply Hr; simpl; auto).
    destruct (nth_error needed h) as [k|] eqn:E; [|apply nth_error_None in E; lia].
    assert (Ek : nth h needed 0 = k) by (apply nth_error_nth; auto).
    pose proof (Hc h) as H1. rewrite occ_cons_eq, Ek in H1.
    destruct k as [|k]; [lia|].
    simpl uq_loop. rewrite E.
    destruct (IH (upd h k needed) (if k =? 0 then queue ++ [h] else queue))
      as (n' & pu & E1 & E2 & E3 & E4 & E5).
    { intros g Hg. rewrite upd_length. apply Hr; simpl; auto. }
    { intros g. rewrite upd_nth. destruct (Nat.eqb_spec h g).
      - subst. replace (g <? length needed) with true by (symmetry; apply Nat.ltb_lt; auto).
        simpl. lia.
      - simpl. specialize (Hc g). rewrite occ_cons_neq in Hc by auto. auto. }
    assert (E3' : forall g, nth g n' 0 = nth g needed 0 - occ (h :: r) g).
    { intros g. rewrite E3, upd_nth. destruct (Nat.eqb_spec h g).
      - subst g. replace (h <? length needed) with true by (symmetry; apply Nat.ltb_lt; auto).
        simpl andb. cbv iota. rewrite occ_cons_eq. lia.
      - simpl. rewrite occ_cons_neq by auto. auto. }
    rewrite E1. destruct (Nat.eqb_spec k 0).
    + subst k. exists n', (h :: pu). rewrite <- app_assoc. simpl app.
      rewrite upd_length in E2. repeat split; auto.
      * constructor; auto. intros Hin. apply E5 in Hin. destruct Hin as [Hin _].
        apply occ_In in Hin. lia.
      * destruct H as [->|H]; simpl; auto. right. apply E5; auto.
      * destruct H as [->|H]; simpl; auto.
        -- rewrite E3', occ_cons_eq. lia.
        -- apply E5; auto.
      * intros [[->|Hin] Hz]; simpl; auto. right. apply E5; auto.
    + exists n', pu. rewrite upd_length in E2. repeat split; auto.
      * right. apply E5; auto.
      * apply E5; auto.
      * intros [[->|Hin] Hz]; apply E5; split; auto.
        rewrite E3', occ_cons_eq in Hz. apply occ_In. lia.
Qed.

(** The worklist invariant: [V] are the gates whose outgoing wires have been
    counted down, [PQ] the gates emitted or queued, [Src] the injected ones. *)
Record Inv {G} (c : circuit G) (Src V PQ needed : list nat) : Prop := {
  inv_len : length needed = c_count c;
  inv_need : forall g, g < c_count c -> nth g needed 0 = length (missing V (parents c g));
  inv_nodup : NoDup PQ;
  inv_vnodup : NoDup V;
  inv_vin : incl V PQ;
  inv_src : forall g, In g Src -> g < c_count c /\ parents c g = [];
  inv_mem : forall g, In g PQ <->
     g < c_count c /\ (In g Src \/ (parents c g <> [] /\ nth g needed 0 = 0)) }.

Definition in_range {G} (c : circuit G) : Prop :=
  forall p g, In (p, g) (c_edges c) -> p < c_count c /\ g < c_count c.

Lemma in_range_children {G} (c : circuit G) x g :
  in_range c -> In g (children c x) -> g < c_count c.
Proof.
  intros Hr H. unfold children in H. apply in_map_iff in H. destruct H as ((a & b) & E & H).
  apply filter_In in H. destruct H as [H _]. apply Hr in H. simpl in E; subst; tauto.
Qed.

Lemma in_range_parents {G} (c : circuit G) x g :
  in_range c -> In x (parents c g) -> x < c_count c /\ g < c_count c.
Proof.
  intros Hr H. unfold parents in H. apply in_map_iff in H. destruct H as ((a & b) & E & H).
  apply filter_In in H. destruct H as [H Eg]. apply Nat.eqb_eq in Eg. simpl in *; subst.
  apply Hr; auto.
Qed.

Lemma Inv_perm {G} (c : circuit G) Src V PQ PQ' needed :
  Permutation PQ PQ' -> Inv c Src V PQ needed -> Inv c Src V PQ' needed.
Proof.
  intros HP [H1 H2 H3 H4 H5 H6 H7]. constructor; auto.
  - eapply Permutation_NoDup; eauto.
  - intros x Hx. apply (Permutation_in _ HP). auto.
  - intros g. rewrite <- H7. split; intros.
    + apply (Permutation_in _ (Permutation_sym HP)); auto.
    + apply (Permutation_in _ HP); auto.
Qed.

Lemma Inv_permV {G} (c : circuit G) Src V V' PQ needed :
  Permutation V V' -> Inv c Src V PQ needed -> Inv c Src V' PQ needed.
Proof.
  intros HP [H1 H2 H3 H4 H5 H6 H7]. constructor; auto.
  - intros g Hg. rewrite H2 by auto. f_equal. apply missing_ext. intros x.
    split; intros.
    + apply (Permutation_in _ HP); auto.
    + apply (Permutation_in _ (Permutation_sym HP)); auto.
  - eapply Permutation_NoDup; eauto.
  - intros x Hx. apply H5. apply (Permutation_in _ (Permutation_sym HP)); auto.
Qed.

(** Everything emitted or queued has all its parents in [V]. *)
Lemma Inv_parents {G} (c : circuit G) Src V PQ needed g :
  Inv c Src V PQ needed -> In g PQ -> incl (parents c g) V.
Proof.
  intros I H. apply (inv_mem _ _ _ _ _ I) in H. destruct H as [Hn [H|[H Hz]]].
  - apply (inv_src _ _ _ _ _ I) in H. destruct H as [_ ->]. intros x [].
  - rewrite (inv_need _ _ _ _ _ I) in Hz by auto. apply length_zero_iff_nil in Hz.
    apply missing_nil; auto.
Qed.

(** No emitted or queued gate is a child of a gate outside [V]. *)
Lemma Inv_no_child {G} (c : circuit G) Src V PQ needed x g :
  Inv c Src V PQ needed -> ~ In x V -> In g PQ -> ~ In g (children c x).
Proof.
  intros I Hx Hg Hc. apply parents_children in Hc.
  apply (Inv_parents _ _ _ _ _ _ I Hg) in Hc. auto.
Qed.

Lemma Inv_step {G} (c : circuit G) Src V PQ needed x queue :
  in_range c ->
  Inv c Src V PQ needed -> In x PQ -> ~ In x V ->
  exists needed' pushed,
    uq_loop (children c x) needed queue = Some (needed', queue ++ pushed) /\
    Inv c Src (x :: V) (PQ ++ pushed) needed'.
Proof.
  intros Hr I Hx HxV.
  assert (Hcount : forall g, occ (children c x) g <= nth g needed 0).
  { intros g. destruct (Nat.ltb_spec g (c_count c)) as [Hg|Hg].
    - rewrite (inv_need _ _ _ _ _ I) by auto. rewrite (missing_cons x) by auto.
      rewrite parents_children_occ. lia.
    - destruct (occ (children c x) g) eqn:E; [lia|].
      assert (In g (children c x)) by (apply occ_In; lia).
      apply in_range_children in H; auto. lia. }
  destruct (uq_loop_spec (children c x) needed queue) as (n' & pu & E1 & E2 & E3 & E4 & E5); auto.
  { intros g Hg. rewrite (inv_len _ _ _ _ _ I). eapply in_range_children; eauto. }
  exists n', pu. split; auto. constructor.
  - rewrite E2. apply (inv_len _ _ _ _ _ I).
  - intros g Hg. rewrite E3, (inv_need _ _ _ _ _ I) by auto.
    rewrite (missing_cons x V) by auto. rewrite parents_children_occ. lia.
  - apply NoDup_app_intro.
    + apply (inv_nodup _ _ _ _ _ I).
    + auto.
    + intros g Hg Hp. apply E5 in Hp. destruct Hp as [Hp _].
      eapply Inv_no_child; eauto.
  - constructor; auto. apply (inv_vnodup _ _ _ _ _ I).
  - intros y [->|Hy]; apply in_or_app; left; auto. apply (inv_vin _ _ _ _ _ I); auto.
  - apply (inv_src _ _ _ _ _ I).
  - intros g. rewrite in_app_iff. split.
    + intros [H|H].
      * apply (inv_mem _ _ _ _ _ I) in H. destruct H as [Hg [H|[H Hz]]]; split; auto.
        right. split; auto. rewrite E3. lia.
      * apply E5 in H. destruct H as [H Hz]. split; [eapply in_range_children; eauto|].
        right. split; auto. apply parents_children in H. destruct (parents c g); [destruct H|congruence].
    + intros [Hg [H|[H Hz]]].
      * left. apply (inv_mem _ _ _ _ _ I). auto.
      * destruct (Nat.eq_dec (nth g needed 0) 0) as [E|E].
        -- left. apply (inv_mem _ _ _ _ _ I). auto.
        -- right. apply E5. split; auto. rewrite E3 in Hz. apply occ_In. lia.
Qed.

(** SIMD bookkeeping: [left] counts the children that have not been emitted. *)
Definition LeftInv {G} (c : circuit G) (V P : list nat) (left : list (option nat)) : Prop :=
  c_is_simd c = true ->
  length left = c_count c /\
  forall g, g < c_count c ->
    nth_error left g =
      Some (if memb g V then Some (length (missing P (children c g))) else None).

Lemma li_release_spec ps : forall left free,
  (forall p, In p ps -> exists k, nth_error left p = Some (Some k)) ->
  (forall p k, nth_error left p = Some (Some k) -> occ ps p <= k) ->
  exists left' freed,
    li_release ps left free = Some (left', free ++ freed) /\
    length left' = length left /\
    (forall p, nth_error left' p =
       match nth_error left p with
       | Some (Some k) => Some (Some (k - occ ps p))
       | o => o
       end) /\
    (forall p, In p freed -> In p ps /\ nth_error left' p = Some (Some 0)).
Proof.
  induction ps as [|q r IH]; intros left free Hd Hc.
  - exists left, []. rewrite app_nil_r. repeat split; auto; try contradiction.
    intros p. destruct (nth_error left p) as [[k|]|]; auto. unfold occ; simpl.
    rewrite Nat.sub_0_r; auto.
  - destruct (Hd q) as (k & E); [simpl; auto|].
    pose proof (Hc _ _ E) as H1. rewrite occ_cons_eq in H1. destruct k as [|k]; [lia|].
    simpl li_release. rewrite E.
    assert (Hq : q < length left) by (apply nth_error_Some; congruence).
    destruct (IH (upd q (Some k) left) (if k =? 0 then free ++ [q] else free))
      as (l' & fr & E1 & E2 & E3 & E4).
    { intros p Hp. destruct (Nat.eq_dec q p).
      - subst. rewrite upd_nth_error_same by auto. eauto.
      - rewrite upd_nth_error_other by auto. apply Hd; simpl; auto. }
    { intros p k'. destruct (Nat.eq_dec q p).
      - subst. rewrite upd_nth_error_same by auto. intros H; injection H as <-. lia.
      - rewrite upd_nth_error_other by auto. intros H. apply Hc in H.
        rewrite occ_cons_neq in H by auto. auto. }
    assert (E3' : forall p, nth_error l' p =
       match nth_error left p with
       | Some (Some k) => Some (Some (k - occ (q :: r) p))
       | o => o
       end).
    { intros p. rewrite E3. destruct (Nat.eq_dec q p).
      - subst. rewrite upd_nth_error_same by auto. rewrite E, occ_cons_eq. auto.
      - rewrite upd_nth_error_other by auto. rewrite occ_cons_neq by auto. auto. }
    rewrite upd_length in E2.
    destruct (Nat.eqb_spec k 0).
    + subst k. exists l', (q :: fr). rewrite E1, <- app_assoc. simpl app.
      split; auto. split; auto. split; auto.
      intros p [->|Hp].
      * split; [simpl; auto|]. rewrite E3', E, occ_cons_eq. auto.
      * destruct (E4 _ Hp). split; [simpl; auto|]. auto.
    + exists l', fr. rewrite E1. repeat split; auto.
      * right. apply E4; auto.
      * apply E4; auto.
Qed.

Lemma update_queue_step {G} (c : circuit G) Src V PQ P needed left x queue :
  in_range c ->
  Inv c Src V PQ needed -> LeftInv c V P left -> incl P PQ ->
  In x PQ -> ~ In x V ->
  exists needed' left' pushed,
    update_queue c x needed left queue = Some (needed', left', queue ++ pushed) /\
    Inv c Src (x :: V) (PQ ++ pushed) needed' /\
    LeftInv c (x :: V) P left'.
Proof.
  intros Hr I L HP Hx HxV.
  destruct (Inv_step c Src V PQ needed x queue) as (n' & pu & E1 & I'); auto.
  unfold update_queue. rewrite E1. cbn [obind].
  assert (Hn : x < c_count c) by (apply (inv_mem _ _ _ _ _ I) in Hx; tauto).
  destruct (c_is_simd c) eqn:Es.
  - destruct (L Es) as [Ll Lg]. rewrite Lg by auto.
    pose proof HxV as Hm. apply memb_not in Hm. rewrite Hm.
    eexists _, _, pu. split; [reflexivity|]. split; auto.
    intros _. split; [rewrite upd_length; auto|].
    intros g Hg. destruct (Nat.eq_dec x g).
    + subst g. rewrite upd_nth_error_same by lia. f_equal.
      replace (memb x (x :: V)) with true by (symmetry; apply memb_In; simpl; auto).
      f_equal. f_equal. unfold missing. symmetry.
      assert (F : forall y, In y (children c x) -> negb (memb y P) = true).
      { intros y Hy. apply negb_true_iff, memb_not. intros HyP.
        apply (Inv_no_child _ _ _ _ _ x y I); auto. }
      revert F. generalize (children c x). induction l; simpl; intros F; auto.
      rewrite F by auto. f_equal. apply IHl. intros; apply F; auto.
    + rewrite upd_nth_error_other by auto. rewrite Lg by auto.
      replace (memb g (x :: V)) with (memb g V); auto.
      unfold memb; simpl. destruct (Nat.eqb_spec g x); simpl; auto; congruence.
  - eexists _, _, pu. split; [reflexivity|]. split; auto. intros H. rewrite Es in H. discriminate.
Qed.

Lemma li_drain_spec {G} (c : circuit G) Src P : forall prev V PQ needed left queue,
  in_range c ->
  Inv c Src V PQ needed -> LeftInv c V P left -> incl P PQ ->
  incl prev PQ -> NoDup prev -> (forall x, In x prev -> ~ In x V) ->
  exists needed' left' pushed,
    li_drain c prev needed left queue = Some (needed', left', queue ++ pushed) /\
    Inv c Src (V ++ prev) (PQ ++ pushed) needed' /\
    LeftInv c (V ++ prev) P left'.
Proof.
  induction prev as [|x r IH]; intros V PQ needed left queue Hr I L HP Hi Hnd Hd.
  - exists needed, left, []. rewrite !app_nil_r. auto.
  - inversion Hnd as [|? ? Hx Hnd']; subst.
    destruct (update_queue_step c Src V PQ P needed left x queue)
      as (n' & l' & pu & E & I' & L'); auto.
    { apply Hi; simpl; auto. }
    { apply Hd; simpl; auto. }
    simpl li_drain. rewrite E. cbn [obind].
    destruct (IH (x :: V) (PQ ++ pu) n' l' (queue ++ pu))
      as (n'' & l'' & pu' & E' & I'' & L''); auto.
    { intros y Hy. apply in_or_app; left; auto. }
    { intros y Hy. apply in_or_app; left; apply Hi; simpl; auto. }
    { intros y Hy [->|HyV]; auto. apply (Hd y); simpl; auto. }
    exists n'', l'', (pu ++ pu'). rewrite E', app_assoc. split; auto. rewrite app_assoc.
    assert (HPm : Permutation ((x :: V) ++ r) (V ++ x :: r)).
    { simpl. apply Permutation_middle. }
    split.
    + eapply Inv_permV; eauto.
    + intros Es. destruct (L'' Es) as [L1 L2]. split; auto. intros g Hg. rewrite L2 by auto.
      replace (memb g ((x :: V) ++ r)) with (memb g (V ++ x :: r)); auto.
      destruct (memb g (V ++ x :: r)) eqn:E1, (memb g ((x :: V) ++ r)) eqn:E2; auto.
      * apply memb_In in E1. apply memb_not in E2. exfalso; apply E2.
        apply (Permutation_in _ (Permutation_sym HPm)); auto.
      * apply memb_not in E1. apply memb_In in E2. exfalso; apply E1.
        apply (Permutation_in _ HPm); auto.
Qed.

(** What one run of the main loop guarantees. [V0] are the gates propagated
    before the loop, [ni]/[it] the gates it emits, [P] all gates emitted before. *)
Record LoopRes {P G} (ops : gate_ops P G) (c : circuit G) (V0 ni it : list nat) : Prop := {
  lr_ni : forall l1 x l2, ni = l1 ++ x :: l2 -> incl (parents c x) (V0 ++ l1);
  lr_it : forall x, In x it -> incl (parents c x) (V0 ++ ni);
  lr_kni : forall x, In x ni -> is_int ops c x = false;
  lr_kit : forall x, In x it -> is_int ops c x = true }.

Lemma is_int_lookup {P G} (ops : gate_ops P G) c x g :
  nth_error (c_gates c) x = Some g -> is_int ops c x = g_inter ops g.
Proof. unfold is_int. intros ->. auto. Qed.

Lemma memb_snoc x y l : memb x (l ++ [y]) = memb x (y :: l).
Proof.
  unfold memb. rewrite existsb_app. simpl. rewrite orb_false_r. apply orb_comm.
Qed.

Lemma missing_snoc x V l : missing (V ++ [x]) l = missing (x :: V) l.
Proof. unfold missing. apply filter_ext. intros a. f_equal. apply memb_snoc. Qed.

Lemma LeftInv_snoc {G} (c : circuit G) x V P left :
  LeftInv c (x :: V) P left -> LeftInv c (V ++ [x]) P left.
Proof.
  intros L Es. destruct (L Es) as [L1 L2]. split; auto. intros g Hg. rewrite L2 by auto.
  rewrite memb_snoc. auto.
Qed.

(** Emitting [x] whose parents are all in [V] releases its parents. *)
Lemma release_step {G} (c : circuit G) V P left free x :
  in_range c -> LeftInv c V P left -> incl (parents c x) V -> ~ In x P ->
  exists left' freed,
    (if c_is_simd c then li_release (parents c x) left free else Some (left, free))
      = Some (left', free ++ freed) /\
    LeftInv c V (P ++ [x]) left' /\
    (forall f, In f freed -> In f V /\ In f (parents c x) /\ incl (children c f) (P ++ [x])).
Proof.
  intros Hr L Hp Hx. destruct (c_is_simd c) eqn:Es.
  2:{ exists left, []. rewrite app_nil_r. split; auto. split.
      - intros H; rewrite Es in H; discriminate.
      - intros f []. }
  destruct (L Es) as [L1 L2].
  assert (Hlook : forall p, In p (parents c x) ->
            nth_error left p = Some (Some (length (missing P (children c p))))).
  { intros p Hin. rewrite L2 by (eapply in_range_parents in Hin; eauto; tauto).
    apply Hp in Hin. apply memb_In in Hin. rewrite Hin. auto. }
  assert (Hlt : forall p o, nth_error left p = Some o -> p < c_count c).
  { intros p o H. rewrite <- L1. apply nth_error_Some. congruence. }
  destruct (li_release_spec (parents c x) left free) as (l' & fr & E1 & E2 & E3 & E4).
  { intros p Hin. eauto. }
  { intros p k H. pose proof (Hlt _ _ H). rewrite L2 in H by auto.
    destruct (memb p V); [|discriminate]. injection H as <-.
    rewrite (missing_cons x P) by auto. rewrite parents_children_occ. lia. }
  exists l', fr. split; auto. split.
  - intros _. split; [congruence|]. intros g Hg. rewrite E3, L2 by auto.
    destruct (memb g V) eqn:Em; auto.
    f_equal. f_equal. rewrite missing_snoc. rewrite (missing_cons x P) by auto.
    rewrite parents_children_occ. lia.
  - intros f Hf. apply E4 in Hf. destruct Hf as [Hf Hz]. split; auto. split; auto.
    apply missing_nil. rewrite E3, Hlook in Hz by auto. injection Hz as Hz.
    apply length_zero_iff_nil. rewrite missing_snoc.
    rewrite (missing_cons x P), parents_children_occ in Hz by auto. lia.
Qed.

Lemma LeftInv_permP {G} (c : circuit G) V P P' left :
  Permutation P P' -> LeftInv c V P left -> LeftInv c V P' left.
Proof.
  intros HP L Es. destruct (L Es) as [L1 L2]. split; auto. intros g Hg. rewrite L2 by auto.
  rewrite (missing_ext P P'); auto. intros y; split; intros Hy.
  - apply (Permutation_in _ HP); auto.
  - apply (Permutation_in _ (Permutation_sym HP)); auto.
Qed.

Lemma li_loop_spec {PT G} (ops : gate_ops PT G) (c : circuit G) Src V0 P0 :
  in_range c ->
  forall fuel needed left queue prev ni it free Pn,
  Inv c Src (V0 ++ ni) (P0 ++ Pn ++ queue) needed ->
  LeftInv c (V0 ++ ni) (P0 ++ Pn) left ->
  incl V0 P0 ->
  Permutation Pn (ni ++ it) ->
  LoopRes ops c V0 ni it ->
  (forall f, In f free -> In f (V0 ++ ni) /\ incl (children c f) (P0 ++ Pn) /\
     exists h, In h (children c f) /\ In h Pn) ->
  c_count c <= length P0 + length Pn + fuel ->
  exists needed' left' ni' it' free',
    li_loop ops c fuel needed left queue prev (BL ni it free)
      = Some (needed', left', prev ++ skipn (length it) it', BL ni' it' free') /\
    firstn (length it) it' = it /\
    Inv c Src (V0 ++ ni') (P0 ++ ni' ++ it') needed' /\
    LeftInv c (V0 ++ ni') (P0 ++ ni' ++ it') left' /\
    LoopRes ops c V0 ni' it' /\
    (forall f, In f free' -> In f (V0 ++ ni') /\ incl (children c f) (P0 ++ ni' ++ it') /\
       exists h, In h (children c f) /\ In h (ni' ++ it')).
Proof.
  intros Hr. induction fuel as [|fuel IH];
    intros needed left queue prev ni it free Pn I L HV HPn LR HF Hfuel.
  - (* the queue must be empty *)
    assert (queue = []).
    { destruct queue as [|x q]; auto. exfalso.
      assert (Hle : length (P0 ++ Pn ++ x :: q) <= length (seq 0 (c_count c))).
      { apply NoDup_incl_length; [apply (inv_nodup _ _ _ _ _ I)|].
        intros y Hy. apply (inv_mem _ _ _ _ _ I) in Hy. apply in_seq. lia. }
      rewrite !app_length, seq_length in Hle. simpl in Hle. lia. }
    subst. exists needed, left, ni, it, free. simpl. rewrite skipn_all, firstn_all, app_nil_r.
    assert (HPP : Permutation (P0 ++ Pn) (P0 ++ ni ++ it)) by (apply Permutation_app_head; auto).
    rewrite app_nil_r in I.
    split; [reflexivity|]. split; [auto|]. split; [eapply Inv_perm; eauto|].
    split; [eapply LeftInv_permP; eauto|]. split; [auto|].
    intros f Hf. split; [apply HF; auto|]. destruct (HF _ Hf) as (_ & HB & h & Hh & HhP).
    split; [intros y Hy; apply (Permutation_in _ HPP); auto|].
    exists h. split; auto. apply (Permutation_in _ HPn); auto.
  - destruct queue as [|x q].
    + exists needed, left, ni, it, free. simpl. rewrite skipn_all, firstn_all, app_nil_r.
      assert (HPP : Permutation (P0 ++ Pn) (P0 ++ ni ++ it)) by (apply Permutation_app_head; auto).
      rewrite app_nil_r in I.
      split; [reflexivity|]. split; [auto|]. split; [eapply Inv_perm; eauto|].
      split; [eapply LeftInv_permP; eauto|]. split; [auto|].
      intros f Hf. split; [apply HF; auto|]. destruct (HF _ Hf) as (_ & HB & h & Hh & HhP).
    split; [intros y Hy; apply (Permutation_in _ HPP); auto|].
    exists h. split; auto. apply (Permutation_in _ HPn); auto.
    + assert (HxPQ : In x (P0 ++ Pn ++ x :: q)) by (rewrite !in_app_iff; simpl; auto).
      assert (Hpar : incl (parents c x) (V0 ++ ni)) by (eapply Inv_parents; eauto).
      assert (Hn : x < c_count c) by (apply (inv_mem _ _ _ _ _ I) in HxPQ; tauto).
      pose proof (inv_nodup _ _ _ _ _ I) as Hnd.
      assert (HxP : ~ In x (P0 ++ Pn)).
      { rewrite app_assoc in Hnd. apply NoDup_remove_2 in Hnd.
        intros H. apply Hnd. apply in_or_app; auto. }
      assert (HxV : ~ In x (V0 ++ ni)).
      { intros H. apply HxP. apply in_app_or in H. apply in_or_app. destruct H as [H|H]; auto.
        right. apply (Permutation_in _ (Permutation_sym HPn)). apply in_or_app; auto. }
      destruct (nth_error (c_gates c) x) as [g|] eqn:Eg;
        [|apply nth_error_None in Eg; unfold c_count in Hn; lia].
      cbn [li_loop bl_ni bl_int bl_free]. rewrite Eg. cbn [obind].
      pose proof (is_int_lookup ops c x g Eg) as Hk.
      destruct (g_inter ops g) eqn:Ei.
      * cbn [obind bl_ni bl_int bl_free].
        destruct (release_step c (V0 ++ ni) (P0 ++ Pn) left free x)
          as (l' & fr & E1 & L' & Hfr); auto.
        rewrite E1. cbn [obind].
        destruct (IH needed l' q (prev ++ [x]) ni (it ++ [x]) (free ++ fr) (Pn ++ [x]))
          as (n2 & l2 & ni2 & it2 & fr2 & F1 & F2 & F3 & F4 & F5 & F6).
        { rewrite <- (app_assoc Pn). exact I. }
        { rewrite app_assoc. exact L'. }
        { auto. }
        { rewrite app_assoc. apply Permutation_app_tail; auto. }
        { destruct LR as [R1 R2 R3 R4]. constructor; auto.
          - intros y Hy. apply in_app_or in Hy. destruct Hy as [Hy|[->|[]]]; auto.
          - intros y Hy. apply in_app_or in Hy. destruct Hy as [Hy|[->|[]]]; auto. }
        { intros f Hf. apply in_app_or in Hf. rewrite app_assoc. destruct Hf as [Hf|Hf].
          - destruct (HF _ Hf) as (A & B & h & Hh & HhP). split; auto.
            split; [intros y Hy; apply in_or_app; left; auto|].
            exists h. split; auto. apply in_or_app; auto.
          - destruct (Hfr _ Hf) as (A & Hpx & B). split; auto. split; auto.
            exists x. split; [apply parents_children; auto|apply in_or_app; simpl; auto]. }
        { rewrite app_length. simpl. lia. }
        exists n2, l2, ni2, it2, fr2. rewrite F1.
        rewrite app_length in F2. simpl in F2.
        assert (Hlen : length it + 1 <= length it2).
        { pose proof (f_equal (@length nat) F2) as HL.
          rewrite firstn_length, app_length in HL. simpl in HL. lia. }
        assert (Hit : firstn (length it) it2 = it).
        { pose proof (f_equal (firstn (length it)) F2) as HL.
          rewrite firstn_firstn in HL. rewrite Nat.min_l in HL by lia.
          rewrite HL. apply firstn_app_exact; auto. }
        split; [|auto 10].
        -- f_equal. f_equal. f_equal. rewrite app_length. simpl length.
           rewrite <- app_assoc. f_equal.
           rewrite <- (firstn_skipn (length it + 1) it2) at 2. rewrite F2.
           rewrite <- app_assoc, skipn_app_exact by auto. auto.
      * destruct (update_queue_step c Src (V0 ++ ni) (P0 ++ Pn ++ x :: q) (P0 ++ Pn) needed left x q)
          as (n1 & l1 & pu & E0 & I1 & L1); auto.
        { intros y Hy. apply in_app_or in Hy. rewrite !in_app_iff. tauto. }
        rewrite E0. cbn [obind bl_ni bl_int bl_free].
        apply LeftInv_snoc in L1.
        assert (I1' : Inv c Src (V0 ++ ni ++ [x]) (P0 ++ (Pn ++ [x]) ++ q ++ pu) n1).
        { eapply Inv_permV; [|eapply Inv_perm; [|exact I1]].
          - rewrite app_assoc. apply Permutation_cons_append.
          - rewrite <- !app_assoc. simpl. apply Permutation_refl. }
        destruct (release_step c ((V0 ++ ni) ++ [x]) (P0 ++ Pn) l1 free x)
          as (l' & fr & E1 & L' & Hfr); auto.
        { intros y Hy. apply in_or_app; auto. }
        rewrite E1. cbn [obind].
        destruct (IH n1 l' (q ++ pu) prev (ni ++ [x]) it (free ++ fr) (Pn ++ [x]))
          as (n2 & l2 & ni2 & it2 & fr2 & F1 & F2 & F3 & F4 & F5 & F6).
        { exact I1'. }
        { rewrite !app_assoc. exact L'. }
        { auto. }
        { rewrite <- app_assoc. simpl. rewrite <- Permutation_cons_append.
          apply Permutation_trans with (x :: ni ++ it); [constructor; auto|].
          apply Permutation_middle. }
        { destruct LR as [R1 R2 R3 R4]. constructor; auto.
          - intros a y b H. destruct (list_eq_dec Nat.eq_dec b []) as [->|Hb].
            + apply app_inj_tail in H. destruct H as [-> ->]. auto.
            + destruct (exists_last Hb) as (b' & z & ->).
              rewrite app_comm_cons, app_assoc in H. apply app_inj_tail in H.
              destruct H as [H _]. eapply R1; eauto.
          - intros y Hy z Hz. apply R2 in Hz; auto. rewrite !in_app_iff in *. tauto.
          - intros y Hy. apply in_app_or in Hy. destruct Hy as [Hy|[->|[]]]; auto. }
        { intros f Hf. apply in_app_or in Hf. rewrite !app_assoc. destruct Hf as [Hf|Hf].
          - destruct (HF _ Hf) as (A & B & h & Hh & HhP). split; [apply in_or_app; auto|].
            split; [intros y Hy; apply in_or_app; left; auto|].
            exists h. split; auto. apply in_or_app; auto.
          - destruct (Hfr _ Hf) as (A & Hpx & B). split; auto. split; auto.
            exists x. split; [apply parents_children; auto|apply in_or_app; simpl; auto]. }
        { rewrite app_length. simpl. lia. }
        exists n2, l2, ni2, it2, fr2. rewrite F1. auto 10.
Qed.
