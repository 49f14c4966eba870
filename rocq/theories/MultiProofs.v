(** The layer iterator over several circuits: invariant and one call of [next]. *)
From Coq Require Import List Bool Arith Lia Permutation Sorting.Sorted.
Require Import Verif.Prelude Verif.PreludeProofs Verif.GateModel Verif.CircuitModel
  Verif.CircuitSpec Verif.CircuitProofs Verif.CircuitProofs2 Verif.CircuitProofs3
  Verif.ExecModel Verif.ConnModel Verif.ConnSpec Verif.MultiModel Verif.MultiSpec.
Import ListNotations.

(** Local ids of the gates of circuit [k]. *)
Definition proj (k : nat) (E : list gid) : list nat :=
  map snd (filter (fun g => fst g =? k) E).

Lemma proj_app k a b : proj k (a ++ b) = proj k a ++ proj k b.
Proof. unfold proj. rewrite filter_app, map_app. auto. Qed.

Lemma in_proj k x E : In x (proj k E) <-> In (k, x) E.
Proof.
  unfold proj. rewrite in_map_iff. split.
  - intros ((a & b) & Eb & H). apply filter_In in H. destruct H as [H Ea]. apply Nat.eqb_eq in Ea.
    simpl in *; subst. auto.
  - intros H. exists (k, x). split; auto. apply filter_In. split; auto. simpl. apply Nat.eqb_refl.
Qed.

Lemma proj_pair k k' l : proj k (map (pair k') l) = if k' =? k then l else [].
Proof.
  unfold proj. induction l as [|x l IH]; simpl.
  - destruct (k' =? k); auto.
  - destruct (k' =? k); simpl; [f_equal|]; auto.
Qed.

Lemma NoDup_proj E : (forall k, NoDup (proj k E)) -> NoDup E.
Proof.
  induction E as [|(k & x) E IH]; intros H; constructor.
  - intros Hin. specialize (H k). unfold proj in H. simpl in H. rewrite Nat.eqb_refl in H. simpl in H.
    inversion H; subst. apply H2. apply in_proj; auto.
  - apply IH. intros k'. specialize (H k'). unfold proj in *. simpl in H.
    destruct (k =? k'); simpl in H; auto. inversion H; auto.
Qed.

Lemma proj_NoDup E k : NoDup E -> NoDup (proj k E).
Proof.
  induction E as [|(k' & x) E IH]; intros H; [constructor|]. inversion H; subst.
  unfold proj. simpl. destruct (Nat.eqb_spec k' k); simpl; auto. subst. constructor.
  - intros Hx. apply H2. apply in_proj. auto.
  - apply IH; auto.
Qed.

Definition ekey (e : nat * option nat * blayer) : nat := fst (fst e).

Lemma el_ids_cons k s b l : el_ids ((k, s, b) :: l) = map (pair k) (bl_ids b) ++ el_ids l.
Proof. reflexivity. Qed.

Lemma proj_el_ids_out k l : ~ In k (map ekey l) -> proj k (el_ids l) = [].
Proof.
  induction l as [|((k' & s) & b) l IH]; intros H; auto.
  rewrite el_ids_cons, proj_app, proj_pair. simpl in H.
  destruct (Nat.eqb_spec k' k); [subst; exfalso; apply H; auto|]. simpl. apply IH. auto.
Qed.

Lemma proj_el_ids_in k s b l : NoDup (map ekey l) -> In (k, s, b) l -> proj k (el_ids l) = bl_ids b.
Proof.
  induction l as [|((k' & s') & b') l IH]; intros Hnd H; [destruct H|].
  rewrite el_ids_cons, proj_app, proj_pair. inversion Hnd; subst.
  destruct H as [H|H].
  - injection H as -> -> ->. rewrite Nat.eqb_refl, proj_el_ids_out, app_nil_r; auto.
  - destruct (Nat.eqb_spec k' k) as [->|]; [|simpl; auto].
    exfalso. apply H2. change (In (ekey (k, s, b)) (map ekey l)). apply in_map; auto.
Qed.

Lemma in_el_ids k x l : In (k, x) (el_ids l) <-> exists s b, In (k, s, b) l /\ In x (bl_ids b).
Proof.
  induction l as [|((k' & s) & b) l IH].
  - simpl. split; [intros []|intros (? & ? & [] & _)].
  - rewrite el_ids_cons, in_app_iff, IH. split.
    + intros [H|(s' & b' & H & Hx)].
      * apply in_map_iff in H. destruct H as (y & Ey & Hy). injection Ey as -> ->.
        exists s, b. split; auto. left; auto.
      * exists s', b'. split; auto. right; auto.
    + intros (s' & b' & [H|H] & Hx).
      * injection H as -> -> ->. left. apply in_map; auto.
      * right. eauto.
Qed.

Lemma el_insert_perm e l : Permutation (e :: l) (el_insert e l).
Proof.
  induction l as [|x l IH]; simpl; auto.
  destruct (fst (fst e) <=? fst (fst x)); auto.
  etransitivity; [apply perm_swap|]. constructor. auto.
Qed.

Lemma el_sort_perm l : Permutation l (el_sort l).
Proof.
  induction l as [|x l IH]; simpl; auto.
  etransitivity; [|apply el_insert_perm]. constructor; auto.
Qed.

Definition ele (a b : nat * option nat * blayer) : Prop := ekey a <= ekey b.

Lemma el_insert_sorted e l : StronglySorted ele l -> StronglySorted ele (el_insert e l).
Proof.
  induction l as [|x l IH]; intros H; simpl.
  - constructor; [constructor|constructor].
  - inversion H; subst. destruct (Nat.leb_spec (fst (fst e)) (fst (fst x))).
    + constructor; auto. constructor; [unfold ele, ekey; auto|].
      eapply Forall_impl; [|eauto]. unfold ele, ekey. intros; lia.
    + constructor; auto. apply (Permutation_Forall (el_insert_perm e l)). constructor; auto.
      unfold ele, ekey. lia.
Qed.

Lemma el_sort_sorted l : StronglySorted ele (el_sort l).
Proof. induction l; simpl; [constructor|apply el_insert_sorted; auto]. Qed.

Lemma ekey_perm l l' : Permutation l l' -> Permutation (map ekey l) (map ekey l').
Proof. apply Permutation_map. Qed.

Lemma sorted_strict l : StronglySorted ele l -> NoDup (map ekey l) -> StronglySorted lt (map ekey l).
Proof.
  induction l as [|x l IH]; intros H Hnd; simpl; [constructor|].
  inversion H; inversion Hnd; subst. constructor; auto. apply Forall_forall. intros y Hy.
  apply in_map_iff in Hy. destruct Hy as (z & <- & Hz). rewrite Forall_forall in H3.
  specialize (H3 _ Hz). unfold ele in H3. assert (ekey x <> ekey z); [|lia].
  intros E. apply H6. rewrite E. apply in_map; auto.
Qed.

Section Multi.
Context {PT G : Type}.
Variable ops : gate_ops PT G.
Variable m : mcirc G.
Variable imax : nat.
Variable h : list (gid * gid).
Let circ := mc_get m.

Hypothesis Hcirc : circuits_ok ops circ.
Hypothesis Hwires : wires_ok ops circ h.
Hypothesis Hout : forall g, Permutation (cn_outgoing imax (mc_conns m) g) (targets_of h g).

Lemma single_source p p' t : In (p, t) h -> In (p', t) h -> p = p'.
Proof.
  destruct Hwires as [Hnd _]. clear -Hnd. induction h as [|(a & b) l IH]; intros H1 H2; [destruct H1|].
  simpl in Hnd. inversion Hnd; subst. destruct H1 as [H1|H1], H2 as [H2|H2].
  - congruence.
  - injection H1 as -> ->. exfalso. apply H3. apply (in_map snd) in H2. auto.
  - injection H2 as -> ->. exfalso. apply H3. apply (in_map snd) in H1. auto.
  - auto.
Qed.

Lemma circ_wf k c : circ k = Some c -> api_wf ops c.
Proof. intros H. apply api_api_wf. destruct Hcirc as [_ HC]. apply (HC _ _ H). Qed.

(** What the wire target looks like in its circuit. *)
Lemma wire_target p k g : In (p, (k, g)) h ->
  exists c, circ k = Some c /\ g < c_count c /\ parents c g = [] /\
    ~ In g (c_consts c) /\ ~ In g (c_inputs c).
Proof.
  intros H. destruct Hwires as [_ HW]. destruct (HW _ _ H) as (c & x & E1 & E2 & E3). simpl in *.
  exists c. split; auto. destruct Hcirc as [_ HC]. destruct (HC _ _ E1) as [Ha Hr].
  pose proof (circ_wf _ _ E1) as AW.
  split; [apply nth_error_Some; congruence|]. split.
  { eapply Hr; eauto. rewrite E3. apply orb_true_r. }
  rewrite (aw_consts _ _ AW), (aw_inputs _ _ AW), !ids_where_In.
  split; intros (y & Ey & Hy); rewrite E2 in Ey; injection Ey as <-;
    unfold is_scin_gate, is_const_gate, is_input_gate in *; destruct (g_base ops x) as [[]|]; discriminate.
Qed.

(** Gates injected into circuit [k] when the wires [Wd] have been followed. *)
Definition SrcP (k : nat) (c : circuit G) (Wd : list (gid * gid)) (g : nat) : Prop :=
  In g (c_consts c) \/ (k = 0 /\ In g (c_inputs c)) \/ exists p, In (p, (k, g)) Wd.

Record Act (E : list gid) (Wd : list (gid * gid)) (k : nat) (it : liter) : Prop := MkAct {
  act_ex : exists c Src V, circ k = Some c /\ LIInv ops c Src V (proj k E) it /\
             (forall g, In g Src <-> SrcP k c Wd g);
  act_woken : k = 0 \/ exists p t, In (p, (k, t)) Wd }.

Definition Off (E : list gid) (Wd : list (gid * gid)) (k : nat) : Prop :=
  (k <> 0 /\ proj k E = [] /\ (forall p t, ~ In (p, (k, t)) Wd)) \/
  (exists c, circ k = Some c /\ (forall g, g < c_count c -> In g (proj k E)) /\
     (forall g, g < c_count c -> parents c g = [] -> SrcP k c Wd g)).

Record MInv (E : list gid) (Wd : list (gid * gid)) (st : miter) : Prop := {
  mv_keys : NoDup (map fst st);
  mv_dup : NoDup E;
  mv_dom : forall g, In g E -> gate_exists circ g;
  mv_wd : incl Wd h;
  mv_wsrc : forall w, In w Wd -> In (fst w) E;
  mv_act : forall k it, In (k, it) st -> Act E Wd k it;
  mv_off : forall k, ~ In k (map fst st) -> Off E Wd k }.

Lemma MInv_perm E Wd st st' : Permutation st st' -> MInv E Wd st -> MInv E Wd st'.
Proof.
  intros HP [H1 H2 H3 H4 H5 H6 H7]. constructor; auto.
  - eapply Permutation_NoDup; [apply Permutation_map; eauto|auto].
  - intros k it Hin. apply H6. apply (Permutation_in _ (Permutation_sym HP)); auto.
  - intros k Hk. apply H7. intros Hin. apply Hk.
    apply (Permutation_in _ (Permutation_map fst HP)). auto.
Qed.

(** * Following one wire *)

Lemma mi_add_in_found st k g : In k (map fst st) -> NoDup (map fst st) ->
  exists l it r, st = l ++ (k, it) :: r /\
    mi_add_in st (k, g) = Some (l ++ (k, li_add_next it g) :: r).
Proof.
  induction st as [|(k' & it) st IH]; intros Hin Hnd; [destruct Hin|]. inversion Hnd; subst.
  simpl. destruct (Nat.eqb_spec k' k) as [->|Hne].
  - exists [], it, st. auto.
  - destruct Hin as [E|Hin]; [simpl in E; congruence|].
    destruct (IH Hin H2) as (l & it' & r & E1 & E2). rewrite E2. cbn [obind].
    exists ((k', it) :: l), it', r. subst. auto.
Qed.

Lemma mi_add_in_none st k g : ~ In k (map fst st) -> mi_add_in st (k, g) = None.
Proof.
  induction st as [|(k' & it) st IH]; intros H; simpl; auto. simpl in H.
  destruct (Nat.eqb_spec k' k); [subst; exfalso; auto|]. rewrite IH; auto.
Qed.

Lemma SrcP_snoc k c Wd p k' g g' :
  SrcP k c (Wd ++ [(p, (k', g'))]) g <-> SrcP k c Wd g \/ (k = k' /\ g = g').
Proof.
  unfold SrcP. split.
  - intros [H|[H|(q & H)]]; auto. apply in_app_or in H. destruct H as [H|[H|[]]].
    + left. right. right. eauto.
    + injection H as -> -> ->. auto.
  - intros [[H|[H|(q & H)]]|[-> ->]]; auto.
    + right. right. exists q. apply in_or_app; auto.
    + right. right. exists p. apply in_or_app; right; simpl; auto.
Qed.

Lemma not_SrcP p k c g Wd : circ k = Some c -> In (p, (k, g)) h -> incl Wd h ->
  ~ In (p, (k, g)) Wd -> ~ SrcP k c Wd g.
Proof.
  intros Hc Hw HW Hn. destruct (wire_target _ _ _ Hw) as (c' & E & _ & _ & A & B).
  rewrite Hc in E. injection E as <-. intros [H|[[_ H]|(q & H)]]; auto.
  apply Hn. rewrite (single_source p q (k, g)); auto.
Qed.

Lemma mi_add_spec E Wd st p k g :
  MInv E Wd st -> In (p, (k, g)) h -> ~ In (p, (k, g)) Wd -> In p E ->
  exists st', mi_add m st (k, g) = Some st' /\ MInv E (Wd ++ [(p, (k, g))]) st'.
Proof.
  intros [H1 H2 H3 H4 H5 H6 H7] Hw Hn Hp.
  destruct (wire_target _ _ _ Hw) as (c & Hc & Hg & Hpar & Hnc & Hni).
  pose proof (not_SrcP _ _ _ _ Wd Hc Hw H4 Hn) as HnS.
  assert (HWd : incl (Wd ++ [(p, (k, g))]) h).
  { intros w Hin. apply in_app_or in Hin. destruct Hin as [Hin|[<-|[]]]; auto. }
  assert (Hsrc : forall w, In w (Wd ++ [(p, (k, g))]) -> In (fst w) E).
  { intros w Hin. apply in_app_or in Hin. destruct Hin as [Hin|[<-|[]]]; auto. }
  assert (Hother : forall k' it, k' <> k -> Act E Wd k' it -> Act E (Wd ++ [(p, (k, g))]) k' it).
  { intros k' it Hk [(c' & Src & V & A & B & C) D]. constructor.
    - exists c', Src, V. split; auto. split; auto. intros x. rewrite C, SrcP_snoc. intuition.
    - destruct D as [D|(q & t & D)]; auto. right. exists q, t. apply in_or_app; auto. }
  assert (HoffO : forall k', k' <> k -> Off E Wd k' -> Off E (Wd ++ [(p, (k, g))]) k').
  { intros k' Hk [(A & B & C)|(c' & A & B & C)].
    - left. split; auto. split; auto. intros q t Hin. apply in_app_or in Hin.
      destruct Hin as [Hin|[Hin|[]]]; [eapply C; eauto|congruence].
    - right. exists c'. split; auto. split; auto. intros x Hx Hpx. apply SrcP_snoc. auto. }
  unfold mi_add. destruct (in_dec Nat.eq_dec k (map fst st)) as [Hk|Hk].
  - destruct (mi_add_in_found st k g Hk H1) as (l & it & r & Es & Ea).
    rewrite Ea. eexists. split; [reflexivity|].
    assert (Hkeys : map fst (l ++ (k, li_add_next it g) :: r) = map fst st).
    { rewrite Es, !map_app. reflexivity. }
    constructor; auto.
    + rewrite Hkeys. auto.
    + intros k' it' Hin. apply in_app_or in Hin.
      assert (Hcase : (k' = k /\ it' = li_add_next it g) \/ (k' <> k /\ In (k', it') st)).
      { rewrite Es in H1. rewrite map_app in H1. simpl in H1. apply NoDup_remove_2 in H1.
        destruct Hin as [Hin|[Hin|Hin]].
        - right. split; [|rewrite Es; apply in_or_app; auto].
          intros ->. apply H1. apply in_or_app. left. apply (in_map fst) in Hin. auto.
        - injection Hin as <- <-. auto.
        - right. split; [|rewrite Es; apply in_or_app; simpl; auto].
          intros ->. apply H1. apply in_or_app. right. apply (in_map fst) in Hin. auto. }
      destruct Hcase as [[-> ->]|[Hne Hin']]; [|apply Hother; auto].
      destruct (H6 k it) as [(c' & Src & V & A & B & C) D].
      { rewrite Es. apply in_or_app; simpl; auto. }
      rewrite Hc in A. injection A as <-. constructor.
      * exists c, (Src ++ [g]), V. split; auto. split.
        -- apply LIInv_add; auto. rewrite C. auto.
        -- intros x. rewrite in_app_iff, C, SrcP_snoc. simpl. intuition.
      * right. exists p, g. apply in_or_app; simpl; auto.
    + rewrite Hkeys. intros k' Hk'. apply HoffO; auto. intros ->. auto.
  - rewrite mi_add_in_none by auto. cbn [fst snd]. change (mc_get m k) with (circ k). rewrite Hc. cbn [obind]. eexists. split; [reflexivity|].
    destruct (H7 _ Hk) as [(A & B & C)|(c' & A & B & C)].
    2:{ exfalso. rewrite Hc in A. injection A as <-. apply HnS. auto. }
    constructor; auto.
    + rewrite map_app. simpl. apply NoDup_app_intro; auto.
      * constructor; auto. constructor.
      * intros x Hx [->|[]]. auto.
    + intros k' it' Hin. apply in_app_or in Hin. destruct Hin as [Hin|[Hin|[]]].
      * apply Hother; auto. intros ->. apply Hk. apply (in_map fst) in Hin. auto.
      * simpl in Hin. injection Hin as <- <-. pose proof (circ_wf _ _ Hc) as AW. constructor.
        -- exists c, (c_consts c ++ [g]), []. split; auto. split.
           ++ rewrite B. apply LIInv_add; auto. apply LIInv_init.
              ** rewrite (aw_consts _ _ AW). apply ids_where_NoDup.
              ** intros x Hx. destruct Hcirc as [_ HC]. destruct (HC _ _ Hc) as [_ HR].
                 rewrite (aw_consts _ _ AW) in Hx. apply ids_where_In in Hx.
                 destruct Hx as (y & Ey & Hy). split; [apply nth_error_Some; congruence|].
                 eapply HR; eauto. rewrite Hy. rewrite orb_true_r. auto.
           ++ intros x. rewrite in_app_iff, SrcP_snoc. unfold SrcP. simpl. split.
              ** intros [Hx|[Hx|[]]]; auto.
              ** intros [[Hx|[[Hx _]|(q & Hx)]]|[_ Hx]]; auto; try contradiction.
                 exfalso. eapply C; eauto.
        -- right. exists p, g. apply in_or_app; simpl; auto.
    + intros k' Hk'. rewrite map_app in Hk'. simpl in Hk'. apply HoffO.
      * intros ->. apply Hk'. apply in_or_app; simpl; auto.
      * apply H7. intros Hin. apply Hk'. apply in_or_app; auto.
Qed.

(** * Following all wires of a list of gates *)

Lemma mi_adds_spec E p : forall ts Wd st,
  MInv E Wd st -> NoDup ts -> (forall t, In t ts -> In (p, t) h /\ ~ In (p, t) Wd) -> In p E ->
  exists st', ofold (mi_add m) st ts = Some st' /\ MInv E (Wd ++ map (pair p) ts) st'.
Proof.
  induction ts as [|(k & g) ts IH]; intros Wd st HM Hnd Ht Hp; simpl.
  - exists st. rewrite app_nil_r. auto.
  - inversion Hnd; subst. destruct (Ht (k, g)) as [A B]; [simpl; auto|].
    destruct (mi_add_spec E Wd st p k g HM A B Hp) as (st1 & E1 & HM1). rewrite E1. cbn [obind].
    destruct (IH (Wd ++ [(p, (k, g))]) st1) as (st2 & E2 & HM2); auto.
    { intros t Hin. destruct (Ht t) as [C D]; [simpl; auto|]. split; auto. intros Hi.
      apply in_app_or in Hi. destruct Hi as [Hi|[Hi|[]]]; auto. injection Hi as <-. auto. }
    exists st2. split; auto. rewrite <- app_assoc in HM2. exact HM2.
Qed.

Lemma targets_of_In g t : In t (targets_of h g) <-> In (g, t) h.
Proof.
  unfold targets_of. rewrite in_map_iff. split.
  - intros ((a & b) & Eb & H). apply filter_In in H. destruct H as [H Ea].
    apply andb_true_iff in Ea. rewrite !Nat.eqb_eq in Ea. destruct a, g. simpl in *.
    destruct Ea; subst. auto.
  - intros H. exists (g, t). split; auto. apply filter_In. split; auto. simpl.
    rewrite !Nat.eqb_refl. auto.
Qed.

Lemma targets_of_NoDup g : NoDup (targets_of h g).
Proof.
  destruct Hwires as [Hnd _]. clear -Hnd. unfold targets_of. induction h as [|w l IH]; simpl; [constructor|].
  simpl in Hnd. inversion Hnd as [|? ? N1 N2]; subst. destruct (_ && _); simpl; auto. constructor; auto.
  intros Hin. apply N1. apply in_map_iff in Hin. destruct Hin as (v & Ev & Hv).
  apply filter_In in Hv. apply in_map_iff. exists v. tauto.
Qed.

Lemma out_In g t : In t (cn_outgoing imax (mc_conns m) g) <-> In (g, t) h.
Proof.
  rewrite <- targets_of_In. split; intros H.
  - apply (Permutation_in _ (Hout g)); auto.
  - apply (Permutation_in _ (Permutation_sym (Hout g))); auto.
Qed.

Lemma mi_wake_spec E : forall gs Wd st,
  MInv E Wd st -> NoDup gs -> incl gs E -> (forall w, In w Wd -> ~ In (fst w) gs) ->
  exists st' Wd', mi_wake imax m st gs = Some st' /\ MInv E Wd' st' /\
    (forall w, In w Wd' <-> In w Wd \/ (In w h /\ In (fst w) gs)).
Proof.
  induction gs as [|p gs IH]; intros Wd st HM Hnd Hi Hw; unfold mi_wake in *; cbn [ofold].
  - exists st, Wd. split; auto. split; auto. simpl. intuition.
  - inversion Hnd; subst.
    destruct (mi_adds_spec E p (cn_outgoing imax (mc_conns m) p) Wd st HM) as (st1 & E1 & HM1).
    + eapply Permutation_NoDup; [apply Permutation_sym, Hout|apply targets_of_NoDup].
    + intros t Ht. split; [apply out_In; auto|]. intros Hin. apply (Hw _ Hin). simpl; auto.
    + apply Hi. simpl; auto.
    + rewrite E1. cbn [obind].
      destruct (IH _ st1 HM1 H2) as (st2 & Wd2 & E2 & HM2 & HW2).
      * intros x Hx. apply Hi. simpl; auto.
      * intros w Hin. apply in_app_or in Hin. destruct Hin as [Hin|Hin].
        -- intros Hx. apply (Hw _ Hin). simpl; auto.
        -- apply in_map_iff in Hin. destruct Hin as (t & <- & _). simpl. auto.
      * exists st2, Wd2. split; auto. split; auto. intros w. rewrite HW2, in_app_iff, in_map_iff. simpl.
        split.
        -- intros [[A|(t & <- & A)]|[A B]]; auto. right. split; [apply out_In; auto|simpl; auto].
        -- intros [A|[A [B|B]]]; auto. left. right. destruct w as [q t]. simpl in B. subst q.
           exists t. split; auto. apply out_In; auto.
Qed.

(** * [next] on all base iterators *)

Definition FreeOk (c : circuit G) (P : list nat) (b : blayer) : Prop :=
  forall f, In f (bl_free b) -> In f (P ++ bl_ni b) /\ incl (children c f) (P ++ bl_ids b) /\
     exists x, In x (children c f) /\ In x (bl_ids b).

Inductive StepRel (E : list gid) (Wd : list (gid * gid)) : miter -> elayer -> miter -> Prop :=
| sr_nil : StepRel E Wd [] [] []
| sr_cons k it r ls r' c Src V b it' :
    circ k = Some c -> (forall g, In g Src <-> SrcP k c Wd g) ->
    (k = 0 \/ exists p t, In (p, (k, t)) Wd) ->
    LIInv ops c Src V (proj k E ++ bl_ids b) it' ->
    li_next it' = [] -> li_prev it' = bl_int b ->
    LoopRes ops c (proj k E) (bl_ni b) (bl_int b) -> FreeOk c (proj k E) b ->
    StepRel E Wd r ls r' ->
    StepRel E Wd ((k, it) :: r) (if bl_empty b then ls else (k, c_simd c, b) :: ls) ((k, it') :: r').

Lemma mi_step_spec E Wd : forall st,
  (forall k it, In (k, it) st -> Act E Wd k it) ->
  exists ls st', mi_step ops m st = Some (ls, st') /\ StepRel E Wd st ls st'.
Proof.
  induction st as [|(k & it) st IH]; intros Ha.
  - exists [], []. split; auto. constructor.
  - destruct (Ha k it) as [(c & Src & V & A & B & C) D]; [simpl; auto|].
    destruct (li_next_spec ops c Src V (proj k E) it (aw_range _ _ (circ_wf _ _ A)) B)
      as (ni & it0 & fr & it' & F1 & F2 & F3 & F4 & F5 & F6 & _ & _).
    destruct IH as (ls & st' & S1 & S2); [intros; apply Ha; simpl; auto|].
    simpl. fold circ. rewrite A. cbn [obind]. rewrite F1. cbn [obind]. rewrite S1. cbn [obind].
    exists (if bl_empty (BL ni it0 fr) then ls else (k, c_simd c, BL ni it0 fr) :: ls), ((k, it') :: st').
    split.
    + destruct (bl_empty (BL ni it0 fr)); auto.
    + eapply sr_cons; eauto.
Qed.

Lemma StepRel_keys E Wd st ls st' : StepRel E Wd st ls st' -> map fst st' = map fst st.
Proof. induction 1; simpl; congruence. Qed.

Lemma StepRel_lkeys E Wd st ls st' : StepRel E Wd st ls st' ->
  incl (map ekey ls) (map fst st) /\ (NoDup (map fst st) -> NoDup (map ekey ls)).
Proof.
  induction 1 as [|k it r ls r' c Src V b it' H1 H2 H3 H4 H5 H6 H7 H8 H9 [I1 I2]]; simpl.
  - split; [intros x []|auto].
  - destruct (bl_empty b); simpl.
    + split; [intros x Hx; right; auto|]. intros Hnd. inversion Hnd; auto.
    + split.
      * intros x [<-|Hx]; simpl; auto.
      * intros Hnd. inversion Hnd; subst. constructor; auto.
Qed.

Lemma bl_empty_ids b : bl_empty b = true <-> bl_ids b = [].
Proof.
  unfold bl_empty, bl_ids. destruct (bl_ni b), (bl_int b); simpl; split; auto; discriminate.
Qed.

(** What is known of one circuit after the step. *)
Record Stepped (E : list gid) (Wd : list (gid * gid)) (k : nat) (c : circuit G) (b : blayer)
  (it' : liter) : Prop := {
  sp_circ : circ k = Some c;
  sp_woken : k = 0 \/ exists p t, In (p, (k, t)) Wd;
  sp_inv : exists Src V, (forall g, In g Src <-> SrcP k c Wd g) /\
             LIInv ops c Src V (proj k E ++ bl_ids b) it';
  sp_next : li_next it' = [];
  sp_prev : li_prev it' = bl_int b;
  sp_loop : LoopRes ops c (proj k E) (bl_ni b) (bl_int b);
  sp_free : FreeOk c (proj k E) b }.

Lemma StepRel_state E Wd st ls st' k it' : StepRel E Wd st ls st' -> NoDup (map fst st) ->
  In (k, it') st' -> exists c b, Stepped E Wd k c b it' /\
    ((bl_ids b = [] /\ ~ In k (map ekey ls)) \/ In (k, c_simd c, b) ls).
Proof.
  induction 1 as [|k0 it r ls r' c Src V b it0 H1 H2 H3 H4 H5 H6 H7 H8 H9 IH]; intros Hnd Hin.
  - destruct Hin.
  - simpl in Hnd. inversion Hnd; subst. pose proof (StepRel_lkeys _ _ _ _ _ H9) as [K1 K2].
    destruct Hin as [Hin|Hin].
    + injection Hin as -> ->. exists c, b. split; [constructor; eauto|].
      destruct (bl_empty b) eqn:Eb.
      * left. split; [apply bl_empty_ids; auto|]. intros Hk. apply K1 in Hk. auto.
      * right. simpl; auto.
    + destruct (IH H11 Hin) as (c' & b' & A & B). exists c', b'. split; auto.
      assert (k <> k0).
      { intros ->. apply H10. rewrite <- (StepRel_keys _ _ _ _ _ H9).
        apply (in_map fst) in Hin. auto. }
      destruct (bl_empty b); auto. simpl. destruct B as [[B1 B2]|B]; auto.
      left. split; auto. intros [Ek|Hk]; auto.
Qed.

Lemma StepRel_layer E Wd st ls st' k s b : StepRel E Wd st ls st' ->
  In (k, s, b) ls -> exists c it', In (k, it') st' /\ Stepped E Wd k c b it' /\ s = c_simd c /\ bl_ids b <> [].
Proof.
  induction 1 as [|k0 it r ls r' c Src V b0 it0 H1 H2 H3 H4 H5 H6 H7 H8 H9 IH]; intros Hin.
  - destruct Hin.
  - assert (Hcase : In (k, s, b) ls \/ (bl_empty b0 = false /\ (k, s, b) = (k0, c_simd c, b0))).
    { destruct (bl_empty b0); auto. destruct Hin as [Hin|Hin]; auto. }
    destruct Hcase as [Hl|[Hb Ek]].
    + destruct (IH Hl) as (c' & it' & A & B). exists c', it'. simpl. tauto.
    + injection Ek as -> -> ->. exists c, it0. split; [simpl; auto|]. split; [constructor; eauto|].
      split; auto. intros Eb. apply bl_empty_ids in Eb. congruence.
Qed.

(** * One call of [next] *)

(** A correct layer after the gates [E]. *)
Record LayerOk (E : list gid) (L : elayer) : Prop := {
  lo_sorted : StronglySorted lt (map ekey L);
  lo_entry : forall k s b, In (k, s, b) L -> exists c,
     circ k = Some c /\ s = c_simd c /\ bl_ids b <> [] /\
     LoopRes ops c (proj k E) (bl_ni b) (bl_int b) /\ FreeOk c (proj k E) b /\
     (k = 0 \/ exists p t, In p E /\ In (p, (k, t)) h) /\
     (forall g, In g (bl_ids b) -> g < c_count c /\
        (parents c g <> [] \/ In g (c_consts c) \/ (k = 0 /\ In g (c_inputs c)) \/
         exists p, In p E /\ In (p, (k, g)) h)) /\
     (forall g p, In g (bl_ids b) -> In (p, (k, g)) h -> In p E) }.

Definition complete (E : list gid) (Wd : list (gid * gid)) : Prop :=
  forall w, In w Wd <-> In w h /\ In (fst w) E.

Lemma Stepped_mem E Wd k c b it' g : complete E Wd -> Stepped E Wd k c b it' ->
  In g (bl_ids b) -> g < c_count c /\
  (parents c g <> [] \/ In g (c_consts c) \/ (k = 0 /\ In g (c_inputs c)) \/
   exists p, In p E /\ In (p, (k, g)) h).
Proof.
  intros HC [S1 S2 (Src & V & S3 & S4) S5 S6 S7 S8] Hg.
  pose proof (lii_inv _ _ _ _ _ _ S4) as I. rewrite S5, app_nil_r in I.
  assert (Hin : In g (proj k E ++ bl_ids b)) by (apply in_or_app; auto).
  apply (inv_mem _ _ _ _ _ I) in Hin. destruct Hin as [Hn [Hs|[Hp _]]]; split; auto.
  right. apply S3 in Hs. destruct Hs as [Hs|[Hs|(p & Hs)]]; auto.
  right. right. apply HC in Hs. exists p. tauto.
Qed.

Lemma mi_next_spec E Wd st :
  MInv E Wd st -> complete E Wd ->
  exists L st' Wd',
    mi_next ops imax m st = Some (match L with [] => None | _ => Some L end, st') /\
    MInv (E ++ el_ids L) Wd' st' /\ complete (E ++ el_ids L) Wd' /\
    LayerOk E L /\
    (L = [] -> forall g, runs ops circ h g -> In g E).
Proof.
  intros [H1 H2 H3 H4 H5 H6 H7] HC.
  destruct (mi_step_spec E Wd st H6) as (ls & st1 & S1 & SR).
  destruct (StepRel_lkeys _ _ _ _ _ SR) as [K1 K2]. specialize (K2 H1).
  pose proof (StepRel_keys _ _ _ _ _ SR) as K3.
  set (L := el_sort ls).
  assert (HPL : Permutation ls L) by apply el_sort_perm.
  assert (KL : NoDup (map ekey L)) by (eapply Permutation_NoDup; [apply ekey_perm; eauto|auto]).
  assert (Hproj : forall k c b, ((bl_ids b = [] /\ ~ In k (map ekey ls)) \/ In (k, c_simd (G:=G) c, b) ls) ->
            proj k (el_ids L) = bl_ids b).
  { intros k c b [[A B]|A].
    - rewrite A. apply proj_el_ids_out. intros Hin. apply B.
      apply (Permutation_in _ (Permutation_sym (ekey_perm _ _ HPL))). auto.
    - eapply proj_el_ids_in; eauto. apply (Permutation_in _ HPL); eauto. }
  assert (HprojOut : forall k, ~ In k (map fst st) -> proj k (el_ids L) = []).
  { intros k Hk. apply proj_el_ids_out. intros Hin. apply Hk. apply K1.
    apply (Permutation_in _ (Permutation_sym (ekey_perm _ _ HPL))). auto. }
  (* the state before [retain] *)
  assert (HM1 : MInv (E ++ el_ids L) Wd st1).
  { constructor; auto.
    - rewrite K3; auto.
    - apply NoDup_proj. intros k. rewrite proj_app.
      destruct (in_dec Nat.eq_dec k (map fst st1)) as [Hk|Hk].
      + apply in_map_iff in Hk. destruct Hk as ((k' & it') & Ek & Hin). simpl in Ek. subst k'.
        destruct (StepRel_state _ _ _ _ _ _ _ SR H1 Hin) as (c & b & HS & Hb).
        rewrite (Hproj _ c _ Hb). destruct HS as [_ _ (Src & V & _ & HI) _ _ _ _].
        apply lii_inv, inv_nodup in HI. apply NoDup_app_l in HI. auto.
      + rewrite HprojOut, app_nil_r by (rewrite <- K3; auto). apply proj_NoDup; auto.
    - intros g Hg. apply in_app_or in Hg. destruct Hg as [Hg|Hg]; auto.
      destruct g as [k x]. apply in_el_ids in Hg. destruct Hg as (s & b & Hb & Hx).
      apply (Permutation_in _ (Permutation_sym HPL)) in Hb.
      destruct (StepRel_layer _ _ _ _ _ _ _ _ SR Hb) as (c & it' & A & B & _).
      exists c. split; [apply (sp_circ _ _ _ _ _ _ B)|]. simpl.
      eapply (Stepped_mem _ _ _ _ _ _ _ HC B); eauto.
    - intros w Hw. apply in_or_app; auto.
    - intros k it' Hin. destruct (StepRel_state _ _ _ _ _ _ _ SR H1 Hin) as (c & b & HS & Hb).
      destruct HS as [S1' S2' (Src & V & S3 & S4) S5 S6 S7 S8]. constructor; auto.
      exists c, Src, V. split; auto. split; auto. rewrite proj_app, (Hproj _ c _ Hb). auto.
    - rewrite K3. intros k Hk. destruct (H7 _ Hk) as [(A & B & C)|(c & A & B & C)].
      + left. split; auto. split; auto. rewrite proj_app, B, HprojOut; auto.
      + right. exists c. split; auto. split; auto. intros g Hg. rewrite proj_app. apply in_or_app; auto. }
  (* after [retain] *)
  assert (HM2 : MInv (E ++ el_ids L) Wd (mi_retain m st1)).
  { destruct HM1 as [M1 M2 M3 M4 M5 M6 M7]. constructor; auto.
    - unfold mi_retain. clear -M1. induction st1 as [|e r IH]; simpl; [constructor|].
      simpl in M1. inversion M1; subst.
      match goal with |- context [if ?b then _ else _] => destruct b end; simpl; auto.
      constructor; auto. intros Hin. apply H1. apply in_map_iff in Hin. destruct Hin as (y & Ey & Hy).
      apply filter_In in Hy. rewrite <- Ey. apply in_map. tauto.
    - intros k it' Hin. apply filter_In in Hin. apply M6. tauto.
    - intros k Hk. destruct (in_dec Nat.eq_dec k (map fst st1)) as [Hin|Hin]; auto.
      apply in_map_iff in Hin. destruct Hin as ((k' & it') & Ek & Hin). simpl in Ek. subst k'.
      destruct (M6 _ _ Hin) as [(c & Src & V & A & B & C) D]. right. exists c. split; auto.
      assert (Hex : li_exhausted c it' = true).
      { destruct (li_exhausted c it') eqn:Ee; auto. exfalso. apply Hk.
        change k with (fst (k, it')). apply in_map. apply filter_In. split; auto. simpl.
        fold circ. rewrite A, Ee. auto. }
      apply Nat.eqb_eq in Hex. rewrite (lii_prod _ _ _ _ _ _ B) in Hex.
      pose proof (lii_inv _ _ _ _ _ _ B) as I.
      assert (Hnd : NoDup (proj k (E ++ el_ids L))) by (apply proj_NoDup; auto).
      assert (Hall : forall g, g < c_count c -> In g (proj k (E ++ el_ids L))).
      { intros g Hg. eapply (NoDup_length_incl Hnd (l':=seq 0 (c_count c))).
        - rewrite seq_length. lia.
        - intros x Hx. apply in_seq. assert (Hx' : In x (proj k (E ++ el_ids L) ++ li_next it'))
            by (apply in_or_app; auto).
          apply (inv_mem _ _ _ _ _ I) in Hx'. lia.
        - apply in_seq. lia. }
      split; auto. intros g Hg Hpar. apply C.
      assert (Hx' : In g (proj k (E ++ el_ids L) ++ li_next it')) by (apply in_or_app; auto).
      apply (inv_mem _ _ _ _ _ I) in Hx'. destruct Hx' as [_ [Hx'|[Hx' _]]]; auto. contradiction. }
  destruct (mi_wake_spec (E ++ el_ids L) (el_ids L) Wd (mi_retain m st1) HM2) as (st' & Wd' & W1 & W2 & W3).
  { pose proof (mv_dup _ _ _ HM2) as Hnd. apply NoDup_app_r in Hnd. auto. }
  { intros x Hx. apply in_or_app; auto. }
  { intros w Hw Hin. apply HC in Hw. destruct Hw as [_ Hw].
    eapply (NoDup_app_disj _ _ _ (mv_dup _ _ _ HM2)); eauto. }
  exists L, st', Wd'. split; [|split; [|split; [|split]]]; auto.
  - unfold mi_next. rewrite S1. cbn [obind]. fold L. rewrite W1. cbn [obind]. auto.
  - intros w. rewrite W3, in_app_iff. specialize (HC w). tauto.
  - constructor; [apply sorted_strict; auto; apply el_sort_sorted|].
    intros k s b Hb. apply (Permutation_in _ (Permutation_sym HPL)) in Hb.
    destruct (StepRel_layer _ _ _ _ _ _ _ _ SR Hb) as (c & it' & A & B & Cs & D).
    exists c. pose proof (fun g => Stepped_mem _ _ _ _ _ _ g HC B) as Hmem.
    destruct B as [B1 B2 B3 B4 B5 B6 B7].
    split; auto. split; auto. split; auto. split; auto. split; auto. split.
    { destruct B2 as [B2|(p & t & B2)]; auto. right. apply HC in B2. exists p, t. simpl in B2. tauto. }
    split; auto.
    intros g p Hg Hp. destruct (wire_target _ _ _ Hp) as (c' & E1 & E2 & E3 & E4 & E5).
    rewrite B1 in E1. injection E1 as <-.
    destruct (Hmem g Hg) as [_ [Hx|[Hx|[[_ Hx]|(q & Hq & Hx)]]]]; try contradiction.
    rewrite (single_source p q (k, g)); auto.
  - intros EL. rewrite EL in *. simpl in *. rewrite app_nil_r in *.
    assert (Els : ls = []) by (apply Permutation_sym, Permutation_nil in HPL; auto).
    destruct HM1 as [M1 M2 M3 M4 M5 M6 M7].
    (* all circuits are quiescent *)
    assert (HQ : forall k it' c, In (k, it') st1 -> circ k = Some c ->
       (forall g, SrcP k c Wd g -> In (k, g) E) /\
       (forall g, g < c_count c -> parents c g <> [] -> (forall p, In p (parents c g) -> In (k, p) E) -> In (k, g) E)).
    { intros k it' c Hin Hc. destruct (StepRel_state _ _ _ _ _ _ _ SR H1 Hin) as (c' & b & HS & Hb).
      rewrite Els in Hb. destruct Hb as [[Hb _]|[]].
      destruct HS as [S1' S2' (Src & V & S3 & S4) S5 S6 S7 S8]. rewrite Hc in S1'. injection S1' as <-.
      pose proof (lii_inv _ _ _ _ _ _ S4) as I. rewrite S5, Hb, !app_nil_r in I.
      assert (Hit : bl_int b = []) by (unfold bl_ids in Hb; apply app_eq_nil in Hb; tauto).
      pose proof (lii_perm _ _ _ _ _ _ S4) as HP. rewrite S6, Hit, Hb, !app_nil_r in HP.
      split.
      - intros g Hg. apply in_proj. apply (inv_mem _ _ _ _ _ I). apply S3 in Hg. split; auto.
        apply (inv_src _ _ _ _ _ I); auto.
      - intros g Hg Hpar Hinc. apply in_proj. apply (inv_mem _ _ _ _ _ I). split; auto. right. split; auto.
        rewrite (inv_need _ _ _ _ _ I) by auto.
        replace (missing V (parents c g)) with (@nil nat); auto. symmetry. apply missing_nil.
        intros y Hy. apply (Permutation_in _ HP). apply in_proj. auto. }
    assert (HQ' : forall k c, circ k = Some c -> (k = 0 \/ exists p t, In (p, (k, t)) Wd) ->
       (forall g, g < c_count c -> SrcP k c Wd g -> In (k, g) E) /\
       (forall g, g < c_count c -> parents c g <> [] -> (forall p, In p (parents c g) -> In (k, p) E) -> In (k, g) E)).
    { intros k c Hc Hk. destruct (in_dec Nat.eq_dec k (map fst st1)) as [Hin|Hin].
      - apply in_map_iff in Hin. destruct Hin as ((k' & it') & Ek & Hin). simpl in Ek. subst k'.
        destruct (HQ k it' c Hin Hc) as [A B]. split; auto.
      - destruct (M7 _ Hin) as [(A & B & C)|(c' & A & B & C)].
        + exfalso. destruct Hk as [Hk|(p & t & Hk)]; [auto|eapply C; eauto].
        + rewrite Hc in A. injection A as <-. split; intros; apply in_proj; auto. }
    intros g Hr. induction Hr as [c g x Hc Hx Hk|p g Hr IH Hw|p k t c g x Hr IH Hw Hc Hx Hk|k c g Hc Hn Hp Hr IH].
    + destruct (HQ' 0 c Hc) as [A _]; auto. assert (g < c_count c) by (apply nth_error_Some; congruence).
      apply A; auto. pose proof (circ_wf _ _ Hc) as AW. unfold SrcP.
      rewrite (aw_consts _ _ AW), (aw_inputs _ _ AW), !ids_where_In.
      apply orb_true_iff in Hk. destruct Hk; [right; left|left]; eauto.
    + destruct g as [k g]. destruct (wire_target _ _ _ Hw) as (c & E1 & E2 & _).
      assert (Hwd : In (p, (k, g)) Wd) by (apply HC; auto).
      destruct (HQ' k c E1) as [A _]; [right; eauto|]. apply A; auto. right. right. eauto.
    + assert (Hwd : In (p, (k, t)) Wd) by (apply HC; auto).
      destruct (HQ' k c Hc) as [A _]; [right; eauto|]. apply A; [apply nth_error_Some; congruence|].
      left. rewrite (aw_consts _ _ (circ_wf _ _ Hc)). apply ids_where_In. eauto.
    + destruct (in_dec Nat.eq_dec k (map fst st1)) as [Hin|Hin].
      * apply in_map_iff in Hin. destruct Hin as ((k' & it') & Ek & Hin). simpl in Ek. subst k'.
        destruct (HQ k it' c Hin Hc) as [_ B]. auto.
      * destruct (M7 _ Hin) as [(A & B & C)|(c' & A & B & C)].
        -- exfalso. destruct (parents c g) as [|p ps]; [congruence|].
           specialize (IH p). assert (In p (proj k E)) by (apply in_proj; apply IH; simpl; auto).
           rewrite B in H. auto.
        -- rewrite Hc in A. injection A as <-. apply in_proj; auto.
Qed.

(** * The whole iteration *)

Lemma MInv_init c : circ 0 = Some c -> MInv [] [] [(0, li_new c)].
Proof.
  intros Hc. pose proof (circ_wf _ _ Hc) as AW. constructor; simpl.
  - constructor; [intros []|constructor].
  - constructor.
  - intros g [].
  - intros g [].
  - intros g [].
  - intros k it [E|[]]. injection E as <- <-. constructor; auto.
    exists c, (c_consts c ++ c_inputs c), []. split; auto. split.
    + change (li_new c) with (LI (map (fun g => length (parents c g)) (seq 0 (c_count c))) [] []
         (c_consts c ++ c_inputs c) (repeat None (c_count c)) 0). apply LIInv_init.
      * rewrite (aw_consts _ _ AW), (aw_inputs _ _ AW). apply NoDup_ids_app.
        intros x. unfold is_const_gate, is_input_gate. destruct (g_base ops x) as [[]|]; congruence.
      * intros g Hg. destruct Hcirc as [_ HC]. destruct (HC _ _ Hc) as [_ HR].
        rewrite (aw_consts _ _ AW), (aw_inputs _ _ AW), in_app_iff, !ids_where_In in Hg.
        destruct Hg as [(y & Ey & Hy)|(y & Ey & Hy)]; (split; [apply nth_error_Some; congruence|]);
          eapply HR; eauto; rewrite Hy, ?orb_true_r; auto.
    + intros g. rewrite in_app_iff. unfold SrcP. split; [tauto|]. intros [H|[[_ H]|(p & [])]]; auto.
  - intros k Hk. left. split; [intros ->; auto|]. split; auto.
Qed.

Lemma gate_count_bound E : NoDup E -> (forall g, In g E -> gate_exists circ g) -> length E <= mc_count m.
Proof.
  intros Hnd Hd.
  set (cnt := fun id => match mc_get m id with Some c => c_count c | None => 0 end).
  assert (Hlen : forall l, length (concat (map (fun id => map (pair id) (seq 0 (cnt id))) l)) = sum_list (map cnt l)).
  { induction l; simpl; auto. rewrite app_length, map_length, seq_length, IHl. auto. }
  unfold mc_count. fold cnt. rewrite <- Hlen. apply NoDup_incl_length; auto.
  intros (k & g) Hin. apply Hd in Hin. destruct Hin as (c & Hc & Hg). simpl in *.
  apply in_concat. exists (map (pair k) (seq 0 (cnt k))). split.
  - apply in_map_iff. exists k. split; auto. apply in_seq. split; [lia|]. simpl.
    unfold circ, mc_get in Hc. destruct (nth_error (mc_map m) k) eqn:En; [|discriminate].
    apply nth_error_Some. congruence.
  - apply in_map. apply in_seq. unfold cnt. fold circ. rewrite Hc. lia.
Qed.

Fixpoint MSched (E : list gid) (ls : list elayer) : Prop :=
  match ls with
  | [] => True
  | L :: r => L <> [] /\ LayerOk E L /\ MSched (E ++ el_ids L) r
  end.

Definition flat (ls : list elayer) : list gid := concat (map el_ids ls).

Lemma LayerOk_ids E L : LayerOk E L -> L <> [] -> el_ids L <> [].
Proof.
  intros [_ HL] Hne. destruct L as [|((k & s) & b) L]; [congruence|].
  destruct (HL k s b) as (c & _ & _ & Hb & _); [simpl; auto|].
  rewrite el_ids_cons. destruct (bl_ids b); [congruence|]. discriminate.
Qed.

Lemma mi_collect_spec perm : (forall i st, Permutation st (perm i st)) ->
  forall fuel i E Wd st,
  MInv E Wd st -> complete E Wd -> mc_count m < length E + fuel ->
  exists ls, mi_collect ops imax m perm fuel i st = Some ls /\ MSched E ls /\
    NoDup (E ++ flat ls) /\ (forall g, In g (E ++ flat ls) -> gate_exists circ g) /\
    (forall g, runs ops circ h g -> In g (E ++ flat ls)).
Proof.
  intros HP. induction fuel as [|fuel IH]; intros i E Wd st HM HC Hf.
  - exfalso. pose proof (gate_count_bound E (mv_dup _ _ _ HM) (mv_dom _ _ _ HM)). lia.
  - destruct (mi_next_spec E Wd (perm i st) (MInv_perm _ _ _ _ (HP i st) HM) HC)
      as (L & st' & Wd' & E1 & HM' & HC' & HL & HQ).
    cbn [mi_collect]. rewrite E1. cbn [obind]. destruct L as [|e L].
    + exists []. unfold flat. simpl. rewrite app_nil_r. split; auto. split; auto.
      split; [apply HM|]. split; [apply HM|]. auto.
    + set (L0 := e :: L) in *. assert (Hne : L0 <> []) by discriminate.
      destruct (IH (S i) _ _ _ HM' HC') as (ls & E2 & A & B & C & D).
      { rewrite app_length. pose proof (LayerOk_ids _ _ HL Hne).
        destruct (el_ids L0); [congruence|]. simpl. lia. }
      rewrite E2. cbn [obind]. exists (L0 :: ls). split; auto.
      change (flat (L0 :: ls)) with (el_ids L0 ++ flat ls). rewrite app_assoc.
      split; [split; auto|]. auto.
Qed.

Lemma mc_layers_spec perm : (forall i st, Permutation st (perm i st)) ->
  exists ls, mc_layers ops imax m perm = Some ls /\ MSched [] ls /\ NoDup (flat ls) /\
    (forall g, In g (flat ls) -> gate_exists circ g) /\ (forall g, runs ops circ h g -> In g (flat ls)).
Proof.
  intros HP. destruct Hcirc as [(c & Hc) _].
  destruct (mi_collect_spec perm HP (S (mc_count m)) 0 [] [] [(0, li_new c)] (MInv_init c Hc))
    as (ls & A & B).
  { intros w. simpl. tauto. }
  { simpl. lia. }
  exists ls. split; auto. unfold mc_layers, mi_new. fold circ. rewrite Hc. cbn [obind]. auto.
Qed.

(** * Consequences *)

(** Every gate is justified by the gates emitted before it. *)
Lemma MSched_prefix : forall ls E l1 k x l2, MSched E ls -> flat ls = l1 ++ (k, x) :: l2 ->
  exists c, circ k = Some c /\ x < c_count c /\
    (forall p, In p (parents c x) -> In (k, p) (E ++ l1)) /\
    (forall p, In (p, (k, x)) h -> In p (E ++ l1)) /\
    (k = 0 \/ exists p t, In p (E ++ l1) /\ In (p, (k, t)) h) /\
    (parents c x <> [] \/ In x (c_consts c) \/ (k = 0 /\ In x (c_inputs c)) \/
         exists p, In p (E ++ l1) /\ In (p, (k, x)) h).
Proof.
  induction ls as [|L ls IH]; intros E l1 k x l2 HS Ef.
  - destruct l1; discriminate.
  - destruct HS as (Hne & HL & HS). change (flat (L :: ls)) with (el_ids L ++ flat ls) in Ef.
    apply app_eq_app in Ef. destruct Ef as (l & [[E1 E2]|[E1 E2]]).
    + (* inside this layer, or at its end *)
      destruct l as [|y l].
      { rewrite app_nil_r in E1. simpl in E2.
        destruct (IH (E ++ el_ids L) [] k x l2 HS (eq_sym E2)) as (c & H). exists c.
        rewrite app_nil_r in H. rewrite E1 in H. auto. }
      simpl in E2. injection E2 as <- E2.
      assert (Hin : In (k, x) (el_ids L)) by (rewrite E1; apply in_or_app; simpl; auto).
      apply in_el_ids in Hin. destruct Hin as (s & b & Hb & Hx).
      destruct HL as [HSo HL]. destruct (HL k s b Hb) as (c & A & _ & _ & LR & _ & Wk & Mem & Hwi).
      exists c. split; auto. destruct (Mem x Hx) as [Hn Hj]. split; auto.
      assert (Hnd : NoDup (map ekey L)).
      { clear -HSo. induction (map ekey L) as [|a l IH]; constructor; inversion HSo; subst; auto.
        intros Hin. rewrite Forall_forall in H2. apply H2 in Hin. lia. }
      assert (Hloc : bl_ids b = proj k l1 ++ x :: proj k l).
      { rewrite <- (proj_el_ids_in k s b L Hnd Hb), E1, proj_app. unfold proj at 2. simpl.
        rewrite Nat.eqb_refl. reflexivity. }
      split; [|split; [|split]].
      * intros p Hp. apply in_or_app. rewrite <- !in_proj.
        unfold bl_ids in Hloc. apply app_eq_app in Hloc. destruct Hloc as (z & [[Z1 Z2]|[Z1 Z2]]).
        -- destruct z as [|z0 z].
           ++ rewrite app_nil_r in Z1. simpl in Z2.
              pose proof (lr_it _ _ _ _ _ LR x ltac:(rewrite <- Z2; simpl; auto) p Hp) as Hq.
              apply in_app_or in Hq. rewrite <- Z1. auto.
           ++ injection Z2 as <- Z2. pose proof (lr_ni _ _ _ _ _ LR _ _ _ Z1 p Hp) as Hq.
              apply in_app_or in Hq. auto.
        -- pose proof (lr_it _ _ _ _ _ LR x ltac:(rewrite Z2; apply in_or_app; simpl; auto) p Hp) as Hq.
           apply in_app_or in Hq. rewrite Z1. destruct Hq as [Hq|Hq]; auto. right. apply in_or_app; auto.
      * intros p Hp. apply in_or_app. left. eapply Hwi; eauto.
      * destruct Wk as [Wk|(p & t & B1 & B2)]; auto. right. exists p, t. split; auto. apply in_or_app; auto.
      * destruct Hj as [Hj|[Hj|[Hj|(p & B1 & B2)]]]; auto. right. right. right. exists p. split; auto.
        apply in_or_app; auto.
    + subst l1. destruct (IH (E ++ el_ids L) l k x l2 HS E2) as (c & H). exists c.
      rewrite app_assoc. auto.
Qed.

Lemma MSched_runs ls : MSched [] ls -> forall l1 l2, flat ls = l1 ++ l2 -> forall g, In g l1 -> runs ops circ h g.
Proof.
  intros HS. induction l1 as [|(k & x) l1 IH] using rev_ind; intros l2 El g Hg; [destruct Hg|].
  rewrite <- app_assoc in El. simpl in El. apply in_app_or in Hg.
  destruct Hg as [Hg|[<-|[]]]; [eapply IH; eauto|].
  destruct (MSched_prefix _ _ _ _ _ _ HS El) as (c & A & B & C & D & W & J). simpl in *.
  assert (IH' : forall p, In p l1 -> runs ops circ h p) by (intros; eapply IH; eauto).
  pose proof (circ_wf _ _ A) as AW. rewrite (aw_consts _ _ AW), (aw_inputs _ _ AW), !ids_where_In in J.
  destruct J as [J|[(y & Ey & Hy)|[[-> (y & Ey & Hy)]|(p & P1 & P2)]]].
  - eapply runs_gate; eauto.
  - destruct W as [->|(p & t & P1 & P2)].
    + eapply runs_main; eauto. rewrite Hy. apply orb_true_r.
    + eapply runs_const; eauto.
  - eapply runs_main; eauto. rewrite Hy. auto.
  - eapply runs_wire; eauto.
Qed.

(** Layer numbers. *)
Lemma MSched_nth : forall ls E i L, MSched E ls -> nth_error ls i = Some L ->
  LayerOk (E ++ flat (firstn i ls)) L.
Proof.
  induction ls as [|L0 ls IH]; intros E i L HS Hi; [destruct i; discriminate|].
  destruct HS as (Hne & HL & HS). destruct i as [|i].
  - simpl in Hi. injection Hi as <-. unfold flat. simpl. rewrite app_nil_r. auto.
  - simpl in Hi. specialize (IH _ _ _ HS Hi). rewrite <- app_assoc in IH. exact IH.
Qed.

Lemma flat_in_layer ls g : In g (flat ls) <-> exists i, in_mlayer ls i g.
Proof.
  unfold flat. rewrite in_concat. split.
  - intros (l & Hl & Hg). apply in_map_iff in Hl. destruct Hl as (L & <- & HL).
    apply In_nth_error in HL. destruct HL as (i & Hi). destruct g as [k x].
    apply in_el_ids in Hg. destruct Hg as (s & b & Hb & Hx). exists i, L, k, s, b. auto.
  - intros (i & L & sc & s & b & Hi & Hb & Hk & Hx). exists (el_ids L). split.
    + apply in_map. eapply nth_error_In; eauto.
    + destruct g as [k x]. simpl in *. subst. apply in_el_ids. eauto.
Qed.

Lemma firstn_in_layer ls i g : In g (flat (firstn i ls)) -> exists j, j < i /\ in_mlayer ls j g.
Proof.
  intros H. apply flat_in_layer in H. destruct H as (j & L & sc & s & b & Hj & R).
  assert (j < length (firstn i ls)) by (apply nth_error_Some; congruence).
  rewrite firstn_length in H. exists j. split; [lia|]. exists L, sc, s, b. split; auto.
  rewrite <- Hj. symmetry. clear -H. revert ls H. revert i. induction j; intros [|i] [|a ls] H; simpl in *; try lia; auto.
  apply IHj. lia.
Qed.

Lemma MSched_layers ls i g p : MSched [] ls -> in_mlayer ls i g -> operand circ h p g ->
  exists j, in_mlayer ls j p /\ j <= i /\
    (fst p <> fst g \/ In (p, g) h -> j < i) /\
    (forall c, circ (fst p) = Some c -> is_int ops c (snd p) = true -> j < i).
Proof.
  intros HS (L & sc & s & b & Hi & Hb & Hk & Hx) Hop. pose proof (MSched_nth _ _ _ _ HS Hi) as [_ HL].
  simpl in HL. destruct (HL _ _ _ Hb) as (c & A & _ & _ & LR & _ & _ & _ & Hw).
  destruct g as [k x]. simpl in Hk, Hx. subst sc.
  assert (Hearly : In p (flat (firstn i ls)) -> exists j, in_mlayer ls j p /\ j <= i /\
    (fst p <> k \/ In (p, (k, x)) h -> j < i) /\
    (forall c, circ (fst p) = Some c -> is_int ops c (snd p) = true -> j < i)).
  { intros H. apply firstn_in_layer in H. destruct H as (j & Hj & Hin). exists j. split; auto. repeat split; auto; lia. }
  destruct Hop as [Hop|(c' & A' & Ek & Hop)].
  - apply Hearly. eapply Hw; eauto.
  - simpl in A', Ek, Hop. rewrite A in A'. injection A' as <-. destruct p as [kp p]. simpl in *. subst kp.
    assert (Hnl : ~ In ((k, p), (k, x)) h).
    { intros Hin. destruct (wire_target _ _ _ Hin) as (c' & E1 & _ & E3 & _). rewrite A in E1.
      injection E1 as <-. rewrite E3 in Hop. auto. }
    assert (Hloc : In p (proj k (flat (firstn i ls)) ++ bl_ni b)).
    { apply in_app_or in Hx. destruct Hx as [Hx|Hx].
      - apply in_split in Hx. destruct Hx as (a1 & a2 & Ex).
        pose proof (lr_ni _ _ _ _ _ LR _ _ _ Ex p Hop) as Hq. rewrite Ex, !in_app_iff in *. tauto.
      - apply (lr_it _ _ _ _ _ LR _ Hx _ Hop). }
    apply in_app_or in Hloc. destruct Hloc as [Hloc|Hloc].
    + apply Hearly. apply in_proj; auto.
    + exists i. split.
      * exists L, k, s, b. simpl. repeat split; auto. apply in_or_app; auto.
      * split; auto. split.
        -- intros [Hne|Hin]; [congruence|contradiction].
        -- intros c' E1 Hint. rewrite A in E1. injection E1 as <-.
           rewrite (lr_kni _ _ _ _ _ LR) in Hint by auto. discriminate.
Qed.

End Multi.
