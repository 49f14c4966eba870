(** The layers do not depend on the iteration order of the hash map. *)
From Coq Require Import List Bool Arith Lia Permutation Sorting.Sorted.
Require Import Verif.Prelude Verif.PreludeProofs Verif.GateModel Verif.CircuitModel
  Verif.CircuitSpec Verif.CircuitProofs Verif.CircuitProofs2 Verif.CircuitProofs3
  Verif.ExecModel Verif.ConnModel Verif.MultiModel Verif.MultiSpec Verif.MultiProofs.
Import ListNotations.

(** Equal up to a permutation, or both panicking. *)
Definition orel {A B} (R : A -> B -> Prop) (a : option A) (b : option B) : Prop :=
  match a, b with Some x, Some y => R x y | None, None => True | _, _ => False end.

Section Det.
Context {PT G : Type}.
Variable ops : gate_ops PT G.
Variable m : mcirc G.
Variable imax : nat.

Lemma mi_step_keys : forall st ls st', mi_step ops m st = Some (ls, st') ->
  map fst st' = map fst st /\ incl (map ekey ls) (map fst st) /\
  (NoDup (map fst st) -> NoDup (map ekey ls)).
Proof.
  induction st as [|(k & it) st IH]; intros ls st' H; simpl in H.
  - injection H as <- <-. repeat split; auto. intros x [].
  - destruct (mc_get m k) as [c|]; [|discriminate]. cbn [obind] in H.
    destruct (li_next_layer ops c it) as [[o it']|]; [|discriminate]. cbn [obind] in H.
    destruct (mi_step ops m st) as [[ls0 st0]|]; [|discriminate]. cbn [obind] in H.
    injection H as <- <-. destruct (IH _ _ eq_refl) as (A & B & C). simpl. split; [congruence|].
    destruct o as [b|]; simpl.
    { split.
      - intros x Hx. simpl in Hx. destruct Hx as [<-|Hx]; simpl; auto.
      - intros Hnd. inversion Hnd as [|? ? N1 N2]; subst. constructor; auto. }
    { split.
      - intros x Hx. simpl. auto.
      - intros Hnd. inversion Hnd as [|? ? N1 N2]; subst. auto. }
Qed.

Lemma mi_step_perm : forall st st', Permutation st st' ->
  orel (fun a b => Permutation (fst a) (fst b) /\ Permutation (snd a) (snd b))
       (mi_step ops m st) (mi_step ops m st').
Proof.
  induction 1 as [|(k & it) l l' HP IH|(k & it) (k' & it') l|a b c H1 IH1 H2 IH2].
  - simpl. auto.
  - simpl. destruct (mc_get m k) as [c|]; simpl; auto.
    destruct (li_next_layer ops c it) as [[o it']|]; simpl; auto.
    destruct (mi_step ops m l) as [[ls s]|], (mi_step ops m l') as [[ls' s']|]; simpl in *; auto.
    destruct IH. destruct o; auto.
  - simpl. destruct (mc_get m k) as [c|], (mc_get m k') as [c'|]; simpl; auto;
      repeat match goal with |- context [li_next_layer ?a ?b ?d] =>
        destruct (li_next_layer a b d) as [[? ?]|]; simpl; auto end;
      destruct (mi_step ops m l) as [[ls s]|]; simpl; auto.
    split; [|apply perm_swap]. destruct o, o0; auto. apply perm_swap.
  - destruct (mi_step ops m a) as [[? ?]|], (mi_step ops m b) as [[? ?]|], (mi_step ops m c) as [[? ?]|];
      simpl in *; try tauto. destruct IH1, IH2. split; etransitivity; eauto.
Qed.

Lemma perm_filter {A} (f : A -> bool) l l' : Permutation l l' -> Permutation (filter f l) (filter f l').
Proof.
  induction 1; simpl; auto.
  - destruct (f x); auto.
  - destruct (f x), (f y); auto. apply perm_swap.
  - etransitivity; eauto.
Qed.

Lemma sorted_unique : forall l l', StronglySorted ele l -> StronglySorted ele l' ->
  NoDup (map ekey l) -> Permutation l l' -> l = l'.
Proof.
  induction l as [|x l IH]; intros l' S1 S2 Hnd HP.
  - apply Permutation_nil in HP. auto.
  - destruct l' as [|y l']; [apply Permutation_sym, Permutation_nil in HP; discriminate|].
    inversion S1; inversion S2; subst.
    assert (x = y).
    { assert (Hy : In y (x :: l)) by (apply (Permutation_in _ (Permutation_sym HP)); simpl; auto).
      assert (Hx : In x (y :: l')) by (apply (Permutation_in _ HP); simpl; auto).
      destruct Hy as [|Hy]; auto. destruct Hx as [|Hx]; auto.
      rewrite Forall_forall in H2, H6. specialize (H2 _ Hy). specialize (H6 _ Hx).
      unfold ele in *. exfalso. simpl in Hnd. inversion Hnd; subst. apply H3.
      replace (ekey x) with (ekey y) by lia. apply in_map; auto. }
    subst y. f_equal. apply IH; auto.
    + simpl in Hnd. inversion Hnd; auto.
    + eapply Permutation_cons_inv; eauto.
Qed.

Lemma el_sort_det ls ls' : NoDup (map ekey ls) -> Permutation ls ls' -> el_sort ls = el_sort ls'.
Proof.
  intros Hnd HP. apply sorted_unique; try apply el_sort_sorted.
  - eapply Permutation_NoDup; [apply ekey_perm, el_sort_perm|auto].
  - etransitivity; [apply Permutation_sym, el_sort_perm|]. etransitivity; [apply HP|apply el_sort_perm].
Qed.

Lemma mi_add_in_keys st g st' : mi_add_in st g = Some st' -> map fst st' = map fst st.
Proof.
  revert st'. induction st as [|(k & it) st IH]; intros st' H; simpl in H; [discriminate|].
  destruct (k =? fst g).
  - injection H as <-. auto.
  - destruct (mi_add_in st g); [|discriminate]. injection H as <-. simpl. rewrite IH; auto.
Qed.

Lemma mi_add_keys st g st' : mi_add m st g = Some st' -> NoDup (map fst st) -> NoDup (map fst st').
Proof.
  destruct g as [k g]. unfold mi_add. destruct (mi_add_in st (k, g)) eqn:E; intros H Hnd.
  - injection H as <-. rewrite (mi_add_in_keys _ _ _ E). auto.
  - destruct (mc_get m (fst (k, g))); [|discriminate]. injection H as <-. rewrite map_app. simpl.
    destruct (in_dec Nat.eq_dec k (map fst st)) as [Hk|Hk].
    + destruct (mi_add_in_found st k g Hk Hnd) as (? & ? & ? & _ & E'). congruence.
    + apply NoDup_app_intro; auto; [constructor; auto; constructor|]. intros x Hx [->|[]]. auto.
Qed.

Lemma mi_add_perm st st' g : NoDup (map fst st) -> Permutation st st' ->
  orel (@Permutation (nat * liter)) (mi_add m st g) (mi_add m st' g).
Proof.
  intros Hnd HP. destruct g as [k g].
  assert (Hnd' : NoDup (map fst st')) by (eapply Permutation_NoDup; [apply Permutation_map; eauto|auto]).
  unfold mi_add. destruct (in_dec Nat.eq_dec k (map fst st)) as [Hk|Hk].
  - assert (Hk' : In k (map fst st')) by (apply (Permutation_in _ (Permutation_map fst HP)); auto).
    destruct (mi_add_in_found st k g Hk Hnd) as (l & it & r & E1 & E2).
    destruct (mi_add_in_found st' k g Hk' Hnd') as (l' & it' & r' & E1' & E2').
    rewrite E2, E2'. simpl.
    assert (it = it').
    { assert (H1 : In (k, it) st') by (apply (Permutation_in _ HP); rewrite E1; apply in_or_app; simpl; auto).
      assert (H2 : In (k, it') st') by (rewrite E1'; apply in_or_app; simpl; auto).
      clear -H1 H2 Hnd'. induction st' as [|(a & b) s IH]; [destruct H1|]. simpl in Hnd'.
      inversion Hnd'; subst. destruct H1 as [H1|H1], H2 as [H2|H2]; auto.
      - congruence.
      - injection H1 as -> ->. exfalso. apply H3. apply (in_map fst) in H2. auto.
      - injection H2 as -> ->. exfalso. apply H3. apply (in_map fst) in H1. auto. }
    subst it'. subst st st'.
    assert (HP' : Permutation (l ++ r) (l' ++ r')).
    { apply (Permutation_cons_inv (a := (k, it))).
      etransitivity; [apply Permutation_middle|]. etransitivity; [apply HP|].
      apply Permutation_sym, Permutation_middle. }
    etransitivity; [apply Permutation_sym, Permutation_middle|].
    etransitivity; [|apply Permutation_middle]. constructor. auto.
  - assert (Hk' : ~ In k (map fst st')).
    { intros H. apply Hk. apply (Permutation_in _ (Permutation_sym (Permutation_map fst HP))); auto. }
    rewrite !mi_add_in_none by auto. destruct (mc_get m (fst (k, g))); simpl; auto.
    apply Permutation_app_tail; auto.
Qed.

Lemma mi_adds_perm : forall ts st st', NoDup (map fst st) -> Permutation st st' ->
  orel (fun a b => Permutation a b /\ NoDup (map fst a)) (ofold (mi_add m) st ts) (ofold (mi_add m) st' ts).
Proof.
  induction ts as [|t ts IH]; intros st st' Hnd HP; simpl; auto.
  pose proof (mi_add_perm st st' t Hnd HP) as H.
  destruct (mi_add m st t) as [s|] eqn:E, (mi_add m st' t) as [s'|]; simpl in *; try tauto.
  apply IH; auto. eapply mi_add_keys; eauto.
Qed.

Lemma mi_wake_perm : forall gs st st', NoDup (map fst st) -> Permutation st st' ->
  orel (fun a b => Permutation a b /\ NoDup (map fst a)) (mi_wake imax m st gs) (mi_wake imax m st' gs).
Proof.
  unfold mi_wake. induction gs as [|g gs IH]; intros st st' Hnd HP; cbn [ofold].
  - simpl. auto.
  - pose proof (mi_adds_perm (cn_outgoing imax (mc_conns m) g) st st' Hnd HP) as H.
    destruct (ofold (mi_add m) st (cn_outgoing imax (mc_conns m) g)) as [s|],
             (ofold (mi_add m) st' (cn_outgoing imax (mc_conns m) g)) as [s'|]; simpl in H |- *; try tauto.
    destruct H. apply IH; auto.
Qed.

Lemma NoDup_map_filter {A B} (f : A -> B) p l : NoDup (map f l) -> NoDup (map f (filter p l)).
Proof.
  induction l as [|x l IH]; simpl; intros H; [constructor|]. inversion H; subst.
  destruct (p x); simpl; auto. constructor; auto. intros Hin. apply H2.
  apply in_map_iff in Hin. destruct Hin as (y & Ey & Hy). apply filter_In in Hy.
  apply in_map_iff. exists y. tauto.
Qed.

Lemma mi_next_perm st st' : NoDup (map fst st) -> Permutation st st' ->
  orel (fun a b => fst a = fst b /\ Permutation (snd a) (snd b) /\ NoDup (map fst (snd a)))
       (mi_next ops imax m st) (mi_next ops imax m st').
Proof.
  intros Hnd HP. unfold mi_next. pose proof (mi_step_perm st st' HP) as H.
  destruct (mi_step ops m st) as [[ls s]|] eqn:E, (mi_step ops m st') as [[ls' s']|] eqn:E';
    simpl in H; try tauto; cbn [obind]; try exact Logic.I.
  destruct H as [H1 H2]. destruct (mi_step_keys _ _ _ E) as (K1 & _ & K2).
  rewrite <- (el_sort_det ls ls' (K2 Hnd) H1).
  assert (Hr : Permutation (mi_retain m s) (mi_retain m s')) by (apply perm_filter; auto).
  assert (Hk : NoDup (map fst (mi_retain m s))) by (apply NoDup_map_filter; rewrite K1; auto).
  pose proof (mi_wake_perm (el_ids (el_sort ls)) _ _ Hk Hr) as H.
  destruct (mi_wake imax m (mi_retain m s) (el_ids (el_sort ls))) as [t|],
           (mi_wake imax m (mi_retain m s') (el_ids (el_sort ls))) as [t'|]; simpl in H |- *; tauto.
Qed.

Lemma mi_collect_det perm perm' :
  (forall i st, Permutation st (perm i st)) -> (forall i st, Permutation st (perm' i st)) ->
  forall fuel i st st', NoDup (map fst st) -> Permutation st st' ->
  mi_collect ops imax m perm fuel i st = mi_collect ops imax m perm' fuel i st'.
Proof.
  intros HP HP'. induction fuel as [|fuel IH]; intros i st st' Hnd Hst; auto.
  cbn [mi_collect].
  assert (H0 : Permutation (perm i st) (perm' i st')).
  { etransitivity; [apply Permutation_sym, HP|]. etransitivity; [apply Hst|apply HP']. }
  assert (Hnd0 : NoDup (map fst (perm i st))).
  { eapply Permutation_NoDup; [apply Permutation_map, HP|auto]. }
  pose proof (mi_next_perm _ _ Hnd0 H0) as H.
  destruct (mi_next ops imax m (perm i st)) as [[r s]|], (mi_next ops imax m (perm' i st')) as [[r' s']|];
    simpl in H; try tauto; auto.
  destruct H as (<- & H1 & H2). cbn [obind]. destruct r as [l|]; auto. rewrite (IH (S i) s s'); auto.
Qed.

Lemma mc_layers_det perm perm' :
  (forall i st, Permutation st (perm i st)) -> (forall i st, Permutation st (perm' i st)) ->
  mc_layers ops imax m perm = mc_layers ops imax m perm'.
Proof.
  intros HP HP'. unfold mc_layers, mi_new. destruct (mc_get m 0) as [c|]; cbn [obind]; auto.
  apply mi_collect_det; auto. simpl. constructor; [intros []|constructor].
Qed.

End Det.
