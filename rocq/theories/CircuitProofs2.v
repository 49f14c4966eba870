(** One call of [next], and the whole iteration, of the layer iterator. *)
From Coq Require Import List Bool Arith Lia Permutation.
Require Import Verif.Prelude Verif.PreludeProofs Verif.GateModel Verif.CircuitModel
  Verif.CircuitSpec Verif.CircuitProofs.
Import ListNotations.

Lemma NoDup_app_l {A} (a b : list A) : NoDup (a ++ b) -> NoDup a.
Proof.
  induction a; simpl; intros H; constructor; inversion H; subst; auto.
  intros Hi. apply H2. apply in_or_app; auto.
Qed.

Lemma NoDup_app_r {A} (a b : list A) : NoDup (a ++ b) -> NoDup b.
Proof. induction a; simpl; intros H; auto. inversion H; auto. Qed.

Lemma NoDup_app_disj {A} (a b : list A) x : NoDup (a ++ b) -> In x a -> ~ In x b.
Proof.
  induction a; simpl; intros H Ha Hb; [destruct Ha|]. inversion H; subst.
  destruct Ha as [->|Ha]; [apply H2; apply in_or_app; auto|]. apply IHa; auto.
Qed.

(** State of the iterator between two calls of [next]: [P] are the gates emitted
    so far, [V] those of them whose wires have been counted down. *)
Record LIInv {PT G} (ops : gate_ops PT G) (c : circuit G) (Src V P : list nat)
  (st : liter) : Prop := {
  lii_perm : Permutation P (V ++ li_prev st);
  lii_inv : Inv c Src V (P ++ li_next st) (li_needed st);
  lii_left : LeftInv c V P (li_left st);
  lii_visit : li_visit st = [];
  lii_prod : li_produced st = length P;
  lii_int : forall x, In x (li_prev st) -> is_int ops c x = true }.

Lemma LoopRes_incl {PT G} (ops : gate_ops PT G) c V V' ni it :
  incl V V' -> LoopRes ops c V ni it -> LoopRes ops c V' ni it.
Proof.
  intros H [R1 R2 R3 R4]. constructor; auto.
  - intros l1 x l2 E y Hy. eapply R1 in Hy; eauto. rewrite in_app_iff in *. intuition.
  - intros x Hx y Hy. eapply R2 in Hy; eauto. rewrite in_app_iff in *. intuition.
Qed.

Lemma li_next_spec {PT G} (ops : gate_ops PT G) (c : circuit G) Src V P st :
  in_range c -> LIInv ops c Src V P st ->
  exists ni it fr st',
    li_next_layer ops c st =
      Some (if bl_empty (BL ni it fr) then None else Some (BL ni it fr), st') /\
    LIInv ops c Src (V ++ li_prev st ++ ni) (P ++ ni ++ it) st' /\
    li_next st' = [] /\ li_prev st' = it /\
    LoopRes ops c P ni it /\
    (forall f, In f fr -> In f (P ++ ni) /\ incl (children c f) (P ++ ni ++ it) /\
       exists h, In h (children c f) /\ In h (ni ++ it)) /\
    (li_prev st = [] -> li_next st = [] -> ni = [] /\ it = []) /\
    incl (li_next st) (ni ++ it).
Proof.
  intros Hr [HP I L Hv Hp Hk].
  assert (HndP : NoDup P).
  { apply inv_nodup in I. apply NoDup_app_l in I. auto. }
  assert (HndVp : NoDup (V ++ li_prev st)) by (eapply Permutation_NoDup; eauto).
  destruct (li_drain_spec c Src P (li_prev st) V (P ++ li_next st) (li_needed st) (li_left st)
              (li_next st)) as (n1 & l1 & pu & E1 & I1 & L1); auto.
  { intros x Hx. apply in_or_app; auto. }
  { intros x Hx. apply in_or_app; left. apply (Permutation_in _ (Permutation_sym HP)).
    apply in_or_app; auto. }
  { apply NoDup_app_r in HndVp. auto. }
  { intros x Hx HxV. eapply NoDup_app_disj; eauto. }
  set (V0 := V ++ li_prev st) in *.
  assert (HV0 : incl V0 P).
  { intros x Hx. apply (Permutation_in _ (Permutation_sym HP)); auto. }
  destruct (li_loop_spec ops c Src V0 P Hr (length (li_next st ++ pu) + c_count c)
              n1 l1 (li_next st ++ pu) [] [] [] [] [])
    as (n2 & l2 & ni & it & fr & F1 & F2 & F3 & F4 & F5 & F6).
  { rewrite app_nil_r. simpl. rewrite app_assoc. exact I1. }
  { rewrite !app_nil_r. exact L1. }
  { auto. }
  { constructor. }
  { constructor; [intros [|] ? ? H; discriminate| | | ]; intros ? []. }
  { intros f []. }
  { lia. }
  simpl in F1, F2.
  unfold li_next_layer. rewrite E1. cbn [obind]. rewrite F1. cbn [obind].
  exists ni, it, fr.
  eexists. split.
  { destruct (bl_empty (BL ni it fr)) eqn:Ee; [|reflexivity].
    assert (ni = [] /\ it = []) as [-> ->].
    { destruct ni, it; simpl in Ee; try discriminate; auto. }
    simpl. rewrite Nat.add_0_r. reflexivity. }
  assert (Hq : incl (li_next st ++ pu) (ni ++ it)).
  { (* everything queued was emitted: it is in the final membership characterisation *)
    intros g Hg.
    assert (HgPQ : In g ((P ++ li_next st) ++ pu)).
    { rewrite <- app_assoc. apply in_or_app; auto. }
    assert (Hnot : ~ In g P).
    { intros HgP. pose proof (inv_nodup _ _ _ _ _ I1) as Hnd. rewrite <- app_assoc in Hnd.
      eapply NoDup_app_disj; eauto. }
    assert (In g (P ++ ni ++ it)).
    { apply (inv_mem _ _ _ _ _ F3). apply (inv_mem _ _ _ _ _ I1) in HgPQ.
      destruct HgPQ as [Hn [Hs|[Hs Hz]]]; split; auto. right; split; auto.
      rewrite (inv_need _ _ _ _ _ F3) by auto.
      rewrite (inv_need _ _ _ _ _ I1) in Hz by auto.
      apply length_zero_iff_nil in Hz. apply missing_nil in Hz.
      replace (missing (V0 ++ ni) (parents c g)) with (@nil nat); auto.
      symmetry. apply missing_nil. intros y Hy. apply in_or_app; left. apply Hz; auto. }
    apply in_app_or in H. tauto. }
  split; [|split; [|split; [|split; [|split; [|split]]]]].
  - constructor; cbn [li_prev li_next li_needed li_left li_visit li_produced].
    + replace ((V ++ li_prev st ++ ni) ++ it) with (V0 ++ ni ++ it)
        by (unfold V0; rewrite <- !app_assoc; auto).
      apply Permutation_app_tail; auto.
    + rewrite Hv, app_nil_r. rewrite (app_assoc V). exact F3.
    + rewrite (app_assoc V). exact F4.
    + auto.
    + rewrite !app_length, Hp. simpl. lia.
    + intros x Hx. apply (lr_kit _ _ _ _ _ F5); auto.
  - exact Hv.
  - reflexivity.
  - eapply LoopRes_incl; eauto.
  - intros f Hf. destruct (F6 _ Hf) as [A B]. split; auto.
    apply in_app_or in A. apply in_or_app. destruct A; auto.
  - intros Ep En. rewrite Ep in E1. simpl in E1. injection E1 as _ _ E1. rewrite <- E1 in F1.
    rewrite En in F1. simpl in F1. destruct (c_count c); injection F1; auto.
  - intros g Hg. apply Hq. apply in_or_app; auto.
Qed.

(** Adding a fresh root to the next layer keeps the invariant. *)
Lemma LIInv_add {PT G} (ops : gate_ops PT G) (c : circuit G) Src V P st g :
  LIInv ops c Src V P st -> g < c_count c -> parents c g = [] -> ~ In g Src ->
  LIInv ops c (Src ++ [g]) V P (li_add_next st g).
Proof.
  intros [HP I L Hv Hp Hk] Hn Hpar Hs. constructor; simpl; auto.
  assert (Hg : ~ In g (P ++ li_next st)).
  { intros H. apply (inv_mem _ _ _ _ _ I) in H. destruct H as [_ [H|[H _]]]; auto. }
  destruct I as [I1 I2 I3 I4 I5 I6 I7]. constructor; auto.
  - rewrite app_assoc. apply NoDup_app_intro; auto.
    + constructor; auto. constructor.
    + intros x Hx [->|[]]; auto.
  - intros x Hx. rewrite app_assoc. apply in_or_app; left; auto.
  - intros x Hx. apply in_app_or in Hx. destruct Hx as [Hx|[->|[]]]; auto.
  - intros x. rewrite app_assoc, in_app_iff, I7. simpl. rewrite in_app_iff. simpl.
    intuition (subst; auto).
Qed.

Lemma in_range_needed0 {G} (c : circuit G) g :
  g < c_count c ->
  nth g (map (fun g => length (parents c g)) (seq 0 (c_count c))) 0 = length (parents c g).
Proof.
  intros H. rewrite (nth_indep _ 0 (length (parents c 0))) by (rewrite map_length, seq_length; auto).
  rewrite (map_nth (fun g => length (parents c g)) (seq 0 (c_count c)) 0 g).
  rewrite seq_nth by auto. auto.
Qed.

Lemma LIInv_init {PT G} (ops : gate_ops PT G) (c : circuit G) Src :
  NoDup Src -> (forall g, In g Src -> g < c_count c /\ parents c g = []) ->
  LIInv ops c Src [] []
    (LI (map (fun g => length (parents c g)) (seq 0 (c_count c))) [] [] Src
        (repeat None (c_count c)) 0).
Proof.
  intros Hnd Hs. constructor; simpl; auto.
  - constructor; auto.
    + rewrite map_length, seq_length; auto.
    + intros g Hg. rewrite in_range_needed0 by auto. unfold missing.
      simpl. induction (parents c g); simpl; auto.
    + constructor.
    + intros x [].
    + intros g. split.
      * intros H. split; [apply Hs; auto|]. auto.
      * intros [Hg [H|[H Hz]]]; auto. rewrite in_range_needed0 in Hz by auto.
        apply length_zero_iff_nil in Hz. contradiction.
  - intros _. split; [apply repeat_length|]. intros g Hg. simpl.
    rewrite (nth_error_nth' _ None) by (rewrite repeat_length; auto).
    f_equal. apply nth_repeat_any.
Qed.

(** Valid layering relative to a set [P] of gates computed before. *)
Fixpoint Sched {PT G} (ops : gate_ops PT G) (c : circuit G) (P : list nat) (ls : list blayer)
  : Prop :=
  match ls with
  | [] => True
  | l :: r =>
      LoopRes ops c P (bl_ni l) (bl_int l) /\
      (forall f, In f (bl_free l) ->
         In f (P ++ bl_ni l) /\ incl (children c f) (P ++ bl_ids l) /\
         exists h, In h (children c f) /\ In h (bl_ids l)) /\
      bl_ids l <> [] /\
      Sched ops c (P ++ bl_ids l) r
  end.

Definition all_ids (ls : list blayer) : list nat := concat (map bl_ids ls).

Lemma mult_depth_root {PT G} (ops : gate_ops PT G) (c : circuit G) g :
  parents c g = [] -> mult_depth ops c g 0.
Proof.
  intros H. split; [constructor; auto|]. intros k Hk. inversion Hk; subst; auto.
  rewrite H in H0. destruct H0.
Qed.

Definition eff {PT G} (ops : gate_ops PT G) (c : circuit G) (p d : nat) : nat :=
  if is_int ops c p then S d else d.

Lemma mult_depth_step {PT G} (ops : gate_ops PT G) (c : circuit G) g i :
  (forall p, In p (parents c g) -> exists d, mult_depth ops c p d /\ eff ops c p d <= i) ->
  (exists p d, In p (parents c g) /\ mult_depth ops c p d /\ eff ops c p d = i) ->
  mult_depth ops c g i.
Proof.
  intros H1 (p & d & Hp & Hd & He). split.
  - rewrite <- He. unfold eff. apply ip_step; auto. apply Hd.
  - intros k Hk. inversion Hk as [? Hn | q ? k' Hq Hk' ].
    + rewrite Hn in Hp. destruct Hp.
    + destruct (H1 _ Hq) as (d' & Hd' & He'). apply Hd' in Hk'. unfold eff in He'.
      destruct (is_int ops c q); lia.
Qed.

Lemma li_collect_spec {PT G} (ops : gate_ops PT G) (c : circuit G) Src :
  in_range c ->
  forall fuel V P st i,
  LIInv ops c Src V P st ->
  c_count c < length P + fuel ->
  (forall p, In p V -> exists d, mult_depth ops c p d /\ eff ops c p d < i) ->
  (forall p, In p (li_prev st) -> exists d, mult_depth ops c p d /\ eff ops c p d = i) ->
  (i = 0 \/ li_next st = []) ->
  exists ls,
    li_collect ops c fuel st = Some ls /\
    Sched ops c P ls /\
    NoDup (P ++ all_ids ls) /\
    (forall g, In g (P ++ all_ids ls) -> g < c_count c) /\
    (forall g, In g Src -> In g (P ++ all_ids ls)) /\
    (forall g, g < c_count c -> parents c g <> [] -> incl (parents c g) (P ++ all_ids ls) ->
       In g (P ++ all_ids ls)) /\
    (forall j g, in_layer ls j g -> mult_depth ops c g (i + j)) /\
    (forall j l l', nth_error ls j = Some l -> nth_error ls (S j) = Some l' -> bl_int l <> []) /\
    (li_prev st = [] -> li_next st = [] -> ls = []).
Proof.
  intros Hr. induction fuel as [|fuel IH]; intros V P st i LIV Hfuel HdV HdP Hi.
  { exfalso. assert (length P <= length (seq 0 (c_count c))).
    { apply NoDup_incl_length.
      - apply lii_inv, inv_nodup in LIV. apply NoDup_app_l in LIV; auto.
      - intros x Hx. apply in_seq.
        assert (In x (P ++ li_next st)) by (apply in_or_app; auto).
        apply (inv_mem _ _ _ _ _ (lii_inv _ _ _ _ _ _ LIV)) in H. lia. }
    rewrite seq_length in H. lia. }
  simpl li_collect.
  destruct (li_next_spec ops c Src V P st Hr LIV)
    as (ni & it & fr & st' & E & LIV' & En & Ep & LR & HF & Hz & Hq).
  rewrite E. cbn [obind].
  pose proof (lii_perm _ _ _ _ _ _ LIV) as HP.
  pose proof (lii_inv _ _ _ _ _ _ LIV) as I.
  pose proof (lii_inv _ _ _ _ _ _ LIV') as I'.
  rewrite En, app_nil_r in I'.
  (* depths of the gates of this layer *)
  assert (Hdone : forall p, In p P -> exists d, mult_depth ops c p d /\ eff ops c p d <= i).
  { intros p Hp. apply (Permutation_in _ HP) in Hp. apply in_app_or in Hp. destruct Hp as [Hp|Hp].
    - destruct (HdV _ Hp) as (d & A & B). exists d. split; auto. lia.
    - destruct (HdP _ Hp) as (d & A & B). exists d. split; auto. lia. }
  assert (Hnew : forall g, In g (ni ++ it) -> ~ In g P).
  { intros g Hg HgP. pose proof (inv_nodup _ _ _ _ _ I') as Hnd.
    eapply NoDup_app_disj; eauto. }
  assert (Hwit : forall g, In g (ni ++ it) -> parents c g <> [] ->
            exists p, In p (parents c g) /\ ~ In p V).
  { intros g Hg Hpar.
    destruct (missing V (parents c g)) as [|p r] eqn:Em.
    - exfalso. apply (Hnew g Hg). 
      assert (Hn : g < c_count c).
      { assert (In g (P ++ ni ++ it)) by (apply in_or_app; auto).
        apply (inv_mem _ _ _ _ _ I') in H. tauto. }
      assert (In g (P ++ li_next st)).
      { apply (inv_mem _ _ _ _ _ I). split; auto. right; split; auto.
        rewrite (inv_need _ _ _ _ _ I) by auto. rewrite Em. auto. }
      apply in_app_or in H. destruct H as [H|H]; auto.
      exfalso. assert (Hin : In g (P ++ li_next st)) by (apply in_or_app; auto).
      destruct Hi as [->|Hi]; [|rewrite Hi in H; destruct H].
      (* layer 0: V = [] so a gate without missing parents has none *)
      destruct V as [|v V]; [|destruct (HdV v) as (d & _ & B); [simpl; auto|lia]].
      apply missing_nil in Em. destruct (parents c g) as [|p ps]; auto.
      destruct (Em p); simpl; auto.
    - exists p. assert (In p (missing V (parents c g))) by (rewrite Em; simpl; auto).
      unfold missing in H. apply filter_In in H. destruct H as [H1 H2]. split; auto.
      apply negb_true_iff in H2. apply memb_not in H2. auto. }
  assert (Hroot : forall g, In g (ni ++ it) -> parents c g = [] -> i = 0).
  { intros g Hg Hpar. destruct Hi as [Hi|Hi]; auto. exfalso.
    assert (In g (P ++ ni ++ it)) by (apply in_or_app; auto).
    apply (inv_mem _ _ _ _ _ I') in H. destruct H as [Hn [H|[H _]]]; [|contradiction].
    assert (In g (P ++ li_next st)) by (apply (inv_mem _ _ _ _ _ I); auto).
    rewrite Hi, app_nil_r in H0. eapply Hnew; eauto. }
  assert (Heq : forall p, In p P -> ~ In p V -> exists d, mult_depth ops c p d /\ eff ops c p d = i).
  { intros p Hp HpV. apply (Permutation_in _ HP) in Hp. apply in_app_or in Hp.
    destruct Hp; [contradiction|]. auto. }
  assert (Hni : forall l1 l2, ni = l1 ++ l2 -> forall g, In g l1 -> mult_depth ops c g i).
  { intros l1. induction l1 as [|x l1 IHl] using rev_ind; [intros ? ? ? []|].
    intros l2 El g Hg. apply in_app_or in Hg.
    rewrite <- app_assoc in El. simpl in El.
    destruct Hg as [Hg|[<-|[]]]; [eapply IHl; eauto|].
    assert (Hx : In x (ni ++ it)) by (rewrite El; rewrite !in_app_iff; simpl; auto).
    pose proof (lr_ni _ _ _ _ _ LR _ _ _ El) as Hpar.
    destruct (parents c x) as [|p0 ps] eqn:Epar.
    - rewrite (Hroot x Hx Epar). apply mult_depth_root; auto.
    - rewrite <- Epar in Hpar. apply mult_depth_step.
      + intros p Hp. apply Hpar in Hp. apply in_app_or in Hp. destruct Hp as [Hp|Hp]; auto.
        exists i. split; [eapply IHl; eauto|]. unfold eff.
        rewrite (lr_kni _ _ _ _ _ LR); auto. rewrite El. apply in_or_app; auto.
      + destruct (Hwit x Hx) as (p & Hp & HpV); [congruence|].
        exists p. pose proof (Hpar _ Hp) as Hp'. apply in_app_or in Hp'.
        destruct Hp' as [Hp'|Hp'].
        * destruct (Heq _ Hp' HpV) as (d & A & B). eauto.
        * exists i. split; auto. split; [eapply IHl; eauto|]. unfold eff.
          rewrite (lr_kni _ _ _ _ _ LR); auto. rewrite El. apply in_or_app; auto. }
  assert (Hni' : forall g, In g ni -> mult_depth ops c g i).
  { intros g Hg. apply (Hni ni []); auto. rewrite app_nil_r; auto. }
  assert (Hit : forall g, In g it -> mult_depth ops c g i).
  { intros x Hg. assert (Hx : In x (ni ++ it)) by (apply in_or_app; auto).
    pose proof (lr_it _ _ _ _ _ LR _ Hg) as Hpar.
    destruct (parents c x) as [|p0 ps] eqn:Epar.
    - rewrite (Hroot x Hx Epar). apply mult_depth_root; auto.
    - rewrite <- Epar in Hpar. apply mult_depth_step.
      + intros p Hp. apply Hpar in Hp. apply in_app_or in Hp. destruct Hp as [Hp|Hp]; auto.
        exists i. split; auto. unfold eff. rewrite (lr_kni _ _ _ _ _ LR); auto.
      + destruct (Hwit x Hx) as (p & Hp & HpV); [congruence|].
        exists p. pose proof (Hpar _ Hp) as Hp'. apply in_app_or in Hp'.
        destruct Hp' as [Hp'|Hp'].
        * destruct (Heq _ Hp' HpV) as (d & A & B). eauto.
        * exists i. split; auto. split; auto. unfold eff. rewrite (lr_kni _ _ _ _ _ LR); auto. }
  destruct (bl_empty (BL ni it fr)) eqn:Ee.
  - assert (ni = [] /\ it = []) as [-> ->].
    { destruct ni, it; simpl in Ee; try discriminate; auto. }
    exists []. simpl in I'. rewrite !app_nil_r in I'.
    cbn [all_ids map concat]. rewrite app_nil_r.
    split; [reflexivity|]. split; [exact Logic.I|]. split; [apply (inv_nodup _ _ _ _ _ I')|].
    split; [intros g Hg; apply (inv_mem _ _ _ _ _ I') in Hg; tauto|].
    split; [intros g Hg; apply (inv_mem _ _ _ _ _ I'); split; auto;
            apply (inv_src _ _ _ _ _ I') in Hg; tauto|].
    split.
    { intros g Hg Hpar Hinc. apply (inv_mem _ _ _ _ _ I'). split; auto. right; split; auto.
      rewrite (inv_need _ _ _ _ _ I') by auto.
      replace (missing (V ++ li_prev st) (parents c g)) with (@nil nat); auto.
      symmetry. apply missing_nil. intros y Hy. apply (Permutation_in _ HP). auto. }
    split; [intros j g (l & Hl & _); destruct j; discriminate|].
    split; [intros [|j] l l' Hl; discriminate|].
    auto.
  - destruct (IH _ _ _ (S i) LIV') as (ls & C1 & C2 & C3 & C4 & C5 & C6 & C7 & C8 & C9).
    { rewrite !app_length. destruct ni, it; simpl in Ee |- *; try discriminate; lia. }
    { rewrite app_assoc. intros p Hp. apply in_app_or in Hp. destruct Hp as [Hp|Hp].
      - destruct (Hdone p) as (d & A & B); [apply (Permutation_in _ (Permutation_sym HP)); auto|].
        exists d. split; auto. lia.
      - exists i. split; auto. unfold eff. rewrite (lr_kni _ _ _ _ _ LR); auto. }
    { rewrite Ep. intros p Hp. exists i. split; auto. unfold eff.
      rewrite (lr_kit _ _ _ _ _ LR); auto. }
    { auto. }
    rewrite C1. cbn [obind]. exists (BL ni it fr :: ls).
    change (all_ids (BL ni it fr :: ls)) with ((ni ++ it) ++ all_ids ls).
    rewrite (app_assoc P (ni ++ it)).
    split; [reflexivity|]. split.
    { simpl. unfold bl_ids. simpl. split; auto. split; auto. split; auto.
      destruct ni, it; simpl in Ee |- *; try discriminate. }
    split; auto. split; auto. split; auto. split; auto. split; [|split].
    + intros [|j] g (l & Hl & Hg).
      * simpl in Hl. injection Hl as <-. unfold bl_ids in Hg; simpl in Hg.
        rewrite Nat.add_0_r. apply in_app_or in Hg. destruct Hg; auto.
      * rewrite <- Nat.add_succ_comm. apply C7. exists l. auto.
    + intros [|j] l l' Hl Hl'.
      * simpl in Hl. injection Hl as <-. simpl. intros Eit. rewrite Eit in Ep.
        rewrite (C9 Ep En) in Hl'. discriminate.
      * eapply C8; eauto.
    + intros A B. destruct (Hz A B) as [-> ->]. discriminate.
Qed.
