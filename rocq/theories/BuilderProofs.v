(** Proofs about secrets and programs over secrets. *)
From Coq Require Import List Bool Arith Lia.
Require Import Verif.Prelude Verif.PreludeProofs Verif.GateModel Verif.CircuitModel Verif.CircuitSpec Verif.CircuitProofs
  Verif.CircuitProofs2 Verif.CircuitProofs3 Verif.ExecModel Verif.BoolGmwModel Verif.BoolGmwSpec Verif.InlineSpec
  Verif.InlineProofs Verif.BristolProofs Verif.ConnModel Verif.BuilderModel Verif.BuilderSpec Verif.ReduceProofs.
Import ListNotations.

(** ** One gate *)

Lemma add_wired_gate_put {P G} (ops : gate_ops P G) (c : circuit G) g from :
  (forall f, In f from -> f < c_count c) ->
  add_wired_gate ops c g from = Some (put_gate ops c g (rev from), c_count c).
Proof.
  intros Hf. unfold add_wired_gate. destruct (add_gate ops c g) as [c1 id] eqn:E.
  assert (E1 : c1 = fst (add_gate ops c g)) by (rewrite E; auto).
  assert (E2 : id = c_count c) by (injection E; auto). subst id.
  assert (Hc : c_count c1 = S (c_count c)). { rewrite E1. unfold c_count. simpl. rewrite app_length. simpl. lia. }
  rewrite (add_wires_eq (c_count c) (rev from) c1).
  - cbn [obind]. unfold put_gate. rewrite <- E1. do 2 f_equal.
    assert (Ee : c_edges c1 = c_edges c) by (rewrite E1; reflexivity). rewrite Ee. reflexivity.
  - intros f Hin. apply in_rev in Hin. apply Hf in Hin. lia.
  - lia.
Qed.

Lemma add_gate_put {P G} (ops : gate_ops P G) (c : circuit G) g :
  add_gate ops c g = (put_gate ops c g [], c_count c).
Proof. unfold put_gate, set_edges. simpl. unfold add_gate, c_count. reflexivity. Qed.

Lemma put_gate_valued {P G V} (ops : gate_ops P G) (sem : G -> list V -> option V) c g from v :
  api ops c -> (forall f, In f from -> f < c_count c) ->
  (valued ops sem (put_gate ops c g (rev from)) v <->
   valued ops sem c v /\ (source_gate ops g = false -> sem g (map v from) = Some (v (c_count c)))).
Proof.
  intros Ha Hf. assert (Hf' : forall f, In f (rev from) -> f < c_count c) by (intros f H; apply in_rev in H; auto).
  destruct (put_gate_spec ops c g (rev from) Ha Hf') as (_ & G' & P'). rewrite rev_involutive in P'.
  split.
  - intros HV. split.
    + intros h x Hx Hs. assert (Hh : h < c_count c) by (apply nth_error_Some; congruence).
      specialize (HV h x). rewrite P' in HV. destruct (Nat.eqb_spec h (c_count c)); [lia|]. apply HV; auto.
      rewrite G', nth_error_app1; auto.
    + intros Hs. specialize (HV (c_count c) g). rewrite P', Nat.eqb_refl in HV. apply HV; auto.
      rewrite G'. unfold c_count. rewrite nth_error_app2, Nat.sub_diag by auto. auto.
  - intros [HV Hn] h x Hx Hs. rewrite G' in Hx. rewrite P'. destruct (Nat.eqb_spec h (c_count c)) as [->|Hne].
    + unfold c_count in Hx. rewrite nth_error_app2, Nat.sub_diag in Hx by auto. injection Hx as <-. auto.
    + assert (Hh : h < c_count c).
      { assert (h < length (c_gates c ++ [g])) by (apply nth_error_Some; congruence).
        rewrite app_length in H. simpl in H. unfold c_count in *. lia. }
      rewrite nth_error_app1 in Hx by auto. apply HV; auto.
Qed.

Lemma valued_ext {P G V} (ops : gate_ops P G) (sem : G -> list V -> option V) c (v w : nat -> V) :
  api ops c -> (forall g, g < c_count c -> v g = w g) -> valued ops sem c v -> valued ops sem c w.
Proof.
  intros Ha He HV g x Hx Hs. assert (Hg : g < c_count c) by (apply nth_error_Some; congruence).
  rewrite <- (He g Hg). rewrite <- (HV g x Hx Hs). f_equal. apply map_ext_in. intros p Hp. symmetry. apply He.
  assert (Hr := aw_range _ _ (api_api_wf ops c Ha)).
  unfold parents in Hp. apply in_map_iff in Hp. destruct Hp as ([a b] & <- & Hp). apply filter_In in Hp.
  destruct Hp as [Hp _]. specialize (Hr _ _ Hp). simpl. tauto.
Qed.

(** ** Builders *)

Lemma arity_sem g vals : plain_gate g = true -> arity g = Some (length vals) -> exists r, bool_gate_sem g vals = Some r.
Proof.
  intros Hp Ha. destruct g as [[]| | |]; try discriminate.
  - destruct vals; try discriminate. simpl. eauto.
  - destruct vals as [|x [|y [|? ?]]]; try discriminate. simpl. eauto.
  - destruct vals as [|x [|y [|? ?]]]; try discriminate. simpl. eauto.
  - destruct vals as [|x [|? ?]]; try discriminate. simpl. eauto.
Qed.

Lemma put_built c g from : built c -> (forall f, In f from -> f < c_count c) -> arity g = Some (length from) ->
  built (put_gate bool_ops c g (rev from)).
Proof.
  intros [A O R S] Hf Ha. assert (Hf' : forall f, In f (rev from) -> f < c_count c) by (intros f H; apply in_rev in H; auto).
  destruct (put_gate_spec bool_ops c g (rev from) A Hf') as (Ha' & G' & P'). rewrite rev_involutive in P'.
  constructor; auto.
  - intros p x. rewrite P'. destruct (Nat.eqb_spec x (c_count c)) as [->|]; auto.
  - intros h x Hx. rewrite G' in Hx. rewrite P'. destruct (Nat.eqb_spec h (c_count c)) as [->|Hne].
    + unfold c_count in Hx. rewrite nth_error_app2, Nat.sub_diag in Hx by auto. injection Hx as <-. auto.
    + assert (Hh : h < c_count c).
      { assert (h < length (c_gates c ++ [g])) by (apply nth_error_Some; congruence).
        rewrite app_length in H. simpl in H. unfold c_count in *. lia. }
      rewrite nth_error_app1 in Hx by auto. auto.
Qed.

Lemma Forall_upd {A} (Q : A -> Prop) l : Forall Q l -> forall k x, Q x -> Forall Q (upd k x l).
Proof. induction 1; intros [|k] y Hy; simpl; constructor; auto. Qed.

Lemma grows_c_refl c : grows_c c c.
Proof. repeat split; auto. exists []. rewrite app_nil_r. auto. Qed.

Lemma grows_c_trans a b c : grows_c a b -> grows_c b c -> grows_c a c.
Proof.
  intros ((g1 & E1 & L1) & P1 & A1) ((g2 & E2 & L2) & P2 & A2). split; [|split].
  - exists (g1 ++ g2). rewrite E2, E1, app_assoc, forallb_app, L1, L2. auto.
  - intros g Hg. rewrite P2, P1; auto. unfold c_count in *. rewrite E1, app_length. lia.
  - intuition congruence.
Qed.

Lemma grows_c_count a b : grows_c a b -> c_count a <= c_count b.
Proof. intros ((g & E & _) & _). unfold c_count. rewrite E, app_length. lia. Qed.

Lemma Forall2_refl_ {A} (R : A -> A -> Prop) l : (forall x, R x x) -> Forall2 R l l.
Proof. intros H. induction l; auto. Qed.

Lemma Forall2_trans_ {A} (R : A -> A -> Prop) l1 l2 l3 :
  (forall x y z, R x y -> R y z -> R x z) -> Forall2 R l1 l2 -> Forall2 R l2 l3 -> Forall2 R l1 l3.
Proof.
  intros HT H. revert l3. induction H; intros l3 H3; inversion H3; subst; constructor; eauto.
Qed.

Lemma Forall2_nth {A B} (R : A -> B -> Prop) l1 l2 i a : Forall2 R l1 l2 -> nth_error l1 i = Some a ->
  exists b, nth_error l2 i = Some b /\ R a b.
Proof.
  intros H. revert i. induction H; intros [|i] E; simpl in *; try discriminate; eauto.
  injection E as <-. eauto.
Qed.

Lemma grows_refl b : grows b b.
Proof.
  constructor; auto.
  - apply Forall2_refl_. apply grows_c_refl.
  - intros v Hv. exists v. auto.
Qed.

Lemma grows_trans a b c : grows a b -> grows b c -> grows a c.
Proof.
  intros [I1 N1 C1 B1 R1 E1] [I2 N2 C2 B2 R2 E2]. constructor; try congruence; auto.
  - eapply Forall2_trans_; eauto. apply grows_c_trans.
  - intros v Hv. destruct (E1 v Hv) as (v1 & V1 & A1). destruct (E2 v1 V1) as (v2 & V2 & A2). exists v2. split; auto.
    intros k x g Hx Hg. destruct (Forall2_nth _ _ _ _ _ C1 Hx) as (y & Hy & Hxy).
    rewrite (A2 k y g Hy), (A1 k x g Hx Hg); auto. pose proof (grows_c_count _ _ Hxy). lia.
Qed.

Lemma grows_ok a b s : grows a b -> sec_ok a s -> sec_ok b s.
Proof.
  intros H (k & c & E & Hs). unfold b_cell in E. destruct (nth_error (b_ids a) (fst s)) as [k'|] eqn:E1; [|discriminate].
  cbn [obind] in E. destruct (nth_error (b_cells a) k') as [c'|] eqn:E2; [|discriminate]. injection E as -> ->.
  destruct (Forall2_nth _ _ _ _ _ (gr_cells _ _ H) E2) as (c2 & E3 & G). exists k, c2. unfold b_cell.
  rewrite (gr_ids _ _ H), E1. cbn [obind]. rewrite E3. split; auto. pose proof (grows_c_count _ _ G). lia.
Qed.

Lemma grows_val a b v s : grows a b -> sec_val b v s = sec_val a v s.
Proof. intros H. unfold sec_val. rewrite (gr_ids _ _ H). auto. Qed.

Lemma b_cell_inv b id k c : b_cell b id = Some (k, c) -> nth_error (b_ids b) id = Some k /\ nth_error (b_cells b) k = Some c.
Proof.
  unfold b_cell. destruct (nth_error (b_ids b) id) as [k'|]; [|discriminate]. cbn [obind].
  destruct (nth_error (b_cells b) k') as [c'|] eqn:E; [|discriminate]. intros H. injection H as -> ->. auto.
Qed.

Lemma b_wf_cell b k c : b_wf b -> nth_error (b_cells b) k = Some c -> api bool_ops c.
Proof. intros [H _] E. rewrite Forall_forall in H. apply H. eapply nth_error_In; eauto. Qed.

Lemma b_wired_spec b id k c g from : b_wf b -> b_cell b id = Some (k, c) ->
  (forall f, In f from -> f < c_count c) -> plain_gate g = true -> arity g = Some (length from) ->
  exists b', b_wired b id g from = Some (b', (id, c_count c)) /\ grows b b' /\ b_wf b' /\
    sec_ok b' (id, c_count c) /\
    forall v, bvalued b' v -> bool_gate_sem g (map (v k) from) = Some (v k (c_count c)).
Proof.
  intros Hw Hc Hf Hp Ht. destruct (b_cell_inv _ _ _ _ Hc) as [Ei Ek]. pose proof (b_wf_cell _ _ _ Hw Ek) as Ha.
  assert (Hf' : forall f, In f (rev from) -> f < c_count c) by (intros f H; apply in_rev in H; auto).
  destruct (put_gate_spec bool_ops c g (rev from) Ha Hf') as (Ha' & G' & P'). rewrite rev_involutive in P'.
  set (c' := put_gate bool_ops c g (rev from)) in *. exists (b_set b k c').
  assert (Hk : k < length (b_cells b)) by (apply nth_error_Some; congruence).
  assert (Hs : source_gate bool_ops g = false).
  { destruct g as [[]| | |]; try discriminate; reflexivity. }
  assert (HV : forall v, bvalued (b_set b k c') v <-> bvalued b v /\ bool_gate_sem g (map (v k) from) = Some (v k (c_count c))).
  { intros v. unfold bvalued, b_set. cbn [b_cells]. split.
    - intros H. specialize (H k c') as Hc'. rewrite upd_nth_error_same in Hc' by auto. specialize (Hc' eq_refl).
      apply put_gate_valued in Hc'; auto. destruct Hc' as [Hc1 Hc2]. split; [|auto].
      intros k0 c0 E0. destruct (Nat.eq_dec k0 k) as [->|Hne]; [rewrite Ek in E0; injection E0 as <-; exact Hc1|]. apply H. rewrite upd_nth_error_other; auto.
    - intros [H Hn] k0 c0 E0. destruct (Nat.eq_dec k0 k) as [->|Hne].
      + rewrite upd_nth_error_same in E0 by auto. injection E0 as <-. apply put_gate_valued; [auto|auto|]. split; auto.
      + rewrite upd_nth_error_other in E0 by auto. auto. }
  split; [|split; [|split; [|split]]].
  - unfold b_wired. rewrite Hc. cbn [obind]. rewrite add_wired_gate_put by auto. auto.
  - constructor; auto.
    + unfold b_set. cbn [b_cells].
      assert (Hg : grows_c c c').
      { split; [exists [g]; simpl; rewrite Hp; split; [exact G'|auto]|]. split; [intros x Hx; rewrite P'; destruct (Nat.eqb_spec x (c_count c)); auto; lia|].
        unfold c', put_gate, set_edges. destruct g as [[]| | |]; try discriminate; simpl; auto 10. }
      clear - Ek Hg. revert k Ek. induction (b_cells b) as [|x l IH]; intros [|k] E; try discriminate; simpl in *.
      * injection E as ->. constructor; auto. apply Forall2_refl_. apply grows_c_refl.
      * constructor; [apply grows_c_refl|auto].
    + unfold b_set. cbn [b_cells]. intros HB. apply Forall_upd; auto. apply put_built; auto.
      rewrite Forall_forall in HB. apply HB. eapply nth_error_In; eauto.
    + intros v Hv. apply HV in Hv. tauto.
    + intros v Hv. destruct (arity_sem g (map (v k) from) Hp) as (r & Er); [rewrite map_length; auto|].
      exists (fun k0 g0 => if (k0 =? k) && (g0 =? c_count c) then r else v k0 g0).
      assert (Hag : forall k0 c0 g0, nth_error (b_cells b) k0 = Some c0 -> g0 < c_count c0 ->
        (if (k0 =? k) && (g0 =? c_count c) then r else v k0 g0) = v k0 g0).
      { intros k0 c0 g0 E0 Hg0. destruct (Nat.eqb_spec k0 k) as [->|]; auto. destruct (Nat.eqb_spec g0 (c_count c)); auto.
        rewrite Ek in E0. injection E0 as <-. lia. }
      split; [|exact Hag]. apply HV. split.
      * intros k0 c0 E0. apply (valued_ext _ _ _ (v k0)); [eapply b_wf_cell; eauto| |auto].
        intros g0 Hg0. symmetry. eapply Hag; eauto.
      * rewrite !Nat.eqb_refl. cbn [andb]. rewrite <- Er. f_equal. apply map_ext_in. intros f Hin.
        pose proof (Hag k c f Ek (Hf f Hin)) as Q. rewrite Nat.eqb_refl in Q. exact Q.
  - split.
    + unfold b_set. cbn [b_cells]. destruct Hw as [Hw _]. clear - Hw Ha'. revert k.
      induction Hw; intros [|k]; simpl; constructor; auto.
    + unfold b_set. cbn [b_cells b_ids]. rewrite upd_length. apply Hw.
  - exists k, c'. unfold b_cell, b_set. cbn [b_cells b_ids fst snd]. rewrite Ei. cbn [obind].
    rewrite upd_nth_error_same by auto. split; auto. unfold c_count at 2. rewrite G', app_length. unfold c_count. simpl. lia.
  - intros v Hv. apply HV in Hv. tauto.
Qed.

Lemma b_add_wired b id g : b_add b id g = b_wired b id g [].
Proof.
  unfold b_add, b_wired. destruct (b_cell b id) as [[k c]|]; auto.
Qed.

(** Operators on existing secrets. *)
Lemma wired_secrets b g s ts : b_wf b -> sec_ok b s -> Forall (sec_ok b) ts -> Forall (fun t => fst t = fst s) ts ->
  plain_gate g = true -> arity g = Some (S (length ts)) ->
  exists b' r, b_wired b (fst s) g (snd s :: map snd ts) = Some (b', r) /\ grows b b' /\ b_wf b' /\ sec_ok b' r /\
    fst r = fst s /\
    forall v, bvalued b' v -> bool_gate_sem g (sec_val b v s :: map (sec_val b v) ts) = Some (sec_val b' v r).
Proof.
  intros Hw (k & c & Hc & Hs) Ho Hk Hp Ht. destruct (b_cell_inv _ _ _ _ Hc) as [Ei Ek].
  destruct (b_wired_spec b (fst s) k c g (snd s :: map snd ts) Hw Hc) as (b' & E & G & W & O & HV); auto.
  - intros f [<-|Hf]; auto. apply in_map_iff in Hf. destruct Hf as (t & <- & Hin).
    rewrite Forall_forall in Ho, Hk. destruct (Ho t Hin) as (k' & c' & Hc' & Ht'). rewrite (Hk t Hin), Hc in Hc'.
    injection Hc' as <- <-. auto.
  - simpl. rewrite map_length. auto.
  - exists b', (fst s, c_count c). split; auto. split; auto. split; auto. split; auto. split; auto.
    intros v Hv. specialize (HV v Hv). unfold sec_val. rewrite (gr_ids _ _ G). cbn [fst snd]. rewrite Ei.
    cbn [map] in HV. rewrite <- HV. f_equal. f_equal. rewrite map_map. apply map_ext_in. intros t Hin.
    rewrite Forall_forall in Hk. rewrite (Hk t Hin), Ei. auto.
Qed.

Lemma const_spec b id v : b_wf b ->
  match nth_error (b_ids b) id with
  | Some _ =>
    exists b' r, sec_const b id v = Some (b', r) /\ grows b b' /\ b_wf b' /\ sec_ok b' r /\ fst r = id /\
      forall w, bvalued b' w -> sec_val b' w r = v
  | None => sec_const b id v = None
  end.
Proof.
  intros Hw. unfold sec_const. rewrite b_add_wired. destruct (nth_error (b_ids b) id) as [k|] eqn:E.
  - assert (Hk : k < length (b_cells b)).
    { destruct Hw as [_ Hw]. rewrite Forall_forall in Hw. apply Hw. eapply nth_error_In; eauto. }
    destruct (nth_error (b_cells b) k) as [c|] eqn:Ec; [|apply nth_error_None in Ec; lia].
    assert (Hc : b_cell b id = Some (k, c)) by (unfold b_cell; rewrite E; cbn [obind]; rewrite Ec; auto).
    destruct (b_wired_spec b id k c (BBase (GConstant v)) [] Hw Hc) as (b' & E' & G & W & O & HV); auto.
    + intros f [].
    + exists b', (id, c_count c). repeat (split; auto). intros w Hv. specialize (HV w Hv). injection HV as HV.
      unfold sec_val. rewrite (gr_ids _ _ G). cbn [fst snd]. rewrite E. auto.
  - unfold b_wired, b_cell. rewrite E. auto.
Qed.

Lemma bin_spec g f b s t : (forall x y, bool_gate_sem g [x; y] = Some (f x y)) -> plain_gate g = true -> arity g = Some 2 ->
  b_wf b -> sec_ok b s -> sec_ok b t ->
  if fst s =? fst t then
    exists b' r, sec_bin g b s t = Some (b', r) /\ grows b b' /\ b_wf b' /\ sec_ok b' r /\ fst r = fst s /\
      forall v, bvalued b' v -> sec_val b' v r = f (sec_val b v s) (sec_val b v t)
  else sec_bin g b s t = None.
Proof.
  intros Hg Hp Har Hw Hs Ht. unfold sec_bin. destruct (Nat.eqb_spec (fst s) (fst t)) as [E|E]; auto. cbn [oassert obind].
  destruct (wired_secrets b g s [t] Hw Hs) as (b' & r & E' & G & W & O & Ef & HV); auto.
  - exists b', r. cbn [map] in E'. repeat (split; auto). intros v Hv. specialize (HV v Hv). cbn [map] in HV.
    rewrite Hg in HV. congruence.
Qed.

Lemma bin_b_spec g f b s x : (forall x y, bool_gate_sem g [x; y] = Some (f x y)) -> plain_gate g = true -> arity g = Some 2 ->
  b_wf b -> sec_ok b s ->
  exists b' r, sec_bin_b g b s x = Some (b', r) /\ grows b b' /\ b_wf b' /\ sec_ok b' r /\ fst r = fst s /\
      forall v, bvalued b' v -> sec_val b' v r = f (sec_val b v s) x.
Proof.
  intros Hg Hp Har Hw Hs. pose proof (const_spec b (fst s) x Hw) as HC. unfold sec_const in HC.
  destruct Hs as (k & c & Hc & Hs'). destruct (b_cell_inv _ _ _ _ Hc) as [Ei _]. rewrite Ei in HC.
  assert (Hs : sec_ok b s) by (exists k, c; auto).
  destruct HC as (b1 & t & E1 & G1 & W1 & O1 & F1 & V1). unfold sec_bin_b. rewrite E1. cbn [obind].
  destruct (wired_secrets b1 g s [t] W1 (grows_ok _ _ _ G1 Hs)) as (b' & r & E' & G & W & O & Ef & HV); auto.
  - exists b', r. cbn [map] in E'. split; auto. split; [eapply grows_trans; eauto|]. repeat (split; auto).
    intros v Hv. specialize (HV v Hv). cbn [map] in HV. rewrite Hg in HV. injection HV as HV.
    rewrite <- HV. rewrite (grows_val b b1) by auto. f_equal. apply V1. apply (gr_restrict _ _ G). auto.
Qed.

Lemma not_spec b s : b_wf b -> sec_ok b s ->
  exists b' r, sec_not b s = Some (b', r) /\ grows b b' /\ b_wf b' /\ sec_ok b' r /\ fst r = fst s /\
      forall v, bvalued b' v -> sec_val b' v r = negb (sec_val b v s).
Proof.
  intros Hw Hs. destruct (wired_secrets b BInv s [] Hw Hs) as (b' & r & E' & G & W & O & Ef & HV); auto.
  - exists b', r. repeat (split; auto). intros v Hv. specialize (HV v Hv). cbn in HV. congruence.
Qed.

Lemma or_core b s t (Hw : b_wf b) (Hs : sec_ok b s) (Ht : sec_ok b t) : fst s = fst t ->
  exists b' r, (x1 <- sec_bin BXor b s t ;; x2 <- sec_bin BAnd (fst x1) s t ;; sec_bin BXor (fst x2) (snd x1) (snd x2)) = Some (b', r) /\
    grows b b' /\ b_wf b' /\ sec_ok b' r /\ fst r = fst s /\
    forall v, bvalued b' v -> sec_val b' v r = orb (sec_val b v s) (sec_val b v t).
Proof.
  intros E. pose proof (bin_spec BXor xorb b s t (fun x y => eq_refl) eq_refl eq_refl Hw Hs Ht) as H1.
  rewrite E, Nat.eqb_refl in H1. destruct H1 as (b1 & x & E1 & G1 & W1 & O1 & F1 & V1).
  pose proof (bin_spec BAnd andb b1 s t (fun x y => eq_refl) eq_refl eq_refl W1 (grows_ok _ _ _ G1 Hs) (grows_ok _ _ _ G1 Ht)) as H2.
  rewrite E, Nat.eqb_refl in H2. destruct H2 as (b2 & a & E2 & G2 & W2 & O2 & F2 & V2).
  pose proof (bin_spec BXor xorb b2 x a (fun x y => eq_refl) eq_refl eq_refl W2 (grows_ok _ _ _ G2 O1) O2) as H3.
  rewrite F1, F2, Nat.eqb_refl in H3. destruct H3 as (b3 & r & E3 & G3 & W3 & O3 & F3 & V3).
  exists b3, r. rewrite E1. cbn [obind fst snd]. rewrite E2. cbn [obind fst snd]. rewrite E3.
  split; auto. split; [eapply grows_trans; [exact G1|eapply grows_trans; eauto]|]. split; auto. split; auto. split; [congruence|].
  intros v Hv. rewrite V3 by auto. pose proof (gr_restrict _ _ G3 v Hv) as Hv2. rewrite (V2 v Hv2).
  pose proof (gr_restrict _ _ G2 v Hv2) as Hv1. rewrite (grows_val b1 b2) by auto. rewrite (V1 v Hv1).
  rewrite !(grows_val b b1) by auto. destruct (sec_val b v s), (sec_val b v t); auto.
Qed.

Lemma or_spec b s t : b_wf b -> sec_ok b s -> sec_ok b t ->
  if fst s =? fst t then
    exists b' r, sec_or b s t = Some (b', r) /\ grows b b' /\ b_wf b' /\ sec_ok b' r /\ fst r = fst s /\
      forall v, bvalued b' v -> sec_val b' v r = orb (sec_val b v s) (sec_val b v t)
  else sec_or b s t = None.
Proof.
  intros Hw Hs Ht. unfold sec_or. destruct (Nat.eqb_spec (fst s) (fst t)) as [E|E]; auto. cbn [oassert obind].
  destruct (or_core b s t Hw Hs Ht E) as (b' & r & E' & R). exists b', r. split; auto. rewrite <- E'.
  destruct (sec_bin BXor b s t) as [[b1 x]|]; auto. cbn [obind fst snd].
  destruct (sec_bin BAnd b1 s t) as [[b2 y]|]; auto.
Qed.

Lemma or_b_spec b s x : b_wf b -> sec_ok b s ->
  exists b' r, sec_or_b b s x = Some (b', r) /\ grows b b' /\ b_wf b' /\ sec_ok b' r /\ fst r = fst s /\
      forall v, bvalued b' v -> sec_val b' v r = orb (sec_val b v s) x.
Proof.
  intros Hw Hs. pose proof (const_spec b (fst s) x Hw) as HC.
  destruct Hs as (k & c & Hc & Hs'). destruct (b_cell_inv _ _ _ _ Hc) as [Ei _]. rewrite Ei in HC.
  assert (Hs : sec_ok b s) by (exists k, c; auto).
  destruct HC as (b1 & t & E1 & G1 & W1 & O1 & F1 & V1). unfold sec_or_b. rewrite E1. cbn [obind].
  destruct (or_core b1 s t W1 (grows_ok _ _ _ G1 Hs) O1 (eq_sym F1)) as (b' & r & E' & G & W & O & F & HV).
  exists b', r. split.
  - rewrite <- E'. destruct (sec_bin BXor b1 s t) as [[b2 y]|]; auto. cbn [obind fst snd].
    destruct (sec_bin BAnd b2 s t) as [[b3 z]|]; auto.
  - split; [eapply grows_trans; eauto|]. repeat (split; auto). intros v Hv. rewrite HV by auto.
    rewrite (V1 v (gr_restrict _ _ G v Hv)), (grows_val b b1) by auto. auto.
Qed.

Lemma or_assign_spec b s t : b_wf b -> sec_ok b s -> sec_ok b t ->
  if fst s =? fst t then
    exists b' r, sec_or_assign b s t = Some (b', r) /\ grows b b' /\ b_wf b' /\ sec_ok b' r /\ fst r = fst s /\
      forall v, bvalued b' v -> sec_val b' v r = orb (sec_val b v s) (sec_val b v t)
  else sec_or_assign b s t = None.
Proof.
  intros Hw Hs Ht. unfold sec_or_assign.
  pose proof (bin_spec BAnd andb b s t (fun x y => eq_refl) eq_refl eq_refl Hw Hs Ht) as H1.
  destruct (Nat.eqb_spec (fst s) (fst t)) as [E|E]; [|rewrite H1; auto].
  destruct H1 as (b1 & a & E1 & G1 & W1 & O1 & F1 & V1). rewrite E1. cbn [obind].
  pose proof (bin_spec BXor xorb b1 t a (fun x y => eq_refl) eq_refl eq_refl W1 (grows_ok _ _ _ G1 Ht) O1) as H2.
  rewrite F1, <- E, Nat.eqb_refl in H2. destruct H2 as (b2 & x & E2 & G2 & W2 & O2 & F2 & V2). rewrite E2. cbn [obind].
  assert (G12 : grows b b2) by (eapply grows_trans; eauto).
  pose proof (bin_spec BXor xorb b2 s x (fun x y => eq_refl) eq_refl eq_refl W2 (grows_ok _ _ _ G12 Hs) O2) as H3.
  rewrite F2, E, Nat.eqb_refl in H3. destruct H3 as (b3 & r & E3 & G3 & W3 & O3 & F3 & V3).
  exists b3, r. rewrite E3. split; auto. split; [eapply grows_trans; eauto|]. split; auto. split; auto. split; [congruence|].
  intros v Hv. rewrite V3 by auto. pose proof (gr_restrict _ _ G3 v Hv) as Hv2. rewrite (V2 v Hv2).
  pose proof (gr_restrict _ _ G2 v Hv2) as Hv1. rewrite (V1 v Hv1).
  rewrite (grows_val b b2), (grows_val b b1) by auto. destruct (sec_val b v s), (sec_val b v t); auto.
Qed.

Lemma or_assign_b_spec b s x : b_wf b -> sec_ok b s ->
  exists b' r, sec_or_assign_b b s x = Some (b', r) /\ grows b b' /\ b_wf b' /\ sec_ok b' r /\ fst r = fst s /\
      forall v, bvalued b' v -> sec_val b' v r = orb (sec_val b v s) x.
Proof.
  intros Hw Hs. pose proof (const_spec b (fst s) x Hw) as HC.
  destruct Hs as (k & c & Hc & Hs'). destruct (b_cell_inv _ _ _ _ Hc) as [Ei _]. rewrite Ei in HC.
  assert (Hs : sec_ok b s) by (exists k, c; auto).
  destruct HC as (b1 & t & E1 & G1 & W1 & O1 & F1 & V1). unfold sec_or_assign_b. rewrite E1. cbn [obind].
  pose proof (or_assign_spec b1 s t W1 (grows_ok _ _ _ G1 Hs) O1) as H. rewrite F1, Nat.eqb_refl in H.
  destruct H as (b' & r & E' & G & W & O & F & HV). exists b', r. split; auto.
  split; [eapply grows_trans; eauto|]. repeat (split; auto). intros v Hv. rewrite HV by auto.
  rewrite (V1 v (gr_restrict _ _ G v Hv)), (grows_val b b1) by auto. auto.
Qed.

Lemma do_bin_spec o b s t : b_wf b -> sec_ok b s -> sec_ok b t ->
  if fst s =? fst t then
    exists b' r, do_bin o b s t = Some (b', r) /\ grows b b' /\ b_wf b' /\ sec_ok b' r /\ fst r = fst s /\
      forall v, bvalued b' v -> sec_val b' v r = bop_fun o (sec_val b v s) (sec_val b v t)
  else do_bin o b s t = None.
Proof.
  intros Hw Hs Ht. destruct o; cbn [do_bin bop_fun].
  - apply (bin_spec BXor xorb); auto.
  - apply (bin_spec BAnd andb); auto.
  - apply or_spec; auto.
  - apply or_assign_spec; auto.
Qed.

Lemma do_bin_b_spec o b s x : b_wf b -> sec_ok b s ->
  exists b' r, do_bin_b o b s x = Some (b', r) /\ grows b b' /\ b_wf b' /\ sec_ok b' r /\ fst r = fst s /\
      forall v, bvalued b' v -> sec_val b' v r = bop_fun o (sec_val b v s) x.
Proof.
  intros Hw Hs. destruct o; cbn [do_bin_b bop_fun].
  - apply (bin_b_spec BXor xorb); auto.
  - apply (bin_b_spec BAnd andb); auto.
  - apply or_b_spec; auto.
  - apply or_assign_b_spec; auto.
Qed.

Lemma bop_assoc o x y z : bop_fun o (bop_fun o x y) z = bop_fun o x (bop_fun o y z).
Proof. destruct o, x, y, z; auto. Qed.

(** ** Programs *)

Lemma nth_error_map_ {A B} (f : A -> B) l i : nth_error (map f l) i = option_map f (nth_error l i).
Proof. revert i. induction l; intros [|i]; simpl; auto. Qed.

Lemma omap_nth_map {A B} (f : A -> B) env is :
  omap (nth_error (map f env)) is = option_map (map f) (omap (nth_error env) is).
Proof.
  induction is as [|i is IH]; auto. cbn [omap]. rewrite nth_error_map_, IH.
  destruct (nth_error env i); auto. cbn [option_map obind]. destruct (omap (nth_error env) is); auto.
Qed.

Lemma nth_circ (env : list secret) i : nth_error (map fst env) i = option_map (fun s : secret => fst s) (@nth_error secret env i).
Proof. revert i. induction env; intros [|i]; simpl; auto. Qed.

Lemma omap_circ (env : list secret) is :
  omap (nth_error (map fst env)) is = option_map (map (fun s : secret => fst s)) (omap (@nth_error secret env) is).
Proof. exact (omap_nth_map (fun s : secret => fst s) env is). Qed.

Definition step_ok (b : builder) (env : list secret) (o : sop) : Prop :=
  match op_circ (length (b_ids b)) (map fst env) o with
  | Some cs =>
      exists b' env', run_op (b, env) o = Some (b', env') /\ map fst env' = cs /\ grows b b' /\ b_wf b' /\
        Forall (sec_ok b') env' /\
        forall v, bvalued b' v -> op_sem (map (sec_val b v) env) o = Some (map (sec_val b' v) env')
  | None => run_op (b, env) o = None
  end.

Lemma push_ok b b' env r : grows b b' -> Forall (sec_ok b) env -> sec_ok b' r -> Forall (sec_ok b') (env ++ [r]).
Proof.
  intros G H1 H2. apply Forall_app. split; [|constructor; auto]. eapply Forall_impl; [|exact H1].
  intros s. apply grows_ok. auto.
Qed.

Lemma push_circ (env : list secret) r n : fst r = n -> map fst (env ++ [r]) = map fst env ++ [n].
Proof. intros <-. apply map_app. Qed.

Lemma push_val b b' v env r x : grows b b' -> sec_val b' v r = x ->
  map (sec_val b v) env ++ [x] = map (sec_val b' v) (env ++ [r]).
Proof.
  intros G H. rewrite map_app. cbn [map]. rewrite H. f_equal. apply map_ext. intros s. symmetry. apply grows_val. auto.
Qed.

Lemma run_op_spec b env o : b_wf b -> Forall (sec_ok b) env -> step_ok b env o.
Proof.
  intros Hw He. pose proof He as He'. rewrite Forall_forall in He'. unfold step_ok, op_circ, op_sem.
  destruct o as [o i j|o i x|i|id x|o is]; cbn [run_op].
  - rewrite !nth_circ. destruct (nth_error env i) as [s|] eqn:Ei; [|reflexivity]. cbn [option_map obind].
    destruct (nth_error env j) as [t|] eqn:Ej; [|reflexivity]. cbn [option_map obind].
    pose proof (do_bin_spec o b s t Hw (He' s (nth_error_In _ _ Ei)) (He' t (nth_error_In _ _ Ej))) as H.
    destruct (fst s =? fst t); cbn [obind]; [|rewrite H; auto].
    destruct H as (b' & r & E & G & W & O & F & V). exists b', (env ++ [r]). rewrite E. cbn [obind].
    split; auto. split; [apply push_circ; exact F|]. split; auto. split; auto. split; [eapply push_ok; eauto|].
    intros v Hv. rewrite !nth_error_map_, Ei, Ej. cbn [option_map obind]. f_equal. apply push_val; auto.
  - rewrite nth_circ. destruct (nth_error env i) as [s|] eqn:Ei; [|reflexivity]. cbn [option_map obind].
    destruct (do_bin_b_spec o b s x Hw (He' s (nth_error_In _ _ Ei))) as (b' & r & E & G & W & O & F & V).
    exists b', (env ++ [r]). rewrite E. cbn [obind].
    split; auto. split; [apply push_circ; exact F|]. split; auto. split; auto. split; [eapply push_ok; eauto|].
    intros v Hv. rewrite !nth_error_map_, Ei. cbn [option_map obind]. f_equal. apply push_val; auto.
  - rewrite nth_circ. destruct (nth_error env i) as [s|] eqn:Ei; [|reflexivity]. cbn [option_map obind].
    destruct (not_spec b s Hw (He' s (nth_error_In _ _ Ei))) as (b' & r & E & G & W & O & F & V).
    exists b', (env ++ [r]). rewrite E. cbn [obind].
    split; auto. split; [apply push_circ; exact F|]. split; auto. split; auto. split; [eapply push_ok; eauto|].
    intros v Hv. rewrite !nth_error_map_, Ei. cbn [option_map obind]. f_equal. apply push_val; auto.
  - pose proof (const_spec b id x Hw) as H. destruct (nth_error (b_ids b) id) as [k|] eqn:Ek.
    + assert (Hl : id < length (b_ids b)) by (apply nth_error_Some; congruence). apply Nat.ltb_lt in Hl. rewrite Hl.
      cbn [obind]. destruct H as (b' & r & E & G & W & O & F & V). exists b', (env ++ [r]). rewrite E. cbn [obind].
      split; auto. split; [apply push_circ; exact F|]. split; auto. split; auto. split; [eapply push_ok; eauto|].
      intros v Hv. f_equal. apply push_val; auto.
    + apply nth_error_None in Ek. apply Nat.ltb_ge in Ek. rewrite Ek. cbn [obind]. rewrite H. auto.
  - rewrite omap_circ. destruct (omap (nth_error env) is) as [ss|] eqn:Es; [|reflexivity]. cbn [option_map obind].
    assert (Hss : Forall (sec_ok b) ss).
    { clear - He' Es. revert ss Es. induction is as [|i is IH]; intros ss Es; cbn [omap] in Es.
      - injection Es as <-. constructor.
      - destruct (nth_error env i) as [s|] eqn:Ei; [|discriminate]. cbn [obind] in Es.
        destruct (omap (nth_error env) is) as [rs|]; [|discriminate]. injection Es as <-. constructor; auto.
        apply He'. eapply nth_error_In; eauto. }
    set (ssec := fun b s => sec_ok b s).
    assert (Hf : forall b0 x y, b_wf b0 -> sec_ok b0 x -> sec_ok b0 y ->
      if fst x =? fst y then exists b' z, do_bin o b0 x y = Some (b', z) /\ (grows b0 b' /\ b_wf b') /\ sec_ok b' z /\ fst z = fst x /\
        forall v, (bvalued b' v /\ b_ids b' = b_ids b) -> sec_val b v z = bop_fun o (sec_val b v x) (sec_val b v y)
      else do_bin o b0 x y = None).
    { intros b0 x y W0 O0 O1. pose proof (do_bin_spec o b0 x y W0 O0 O1) as H. destruct (fst x =? fst y); auto.
      destruct H as (b' & z & E & G & W & O & F & V). exists b', z. split; auto. split; auto. split; auto. split; auto.
      intros v [Hv Hid]. specialize (V v Hv). unfold sec_val in *. rewrite (gr_ids _ _ G) in *. rewrite Hid in V. auto. }
    destruct ss as [|s ss].
    + cbn [map obind]. unfold low_depth_reduce. cbn. auto.
    + cbn [map]. match goal with |- context[forallb ?p ?q] => destruct (forallb p q) eqn:Ea end; cbn [obind].
      * assert (Hk : all_key secret fst (fst s) (s :: ss)).
        { constructor; auto. rewrite forallb_forall in Ea. apply Forall_forall. intros x Hx. symmetry. apply Nat.eqb_eq.
          apply Ea. apply in_map. auto. }
        destruct (reduce_stateful builder secret (nat -> nat -> bool) bool (do_bin o) fst b_wf
                   (fun a b' => grows a b' /\ b_wf b') sec_ok (fun b' v => bvalued b' v /\ b_ids b' = b_ids b) (sec_val b) (bop_fun o))
          with (l := s :: ss) (b := b) (k := fst s) as (b' & z & E & (G & W) & O & F & V); auto.
        -- intros b0 W0. split; [apply grows_refl|auto].
        -- intros a1 a2 a3 [A1 _] [A2 A3]. split; [eapply grows_trans; eauto|auto].
        -- intros a1 a2 _ [_ A]. auto.
        -- intros a1 a2 x [A _]. apply grows_ok. auto.
        -- intros a1 a2 v [A _] [B1 B2]. split; [apply (gr_restrict _ _ A); auto|]. rewrite <- B2. symmetry. apply (gr_ids _ _ A).
        -- apply bop_assoc.
        -- discriminate.
        -- exists b', (env ++ [z]). rewrite E. cbn [obind]. split; auto. split; [apply push_circ; exact F|].
           split; auto. split; auto. split; [eapply push_ok; eauto|].
           intros v Hv. rewrite omap_nth_map, Es. cbn [option_map obind].
           rewrite (V v) by (split; auto; apply (gr_ids _ _ G)). cbn [obind]. f_equal. apply push_val; auto.
           apply grows_val. auto.
      * destruct (low_depth_reduce (do_bin o) b (s :: ss)) as [[b' [z|]]|] eqn:E; auto.
        exfalso.
        assert (Hk : all_key secret fst (fst z) (s :: ss)).
        { eapply (reduce_keys builder secret (nat -> nat -> bool) bool (do_bin o) fst b_wf
                   (fun a b' => grows a b' /\ b_wf b') sec_ok (fun b' v => bvalued b' v /\ b_ids b' = b_ids b) (sec_val b) (bop_fun o));
            [..|exact E]; auto.
          - intros b0 W0. split; [apply grows_refl|auto].
          - intros a1 a2 a3 [A1 _] [A2 A3]. split; [eapply grows_trans; eauto|auto].
          - intros a1 a2 _ [_ A]. auto.
          - intros a1 a2 x [A _]. apply grows_ok. auto.
          - intros a1 a2 v [A _] [B1 B2]. split; [apply (gr_restrict _ _ A); auto|]. rewrite <- B2. symmetry. apply (gr_ids _ _ A). }
        assert (Ht : forallb (Nat.eqb (fst s)) (map fst ss) = true); [|exact (eq_true_false_abs _ Ht Ea)].
        apply forallb_forall. intros n Hn. apply in_map_iff in Hn. destruct Hn as (x & <- & Hx). apply Nat.eqb_eq.
        inversion Hk as [|? ? K1 K2]; subst. rewrite Forall_forall in K2. rewrite (K2 x Hx), K1. auto.
Qed.

Lemma run_ops_spec p : forall b env, b_wf b -> Forall (sec_ok b) env ->
  match prog_circ (length (b_ids b)) (map fst env) p with
  | Some cs =>
      exists b' env', run_ops b env p = Some (b', env') /\ map fst env' = cs /\ grows b b' /\ b_wf b' /\
        Forall (sec_ok b') env' /\
        forall v, bvalued b' v -> prog_sem (map (sec_val b v) env) p = Some (map (sec_val b' v) env')
  | None => run_ops b env p = None
  end.
Proof.
  induction p as [|o p IH]; intros b env Hw He.
  - exists b, env. split; [reflexivity|]. split; [reflexivity|]. split; [apply grows_refl|]. split; auto.
  - unfold prog_circ, run_ops. cbn [ofold]. pose proof (run_op_spec b env o Hw He) as HS. unfold step_ok in HS.
    destruct (op_circ (length (b_ids b)) (map fst env) o) as [cs|].
    + destruct HS as (b1 & env1 & E1 & F1 & G1 & W1 & O1 & V1). cbn [obind].
      rewrite E1. cbn [obind]. specialize (IH b1 env1 W1 O1). rewrite F1, (gr_ids _ _ G1) in IH. unfold prog_circ, run_ops in IH.
      destruct (ofold (op_circ (length (b_ids b))) cs p) as [cs'|].
      * destruct IH as (b' & env' & E & F & G & W & O & V). exists b', env'. split; auto. split; auto.
        split; [eapply grows_trans; eauto|]. split; auto. split; auto.
        intros v Hv. unfold prog_sem. cbn [ofold]. rewrite V1 by (apply (gr_restrict _ _ G); auto). cbn [obind]. apply V. auto.
      * exact IH.
    + rewrite HS. reflexivity.
Qed.
