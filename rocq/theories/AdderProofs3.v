(** Inlining boolean sub-circuits into mixed circuits. *)
From Coq Require Import String.
From Coq Require Import List Bool Arith ZArith Lia Permutation.
Require Import Verif.ParseModel Verif.Prelude Verif.PreludeProofs Verif.GateModel Verif.CircuitModel Verif.CircuitSpec
  Verif.CircuitProofs Verif.CircuitProofs2 Verif.CircuitProofs3 Verif.CircuitCheck
  Verif.BoolGmwModel Verif.InlineModel Verif.InlineSpec Verif.InlineProofs Verif.AdderData
  Verif.MixedModel Verif.MixedSpec Verif.AdderProofs Verif.AdderProofs2.
Import ListNotations.
Open Scope nat_scope.

(** ** Inlining boolean circuits *)

Lemma plain_passes : passes_through mixed_ops plain_sem.
Proof.
  split; [reflexivity|]. split; [reflexivity|]. intros [[]| | |] l; simpl; try discriminate. auto.
Qed.

Lemma plain_reversible w sub : adder_ok w sub -> reversible plain_sem sub.
Proof.
  intros H g x Hx l Hl. pose proof (ao_arity _ _ H _ _ Hx) as Ha. rewrite <- Hl in Ha.
  destruct x as [[]|[]| |]; try tauto; destruct l as [|a [|b [|]]]; simpl in Ha; try lia; simpl; auto.
  - rewrite andb_comm. auto.
  - rewrite xorb_comm. auto.
Qed.

Section Local.
Variables c sub c' : circuit mixed_gate.
Variables inputs outs order : list nat.
Variable f : nat -> nat.
Hypothesis Hcall : callable mixed_ops sub.
Hypothesis Hrev : reversible plain_sem sub.
Hypothesis Hin : inlined mixed_ops c sub c' inputs outs order f.
Hypothesis Hrange : Forall (fun i => i < c_count c) inputs.

Lemma local_down v : new_valued c c' v ->
  valued mixed_ops plain_sem sub (fun g => v (f g)) /\
  (forall i g, nth_error (c_scins sub) i = Some g -> exists a, nth_error inputs i = Some a /\ v (f g) = v a).
Proof.
  intros Hv. split.
  - intros g x Hx Hs. assert (Hg : g < c_count sub) by (apply nth_error_Some; congruence).
    destruct (f_pos _ _ _ _ _ _ _ _ Hin g Hg) as (j & Hj & Ef).
    destruct (new_gate _ _ _ _ _ _ _ _ Hin j g Hj) as (y & Hy & Hn).
    rewrite Hx in Hy. injection Hy as <-. rewrite <- Ef in Hn.
    specialize (Hv (f g) _ ltac:(lia) Hn).
    rewrite (in_new _ _ _ _ _ _ _ _ Hin g Hg (not_scin _ _ Hcall _ _ Hx Hs)) in Hv.
    rewrite map_rev, map_map in Hv. rewrite (asc_sem mixed_ops plain_sem sub plain_passes Hrev g x) in Hv; auto. apply map_length.
  - intros i g Hi. destruct (in_sc _ _ _ _ _ _ _ _ Hin i g Hi) as (a & Ha & Hp). exists a. split; auto.
    assert (Hgin : In g (c_scins sub)) by (eapply nth_error_In; eauto).
    destruct (scin_root mixed_ops sub g Hcall Hgin) as (Hg & _ & x & Hx & Eb).
    destruct (f_pos _ _ _ _ _ _ _ _ Hin g Hg) as (j & Hj & Ef).
    destruct (new_gate _ _ _ _ _ _ _ _ Hin j g Hj) as (y & Hy & Hn).
    rewrite Hx in Hy. injection Hy as <-. rewrite <- Ef in Hn.
    specialize (Hv (f g) _ ltac:(lia) Hn). rewrite Hp in Hv. simpl in Hv.
    unfold asc_gate in Hv. rewrite Eb in Hv. simpl in Hv. congruence.
Qed.

Lemma local_up v w : valued mixed_ops plain_sem sub w ->
  (forall i g, nth_error (c_scins sub) i = Some g -> exists a, nth_error inputs i = Some a /\ w g = v a) ->
  new_valued c c' (glue c order v w).
Proof.
  intros Hw Hi h x Hh Hx.
  assert (Hj : exists g, nth_error order (h - c_count c) = Some g).
  { destruct (nth_error order (h - c_count c)) as [g|] eqn:E; [eauto|]. exfalso.
    apply nth_error_None in E. destruct (in_gates _ _ _ _ _ _ _ _ Hin) as (gs & Eg & F).
    assert (H : h < length (c_gates c')) by (apply nth_error_Some; congruence).
    rewrite Eg, app_length, <- (Forall2_len _ _ _ F) in H. unfold c_count in *. lia. }
  destruct Hj as (g & Hj).
  assert (Hg : g < c_count sub) by (apply (in_order _ _ _ _ _ _ _ _ Hin); eapply nth_error_In; eauto).
  assert (Ef : h = f g) by (rewrite (in_f _ _ _ _ _ _ _ _ Hin _ _ Hj); lia).
  destruct (new_gate _ _ _ _ _ _ _ _ Hin _ _ Hj) as (y & Hy & Hn).
  replace (c_count c + (h - c_count c)) with h in Hn by lia. rewrite Hx in Hn. injection Hn as ->.
  rewrite Ef, (glue_new mixed_ops c sub c' inputs outs order f Hin) by auto.
  destruct (source_gate mixed_ops y) eqn:Es.
  - destruct (scin_or _ _ Hcall _ _ Hy Es) as [Hsc Eb]. apply In_nth_error in Hsc. destruct Hsc as (i & Hsc).
    destruct (in_sc _ _ _ _ _ _ _ _ Hin i g Hsc) as (a & Ha & ->).
    destruct (Hi i g Hsc) as (a' & Ha' & ->). rewrite Ha in Ha'. injection Ha' as <-.
    simpl. unfold asc_gate. rewrite Eb. simpl. rewrite glue_old; auto.
    rewrite Forall_forall in Hrange. apply Hrange. eapply nth_error_In; eauto.
  - rewrite (in_new _ _ _ _ _ _ _ _ Hin g Hg (not_scin _ _ Hcall _ _ Hy Es)).
    rewrite map_rev, map_map. rewrite (asc_sem mixed_ops plain_sem sub plain_passes Hrev g y) by (auto; apply map_length).
    rewrite <- (Hw _ _ Hy Es). f_equal. apply map_ext_in. intros p Hp.
    apply (glue_new mixed_ops c sub c' inputs outs order f Hin).
    apply (in_range_parents sub p g); auto. destruct Hcall as ((Ha & _) & _).
    apply (aw_range _ _ (api_api_wf mixed_ops sub Ha)).
Qed.

(** Interactive gates on paths: in the old part as before, in the new part the
    operands' depth plus the depth in the sub-circuit. *)
Lemma inlined_int_old h : h < c_count c -> is_int mixed_ops c' h = is_int mixed_ops c h.
Proof. intros H. unfold is_int. rewrite (old_gate _ _ _ _ _ _ _ _ Hin) by auto. reflexivity. Qed.

Lemma inlined_int_new g : g < c_count sub -> is_int mixed_ops c' (f g) = is_int mixed_ops sub g.
Proof.
  intros Hg. destruct (f_pos _ _ _ _ _ _ _ _ Hin g Hg) as (j & Hj & Ef).
  destruct (new_gate _ _ _ _ _ _ _ _ Hin j g Hj) as (y & Hy & Hn). unfold is_int. rewrite Ef, Hn, Hy.
  unfold asc_gate. destruct y as [[]| | |]; reflexivity.
Qed.

Hypothesis Hapi : api mixed_ops c.

Lemma inlined_path_old h k : int_path mixed_ops c' h k -> h < c_count c -> int_path mixed_ops c h k.
Proof.
  induction 1 as [g Hg|p g k Hp Hk IH]; intros Hh; rewrite (in_old _ _ _ _ _ _ _ _ Hin) in * by auto.
  - constructor; auto.
  - assert (Hpc : p < c_count c).
    { apply (in_range_parents c p g); auto. apply (aw_range _ _ (api_api_wf mixed_ops c Hapi)). }
    rewrite inlined_int_old by auto. constructor; auto.
Qed.

Lemma inlined_path_new D lab :
  (forall a k, In a inputs -> int_path mixed_ops c a k -> eff mixed_ops c a k <= D) ->
  (forall g, g < c_count sub -> mult_depth mixed_ops sub g (lab g)) ->
  forall h k, int_path mixed_ops c' h k -> forall g, g < c_count sub -> h = f g -> k <= D + lab g.
Proof.
  intros HD Hlab. induction 1 as [h Hh|p h k Hp Hk IH]; intros g Hg ->; [lia|].
  destruct (in_dec Nat.eq_dec g (c_scins sub)) as [Hs|Hs].
  - apply In_nth_error in Hs. destruct Hs as (i & Hs). destruct (in_sc _ _ _ _ _ _ _ _ Hin i g Hs) as (a & Ha & Ep).
    rewrite Ep in Hp. destruct Hp as [<-|[]].
    assert (Hia : In a inputs) by (eapply nth_error_In; eauto). rewrite Forall_forall in Hrange.
    specialize (HD a k Hia (inlined_path_old _ _ Hk (Hrange _ Hia))). unfold eff in HD.
    rewrite inlined_int_old by auto. lia.
  - rewrite (in_new _ _ _ _ _ _ _ _ Hin g Hg Hs), <- in_rev in Hp. apply in_map_iff in Hp. destruct Hp as (q & <- & Hq).
    assert (Hqc : q < c_count sub).
    { apply (in_range_parents sub q g); auto. destruct Hcall as ((Ha & _) & _).
      apply (aw_range _ _ (api_api_wf mixed_ops sub Ha)). }
    specialize (IH q Hqc eq_refl). rewrite inlined_int_new by auto.
    destruct (Hlab g Hg) as [_ Hm]. destruct (Hlab q Hqc) as [Hpq _].
    specialize (Hm _ (ip_step mixed_ops sub q g (lab q) Hq Hpq)). destruct (is_int mixed_ops sub q); lia.
Qed.
End Local.

(** ** Values exist *)

(** Evaluation of an acyclic graph in which [src] fixes the values of sources and
    [sem g] computes the value of [g]; [K g] is the kind of values of [g]. *)
Section Eval.
Context {G V : Type}.
Variable c : circuit G.
Variable sem : nat -> list V -> option V.
Variable src : nat -> option V.
Variable d : V.
Variable K : nat -> V -> Prop.
Variable rank : nat -> nat.
Hypothesis Hrank : forall p g, In p (parents c g) -> rank p < rank g.
Hypothesis Hsrc : forall g x, src g = Some x -> K g x.
Hypothesis Hsem : forall g l, src g = None -> Forall2 K (parents c g) l -> exists y, sem g l = Some y /\ K g y.

Fixpoint ev (n g : nat) : V :=
  match src g with
  | Some x => x
  | None => match n with
            | O => d
            | S m => match sem g (map (ev m) (parents c g)) with Some y => y | None => d end
            end
  end.

Definition evaluation (g : nat) : V := ev (S (rank g)) g.

Lemma ev_stable n : forall m g, rank g < n -> rank g < m -> ev n g = ev m g.
Proof.
  induction n as [|n IH]; intros m g Hn Hm; [lia|]. destruct m as [|m]; [lia|]. simpl. destruct (src g); auto.
  rewrite (map_ext_in _ (ev m)); auto. intros p Hp. pose proof (Hrank _ _ Hp). apply IH; lia.
Qed.

Lemma evaluation_kind n : forall g, rank g < n -> K g (evaluation g) /\
  (src g = None -> sem g (map evaluation (parents c g)) = Some (evaluation g)).
Proof.
  induction n as [|n IH]; intros g Hg; [lia|].
  unfold evaluation at 1 3. cbn [ev]. destruct (src g) as [x|] eqn:E; [split; [auto|discriminate]|].
  assert (Em : map (ev (rank g)) (parents c g) = map evaluation (parents c g)).
  { apply map_ext_in. intros p Hp. unfold evaluation. pose proof (Hrank _ _ Hp). apply ev_stable; lia. }
  rewrite Em. destruct (Hsem g (map evaluation (parents c g)) E) as (y & Hy & Ky).
  - clear - IH Hg Hrank. assert (H : forall p, In p (parents c g) -> K p (evaluation p)).
    { intros p Hp. pose proof (Hrank _ _ Hp). apply IH. lia. }
    clear - H. induction (parents c g) as [|p r IHr]; simpl in *; constructor; auto.
  - rewrite Hy. auto.
Qed.

Lemma evaluation_ok g : K g (evaluation g) /\
  (src g = None -> sem g (map evaluation (parents c g)) = Some (evaluation g)).
Proof. apply (evaluation_kind (S (rank g))). lia. Qed.
End Eval.

Fixpoint pos_of (x : nat) (l : list nat) : option nat :=
  match l with
  | [] => None
  | y :: r => if x =? y then Some 0 else match pos_of x r with Some i => Some (S i) | None => None end
  end.

Lemma pos_of_nth l i x : NoDup l -> nth_error l i = Some x -> pos_of x l = Some i.
Proof.
  intros H. revert i. induction H as [|y l Hn H IH]; intros i Hi; [destruct i; discriminate|].
  destruct i as [|i]; simpl in *.
  - injection Hi as ->. rewrite Nat.eqb_refl. auto.
  - destruct (Nat.eqb_spec x y).
    + subst. exfalso. apply Hn. eapply nth_error_In; eauto.
    + rewrite (IH _ Hi). auto.
Qed.

Lemma adder_values w sub ins : adder_ok w sub -> length ins = 2 * w ->
  exists v, valued mixed_ops plain_sem sub v /\ map v (c_scins sub) = ins.
Proof.
  intros H Hl. pose proof (ao_callable _ _ H) as Hc. destruct Hc as ((Ha & (rank & Hrank) & Hroot) & _).
  set (src := fun g => match nth_error (c_gates sub) g with
     | Some (MGBase GScInput) => Some (nth (match pos_of g (c_scins sub) with Some i => i | None => 0 end) ins false)
     | None => Some false
     | _ => None end).
  set (sem := fun g l => match nth_error (c_gates sub) g with Some x => plain_sem x l | None => None end).
  assert (Hsem : forall g l, src g = None -> Forall2 (fun _ _ => True) (parents sub g) l ->
     exists y : bool, sem g l = Some y /\ True).
  { intros g l Hs HF. unfold src in Hs. unfold sem. destruct (nth_error (c_gates sub) g) as [x|] eqn:Ex; [|discriminate].
    pose proof (ao_arity _ _ H _ _ Ex) as Har. rewrite (Forall2_len _ _ _ HF) in Har.
    destruct x as [[]|[]| |]; try tauto; try discriminate; destruct l as [|a [|b [|]]]; simpl in Har; try lia; simpl; eauto. }
  exists (evaluation sub sem src false rank). split.
  - intros g x Hx Hs.
    destruct (evaluation_ok sub sem src false (fun _ _ => True) rank Hrank (fun _ _ _ => I) Hsem g) as [_ E].
    assert (Es : src g = None).
    { unfold src. rewrite Hx. unfold source_gate, is_input_gate, is_scin_gate in Hs. destruct x as [[]| | |]; simpl in Hs; auto; discriminate. }
    specialize (E Es). unfold sem in E at 1. rewrite Hx in E. auto.
  - pose proof (api_api_wf _ _ Ha) as Hw. apply (list_ext false); [rewrite map_length, (ao_ins _ _ H); auto|].
    rewrite map_length. intros i Hi.
    rewrite (nth_indep _ false (evaluation sub sem src false rank 0)) by (rewrite map_length; auto). rewrite map_nth.
    set (g := nth i (c_scins sub) 0). assert (Hg : In g (c_scins sub)) by (apply nth_In; auto).
    assert (Hg' := Hg). rewrite (aw_scins _ _ Hw) in Hg'. apply ids_where_In in Hg'. destruct Hg' as (x & Hx & Hk).
    unfold evaluation. cbn [ev]. unfold src at 1. rewrite Hx.
    pose proof (ao_arity _ _ H _ _ Hx) as Har.
    destruct x as [[]|[]| |]; try tauto; simpl in Hk; try discriminate.
    replace (pos_of g (c_scins sub)) with (Some i); auto.
    symmetry. apply pos_of_nth.
    + rewrite (aw_scins _ _ Hw). apply ids_where_NoDup.
    + unfold g. apply nth_error_nth'. auto.
Qed.
