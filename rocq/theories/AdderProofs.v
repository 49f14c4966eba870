(** The embedded addition circuits: loading and correctness. *)
From Coq Require Import String.
From Coq Require Import List Bool Arith ZArith Lia.
Require Import Verif.ParseModel Verif.Prelude Verif.PreludeProofs Verif.GateModel Verif.CircuitModel Verif.CircuitSpec
  Verif.CircuitProofs Verif.CircuitProofs2 Verif.CircuitProofs3 Verif.CircuitCheck
  Verif.BoolGmwModel Verif.InlineModel Verif.InlineSpec Verif.AdderData Verif.MixedModel Verif.MixedSpec.
Import ListNotations.
Open Scope nat_scope.

(** ** Carries *)

Section Carry.
Variables A B : nat -> bool.
Definition pb i := xorb (A i) (B i).
Definition gb i := andb (A i) (B i).
Fixpoint Gr (j n : nat) : bool :=
  match n with 0 => false | S m => xorb (gb (j + m)) (pb (j + m) && Gr j m) end.
Fixpoint Pr (j n : nat) : bool :=
  match n with 0 => true | S m => pb (j + m) && Pr j m end.

Lemma Pr_add j n m : Pr j (n + m) = Pr (j + n) m && Pr j n.
Proof.
  induction m as [|m IH]; simpl; [rewrite Nat.add_0_r; auto|].
  rewrite Nat.add_succ_r. simpl. rewrite IH, andb_assoc. do 3 f_equal. lia.
Qed.

Lemma Gr_add j n m : Gr j (n + m) = xorb (Gr (j + n) m) (Pr (j + n) m && Gr j n).
Proof.
  induction m as [|m IH]; simpl; [rewrite Nat.add_0_r; destruct (Gr j n); auto|].
  rewrite Nat.add_succ_r. simpl. rewrite IH, Nat.add_assoc.
  destruct (gb (j + n + m)), (pb (j + n + m)), (Gr (j + n) m), (Pr (j + n) m), (Gr j n); reflexivity.
Qed.

Inductive ann := AIn (i : nat) | AP (j n : nat) | AG (j n : nat) | ATm (j n m : nat) | AS (i : nat).

Variable w : nat.
Definition ann_sem (a : ann) : bool :=
  match a with
  | AIn i => if i <? w then A i else B (i - w)
  | AP j n => Pr j n
  | AG j n => Gr j n
  | ATm j n m => Pr (j + n) m && Gr j n
  | AS i => xorb (pb i) (Gr 0 i)
  end.

Definition and1 (a b : ann) : option ann :=
  match a, b with
  | AIn i, AIn k => if (i <? w) && (k =? i + w) then Some (AG i 1) else None
  | AP k m, AP j n => if k =? j + n then Some (AP j (n + m)) else None
  | AP k m, AG j n => if k =? j + n then Some (ATm j n m) else None
  | AP k l, ATm j n m => if k =? j + n + m then Some (ATm j n (m + l)) else None
  | _, _ => None
  end.
Definition xor1 (a b : ann) : option ann :=
  match a, b with
  | AIn i, AIn k => if (i <? w) && (k =? i + w) then Some (AP i 1) else None
  | AG k m, ATm j n m' => if (k =? j + n) && (m =? m') then Some (AG j (n + m)) else None
  | AP i 1, AG 0 n => if n =? i then Some (AS i) else None
  | _, _ => None
  end.
Definition both (f : ann -> ann -> option ann) (a b : ann) : option ann :=
  match f a b with Some c => Some c | None => f b a end.

Lemma and1_ok a b c : and1 a b = Some c -> ann_sem c = ann_sem a && ann_sem b.
Proof.
  destruct a, b; simpl; try discriminate.
  - destruct (Nat.ltb_spec i w); [|discriminate]. destruct (Nat.eqb_spec i0 (i + w)); [|discriminate].
    intros E; injection E as <-. subst. simpl. rewrite andb_false_r, xorb_false_r, Nat.add_0_r.
    destruct (Nat.ltb_spec (i + w) w); [lia|]. replace (i + w - w) with i by lia. reflexivity.
  - destruct (Nat.eqb_spec j (j0 + n0)); [|discriminate]. intros E; injection E as <-. subst. simpl. apply Pr_add.
  - destruct (Nat.eqb_spec j (j0 + n0)); [|discriminate]. intros E; injection E as <-. subst. reflexivity.
  - destruct (Nat.eqb_spec j (j0 + n0 + m)); [|discriminate]. intros E; injection E as <-. subst. simpl.
    rewrite Pr_add, andb_assoc. reflexivity.
Qed.
Lemma xor1_ok a b c : xor1 a b = Some c -> ann_sem c = xorb (ann_sem a) (ann_sem b).
Proof.
  destruct a, b; simpl; try discriminate; try (destruct n as [|[|n]]; discriminate).
  - destruct (Nat.ltb_spec i w); [|discriminate]. destruct (Nat.eqb_spec i0 (i + w)); [|discriminate].
    intros E; injection E as <-. subst. simpl. rewrite andb_true_r, Nat.add_0_r.
    destruct (Nat.ltb_spec (i + w) w); [lia|]. replace (i + w - w) with i by lia. reflexivity.
  - destruct n as [|[|n]], j0 as [|j0]; try discriminate. destruct (Nat.eqb_spec n0 j); [|discriminate].
    intros E; injection E as <-. subst. simpl. rewrite andb_true_r, Nat.add_0_r. reflexivity.
  - destruct (Nat.eqb_spec j (j0 + n0)); [|discriminate]. destruct (Nat.eqb_spec n m); [|discriminate].
    intros E; injection E as <-. subst. simpl. apply Gr_add.
Qed.
Lemma both_ok f g a b c : (forall a b c, f a b = Some c -> ann_sem c = g (ann_sem a) (ann_sem b)) ->
  (forall x y, g x y = g y x) -> both f a b = Some c -> ann_sem c = g (ann_sem a) (ann_sem b).
Proof.
  intros Hf Hg. unfold both. destruct (f a b) eqn:E.
  - intros H; injection H as <-. auto.
  - intros H. rewrite Hg. auto.
Qed.
End Carry.

(** ** The checker *)

(** Annotation of a gate from those of its parents; [k] counts the sub-circuit
    inputs seen so far. *)
Definition gate_ann (w k : nat) (g : mixed_gate) (ps : list ann) : option ann :=
  match g, ps with
  | MGBase GScInput, [] => Some (AIn k)
  | MGBase GScOutput, [a] => Some a
  | MGBool BAnd, [a; b] => both (and1 w) a b
  | MGBool BXor, [a; b] => both (xor1 w) a b
  | _, _ => None
  end.

Definition is_in (g : mixed_gate) : bool := match g with MGBase GScInput => true | _ => false end.

(** One pass over the gates in order; [done] holds the annotations so far and
    [par] gives the operands of a gate. *)
Fixpoint ann_pass (w : nat) (par : nat -> list nat) (gs : list mixed_gate) (k : nat) (done : list ann)
  : option (list ann) :=
  match gs with
  | [] => Some done
  | g :: r =>
      ps <- omap (nth_error done) (par (length done)) ;;
      a <- gate_ann w k g ps ;;
      ann_pass w par r (if is_in g then S k else k) (done ++ [a])
  end.

Definition out_ok (i : nat) (a : ann) : bool :=
  match a with AS j => j =? i | AP 0 1 => i =? 0 | _ => false end.

Definition adder_check (w : nat) (par : nat -> list nat) (c : circuit mixed_gate) : bool :=
  match ann_pass w par (c_gates c) 0 [] with
  | Some l =>
      forallb (fun io => match nth_error l (snd io) with Some a => out_ok (fst io) a | None => false end)
        (combine (seq 0 w) (c_scouts c)) && (length (c_scouts c) =? w) && (length (c_scins c) =? 2 * w)
  | None => false
  end.

Lemma ann_pass_ext w par par' : (forall i, par i = par' i) -> forall gs k done,
  ann_pass w par gs k done = ann_pass w par' gs k done.
Proof.
  intros H. induction gs as [|g r IH]; intros k done; simpl; auto. rewrite H.
  destruct (omap _ _); simpl; auto. destruct (gate_ann _ _ _ _); simpl; auto.
Qed.

Section Check.
Variable w : nat.
Variable c : circuit mixed_gate.
Variable v : nat -> bool.
Hypothesis Hv : valued mixed_ops plain_sem c v.
Variables a b : list bool.
Hypothesis La : length a = w.
Hypothesis Lb : length b = w.
Hypothesis Hins : map v (c_scins c) = a ++ b.
Hypothesis Hsc : c_scins c = ids_where (is_scin_gate mixed_ops) (c_gates c).
Let A i := nth i a false.
Let B i := nth i b false.

Lemma ids_where_nth (f : mixed_gate -> bool) pre g post :
  f g = true -> nth_error (ids_where f (pre ++ g :: post)) (length (filter f pre)) = Some (length pre).
Proof.
  intros Hg. unfold ids_where. rewrite app_length, seq_app, filter_app. simpl.
  rewrite nth_error_app2; [|].
  - assert (E : length (filter (fun i => match nth_error (pre ++ g :: post) i with Some x => f x | None => false end)
       (seq 0 (length pre))) = length (filter f pre)).
    { clear. rewrite <- (rev_involutive pre). generalize (g :: post). induction (rev pre) as [|x r IH]; auto. intros l. simpl.
      rewrite app_length, Nat.add_1_r, seq_S, filter_app, app_length, <- app_assoc. simpl.
      rewrite IH, filter_app, app_length. f_equal. rewrite nth_error_app2, Nat.sub_diag by lia. simpl.
      destruct (f x); reflexivity. }
    rewrite E, Nat.sub_diag. rewrite nth_error_app2, Nat.sub_diag by lia. simpl. rewrite Hg. reflexivity.
  - clear Hg. assert (E : length (filter (fun i => match nth_error (pre ++ g :: post) i with Some x => f x | None => false end)
       (seq 0 (length pre))) = length (filter f pre)).
    { rewrite <- (rev_involutive pre). generalize (g :: post). induction (rev pre) as [|x r IH]; auto. intros l. simpl.
      rewrite app_length, Nat.add_1_r, seq_S, filter_app, app_length, <- app_assoc. simpl.
      rewrite IH, filter_app, app_length. f_equal. rewrite nth_error_app2, Nat.sub_diag by lia. simpl.
      destruct (f x); reflexivity. }
    lia.
Qed.

Lemma in_value k i : nth_error (c_scins c) k = Some i -> v i = ann_sem A B w (AIn k).
Proof.
  intros H. assert (E : nth_error (a ++ b) k = Some (v i)) by (rewrite <- Hins; apply map_nth_error; auto).
  simpl. destruct (Nat.ltb_spec k w).
  - rewrite nth_error_app1 in E by lia. unfold A. symmetry. apply nth_error_nth with (d := false) in E. auto.
  - rewrite nth_error_app2 in E by lia. rewrite La in E. unfold B. apply nth_error_nth with (d := false) in E. auto.
Qed.

Definition in_only (gs : list mixed_gate) : Prop := forall g, In g gs -> is_in g = is_scin_gate mixed_ops g.

Lemma ann_pass_ok : in_only (c_gates c) -> forall gs pre k done l, c_gates c = pre ++ gs -> length done = length pre ->
  k = length (filter is_in pre) ->
  (forall i x, nth_error done i = Some x -> v i = ann_sem A B w x) ->
  ann_pass w (parents c) gs k done = Some l ->
  forall i x, nth_error l i = Some x -> v i = ann_sem A B w x.
Proof.
  intros Hio. induction gs as [|g gs IH]; intros pre k done l Hc Hd Hk Hdone; simpl.
  - intros E; injection E as <-. auto.
  - destruct (omap (nth_error done) (parents c (length done))) as [ps|] eqn:Ep; [|discriminate]. cbn [obind].
    destruct (gate_ann w k g ps) as [x|] eqn:Eg; [|discriminate]. cbn [obind]. intros E.
    assert (Hg : nth_error (c_gates c) (length done) = Some g).
    { rewrite Hc, nth_error_app2, Hd, Nat.sub_diag by lia. reflexivity. }
    assert (Hps : map v (parents c (length done)) = map (ann_sem A B w) ps).
    { clear - Ep Hdone. revert ps Ep. induction (parents c (length done)) as [|p r IHr]; intros ps Ep; simpl in Ep.
      - injection Ep as <-. reflexivity.
      - destruct (nth_error done p) as [y|] eqn:Ey; [|discriminate]. cbn [obind] in Ep.
        destruct (omap (nth_error done) r) as [ys|]; [|discriminate]. cbn [obind] in Ep. injection Ep as <-. simpl.
        rewrite (Hdone _ _ Ey), (IHr ys); auto. }
    eapply (IH (pre ++ [g])); [| | | |exact E].
    + rewrite <- app_assoc. auto.
    + rewrite !app_length. simpl. lia.
    + rewrite filter_app, app_length, <- Hk. simpl. destruct (is_in g); simpl; lia.
    + intros i y Hy. destruct (Nat.lt_ge_cases i (length done)).
      * rewrite nth_error_app1 in Hy by lia. auto.
      * rewrite nth_error_app2 in Hy by lia. destruct (i - length done) as [|[|]] eqn:Ei; try discriminate.
        simpl in Hy. injection Hy as <-. replace i with (length done) by lia.
        pose proof (Hv (length done) g Hg) as HV. unfold gate_ann in Eg.
        destruct g as [[| | | | | | | |]|[| | |]| |]; destruct ps as [|x1 [|x2 [|]]]; try discriminate.
        -- injection Eg as <-. apply in_value. rewrite Hsc, Hc.
           replace k with (length (filter (is_scin_gate mixed_ops) pre)); [rewrite Hd; apply ids_where_nth; auto|].
           rewrite Hk. clear - Hio Hc. assert (Hp : in_only pre) by (intros g Hg; apply Hio; rewrite Hc; apply in_or_app; auto).
           clear Hio Hc. induction pre as [|g r IHr]; auto. simpl. rewrite (Hp g) by (simpl; auto).
           assert (E : length (filter (is_scin_gate mixed_ops) r) = length (filter is_in r)).
           { apply IHr. intros g0 H0. apply Hp. simpl; auto. }
           destruct (is_scin_gate mixed_ops g); simpl; rewrite E; auto.
        -- injection Eg as <-. rewrite Hps in HV. specialize (HV eq_refl). simpl in HV. congruence.
        -- rewrite Hps in HV. specialize (HV eq_refl). simpl in HV. injection HV as <-.
           symmetry. apply (both_ok A B w (and1 w) andb); auto using and1_ok, andb_comm.
        -- rewrite Hps in HV. specialize (HV eq_refl). simpl in HV. injection HV as <-.
           symmetry. apply (both_ok A B w (xor1 w) xorb); auto using xor1_ok, xorb_comm.
Qed.

Lemma adder_check_ok : in_only (c_gates c) -> adder_check w (parents c) c = true ->
  map v (c_scouts c) = map (fun i => xorb (pb A B i) (Gr A B 0 i)) (seq 0 w).
Proof.
  intros Hio. unfold adder_check. destruct (ann_pass w (parents c) (c_gates c) 0 []) as [l|] eqn:E; [|discriminate].
  rewrite !andb_true_iff, !Nat.eqb_eq. intros ((H & HL) & _).
  pose proof (ann_pass_ok Hio _ [] 0 [] l eq_refl eq_refl eq_refl) as HP. specialize (HP ltac:(intros []; discriminate) E).
  apply (list_ext false); [rewrite !map_length, seq_length; auto|]. intros i Hi. rewrite map_length in Hi.
  rewrite (nth_indep _ false (v 0)) by (rewrite map_length; auto). rewrite (map_nth v).
  rewrite (nth_indep _ false ((fun i => xorb (pb A B i) (Gr A B 0 i)) 0)) by (rewrite map_length, seq_length; lia).
  rewrite (map_nth (fun i => xorb (pb A B i) (Gr A B 0 i))), seq_nth by lia. simpl.
  rewrite forallb_forall in H. specialize (H (i, nth i (c_scouts c) 0)).
  assert (Hin : In (i, nth i (c_scouts c) 0) (combine (seq 0 w) (c_scouts c))).
  { replace (i, nth i (c_scouts c) 0) with (nth i (combine (seq 0 w) (c_scouts c)) (0, 0)).
    - apply nth_In. rewrite combine_length, seq_length. lia.
    - rewrite combine_nth by (rewrite seq_length; lia). rewrite seq_nth by lia. reflexivity. }
  specialize (H Hin). simpl in H. destruct (nth_error l (nth i (c_scouts c) 0)) as [x|] eqn:Ex; [|discriminate].
  rewrite (HP _ _ Ex). unfold out_ok in H. destruct x as [|[|j] [|[|n]]| | |]; try discriminate.
  - apply Nat.eqb_eq in H. subst. simpl. rewrite andb_true_r. destruct (pb A B 0); reflexivity.
  - apply Nat.eqb_eq in H. subst. reflexivity.
Qed.
End Check.

(** ** Carries and numbers *)

Open Scope Z_scope.

Lemma bits_value_cons b l : bits_value (b :: l) = 2 * bits_value l + (if b then 1 else 0).
Proof. reflexivity. Qed.

Lemma bits_value_app l1 l2 : bits_value (l1 ++ l2) = bits_value l1 + 2 ^ Z.of_nat (length l1) * bits_value l2.
Proof.
  induction l1 as [|b l IH]; [simpl length; rewrite Z.pow_0_r, app_nil_l; change (bits_value []) with 0; lia|].
  cbn [app length]. rewrite !bits_value_cons, IH, Nat2Z.inj_succ, Z.pow_succ_r by lia. ring.
Qed.

Lemma bits_value_range l : 0 <= bits_value l < 2 ^ Z.of_nat (length l).
Proof.
  induction l as [|b l IH]; [cbn; lia|]. cbn [length]. rewrite bits_value_cons, Nat2Z.inj_succ, Z.pow_succ_r by lia.
  destruct b; lia.
Qed.

Lemma bits_of_value l : bits_of (length l) (bits_value l) = l.
Proof.
  induction l as [|b l IH]; auto. unfold bits_of in *. cbn [length seq map]. f_equal.
  - rewrite bits_value_cons. change (Z.of_nat 0) with 0. destruct b.
    + apply Z.testbit_odd_0.
    + rewrite Z.add_0_r. apply Z.testbit_even_0.
  - rewrite <- seq_shift, map_map. rewrite <- IH at 2. apply map_ext. intros i.
    rewrite bits_value_cons, Nat2Z.inj_succ. destruct b.
    + apply Z.testbit_odd_succ. lia.
    + rewrite Z.add_0_r. apply Z.testbit_even_succ. lia.
Qed.

Lemma value_bits_of n x : bits_value (bits_of n x) = x mod 2 ^ Z.of_nat n.
Proof.
  revert x. induction n as [|n IH]; intros x; [cbn; rewrite Z.mod_1_r; auto|].
  unfold bits_of. cbn [seq map]. rewrite bits_value_cons, <- seq_shift, map_map.
  rewrite (map_ext _ (fun i => Z.testbit (Z.div2 x) (Z.of_nat i))).
  - change (map (fun i => Z.testbit (Z.div2 x) (Z.of_nat i)) (seq 0 n)) with (bits_of n (Z.div2 x)).
    rewrite IH, Nat2Z.inj_succ, Z.pow_succ_r, Z.rem_mul_r by lia. rewrite Z.div2_div.
    change (Z.of_nat 0) with 0. rewrite Z.bit0_odd, Zmod_odd. destruct (Z.odd x); lia.
  - intros i. rewrite Nat2Z.inj_succ, Z.div2_spec, Z.shiftr_spec by lia. f_equal.
Qed.

Lemma bits_of_mod n x : bits_of n (x mod 2 ^ Z.of_nat n) = bits_of n x.
Proof.
  unfold bits_of. apply map_ext_in. intros i Hi. apply in_seq in Hi. apply Z.mod_pow2_bits_low. lia.
Qed.

Definition bz (b : bool) : Z := if b then 1 else 0.

Lemma firstn_snoc {T} (d : T) n l : (n < length l)%nat -> firstn (S n) l = firstn n l ++ [nth n l d].
Proof.
  revert l. induction n as [|n IH]; intros [|x l] H; simpl in *; try lia; auto. f_equal. rewrite IH by lia. reflexivity.
Qed.

Lemma carry_sum a b : length a = length b ->
  let A i := nth i a false in let B i := nth i b false in
  forall n, (n <= length a)%nat ->
  bits_value (firstn n a) + bits_value (firstn n b) =
  bits_value (map (fun i => xorb (pb A B i) (Gr A B 0 i)) (seq 0 n)) + 2 ^ Z.of_nat n * bz (Gr A B 0 n).
Proof.
  intros HL A B. induction n as [|n IH]; intros Hn; [reflexivity|].
  rewrite !(firstn_snoc false) by lia. rewrite seq_S, map_app, !bits_value_app. cbn [map].
  rewrite !firstn_length, !map_length, !seq_length, !Nat.min_l by lia. specialize (IH ltac:(lia)).
  cbn [Gr]. rewrite Nat.add_0_l. fold (A n). fold (B n). unfold pb at 2 3, gb.
  rewrite Nat2Z.inj_succ, Z.pow_succ_r by lia. rewrite !bits_value_cons. change (bits_value []) with 0.
  destruct (A n), (B n), (Gr A B 0 n); unfold bz in *; cbn [xorb andb negb] in *; lia.
Qed.

Lemma sum_bits a b : length a = length b ->
  map (fun i => xorb (pb (fun i => nth i a false) (fun i => nth i b false) i)
                     (Gr (fun i => nth i a false) (fun i => nth i b false) 0 i)) (seq 0 (length a)) =
  bits_of (length a) (bits_value a + bits_value b).
Proof.
  intros HL. pose proof (carry_sum a b HL (length a) (le_n _)) as H. cbv zeta in H.
  rewrite firstn_all in H. rewrite HL in H at 1. rewrite firstn_all in H. rewrite H.
  set (s := map _ (seq 0 (length a))). assert (Hs : length s = length a) by (unfold s; rewrite map_length, seq_length; auto).
  rewrite <- (bits_of_mod (length a)). rewrite <- Hs.
  rewrite Z.mul_comm, Z_mod_plus_full.
  rewrite Z.mod_small by apply bits_value_range. symmetry. apply bits_of_value.
Qed.
Close Scope Z_scope.
