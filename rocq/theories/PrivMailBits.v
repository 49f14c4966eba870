(** From the bit-level meaning of the private mail search to bytes. *)
From Coq Require Import List Bool Arith Lia NArith Ndigits.
Require Import Verif.Prelude Verif.PreludeProofs Verif.GateModel Verif.BuilderModel Verif.BuilderSpec
  Verif.PrivMailModel Verif.PrivMailSpec Verif.PrivMailProofs.
Import ListNotations.

Lemma byte_bits_length x : length (byte_bits x) = 8.
Proof. reflexivity. Qed.

Definition agree (a b : bool) : bool := negb (xorb a b).

Lemma agree_eq a b : agree a b = true <-> a = b.
Proof. destruct a, b; cbn; intuition congruence. Qed.

Lemma same_char_bits x y : same_char x y <-> forall i, i < 6 -> N.testbit_nat x i = N.testbit_nat y i.
Proof.
  unfold same_char. change 64%N with (2 ^ 6)%N. rewrite <- !N.land_ones. split.
  - intros H i Hi. assert (E : N.testbit (N.land x (N.ones 6)) (N.of_nat i) = N.testbit (N.land y (N.ones 6)) (N.of_nat i)) by congruence.
    rewrite !N.land_spec in E. rewrite N.ones_spec_low in E by lia. rewrite !andb_true_r in E.
    rewrite !Ntestbit_Nbit in E. exact E.
  - intros H. apply N.bits_inj. intros n. rewrite !N.land_spec. destruct (N.lt_ge_cases n 6) as [L|L].
    + specialize (H (N.to_nat n)). rewrite !Nbit_Ntestbit in H. rewrite H by lia. reflexivity.
    + rewrite N.ones_spec_high by lia. rewrite !andb_false_r. reflexivity.
Qed.

Lemma first6_agree x y :
  forallb (fun b => b) (map negb (zip_with xorb (firstn 6 (byte_bits x)) (firstn 6 (byte_bits y)))) = true <-> same_char x y.
Proof.
  rewrite same_char_bits. cbn [byte_bits seq map firstn zip_with forallb]. rewrite !andb_true_iff.
  fold (agree (N.testbit_nat x 0) (N.testbit_nat y 0)). fold (agree (N.testbit_nat x 1) (N.testbit_nat y 1)).
  fold (agree (N.testbit_nat x 2) (N.testbit_nat y 2)). fold (agree (N.testbit_nat x 3) (N.testbit_nat y 3)).
  fold (agree (N.testbit_nat x 4) (N.testbit_nat y 4)). fold (agree (N.testbit_nat x 5) (N.testbit_nat y 5)).
  rewrite !agree_eq. split.
  - intros (H0 & H1 & H2 & H3 & H4 & H5 & _) i Hi. do 6 (destruct i as [|i]; [assumption|]). lia.
  - intros H. repeat split; apply H; lia.
Qed.

Lemma zip_with_app {A B C} (f : A -> B -> C) l1 l2 : length l1 = length l2 -> forall r1 r2,
  zip_with f (l1 ++ r1) (l2 ++ r2) = zip_with f l1 l2 ++ zip_with f r1 r2.
Proof. revert l2. induction l1 as [|x l1 IH]; intros [|y l2] H r1 r2; try discriminate; cbn; auto. f_equal. apply IH. auto. Qed.

Lemma eq6_bytes : forall k h, length k = length h ->
  (eq6 (map byte_bits k) (map byte_bits h) = true <-> Forall2 same_char k h).
Proof.
  induction k as [|x k IH]; intros [|y h] HL; try discriminate.
  - cbn. split; auto.
  - injection HL as HL. unfold eq6, split6. cbn [map flat_map].
    rewrite zip_with_app by reflexivity. rewrite map_app, forallb_app, andb_true_iff, first6_agree.
    fold (@split6 bool (map byte_bits k)) (@split6 bool (map byte_bits h)). fold (eq6 (map byte_bits k) (map byte_bits h)).
    rewrite (IH h HL). split.
    + intros [A B]. constructor; auto.
    + intros H. inversion H; auto.
Qed.

Lemma Forall2_len {A B} (R : A -> B -> Prop) l m : Forall2 R l m -> length l = length m.
Proof. induction 1; cbn; congruence. Qed.

Lemma bfound_occurs k t : bfound (map byte_bits k) (map byte_bits t) = true <-> occurs k t.
Proof.
  unfold bfound. rewrite !map_length. destruct (Nat.leb_spec (length k) (length t)) as [HL|HL].
  - rewrite existsb_exists. split.
    + intros (p & Hp & E). apply in_seq in Hp. unfold at_pos in E. rewrite map_length, skipn_map, firstn_map in E.
      apply eq6_bytes in E; [|rewrite firstn_length, skipn_length; lia].
      exists (firstn p t), (firstn (length k) (skipn p t)), (skipn (length k) (skipn p t)). split; auto.
      rewrite !firstn_skipn. reflexivity.
    + intros (pre & here & post & -> & HF). exists (length pre). pose proof (Forall2_len _ _ _ HF) as EL.
      rewrite !app_length in *. split; [apply in_seq; lia|]. unfold at_pos. rewrite map_length, skipn_map, firstn_map.
      rewrite skipn_app, skipn_all2, Nat.sub_diag by lia. cbn [app skipn]. rewrite EL, firstn_app, Nat.sub_diag, firstn_all. cbn [firstn].
      rewrite app_nil_r. apply eq6_bytes; auto.
  - split; [discriminate|]. intros (pre & here & post & -> & HF). pose proof (Forall2_len _ _ _ HF). rewrite !app_length in HL. lia.
Qed.

(** ** Chains *)

Lemma enumerate_snoc {A} (l : list A) x : enumerate (l ++ [x]) = enumerate l ++ [(length l, x)].
Proof.
  unfold enumerate. rewrite app_length. cbn [length]. rewrite Nat.add_1_r, seq_S. cbn [Nat.add].
  enough (H : forall (s : list nat) (l : list A), length s = length l -> combine (s ++ [length l]) (l ++ [x]) = combine s l ++ [(length l, x)])
    by (apply H; apply seq_length).
  intros s l0 H0. remember (length l0) as n eqn:En in |- * at 1 2. clear En. revert l0 H0.
  induction s as [|a s IH]; intros [|b l0] H0; try discriminate; cbn; auto. f_equal. apply IH. auto.
Qed.

Lemma enumerate_idx {A} (l : list A) j x : In (j, x) (enumerate l) -> j < length l.
Proof. unfold enumerate. intros H. apply in_combine_l in H. apply in_seq in H. lia. Qed.

Lemma bchain_prefix p q jks t : Forall (fun jk : nat * list (list bool) => 2 * fst jk < length p) jks ->
  forall i, bchain (p ++ q) jks t i = bchain p jks t i.
Proof.
  unfold bchain. induction 1 as [|[j k] jks H HF IH]; intros i; auto. cbn [fold_left fst snd] in *. rewrite IH. f_equal.
  unfold bstep. destruct j; rewrite !app_nth1 by lia; reflexivity.
Qed.

Lemma chaining_meaning p f o n : bchaining p f o n = let a := if n then negb f else f in if o then p || a else p && a.
Proof. destruct p, f, o, n; reflexivity. Qed.

Lemma bchain_answer t : forall ks m, ks <> [] -> 2 * length ks - 1 <= length m ->
  answer t ks m (bchain m (enumerate (map (map byte_bits) ks)) (map byte_bits t) false).
Proof.
  induction ks as [|k ks IH] using rev_ind; [congruence|]. intros m _ HL. rewrite app_length in HL. cbn [length] in HL.
  rewrite map_app. cbn [map]. rewrite enumerate_snoc, map_length. unfold bchain. rewrite fold_left_app. cbn [fold_left fst snd].
  fold (bchain m (enumerate (map (map byte_bits) ks)) (map byte_bits t) false).
  destruct ks as [|k0 ks].
  - destruct m as [|inv m]; [cbn in HL; lia|]. cbn [length app bstep nth].
    replace (xorb (bfound (map byte_bits k) (map byte_bits t)) inv)
      with (if inv then negb (bfound (map byte_bits k) (map byte_bits t)) else bfound (map byte_bits k) (map byte_bits t))
      by (destruct inv, (bfound (map byte_bits k) (map byte_bits t)); reflexivity).
    apply answer_first. apply bfound_occurs.
  - set (l := k0 :: ks) in *. assert (Hl : 1 <= length l) by (cbn; lia).
    set (p := firstn (2 * length l - 1) m). assert (Ep : length p = 2 * length l - 1) by (unfold p; rewrite firstn_length; lia).
    assert (Em : exists o n r, m = p ++ o :: n :: r).
    { rewrite <- (firstn_skipn (2 * length l - 1) m). fold p. pose proof (skipn_length (2 * length l - 1) m) as HS.
      destruct (skipn (2 * length l - 1) m) as [|o [|n r]]; cbn [length] in HS; [lia|lia|]. eauto. }
    destruct Em as (o & n & r & Em). clearbody p. subst m.
    assert (HN : exists j, length l = S j) by (exists (length l - 1); lia). destruct HN as (j & HN).
    unfold bstep. rewrite HN. rewrite <- HN. rewrite chaining_meaning.
    assert (En1 : nth (2 * length l - 1) (p ++ o :: n :: r) false = o) by (rewrite app_nth2 by lia; rewrite Ep, Nat.sub_diag; reflexivity).
    assert (En2 : nth (2 * length l) (p ++ o :: n :: r) false = n).
    { rewrite app_nth2 by lia. replace (2 * length l - length p) with 1 by lia. reflexivity. }
    rewrite En1, En2. apply answer_next; auto.
    + apply bfound_occurs.
    + rewrite bchain_prefix.
      * apply IH; [discriminate|lia].
      * apply Forall_forall. intros [i x] Hx. apply enumerate_idx in Hx. rewrite map_length in Hx. cbn [fst]. lia.
Qed.

Lemma app_same_tail {A} (a b : list A) x y r s : length a = length b -> a ++ x :: y :: r = b ++ s -> exists s', a = b /\ s = x :: y :: s'.
Proof.
  revert b. induction a as [|c a IH]; intros [|d b] HL E; try discriminate.
  - cbn in E. exists r. auto.
  - injection HL as HL. injection E as <- E. destruct (IH b HL E) as (s' & -> & ->). eauto.
Qed.

(** A query has one answer for a text. *)
Lemma answer_unique t ks m a : answer t ks m a -> forall a', answer t ks m a' -> a = a'.
Proof.
  assert (HB : forall f g : bool, (f = true <-> g = true) -> f = g) by (intros [] []; intuition congruence).
  assert (HN : forall m a, ~ answer t [] m a).
  { intros m0 a0 H. inversion H as [|ks0 ? ? ? ? ? ? ? ? ? ? E]; subst. destruct ks0; discriminate. }
  induction 1 as [k inv f bits Hf|ks bits k o inv f prev rest Hf HL H IH]; intros a' H'.
  - inversion H' as [k' inv' f' bits' Hf'|ks' bits' k' o' inv' f' prev' rest' Hf' HL' Hr E1 E2]; subst.
    + rewrite (HB f f'); [reflexivity|]. rewrite Hf, Hf'. reflexivity.
    + destruct ks' as [|x ks']; [exfalso; eapply HN; eauto|]. destruct ks'; discriminate.
  - inversion H' as [k' inv' f' bits' Hf' E1 E2|ks' bits' k' o' inv' f' prev' rest' Hf' HL' Hr E1 E2]; subst.
    + destruct ks as [|x ks]; [exfalso; eapply HN; eauto|]. destruct ks; discriminate.
    + apply app_inj_tail in E1. destruct E1 as [-> ->].
      destruct (app_same_tail bits bits' o inv rest (o' :: inv' :: rest')) as (s' & -> & Es); [congruence|symmetry; exact E2|].
      injection Es as -> -> _. rewrite (IH _ Hr). rewrite (HB f f'); [reflexivity|]. rewrite Hf, Hf'. reflexivity.
Qed.

(** ** Bytes and their bits *)

Lemma pm_repeat_times l n : pm_repeat l n = times n l.
Proof. unfold times. induction n as [|n IH]; cbn; congruence. Qed.

Lemma flat_bits_length l : length (flat_map byte_bits l) = 8 * length l.
Proof. induction l as [|x l IH]; cbn [flat_map length]; auto. rewrite app_length, IH, byte_bits_length. lia. Qed.

Lemma bits_of_flat l : bits_of l = flat_map byte_bits l.
Proof.
  unfold bits_of. induction l as [|x l IH]; auto.
  cbn [flat_map length]. replace (8 * S (length l)) with (8 + 8 * length l) by lia. rewrite seq_app, map_app.
  assert (E : seq (0 + 8) (8 * length l) = map (fun i => 8 + i) (seq 0 (8 * length l))).
  { assert (HS : forall d n s, seq (s + d) n = map (fun i => d + i) (seq s n)).
    { intros d. induction n as [|n IHn]; intros s; cbn [seq map]; auto. f_equal; [lia|]. apply (IHn (S s)). }
    apply HS. }
  rewrite E, map_map, <- IH.
  assert (E1 : map (bit_of (x :: l)) (seq 0 8) = byte_bits x) by reflexivity. rewrite E1. f_equal.
  apply map_ext. intros i. unfold bit_of.
  replace (8 + i) with (i + 1 * 8) by lia. rewrite Nat.div_add, Nat.mod_add by lia. rewrite Nat.add_1_r. reflexivity.
Qed.

Lemma unshare_length : forall x y, length x = length y -> length (unshare x y) = length x.
Proof. induction x as [|a x IH]; intros [|b y] H; try discriminate; cbn; auto. Qed.

Lemma unshare_app : forall x y x' y', length x = length y -> unshare (x ++ x') (y ++ y') = unshare x y ++ unshare x' y'.
Proof. induction x as [|a x IH]; intros [|b y] x' y' H; try discriminate; cbn; auto. f_equal. apply IH. auto. Qed.

Lemma unshare_times n x y : length x = length y -> unshare (times n x) (times n y) = times n (unshare x y).
Proof. intros H. unfold times. induction n as [|n IH]; cbn; auto. rewrite unshare_app, IH by auto. reflexivity. Qed.

Lemma times_length n (x : list N) : length (times n x) = n * length x.
Proof. unfold times. induction n as [|n IH]; cbn; auto. rewrite app_length, IH. lia. Qed.

Lemma byte_bits_lxor a b : byte_bits (N.lxor a b) = zip_with xorb (byte_bits a) (byte_bits b).
Proof.
  assert (H : forall i, N.testbit_nat (N.lxor a b) i = xorb (N.testbit_nat a i) (N.testbit_nat b i)).
  { intros i. pose proof (N.lxor_spec a b (N.of_nat i)) as E. rewrite !Ntestbit_Nbit in E. exact E. }
  unfold byte_bits. cbn [seq map zip_with]. rewrite !H. reflexivity.
Qed.

Lemma flat_bits_unshare : forall x y, length x = length y ->
  flat_map byte_bits (unshare x y) = zip_with xorb (flat_map byte_bits x) (flat_map byte_bits y).
Proof.
  induction x as [|a x IH]; intros [|b y] H; try discriminate; auto. cbn [unshare flat_map]. rewrite zip_with_app by reflexivity.
  rewrite byte_bits_lxor. f_equal. apply IH. auto.
Qed.
