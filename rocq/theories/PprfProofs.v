(** Lemmas about the puncturable PRF model. *)
From Coq Require Import ZArith List Bool Arith NArith Lia Permutation Btauto.
From Coq Require Import ZifyBool ZifyNat ZifyN.
Require Import Verif.Prelude Verif.PreludeProofs Verif.ZapUtilModel Verif.PprfModel Verif.PprfSpec.
Import ListNotations.
Open Scope nat_scope.

Ltac nxor := apply N.bits_inj; intros ?n; rewrite ?N.lxor_spec, ?N.bits_0; btauto.

(** ** Points *)

Lemma msb_value_app l1 : forall acc l2, msb_value acc (l1 ++ l2) = msb_value (msb_value acc l1) l2.
Proof. induction l1 as [|b l1 IH]; intros acc l2; cbn [msb_value app]; auto. Qed.

Lemma lor_double x b : Nat.lor (2 * x) (Nat.b2n b) = 2 * x + (if b then 1 else 0).
Proof.
  apply Nat.bits_inj. intros n. rewrite Nat.lor_spec. destruct b; cbn [Nat.b2n].
  - destruct n.
    + rewrite Nat.testbit_even_0, Nat.testbit_odd_0. auto.
    + rewrite Nat.testbit_even_succ, Nat.testbit_odd_succ by lia.
      replace (Nat.testbit 1 (S n)) with false; [apply orb_false_r|].
      symmetry. change 1 with (2 * 0 + 1). rewrite Nat.testbit_odd_succ by lia. apply Nat.bits_0.
  - rewrite Nat.bits_0, orb_false_r, Nat.add_0_r. auto.
Qed.

Lemma path_fold l : forall (s n : nat) (init : nat), length l + s <= n ->
  fold_left (fun point ic => Nat.lor point (Nat.shiftl (Nat.b2n (negb (snd ic))) (S n - fst ic - 1)))
    (combine (seq s (length l)) l) (2 * init)
  = 2 * fold_left (fun point ic => Nat.lor point (Nat.shiftl (Nat.b2n (negb (snd ic))) (n - fst ic - 1)))
    (combine (seq s (length l)) l) init.
Proof.
  induction l as [|b l IH]; intros s n init Hn; cbn [length seq combine fold_left]; auto.
  cbn [length] in Hn. cbn [fst snd].
  rewrite <- IH by lia. f_equal.
  replace (S n - s - 1) with (S (n - s - 1)) by lia. rewrite !Nat.shiftl_mul_pow2. cbn [Nat.pow].
  replace (Nat.b2n (negb b) * (2 * 2 ^ (n - s - 1))) with (2 * (Nat.b2n (negb b) * 2 ^ (n - s - 1))) by lia.
  assert (E : forall x y, Nat.lor (2 * x) (2 * y) = 2 * Nat.lor x y).
  { intros x y. rewrite <- !Nat.double_twice.
    apply Nat.bits_inj. intros k. rewrite Nat.lor_spec, !Nat.double_twice. destruct k as [|k].
    - rewrite !Nat.testbit_even_0. auto.
    - rewrite !Nat.testbit_even_succ, Nat.lor_spec by lia. auto. }
  apply E.
Qed.

Lemma active_path_ok l : active_path l = punctured l.
Proof.
  unfold punctured. induction l as [|b l IH] using rev_ind; [reflexivity|].
  unfold active_path in *. rewrite app_length. cbn [length]. rewrite seq_app, Nat.add_0_l. cbn [seq].
  assert (Ec : combine (seq 0 (length l) ++ [length l]) (l ++ [b]) = combine (seq 0 (length l)) l ++ [(length l, b)]).
  { assert (G : forall (A B : Type) (x x' : list A) (y y' : list B), length x = length y ->
      combine (x ++ x') (y ++ y') = combine x y ++ combine x' y').
    { induction x as [|e x IHx]; intros x' [|e' y] y' E; try discriminate; auto. cbn. f_equal. apply IHx. auto. }
    rewrite G by (rewrite seq_length; auto). auto. }
  rewrite Ec, fold_left_app. cbn [fold_left fst snd].
  rewrite map_app, msb_value_app. cbn [map msb_value]. rewrite <- IH.
  replace (length l + 1) with (S (length l)) by lia.
  pose proof (path_fold l 0 (length l) 0 ltac:(lia)) as P. rewrite Nat.mul_0_r in P. rewrite P.
  replace (S (length l) - length l - 1) with 0 by lia. cbn [Nat.shiftl]. apply lor_double.
Qed.

Lemma msb_value_lt l : forall acc, msb_value acc l < (acc + 1) * 2 ^ length l.
Proof.
  induction l as [|b l IH]; intros acc; cbn [msb_value length Nat.pow]; [lia|].
  specialize (IH (2 * acc + (if b then 1 else 0))). destruct b; nia.
Qed.

Lemma punctured_lt l : punctured l < 2 ^ length l.
Proof. unfold punctured. pose proof (msb_value_lt (map negb l) 0). rewrite map_length in H. lia. Qed.

(** The node of the active path on level [d]. *)
Definition anode (choices : list bool) (d : nat) : nat := punctured (firstn d choices).

Lemma msb_value_shift l : forall acc, Nat.shiftr (msb_value acc l) (length l) = acc.
Proof.
  induction l as [|b l IH]; intros acc; cbn [msb_value length]; [reflexivity|].
  rewrite Nat.shiftr_div_pow2. cbn [Nat.pow].
  specialize (IH (2 * acc + (if b then 1 else 0))). rewrite Nat.shiftr_div_pow2 in IH.
  rewrite (Nat.mul_comm 2 (2 ^ length l)), <- Nat.div_div, IH by (try apply Nat.pow_nonzero; lia).
  symmetry. destruct b; [apply (Nat.div_unique _ 2 _ 1) | apply (Nat.div_unique _ 2 _ 0)]; lia.
Qed.

Lemma anode_shift choices d : d <= length choices ->
  Nat.shiftr (active_path choices) (length choices - d) = anode choices d.
Proof.
  intros Hd. rewrite active_path_ok. unfold anode, punctured.
  rewrite <- (firstn_skipn d choices) at 1. rewrite map_app, msb_value_app.
  replace (length choices - d) with (length (map negb (skipn d choices))) by (rewrite map_length, skipn_length; lia).
  apply msb_value_shift.
Qed.

Lemma anode_S choices d c : nth_error choices d = Some c ->
  anode choices (S d) = 2 * anode choices d + (if c then 0 else 1).
Proof.
  intros E. unfold anode, punctured.
  assert (F : firstn (S d) choices = firstn d choices ++ [c]).
  { revert choices E. induction d as [|d IH]; intros [|x l] E; try discriminate; cbn in E.
    - inversion E; auto.
    - cbn [firstn app]. f_equal. apply IH. auto. }
  rewrite F, map_app, msb_value_app. cbn [map msb_value]. destruct c; auto.
Qed.

Lemma anode_lt choices d : d <= length choices -> anode choices d < 2 ^ d.
Proof.
  intros Hd. unfold anode. pose proof (punctured_lt (firstn d choices)) as P.
  rewrite firstn_length, Nat.min_l in P by auto. auto.
Qed.

Lemma sibling_eq x (b : bool) : sibling (2 * x + (if b then 0 else 1)) = 2 * x + (if b then 1 else 0).
Proof.
  unfold sibling. apply Nat.bits_inj. intros n. rewrite Nat.lxor_spec.
  assert (T1 : forall n, Nat.testbit 1 n = (n =? 0)).
  { intros [|m]; auto. change 1 with (2 * 0 + 1). rewrite Nat.testbit_odd_succ by lia. apply Nat.bits_0. }
  rewrite T1. destruct b; rewrite ?Nat.add_0_r; destruct n as [|n];
    rewrite ?Nat.testbit_even_0, ?Nat.testbit_odd_0; auto;
    rewrite ?Nat.testbit_even_succ, ?Nat.testbit_odd_succ by lia; cbn [Nat.eqb]; apply xorb_false_r.
Qed.

Lemma odd_b x (b : bool) : Nat.odd (2 * x + (if b then 1 else 0)) = b.
Proof.
  destruct b; [rewrite Nat.odd_add_mul_2 with (n := 1) (m := x) || idtac|];
  rewrite Nat.add_comm, Nat.odd_add_mul_2; auto.
Qed.

(** ** Levels *)

Lemma level_sums_nth C : forall C' a, length C = length C' -> length C mod 2 = 0 -> 2 * a + 1 < length C ->
  (forall i, i < length C -> i / 2 <> a -> nth i C 0%N = nth i C' 0%N) ->
  N.lxor (fst (level_sums C)) (fst (level_sums C')) = N.lxor (nth (2 * a) C 0%N) (nth (2 * a) C' 0%N) /\
  N.lxor (snd (level_sums C)) (snd (level_sums C')) = N.lxor (nth (2 * a + 1) C 0%N) (nth (2 * a + 1) C' 0%N).
Proof.
  assert (EQ : forall n C C', length C = n -> length C = length C' -> (forall i, i < length C -> nth i C 0%N = nth i C' 0%N) -> C = C').
  { intros n A B _ L E. apply (list_ext 0%N); auto. }
  enough (G : forall n C C' a, length C <= n -> length C = length C' -> length C mod 2 = 0 -> 2 * a + 1 < length C ->
    (forall i, i < length C -> i / 2 <> a -> nth i C 0%N = nth i C' 0%N) ->
    N.lxor (fst (level_sums C)) (fst (level_sums C')) = N.lxor (nth (2 * a) C 0%N) (nth (2 * a) C' 0%N) /\
    N.lxor (snd (level_sums C)) (snd (level_sums C')) = N.lxor (nth (2 * a + 1) C 0%N) (nth (2 * a + 1) C' 0%N)).
  { intros C' a. apply (G (length C)). auto. }
  clear C. induction n as [|n IH]; intros C C' a Hn L Hm Ha Hi; [lia|].
  destruct C as [|x [|y C]]; try (cbn in Ha; lia).
  destruct C' as [|x' [|y' C']]; try (cbn in L; lia).
  cbn [length] in *. cbn [level_sums].
  assert (Hm' : length C mod 2 = 0).
  { replace (S (S (length C))) with (length C + 1 * 2) in Hm by lia. rewrite Nat.mod_add in Hm by lia. auto. }
  destruct (level_sums C) as [u v] eqn:E1. destruct (level_sums C') as [u' v'] eqn:E2.
  destruct a as [|a].
  - assert (C = C').
    { apply (EQ (length C)); [auto|lia|]. intros i Hi'. specialize (Hi (S (S i)) ltac:(lia)). cbn [nth] in Hi. apply Hi.
      replace (S (S i)) with (i + 1 * 2) by lia. rewrite Nat.div_add by lia. lia. }
    subst C'. rewrite E1 in E2. inversion E2; subst. cbn [Nat.mul Nat.add nth fst snd]. split; nxor.
  - assert (x = x') by (apply (Hi 0); [lia|cbn; lia]). assert (y = y') by (apply (Hi 1); [lia|cbn; lia]). subst.
    destruct (IH C C' a) as [I1 I2]; try lia.
    { intros i Hi' Hd. specialize (Hi (S (S i)) ltac:(lia)). cbn [nth] in Hi. apply Hi.
      replace (S (S i)) with (i + 1 * 2) by lia. rewrite Nat.div_add by lia. lia. }
    rewrite E1, E2 in I1, I2. cbn [fst snd] in *.
    replace (2 * S a) with (S (S (2 * a))) by lia. replace (S (S (2 * a)) + 1) with (S (S (2 * a + 1))) by lia.
    cbn [nth]. rewrite <- I1, <- I2. split; nxor.
Qed.

Lemma expand_nth enc l : forall i, i < 2 * length l ->
  nth i (flat_map (fun x => [ggm enc false x; ggm enc true x]) l) 0%N = ggm enc (Nat.odd i) (nth (i / 2) l 0%N).
Proof.
  induction l as [|x l IH]; intros i Hi; cbn [length] in Hi; [lia|].
  destruct i as [|[|i]]; try reflexivity.
  cbn [flat_map app nth]. rewrite IH by lia.
  replace (S (S i) / 2) with (S (i / 2)).
  2:{ replace (S (S i)) with (i + 1 * 2) by lia. rewrite Nat.div_add by lia. lia. }
  cbn [nth]. f_equal.
Qed.

Lemma expand_len enc (l : list N) : length (flat_map (fun x => [ggm enc false x; ggm enc true x]) l) = 2 * length l.
Proof. induction l; cbn; lia. Qed.

Lemma expand_some enc w l : w mod 2 = 0 -> w <= 2 * length l ->
  exists l1, expand_level enc w l = Some l1 /\ length l1 = w /\
    forall i, i < w -> nth i l1 0%N = ggm enc (Nat.odd i) (nth (i / 2) l 0%N).
Proof.
  intros Hw Hl. unfold expand_level.
  assert (E : w = 2 * (w / 2)) by (pose proof (Nat.div_mod w 2 ltac:(lia)); lia).
  rewrite Hw. cbn [Nat.eqb oassert obind].
  replace (w / 2 <=? length l) with true by (symmetry; apply Nat.leb_le; lia).
  cbn [oassert obind]. eexists. split; [reflexivity|].
  rewrite expand_len, firstn_length, Nat.min_l by lia. split; [lia|].
  intros i Hi. rewrite expand_nth by (rewrite firstn_length, Nat.min_l; lia). f_equal.
  apply nth_firstn. apply Nat.div_lt_upper_bound; lia.
Qed.

(** ** One tree *)

Lemma nth_error_zip_with {A B C} (g : A -> B -> C) l : forall l' i x y, nth_error l i = Some x -> nth_error l' i = Some y ->
  nth_error (zip_with g l l') i = Some (g x y).
Proof. induction l as [|u l IH]; intros [|v l'] [|i] x y E1 E2; try discriminate; cbn in *; [congruence|eauto]. Qed.

Lemma ex_some {A} (e : option A) (P : A -> Prop) : match e with Some x => P x | None => False end -> exists x, e = Some x /\ P x.
Proof. destruct e; [eauto|intros []]. Qed.

Section Tree.
Variables (enc : bool -> N -> N) (H : N -> N) (c : pprf_conf) (f : pprf_format).
Let D := pc_depth c.
Hypothesis HD : 2 <= D.
Hypothesis Hmid : forall d, d + 1 < D -> level_width c f d = 2 ^ (d + 1).
Hypothesis Hlast : level_width c f (D - 1) mod 2 = 0 /\ level_width c f (D - 1) <= 2 ^ D.

Lemma pow_S d : 2 ^ (d + 1) = 2 * 2 ^ d.
Proof. rewrite Nat.add_1_r. reflexivity. Qed.

Lemma width_ok d : d < D -> level_width c f d mod 2 = 0 /\ level_width c f d <= 2 * 2 ^ d.
Proof.
  intros Hd. destruct (Nat.eq_dec (d + 1) D) as [E|E].
  - replace d with (D - 1) by lia. split; [apply Hlast|].
    replace (2 * 2 ^ (D - 1)) with (2 ^ D); [apply Hlast|]. rewrite <- pow_S. f_equal. lia.
  - rewrite Hmid by lia. rewrite pow_S. split; [|lia]. rewrite Nat.mul_comm. apply Nat.mod_mul. lia.
Qed.

Lemma send_levels_ok n : forall d level, length level = 2 ^ d -> d + S n = D ->
  exists leaves ss, send_levels enc c f (S n) d level = Some (leaves, ss) /\ length ss = S n /\
    length leaves = level_width c f (D - 1) /\ nth n ss (0%N, 0%N) = level_sums leaves.
Proof.
  induction n as [|n IH]; intros d level L E.
  - destruct (width_ok d ltac:(lia)) as [W1 W2].
    destruct (expand_some enc (level_width c f d) level W1 ltac:(lia)) as (l1 & E1 & L1 & _).
    cbn [send_levels]. rewrite E1. cbn [obind]. do 2 eexists. split; [reflexivity|]. cbn [length nth].
    replace (D - 1) with d by lia. auto.
  - destruct (width_ok d ltac:(lia)) as [W1 W2].
    destruct (expand_some enc (level_width c f d) level W1 ltac:(lia)) as (l1 & E1 & L1 & _).
    rewrite Hmid in L1 by lia.
    destruct (IH (d + 1) l1 L1 ltac:(lia)) as (leaves & ss & Es & Ls & Ll & En).
    remember (S n) as n1. cbn [send_levels]. rewrite E1. cbn [obind]. rewrite Es. cbn [obind].
    do 2 eexists. split; [reflexivity|]. cbn [length]. subst n1. split; [lia|]. split; auto.
Qed.

Variables (choices : list bool) (sots : list (N * N)).
Hypothesis Hch : length choices = D.
Hypothesis Hso : length sots = D.
Let rots := zip_with (fun (p : N * N) (b : bool) => if b then snd p else fst p) sots choices.

Lemma rots_nth d : d < D -> exists ch, nth_error choices d = Some ch /\
  nth_error rots d = Some (side ch (nth d sots (0%N, 0%N))).
Proof.
  intros Hd. destruct (nth_error choices d) as [ch|] eqn:E; [|apply nth_error_None in E; lia].
  exists ch. split; auto. unfold rots.
  change (side ch (nth d sots (0%N, 0%N))) with ((fun (p : N * N) (b : bool) => if b then snd p else fst p) (nth d sots (0%N, 0%N)) ch).
  apply nth_error_zip_with; auto. apply nth_error_nth'. lia.
Qed.

Definition mask1 (s o : N * N) : N * N := (N.lxor (fst s) (fst o), N.lxor (snd s) (snd o)).
Lemma side_mask b s o : side b (mask1 s o) = N.lxor (side b s) (side b o).
Proof. destruct b; auto. Qed.

(** Agreement except at one node. *)
Definition agree (a : nat) (l l' : list N) : Prop :=
  length l = length l' /\ forall i, i < length l -> i <> a -> nth i l' 0%N = nth i l 0%N.
Definition agree2 (a : nat) (l l' : list N) : Prop :=
  length l = length l' /\ forall i, i < length l -> i / 2 <> a -> nth i l' 0%N = nth i l 0%N.

Lemma expand_agree d level level' a : d < D -> length level = 2 ^ d -> agree a level level' ->
  exists l1 l1', expand_level enc (level_width c f d) level = Some l1 /\
    expand_level enc (level_width c f d) level' = Some l1' /\
    length l1 = level_width c f d /\ agree2 a l1 l1'.
Proof.
  intros Hd L [La A]. destruct (width_ok d Hd) as [W1 W2].
  destruct (expand_some enc (level_width c f d) level W1 ltac:(lia)) as (l1 & E1 & L1 & N1).
  destruct (expand_some enc (level_width c f d) level' W1 ltac:(lia)) as (l1' & E1' & L1' & N1').
  exists l1, l1'. split; auto. split; auto. split; auto. split; [lia|].
  intros i Hi Ha. rewrite N1, N1' by lia. f_equal. apply A; auto.
  assert (i / 2 < 2 ^ d) by (apply Nat.div_lt_upper_bound; lia). lia.
Qed.

Lemma sums_fix l1 l1' a b : length l1 mod 2 = 0 -> 2 * a + 1 < length l1 -> agree2 a l1 l1' ->
  N.lxor (side b (level_sums l1)) (side b (level_sums l1'))
  = N.lxor (nth (2 * a + (if b then 1 else 0)) l1 0%N) (nth (2 * a + (if b then 1 else 0)) l1' 0%N).
Proof.
  intros Hm Ha [L A]. destruct (level_sums_nth l1 l1' a L Hm Ha) as [S0 S1].
  { intros i Hi Hd. symmetry. apply A; auto. }
  destruct b; cbn [side]; [exact S1|]. rewrite Nat.add_0_r. exact S0.
Qed.

Lemma levels_sync sums n : forall d level level' mine0 leaves ss, 1 <= d -> d + S n = D ->
  length level = 2 ^ d -> agree (anode choices d) level level' ->
  send_levels enc c f (S n) d level = Some (leaves, ss) ->
  (forall k, k < n -> nth_error sums (d + k) = Some (mask1 (nth k ss (0%N, 0%N)) (nth (d + k) sots (0%N, 0%N)))) ->
  exists lv', recv_levels enc c f sums rots (active_path choices) (S n) d level' mine0 = Some (lv', level_sums lv') /\
    agree2 (anode choices (D - 1)) leaves lv'.
Proof.
  induction n as [|n IH]; intros d level level' mine0 leaves ss Hd1 Hd L A Es Hs.
  - destruct (expand_agree d level level' _ ltac:(lia) L A) as (l1 & l1' & E1 & E1' & L1 & A2).
    cbn [send_levels] in Es. rewrite E1 in Es. cbn [obind] in Es. inversion Es; subst leaves ss.
    cbn [recv_levels]. rewrite E1'. cbn [obind]. fold D.
    replace (d =? D - 1) with true by (symmetry; apply Nat.eqb_eq; lia). cbn [obind].
    exists l1'. split; auto. replace (D - 1) with d by lia. auto.
  - destruct (expand_agree d level level' _ ltac:(lia) L A) as (l1 & l1' & E1 & E1' & L1 & A2).
    rewrite Hmid, pow_S in L1 by lia.
    remember (S n) as n1 eqn:En1. cbn [send_levels] in Es. rewrite E1 in Es. cbn [obind] in Es.
    destruct (send_levels enc c f n1 (d + 1) l1) as [[lv ss1]|] eqn:Es1; [|discriminate].
    cbn [obind] in Es. inversion Es; subst leaves ss. clear Es.
    destruct (rots_nth d ltac:(lia)) as (ch & Ec & Er).
    assert (Ea : Nat.shiftr (active_path choices) (D - 1 - d) = 2 * anode choices d + (if ch then 0 else 1)).
    { rewrite <- (anode_S choices d ch Ec), <- anode_shift by lia. f_equal. lia. }
    assert (Hal : anode choices d < 2 ^ d) by (apply anode_lt; lia).
    assert (Hev : length l1 mod 2 = 0) by (rewrite L1, Nat.mul_comm; apply Nat.mod_mul; lia).
    pose proof (sums_fix l1 l1' (anode choices d) ch Hev ltac:(lia) A2) as SF.
    destruct A2 as [La2 A2].
    assert (Hin : 2 * anode choices d + (if ch then 1 else 0) < length l1) by (destruct ch; lia).
    cbn [recv_levels]. rewrite E1'. cbn [obind]. fold D.
    replace (d =? D - 1) with false by (symmetry; apply Nat.eqb_neq; lia).
    cbv zeta. rewrite Ea, sibling_eq, odd_b.
    rewrite (nth_error_nth' l1' 0%N) by lia. cbn [obind].
    specialize (Hs 0 ltac:(lia)) as Hs0. rewrite Nat.add_0_r in Hs0. cbn [nth] in Hs0. rewrite Hs0. cbn [obind].
    rewrite Er. cbn [obind].
    subst n1. eapply (IH (d + 1) l1); try eassumption; try lia.
    + rewrite pow_S. auto.
    + split; [rewrite upd_length; auto|]. intros i Hi Hne.
      rewrite Nat.add_1_r, (anode_S choices d ch Ec) in Hne. rewrite upd_nth.
      destruct (Nat.eqb_spec (2 * anode choices d + (if ch then 1 else 0)) i) as [E|E].
      * replace (2 * anode choices d + (if ch then 1 else 0) <? length l1') with true by (symmetry; apply Nat.ltb_lt; lia).
        cbn [andb]. subst i. rewrite side_mask.
        assert (X : forall t g s m o, N.lxor s m = N.lxor t g -> N.lxor (N.lxor (N.lxor g (N.lxor s o)) m) o = t).
        { intros t g s m o E. replace (N.lxor (N.lxor (N.lxor g (N.lxor s o)) m) o) with (N.lxor g (N.lxor s m)) by nxor.
          rewrite E. nxor. }
        apply X. exact SF.
      * cbn [andb]. apply A2; auto. intros Hq.
        pose proof (Nat.div_mod i 2 ltac:(lia)) as Hdm. pose proof (Nat.mod_upper_bound i 2 ltac:(lia)).
        destruct ch; lia.
    + intros k Hk. specialize (Hs (S k) ltac:(lia)). cbn [nth] in Hs.
      replace (d + 1 + k) with (d + S k) by lia. auto.
Qed.

Variables (value root : N).

Lemma nth_error_firstn_lt {A} (l : list A) : forall n i, i < n -> nth_error (firstn n l) i = nth_error l i.
Proof. induction l as [|x l IH]; intros [|n] [|i] Hi; try lia; cbn; auto. apply IH. lia. Qed.

Theorem tree_ok : active_path choices < level_width c f (D - 1) ->
  exists m leaves, send_tree enc H c f value root sots = Some (m, leaves) /\
    length leaves = level_width c f (D - 1) /\
    exists leaves', recv_tree enc H c f choices rots m = Some leaves' /\
    differ_at (active_path choices) value leaves leaves'.
Proof.
  intros Hp.
  assert (Hd0 : exists n, D = S (S n)) by (exists (D - 2); lia). destruct Hd0 as [n En].
  destruct (expand_some enc (level_width c f 0) [root]) as (l1 & E1 & L1 & N1).
  { apply width_ok. lia. } { destruct (width_ok 0 ltac:(lia)). cbn in *. lia. }
  rewrite Hmid in L1, N1 by lia. cbn in L1.
  destruct (send_levels_ok n 1 l1 L1 ltac:(lia)) as (leaves & ss & Es & Ls & Ll & Esum).
  unfold send_tree. fold D. replace (1 <=? D) with true by (symmetry; apply Nat.leb_le; lia). cbn [oassert obind].
  assert (Esl : send_levels enc c f D 0 [root] = Some (leaves, level_sums l1 :: ss)).
  { rewrite En. remember (S n) as n1. cbn [send_levels]. rewrite E1. cbn [obind]. subst n1. cbn [Nat.add]. rewrite Es. reflexivity. }
  rewrite Esl. cbn [obind]. rewrite Hso, Nat.leb_refl. cbn [oassert obind].
  replace (D - 1) with (S n) by lia. change (nth_error (level_sums l1 :: ss) (S n)) with (nth_error ss n).
  rewrite (nth_error_nth' ss (0%N, 0%N)) by lia. rewrite Esum.
  rewrite (nth_error_nth' sots (0%N, 0%N)) by lia.
  destruct (level_sums leaves) as [s0 s1] eqn:Els. destruct (nth (S n) sots (0%N, 0%N)) as [o0 o1] eqn:Eo.
  cbn [obind]. do 2 eexists. split; [reflexivity|]. split; [rewrite Ll; f_equal; lia|]. apply ex_some.
  destruct (rots_nth 0 ltac:(lia)) as (c0 & Ec0 & Er0).
  destruct (rots_nth (S n) ltac:(lia)) as (cl & Ecl & Erl). rewrite Eo in Erl.
  set (sums := zip_with (fun s o : N * N => (N.lxor (fst s) (fst o), N.lxor (snd s) (snd o)))
                 (firstn (S n) (level_sums l1 :: ss)) (firstn (S n) sots)).
  assert (Hsums : forall k, k < S n -> nth_error sums k
     = Some (mask1 (nth k (level_sums l1 :: ss) (0%N, 0%N)) (nth k sots (0%N, 0%N)))).
  { intros k Hk. unfold sums. change (mask1 (nth k (level_sums l1 :: ss) (0%N, 0%N)) (nth k sots (0%N, 0%N)))
      with ((fun s o : N * N => (N.lxor (fst s) (fst o), N.lxor (snd s) (snd o))) (nth k (level_sums l1 :: ss) (0%N, 0%N)) (nth k sots (0%N, 0%N))).
    apply nth_error_zip_with; rewrite nth_error_firstn_lt by lia; apply nth_error_nth'; cbn [length]; lia. }
  unfold recv_tree. cbn [tm_sums tm_last]. rewrite Ec0, Er0. cbn [obind].
  rewrite (Hsums 0) by lia. cbn [obind nth]. rewrite side_mask.
  set (x := N.lxor (side c0 (nth 0 sots (0%N, 0%N))) (N.lxor (side c0 (level_sums l1)) (side c0 (nth 0 sots (0%N, 0%N))))).
  assert (Ex : x = side c0 (level_sums l1)) by (unfold x; nxor).
  destruct l1 as [|g0 [|g1 [|]]]; try discriminate. cbn [level_sums] in Ex. rewrite !N.lxor_0_r in Ex.
  destruct (levels_sync sums n 1 [g0; g1] (if c0 then [0%N; x] else [x; 0%N]) (0%N, 0%N) leaves ss) as (lv & Erec & Alv);
    try eassumption; try lia.
  { replace (anode choices 1) with (if c0 then 0 else 1) by (rewrite (anode_S choices 0 c0 Ec0); cbn; destruct c0; auto).
    split; [destruct c0; auto|]. intros [|[|i]] Hi Hne; cbn [length] in Hi; try lia; destruct c0; try lia; cbn; rewrite Ex; auto. }
  { intros k Hk. rewrite Hsums by lia. auto. }
  fold D. replace (D - 1) with (S n) by lia. rewrite Erec. cbn [obind]. rewrite Erl. cbn [obind].
  assert (Ea : active_path choices = 2 * anode choices (S n) + (if cl then 0 else 1)).
  { rewrite <- (anode_S choices (S n) cl Ecl). rewrite <- anode_shift by lia. rewrite Hch, En, Nat.sub_diag. reflexivity. }
  rewrite Ea, sibling_eq, odd_b.
  replace (D - 1) with (S n) in * by lia.
  pose proof (proj1 Hlast) as Hev. rewrite <- Ll in Hev, Hp. rewrite Ea in Hp.
  pose proof (Nat.div_mod (length leaves) 2 ltac:(lia)) as Hdm.
  assert (Hbig : 2 * anode choices (S n) + 1 < length leaves) by (destruct cl; lia).
  pose proof (sums_fix leaves lv _ cl Hev Hbig Alv) as SF1.
  pose proof (sums_fix leaves lv _ (negb cl) Hev Hbig Alv) as SF2. rewrite Els in SF1, SF2.
  destruct Alv as [Llv Alv]. set (a := anode choices (S n)) in *.
  rewrite (nth_error_nth' lv 0%N) by (destruct cl; lia). cbn [obind].
  rewrite (nth_error_nth' lv 0%N) by (destruct cl; lia). cbn [obind].
  split; [rewrite !upd_length; auto|]. split; [lia|].
  intros i Hi. rewrite !upd_nth, !upd_length. rewrite <- Llv.
  replace (2 * a + (if cl then 0 else 1) <? length leaves) with true by (symmetry; apply Nat.ltb_lt; lia).
  replace (2 * a + (if cl then 1 else 0) <? length leaves) with true by (symmetry; apply Nat.ltb_lt; destruct cl; lia).
  rewrite !andb_true_r, (Nat.eqb_sym i).
  destruct (Nat.eqb_spec (2 * a + (if cl then 0 else 1)) i) as [Ei|Ei].
  - subst i. destruct cl; cbn [side negb fst snd] in *;
    match goal with |- N.lxor (N.lxor (N.lxor (N.lxor ?s ?v) ?h) ?h) (N.lxor ?m ?g) = N.lxor ?t ?v =>
      replace (N.lxor (N.lxor (N.lxor (N.lxor s v) h) h) (N.lxor m g)) with (N.lxor v (N.lxor (N.lxor s m) g)) by nxor end;
    rewrite SF2; nxor.
  - destruct (Nat.eqb_spec (2 * a + (if cl then 1 else 0)) i) as [Ej|Ej].
    + subst i. destruct cl; cbn [side negb fst snd] in *;
      match goal with |- N.lxor (N.lxor (N.lxor ?s ?h) ?h) (N.lxor ?m ?g) = ?t =>
        replace (N.lxor (N.lxor (N.lxor s h) h) (N.lxor m g)) with (N.lxor (N.lxor s m) g) by nxor end;
      rewrite SF1; nxor.
    + apply Alv; auto. intros Hq. pose proof (Nat.div_mod i 2 ltac:(lia)). pose proof (Nat.mod_upper_bound i 2 ltac:(lia)).
      destruct cl; lia.
Qed.
End Tree.
