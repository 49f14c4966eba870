(** Proofs about low_depth_reduce. *)
From Coq Require Import List Bool Arith Lia.
Require Import Verif.Prelude Verif.PreludeProofs Verif.BuilderModel Verif.BuilderSpec.
Import ListNotations.

(** Pure pass and loop. *)
Fixpoint pp {A} (f : A -> A -> A) (l : list A) : list A :=
  match l with x :: y :: r => f x y :: pp f r | _ => l end.

Lemma list_ind2 {A} (Q : list A -> Prop) :
  Q [] -> (forall x, Q [x]) -> (forall x y l, Q l -> Q (x :: y :: l)) -> forall l, Q l.
Proof.
  intros H0 H1 H2. fix IH 1. intros [|x [|y l]]; [exact H0|exact (H1 x)|exact (H2 x y l (IH l))].
Qed.

Lemma pp_length {A} (f : A -> A -> A) l : length (pp f l) = length l - length l / 2.
Proof.
  induction l as [|x|x y l IH] using list_ind2; auto. cbn [pp length]. rewrite IH.
  change (S (S (length l))) with (2 + length l). replace (2 + length l) with (1 * 2 + length l) by lia.
  rewrite Nat.div_add_l by lia. pose proof (Nat.div_le_upper_bound (length l) 2 (length l)). lia.
Qed.

Lemma pp_shrinks {A} (f : A -> A -> A) l : 1 < length l -> length (pp f l) < length l /\ 1 <= length (pp f l).
Proof.
  intros H. rewrite pp_length. assert (1 <= length l / 2) by (apply Nat.div_le_lower_bound; lia).
  assert (length l / 2 < length l) by (apply Nat.div_lt; lia). lia.
Qed.

Fixpoint lp {A} (f : A -> A -> A) (n : nat) (l : list A) : list A :=
  match n with 0 => l | S k => if 1 <? length l then lp f k (pp f l) else l end.

Lemma lp_one {A} (f : A -> A -> A) n : forall l, length l <= n -> l <> [] -> exists x, lp f n l = [x].
Proof.
  induction n as [|n IH]; intros l Hl Hne; [destruct l; [congruence|simpl in Hl; lia]|].
  cbn [lp]. destruct (Nat.ltb_spec 1 (length l)).
  - destruct (pp_shrinks f l H) as [A1 A2]. apply IH; [lia|]. intros E. rewrite E in A2. simpl in A2. lia.
  - destruct l as [|x [|y l]]; [congruence|eauto|simpl in *; lia].
Qed.

Definition counted {A} (f : A -> A -> A) : nat -> A -> A -> option (nat * A) :=
  fun k x y => Some (S k, f x y).

Lemma ldr_pass_counted {A} (f : A -> A -> A) l : forall k,
  ldr_pass (counted f) k l = Some (k + (length l - length (pp f l)), pp f l).
Proof.
  induction l as [|x|x y l IH] using list_ind2; intros k.
  - simpl. rewrite Nat.add_0_r. auto.
  - simpl. rewrite Nat.add_0_r. auto.
  - cbn [ldr_pass counted obind]. rewrite IH. cbn [obind pp length]. do 2 f_equal.
    pose proof (pp_length f l). pose proof (Nat.div_le_upper_bound (length l) 2 (length l)). lia.
Qed.

Lemma lp_length {A} (f : A -> A -> A) n : forall l, length (lp f n l) <= length l.
Proof.
  induction n as [|n IH]; intros l; cbn [lp]; auto. destruct (Nat.ltb_spec 1 (length l)); auto.
  destruct (pp_shrinks f l H). specialize (IH (pp f l)). lia.
Qed.

Lemma ldr_loop_counted {A} (f : A -> A -> A) n : forall l k,
  ldr_loop (counted f) n k l = Some (k + (length l - length (lp f n l)), lp f n l).
Proof.
  induction n as [|n IH]; intros l k; cbn [ldr_loop lp].
  - rewrite Nat.sub_diag, Nat.add_0_r. auto.
  - destruct (Nat.ltb_spec 1 (length l)).
    + rewrite ldr_pass_counted. cbn [obind]. rewrite IH. do 2 f_equal.
      destruct (pp_shrinks f l H). pose proof (lp_length f n (pp f l)). lia.
    + rewrite Nat.sub_diag, Nat.add_0_r. auto.
Qed.

Lemma ldr_counted {A} (f : A -> A -> A) k l : l <> [] ->
  exists x, low_depth_reduce (counted f) k l = Some (k + (length l - 1), Some x) /\ lp f (length l) l = [x].
Proof.
  intros H. destruct (lp_one f (length l) l (le_n _) H) as (x & E). exists x. split; auto.
  unfold low_depth_reduce. rewrite ldr_loop_counted, E. cbn [obind length]. reflexivity.
Qed.

(** Homomorphisms. *)
Lemma pp_map {A B} (f : A -> A -> A) (g : B -> B -> B) (h : A -> B) l :
  (forall x y, h (f x y) = g (h x) (h y)) -> map h (pp f l) = pp g (map h l).
Proof.
  intros H. induction l as [|x|x y l IH] using list_ind2; auto. cbn [pp map]. rewrite H, IH. auto.
Qed.

Lemma lp_map {A B} (f : A -> A -> A) (g : B -> B -> B) (h : A -> B) n :
  (forall x y, h (f x y) = g (h x) (h y)) -> forall l, map h (lp f n l) = lp g n (map h l).
Proof.
  intros H. induction n as [|n IH]; intros l; auto. cbn [lp]. rewrite map_length.
  destruct (1 <? length l); auto. rewrite IH, (pp_map f g h); auto.
Qed.

Fixpoint eval {A} (f : A -> A -> A) (t : nest A) : A :=
  match t with Leaf x => x | Node l r => f (eval f l) (eval f r) end.

Lemma lp_tree {A} (f : A -> A -> A) n l : lp f n l = map (eval f) (lp Node n (map Leaf l)).
Proof.
  rewrite (lp_map Node f (eval f)) by auto. f_equal. rewrite map_map. simpl. symmetry. apply map_id.
Qed.

Lemma pp_leaves {A} (l : list (nest A)) : flat_map leaves (pp Node l) = flat_map leaves l.
Proof.
  induction l as [|x|x y l IH] using list_ind2; auto. cbn [pp flat_map leaves]. rewrite IH, app_assoc. auto.
Qed.

Lemma lp_leaves {A} n : forall l : list (nest A), flat_map leaves (lp Node n l) = flat_map leaves l.
Proof.
  induction n as [|n IH]; intros l; auto. cbn [lp]. destruct (1 <? length l); auto. rewrite IH, pp_leaves. auto.
Qed.

Lemma pp_depth {A} d (l : list (nest A)) : Forall (fun t => depth t <= d) l ->
  Forall (fun t => depth t <= S d) (pp Node l).
Proof.
  induction l as [|x|x y l IH] using list_ind2; intros H; cbn [pp].
  - constructor.
  - inversion H; subst. constructor; auto.
  - inversion H as [|? ? H1 H2]; subst. inversion H2 as [|? ? H3 H4]; subst. constructor; auto. simpl. lia.
Qed.

Lemma log2_up_half n : 1 < n -> Nat.log2_up n = S (Nat.log2_up (n - n / 2)).
Proof.
  intros H. pose proof (Nat.div_mod n 2 ltac:(lia)) as E. pose proof (Nat.mod_upper_bound n 2 ltac:(lia)).
  set (q := n / 2) in *. destruct (Nat.eq_dec (n mod 2) 0) as [E0|E0].
  - replace n with (2 * q) by lia. rewrite Nat.log2_up_double by lia. f_equal. f_equal. lia.
  - assert (n mod 2 = 1) by lia. replace n with (2 * q + 1) by lia. rewrite Nat.log2_up_succ_double by lia.
    replace (2 * q + 1 - q) with (S q) by lia. rewrite Nat.log2_up_eqn by lia. auto.
Qed.

Lemma lp_depth {A} n : forall (l : list (nest A)) d, length l <= n -> l <> [] ->
  Forall (fun t => depth t <= d) l -> Forall (fun t => depth t <= d + Nat.log2_up (length l)) (lp Node n l).
Proof.
  induction n as [|n IH]; intros l d Hl Hne H.
  - destruct l; [congruence|simpl in Hl; lia].
  - cbn [lp]. destruct (Nat.ltb_spec 1 (length l)) as [H1|H1].
    + destruct (pp_shrinks Node l H1) as [A1 A2]. rewrite log2_up_half by auto. rewrite <- (pp_length Node).
      eapply Forall_impl; [|apply (IH (pp Node l) (S d)); [lia| |apply pp_depth; auto]].
      * simpl. intros. lia.
      * intros E. rewrite E in A2. simpl in A2. lia.
    + eapply Forall_impl; [|exact H]. simpl. intros. lia.
Qed.

Lemma leaves_depth {A} (t : nest A) : length (leaves t) <= 2 ^ depth t.
Proof.
  induction t as [x|l IHl r IHr]; simpl; auto. rewrite app_length.
  assert (2 ^ depth l <= 2 ^ max (depth l) (depth r)) by (apply Nat.pow_le_mono_r; lia).
  assert (2 ^ depth r <= 2 ^ max (depth l) (depth r)) by (apply Nat.pow_le_mono_r; lia). lia.
Qed.

Lemma leaves_pos {A} (t : nest A) : 1 <= length (leaves t).
Proof. induction t; simpl; auto. rewrite app_length. lia. Qed.

Lemma nodes_leaves {A} (t : nest A) : length (leaves t) = S (nodes t).
Proof. induction t; simpl; auto. rewrite app_length. lia. Qed.

Lemma log2_up_le_depth {A} (t : nest A) : Nat.log2_up (length (leaves t)) <= depth t.
Proof.
  destruct (Nat.le_gt_cases (length (leaves t)) 1) as [H|H].
  - rewrite Nat.log2_up_eqn0 by auto. lia.
  - apply Nat.log2_up_le_pow2; [lia|]. apply leaves_depth.
Qed.

(** Associative operations. *)
Lemma fold_left_assoc {A} (f : A -> A -> A) : (forall x y z, f (f x y) z = f x (f y z)) ->
  forall l x y, fold_left f l (f x y) = f x (fold_left f l y).
Proof. intros H. induction l as [|z l IH]; intros x y; simpl; auto. rewrite H. apply IH. Qed.

Lemma eval_combine {A} (f : A -> A -> A) t : (forall x y z, f (f x y) z = f x (f y z)) ->
  combine_all f (leaves t) = Some (eval f t).
Proof.
  intros H. induction t as [x|l IHl r IHr]; auto. simpl. destruct (leaves l) as [|x xs]; [discriminate|].
  destruct (leaves r) as [|y ys]; [discriminate|]. simpl in *. injection IHl as <-. injection IHr as <-.
  rewrite fold_left_app. simpl. f_equal. apply fold_left_assoc. auto.
Qed.

(** Stateful operations: success, growth of the state and values. *)
Section Stateful.
Variables (B S V T : Type) (f : B -> S -> S -> option (B * S)) (key : S -> nat).
Variables (wf : B -> Prop) (grow : B -> B -> Prop) (ok : B -> S -> Prop) (valid : B -> V -> Prop) (val : V -> S -> T) (op : T -> T -> T).
Hypothesis grow_refl : forall b, wf b -> grow b b.
Hypothesis grow_trans : forall a b c, grow a b -> grow b c -> grow a c.
Hypothesis grow_wf : forall a b, wf a -> grow a b -> wf b.
Hypothesis grow_ok : forall a b s, grow a b -> ok a s -> ok b s.
Hypothesis grow_valid : forall a b v, grow a b -> valid b v -> valid a v.
Hypothesis f_spec : forall b x y, wf b -> ok b x -> ok b y ->
  if key x =? key y then
    exists b' z, f b x y = Some (b', z) /\ grow b b' /\ ok b' z /\ key z = key x /\
      forall v, valid b' v -> val v z = op (val v x) (val v y)
  else f b x y = None.

Definition all_key (k : nat) (l : list S) : Prop := Forall (fun x => key x = k) l.

Lemma pass_stateful l : forall b k, wf b -> Forall (ok b) l -> all_key k l ->
  exists b' l', ldr_pass f b l = Some (b', l') /\ grow b b' /\ Forall (ok b') l' /\ all_key k l' /\
    forall v, valid b' v -> map (val v) l' = pp op (map (val v) l).
Proof.
  induction l as [|x|x y l IH] using list_ind2; intros b k Hw Ho Hk.
  - exists b, []. repeat split; auto.
  - exists b, [x]. repeat split; auto.
  - inversion Ho as [|? ? O1 O2]; subst. inversion O2 as [|? ? O3 O4]; subst.
    inversion Hk as [|? ? K1 K2]; subst. inversion K2 as [|? ? K3 K4]; subst.
    pose proof (f_spec b x y Hw O1 O3) as F. rewrite K3, Nat.eqb_refl in F.
    destruct F as (b1 & z & E1 & G1 & Oz & Kz & Vz).
    assert (O4' : Forall (ok b1) l) by (eapply Forall_impl; [|exact O4]; simpl; eauto).
    destruct (IH b1 (key x) (grow_wf _ _ Hw G1) O4' K4) as (b2 & l' & E2 & G2 & O5 & K5 & V2).
    exists b2, (z :: l'). cbn [ldr_pass]. rewrite E1. cbn [obind]. rewrite E2. split; [reflexivity|].
    split; [eauto|]. split; [constructor; eauto|]. split; [constructor; auto; congruence|].
    intros v Hv. cbn [map pp]. rewrite Vz, V2; eauto.
Qed.

Lemma loop_stateful n : forall l b k, wf b -> Forall (ok b) l -> all_key k l ->
  exists b' l', ldr_loop f n b l = Some (b', l') /\ grow b b' /\ Forall (ok b') l' /\ all_key k l' /\
    forall v, valid b' v -> map (val v) l' = lp op n (map (val v) l).
Proof.
  induction n as [|n IH]; intros l b k Hw Ho Hk; cbn [ldr_loop lp].
  - exists b, l. repeat split; auto.
  - destruct (1 <? length l) eqn:E1.
    + destruct (pass_stateful l b k Hw Ho Hk) as (b1 & l1 & E & G & O1 & K1 & V1).
      destruct (IH l1 b1 k (grow_wf _ _ Hw G) O1 K1) as (b2 & l2 & E2 & G2 & O2 & K2 & V2).
      exists b2, l2. rewrite E. cbn [obind]. split; auto. split; [eauto|]. split; auto. split; auto.
      intros v Hv. rewrite map_length, E1, V2, V1; eauto.
    + exists b, l. repeat split; auto. intros v _. rewrite map_length, E1. auto.
Qed.

Lemma pass_len l : forall b b1 l1, ldr_pass f b l = Some (b1, l1) -> length l1 = length (pp (fun x _ : S => x) l).
Proof.
  induction l as [|x|x y l IH] using list_ind2; intros b b1 l1 E2.
  - injection E2 as <- <-. auto.
  - injection E2 as <- <-. auto.
  - cbn [ldr_pass] in E2. destruct (f b x y) as [[b2 z]|]; [|discriminate]. cbn [obind] in E2.
    destruct (ldr_pass f b2 l) as [[b3 zs]|] eqn:E3; [|discriminate]. injection E2 as <- <-.
    cbn [pp length]. f_equal. eapply IH; eauto.
Qed.

Lemma lp_len_eq n : forall (l1 l2 : list S), length l1 = length l2 ->
  length (lp (fun x _ : S => x) n l1) = length (lp (fun x _ : S => x) n l2).
Proof.
  induction n as [|n IH]; intros l1 l2 H; auto. cbn [lp]. rewrite H. destruct (1 <? length l2); auto.
  apply IH. rewrite !pp_length. congruence.
Qed.

Lemma loop_len n : forall b l b' l', ldr_loop f n b l = Some (b', l') -> length l' = length (lp (fun x _ : S => x) n l).
Proof.
  induction n as [|n IH]; intros b l b' l' E; cbn [ldr_loop lp] in *.
  - injection E as <- <-. auto.
  - destruct (1 <? length l) eqn:E1; [|injection E as <- <-; auto].
    destruct (ldr_pass f b l) as [[b1 l1]|] eqn:E2; [|discriminate]. cbn [obind] in E.
    rewrite (IH _ _ _ _ E). apply lp_len_eq. eapply pass_len; eauto.
Qed.

Hypothesis op_assoc : forall x y z, op (op x y) z = op x (op y z).

Lemma reduce_stateful l b k : wf b -> Forall (ok b) l -> all_key k l -> l <> [] ->
  exists b' z, low_depth_reduce f b l = Some (b', Some z) /\ grow b b' /\ ok b' z /\ key z = k /\
    forall v, valid b' v -> combine_all op (map (val v) l) = Some (val v z).
Proof.
  intros Hw Ho Hk Hne. destruct (loop_stateful (length l) l b k Hw Ho Hk) as (b' & l' & E & G & O & K & HV).
  assert (Hlen : forall v, valid b' v -> exists z, l' = [z] /\ combine_all op (map (val v) l) = Some (val v z)).
  { intros v Hv. pose proof (HV v Hv) as E1. rewrite lp_tree in E1.
    destruct (lp_one Node (length l) (map Leaf (map (val v) l))) as (t & Et).
    - rewrite !map_length. auto.
    - destruct l; [congruence|discriminate].
    - rewrite Et in E1. destruct l' as [|z [|? ?]]; try discriminate. exists z. split; auto. injection E1 as E1.
      pose proof (lp_leaves (length l) (map Leaf (map (val v) l))) as E2. rewrite Et in E2. cbn [flat_map] in E2.
      rewrite app_nil_r in E2. assert (E3 : flat_map leaves (map Leaf (map (val v) l)) = map (val v) l).
      { generalize (map (val v) l) as q. induction q; simpl; auto. f_equal; auto. }
      rewrite E3 in E2. rewrite <- E2, eval_combine by auto. congruence. }
  assert (Hl : exists z, l' = [z]).
  { pose proof (lp_one (fun x y : S => x) (length l) l (le_n _) Hne) as (x & Ex).
    assert (El : length l' = length (lp (fun x y : S => x) (length l) l)).
    { eapply loop_len; eauto. }
    rewrite Ex in El. destruct l' as [|z [|? ?]]; try discriminate. eauto. }
  destruct Hl as (z & ->). exists b', z. unfold low_depth_reduce. rewrite E. cbn [obind length Nat.leb oassert map last].
  split; auto. split; auto. inversion O; subst. split; auto. inversion K; subst. split; auto.
  intros v Hv. destruct (Hlen v Hv) as (z' & Ez & Hc). injection Ez as <-. auto.
Qed.

(** Different keys are never reduced together. *)
Lemma pass_keys l : forall b b' l' k, wf b -> Forall (ok b) l -> ldr_pass f b l = Some (b', l') -> all_key k l' ->
  all_key k l /\ Forall (ok b') l'.
Proof.
  induction l as [|x|x y l IH] using list_ind2; intros b b' l' k Hw Ho H Hk.
  - injection H as <- <-. auto.
  - injection H as <- <-. auto.
  - inversion Ho as [|? ? O1 O2]; subst. inversion O2 as [|? ? O3 O4]; subst. cbn [ldr_pass] in H.
    pose proof (f_spec b x y Hw O1 O3) as F. destruct (Nat.eqb_spec (key x) (key y)) as [Exy|Exy].
    + destruct F as (b1 & z & E1 & G1 & Oz & Kz & _). rewrite E1 in H. cbn [obind] in H.
      destruct (ldr_pass f b1 l) as [[b2 zs]|] eqn:E2; [|discriminate]. injection H as <- <-.
      inversion Hk as [|? ? K1 K2]; subst.
      assert (O4' : Forall (ok b1) l) by (eapply Forall_impl; [|exact O4]; simpl; eauto).
      destruct (IH b1 b2 zs (key z) (grow_wf _ _ Hw G1) O4' E2 K2) as [I1 I2].
      assert (G2 : grow b1 b2).
      { destruct (pass_stateful l b1 (key z) (grow_wf _ _ Hw G1) O4' I1) as (b3 & l3 & E3 & G3 & _). congruence. }
      split; [constructor; [congruence|constructor; [congruence|auto]]|]. constructor; eauto.
    + rewrite F in H. discriminate.
Qed.

Lemma loop_keys n : forall l b b' l' k, wf b -> Forall (ok b) l -> ldr_loop f n b l = Some (b', l') -> all_key k l' ->
  all_key k l.
Proof.
  induction n as [|n IH]; intros l b b' l' k Hw Ho H Hk; cbn [ldr_loop] in H.
  - injection H as <- <-. auto.
  - destruct (1 <? length l); [|injection H as <- <-; auto].
    destruct (ldr_pass f b l) as [[b1 l1]|] eqn:E; [|discriminate]. cbn [obind] in H.
    assert (HH : wf b1 /\ Forall (ok b1) l1).
    { clear - E Hw Ho f_spec grow_wf grow_ok grow_trans grow_refl. revert b b1 l1 E Hw Ho.
      induction l as [|x|x y l IH] using list_ind2; intros b b1 l1 E Hw Ho.
      - injection E as <- <-. auto.
      - injection E as <- <-. auto.
      - inversion Ho as [|? ? O1 O2]; subst. inversion O2 as [|? ? O3 O4]; subst. cbn [ldr_pass] in E.
        pose proof (f_spec b x y Hw O1 O3) as F. destruct (key x =? key y); [|rewrite F in E; discriminate].
        destruct F as (b2 & z & E1 & G1 & Oz & Kz & _). rewrite E1 in E. cbn [obind] in E.
        destruct (ldr_pass f b2 l) as [[b3 zs]|] eqn:E2; [|discriminate]. injection E as <- <-.
        assert (O4' : Forall (ok b2) l) by (eapply Forall_impl; [|exact O4]; simpl; eauto).
        destruct (IH b2 b3 zs E2 (grow_wf _ _ Hw G1) O4') as [I1 I2]. split; auto. constructor; auto.
        assert (G2 : forall l b b' l', ldr_pass f b l = Some (b', l') -> wf b -> Forall (ok b) l -> grow b b').
        { clear - f_spec grow_wf grow_ok grow_trans grow_refl.
          induction l as [|x|x y l IH] using list_ind2; intros b b' l' E Hw Ho.
          - injection E as <- <-. auto.
          - injection E as <- <-. auto.
          - inversion Ho as [|? ? O1 O2]; subst. inversion O2 as [|? ? O3 O4]; subst. cbn [ldr_pass] in E.
            pose proof (f_spec b x y Hw O1 O3) as F. destruct (key x =? key y); [|rewrite F in E; discriminate].
            destruct F as (b2 & z & E1 & G1 & Oz & Kz & _). rewrite E1 in E. cbn [obind] in E.
            destruct (ldr_pass f b2 l) as [[b3 zs]|] eqn:E2; [|discriminate]. injection E as <- <-.
            eapply grow_trans; [exact G1|]. eapply IH; eauto. eapply Forall_impl; [|exact O4]; simpl; eauto. }
        eapply grow_ok; [|exact Oz]. eapply G2; eauto. }
    destruct HH as [Hw1 Ho1]. pose proof (IH l1 b1 b' l' k Hw1 Ho1 H Hk) as K1.
    exact (proj1 (pass_keys l b b1 l1 k Hw Ho E K1)).
Qed.

Lemma reduce_keys l b b' z : wf b -> Forall (ok b) l -> low_depth_reduce f b l = Some (b', Some z) ->
  all_key (key z) l.
Proof.
  intros Hw Ho H. unfold low_depth_reduce in H.
  destruct (ldr_loop f (length l) b l) as [[b1 r]|] eqn:E; [|discriminate]. cbn [obind] in H.
  destruct r as [|x [|y r]]; cbn [length Nat.leb oassert obind map last] in H; try discriminate.
  injection H as <- <-. eapply loop_keys; eauto. constructor; auto.
Qed.
End Stateful.
