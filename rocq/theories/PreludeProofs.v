(** Lemmas about the helpers of Prelude.v. *)
From Coq Require Import List Bool Arith Lia.
Require Import Verif.Prelude.
Import ListNotations.

Lemma zip_with_length {A B C} (f : A -> B -> C) xs ys :
  length (zip_with f xs ys) = Nat.min (length xs) (length ys).
Proof. revert ys; induction xs; destruct ys; simpl; auto. Qed.

Lemma zip_with_app {A B C} (f : A -> B -> C) xs1 xs2 ys1 ys2 :
  length xs1 = length ys1 ->
  zip_with f (xs1 ++ xs2) (ys1 ++ ys2) = zip_with f xs1 ys1 ++ zip_with f xs2 ys2.
Proof.
  revert ys1; induction xs1; destruct ys1; simpl; intros H; try discriminate; auto.
  f_equal; auto.
Qed.

Lemma zip_with_firstn {A B C} (f : A -> B -> C) n xs ys :
  firstn n (zip_with f xs ys) = zip_with f (firstn n xs) (firstn n ys).
Proof.
  revert xs ys; induction n; intros; simpl; auto.
  destruct xs, ys; simpl; auto; try rewrite IHn; auto.
Qed.

Lemma zip_with_skipn {A B C} (f : A -> B -> C) n xs ys :
  skipn n (zip_with f xs ys) = zip_with f (skipn n xs) (skipn n ys).
Proof.
  revert xs ys; induction n; intros; simpl; auto.
  destruct xs, ys; simpl; auto.
  destruct (skipn n xs); auto.
Qed.

Lemma zip_with_nth {A B C} (f : A -> B -> C) xs ys i da db dc :
  i < length xs -> i < length ys ->
  nth i (zip_with f xs ys) dc = f (nth i xs da) (nth i ys db).
Proof.
  revert xs ys; induction i; destruct xs, ys; simpl; intros; try lia; auto.
  apply IHi; lia.
Qed.

Lemma nth_firstn {A} i n (l : list A) d : i < n -> nth i (firstn n l) d = nth i l d.
Proof.
  revert n l; induction i; destruct n, l; simpl; intros; try lia; auto.
  apply IHi; lia.
Qed.

Lemma nth_skipn {A} i n (l : list A) d : nth i (skipn n l) d = nth (n + i) l d.
Proof.
  revert l; induction n; simpl; auto. destruct l; simpl; auto. destruct i; auto.
Qed.

Lemma nth_repeat_any {A} i n (x : A) : nth i (repeat x n) x = x.
Proof. revert i; induction n; destruct i; simpl; auto. Qed.

Lemma firstn_app_exact {A} (a b : list A) n : n = length a -> firstn n (a ++ b) = a.
Proof. intros ->. rewrite firstn_app, Nat.sub_diag, firstn_all. simpl. apply app_nil_r. Qed.

Lemma skipn_app_exact {A} (a b : list A) n : n = length a -> skipn n (a ++ b) = b.
Proof. intros ->. rewrite skipn_app, Nat.sub_diag, skipn_all. reflexivity. Qed.

Lemma list_ext {A} (d : A) (l1 l2 : list A) :
  length l1 = length l2 -> (forall i, i < length l1 -> nth i l1 d = nth i l2 d) -> l1 = l2.
Proof. intros. apply (nth_ext _ _ d d); auto. Qed.

Lemma oassert_true b : oassert b = Some tt <-> b = true.
Proof. destruct b; simpl; split; congruence. Qed.

Lemma upd_length {A} i (v : A) l : length (upd i v l) = length l.
Proof. revert i; induction l; destruct i; simpl; auto. Qed.

Lemma upd_nth_error_same {A} i (v : A) l : i < length l -> nth_error (upd i v l) i = Some v.
Proof. revert i; induction l; destruct i; simpl; intros; try lia; auto. apply IHl; lia. Qed.

Lemma upd_nth_error_other {A} i j (v : A) l : i <> j -> nth_error (upd i v l) j = nth_error l j.
Proof.
  revert i j; induction l; destruct i, j; simpl; intros; auto; try congruence.
Qed.

Lemma upd_nth {A} i j (v d : A) l :
  nth j (upd i v l) d = if (i =? j) && (i <? length l) then v else nth j l d.
Proof.
  revert i j; induction l; intros i j.
  - rewrite Bool.andb_false_r. destruct i, j; reflexivity.
  - destruct i, j; simpl; auto.
    rewrite IHl. reflexivity.
Qed.

Lemma omap_length {A B} (f : A -> option B) l r : omap f l = Some r -> length r = length l.
Proof.
  revert r; induction l; simpl; intros r H; [inversion H; auto|].
  destruct (f a); simpl in H; [|discriminate].
  destruct (omap f l) eqn:E; simpl in H; [|discriminate].
  inversion H; simpl; f_equal; auto.
Qed.

Lemma omap_app {A B} (f : A -> option B) l1 l2 :
  omap f (l1 ++ l2) = (a <- omap f l1 ;; b <- omap f l2 ;; Some (a ++ b)).
Proof.
  induction l1; simpl.
  - destruct (omap f l2); reflexivity.
  - destruct (f a); simpl; auto. rewrite IHl1.
    destruct (omap f l1); simpl; auto. destruct (omap f l2); reflexivity.
Qed.

Lemma omap_some {A B} (f : A -> option B) (g : A -> B) l :
  (forall x, In x l -> f x = Some (g x)) -> omap f l = Some (map g l).
Proof.
  induction l; simpl; intros H; auto.
  rewrite (H a) by auto. simpl. rewrite IHl by auto. reflexivity.
Qed.

Lemma omap_ext {A B} (f g : A -> option B) l :
  (forall x, In x l -> f x = g x) -> omap f l = omap g l.
Proof.
  induction l; simpl; intros H; auto. rewrite (H a) by auto. rewrite IHl by auto. reflexivity.
Qed.

Lemma ofold_app {S A} (f : S -> A -> option S) s l1 l2 :
  ofold f s (l1 ++ l2) = (s' <- ofold f s l1 ;; ofold f s' l2).
Proof. revert s; induction l1; simpl; intros; auto. destruct (f s a); simpl; auto. Qed.

Lemma sum_list_app a b : sum_list (a ++ b) = sum_list a + sum_list b.
Proof. induction a; simpl; auto. rewrite IHa. lia. Qed.
