(** C76: polynomials in the frequency domain and the quasi-cyclic encoder. *)
From Coq Require Import List Bool Arith NArith Lia.
Require Import Verif.Prelude Verif.PprfModel Verif.PprfProofs2 Verif.ZapUtilModel Verif.SilentModel Verif.FftModel.
Import ListNotations.

(** ** Specification *)

(** A polynomial over GF(2) is its sequence of coefficients. *)
Definition pol := nat -> bool.
(** The polynomial in a slice of 64-bit words. *)
Definition wbit (ws : list N) : pol := fun j => N.testbit (nth (j / 64) ws 0%N) (N.of_nat (j mod 64)).
(** Product and sum. *)
Definition pmul (f g : pol) : pol := fun k => fold_right xorb false (map (fun i => f i && g (k - i)) (seq 0 (S k))).
Definition padd (f g : pol) : pol := fun k => xorb (f k) (g k).
(** Degree below [d]. *)
Definition below (d : nat) (f : pol) : Prop := forall j, d <= j -> f j = false.

(** The sizes at which the C code works: powers of two, at least 256. *)
Definition size_ok (k : nat) : Prop := 256 <= k /\ exists e, k = 2 ^ e.

(** What is assumed of the C code: there is a notion of a buffer of [k] elements that
    represents a polynomial, for which it does what its documentation says. *)
Record lib_ok {E} (L : fft_lib E) (repr : nat -> list E -> pol -> Prop) : Prop := {
  lo_len : forall k x f, size_ok k -> repr k x f -> length x = k;
  lo_zero : forall k, size_ok k -> repr k (repeat (fl_zero L) k) (fun _ => false);
  lo_fft : forall k d, size_ok k -> length d = k -> repr k (fl_fft L d) (wbit d);
  lo_mul : forall k x y f g, size_ok k -> repr k x f -> repr k y g -> below (128 * k) (pmul f g) ->
             repr k (zip_with (fl_mul L) x y) (pmul f g);
  lo_add : forall k x y f g, size_ok k -> repr k x f -> repr k y g -> repr k (zip_with (fl_add L) x y) (padd f g);
  lo_dec : forall k x f, size_ok k -> repr k x f -> length (fl_dec L x) = 2 * k /\ forall j, j < 128 * k -> wbit (fl_dec L x) j = f j }.

(** Calls on numbered polynomials and caches. *)
Inductive fft_op := ONew | OCache | OClone (i : nat) | OResize (i n : nat) | OEncode (i : nat) (data : list N)
| OMult (i a b : nat) | OMultEq (i a : nat) | OAdd (i a b : nat) | OAddEq (i a : nat) | ODecode (i c dest : nat).
Definition get_at {A} (l : list A) (i : nat) : outcome A := match nth_error l i with Some x => Fine x | None => Panics end.
Definition put_at {A} (l : list A) (i : nat) (x : A) : list A := firstn i l ++ x :: skipn (S i) l.
Definition fft_step {E} (L : fft_lib E) (st : list (fft_poly E) * list (list N)) (o : fft_op) : outcome (list (fft_poly E) * list (list N)) :=
  let '(ps, cs) := st in
  match o with
  | ONew => Fine (ps ++ [fp_new], cs)
  | OCache => Fine (ps, cs ++ [[]])
  | OClone i => p <~ get_at ps i ;; Fine (ps ++ [p], cs)
  | OResize i n => p <~ get_at ps i ;; Fine (put_at ps i (fp_resize L p n), cs)
  | OEncode i d => p <~ get_at ps i ;; q <~ fp_encode L p d ;; Fine (put_at ps i q, cs)
  | OMult i a b => p <~ get_at ps i ;; x <~ get_at ps a ;; y <~ get_at ps b ;; q <~ fp_mult L p x y ;; Fine (put_at ps i q, cs)
  | OMultEq i a => p <~ get_at ps i ;; x <~ get_at ps a ;; q <~ fp_mult_eq L p x ;; Fine (put_at ps i q, cs)
  | OAdd i a b => p <~ get_at ps i ;; x <~ get_at ps a ;; y <~ get_at ps b ;; q <~ fp_add L p x y ;; Fine (put_at ps i q, cs)
  | OAddEq i a => p <~ get_at ps i ;; x <~ get_at ps a ;; q <~ fp_add_eq L p x ;; Fine (put_at ps i q, cs)
  | ODecode i c dest => p <~ get_at ps i ;; ch <~ get_at cs c ;; '(_, ch') <~ fp_decode L p ch dest ;; Fine (ps, put_at cs c ch')
  end.
Fixpoint fft_run {E} (L : fft_lib E) (st : list (fft_poly E) * list (list N)) (ops : list fft_op) : outcome (list (fft_poly E) * list (list N)) :=
  match ops with [] => Fine st | o :: ops => st' <~ fft_step L st o ;; fft_run L st' ops end.

(** ** Sizes *)
Definition fft_size (n : nat) : nat := Nat.max (2 ^ log2_ceil n) 256.
Lemma pow_ge a b : a <= b -> 2 ^ a <= 2 ^ b.
Proof. apply Nat.pow_le_mono_r. discriminate. Qed.
Lemma fft_size_ok n : size_ok (fft_size n).
Proof.
  unfold size_ok, fft_size. split; [apply Nat.le_max_r|]. destruct (Nat.max_spec (2 ^ log2_ceil n) 256) as [[_ ->]|[_ ->]]; [exists 8; reflexivity|eauto].
Qed.
Lemma fft_size_ge n : n <> 0 -> n <= fft_size n.
Proof.
  intros H. unfold fft_size. transitivity (2 ^ log2_ceil n); [|apply Nat.le_max_l]. unfold log2_ceil, log2_floor.
  destruct (2 ^ Nat.log2 n <? n) eqn:E.
  - destruct (Nat.log2_spec n) as [_ H2]; [lia|]. rewrite Nat.add_1_r. lia.
  - apply Nat.ltb_ge in E. exact E.
Qed.

Lemma resize_length {A} (l : list A) n x : length (vec_resize l n x) = n.
Proof. unfold vec_resize. rewrite app_length, firstn_length, repeat_length. lia. Qed.
Lemma resize_wbit (l : list N) n j : length l <= n -> wbit (vec_resize l n 0%N) j = wbit l j.
Proof.
  intros H. unfold wbit, vec_resize. f_equal. rewrite firstn_all2 by lia. destruct (Nat.lt_ge_cases (j / 64) (length l)) as [Hj|Hj].
  - rewrite app_nth1 by lia. reflexivity.
  - rewrite app_nth2 by lia. rewrite (nth_overflow l) by lia. apply nth_repeat.
Qed.
Lemma wbit_below ws : below (64 * length ws) (wbit ws).
Proof.
  intros j H. unfold wbit. rewrite nth_overflow; [apply N.bits_0|]. apply Nat.div_le_lower_bound; lia.
Qed.
Lemma pmul_below da db f g : below da f -> below db g -> below (da + db) (pmul f g).
Proof.
  intros Hf Hg j H. unfold pmul. assert (G : forall l, fold_right xorb false (map (fun i => f i && g (j - i)) l) = false).
  { induction l as [|i l IH]; auto. cbn [map fold_right]. rewrite IH. destruct (Nat.lt_ge_cases i da) as [Hi|Hi].
    - rewrite Hg by lia. rewrite andb_false_r. reflexivity.
    - rewrite Hf by lia. reflexivity. }
  apply G.
Qed.

(** The fields agree with the buffer. *)
Definition shape {E} (p : fft_poly E) : Prop :=
  p = FP 0 0 [] \/ fp_n p <> 0 /\ fp_pow p = fft_size (fp_n p) /\ length (fp_poly p) = fft_size (fp_n p).

Section Wrapper.
Context {E : Type} (L : fft_lib E).

Lemma resize_shape p n : shape p -> shape (fp_resize L p n) /\ fp_n (fp_resize L p n) = n.
Proof.
  intros H. unfold fp_resize. destruct (fp_n p =? n) eqn:E1; [apply Nat.eqb_eq in E1; auto|].
  destruct (n =? 0) eqn:E2; [apply Nat.eqb_eq in E2; subst; split; [left|]; reflexivity|].
  apply Nat.eqb_neq in E2. split; auto. right. cbn [fp_n fp_pow fp_poly]. split; auto. split; auto. apply resize_length.
Qed.

Lemma mul_loop_fine this a b : forall k i, i + k <= length this -> i + k <= length a -> i + k <= length b ->
  mul_loop L k i this a b = Fine (zip_with (fl_mul L) (firstn k (skipn i a)) (firstn k (skipn i b))).
Proof.
  induction k as [|k IH]; intros i H1 H2 H3; cbn [mul_loop]; [reflexivity|].
  destruct (nth_error this i) eqn:E1; [|apply nth_error_None in E1; lia].
  destruct (nth_error a i) as [x|] eqn:E2; [|apply nth_error_None in E2; lia].
  destruct (nth_error b i) as [y|] eqn:E3; [|apply nth_error_None in E3; lia].
  rewrite IH by lia. cbn [then_do].
  assert (G : forall l (v : E), nth_error l i = Some v -> skipn i l = v :: skipn (S i) l).
  { clear. induction i as [|i IH]; intros [|z l] v H; cbn in H; try discriminate; [injection H as ->; reflexivity|]. cbn [skipn]. rewrite (IH _ _ H). reflexivity. }
  rewrite (G _ _ E2), (G _ _ E3). reflexivity.
Qed.
Lemma mul_loop_in this a b : forall k i, mul_loop L k i this a b <> OutOfBounds.
Proof.
  induction k as [|k IH]; intros i; cbn [mul_loop]; [discriminate|]. destruct (nth_error this i), (nth_error a i), (nth_error b i); try discriminate.
  specialize (IH (S i)). destruct (mul_loop L k (S i) this a b); cbn; try discriminate. contradiction.
Qed.
Lemma mul_loop_length this a b : forall k i r, mul_loop L k i this a b = Fine r -> length r = k.
Proof.
  induction k as [|k IH]; intros i r H; cbn [mul_loop] in H; [injection H as <-; reflexivity|].
  destruct (nth_error this i), (nth_error a i), (nth_error b i); try discriminate.
  destruct (mul_loop L k (S i) this a b) eqn:E1; cbn in H; try discriminate. injection H as <-. cbn [length]. erewrite IH; eauto.
Qed.

(** *** Memory *)
Hypothesis fft_len : forall d, length (fl_fft L d) = length d.

Lemma encode_safe p d : shape p -> fp_encode L p d <> OutOfBounds /\ forall q, fp_encode L p d = Fine q -> shape q.
Proof.
  intros H. unfold fp_encode. destruct (resize_shape p (length d) H) as [H1 H2]. destruct (fp_resize L p (length d)) as [n pw l]. cbn [fp_n fp_pow fp_poly] in *.
  destruct H1 as [H1|(N0 & N1 & N2)]; [injection H1 as -> -> ->; cbn; split; [discriminate|intros q [= <-]; left; reflexivity]|]. cbn [fp_n fp_pow fp_poly] in *.
  rewrite (proj2 (Nat.eqb_neq n 0) N0). unfold check. destruct (negb _); cbn [then_do]; [|split; discriminate].
  destruct (fits_u32 pw); cbn [then_do]; [|split; discriminate].
  rewrite resize_length, N2, <- N1, Nat.leb_refl. cbn [andb need then_do]. split; [discriminate|]. intros q [= <-]. right. cbn [fp_n fp_pow fp_poly].
  split; auto. split; auto. rewrite app_length, fft_len, firstn_length, resize_length, skipn_length, N2, N1. lia.
Qed.
Lemma mult_safe p a b : shape p -> fp_mult L p a b <> OutOfBounds /\ forall q, fp_mult L p a b = Fine q -> shape q.
Proof.
  clear fft_len. intros H. unfold fp_mult, check. destruct (fp_pow a =? fp_pow b); cbn [then_do]; [|split; discriminate].
  destruct (resize_shape p (fp_n a) H) as [H1 H2]. destruct (fp_resize L p (fp_n a)) as [n pw l]. cbn [fp_n fp_pow fp_poly] in *.
  destruct (mul_loop L pw 0 l (fp_poly a) (fp_poly b)) as [r| |] eqn:Er; cbn [then_do]; [|split; discriminate|exfalso; exact (mul_loop_in _ _ _ _ _ Er)].
  split; [discriminate|]. intros q [= <-]. apply mul_loop_length in Er.
  destruct H1 as [H1|(N0 & N1 & N2)]; [injection H1 as -> -> ->; destruct r; [left; reflexivity|discriminate]|]. right. cbn [fp_n fp_pow fp_poly] in *.
  split; auto. split; auto. rewrite app_length, skipn_length. lia.
Qed.
Lemma add_safe p a b : shape p -> fp_add L p a b <> OutOfBounds /\ forall q, fp_add L p a b = Fine q -> shape q.
Proof.
  clear fft_len. intros H. unfold fp_add, check. destruct (fp_pow a =? fp_pow b); cbn [then_do]; [|split; discriminate].
  destruct (resize_shape p (fp_n a) H) as [H1 H2]. destruct (fp_resize L p (fp_n a)) as [n pw l]. cbn [fp_n fp_pow fp_poly] in *.
  split; [discriminate|]. intros q [= <-]. set (z := firstn (length l) (zip_with (fl_add L) (fp_poly a) (fp_poly b))).
  assert (Hz : length z <= length l) by (unfold z; apply firstn_le_length). clearbody z.
  destruct H1 as [H1|(N0 & N1 & N2)]; [injection H1 as -> -> ->; cbn in Hz; destruct z; [left; reflexivity|cbn in Hz; lia]|]. right. cbn [fp_n fp_pow fp_poly] in *.
  split; auto. split; auto. rewrite app_length, skipn_length. lia.
Qed.
Lemma decode_safe p c d : shape p -> fp_decode L p c d <> OutOfBounds.
Proof.
  clear fft_len. intros H. unfold fp_decode, check. destruct (d =? 2 * fp_n p); cbn [then_do]; [|discriminate].
  destruct H as [->|(N0 & N1 & N2)]; [cbn; discriminate|]. destruct (fp_pow p =? 0); cbn [negb then_do]; [discriminate|].
  destruct (fits_u32 (2 * fp_pow p)); cbn [then_do]; [|discriminate]. rewrite N2, <- N1, Nat.leb_refl. cbn [andb].
  assert (HC : 2 * fp_pow p <=? length (if length c <? 2 * fp_pow p then vec_resize c (2 * fp_pow p) 0%N else c) = true).
  { apply Nat.leb_le. destruct (length c <? 2 * fp_pow p) eqn:Ec; [rewrite resize_length; lia|apply Nat.ltb_ge in Ec; exact Ec]. }
  rewrite HC. cbn [need then_do]. destruct (d <=? _); cbn; discriminate.
Qed.
End Wrapper.

(** No sequence of calls makes the C code access memory outside of the buffers, with
    any arguments, also when calls panic; polynomials and caches can be reused in any
    way. *)
Theorem C76_memory :
  forall E (L : fft_lib E), (forall d, length (fl_fft L d) = length d) ->
  forall ops, fft_run L ([], []) ops <> OutOfBounds.
Proof.
  intros E L HF ops.
  assert (G : forall ops ps cs, Forall shape ps -> fft_run L (ps, cs) ops <> OutOfBounds); [|apply (G ops [] []); constructor].
  assert (HG : forall A (l : list A) i, get_at l i <> OutOfBounds) by (intros A l i; unfold get_at; destruct (nth_error l i); discriminate).
  assert (HS : forall ps i (p : fft_poly E), Forall shape ps -> get_at ps i = Fine p -> shape p).
  { intros ps i p H E1. unfold get_at in E1. destruct (nth_error ps i) as [x|] eqn:Ex; [|discriminate]. injection E1 as <-.
    apply nth_error_In in Ex. rewrite Forall_forall in H. auto. }
  assert (HP : forall ps i (p : fft_poly E), Forall shape ps -> shape p -> Forall shape (put_at ps i p)).
  { intros ps i p H H1. unfold put_at. rewrite <- (firstn_skipn i ps) in H at 1. apply Forall_app in H. destruct H as [A B]. apply Forall_app. split; auto. constructor; auto.
    destruct (skipn i ps) as [|y t] eqn:Es.
    - assert (Hl : length (skipn i ps) = 0) by (rewrite Es; reflexivity). rewrite skipn_length in Hl. rewrite skipn_all2 by lia. constructor.
    - assert (Hs : skipn (S i) ps = t). { clear -Es. revert ps Es. induction i as [|i IH]; intros [|z ps] Es; cbn in *; try discriminate; [injection Es as _ ->; reflexivity|]. apply IH. exact Es. }
      rewrite Hs. inversion B; auto. }
  clear ops. induction ops as [|o ops IH]; intros ps cs H; cbn [fft_run]; [discriminate|].
  assert (HX : fft_step L (ps, cs) o <> OutOfBounds /\ forall ps' cs', fft_step L (ps, cs) o = Fine (ps', cs') -> Forall shape ps').
  { destruct o as [| |i|i n|i d|i a b|i a|i a b|i a|i c dest]; cbn [fft_step].
    - split; [discriminate|]. intros ps' cs' [= <- <-]. apply Forall_app. split; auto. constructor; [left; reflexivity|constructor].
    - split; [discriminate|]. intros ps' cs' [= <- <-]. auto.
    - destruct (get_at ps i) eqn:E1; cbn [then_do]; [|split; discriminate|destruct (HG _ _ _ E1)]. split; [discriminate|]. intros ps' cs' [= <- <-].
      apply Forall_app. split; auto. constructor; [exact (HS _ _ _ H E1)|constructor].
    - destruct (get_at ps i) eqn:E1; cbn [then_do]; [|split; discriminate|destruct (HG _ _ _ E1)]. split; [discriminate|]. intros ps' cs' [= <- <-].
      apply HP; auto. apply resize_shape. exact (HS _ _ _ H E1).
    - destruct (get_at ps i) eqn:E1; cbn [then_do]; [|split; discriminate|destruct (HG _ _ _ E1)].
      destruct (encode_safe L HF a d (HS _ _ _ H E1)) as [S1 S2]. destruct (fp_encode L a d); cbn [then_do]; [|split; discriminate|contradiction].
      split; [discriminate|]. intros ps' cs' [= <- <-]. auto.
    - destruct (get_at ps i) as [p| |] eqn:E1; cbn [then_do]; [|split; discriminate|destruct (HG _ _ _ E1)].
      destruct (get_at ps a) as [x| |] eqn:E2; cbn [then_do]; [|split; discriminate|destruct (HG _ _ _ E2)].
      destruct (get_at ps b) as [y| |] eqn:E3; cbn [then_do]; [|split; discriminate|destruct (HG _ _ _ E3)].
      destruct (mult_safe L p x y (HS _ _ _ H E1)) as [S1 S2]. destruct (fp_mult L p x y); cbn [then_do]; [|split; discriminate|contradiction].
      split; [discriminate|]. intros ps' cs' [= <- <-]. auto.
    - destruct (get_at ps i) as [p| |] eqn:E1; cbn [then_do]; [|split; discriminate|destruct (HG _ _ _ E1)].
      destruct (get_at ps a) as [x| |] eqn:E2; cbn [then_do]; [|split; discriminate|destruct (HG _ _ _ E2)].
      unfold fp_mult_eq. destruct (mult_safe L p p x (HS _ _ _ H E1)) as [S1 S2]. destruct (fp_mult L p p x); cbn [then_do]; [|split; discriminate|contradiction].
      split; [discriminate|]. intros ps' cs' [= <- <-]. auto.
    - destruct (get_at ps i) as [p| |] eqn:E1; cbn [then_do]; [|split; discriminate|destruct (HG _ _ _ E1)].
      destruct (get_at ps a) as [x| |] eqn:E2; cbn [then_do]; [|split; discriminate|destruct (HG _ _ _ E2)].
      destruct (get_at ps b) as [y| |] eqn:E3; cbn [then_do]; [|split; discriminate|destruct (HG _ _ _ E3)].
      destruct (add_safe L p x y (HS _ _ _ H E1)) as [S1 S2]. destruct (fp_add L p x y); cbn [then_do]; [|split; discriminate|contradiction].
      split; [discriminate|]. intros ps' cs' [= <- <-]. auto.
    - destruct (get_at ps i) as [p| |] eqn:E1; cbn [then_do]; [|split; discriminate|destruct (HG _ _ _ E1)].
      destruct (get_at ps a) as [x| |] eqn:E2; cbn [then_do]; [|split; discriminate|destruct (HG _ _ _ E2)].
      unfold fp_add_eq. destruct (add_safe L p p x (HS _ _ _ H E1)) as [S1 S2]. destruct (fp_add L p p x); cbn [then_do]; [|split; discriminate|contradiction].
      split; [discriminate|]. intros ps' cs' [= <- <-]. auto.
    - destruct (get_at ps i) as [p| |] eqn:E1; cbn [then_do]; [|split; discriminate|destruct (HG _ _ _ E1)].
      destruct (get_at cs c) as [x| |] eqn:E2; cbn [then_do]; [|split; discriminate|destruct (HG _ _ _ E2)].
      pose proof (decode_safe L p x dest (HS _ _ _ H E1)) as S1. destruct (fp_decode L p x dest) as [[d' c']| |]; cbn [then_do]; [|split; discriminate|contradiction].
      split; [discriminate|]. intros ps' cs' [= <- <-]. auto. }
  destruct HX as [X1 X2]. destruct (fft_step L (ps, cs) o) as [[ps' cs']| |]; cbn [then_do]; [|discriminate|contradiction].
  apply IH. exact (X2 _ _ eq_refl).
Qed.
Print Assumptions C76_memory.

(** The product is commutative. *)
Lemma xor_app l m : fold_right xorb false (l ++ m) = xorb (fold_right xorb false l) (fold_right xorb false m).
Proof. induction l as [|x l IH]; cbn [app fold_right]; [destruct (fold_right xorb false m); reflexivity|]. rewrite IH, xorb_assoc. reflexivity. Qed.
Lemma xor_rev l : fold_right xorb false (rev l) = fold_right xorb false l.
Proof. induction l as [|x l IH]; auto. cbn [rev fold_right]. rewrite xor_app, IH. cbn [fold_right]. rewrite xorb_false_r. apply xorb_comm. Qed.
Lemma rev_seq k : rev (seq 0 (S k)) = map (fun i => k - i) (seq 0 (S k)).
Proof.
  induction k as [|k IH]; [reflexivity|]. rewrite (seq_S (S k)) at 1. rewrite rev_app_distr. cbn [rev app]. rewrite IH.
  change (seq 0 (S (S k))) with (0 :: seq 1 (S k)). cbn [map]. rewrite <- seq_shift, map_map. f_equal.
Qed.
Lemma pmul_comm f g j : pmul f g j = pmul g f j.
Proof.
  unfold pmul. rewrite <- xor_rev, <- map_rev, rev_seq, map_map. f_equal. apply map_ext_in. intros i Hi. apply in_seq in Hi.
  replace (j - (j - i)) with i by lia. apply andb_comm.
Qed.

(** ** Values *)
Section Values.
Context {E : Type} (L : fft_lib E) (repr : nat -> list E -> pol -> Prop).
Hypothesis OK : lib_ok L repr.

(** [p] holds a polynomial encoded from (or decoded to) [n] words (twice [n] words). *)
Definition holds (p : fft_poly E) (n : nat) (f : pol) : Prop :=
  n <> 0 /\ fp_n p = n /\ fp_pow p = fft_size n /\ repr (fft_size n) (fp_poly p) f.

Lemma holds_shape p n f : holds p n f -> shape p.
Proof.
  intros (H0 & H1 & H2 & H3). right. rewrite H1. split; auto. split; auto. exact (lo_len _ _ OK _ _ _ (fft_size_ok n) H3).
Qed.

Lemma encode_value p d : shape p -> d <> [] -> fits_u32 (fft_size (length d)) = true ->
  exists q f, fp_encode L p d = Fine q /\ holds q (length d) f /\ forall j, f j = wbit d j.
Proof.
  intros HS HD HF. unfold fp_encode. destruct (resize_shape L p (length d) HS) as [H1 H2]. destruct (fp_resize L p (length d)) as [n pw l]. cbn [fp_n fp_pow fp_poly] in *. subst n.
  assert (N0 : length d <> 0) by (destruct d; [contradiction|cbn; discriminate]).
  destruct H1 as [H1|(_ & N1 & N2)]; [injection H1 as H1 _ _; contradiction|]. cbn [fp_n fp_pow fp_poly] in *. subst pw.
  rewrite (proj2 (Nat.eqb_neq _ 0) N0). pose proof (fft_size_ok (length d)) as Hk. pose proof (fft_size_ge (length d) N0) as Hge. set (k := fft_size (length d)) in *.
  assert (K0 : k =? 0 = false) by (apply Nat.eqb_neq; destruct Hk; lia). rewrite K0. cbn [negb check then_do]. rewrite HF. cbn [check then_do].
  rewrite resize_length, N2, Nat.leb_refl. cbn [andb need then_do]. rewrite firstn_all2 by (rewrite resize_length; auto). rewrite skipn_all2 by lia. rewrite app_nil_r.
  exists (FP (length d) k (fl_fft L (vec_resize d k 0%N))), (wbit (vec_resize d k 0%N)). split; [reflexivity|]. split.
  - repeat split; auto. cbn [fp_poly]. apply (lo_fft _ _ OK); auto. apply resize_length.
  - intros j. apply resize_wbit. exact Hge.
Qed.

Lemma mult_value p a b na nb f g : shape p -> holds a na f -> holds b nb g -> fft_size na = fft_size nb -> below (128 * fft_size na) (pmul f g) ->
  exists q, fp_mult L p a b = Fine q /\ holds q na (pmul f g).
Proof.
  intros HS (A0 & A1 & A2 & A3) (B0 & B1 & B2 & B3) HE HB. unfold fp_mult. rewrite A2, B2, HE, Nat.eqb_refl. cbn [check then_do]. rewrite <- HE in *.
  destruct (resize_shape L p (fp_n a) HS) as [H1 H2]. rewrite A1 in *. destruct (fp_resize L p na) as [n pw l]. cbn [fp_n fp_pow fp_poly] in *. subst n.
  destruct H1 as [H1|(_ & N1 & N2)]; [injection H1 as H1 _ _; contradiction|]. cbn [fp_n fp_pow fp_poly] in *. subst pw.
  pose proof (fft_size_ok na) as Hk. set (k := fft_size na) in *.
  pose proof (lo_len _ _ OK _ _ _ Hk A3) as LA. pose proof (lo_len _ _ OK _ _ _ Hk B3) as LB.
  rewrite mul_loop_fine by lia. cbn [then_do skipn]. rewrite (firstn_all2 (fp_poly a)), (firstn_all2 (fp_poly b)), skipn_all2, app_nil_r by lia.
  eexists. split; [reflexivity|]. repeat split; auto. cbn [fp_poly]. fold k. apply (lo_mul _ _ OK); auto.
Qed.

Lemma add_value p a b na nb f g : shape p -> holds a na f -> holds b nb g -> fft_size na = fft_size nb ->
  exists q, fp_add L p a b = Fine q /\ holds q na (padd f g).
Proof.
  intros HS (A0 & A1 & A2 & A3) (B0 & B1 & B2 & B3) HE. unfold fp_add. rewrite A2, B2, HE, Nat.eqb_refl. cbn [check then_do]. rewrite <- HE in *.
  destruct (resize_shape L p (fp_n a) HS) as [H1 H2]. rewrite A1 in *. destruct (fp_resize L p na) as [n pw l]. cbn [fp_n fp_pow fp_poly] in *. subst n.
  destruct H1 as [H1|(_ & N1 & N2)]; [injection H1 as H1 _ _; contradiction|]. cbn [fp_n fp_pow fp_poly] in *. subst pw.
  pose proof (fft_size_ok na) as Hk. set (k := fft_size na) in *.
  pose proof (lo_add _ _ OK _ _ _ _ _ Hk A3 B3) as R. pose proof (lo_len _ _ OK _ _ _ Hk R) as LR.
  rewrite firstn_all2 by lia. rewrite skipn_all2, app_nil_r by lia. eexists. split; [reflexivity|]. repeat split; auto.
Qed.

Lemma decode_value p n f cache : holds p n f -> fits_u32 (2 * fft_size n) = true ->
  exists d c, fp_decode L p cache (2 * n) = Fine (d, c) /\ length d = 2 * n /\ forall j, j < 128 * n -> wbit d j = f j.
Proof.
  intros (A0 & A1 & A2 & A3) HF. unfold fp_decode. rewrite A1, Nat.eqb_refl, A2. cbn [check then_do].
  pose proof (fft_size_ok n) as Hk. pose proof (fft_size_ge n A0) as Hge. set (k := fft_size n) in *.
  pose proof (lo_len _ _ OK _ _ _ Hk A3) as LA. destruct (lo_dec _ _ OK _ _ _ Hk A3) as [D1 D2].
  assert (K0 : k =? 0 = false) by (apply Nat.eqb_neq; destruct Hk; lia). rewrite K0. cbn [negb check then_do]. rewrite HF. cbn [check then_do].
  rewrite LA, Nat.leb_refl. cbn [andb].
  set (ch := if length cache <? 2 * k then vec_resize cache (2 * k) 0%N else cache).
  assert (HC : 2 * k <=? length ch = true).
  { apply Nat.leb_le. unfold ch. destruct (length cache <? 2 * k) eqn:Ec; [rewrite resize_length; lia|apply Nat.ltb_ge in Ec; exact Ec]. }
  rewrite HC. cbn [need then_do]. rewrite firstn_all2 by lia. set (c' := fl_dec L (fp_poly p) ++ skipn (2 * k) ch).
  assert (HL : 2 * n <=? length c' = true) by (apply Nat.leb_le; unfold c'; rewrite app_length; lia). rewrite HL. cbn [check then_do].
  exists (firstn (2 * n) c'), c'. split; [reflexivity|]. apply Nat.leb_le in HL. split; [rewrite firstn_length; lia|].
  intros j Hj. rewrite <- D2 by lia. unfold wbit. f_equal. assert (Hq : j / 64 < 2 * n) by (apply Nat.div_lt_upper_bound; lia).
  assert (NF : forall (l : list N) i m, i < m -> nth i (firstn m l) 0%N = nth i l 0%N).
  { clear. induction l as [|x l IH]; intros i m H; [rewrite firstn_nil; reflexivity|]. destruct m; [lia|]. destruct i; cbn; auto. apply IH. lia. }
  rewrite NF by lia. unfold c'. rewrite app_nth1 by lia. reflexivity.
Qed.

(** *** The reducer *)

(** The sum of the products of the public polynomials and the parts of the row. *)
Definition products (n64 : nat) (a : list (list N)) (b : list N) (ss : list nat) : pol :=
  fun j => fold_right xorb false (map (fun s => pmul (wbit (nth (s - 1) a [])) (wbit (firstn n64 (skipn (s * n64) b))) j) ss).

Lemma pmul_ext f f' g g' : (forall j, f j = f' j) -> (forall j, g j = g' j) -> forall j, pmul f g j = pmul f' g' j.
Proof. intros Hf Hg j. unfold pmul. f_equal. apply map_ext. intros i. rewrite Hf, Hg. reflexivity. Qed.

Variables (n64 : nat).
Hypothesis n64_pos : n64 <> 0.
Hypothesis n64_fits : fits_u32 (2 * fft_size n64) = true.

Lemma fits_half : fits_u32 (fft_size n64) = true.
Proof. unfold fits_u32 in *. apply N.ltb_lt. apply N.ltb_lt in n64_fits. lia. Qed.

Lemma init_fine a : Forall (fun w => length w = n64) a ->
  exists aps, init_a L a = Fine aps /\ length aps = length a /\
    forall i w, nth_error a i = Some w -> exists ap f, nth_error aps i = Some ap /\ holds ap n64 f /\ forall j, f j = wbit w j.
Proof.
  induction 1 as [|w a Hw Ha (aps & E1 & L1 & IH)]; [exists []; split; [reflexivity|]; split; auto; intros [|i] w H; discriminate|].
  cbn [init_a]. destruct (encode_value fp_new w) as (q & f & E2 & Hq & Hf); [left; reflexivity|intros ->; cbn in Hw; congruence|rewrite Hw; apply fits_half|].
  rewrite E2. cbn [then_do]. rewrite E1. cbn [then_do]. exists (q :: aps). split; [reflexivity|]. split; [cbn; congruence|].
  rewrite Hw in Hq. intros [|i] w' H; cbn [nth_error] in *; [injection H as <-; eauto|apply IH; exact H].
Qed.

Section Row.
Variables (a : list (list N)) (aps : list (fft_poly E)) (b : list N).
Hypothesis Haps : forall i w, nth_error a i = Some w -> exists ap f, nth_error aps i = Some ap /\ holds ap n64 f /\ forall j, f j = wbit w j.
Hypothesis Ha : Forall (fun w => length w = n64) a.

Lemma part_length s : (s + 1) * n64 <= length b -> length (firstn n64 (skipn (s * n64) b)) = n64.
Proof. intros H. rewrite firstn_length, skipn_length. nia. Qed.

Lemma below_ext d f g : (forall j, f j = g j) -> below d f -> below d g.
Proof. intros H B j Hj. rewrite <- H. apply B. exact Hj. Qed.

Lemma part_step s bp : s <> 0 -> s - 1 < length a -> (s + 1) * n64 <= length b -> shape bp ->
  exists ap f bp1 g, nth_error aps (s - 1) = Some ap /\ holds ap n64 f /\ fp_encode L bp (firstn n64 (skipn (s * n64) b)) = Fine bp1 /\
    holds bp1 n64 g /\ (forall j, f j = wbit (nth (s - 1) a []) j) /\ (forall j, g j = wbit (firstn n64 (skipn (s * n64) b)) j) /\
    below (128 * n64) (pmul f g) /\ below (128 * n64) (pmul g f).
Proof.
  intros Hs Hl Hb HS. pose proof (part_length s Hb) as PL. destruct (nth_error a (s - 1)) as [w|] eqn:Ew; [|apply nth_error_None in Ew; lia].
  destruct (Haps _ _ Ew) as (ap & f & E1 & Hap & Hf).
  destruct (encode_value bp (firstn n64 (skipn (s * n64) b)) HS) as (bp1 & g & E2 & Hbp & Hg).
  { intros E0. rewrite E0 in PL. cbn in PL. congruence. } { rewrite PL. apply fits_half. }
  rewrite PL in Hbp. exists ap, f, bp1, g. rewrite (nth_error_nth _ _ [] Ew).
  assert (Lw : length w = n64) by (rewrite Forall_forall in Ha; apply Ha; exact (nth_error_In _ _ Ew)).
  assert (Bf : below (64 * n64) f) by (apply (below_ext _ (wbit w)); [auto|rewrite <- Lw; apply wbit_below]).
  assert (Bg : below (64 * n64) g) by (apply (below_ext _ (wbit (firstn n64 (skipn (s * n64) b)))); [auto|rewrite <- PL at 1; apply wbit_below]).
  repeat (split; [assumption|]). replace (128 * n64) with (64 * n64 + 64 * n64) by lia. split; apply pmul_below; assumption.
Qed.

Lemma below_size f : below (128 * n64) f -> below (128 * fft_size n64) f.
Proof. intros H j Hj. apply H. pose proof (fft_size_ge n64 n64_pos). nia. Qed.

Lemma later_steps : forall k s bp cp h, 1 < s -> s + k <= length a + 1 -> (s + k) * n64 <= length b -> shape bp -> holds cp n64 h ->
  exists bp' cp' h', reduce_loop L k s n64 aps b bp cp = Fine (bp', cp') /\ shape bp' /\ holds cp' n64 h' /\
    forall j, h' j = xorb (h j) (products n64 a b (seq s k) j).
Proof.
  induction k as [|k IH]; intros s bp cp h Hs Hl Hb HS HC; cbn [reduce_loop].
  - exists bp, cp, h. split; [reflexivity|]. split; auto. split; auto. intros j. unfold products. cbn. destruct (h j); reflexivity.
  - destruct (part_step s bp) as (ap & f & bp1 & g & E1 & Hap & E2 & Hbp & Hf & Hg & _ & Bm); [lia|lia|nia|exact HS|].
    rewrite E1. assert (EB : (s + 1) * n64 <=? length b = true) by (apply Nat.leb_le; nia). rewrite EB. cbn [check then_do]. rewrite E2. cbn [then_do].
    rewrite (proj2 (Nat.eqb_neq s 1)) by lia. unfold fp_mult_eq, fp_add_eq.
    destruct (mult_value bp1 bp1 ap n64 n64 g f) as (b2 & E3 & Hb2); [exact (holds_shape _ _ _ Hbp)|exact Hbp|exact Hap|reflexivity|apply below_size; exact Bm|].
    rewrite E3. cbn [then_do].
    destruct (add_value cp cp b2 n64 n64 h (pmul g f)) as (c2 & E4 & Hc2); [exact (holds_shape _ _ _ HC)|exact HC|exact Hb2|reflexivity|].
    rewrite E4. cbn [then_do].
    destruct (IH (s + 1) b2 c2 (padd h (pmul g f))) as (bp' & cp' & h' & E5 & S5 & H5 & V5); [lia|lia|nia|exact (holds_shape _ _ _ Hb2)|exact Hc2|].
    exists bp', cp', h'. split; [exact E5|]. split; auto. split; auto. intros j. rewrite V5. unfold padd. rewrite pmul_comm, (pmul_ext _ _ _ _ Hf Hg).
    rewrite Nat.add_1_r. unfold products. cbn [seq map fold_right]. rewrite xorb_assoc. reflexivity.
Qed.

Lemma reduce_value scaler bp cache : 2 <= scaler -> scaler <= length a + 1 -> scaler * n64 <= length b -> shape bp ->
  exists d bp' cache', fft_reduce L scaler n64 aps b bp cache = Fine (d, bp', cache') /\ shape bp' /\ length d = 2 * n64 /\
    forall j, j < 128 * n64 -> wbit d j = products n64 a b (seq 1 (scaler - 1)) j.
Proof.
  intros Hs Hl Hb HS. unfold fft_reduce. destruct scaler as [|[|k]]; [lia|lia|]. replace (S (S k) - 1) with (S k) by lia. cbn [reduce_loop].
  destruct (part_step 1 bp) as (ap & f & bp1 & g & E1 & Hap & E2 & Hbp & Hf & Hg & Bm & _); [lia|lia|nia|exact HS|].
  change (1 - 1) with 0 in *. rewrite E1. assert (EB : (1 + 1) * n64 <=? length b = true) by (apply Nat.leb_le; nia). rewrite EB. cbn [check then_do]. rewrite E2. cbn [then_do Nat.eqb].
  destruct (mult_value fp_new ap bp1 n64 n64 f g) as (c1 & E3 & Hc1); [left; reflexivity|exact Hap|exact Hbp|reflexivity|apply below_size; exact Bm|].
  rewrite E3. cbn [then_do].
  destruct (later_steps k 2 bp1 c1 (pmul f g)) as (bp' & cp' & h' & E5 & S5 & H5 & V5); [lia|lia|nia|exact (holds_shape _ _ _ Hbp)|exact Hc1|].
  change (1 + 1) with 2. rewrite E5. cbn [then_do]. destruct (decode_value cp' n64 h' cache H5 n64_fits) as (d & c & E6 & L6 & V6). rewrite E6. cbn [then_do].
  exists d, bp', c. split; [reflexivity|]. split; auto. split; auto. intros j Hj. rewrite V6, V5 by auto. rewrite (pmul_ext _ _ _ _ Hf Hg).
  unfold products. cbn [seq map fold_right]. reflexivity.
Qed.
End Row.
End Values.

(** Every call on polynomials that hold values, whatever was in the target and the
    cache before. *)
Theorem C76_values :
  forall E (L : fft_lib E) repr, lib_ok L repr ->
  (forall p d, shape p -> d <> [] -> fits_u32 (fft_size (length d)) = true ->
     exists q f, fp_encode L p d = Fine q /\ holds repr q (length d) f /\ forall j, f j = wbit d j) /\
  (forall p a b na nb f g, shape p -> holds repr a na f -> holds repr b nb g ->
     (fft_size na <> fft_size nb -> fp_mult L p a b = Panics /\ fp_add L p a b = Panics) /\
     (fft_size na = fft_size nb ->
        (below (128 * fft_size na) (pmul f g) -> exists q, fp_mult L p a b = Fine q /\ holds repr q na (pmul f g)) /\
        exists q, fp_add L p a b = Fine q /\ holds repr q na (padd f g))) /\
  (forall p n f cache, holds repr p n f -> fits_u32 (2 * fft_size n) = true ->
     exists d c, fp_decode L p cache (2 * n) = Fine (d, c) /\ length d = 2 * n /\ forall j, j < 128 * n -> wbit d j = f j) /\
  (forall p n f cache dest, holds repr p n f -> dest <> 2 * n -> fp_decode L p cache dest = Panics).
Proof.
  intros E L repr OK. split; [apply encode_value; exact OK|]. split; [|split; [apply decode_value; exact OK|]].
  - intros p a b na nb f g HS HA HB. split.
    + intros HN. destruct HA as (_ & _ & A2 & _), HB as (_ & _ & B2 & _). unfold fp_mult, fp_add. rewrite A2, B2, (proj2 (Nat.eqb_neq _ _) HN). auto.
    + intros HE. split; [|exact (add_value L repr OK p a b na nb f g HS HA HB HE)]. intros HB'. exact (mult_value L repr OK p a b na nb f g HS HA HB HE HB').
  - intros p n f cache dest (_ & A1 & _) HD. unfold fp_decode. rewrite A1, (proj2 (Nat.eqb_neq _ _) HD). reflexivity.
Qed.
Print Assumptions C76_values.

(** Encoding two slices of equal length, multiplying and decoding gives all
    coefficients of the product. *)
Theorem C76_product :
  forall E (L : fft_lib E) repr, lib_ok L repr ->
  forall a b n cache, length a = n -> length b = n -> n <> 0 -> fits_u32 (2 * fft_size n) = true ->
  exists pa pb q d c, fp_encode L fp_new a = Fine pa /\ fp_encode L fp_new b = Fine pb /\ fp_mult_eq L pa pb = Fine q /\
    fp_decode L q cache (2 * n) = Fine (d, c) /\ length d = 2 * n /\ forall j, wbit d j = pmul (wbit a) (wbit b) j.
Proof.
  intros E L repr OK a b n cache Ha Hb Hn Hfit. assert (HF : fits_u32 (fft_size n) = true) by (apply fits_half; assumption).
  destruct (encode_value L repr OK fp_new a) as (pa & f & E1 & H1 & V1); [left; reflexivity|intros ->; cbn in Ha; congruence|rewrite Ha; exact HF|].
  destruct (encode_value L repr OK fp_new b) as (pb & g & E2 & H2 & V2); [left; reflexivity|intros ->; cbn in Hb; congruence|rewrite Hb; exact HF|].
  rewrite Ha in H1. rewrite Hb in H2.
  assert (B : below (128 * n) (pmul f g)).
  { apply (below_ext _ (pmul (wbit a) (wbit b))); [intros j; symmetry; apply pmul_ext; auto|]. replace (128 * n) with (64 * length a + 64 * length b) by lia.
    apply pmul_below; apply wbit_below. }
  destruct (mult_value L repr OK pa pa pb n n f g) as (q & E3 & H3); [exact (holds_shape L repr OK _ _ _ H1)|exact H1|exact H2|reflexivity| |].
  { intros j Hj. apply B. pose proof (fft_size_ge n Hn). nia. }
  destruct (decode_value L repr OK q n (pmul f g) cache H3 Hfit) as (d & c & E4 & L4 & V4).
  exists pa, pb, q, d, c. repeat (split; [assumption|]). intros j. rewrite <- (pmul_ext _ _ _ _ V1 V2). destruct (Nat.lt_ge_cases j (128 * n)) as [Hj|Hj]; [auto|].
  rewrite (B j Hj). apply wbit_below. lia.
Qed.
Print Assumptions C76_product.

(** Slices of different lengths are accepted if they are transformed at the same
    size, but then the length of the first decides how much of the product is decoded:
    higher coefficients are dropped without an error. *)
Theorem C76_lengths_refuted : exists a b,
  forall E (L : fft_lib E) repr, lib_ok L repr ->
  exists pa pb q d c j, fp_encode L fp_new a = Fine pa /\ fp_encode L fp_new b = Fine pb /\ fp_mult_eq L pa pb = Fine q /\
    fp_decode L q [] (2 * fp_n q) = Fine (d, c) /\ wbit d j = false /\ pmul (wbit a) (wbit b) j = true.
Proof.
  exists [1%N], [0%N; 0%N; 1%N]. intros E L repr OK.
  destruct (encode_value L repr OK fp_new [1%N]) as (pa & f & E1 & H1 & V1); [left; reflexivity|discriminate|reflexivity|].
  destruct (encode_value L repr OK fp_new [0%N; 0%N; 1%N]) as (pb & g & E2 & H2 & V2); [left; reflexivity|discriminate|reflexivity|].
  cbn [length] in *.
  destruct (mult_value L repr OK pa pa pb 1 3 f g) as (q & E3 & H3); [exact (holds_shape L repr OK _ _ _ H1)|exact H1|exact H2|reflexivity| |].
  { intros j Hj. rewrite (pmul_ext _ _ _ _ V1 V2). apply (pmul_below (64 * 1) (64 * 3)); [apply (wbit_below [1%N])|apply (wbit_below [0%N; 0%N; 1%N])|].
    pose proof (proj1 (fft_size_ok 1)). lia. }
  destruct (decode_value L repr OK q 1 (pmul f g) [] H3) as (d & c & E4 & L4 & V4); [reflexivity|].
  exists pa, pb, q, d, c, 128. destruct H3 as (_ & N3 & _). rewrite N3. repeat (split; [assumption|]).
  split; [apply wbit_below; lia|]. vm_compute. reflexivity.
Qed.
Print Assumptions C76_lengths_refuted.

(** ** The quasi-cyclic encoder *)

(** The blocks in a slice of words ([cast_slice]). *)
Definition to_blocks (n : nat) (ws : list N) : list N := blocks_from n (wbit ws).
(** [ws] are the words of the blocks [bs]. *)
Definition words_of (bs ws : list N) : Prop := length ws = 2 * length bs /\ forall j, wbit ws j = pbit bs j.

Lemma blocks_ext n f g : (forall j, j < 128 * n -> f j = g j) -> blocks_from n f = blocks_from n g.
Proof.
  intros H. unfold blocks_from. apply map_ext_in. intros q Hq. apply in_seq in Hq. f_equal. apply map_ext_in. intros j Hj. apply in_seq in Hj. apply H. nia.
Qed.
Lemma blk_xor l : forall m, length l = length m -> blk_of_bits (zip_with xorb l m) = N.lxor (blk_of_bits l) (blk_of_bits m).
Proof.
  intros m H. apply N.bits_inj. intros i. rewrite <- (N2Nat.id i), N.lxor_spec, !blk_testbit. generalize (N.to_nat i). clear i. revert m H.
  induction l as [|x l IH]; intros [|y m] H [|k]; cbn in *; try discriminate; auto.
Qed.
Lemma blocks_xor n f g : zip_with N.lxor (blocks_from n f) (blocks_from n g) = blocks_from n (fun j => xorb (f j) (g j)).
Proof.
  unfold blocks_from. generalize (seq 0 n). intros l. induction l as [|q l IH]; auto. cbn [map zip_with]. rewrite IH. f_equal.
  rewrite <- blk_xor by (rewrite !map_length; reflexivity).
  assert (G : forall m, zip_with xorb (map (fun j => f (128 * q + j)) m) (map (fun j => g (128 * q + j)) m) = map (fun j => xorb (f (128 * q + j)) (g (128 * q + j))) m).
  { induction m as [|j m IHm]; auto. cbn [map zip_with]. rewrite IHm. reflexivity. }
  rewrite G. reflexivity.
Qed.
Lemma blocks_zero n : repeat 0%N n = blocks_from n (fun _ => false).
Proof.
  unfold blocks_from. generalize 0 at 3. induction n as [|n IH]; intros s; auto. cbn [repeat seq map]. rewrite (IH (S s)). f_equal.
Qed.

(** One row: the words that the encoder decodes are the sum of the products that the
    model of the quasi-cyclic code (SilentModel, [qc_reduce]) uses, whatever earlier
    rows left in the reducer; so [qc_reduce] is what the code computes. *)
Theorem C76_reduce :
  forall E (L : fft_lib E) repr, lib_ok L repr ->
  forall c (a : list (list N)) (b : list N) wa wb bp cache,
  2 <= qc_scaler c -> qc_nblocks c <> 0 -> fits_u32 (2 * fft_size (2 * qc_nblocks c)) = true ->
  length a + 1 = qc_scaler c -> Forall (fun x => length x = qc_nblocks c) a -> length b = qc_scaler c * qc_nblocks c ->
  Forall2 words_of a wa -> words_of b wb -> shape bp ->
  exists aps d bp' cache', init_a L wa = Fine aps /\
    fft_reduce L (qc_scaler c) (2 * qc_nblocks c) aps wb bp cache = Fine (d, bp', cache') /\ shape bp' /\
    let temp := to_blocks (2 * qc_nblocks c) d in
    qc_reduce c a b = modp (repeat 0%N (qc_nblocks c)) (zip_with N.lxor (firstn (qc_nblocks c) temp) (firstn (qc_nblocks c) b) ++ skipn (qc_nblocks c) temp) (qc_P c).
Proof.
  intros E L repr OK c a b wa wb bp cache Hs Hn Hfit La Ha Lb HW [Lw Hwb] HS.
  set (nb := qc_nblocks c) in *.
  assert (Hn2 : 2 * nb <> 0) by lia.
  assert (Hwa : Forall (fun w => length w = 2 * nb) wa).
  { clear -HW Ha. induction HW as [|x w xs ws [H1 _] HW IH]; constructor; inversion Ha; subst; auto. congruence. }
  assert (Lwa : length wa = length a) by (clear -HW; induction HW; cbn; congruence).
  destruct (init_fine L repr OK (2 * nb) Hn2 Hfit wa Hwa) as (aps & E1 & _ & Haps).
  destruct (reduce_value L repr OK (2 * nb) Hn2 Hfit wa aps wb Haps Hwa (qc_scaler c) bp cache) as (d & bp' & cache' & E2 & S2 & L2 & V2); [lia|lia|nia|exact HS|].
  exists aps, d, bp', cache'. split; [exact E1|]. split; [exact E2|]. split; [exact S2|]. cbv zeta.
  unfold qc_reduce. fold nb. rewrite (proj2 (Nat.leb_le _ _) Hs). cbn [oassert obind].
  assert (HA : forall ss h, (forall s, In s ss -> s <> 0 /\ s < qc_scaler c) ->
    ofold (fun acc s => ap <- nth_error a (s - 1) ;; _ <- oassert ((s + 1) * nb <=? length b) ;;
             Some (zip_with N.lxor acc (poly_mul (2 * nb) ap (firstn nb (skipn (s * nb) b))))) (blocks_from (2 * nb) h) ss =
    Some (blocks_from (2 * nb) (fun j => xorb (h j) (products (2 * nb) wa wb ss j)))).
  { induction ss as [|s ss IH]; intros h Hss; cbn [ofold].
    - f_equal. apply blocks_ext. intros j _. unfold products. cbn. destruct (h j); reflexivity.
    - destruct (Hss s (or_introl eq_refl)) as [S0 S1]. destruct (nth_error a (s - 1)) as [x|] eqn:Ex; [|apply nth_error_None in Ex; lia]. cbn [obind].
      assert (EB : (s + 1) * nb <=? length b = true) by (apply Nat.leb_le; nia). rewrite EB. cbn [oassert obind].
      unfold poly_mul. rewrite blocks_xor, IH by (intros; apply Hss; right; auto). f_equal. apply blocks_ext. intros j _. rewrite xorb_assoc. f_equal.
      unfold products. cbn [map fold_right]. f_equal.
      assert (HX : words_of x (nth (s - 1) wa [])).
      { clear -HW Ex. revert Ex. generalize (s - 1). intros i. revert i. induction HW as [|u w us ws H HW IH]; intros [|i] Ex; cbn in *; try discriminate; [injection Ex as <-; exact H|auto]. }
      change (poly_bit x (firstn nb (skipn (s * nb) b)) j) with (pmul (pbit x) (pbit (firstn nb (skipn (s * nb) b))) j).
      apply pmul_ext; [intros i; symmetry; apply HX|]. intros i.
      assert (NF : forall (l : list N) m k z, nth z (firstn k (skipn m l)) 0%N = if z <? k then nth (m + z) l 0%N else 0%N).
      { clear. intros l m k z. destruct (z <? k) eqn:Ez.
        - apply Nat.ltb_lt in Ez. assert (P1 : forall (l : list N) i m, i < m -> nth i (firstn m l) 0%N = nth i l 0%N).
          { clear. induction l as [|x l IH]; intros i m H; [rewrite firstn_nil; reflexivity|]. destruct m; [lia|]. destruct i; cbn; auto. apply IH. lia. }
          rewrite P1 by auto. revert l. induction m as [|m IH]; intros l; auto. destruct l as [|y l]; [destruct z; reflexivity|]. cbn [skipn Nat.add nth]. apply IH.
        - apply Nat.ltb_ge in Ez. apply nth_overflow. rewrite firstn_length. lia. }
      unfold pbit, wbit. rewrite !NF.
      assert (Q : i / 128 <? nb = (i / 64 <? 2 * nb)).
      { assert (D : i / 128 = i / 64 / 2) by (rewrite Nat.div_div by lia; reflexivity). rewrite D.
        destruct (i / 64 <? 2 * nb) eqn:Eq; [apply Nat.ltb_lt in Eq; apply Nat.ltb_lt; apply Nat.div_lt_upper_bound; lia|].
        apply Nat.ltb_ge in Eq. apply Nat.ltb_ge. apply Nat.div_le_lower_bound; lia. }
      rewrite Q. destruct (i / 64 <? 2 * nb); [|rewrite !N.bits_0; reflexivity].
      pose proof (Hwb (128 * (s * nb) + i)) as HB. unfold wbit, pbit in HB.
      replace ((128 * (s * nb) + i) / 64) with (s * (2 * nb) + i / 64) in HB by (replace (128 * (s * nb) + i) with (i + s * (2 * nb) * 64) by lia; rewrite Nat.div_add by lia; lia).
      replace ((128 * (s * nb) + i) mod 64) with (i mod 64) in HB by (replace (128 * (s * nb) + i) with (i + s * (2 * nb) * 64) by lia; rewrite Nat.mod_add by lia; reflexivity).
      replace ((128 * (s * nb) + i) / 128) with (s * nb + i / 128) in HB by (replace (128 * (s * nb) + i) with (i + s * nb * 128) by lia; rewrite Nat.div_add by lia; lia).
      replace ((128 * (s * nb) + i) mod 128) with (i mod 128) in HB by (replace (128 * (s * nb) + i) with (i + s * nb * 128) by lia; rewrite Nat.mod_add by lia; reflexivity).
      symmetry. exact HB. }
  rewrite blocks_zero. rewrite HA by (intros s Hin; apply in_seq in Hin; lia). cbn [obind].
  assert (ET : to_blocks (2 * nb) d = blocks_from (2 * nb) (fun j => xorb false (products (2 * nb) wa wb (seq 1 (qc_scaler c - 1)) j))).
  { unfold to_blocks. apply blocks_ext. intros j Hj. rewrite V2 by lia. destruct (products _ _ _ _ _); reflexivity. }
  rewrite ET. reflexivity.
Qed.
Print Assumptions C76_reduce.

(** ** A concrete case *)

(** A library that does what is assumed: every element of a transformed polynomial is
    the polynomial itself. *)
Definition words (n : nat) (f : pol) : list N := map (fun q => blk_of_bits (map (fun j => f (64 * q + j)) (seq 0 64))) (seq 0 n).
Definition simple_lib : fft_lib pol :=
  FftLib (fun _ => false) (fun d => repeat (wbit d) (length d)) pmul padd (fun x => words (2 * length x) (hd (fun _ => false) x)).
Definition simple_repr (k : nat) (x : list pol) (f : pol) : Prop := length x = k /\ Forall (fun e => forall j, e j = f j) x.

Lemma words_wbit n f j : wbit (words n f) j = if j <? 64 * n then f j else false.
Proof.
  unfold wbit, words. destruct (j <? 64 * n) eqn:E.
  - apply Nat.ltb_lt in E. assert (Hq : j / 64 < n) by (apply Nat.div_lt_upper_bound; lia). pose proof (Nat.div_mod j 64 ltac:(discriminate)) as D. pose proof (Nat.mod_upper_bound j 64 ltac:(discriminate)) as M.
    rewrite (nth_indep _ 0%N (blk_of_bits (map (fun i => f (64 * 0 + i)) (seq 0 64)))) by (rewrite map_length, seq_length; exact Hq).
    rewrite (map_nth (fun q => blk_of_bits (map (fun j => f (64 * q + j)) (seq 0 64)))), seq_nth by exact Hq. rewrite blk_testbit.
    rewrite (nth_indep _ false (f (64 * (0 + j / 64) + 0))) by (rewrite map_length, seq_length; exact M).
    rewrite (map_nth (fun i => f (64 * (0 + j / 64) + i))), seq_nth by exact M. f_equal. cbn [Nat.add]. lia.
  - apply Nat.ltb_ge in E. rewrite nth_overflow; [apply N.bits_0|]. rewrite map_length, seq_length. apply Nat.div_le_lower_bound; lia.
Qed.
Lemma words_exist bs : words_of bs (words (2 * length bs) (pbit bs)).
Proof.
  split; [unfold words; rewrite map_length, seq_length; reflexivity|]. intros j. rewrite words_wbit. destruct (j <? _) eqn:E; auto. apply Nat.ltb_ge in E.
  unfold pbit. rewrite nth_overflow; [rewrite N.bits_0; reflexivity|]. apply Nat.div_le_lower_bound; lia.
Qed.

Lemma zip_repr (op : pol -> pol -> pol) f g h : (forall x y, (forall j, x j = f j) -> (forall j, y j = g j) -> forall j, op x y j = h j) ->
  forall x y k, simple_repr k x f -> simple_repr k y g -> simple_repr k (zip_with op x y) h.
Proof.
  intros H. induction x as [|u x IH]; intros [|v y] k [L1 F1] [L2 F2]; cbn [length] in *; try lia; [split; cbn; auto|].
  inversion F1; inversion F2; subst. destruct (IH y (length x)) as [A B]; [split; auto|split; auto; lia|]. split; cbn [zip_with length]; auto.
Qed.
Lemma simple_lib_ok : lib_ok simple_lib simple_repr.
Proof.
  split.
  - intros k x f _ [H _]. exact H.
  - intros k _. split; [apply repeat_length|]. apply Forall_forall. intros e He. apply repeat_spec in He. subst e. reflexivity.
  - intros k d _ H. split; [cbn; rewrite repeat_length; exact H|]. apply Forall_forall. intros e He. apply repeat_spec in He. subst e. reflexivity.
  - intros k x y f g _ H1 H2 _. cbn [simple_lib fl_mul]. eapply zip_repr; eauto. intros. apply pmul_ext; auto.
  - intros k x y f g _ H1 H2. cbn [simple_lib fl_add]. eapply zip_repr; eauto. intros u v Hu Hv j. unfold padd. rewrite Hu, Hv. reflexivity.
  - intros k x f [Hk _] [H1 H2]. subst k. cbn [simple_lib fl_dec]. split; [unfold words; rewrite map_length, seq_length; reflexivity|]. intros j Hj. rewrite words_wbit.
    replace (j <? _) with true by (symmetry; apply Nat.ltb_lt; eapply Nat.lt_le_trans; [exact Hj|]; rewrite Nat.mul_assoc; apply Nat.le_refl). destruct x as [|u x]; [cbn in Hk; lia|]. inversion H2; subst. cbn [hd]. auto.
Qed.

(** The library exists; a product with a carry over the word boundary; a row of three
    parts of one block each. *)
Example C76_case :
  lib_ok simple_lib simple_repr /\
  (exists pa pb q d c, fp_encode simple_lib fp_new [3%N] = Fine pa /\ fp_encode simple_lib fp_new [9223372036854775808%N] = Fine pb /\
     fp_mult_eq simple_lib pa pb = Fine q /\ fp_decode simple_lib q [] 2 = Fine (d, c) /\ wbit d 63 = true /\ wbit d 64 = true /\ wbit d 65 = false) /\
  (exists aps d bp cache, init_a simple_lib [words 2 (pbit [5%N]); words 2 (pbit [2%N])] = Fine aps /\
     fft_reduce simple_lib 3 2 aps (words 6 (pbit [7%N; 3%N; 6%N])) fp_new [] = Fine (d, bp, cache) /\
     qc_reduce (QcConf 67 64 128 384 3 8 16) [[5%N]; [2%N]] [7%N; 3%N; 6%N] =
       modp [0%N] (zip_with N.lxor (firstn 1 (to_blocks 2 d)) [7%N] ++ skipn 1 (to_blocks 2 d)) 67).
Proof.
  split; [exact simple_lib_ok|]. split.
  - destruct (C76_product _ _ _ simple_lib_ok [3%N] [9223372036854775808%N] 1 [] eq_refl eq_refl ltac:(discriminate) eq_refl) as (pa & pb & q & d & c & E1 & E2 & E3 & E4 & _ & V).
    exists pa, pb, q, d, c. split; [exact E1|]. split; [exact E2|]. split; [exact E3|]. split; [exact E4|]. rewrite !V. clear. vm_compute. auto.
  - pose proof (words_exist [5%N]) as W5. pose proof (words_exist [2%N]) as W2. pose proof (words_exist [7%N; 3%N; 6%N]) as WB.
    cbn [length Nat.mul Nat.add] in W5, W2, WB.
    assert (WA : Forall2 words_of [[5%N]; [2%N]] [words 2 (pbit [5%N]); words 2 (pbit [2%N])]) by (constructor; [exact W5|]; constructor; [exact W2|constructor]).
    assert (F1 : Forall (fun x : list N => length x = qc_nblocks (QcConf 67 64 128 384 3 8 16)) [[5%N]; [2%N]]) by (repeat constructor).
    assert (S1 : 2 <= qc_scaler (QcConf 67 64 128 384 3 8 16)) by (cbn; lia).
    assert (N1 : qc_nblocks (QcConf 67 64 128 384 3 8 16) <> 0) by discriminate.
    destruct (C76_reduce _ _ _ simple_lib_ok (QcConf 67 64 128 384 3 8 16) [[5%N]; [2%N]] [7%N; 3%N; 6%N] _ _ fp_new [] S1 N1 eq_refl eq_refl F1 eq_refl WA WB (or_introl eq_refl))
      as (aps & d & bp & cache & E1 & E2 & _ & V).
    exists aps, d, bp, cache. change (qc_nblocks (QcConf 67 64 128 384 3 8 16)) with 1 in E2, V. split; [exact E1|]. split; [exact E2|exact V].
Qed.
