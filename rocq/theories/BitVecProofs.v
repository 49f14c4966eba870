(** Lemmas about the bit vector model. *)
From Coq Require Import List Bool Arith Lia.
Require Import Verif.Prelude Verif.PreludeProofs Verif.BitVecModel Verif.BitVecSpec.
Import ListNotations.

(** A bit vector whose buffer has exactly the words it needs. *)
Lemma bv_words_ge W h n : 0 < W -> n <> 0 -> h + n <= W * bv_words W h n.
Proof.
  intros HW Hn. unfold bv_words. destruct (Nat.eqb_spec n 0); [lia|].
  pose proof (Nat.div_mod (h + n + W - 1) W ltac:(lia)).
  pose proof (Nat.mod_upper_bound (h + n + W - 1) W ltac:(lia)). lia.
Qed.

Lemma bv_words_zero W h : bv_words W h 0 = 0.
Proof. reflexivity. Qed.

Lemma pad_words_length W h n l : length (pad_words W h n l) = W * bv_words W h n.
Proof. unfold pad_words. rewrite firstn_length, app_length, repeat_length. lia. Qed.

Lemma pad_words_nth W h n l i :
  i < W * bv_words W h n -> nth i (pad_words W h n l) false = nth i l false.
Proof.
  intros H. unfold pad_words. rewrite nth_firstn by auto.
  destruct (lt_dec i (length l)).
  - rewrite app_nth1 by auto. reflexivity.
  - rewrite app_nth2 by lia. rewrite nth_repeat_any.
    rewrite (nth_overflow l) by lia. reflexivity.
Qed.

Lemma bv_copy_wf W h l : h < W -> bv_wf W (bv_copy W h l).
Proof. intros. split; simpl; auto. apply pad_words_length. Qed.

Lemma bv_bits_nth v i : i < bv_len v -> nth i (bv_bits v) false = nth (bv_head v + i) (bv_raw v) false.
Proof. intros. unfold bv_bits. rewrite nth_firstn by auto. apply nth_skipn. Qed.

Lemma bv_bits_length W v : bv_wf W v -> length (bv_bits v) = bv_len v.
Proof.
  intros [Hh Hr]. unfold bv_bits. rewrite firstn_length, skipn_length, Hr.
  destruct (Nat.eq_dec (bv_len v) 0) as [->|]; [lia|].
  pose proof (bv_words_ge W (bv_head v) (bv_len v)). lia.
Qed.

Lemma bv_copy_bits W h l : 0 < W -> bv_bits (bv_copy W h l) = l.
Proof.
  intros HW. destruct l as [|b l'].
  { unfold bv_bits; simpl. reflexivity. }
  remember (b :: l') as l eqn:El. assert (Hl : length l <> 0) by (subst; simpl; lia).
  clear El.
  pose proof (bv_words_ge W h (length l) HW Hl) as Hge.
  apply (list_ext false).
  - unfold bv_bits, bv_copy; cbn [bv_len bv_head bv_raw].
    rewrite firstn_length, skipn_length, pad_words_length. lia.
  - unfold bv_bits, bv_copy; cbn [bv_len bv_head bv_raw].
    rewrite firstn_length, skipn_length, pad_words_length. intros i Hi.
    rewrite nth_firstn by lia. rewrite nth_skipn. rewrite pad_words_nth by lia.
    rewrite app_nth2; rewrite repeat_length; [|lia].
    f_equal. lia.
Qed.

Lemma bv_of_bits_bits W l : 0 < W -> bv_bits (bv_of_bits W l) = l.
Proof. apply bv_copy_bits. Qed.

(** Raw content of a copy: zeros before the head, then the bits. *)
Lemma bv_copy_raw_nth W h l i : i < W * bv_words W h (length l) ->
  nth i (bv_raw (bv_copy W h l)) false
  = if i <? h then false else nth (i - h) l false.
Proof.
  intros H. simpl. rewrite pad_words_nth by auto.
  destruct (Nat.ltb_spec i h).
  - rewrite app_nth1 by (rewrite repeat_length; auto). apply nth_repeat_any.
  - rewrite app_nth2; rewrite repeat_length; auto.
Qed.

Lemma raw_zip_length f a b : length (raw_zip f a b) = length a.
Proof. revert b; induction a; destruct b; simpl; auto. Qed.

Lemma raw_zip_nth f a b i : i < length a -> i < length b ->
  nth i (raw_zip f a b) false = f (nth i a false) (nth i b false).
Proof.
  revert b i; induction a; destruct b; destruct i; simpl; intros; try lia; auto.
  apply IHa; lia.
Qed.

Lemma raw_zip_eq_zip_with f a b : length a = length b -> raw_zip f a b = zip_with f a b.
Proof.
  revert b; induction a; destruct b; simpl; intros; try discriminate; auto.
  f_equal; auto.
Qed.

Lemma raw_zip_app f a1 a2 b1 b2 : length a1 = length b1 ->
  raw_zip f (a1 ++ a2) (b1 ++ b2) = raw_zip f a1 b1 ++ raw_zip f a2 b2.
Proof.
  revert b1; induction a1; destruct b1; simpl; intros; try discriminate; auto.
  f_equal; auto.
Qed.

Lemma firstn_raw_zip f n a b : firstn n (raw_zip f a b) = raw_zip f (firstn n a) (firstn n b).
Proof.
  revert a b; induction n; simpl; intros; auto.
  destruct a, b; simpl; auto. f_equal; auto.
Qed.

Lemma skipn_raw_zip f n a b : skipn n (raw_zip f a b) = raw_zip f (skipn n a) (skipn n b).
Proof.
  revert a b; induction n; simpl; intros; auto.
  destruct a, b; simpl; auto. destruct (skipn n a); auto.
Qed.

(** Word-wise combination is lane-wise when both heads agree. *)
Lemma fast_zip_bits W f a b : 0 < W -> bv_wf W a -> bv_wf W b ->
  bv_head a = bv_head b -> bv_len a = bv_len b ->
  bv_bits (BV (bv_head a) (bv_len a) (raw_zip f (bv_raw a) (bv_raw b)))
  = zip_with f (bv_bits a) (bv_bits b).
Proof.
  intros HW [Ha1 Ha2] [Hb1 Hb2] Hh Hl. unfold bv_bits; simpl.
  rewrite <- Hh, <- Hl. rewrite skipn_raw_zip, firstn_raw_zip.
  apply raw_zip_eq_zip_with.
  rewrite !firstn_length, !skipn_length. rewrite Ha2, Hb2, <- Hh, <- Hl. reflexivity.
Qed.

Lemma fast_bit_xor_bits W a b : 0 < W -> bv_wf W a -> bv_wf W b ->
  bv_head a = bv_head b -> bv_len a = bv_len b ->
  bv_bits (fast_bit_xor a b) = zip_with xorb (bv_bits a) (bv_bits b).
Proof. intros; apply (fast_zip_bits W); auto. Qed.

Lemma fast_bit_xor_wf W a b : bv_wf W a -> bv_wf W (fast_bit_xor a b).
Proof. intros [H1 H2]; split; simpl; auto. rewrite raw_zip_length; auto. Qed.

Lemma fast_bit_and_wf W a b : bv_wf W a -> bv_wf W (fast_bit_and a b).
Proof. intros [H1 H2]; split; simpl; auto. rewrite raw_zip_length; auto. Qed.

Lemma bv_not_wf W a : bv_wf W a -> bv_wf W (bv_not a).
Proof. intros [H1 H2]; split; simpl; auto. rewrite map_length; auto. Qed.

Lemma bv_not_bits a : bv_bits (bv_not a) = map negb (bv_bits a).
Proof. unfold bv_bits; simpl. rewrite skipn_map, firstn_map. reflexivity. Qed.

Lemma bv_xor_bits W a b : 0 < W -> bv_wf W a -> bv_wf W b -> bv_len a = bv_len b ->
  bv_bits (bv_xor W a b) = zip_with xorb (bv_bits a) (bv_bits b).
Proof.
  intros HW Ha Hb Hl. unfold bv_xor. rewrite bv_copy_bits by auto.
  apply raw_zip_eq_zip_with. rewrite (bv_bits_length W), (bv_bits_length W); auto.
Qed.

Lemma bv_and_bits W a b : 0 < W -> bv_wf W a -> bv_wf W b -> bv_len a = bv_len b ->
  bv_bits (bv_and W a b) = zip_with andb (bv_bits a) (bv_bits b).
Proof.
  intros HW Ha Hb Hl. unfold bv_and. rewrite bv_copy_bits by auto.
  apply raw_zip_eq_zip_with. rewrite (bv_bits_length W), (bv_bits_length W); auto.
Qed.

Lemma bv_xor_wf W a b : bv_wf W a -> bv_wf W (bv_xor W a b).
Proof. intros [H1 H2]. apply bv_copy_wf; auto. Qed.

Lemma bv_and_wf W a b : bv_wf W a -> bv_wf W (bv_and W a b).
Proof. intros [H1 H2]. apply bv_copy_wf; auto. Qed.

Lemma bv_xor_len W a b : bv_wf W a -> bv_len (bv_xor W a b) = bv_len a.
Proof. intros. simpl. rewrite raw_zip_length. apply (bv_bits_length W); auto. Qed.

Lemma bv_and_len W a b : bv_wf W a -> bv_len (bv_and W a b) = bv_len a.
Proof. intros. simpl. rewrite raw_zip_length. apply (bv_bits_length W); auto. Qed.

Lemma bv_from_vec_bits raw : bv_bits (bv_from_vec raw) = raw.
Proof. unfold bv_bits; simpl. apply firstn_all. Qed.

(** splitting *)
Lemma bv_words_mono W h n m : 0 < W -> n <= m -> bv_words W h n <= bv_words W h m.
Proof.
  intros HW H. unfold bv_words. destruct (Nat.eqb_spec n 0), (Nat.eqb_spec m 0); try lia.
  apply Nat.div_le_mono; lia.
Qed.

Lemma bv_split_off_spec W v n : 0 < W -> bv_wf W v -> n <= bv_len v ->
  exists v1 v2, bv_split_off W v n = Some (v1, v2) /\
    bv_wf W v1 /\ bv_wf W v2 /\
    bv_bits v1 = firstn n (bv_bits v) /\ bv_bits v2 = skipn n (bv_bits v) /\
    bv_head v1 = bv_head v /\ bv_len v1 = n /\
    bv_head v2 = (bv_head v + n) mod W /\ bv_len v2 = bv_len v - n /\
    v2 = bv_slice_from W v n.
Proof.
  intros HW Hwf Hn. unfold bv_split_off.
  destruct (Nat.leb_spec n (bv_len v)); [|lia].
  eexists _, _; split; [reflexivity|].
  pose proof (bv_bits_length W v Hwf) as Hbl.
  destruct Hwf as [Hh Hr].
  pose proof (bv_words_mono W (bv_head v) n (bv_len v) HW Hn).
  repeat split; simpl; auto.
  - rewrite firstn_length, Hr. nia.
  - apply Nat.mod_upper_bound; lia.
  - apply pad_words_length.
  - unfold bv_bits; simpl. rewrite firstn_firstn, Nat.min_l by lia.
    destruct (Nat.eq_dec n 0) as [->|Hn0]; [reflexivity|].
    pose proof (bv_words_ge W (bv_head v) n HW Hn0).
    rewrite skipn_firstn_comm. rewrite firstn_firstn, Nat.min_l by lia. reflexivity.
  - unfold bv_slice_from. apply bv_copy_bits; auto.
  - rewrite skipn_length, Hbl. reflexivity.
Qed.

Lemma bv_extend_wf W v l : bv_wf W v -> bv_wf W (bv_extend W v l).
Proof. intros [H1 H2]; apply bv_copy_wf; auto. Qed.

Lemma bv_extend_bits W v l : 0 < W -> bv_bits (bv_extend W v l) = bv_bits v ++ l.
Proof. intros; apply bv_copy_bits; auto. Qed.

Lemma firstn_repeat {A} (x : A) a b : a <= b -> firstn a (repeat x b) = repeat x a.
Proof. revert b; induction a; destruct b; simpl; intros; auto; try lia. f_equal; apply IHa; lia. Qed.

Lemma pad_words_app W h n l : length l <= W * bv_words W h n ->
  pad_words W h n l = l ++ repeat false (W * bv_words W h n - length l).
Proof.
  intros H. unfold pad_words. rewrite firstn_app, firstn_all2 by auto.
  rewrite firstn_repeat by lia. reflexivity.
Qed.

Lemma bv_of_bits_raw W l : 0 < W ->
  bv_raw (bv_of_bits W l) = l ++ repeat false (W * bv_words W 0 (length l) - length l).
Proof.
  intros HW. unfold bv_of_bits, bv_copy; cbn [bv_raw repeat app].
  apply pad_words_app. destruct (Nat.eq_dec (length l) 0) as [E|E]; [lia|].
  pose proof (bv_words_ge W 0 (length l) HW E). lia.
Qed.
