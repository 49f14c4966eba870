(** Lemmas for silent OT. *)
From Coq Require Import ZArith List Bool Arith NArith Lia Permutation ZifyBool ZifyNat ZifyN.
Require Import Verif.Prelude Verif.PreludeProofs Verif.ZapUtilModel Verif.ZapUtilSpec Verif.ZapUtilProofs Verif.ZapUtilTheorems
  Verif.PprfModel Verif.PprfSpec Verif.PprfProofs Verif.PprfProofs2 Verif.PprfTheorems Verif.SilentModel Verif.SilentSpec.
Import ListNotations.
Open Scope nat_scope.

(** ** XOR sums *)

Lemma xor_upto_lin n f g d : xor_upto n (fun x => xorb (f x) (g x && d)) = xorb (xor_upto n f) (xor_upto n g && d).
Proof.
  induction n as [|n IH]; [reflexivity|]. cbn [xor_upto]. rewrite IH.
  destruct (xor_upto n f), (xor_upto n g), (f n), (g n), d; reflexivity.
Qed.

Lemma xor_upto_first n f : xor_upto (S n) f = xorb (f 0) (xor_upto n (fun i => f (S i))).
Proof. change (S n) with (1 + n). rewrite xor_upto_add. cbn [xor_upto]. rewrite xorb_false_l. reflexivity. Qed.

Lemma fold_xor_seq f n : forall s, fold_right xorb false (map f (seq s n)) = xor_upto n (fun i => f (s + i)).
Proof.
  induction n as [|n IH]; intros s; [reflexivity|]. rewrite xor_upto_first. cbn [seq map fold_right]. rewrite IH, Nat.add_0_r.
  f_equal. apply xor_upto_ext. intros i _. f_equal. lia.
Qed.

(** ** Blocks *)

Lemma pbit_bit l j : pbit l j = bit l j.
Proof. reflexivity. Qed.

Lemma blk_lt l : length l <= 128 -> (blk_of_bits l < 2 ^ 128)%N.
Proof.
  intros L. assert (G : (blk_of_bits l < 2 ^ N.of_nat (length l))%N).
  { clear L. induction l as [|b l IH]; [reflexivity|]. cbn [blk_of_bits length]. rewrite Nat2N.inj_succ, N.pow_succ_r'.
    destruct b; cbn [N.b2n]; lia. }
  eapply N.lt_le_trans; [exact G|]. apply N.pow_le_mono_r; lia.
Qed.

Lemma blocks_from_length n f : length (blocks_from n f) = n.
Proof. unfold blocks_from. rewrite map_length, seq_length. auto. Qed.

Lemma blocks_from_ok n f : blocks_ok (blocks_from n f).
Proof.
  unfold blocks_ok, blocks_from. apply Forall_forall. intros x Hx. apply in_map_iff in Hx. destruct Hx as (q & <- & _).
  apply blk_lt. rewrite map_length, seq_length. lia.
Qed.

Lemma blocks_from_bit n f j : bit (blocks_from n f) j = if j <? 128 * n then f j else false.
Proof.
  destruct (Nat.ltb_spec j (128 * n)) as [H|H].
  - unfold bit, blocks_from. pose proof (Nat.div_mod j 128 ltac:(lia)). pose proof (Nat.mod_upper_bound j 128 ltac:(lia)).
    assert (j / 128 < n) by (apply Nat.div_lt_upper_bound; lia).
    rewrite nth_map_seq by auto. rewrite blk_testbit, nth_map_seq by auto. f_equal. lia.
  - apply bit_over. rewrite blocks_from_length. auto.
Qed.

Lemma zip_lxor_bit a : forall b j, length a = length b -> bit (zip_with N.lxor a b) j = xorb (bit a j) (bit b j).
Proof.
  intros b j L. unfold bit. set (q := j / 128). clearbody q. revert b q L.
  induction a as [|x a IH]; intros [|y b] q L; try discriminate.
  - destruct q; reflexivity.
  - destruct q; cbn [zip_with nth]; [apply N.lxor_spec|]. apply IH. cbn in L. lia.
Qed.

Lemma zip_lxor_ok a : forall b, blocks_ok a -> blocks_ok b -> blocks_ok (zip_with N.lxor a b).
Proof.
  unfold blocks_ok. induction a as [|x a IH]; intros [|y b] Ha Hb; try constructor.
  - inversion Ha; inversion Hb; subst. destruct (N.eq_dec (N.lxor x y) 0) as [->|Hn]; [reflexivity|].
    apply N.log2_lt_pow2; [lia|]. eapply N.le_lt_trans; [apply N.log2_lxor|].
    destruct (N.eq_dec x 0), (N.eq_dec y 0); subst; try (cbn; lia);
    apply N.max_lub_lt; try reflexivity; apply N.log2_lt_pow2; lia.
  - inversion Ha; inversion Hb; subst. auto.
Qed.

Lemma bit_firstn n l j : bit (firstn n l) j = if j <? 128 * n then bit l j else false.
Proof.
  unfold bit. destruct (Nat.ltb_spec j (128 * n)) as [H|H].
  - assert (Hq : j / 128 < n) by (apply Nat.div_lt_upper_bound; lia). revert Hq. generalize (j / 128) as q. generalize (j mod 128) as r. clear H. revert l.
    induction n as [|n IH]; intros l r q Hq; [lia|]. destruct l as [|x l]; [destruct q; reflexivity|].
    destruct q; cbn [firstn nth]; auto. apply IH. lia.
  - assert (Hq : n <= j / 128) by (apply Nat.div_le_lower_bound; lia).
    rewrite nth_overflow; [apply N.bits_0|]. rewrite firstn_length. lia.
Qed.

Lemma bit_skipn n l j : bit (skipn n l) j = bit l (128 * n + j).
Proof.
  unfold bit. replace ((128 * n + j) / 128) with (n + j / 128).
  2:{ rewrite (Nat.mul_comm 128), Nat.div_add_l by lia. auto. }
  replace ((128 * n + j) mod 128) with (j mod 128).
  2:{ rewrite (Nat.mul_comm 128), Nat.add_comm, Nat.mod_add by lia. auto. }
  f_equal. revert l. induction n as [|n IH]; intros [|x l]; cbn [skipn Nat.add nth]; auto. destruct (j / 128); auto.
Qed.

Lemma bit_app a b j : bit (a ++ b) j = if j <? 128 * length a then bit a j else bit b (j - 128 * length a).
Proof.
  destruct (Nat.ltb_spec j (128 * length a)) as [H|H].
  - unfold bit. rewrite app_nth1; auto. apply Nat.div_lt_upper_bound; lia.
  - replace (bit b (j - 128 * length a)) with (bit (skipn (length a) (a ++ b)) (j - 128 * length a)).
    + rewrite bit_skipn. f_equal. lia.
    + rewrite skipn_app, skipn_all, Nat.sub_diag. reflexivity.
Qed.

Lemma bit_repeat0 n j : bit (repeat 0%N n) j = false.
Proof. unfold bit. rewrite (nth_repeat 0%N n) || rewrite nth_repeat. apply N.bits_0. Qed.

Lemma repeat0_ok n : blocks_ok (repeat 0%N n).
Proof. unfold blocks_ok. apply Forall_forall. intros x Hx. apply repeat_spec in Hx. subst. reflexivity. Qed.

Lemma ok_firstn n l : blocks_ok l -> blocks_ok (firstn n l).
Proof. unfold blocks_ok. intros H. rewrite <- (firstn_skipn n l) in H. apply Forall_app in H. apply H. Qed.
Lemma ok_skipn n l : blocks_ok l -> blocks_ok (skipn n l).
Proof. unfold blocks_ok. intros H. rewrite <- (firstn_skipn n l) in H. apply Forall_app in H. apply H. Qed.

(** ** The quasi-cyclic code *)

Lemma poly_mul_bit n a b w x : length b * 128 <= w ->
  bit (poly_mul n a b) x = if x <? 128 * n then poly_prod (bit a) (fun k => if k <? w then bit b k else false) x else false.
Proof.
  intros L. unfold poly_mul. rewrite blocks_from_bit. destruct (x <? 128 * n); auto.
  unfold poly_bit, poly_prod. rewrite fold_xor_seq. apply xor_upto_ext. intros i _. rewrite Nat.add_0_l, !pbit_bit. f_equal.
  destruct (Nat.ltb_spec (x - i) w); auto. apply bit_over. lia.
Qed.

Lemma poly_prod_ext g h h' x : (forall k, h k = h' k) -> poly_prod g h x = poly_prod g h' x.
Proof. intros E. apply xor_upto_ext. intros i _. rewrite E. auto. Qed.

Section Qc.
Variables (c : qc_conf) (a : list (list N)).
Let nb := qc_nblocks c.
Hypothesis (Hs : 2 <= qc_scaler c) (La : length a = qc_scaler c - 1).

Lemma acc_ok b n : length b >= qc_scaler c * nb -> n <= qc_scaler c - 1 ->
  exists acc, ofold (fun acc s =>
           ap <- nth_error a (s - 1) ;;
           _ <- oassert ((s + 1) * nb <=? length b) ;;
           Some (zip_with N.lxor acc (poly_mul (2 * nb) ap (firstn nb (skipn (s * nb) b)))))
         (repeat 0%N (2 * nb)) (seq 1 n) = Some acc /\
    length acc = 2 * nb /\ blocks_ok acc /\
    forall x, x < 2 * (128 * nb) ->
      bit acc x = xor_upto n (fun s => poly_prod (bit (nth s a [])) (piece (128 * nb) (bit b) (S s)) x).
Proof.
  intros Lb. induction n as [|n IH]; intros Hn.
  - exists (repeat 0%N (2 * nb)). split; [reflexivity|]. split; [apply repeat_length|]. split; [apply repeat0_ok|].
    intros x _. apply bit_repeat0.
  - destruct (IH ltac:(lia)) as (acc & E & L & O & B). rewrite seq_S, ofold_app, E. cbn [obind ofold].
    replace (1 + n - 1) with n by lia. rewrite (nth_error_nth' a []) by lia. cbn [obind].
    destruct (Nat.leb_spec ((1 + n + 1) * nb) (length b)) as [Hle|Hle]; [|nia]. cbn [oassert obind].
    eexists. split; [reflexivity|].
    assert (Lp : length (poly_mul (2 * nb) (nth n a []) (firstn nb (skipn ((1 + n) * nb) b))) = 2 * nb) by apply blocks_from_length.
    split; [rewrite zip_with_length; lia|]. split; [apply zip_lxor_ok; auto; apply blocks_from_ok|].
    intros x Hx. rewrite zip_lxor_bit by lia. rewrite B by auto. cbn [xor_upto]. f_equal.
    rewrite (poly_mul_bit _ _ _ (128 * nb)) by (rewrite firstn_length; lia).
    destruct (Nat.ltb_spec x (128 * (2 * nb))); [|lia]. apply poly_prod_ext. intros k. unfold piece.
    destruct (Nat.ltb_spec k (128 * nb)); auto. rewrite bit_firstn, bit_skipn.
    destruct (Nat.ltb_spec k (128 * nb)); [|lia]. f_equal. nia.
Qed.

Lemma reduce_ok b : Nat.odd (qc_P c) = true -> qc_P c <= 128 * nb -> 2 * nb <= qc_P c ->
  qc_scaler c * nb <= length b -> blocks_ok b ->
  exists d, qc_reduce c a b = Some d /\ length d = nb /\
    forall j, j < 128 * nb -> bit d j = qc_word (128 * nb) (qc_scaler c) (qc_P c) a (bit b) j.
Proof.
  intros Ho HP H2 Lb Ob. unfold qc_reduce. fold nb. destruct (Nat.leb_spec 2 (qc_scaler c)); [|lia]. cbn [oassert obind].
  destruct (acc_ok b (qc_scaler c - 1) Lb ltac:(lia)) as (acc & E & L & O & B). rewrite E. cbn [obind].
  set (temp := zip_with N.lxor (firstn nb acc) (firstn nb b) ++ skipn nb acc).
  assert (Lb1 : nb <= length b) by nia.
  assert (L1 : length (zip_with N.lxor (firstn nb acc) (firstn nb b)) = nb) by (rewrite zip_with_length, !firstn_length; lia).
  assert (Lt : length temp = 2 * nb) by (unfold temp; rewrite app_length, L1, skipn_length; lia).
  destruct (C36_remainder_partial (repeat 0%N nb) temp (qc_P c)) as (d & Ed & Ld & Od & Bd).
  - unfold temp, blocks_ok. apply Forall_app. split; [apply zip_lxor_ok; apply ok_firstn; auto|apply ok_skipn; auto].
  - destruct (qc_P c); [discriminate|lia].
  - rewrite repeat_length. lia.
  - rewrite Lt. lia.
  - apply C36_odd; auto. lia.
  - exists d. split; auto. rewrite repeat_length in Ld, Bd. split; auto. intros j Hj. rewrite Bd by auto.
    unfold qc_word. assert (Hp : qc_P c <> 0) by (destruct (qc_P c); [discriminate|lia]).
    destruct (Nat.ltb_spec j (qc_P c)) as [Hlt|Hge].
    + unfold residue_xor. rewrite Lt. replace (2 * nb * 128) with (2 * (128 * nb)) by lia. apply xor_upto_ext. intros x Hx.
      destruct (x mod qc_P c =? j); auto. unfold qc_sum, temp. rewrite bit_app, L1. rewrite <- B by lia.
      unfold piece. rewrite Nat.mul_0_l, Nat.add_0_l.
      destruct (Nat.ltb_spec x (128 * nb)).
      * rewrite zip_lxor_bit by (rewrite !firstn_length; lia). rewrite !bit_firstn.
        destruct (Nat.ltb_spec x (128 * nb)); [|lia]. apply xorb_comm.
      * rewrite xorb_false_l, bit_skipn. f_equal. lia.
    + rewrite (xor_upto_ext _ _ (fun _ => false)); [rewrite xor_upto_false; auto|].
      intros x _. pose proof (Nat.mod_upper_bound x (qc_P c) Hp). destruct (Nat.eqb_spec (x mod qc_P c) j); auto. lia.
Qed.
End Qc.

Lemma qc_sum_lin w s a f g d x : qc_sum w s a (fun p => xorb (f p) (g p && d)) x = xorb (qc_sum w s a f x) (qc_sum w s a g x && d).
Proof.
  unfold qc_sum.
  rewrite (xor_upto_ext _ _ (fun t => xorb (poly_prod (bit (nth t a [])) (piece w f (S t)) x)
                                           (poly_prod (bit (nth t a [])) (piece w g (S t)) x && d))).
  - rewrite xor_upto_lin.
    set (X := xor_upto (s - 1) (fun t => poly_prod (bit (nth t a [])) (piece w f (S t)) x)).
    set (Y := xor_upto (s - 1) (fun t => poly_prod (bit (nth t a [])) (piece w g (S t)) x)). clearbody X Y.
    unfold piece. rewrite Nat.mul_0_l, Nat.add_0_l. destruct (x <? w); [|rewrite !xorb_false_l; auto].
    destruct (f x), (g x), X, Y, d; reflexivity.
  - intros t _. unfold poly_prod. rewrite <- xor_upto_lin. apply xor_upto_ext. intros k _. unfold piece.
    destruct (x - k <? w); destruct (bit (nth t a []) k); cbn [andb]; auto.
Qed.

Lemma qc_word_lin w s P a f g d i : qc_word w s P a (fun p => xorb (f p) (g p && d)) i = xorb (qc_word w s P a f i) (qc_word w s P a g i && d).
Proof.
  unfold qc_word. rewrite <- xor_upto_lin. apply xor_upto_ext. intros x _. destruct (x mod P =? i); auto. apply qc_sum_lin.
Qed.

Lemma qc_word_ext w s P a f g i : 2 <= s -> (forall p, p < s * w -> f p = g p) -> qc_word w s P a f i = qc_word w s P a g i.
Proof.
  intros H2 E. unfold qc_word. apply xor_upto_ext. intros x _. destruct (x mod P =? i); auto. unfold qc_sum.
  assert (Ep : forall t k, t < s -> piece w f t k = piece w g t k).
  { intros t k Ht. unfold piece. destruct (Nat.ltb_spec k w); auto. apply E. nia. }
  rewrite Ep by lia. f_equal. apply xor_upto_ext. intros t Ht. apply poly_prod_ext. intros k. apply Ep. lia.
Qed.

Lemma row_word_lin row f g d : row_word row (fun p => xorb (f p) (g p && d)) = xorb (row_word row f) (row_word row g && d).
Proof.
  unfold row_word. rewrite <- xor_upto_lin. apply xor_upto_ext. intros j _. destruct (nth j row false), (f j), (g j), d; reflexivity.
Qed.

Lemma row_word_ext row f g : (forall p, p < length row -> f p = g p) -> row_word row f = row_word row g.
Proof. intros E. apply xor_upto_ext. intros j Hj. rewrite E; auto. Qed.

Lemma code_word_lin e f g d i : code_word e (fun p => xorb (f p) (g p && d)) i = xorb (code_word e f i) (code_word e g i && d).
Proof.
  destruct e as [c a|[] c M]; cbn [code_word]; try apply qc_word_lin; try apply row_word_lin.
  destruct (i <? lc_code c); auto. apply row_word_lin.
Qed.

Lemma code_word_ext e f g i : enc_ok e -> i < out_count e -> (forall p, p < enc_N2 e -> f p = g p) -> code_word e f i = code_word e g i.
Proof.
  intros (_ & _ & _ & _ & Ho) Hi E. destruct e as [c a|[] c M]; cbn [code_word enc_N2 out_count enc_req] in *.
  - apply qc_word_ext; [apply Ho|]. intros p Hp. apply E. nia.
  - destruct Ho as (_ & L & Hr & F). rewrite Forall_forall in F. apply row_word_ext. intros p Hp. apply E.
    rewrite (F (nth i M [])) in Hp; auto. apply nth_In. lia.
  - destruct Ho as (L & Hr & F). rewrite Forall_forall in F. apply row_word_ext. intros p Hp. apply E.
    rewrite (F (nth i M [])) in Hp by (apply nth_In; lia). lia.
  - destruct Ho as (L & Hr & F). rewrite Forall_forall in F. destruct (Nat.ltb_spec i (lc_code c)).
    + apply row_word_ext. intros p Hp. apply E. rewrite (F (nth i M [])) in Hp by (apply nth_In; lia). lia.
    + apply E. auto.
Qed.

(** ** Compression *)

Definition rt_bit (rt : arr_or_vec) (p r : nat) : bool :=
  match rt with Arr o => out_bit o p r | Vec v => N.testbit (nth p v 0%N) (N.of_nat r) end.

Definition rt_shape (e : encoder) (rt : arr_or_vec) : Prop :=
  match e, rt with
  | EQc c _, Arr (OTrans n rows) =>
      n = qc_n2blocks c /\ length rows = 128 /\ Forall (fun row => length row = n /\ blocks_ok row) rows
  | ELib Silver c _, Vec v => length v = lc_N2 c
  | ELib ExAcc c _, Arr (OInter v) => length v = lc_N2 c
  | ELib ExConv c _, Arr (OInter v) => length v = lc_N2 c
  | _, _ => False
  end.

Lemma concat_nth {A} (h : nat -> list A) m d n : 0 < m -> forall s i, i < m * n ->
  (forall q, s <= q < s + n -> length (h q) = m) ->
  nth i (concat (map h (seq s n))) d = nth (i mod m) (h (s + i / m)) d.
Proof.
  intros Hm. induction n as [|n IH]; intros s i Hi Hl; [lia|]. cbn [seq map concat].
  destruct (Nat.ltb_spec i m) as [H|H].
  - rewrite app_nth1 by (rewrite Hl; lia). rewrite Nat.mod_small, Nat.div_small by auto. rewrite Nat.add_0_r. auto.
  - rewrite app_nth2 by (rewrite Hl; lia). rewrite Hl by lia. rewrite IH; [|nia|intros; apply Hl; lia].
    assert (Ed : i / m = S ((i - m) / m)).
    { replace i with (1 * m + (i - m)) at 1 by lia. rewrite Nat.div_add_l by lia. auto. }
    assert (Em : i mod m = (i - m) mod m).
    { replace i with ((i - m) + 1 * m) at 1 by lia. apply Nat.mod_add. lia. }
    rewrite Ed, Em. f_equal. f_equal. lia.
Qed.

Lemma concat_len {A} (h : nat -> list A) m n : forall s, (forall q, s <= q < s + n -> length (h q) = m) ->
  length (concat (map h (seq s n))) = m * n.
Proof.
  induction n as [|n IH]; intros s Hl; [cbn; lia|]. cbn [seq map concat]. rewrite app_length, Hl, IH by (try lia; intros; apply Hl; lia). lia.
Qed.

Lemma omap_pick {A B} (g : A -> option B) l : (forall x, In x l -> exists y, g x = Some y) ->
  exists ys, omap g l = Some ys /\ length ys = length l /\
    forall i dx dy, i < length l -> g (nth i l dx) = Some (nth i ys dy).
Proof.
  induction l as [|x l IH]; intros H; [exists []; repeat split; intros; cbn in *; lia|].
  destruct (H x (or_introl eq_refl)) as [y Ey]. destruct (IH (fun z Hz => H z (or_intror Hz))) as (ys & E & L & G).
  exists (y :: ys). cbn [omap]. rewrite Ey. cbn [obind]. rewrite E. cbn [obind]. split; auto. split; [cbn; lia|].
  intros [|i] dx dy Hi; cbn [nth]; auto. apply G. cbn in Hi. lia.
Qed.

Lemma nth_map_d {A B} (f : A -> B) l i da db : i < length l -> nth i (map f l) db = f (nth i l da).
Proof. intros H. rewrite (nth_indep _ db (f da)) by (rewrite map_length; auto). apply map_nth. Qed.

Lemma next_mult_128 x : x <= next_mult x 128 /\ next_mult x 128 mod 128 = 0 /\ next_mult x 128 / 128 = (x + 127) / 128 /\ (x + 127) / 128 * 128 < x + 128.
Proof.
  unfold next_mult. replace (x + 128 - 1) with (x + 127) by lia.
  rewrite Nat.div_mul, Nat.mod_mul by lia. pose proof (Nat.div_mod (x + 127) 128 ltac:(lia)). pose proof (Nat.mod_upper_bound (x + 127) 128 ltac:(lia)). lia.
Qed.

Lemma dual_encode_ok c a n rows : enc_ok (EQc c a) -> rt_shape (EQc c a) (Arr (OTrans n rows)) ->
  exists b, qc_dual_encode c a rows = Some b /\ length b = qc_req c /\
    forall i r, i < qc_req c -> r < 128 ->
      N.testbit (nth i b 0%N) (N.of_nat r) = code_word (EQc c a) (fun p => out_bit (OTrans n rows) p r) i.
Proof.
  intros (_ & _ & _ & _ & _ & Hs & La & Ho & HP & H2 & Hr & Hm & Hn) (En & Lr & F). cbn [code_word].
  set (nb := qc_nblocks c) in *.
  assert (Hn2 : qc_scaler c * nb <= n).
  { rewrite En. unfold qc_n2blocks. apply Nat.div_le_lower_bound; lia. }
  rewrite Forall_forall in F.
  destruct (omap_pick (qc_reduce c a) rows) as (rs & Er & Lrs & G).
  { intros row Hrow. destruct (F row Hrow) as [Ln Ob].
    destruct (reduce_ok c a Hs La row Ho HP H2 ltac:(fold nb; lia) Ob) as (d & Ed & _). eauto. }
  assert (Gs : forall r, r < 128 -> length (nth r rs []) = nb /\
            forall j, j < 128 * nb -> bit (nth r rs []) j = qc_word (128 * nb) (qc_scaler c) (qc_P c) a (bit (nth r rows [])) j).
  { intros r Hr1. assert (Hin : In (nth r rows []) rows) by (apply nth_In; lia). destruct (F _ Hin) as [Ln Ob].
    destruct (reduce_ok c a Hs La (nth r rows []) Ho HP H2 ltac:(fold nb; lia) Ob) as (d & Ed & Ld & Bd).
    pose proof (G r [] [] ltac:(lia)) as E. rewrite Ed in E. injection E as E. rewrite <- E. auto. }
  unfold qc_dual_encode. rewrite firstn_all2 by lia. rewrite Er. cbn [obind].
  destruct (next_mult_128 (qc_req c)) as (M1 & M2 & M3 & M4).
  assert (Hq : next_mult (qc_req c) 128 / 128 <= nb).
  { rewrite M3. apply Nat.lt_succ_r. apply Nat.div_lt_upper_bound; [lia|]. fold nb in HP. lia. }
  assert (Hle : next_mult (qc_req c) 128 <= qc_N2 c).
  { pose proof (Nat.div_mod (next_mult (qc_req c) 128) 128 ltac:(lia)). nia. }
  destruct (Nat.leb_spec (next_mult (qc_req c) 128) (qc_N2 c)); [|lia]. cbn [oassert obind].
  set (h := fun i => map (fun j => blk_of_bits (map (fun row => N.testbit (nth i row 0%N) (N.of_nat j)) rs)) (seq 0 128)).
  rewrite (omap_seq _ h).
  2:{ intros j Hj. fold nb. destruct (Nat.ltb_spec j nb); [reflexivity|lia]. }
  cbn [obind]. eexists. split; [reflexivity|].
  assert (Lh : forall q, length (h q) = 128) by (intros q; unfold h; rewrite map_length, seq_length; auto).
  assert (Lc : length (concat (map h (seq 0 (next_mult (qc_req c) 128 / 128)))) = 128 * (next_mult (qc_req c) 128 / 128)) by (apply concat_len; auto).
  pose proof (Nat.div_mod (next_mult (qc_req c) 128) 128 ltac:(lia)) as Dm.
  split; [rewrite firstn_length; lia|]. intros i r Hi Hr1.
  assert (Nf : forall (l : list N) k, i < k -> nth i (firstn k l) 0%N = nth i l 0%N).
  { clear. induction i as [|i IH]; intros [|x l] [|k] Hk; try lia; auto. cbn [firstn nth]. apply IH. lia. }
  rewrite Nf by auto. rewrite (concat_nth h 128 0%N) by (auto; lia). unfold h. rewrite Nat.add_0_l.
  pose proof (Nat.mod_upper_bound i 128 ltac:(lia)). rewrite nth_map_seq by auto.
  rewrite blk_testbit. rewrite (nth_map_d _ _ _ []) by lia.
  destruct (Gs r Hr1) as [L1 B1].
  assert (Hi2 : i < 128 * nb) by (fold nb in HP; lia).
  specialize (B1 i Hi2). unfold bit in B1 at 1. rewrite B1. apply qc_word_ext; auto.
Qed.

Lemma lin_bit row : forall v r, N.testbit (fold_right N.lxor 0%N (zip_with (fun (b : bool) x => if b then x else 0%N) row v)) r
  = row_word row (fun p => N.testbit (nth p v 0%N) r).
Proof.
  unfold row_word. induction row as [|b row IH]; intros v r; [destruct v; reflexivity|].
  cbn [length]. rewrite xor_upto_first. destruct v as [|x v].
  - replace (nth 0 (b :: row) false && N.testbit (nth 0 [] 0%N) r) with false by (symmetry; apply andb_false_r).
    rewrite (xor_upto_ext _ _ (fun _ => false)); [rewrite xor_upto_false; reflexivity|].
    intros i _. apply andb_false_r.
  - cbn [zip_with fold_right nth]. rewrite N.lxor_spec, IH. f_equal. destruct b; cbn [andb]; auto.
Qed.

Lemma lin_apply_bit M v i r : i < length M ->
  N.testbit (nth i (lin_apply M v) 0%N) r = row_word (nth i M []) (fun p => N.testbit (nth p v 0%N) r).
Proof. intros H. unfold lin_apply. rewrite (nth_map_d _ _ _ []) by auto. apply lin_bit. Qed.

Lemma nth_firstn {A} k (l : list A) i d : i < k -> nth i (firstn k l) d = nth i l d.
Proof. revert l i. induction k as [|k IH]; intros [|x l] [|i] H; try lia; auto. cbn [firstn nth]. apply IH. lia. Qed.

Lemma nth_skipn {A} k (l : list A) i d : nth i (skipn k l) d = nth (k + i) l d.
Proof. revert l. induction k as [|k IH]; intros [|x l]; cbn [skipn Nat.add nth]; auto. destruct i; auto. Qed.

Lemma lib_encode_ok k c M v : enc_ok (ELib k c M) -> length v = lc_N2 c ->
  exists b, lib_encode k c M v = Some b /\ length b = out_count (ELib k c M) /\
    forall i r, i < out_count (ELib k c M) ->
      N.testbit (nth i b 0%N) r = code_word (ELib k c M) (fun p => N.testbit (nth p v 0%N) r) i.
Proof.
  intros (_ & _ & _ & _ & Ho) Lv. destruct k; cbn [lib_encode out_count code_word enc_req] in *.
  - destruct Ho as (_ & L & Hr & _). eexists. split; [reflexivity|]. split.
    { rewrite firstn_length. unfold lin_apply. rewrite map_length. lia. }
    intros i r Hi. rewrite nth_firstn by auto. apply lin_apply_bit. lia.
  - destruct Ho as (L & Hr & F). destruct (Nat.leb_spec (lc_code c) (length v)); [|lia]. cbn [oassert obind].
    eexists. split; [reflexivity|]. split; [unfold lin_apply; rewrite map_length; auto|].
    intros i r Hi. rewrite lin_apply_bit by lia. apply row_word_ext. rewrite Forall_forall in F.
    rewrite (F (nth i M [])) by (apply nth_In; lia). intros p Hp. rewrite nth_firstn by auto. auto.
  - destruct Ho as (L & Hr & F). destruct (Nat.leb_spec (lc_code c) (length v)); [|lia]. cbn [oassert obind].
    assert (Ll : length (lin_apply M (firstn (lc_code c) v)) = lc_code c) by (unfold lin_apply; rewrite map_length; auto).
    eexists. split; [reflexivity|]. split; [rewrite app_length, skipn_length; lia|].
    intros i r Hi. destruct (Nat.ltb_spec i (lc_code c)).
    + rewrite app_nth1 by lia. rewrite lin_apply_bit by lia. apply row_word_ext. rewrite Forall_forall in F.
      rewrite (F (nth i M [])) by (apply nth_In; lia). intros p Hp. rewrite nth_firstn by auto. auto.
    + rewrite app_nth2 by lia. rewrite nth_skipn. do 2 f_equal. lia.
Qed.

Lemma send_compress_ok e rt : enc_ok e -> rt_shape e rt ->
  exists b, send_compress e rt = Some b /\ length b = out_count e /\
    forall i r, i < out_count e -> r < 128 -> N.testbit (nth i b 0%N) (N.of_nat r) = code_word e (fun p => rt_bit rt p r) i.
Proof.
  intros He Hs. destruct e as [c a|k c M].
  - destruct rt as [[l|n rows]|v]; try contradiction. destruct (dual_encode_ok c a n rows He Hs) as (b & E & L & B).
    exists b. auto.
  - assert (G : forall v, length v = lc_N2 c -> (forall p r, rt_bit rt p r = N.testbit (nth p v 0%N) (N.of_nat r)) ->
              send_compress (ELib k c M) rt = lib_encode k c M v ->
              exists b, send_compress (ELib k c M) rt = Some b /\ length b = out_count (ELib k c M) /\
                forall i r, i < out_count (ELib k c M) -> r < 128 ->
                  N.testbit (nth i b 0%N) (N.of_nat r) = code_word (ELib k c M) (fun p => rt_bit rt p r) i).
    { intros v Lv Hb Es. destruct (lib_encode_ok k c M v He Lv) as (b & E & L & B). exists b. rewrite Es. split; auto. split; auto.
      intros i r Hi _. rewrite B by auto. apply code_word_ext; auto. }
    destruct k, rt as [[l|n rows]|v]; cbn [rt_shape] in Hs; try contradiction;
      [apply (G v)|apply (G l)|apply (G l)]; auto.
Qed.

(** ** Packing *)

Lemma code_word_zero e i : code_word e (fun _ => false) i = false.
Proof.
  assert (E := code_word_lin e (fun _ => false) (fun _ => false) false i). cbn [xorb andb] in E.
  destruct (code_word e (fun _ => false) i) eqn:E0; auto.
  pose proof (code_word_lin e (fun _ => false) (fun _ => false) true i) as E1. cbn [xorb andb] in E1. rewrite E0 in E1. discriminate.
Qed.

Lemma set_lsb_ok S : forall v, Forall (fun i => i < length v) S ->
  exists v', ofold (fun v i => x <- nth_error v i ;; Some (upd i (N.lor x 1) v)) v S = Some v' /\ length v' = length v /\
    forall p r, p < length v -> N.testbit (nth p v' 0%N) (N.of_nat r)
      = if r =? 0 then N.testbit (nth p v 0%N) 0 || noise S p else N.testbit (nth p v 0%N) (N.of_nat r).
Proof.
  induction S as [|i S IH]; intros v F.
  - exists v. split; [reflexivity|]. split; auto. intros p r _. cbn [noise existsb]. destruct (Nat.eqb_spec r 0) as [->|]; auto.
    rewrite orb_false_r. auto.
  - inversion F as [|? ? Hi F']; subst. cbn [ofold]. rewrite (nth_error_nth' v 0%N Hi). cbn [obind].
    destruct (IH (upd i (N.lor (nth i v 0%N) 1) v)) as (v' & E & L & B).
    { rewrite upd_length. auto. }
    exists v'. rewrite upd_length in *. split; auto. split; auto. intros p r Hp. rewrite B by auto. rewrite !upd_nth.
    replace (i <? length v) with true by (symmetry; apply Nat.ltb_lt; auto). rewrite andb_true_r.
    cbn [noise existsb]. fold (noise S p).
    destruct (Nat.eqb_spec r 0) as [->|Hr]; rewrite ?(Nat.eqb_sym p i).
    + destruct (Nat.eqb_spec i p) as [->|]; auto. rewrite N.lor_spec. cbn [N.testbit]. rewrite orb_true_r. rewrite orb_true_r. auto.
    + destruct (Nat.eqb_spec i p) as [->|]; auto. rewrite N.lor_spec. replace (N.testbit 1 (N.of_nat r)) with false; [apply orb_false_r|].
      symmetry. change 1%N with (2 ^ 0)%N. apply N.pow2_bits_false. lia.
Qed.

Lemma mask_bit x r : r < 128 -> N.testbit (N.land x (N.lxor 1 blk_ones)) (N.of_nat r) = if r =? 0 then false else N.testbit x (N.of_nat r).
Proof.
  intros Hr. rewrite N.land_spec, N.lxor_spec. unfold blk_ones. rewrite N.ones_spec_low by lia.
  destruct (Nat.eqb_spec r 0) as [->|Hn]; [cbn; apply andb_false_r|].
  replace (N.testbit 1 (N.of_nat r)) with false; [apply andb_true_r|].
  symmetry. change 1%N with (2 ^ 0)%N. apply N.pow2_bits_false. lia.
Qed.

Lemma pack_lsb_ok S v : Forall (fun i => i < length v) S ->
  exists v', pack_lsb S v = Some v' /\ length v' = length v /\
    forall p r, p < length v -> r < 128 -> N.testbit (nth p v' 0%N) (N.of_nat r)
      = if r =? 0 then noise S p else N.testbit (nth p v 0%N) (N.of_nat r).
Proof.
  intros F. unfold pack_lsb. destruct (set_lsb_ok S (map (fun x => N.land x (N.lxor 1 blk_ones)) v)) as (v' & E & L & B).
  { rewrite map_length. auto. }
  rewrite map_length in L, B. exists v'. split; auto. split; auto. intros p r Hp Hr. rewrite B by auto.
  rewrite (nth_map_d _ _ _ 0%N) by auto.
  pose proof (mask_bit (nth p v 0%N) 0 ltac:(lia)) as M0. cbn [N.of_nat Nat.eqb] in M0. rewrite M0.
  rewrite mask_bit by auto. destruct (r =? 0); auto.
Qed.

Lemma calc_sb_ok n2 S : n2 mod 128 = 0 -> Forall (fun i => i < n2) S ->
  calc_sb n2 S = Some (blocks_from (n2 / 128) (noise S)).
Proof.
  intros Hm F. unfold calc_sb. pose proof (Nat.div_mod n2 128 ltac:(lia)) as D. set (q := n2 / 128) in *.
  assert (E : n2 = q * 8 * 16) by lia.
  replace (n2 mod 16) with 0 by (rewrite E; symmetry; apply Nat.mod_mul; lia). cbn [Nat.eqb oassert obind].
  assert (E8 : n2 / 8 = q * 16) by (replace n2 with (q * 16 * 8) by lia; apply Nat.div_mul; lia). rewrite E8.
  replace (forallb (fun i => i <? q * 16 * 8) S) with true.
  2:{ symmetry. apply forallb_forall. rewrite Forall_forall in F. intros x Hx. apply Nat.ltb_lt. specialize (F x Hx). lia. }
  cbn [oassert obind]. rewrite Nat.mod_mul, Nat.div_mul by lia. reflexivity.
Qed.

Lemma pack_ok e S rt : enc_ok e -> rt_shape e rt -> Forall (fun i => i < enc_N2 e) S ->
  exists rt', pack_choices e S rt = Some rt' /\ rt_shape e rt' /\
    forall p r, p < enc_N2 e -> r < 128 -> rt_bit rt' p r = if r =? 0 then noise S p else rt_bit rt p r.
Proof.
  intros He Hs F. destruct e as [c a|k c M].
  - destruct rt as [[l|n rows]|v]; try contradiction. destruct Hs as (En & Lr & Fr). cbn [enc_N2] in *. cbn [pack_choices].
    assert (Hm : qc_N2 c mod 128 = 0) by apply He.
    rewrite calc_sb_ok by auto. cbn [obind]. destruct rows as [|r0 rest]; [cbn in Lr; lia|].
    rewrite blocks_from_length. unfold qc_n2blocks in *. rewrite Nat.eqb_refl. cbn [oassert obind].
    inversion Fr as [|? ? [L0 O0] Fr']; subst. rewrite L0, Nat.leb_refl. cbn [oassert obind].
    rewrite skipn_all2 by lia. rewrite app_nil_r. eexists. split; [reflexivity|]. split.
    + cbn [rt_shape]. split; [reflexivity|]. split; [exact Lr|]. constructor; auto. split; [apply blocks_from_length|apply blocks_from_ok].
    + intros p r Hp Hr. cbn [rt_bit out_bit]. destruct r as [|r]; cbn [Nat.eqb nth]; auto.
      change (bit (blocks_from (qc_N2 c / 128) (noise S)) p = noise S p). rewrite blocks_from_bit.
      pose proof (Nat.div_mod (qc_N2 c) 128 ltac:(lia)). destruct (Nat.ltb_spec p (128 * (qc_N2 c / 128))); [auto|lia].
  - cbn [enc_N2] in *.
    assert (G : forall v, length v = lc_N2 c -> exists v', pack_lsb S v = Some v' /\ length v' = lc_N2 c /\
        forall p r, p < lc_N2 c -> r < 128 -> N.testbit (nth p v' 0%N) (N.of_nat r) = if r =? 0 then noise S p else N.testbit (nth p v 0%N) (N.of_nat r)).
    { intros v Lv. rewrite <- Lv in *. destruct (pack_lsb_ok S v F) as (v' & E & L & B). exists v'. auto. }
    destruct k, rt as [[l|n rows]|v]; cbn [rt_shape] in Hs; try contradiction;
    [destruct (G v Hs) as (v' & E & L & B)|destruct (G l Hs) as (v' & E & L & B)|destruct (G l Hs) as (v' & E & L & B)];
    cbn [pack_choices]; rewrite E; cbn [obind]; eexists; (split; [reflexivity|]); split; auto.
Qed.

(** How many choice bytes come out: for Silver all positions of the vector. *)
Definition choice_count (e : encoder) : nat := match e with ELib Silver c _ => lc_N2 c | _ => out_count e end.

Lemma byte_choice e f (v : list N) i (x : N) : enc_ok e -> i < out_count e ->
  (forall p, p < enc_N2 e -> nth p v 0%N = N.b2n (f p)) ->
  (forall r, N.testbit x r = code_word e (fun p => N.testbit (nth p v 0%N) r) i) -> x = N.b2n (code_word e f i).
Proof.
  intros He Hi Hv Hx. apply N.bits_inj. intros r. rewrite Hx. destruct (N.eq_dec r 0) as [->|Hn].
  - rewrite N.b2n_bit0. apply code_word_ext; auto. intros p Hp. rewrite Hv by auto. apply N.b2n_bit0.
  - replace (N.testbit (N.b2n (code_word e f i)) r) with false.
    + rewrite <- (code_word_zero e i). apply code_word_ext; auto. intros p Hp. rewrite Hv by auto. destruct (f p); [|reflexivity].
      cbn [N.b2n]. change 1%N with (2 ^ 0)%N. apply N.pow2_bits_false. lia.
    + symmetry. destruct (code_word e f i); [|reflexivity]. cbn [N.b2n]. change 1%N with (2 ^ 0)%N. apply N.pow2_bits_false. lia.
Qed.

Lemma choice_ok e S : enc_ok e -> Forall (fun i => i < enc_N2 e) S ->
  exists c, match e with
            | EQc c pa => sb <- calc_sb (qc_N2 c) S ;; qc_dual_encode_choice c pa sb
            | ELib k c M => c1 <- choice_bytes (lc_N2 c) S ;; lib_encode_choice k c M c1
            end = Some c /\ length c = choice_count e /\
    forall i, i < out_count e -> nth i c 0%N = N.b2n (code_word e (noise S) i).
Proof.
  intros He F. destruct e as [c a|k c M].
  - cbn [enc_N2] in F. assert (He' := He). destruct He' as (_ & _ & _ & _ & _ & Hs & La & Ho & HP & H2 & Hr & Hm & Hn).
    rewrite calc_sb_ok by auto. cbn [obind]. unfold qc_dual_encode_choice.
    assert (Hn2 : qc_scaler c * qc_nblocks c <= qc_N2 c / 128) by (apply Nat.div_le_lower_bound; lia).
    destruct (reduce_ok c a Hs La (blocks_from (qc_N2 c / 128) (noise S)) Ho HP H2) as (d & Ed & Ld & Bd).
    { rewrite blocks_from_length. auto. } { apply blocks_from_ok. }
    rewrite Ed. cbn [obind]. eexists. split; [reflexivity|]. cbn [choice_count out_count enc_req].
    split; [rewrite map_length, seq_length; auto|]. intros i Hi. rewrite nth_map_seq by auto. rewrite pbit_bit, Bd by lia.
    f_equal. cbn [code_word]. apply qc_word_ext; auto. intros p Hp. rewrite blocks_from_bit.
    pose proof (Nat.div_mod (qc_N2 c) 128 ltac:(lia)). destruct (Nat.ltb_spec p (128 * (qc_N2 c / 128))); [auto|nia].
  - cbn [enc_N2] in F. unfold choice_bytes.
    replace (forallb (fun i => i <? lc_N2 c) S) with true.
    2:{ symmetry. apply forallb_forall. rewrite Forall_forall in F. intros x Hx. apply Nat.ltb_lt. auto. }
    cbn [oassert obind]. set (c1 := map (fun p => N.b2n (existsb (Nat.eqb p) S)) (seq 0 (lc_N2 c))).
    assert (L1 : length c1 = lc_N2 c) by (unfold c1; rewrite map_length, seq_length; auto).
    assert (V : forall p, p < lc_N2 c -> nth p c1 0%N = N.b2n (noise S p)) by (intros p Hp; unfold c1; rewrite nth_map_seq by auto; auto).
    assert (G : forall x, lib_encode_choice k c M c1 = Some x -> (forall i, i < out_count (ELib k c M) -> forall r,
        N.testbit (nth i x 0%N) r = code_word (ELib k c M) (fun p => N.testbit (nth p c1 0%N) r) i) ->
        forall i, i < out_count (ELib k c M) -> nth i x 0%N = N.b2n (code_word (ELib k c M) (noise S) i)).
    { intros x _ B i Hi. apply (byte_choice (ELib k c M) (noise S) c1 i); auto. }
    destruct k.
    + cbn [lib_encode_choice] in *. exists (lin_apply M c1). split; [reflexivity|].
      assert (He' := He). destruct He' as (_ & _ & _ & _ & (_ & LM & Hr & FM)).
      split; [unfold lin_apply; rewrite map_length; exact LM|]. apply G; [reflexivity|].
      intros i Hi r. cbn [out_count enc_req] in Hi. cbn [code_word]. apply lin_apply_bit. lia.
    + destruct (lib_encode_ok ExAcc c M c1 He L1) as (b & E & L & B). exists b. cbn [lib_encode_choice] in *. split; auto.
    + destruct (lib_encode_ok ExConv c M c1 He L1) as (b & E & L & B). exists b. cbn [lib_encode_choice] in *. split; auto.
Qed.

Lemma recv_compress_ok e rt S : enc_ok e -> rt_shape e rt -> Forall (fun i => i < enc_N2 e) S ->
  (exists a c, recv_compress e rt S false = Some (a, Some c) /\ length a = out_count e /\ length c = choice_count e /\
     (forall i, i < out_count e -> nth i c 0%N = N.b2n (code_word e (noise S) i)) /\
     (forall i r, i < out_count e -> r < 128 -> N.testbit (nth i a 0%N) (N.of_nat r) = code_word e (fun p => rt_bit rt p r) i)) /\
  (exists a, recv_compress e rt S true = Some (a, None) /\ length a = out_count e /\
     forall i r, i < out_count e -> r < 128 -> N.testbit (nth i a 0%N) (N.of_nat r)
       = if r =? 0 then code_word e (noise S) i else code_word e (fun p => rt_bit rt p r) i).
Proof.
  intros He Hs F. unfold recv_compress. split.
  - destruct (send_compress_ok e rt He Hs) as (a & E & L & B). rewrite E. cbn [obind].
    destruct (choice_ok e S He F) as (c & Ec & Lc & Bc). rewrite Ec. cbn [obind]. exists a, c. auto.
  - destruct (pack_ok e S rt He Hs F) as (rt' & E & Hs' & Bp). rewrite E. cbn [obind].
    destruct (send_compress_ok e rt' He Hs') as (a & Ea & L & B). rewrite Ea. cbn [obind]. exists a. split; auto. split; auto.
    intros i r Hi Hr. rewrite B by auto. destruct (Nat.eqb_spec r 0) as [->|Hn].
    + apply code_word_ext; auto. intros p Hp. rewrite Bp by (auto; lia). reflexivity.
    + apply code_word_ext; auto. intros p Hp. rewrite Bp by auto. destruct (Nat.eqb_spec r 0); [lia|auto].
Qed.
