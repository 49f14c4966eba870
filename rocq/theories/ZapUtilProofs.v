(** Proofs about the small functions of zappot. *)
From Coq Require Import List Bool Arith NArith ZArith Lia ZifyBool ZifyNat ZifyN.
Require Import Verif.Prelude Verif.PreludeProofs Verif.ZapUtilModel Verif.ZapUtilSpec.
Import ListNotations.
Ltac Zify.zify_post_hook ::= Z.div_mod_to_equations.

(** ** Logarithms *)

Lemma leading_zeros_spec bits : forall v, (v < 2 ^ N.of_nat bits)%N -> v <> 0%N ->
  leading_zeros bits v + S (N.to_nat (N.log2 v)) = bits.
Proof.
  induction bits as [|b IH]; intros v Hv H0.
  - simpl in Hv. lia.
  - cbn [leading_zeros]. destruct (N.testbit v (N.of_nat b)) eqn:E.
    + assert (N.log2 v = N.of_nat b); [|lia].
      apply N.le_antisymm.
      * assert (N.log2 v < N.of_nat (S b))%N; [|lia]. apply N.log2_lt_pow2; lia.
      * apply N.le_ngt. intros Hlt. rewrite N.bits_above_log2 in E by auto. discriminate.
    + assert (Hb : (v < 2 ^ N.of_nat b)%N).
      { apply N.log2_lt_pow2; [lia|]. assert (N.log2 v <> N.of_nat b).
        { intros Hl. rewrite <- Hl, N.bit_log2 in E by auto. discriminate. }
        assert (N.log2 v < N.of_nat (S b))%N by (apply N.log2_lt_pow2; lia). lia. }
      specialize (IH v Hb H0). lia.
Qed.

Lemma log2_floor_eq bits v : (v < 2 ^ N.of_nat bits)%N -> v <> 0%N -> log2_floor bits v = Some (N.to_nat (N.log2 v)).
Proof.
  intros Hv H0. pose proof (leading_zeros_spec bits v Hv H0) as H. unfold log2_floor.
  destruct (N.ltb_spec 0 v); [|lia]. cbn [oassert obind].
  destruct (Nat.leb_spec (leading_zeros bits v + 1) bits); [|lia]. cbn [oassert obind]. f_equal. lia.
Qed.

(** ** Bits and bytes *)

Definition bbit (bs : list N) (j : nat) : bool := N.testbit (nth (j / 8) bs 0%N) (N.of_nat (j mod 8)).

Lemma blk_bytes_length x : length (blk_bytes x) = 16. Proof. reflexivity. Qed.

Lemma bytes_of_length l : length (bytes_of l) = 16 * length l.
Proof. induction l as [|x l IH]; auto. unfold bytes_of in *. cbn [flat_map]. rewrite app_length, IH, blk_bytes_length. simpl. lia. Qed.

Lemma nth_blk_bytes x i : i < 16 -> nth i (blk_bytes x) 0%N = (N.shiftr x (N.of_nat (8 * i)) mod 256)%N.
Proof.
  intros H. apply nth_error_nth. unfold blk_bytes. apply (map_nth_error (fun i => (N.shiftr x (N.of_nat (8 * i)) mod 256)%N)).
  rewrite (nth_error_nth' _ 0), seq_nth by (try rewrite seq_length; auto). auto.
Qed.

Lemma nth_bytes_of l : forall i, i < 16 * length l ->
  nth i (bytes_of l) 0%N = (N.shiftr (nth (i / 16) l 0) (N.of_nat (8 * (i mod 16))) mod 256)%N.
Proof.
  induction l as [|x l IH]; intros i Hi; [simpl in Hi; lia|]. unfold bytes_of in *. cbn [flat_map].
  destruct (Nat.lt_ge_cases i 16) as [H|H].
  - rewrite app_nth1 by (rewrite blk_bytes_length; auto). rewrite nth_blk_bytes by auto.
    rewrite Nat.div_small, Nat.mod_small by auto. auto.
  - rewrite app_nth2 by (rewrite blk_bytes_length; auto). rewrite blk_bytes_length.
    cbn [length] in Hi. rewrite IH by lia. replace (i / 16) with (S ((i - 16) / 16)) by lia.
    replace (i mod 16) with ((i - 16) mod 16) by lia. auto.
Qed.

Lemma bbit_bytes_of l j : bbit (bytes_of l) j = bit l j.
Proof.
  unfold bbit, bit. destruct (Nat.lt_ge_cases j (128 * length l)) as [H|H].
  - rewrite nth_bytes_of by lia. change 256%N with (2 ^ 8)%N. rewrite N.mod_pow2_bits_low by lia.
    rewrite N.shiftr_spec by lia. f_equal; [f_equal; lia|lia].
  - rewrite !nth_overflow; auto; [lia|rewrite bytes_of_length; lia].
Qed.

Definition bytes_ok (bs : list N) : Prop := Forall (fun b => (b < 256)%N) bs.

Lemma bytes_of_ok l : bytes_ok (bytes_of l).
Proof.
  induction l as [|x l IH]; [constructor|]. unfold bytes_of in *. cbn [flat_map]. apply Forall_app. split; auto.
  apply Forall_forall. intros b Hb. unfold blk_bytes in Hb. apply in_map_iff in Hb. destruct Hb as (i & <- & _).
  apply N.mod_lt. discriminate.
Qed.

Lemma byte_acc b acc k : (b < 256)%N -> N.testbit (b + 256 * acc) k = if (k <? 8)%N then N.testbit b k else N.testbit acc (k - 8).
Proof.
  intros Hb. assert (E : (b + 256 * acc = N.lor b (N.shiftl acc 8))%N).
  { rewrite N.shiftl_mul_pow2. change (2 ^ 8)%N with 256%N. rewrite <- N.lxor_lor, <- N.add_nocarry_lxor; try (rewrite N.mul_comm; auto).
    - apply N.bits_inj. intros n. rewrite N.land_spec, N.bits_0. change 256%N with (2 ^ 8)%N. rewrite N.mul_comm, <- N.shiftl_mul_pow2 by lia.
      destruct (N.ltb_spec n 8); [rewrite N.shiftl_spec_low, andb_false_r; auto|].
      destruct (N.eq_dec b 0) as [->|]; [rewrite N.bits_0; auto|]. rewrite (N.bits_above_log2 b); auto.
      assert (N.log2 b < 8)%N by (apply N.log2_lt_pow2; lia). lia.
    - apply N.bits_inj. intros n. rewrite N.land_spec, N.bits_0. change 256%N with (2 ^ 8)%N. rewrite N.mul_comm, <- N.shiftl_mul_pow2 by lia.
      destruct (N.ltb_spec n 8); [rewrite N.shiftl_spec_low, andb_false_r; auto|].
      destruct (N.eq_dec b 0) as [->|]; [rewrite N.bits_0; auto|]. rewrite (N.bits_above_log2 b); auto.
      assert (N.log2 b < 8)%N by (apply N.log2_lt_pow2; lia). lia. }
  rewrite E, N.lor_spec. destruct (N.ltb_spec k 8).
  - rewrite N.shiftl_spec_low, orb_false_r; auto.
  - rewrite N.shiftl_spec_high by lia. destruct (N.eq_dec b 0) as [->|]; [rewrite N.bits_0; auto|].
    rewrite (N.bits_above_log2 b); auto. assert (N.log2 b < 8)%N by (apply N.log2_lt_pow2; lia). lia.
Qed.

Lemma blk_of_bytes_bit bs : bytes_ok bs -> forall j, N.testbit (blk_of_bytes bs) (N.of_nat j) = bbit bs j.
Proof.
  induction 1 as [|b bs Hb HF IH]; intros j; [unfold bbit; rewrite nth_overflow by (simpl; lia); auto|].
  cbn [blk_of_bytes fold_right]. fold (blk_of_bytes bs). rewrite byte_acc by auto. unfold bbit in *.
  destruct (N.ltb_spec (N.of_nat j) 8).
  - rewrite Nat.div_small, Nat.mod_small by lia. auto.
  - replace (N.of_nat j - 8)%N with (N.of_nat (j - 8)) by lia. rewrite IH.
    replace (j / 8) with (S ((j - 8) / 8)) by lia. replace (j mod 8) with ((j - 8) mod 8) by lia. auto.
Qed.

Lemma bytes_ok_firstn n bs : bytes_ok bs -> bytes_ok (firstn n bs).
Proof. intros H. unfold bytes_ok in *. rewrite Forall_forall in *. intros x Hx. apply H. rewrite <- (firstn_skipn n bs). apply in_or_app. auto. Qed.
Lemma bytes_ok_skipn n bs : bytes_ok bs -> bytes_ok (skipn n bs).
Proof. intros H. unfold bytes_ok in *. rewrite Forall_forall in *. intros x Hx. apply H. rewrite <- (firstn_skipn n bs). apply in_or_app. auto. Qed.

Lemma nth_firstn_lt {A} (d : A) l : forall n i, i < n -> nth i (firstn n l) d = nth i l d.
Proof. induction l as [|x l IH]; intros [|n] [|i] H; simpl; auto; try lia. apply IH. lia. Qed.
Lemma nth_skipn_add {A} (d : A) l : forall n i, nth i (skipn n l) d = nth (n + i) l d.
Proof. induction l as [|x l IH]; intros [|n] i; simpl; auto. destruct i; auto. Qed.

Lemma blocks_of_bit n : forall bs, bytes_ok bs -> forall j, j < 128 * n -> bit (blocks_of n bs) j = bbit bs j.
Proof.
  induction n as [|n IH]; intros bs Hb j Hj; [lia|]. cbn [blocks_of]. unfold bit.
  destruct (Nat.lt_ge_cases j 128) as [H|H].
  - rewrite Nat.div_small, Nat.mod_small by auto. cbn [nth]. rewrite blk_of_bytes_bit by (apply bytes_ok_firstn; auto).
    unfold bbit. rewrite nth_firstn_lt by lia. auto.
  - replace (j / 128) with (S ((j - 128) / 128)) by lia. replace (j mod 128) with ((j - 128) mod 128) by lia. cbn [nth].
    fold (bit (blocks_of n (skipn 16 bs)) (j - 128)). rewrite IH by (try apply bytes_ok_skipn; auto; lia).
    unfold bbit. rewrite nth_skipn_add. f_equal; [f_equal; lia|f_equal; lia].
Qed.

Lemma blocks_of_length n : forall bs, length (blocks_of n bs) = n.
Proof. induction n; intros; simpl; auto. Qed.

Lemma blk_of_bytes_lt bs : bytes_ok bs -> (blk_of_bytes bs < 2 ^ N.of_nat (8 * length bs))%N.
Proof.
  induction 1 as [|b bs Hb HF IH]; [reflexivity|]. cbn [blk_of_bytes fold_right length]. fold (blk_of_bytes bs).
  replace (N.of_nat (8 * S (length bs))) with (8 + N.of_nat (8 * length bs))%N by lia.
  rewrite N.pow_add_r. change (2 ^ 8)%N with 256%N. nia.
Qed.

Lemma blocks_of_ok n : forall bs, bytes_ok bs -> blocks_ok (blocks_of n bs).
Proof.
  induction n as [|n IH]; intros bs Hb; [constructor|]. cbn [blocks_of]. constructor; [|apply IH; apply bytes_ok_skipn; auto].
  eapply N.lt_le_trans; [apply blk_of_bytes_lt; apply bytes_ok_firstn; auto|]. apply N.pow_le_mono_r; [discriminate|].
  rewrite firstn_length. lia.
Qed.

(** ** bit_shift_xor *)

Lemma block_bits_high x k : (x < 2 ^ 128)%N -> 128 <= k -> N.testbit x (N.of_nat k) = false.
Proof.
  intros Hx Hk. destruct (N.eq_dec x 0) as [->|H0]; [apply N.bits_0|]. apply N.bits_above_log2.
  assert (N.log2 x < 128)%N by (apply N.log2_lt_pow2; lia). lia.
Qed.

Lemma shifted_bits x y k r : (x < 2 ^ 128)%N -> 1 <= k -> k <= 127 -> r < 128 ->
  N.testbit (N.lor (N.shiftr x (N.of_nat k)) (N.shiftl y (N.of_nat (128 - k)) mod 2 ^ 128)) (N.of_nat r) =
  if r + k <? 128 then N.testbit x (N.of_nat (r + k)) else N.testbit y (N.of_nat (r + k - 128)).
Proof.
  intros Hx Hk1 Hk2 Hr. rewrite N.lor_spec, N.shiftr_spec, N.mod_pow2_bits_low by lia.
  replace (N.of_nat r + N.of_nat k)%N with (N.of_nat (r + k)) by lia.
  destruct (Nat.ltb_spec (r + k) 128).
  - rewrite N.shiftl_spec_low, orb_false_r by lia. auto.
  - rewrite block_bits_high by (auto; lia). cbn [orb]. rewrite N.shiftl_spec_high by lia. f_equal. lia.
Qed.

Lemma bit_cons0 x l j : j < 128 -> bit (x :: l) j = N.testbit x (N.of_nat j).
Proof. intros H. unfold bit. rewrite Nat.div_small, Nat.mod_small by auto. auto. Qed.
Lemma bit_cons1 x l j : 128 <= j -> bit (x :: l) j = bit l (j - 128).
Proof.
  intros H. unfold bit. replace (j / 128) with (S ((j - 128) / 128)) by lia.
  replace (j mod 128) with ((j - 128) mod 128) by lia. auto.
Qed.
Lemma bit_nil j : bit [] j = false.
Proof. unfold bit. rewrite nth_overflow by (simpl; lia). apply N.bits_0. Qed.
Lemma bit_over l j : 128 * length l <= j -> bit l j = false.
Proof. intros H. unfold bit. rewrite nth_overflow by lia. apply N.bits_0. Qed.

(** [bit_shift_xor], recursive form: all blocks but the last of [inp] by the loop,
    the last one by the extra step. *)
Lemma bsx_loop_spec inp : forall dest k, blocks_ok inp -> 1 <= k -> k <= 127 -> inp <> [] ->
  exists d, bsx_loop dest inp (skipn 1 inp) k = Some d /\ length d = length dest /\
    forall j, j < 128 * length dest ->
      bit d j = xorb (bit dest j) (if j <? 128 * (length inp - 1) then bit inp (j + k) else false).
Proof.
  induction inp as [|x xs IH]; intros dest k Hok H1 H2 Hne; [congruence|]. inversion Hok as [|? ? Hx Hok']; subst.
  cbn [skipn]. destruct dest as [|d ds].
  { exists []. split; [reflexivity|]. split; auto. simpl. lia. }
  destruct xs as [|y ys].
  { exists (d :: ds). split; [reflexivity|]. split; auto. intros j _. simpl. rewrite xorb_false_r. auto. }
  destruct (IH ds k Hok' H1 H2) as (r & Er & Lr & Br); [discriminate|].
  cbn [bsx_loop]. unfold blk_shr, blk_shl. destruct (Nat.ltb_spec k 128); [|lia]. destruct (Nat.ltb_spec (128 - k) 128); [|lia].
  cbn [oassert obind]. cbn [skipn] in Er. rewrite Er. cbn [obind]. eexists. split; [reflexivity|]. split; [simpl; lia|].
  intros j Hj. replace (length (x :: y :: ys) - 1) with (S (length ys)) by (simpl; lia).
  destruct (Nat.lt_ge_cases j 128) as [Hlt|Hge].
  - destruct (Nat.ltb_spec j (128 * S (length ys))); [|lia]. rewrite !(bit_cons0 _ _ j) by auto.
    rewrite N.lxor_spec. f_equal. rewrite shifted_bits by auto. destruct (Nat.ltb_spec (j + k) 128).
    + rewrite bit_cons0 by auto. auto.
    + rewrite bit_cons1 by auto. rewrite bit_cons0 by lia. auto.
  - rewrite !(bit_cons1 _ _ j) by auto. rewrite Br by (simpl in Hj; lia). f_equal.
    replace (length (y :: ys) - 1) with (length ys) by (simpl; lia).
    destruct (Nat.ltb_spec j (128 * S (length ys))), (Nat.ltb_spec (j - 128) (128 * length ys)); try lia; auto.
    rewrite (bit_cons1 x) by lia. f_equal. lia.
Qed.

Lemma nth_upd {A} (d x : A) l : forall i k, i < length l -> nth k (upd i x l) d = if k =? i then x else nth k l d.
Proof.
  induction l as [|y l IH]; intros [|i] [|k] H; simpl in *; auto; try lia. apply IH. lia.
Qed.

Lemma bit_upd l i x j : i < length l -> bit (upd i x l) j = if j / 128 =? i then N.testbit x (N.of_nat (j mod 128)) else bit l j.
Proof. intros H. unfold bit. rewrite nth_upd by auto. destruct (j / 128 =? i); auto. Qed.

Lemma bit_shift_xor_spec dest inp k : blocks_ok inp -> (1 <= k \/ length inp = 1) -> k <= 127 -> inp <> [] ->
  exists d, bit_shift_xor dest inp k = Some d /\ length d = length dest /\
    forall j, j < 128 * length dest -> bit d j = xorb (bit dest j) (bit inp (j + k)).
Proof.
  intros Hok Hk1 Hk2 Hne.
  assert (HL : exists d, bsx_loop dest inp (skipn 1 inp) k = Some d /\ length d = length dest /\
    forall j, j < 128 * length dest ->
      bit d j = xorb (bit dest j) (if j <? 128 * (length inp - 1) then bit inp (j + k) else false)).
  { destruct Hk1 as [H1|H1]; [apply bsx_loop_spec; auto|]. destruct inp as [|x [|]]; try discriminate. exists dest.
    split; [destruct dest; reflexivity|]. split; auto. intros j _. simpl. rewrite xorb_false_r. auto. }
  destruct HL as (d & E & L & B). unfold bit_shift_xor. destruct (Nat.leb_spec k 127); [|lia].
  assert (1 <= length inp) by (destruct inp; [congruence|simpl; lia]). destruct (Nat.leb_spec 1 (length inp)); [|lia].
  cbn [oassert obind]. rewrite E. cbn [obind]. destruct (Nat.leb_spec (length inp) (length d)) as [Hl|Hl].
  - rewrite (nth_error_nth' inp 0%N), (nth_error_nth' d 0%N) by lia. cbn [obind]. unfold blk_shr.
    destruct (Nat.ltb_spec k 128); [|lia]. cbn [oassert obind]. eexists. split; [reflexivity|]. rewrite upd_length. split; auto.
    intros j Hj. rewrite bit_upd by lia. destruct (Nat.eqb_spec (j / 128) (length inp - 1)) as [Eq|Ne].
    + rewrite N.lxor_spec. assert (Eb : N.testbit (nth (length inp - 1) d 0%N) (N.of_nat (j mod 128)) = bit d j) by (unfold bit; congruence).
      rewrite Eb, B by auto. destruct (Nat.ltb_spec j (128 * (length inp - 1))); [lia|]. rewrite xorb_false_r. f_equal.
      rewrite N.shiftr_spec by lia. replace (N.of_nat (j mod 128) + N.of_nat k)%N with (N.of_nat (j mod 128 + k)) by lia.
      destruct (Nat.lt_ge_cases (j mod 128 + k) 128) as [Hs|Hs].
      * unfold bit. replace ((j + k) / 128) with (length inp - 1) by lia. replace ((j + k) mod 128) with (j mod 128 + k) by lia. auto.
      * rewrite bit_over by lia. apply block_bits_high; auto. unfold blocks_ok in Hok. rewrite Forall_forall in Hok.
        apply Hok. apply nth_In. lia.
    + rewrite B by auto. f_equal. destruct (Nat.ltb_spec j (128 * (length inp - 1))); auto. rewrite bit_over; auto. lia.
  - exists d. split; auto. split; auto. intros j Hj. rewrite B by auto. f_equal.
    destruct (Nat.ltb_spec j (128 * (length inp - 1))); auto. lia.
Qed.

Lemma bit_shift_xor_zero dest inp : dest <> [] -> 2 <= length inp -> bit_shift_xor dest inp 0 = None.
Proof.
  intros Hd Hi. destruct inp as [|x [|y ys]]; try (simpl in Hi; lia). destruct dest as [|d ds]; [congruence|]. reflexivity.
Qed.

(** ** modp *)

Lemma slice_bit l a b j : a <= b -> b <= length l ->
  bit (firstn (b - a) (skipn a l)) j = if j <? 128 * (b - a) then bit l (128 * a + j) else false.
Proof.
  intros Hab Hb. destruct (Nat.ltb_spec j (128 * (b - a))).
  - unfold bit. rewrite nth_firstn_lt by lia. rewrite nth_skipn_add. f_equal; [f_equal; lia|f_equal; lia].
  - apply bit_over. rewrite firstn_length. lia.
Qed.

Lemma modp_step_spec inp p dest i : blocks_ok inp -> 1 <= p -> i * p < length inp * 128 ->
  ~ ((i * p) mod 128 = 0 /\ 128 < p /\ i * p + 128 < length inp * 128) ->
  exists d, modp_step inp p dest i = Some d /\ length d = length dest /\
    forall j, j < p -> j < 128 * length dest -> bit d j = xorb (bit dest j) (bit inp (i * p + j)).
Proof.
  intros Hok Hp Hi Hna. unfold modp_step. cbn zeta.
  set (e := (min (i * p + p) (length inp * 128) + 127) / 128). set (a := i * p / 128).
  assert (He : e <= length inp) by (unfold e; lia). assert (Ha : a < e) by (unfold a, e; lia).
  destruct (Nat.leb_spec e (length inp)); [|lia]. destruct (Nat.leb_spec a e); [|lia]. cbn [oassert obind].
  set (sl := firstn (e - a) (skipn a inp)).
  assert (Hsl : length sl = e - a) by (unfold sl; rewrite firstn_length, skipn_length; lia).
  assert (Hsok : blocks_ok sl).
  { unfold sl, blocks_ok in *. rewrite Forall_forall in *. intros x Hx. apply Hok.
    rewrite <- (firstn_skipn a inp). apply in_or_app. right. rewrite <- (firstn_skipn (e - a) (skipn a inp)). apply in_or_app. auto. }
  destruct (bit_shift_xor_spec dest sl ((i * p) mod 128)) as (d & E & L & B); auto.
  - destruct (Nat.eq_dec ((i * p) mod 128) 0) as [Hz|]; [|lia]. right. rewrite Hsl. unfold e, a.
    destruct (Nat.le_gt_cases p 128); [lia|]. destruct (Nat.le_gt_cases (length inp * 128) (i * p + 128)); [lia|]. tauto.
  - pose proof (Nat.mod_upper_bound (i * p) 128). lia.
  - intros Hn. rewrite Hn in Hsl. simpl in Hsl. lia.
  - exists d. split; auto. split; auto. intros j Hj Hjd. rewrite B by auto. f_equal. unfold sl. rewrite slice_bit by lia.
    destruct (Nat.ltb_spec (j + (i * p) mod 128) (128 * (e - a))).
    + f_equal. unfold a. lia.
    + symmetry. apply bit_over. unfold e, a in *. lia.
Qed.

Lemma modp_step_zero inp p dest i : dest <> [] -> (i * p) mod 128 = 0 -> 128 < p -> i * p + 128 < length inp * 128 ->
  modp_step inp p dest i = None.
Proof.
  intros Hd H0 Hp Hi. unfold modp_step. cbn zeta.
  set (e := (min (i * p + p) (length inp * 128) + 127) / 128). set (a := i * p / 128).
  assert (He : e <= length inp) by (unfold e; lia). assert (Ha : a + 2 <= e) by (unfold a, e; lia).
  destruct (Nat.leb_spec e (length inp)); [|lia]. destruct (Nat.leb_spec a e); [|lia]. cbn [oassert obind].
  rewrite H0. apply bit_shift_xor_zero; auto. rewrite firstn_length, skipn_length. lia.
Qed.

Lemma modp_steps inp p n : forall k dest, blocks_ok inp -> 1 <= p ->
  (forall i, k <= i -> i < k + n -> i * p < length inp * 128 /\
      ~ ((i * p) mod 128 = 0 /\ 128 < p /\ i * p + 128 < length inp * 128)) ->
  exists d, ofold (modp_step inp p) dest (seq k n) = Some d /\ length d = length dest /\
    forall j, j < p -> j < 128 * length dest ->
      bit d j = xorb (bit dest j) (xor_upto n (fun i => bit inp ((k + i) * p + j))).
Proof.
  induction n as [|n IH]; intros k dest Hok Hp Hall.
  - exists dest. split; auto. split; auto. intros. simpl. rewrite xorb_false_r. auto.
  - cbn [seq ofold]. destruct (Hall k) as [A B]; [lia|lia|].
    destruct (modp_step_spec inp p dest k Hok Hp A B) as (d1 & E1 & L1 & B1). rewrite E1. cbn [obind].
    destruct (IH (S k) d1 Hok Hp) as (d & E & L & B2); [intros; apply Hall; lia|].
    exists d. split; auto. split; [congruence|]. intros j Hj Hjd. rewrite B2 by (auto; rewrite L1; auto). rewrite B1 by auto.
    rewrite xorb_assoc. f_equal. clear. revert k. induction n as [|n IH]; intros k.
    + simpl. rewrite Nat.add_0_r. destruct (bit inp (k * p + j)); auto.
    + cbn [xor_upto]. rewrite <- xorb_assoc, IH. cbn [xor_upto]. f_equal. f_equal. lia.
Qed.

Lemma xor_upto_ext n f g : (forall i, i < n -> f i = g i) -> xor_upto n f = xor_upto n g.
Proof. induction n; intros H; simpl; auto. rewrite IHn, H; auto. Qed.

Lemma xor_upto_zero n f m : n <= m -> (forall i, n <= i -> i < m -> f i = false) -> xor_upto m f = xor_upto n f.
Proof.
  intros Hnm. induction Hnm as [|m Hle IH]; intros H; auto. simpl. rewrite IH, H by (auto; intros; apply H; lia).
  apply xorb_false_r.
Qed.

Lemma xor_upto_add n m f : xor_upto (n + m) f = xorb (xor_upto n f) (xor_upto m (fun i => f (n + i))).
Proof.
  induction m as [|m IH]; [rewrite Nat.add_0_r; simpl; rewrite xorb_false_r; auto|].
  rewrite Nat.add_succ_r. cbn [xor_upto]. rewrite IH, xorb_assoc. auto.
Qed.

Lemma xor_upto_false n : xor_upto n (fun _ => false) = false.
Proof. induction n as [|n IH]; [reflexivity|]. cbn [xor_upto]. rewrite IH. reflexivity. Qed.

Lemma xor_upto_one p j (f : nat -> bool) : j < p -> xor_upto p (fun x => if x =? j then f x else false) = f j.
Proof.
  intros H. induction p as [|p IH]; [lia|]. cbn [xor_upto]. destruct (Nat.eqb_spec p j) as [->|Hn].
  - rewrite (xor_upto_ext _ _ (fun _ => false)).
    + rewrite xor_upto_false. apply xorb_false_l.
    + intros i Hi. destruct (Nat.eqb_spec i j); auto; lia.
  - rewrite IH by lia. apply xorb_false_r.
Qed.

Lemma xor_residue c p j f : j < p ->
  xor_upto (c * p) (fun x => if x mod p =? j then f x else false) = xor_upto c (fun i => f (i * p + j)).
Proof.
  intros H. induction c as [|c IH]; auto. replace (S c * p) with (c * p + p) by lia. rewrite xor_upto_add, IH. cbn [xor_upto]. f_equal.
  rewrite <- (xor_upto_one p j (fun x => f (c * p + x))) by auto. apply xor_upto_ext. intros i Hi.
  rewrite Nat.add_comm, Nat.mod_add, Nat.mod_small by lia. rewrite Nat.add_comm. auto.
Qed.

Lemma bbit_mask x r k : r < 8 -> k < 8 -> N.testbit (N.land x (N.shiftl 1 (N.of_nat r) - 1)) (N.of_nat k) =
  if k <? r then N.testbit x (N.of_nat k) else false.
Proof.
  intros Hr Hk. rewrite N.shiftl_1_l, N.sub_1_r, <- N.ones_equiv, N.land_spec.
  destruct (Nat.ltb_spec k r); [rewrite N.ones_spec_low by lia; apply andb_true_r|rewrite N.ones_spec_high by lia; apply andb_false_r].
Qed.

Lemma bbit_firstn n bs m j : bbit (firstn n bs ++ repeat 0%N m) j = if j <? 8 * n then bbit bs j else false.
Proof.
  unfold bbit. destruct (Nat.ltb_spec j (8 * n)).
  - destruct (Nat.lt_ge_cases (j / 8) (length bs)).
    + rewrite app_nth1 by (rewrite firstn_length; lia). rewrite nth_firstn_lt by lia. auto.
    + rewrite (nth_overflow bs) by lia. rewrite app_nth2 by (rewrite firstn_length; lia).
      rewrite nth_repeat. auto.
  - rewrite app_nth2 by (rewrite firstn_length; lia). rewrite nth_repeat. apply N.bits_0.
Qed.

Lemma bytes_ok_upd i x bs : bytes_ok bs -> (x < 256)%N -> bytes_ok (upd i x bs).
Proof. intros H. revert i. induction H; intros [|i] Hx; simpl; constructor; auto. apply IHForall; auto. Qed.

Lemma modp_spec dest inp p : blocks_ok inp -> 1 <= p -> p <= 128 * length dest -> p <= 128 * length inp ->
  ~ aligned_chunk (length inp) p ->
  exists d, modp dest inp p = Some d /\ length d = length dest /\ blocks_ok d /\
    forall j, j < 128 * length dest -> bit d j = if j <? p then residue_xor inp p j else false.
Proof.
  intros Hok Hp Hd Hi Hna. unfold modp. cbn zeta.
  destruct (Nat.leb_spec 1 p); [|lia]. destruct (Nat.leb_spec ((p + 127) / 128) (length dest)); [|lia].
  destruct (Nat.leb_spec ((p + 127) / 128) (length inp)); [|lia]. cbn [oassert obind].
  set (count := (length inp * 128 + p - 1) / p). set (pb := (p + 7) / 8).
  set (bs0 := firstn pb (bytes_of inp) ++ skipn pb (bytes_of dest)).
  assert (Hpb : p <= 8 * pb /\ pb <= 16 * length dest /\ pb <= 16 * length inp) by (unfold pb; lia).
  assert (B0 : bytes_ok bs0).
  { apply Forall_app. split; [apply bytes_ok_firstn, bytes_of_ok|apply bytes_ok_skipn, bytes_of_ok]. }
  assert (Hd0 : forall j, j < p -> bit (blocks_of (length dest) bs0) j = bit inp j).
  { intros j Hj. rewrite blocks_of_bit by (auto; lia). rewrite <- bbit_bytes_of. unfold bbit, bs0.
    rewrite app_nth1 by (rewrite firstn_length, bytes_of_length; unfold pb; lia). rewrite nth_firstn_lt by (unfold pb; lia). auto. }
  assert (Hcount : count * p < length inp * 128 + p /\ length inp * 128 <= count * p /\ 1 <= count).
  { unfold count. assert (p <> 0) by lia. pose proof (Nat.div_mod (length inp * 128 + p - 1) p H2).
    pose proof (Nat.mod_upper_bound (length inp * 128 + p - 1) p H2).
    set (q := (length inp * 128 + p - 1) / p) in *. set (r := (length inp * 128 + p - 1) mod p) in *. clearbody q r. nia. }
  destruct (modp_steps inp p (count - 1) 1 (blocks_of (length dest) bs0) Hok Hp) as (d1 & E1 & L1 & Bd1).
  { intros i Hi1 Hi2. split; [nia|]. intros Hbad. apply Hna. exists i. split; auto. }
  rewrite blocks_of_length in L1, Bd1. rewrite E1. cbn [obind].
  assert (Hbs : exists bs1, (if p mod 8 =? 0 then Some (bytes_of d1)
      else x <- nth_error (bytes_of d1) (p / 8) ;;
           Some (upd (p / 8) (N.land x (N.shiftl 1 (N.of_nat (p mod 8)) - 1)) (bytes_of d1))) = Some bs1 /\
      length bs1 = 16 * length dest /\ bytes_ok bs1 /\
      forall j, j < 8 * pb -> bbit bs1 j = if j <? p then bit d1 j else false).
  { pose proof (bytes_of_length d1) as Lb. rewrite L1 in Lb.
    destruct (Nat.eqb_spec (p mod 8) 0) as [Hz|Hz].
    - exists (bytes_of d1). split; auto. split; auto. split; [apply bytes_of_ok|]. intros j Hj. rewrite bbit_bytes_of.
      destruct (Nat.ltb_spec j p); auto. unfold pb in Hj. lia.
    - rewrite (nth_error_nth' _ 0%N) by lia. cbn [obind]. eexists. split; [reflexivity|]. rewrite upd_length. split; auto. split.
      + apply bytes_ok_upd; [apply bytes_of_ok|]. rewrite N.shiftl_1_l, N.sub_1_r, <- N.ones_equiv, N.land_ones.
        eapply N.lt_le_trans; [apply N.mod_lt; apply N.pow_nonzero; discriminate|]. change 256%N with (2 ^ 8)%N.
        apply N.pow_le_mono_r; [discriminate|]. lia.
      + intros j Hj. unfold bbit. rewrite nth_upd by lia. destruct (Nat.eqb_spec (j / 8) (p / 8)) as [Eq|Ne].
        * rewrite bbit_mask by lia. rewrite <- Eq. fold (bbit (bytes_of d1) j). rewrite bbit_bytes_of.
          destruct (Nat.ltb_spec (j mod 8) (p mod 8)), (Nat.ltb_spec j p); auto; lia.
        * fold (bbit (bytes_of d1) j). rewrite bbit_bytes_of. destruct (Nat.ltb_spec j p); auto. unfold pb in Hj. lia. }
  destruct Hbs as (bs1 & -> & Lb1 & Bb1 & Bbit1). cbn [obind]. eexists. split; [reflexivity|].
  rewrite blocks_of_length. split; auto.
  assert (Bo : bytes_ok (firstn pb bs1 ++ repeat 0%N (length bs1 - pb))).
  { apply Forall_app. split; [apply bytes_ok_firstn; auto|]. apply Forall_forall. intros x Hx. apply repeat_spec in Hx. subst. reflexivity. }
  split; [apply blocks_of_ok; auto|]. intros j Hj. rewrite blocks_of_bit by auto. rewrite bbit_firstn.
  destruct (Nat.ltb_spec j (8 * pb)) as [Hj8|Hj8].
  - rewrite Bbit1 by auto. destruct (Nat.ltb_spec j p) as [Hjp|]; auto.
    rewrite Bd1 by auto. rewrite Hd0 by auto. unfold residue_xor.
    rewrite <- (xor_upto_zero (length inp * 128) _ (count * p)); [|lia|].
    + rewrite (xor_residue count p j (bit inp) Hjp). replace count with (1 + (count - 1)) at 2 by lia. rewrite xor_upto_add.
      cbn [xor_upto]. rewrite xorb_false_l. auto.
    + intros i Hi1 Hi2. destruct (i mod p =? j); auto. apply bit_over. lia.
  - destruct (Nat.ltb_spec j p); auto. lia.
Qed.


Lemma modp_step_length inp p dest i d : modp_step inp p dest i = Some d -> length d = length dest.
Proof.
  unfold modp_step. cbn zeta. do 2 (match goal with |- context[oassert ?b] => destruct b; [|discriminate] end; cbn [oassert obind]).
  set (l := firstn _ _). generalize l as inp'. clear. intros inp' H. unfold bit_shift_xor in H.
  do 2 (match type of H with context[oassert ?b] => destruct b; [|discriminate] end; cbn [oassert obind] in H).
  destruct (bsx_loop dest inp' (skipn 1 inp') ((i * p) mod 128)) as [d1|] eqn:E; [|discriminate]. cbn [obind] in H.
  assert (L : length d1 = length dest).
  { clear H. revert inp' d1 E. generalize ((i * p) mod 128) as k. intros k inp'. generalize (skipn 1 inp') as off. revert inp'.
    induction dest as [|x dest IH]; intros inp' off d1 E; [injection E as <-; auto|].
    destruct inp' as [|y ys]; [injection E as <-; auto|]. destruct off as [|z zs]; [injection E as <-; auto|]. cbn [bsx_loop] in E.
    destruct (blk_shr y k); [|discriminate]. cbn [obind] in E. destruct (blk_shl z (128 - k)); [|discriminate]. cbn [obind] in E.
    destruct (bsx_loop dest ys zs k) as [r|] eqn:Er; [|discriminate]. injection E as <-. simpl. f_equal. eapply IH; eauto. }
  destruct (length inp' <=? length d1).
  - destruct (nth_error inp' (length inp' - 1)); [|discriminate]. cbn [obind] in H.
    destruct (nth_error d1 (length inp' - 1)); [|discriminate]. cbn [obind] in H.
    destruct (blk_shr n ((i * p) mod 128)); [|discriminate]. injection H as <-. rewrite upd_length. auto.
  - injection H as <-. auto.
Qed.

Lemma modp_steps_panic inp p i : (i * p) mod 128 = 0 -> 128 < p -> i * p + 128 < length inp * 128 ->
  forall n k dest, dest <> [] -> k <= i -> i < k + n -> ofold (modp_step inp p) dest (seq k n) = None.
Proof.
  intros H0 Hp Hi. induction n as [|n IH]; intros k dest Hd Hk Hkn; [lia|]. cbn [seq ofold].
  destruct (Nat.eq_dec k i) as [->|Hne]; [rewrite modp_step_zero by auto; auto|].
  destruct (modp_step inp p dest k) as [d|] eqn:E; auto. cbn [obind]. apply IH; try lia.
  apply modp_step_length in E. destruct dest; [congruence|]. destruct d; [discriminate|discriminate].
Qed.
