(** Lemmas for the AES generator. *)
From Coq Require Import List Bool Arith NArith ZArith Lia.
Require Import Verif.Prelude Verif.PreludeProofs Verif.ZapUtilModel Verif.ZapUtilProofs Verif.RngModel Verif.RngSpec.
Import ListNotations.
Ltac Zify.zify_post_hook ::= Z.div_mod_to_equations.

Lemma le_num_blk bs : le_num bs = blk_of_bytes bs.
Proof. reflexivity. Qed.

Lemma le_num_app a b : le_num (a ++ b) = (le_num a + 256 ^ N.of_nat (length a) * le_num b)%N.
Proof.
  induction a as [|x a IH]; cbn [le_num app length]; [now rewrite N.mul_1_l|].
  rewrite IH, Nat2N.inj_succ, N.pow_succ_r'. lia.
Qed.

Lemma kbytes_length enc k p n : length (kbytes enc k p n) = n.
Proof. unfold kbytes. now rewrite map_length, seq_length. Qed.

Lemma kbytes_app enc k p a b : kbytes enc k p (a + b) = kbytes enc k p a ++ kbytes enc k (p + N.of_nat a) b.
Proof.
  unfold kbytes. rewrite seq_app, map_app. f_equal. simpl.
  rewrite <- (map_id (seq a b)), <- (Nat.add_0_r a) at 1.
  assert (H : forall s, map (fun j => kbyte enc k (p + N.of_nat j)%N) (seq (a + s) b)
     = map (fun j => kbyte enc k (p + N.of_nat a + N.of_nat j)%N) (seq s b)).
  { induction b as [|b IH]; intros s; auto. cbn [seq map]. f_equal.
    - f_equal. lia.
    - specialize (IH (S s)). rewrite <- Nat.add_succ_r. exact IH. }
  rewrite <- H. rewrite Nat.add_0_r, map_id. reflexivity.
Qed.

Lemma le_num_lt bs : Forall (fun b => (b < 256)%N) bs -> (le_num bs < 256 ^ N.of_nat (length bs))%N.
Proof.
  induction 1 as [|b bs Hb HF IH]; [reflexivity|]. cbn [le_num length].
  rewrite Nat2N.inj_succ, N.pow_succ_r'. lia.
Qed.

Lemma kbyte_lt enc k i : (kbyte enc k i < 256)%N.
Proof. unfold kbyte. apply N.mod_lt. discriminate. Qed.

Lemma kbytes_lt enc k p n : Forall (fun b => (b < 256)%N) (kbytes enc k p n).
Proof. apply Forall_forall. intros x Hx. unfold kbytes in Hx. apply in_map_iff in Hx. destruct Hx as (j & <- & _). apply kbyte_lt. Qed.

Lemma kle_lt enc k p n : (le_num (kbytes enc k p n) < 256 ^ N.of_nat n)%N.
Proof. rewrite <- (kbytes_length enc k p n) at 2. apply le_num_lt, kbytes_lt. Qed.

(** Word [w] of the key stream. *)
Definition kword enc k w := le_num (kbytes enc k (4 * w) 4).

Lemma kbytes4 enc k p : kbytes enc k p 4 = [kbyte enc k p; kbyte enc k (p + 1); kbyte enc k (p + 2); kbyte enc k (p + 3)].
Proof. unfold kbytes. cbn [seq map]. rewrite N.add_0_r. reflexivity. Qed.

Lemma shiftr_mod_bytes y : (y mod 2 ^ 32 = y mod 256 + 256 * (N.shiftr y 8 mod 256 + 256 * (N.shiftr y 16 mod 256 + 256 * (N.shiftr y 24 mod 256 + 256 * 0))))%N.
Proof.
  rewrite !N.shiftr_div_pow2.
  change (2 ^ 8)%N with 256%N. change (2 ^ 16)%N with 65536%N. change (2 ^ 24)%N with 16777216%N. change (2 ^ 32)%N with 4294967296%N.
  lia.
Qed.

Lemma kword_eq enc k w : kword enc k w = (N.shiftr (enc k (w / 4)) (32 * (w mod 4)) mod 2 ^ 32)%N.
Proof.
  unfold kword. rewrite kbytes4. cbn [le_num].
  assert (Q : forall j, (j < 4)%N -> kbyte enc k (4 * w + j) = (N.shiftr (N.shiftr (enc k (w / 4)) (32 * (w mod 4))) (8 * j) mod 256)%N).
  { intros j Hj. unfold kbyte. rewrite N.shiftr_shiftr.
    replace ((4 * w + j) / 16)%N with (w / 4)%N by lia.
    replace (8 * ((4 * w + j) mod 16))%N with (32 * (w mod 4) + 8 * j)%N by lia. reflexivity. }
  rewrite shiftr_mod_bytes. rewrite <- (N.add_0_r (4 * w)) at 1. rewrite !Q by lia.
  change (8 * 0)%N with 0%N. rewrite N.shiftr_0_r. reflexivity.
Qed.

Lemma u32_bytes_kword enc k w : u32_bytes (kword enc k w) = kbytes enc k (4 * w) 4.
Proof.
  unfold kword. rewrite kbytes4. cbn [le_num]. unfold u32_bytes. cbn [seq map].
  pose proof (kbyte_lt enc k (4 * w)). pose proof (kbyte_lt enc k (4 * w + 1)).
  pose proof (kbyte_lt enc k (4 * w + 2)). pose proof (kbyte_lt enc k (4 * w + 3)).
  generalize dependent (kbyte enc k (4 * w)). generalize dependent (kbyte enc k (4 * w + 1)).
  generalize dependent (kbyte enc k (4 * w + 2)). generalize dependent (kbyte enc k (4 * w + 3)).
  intros d Hd c Hc b Hb a Ha. rewrite !N.shiftr_div_pow2.
  change (2 ^ (8 * N.of_nat 0))%N with 1%N. change (2 ^ (8 * N.of_nat 1))%N with 256%N.
  change (2 ^ (8 * N.of_nat 2))%N with 65536%N. change (2 ^ (8 * N.of_nat 3))%N with 16777216%N.
  repeat f_equal; lia.
Qed.

(** ** The blocks of one [generate] *)

Lemma count_blocks_ok n M : (2 ^ 128 = M)%N -> forall s,
  (s < M)%N ->
  count_blocks n s = if (s + N.of_nat n <? M)%N
                     then Some (map (fun j => (s + N.of_nat j)%N) (seq 0 n), (s + N.of_nat n)%N) else None.
Proof.
  intros HM. induction n as [|n IH]; intros s Hs.
  - cbn [count_blocks]. rewrite N.add_0_r. apply N.ltb_lt in Hs. rewrite Hs. reflexivity.
  - cbn [count_blocks]. unfold oassert. rewrite HM.
    destruct (N.ltb_spec (s + 1) M) as [L|L]; cbn [obind].
    + rewrite (IH (s + 1)%N L). replace (s + 1 + N.of_nat n)%N with (s + N.of_nat (S n))%N by lia.
      destruct (s + N.of_nat (S n) <? M)%N; [|reflexivity]. cbn [obind]. do 2 f_equal.
      cbn [seq map]. f_equal; [lia|]. rewrite <- seq_shift, map_map. apply map_ext. intros j. lia.
    + destruct (N.ltb_spec (s + N.of_nat (S n)) M) as [L'|L']; [exfalso; lia|reflexivity].
Qed.

Lemma blk_words_k enc k b : blk_words (enc k b) = map (fun r => kword enc k (4 * b + N.of_nat r)) (seq 0 4).
Proof.
  unfold blk_words. apply map_ext_in. intros j Hj. apply in_seq in Hj. rewrite kword_eq.
  replace ((4 * b + N.of_nat j) / 4)%N with b by lia.
  replace ((4 * b + N.of_nat j) mod 4)%N with (N.of_nat j) by lia. reflexivity.
Qed.

Lemma gen_words enc k s : flat_map blk_words (map (enc k) (map (fun j => (s + N.of_nat j)%N) (seq 0 8)))
  = map (fun i => kword enc k (4 * s + N.of_nat i)) (seq 0 32).
Proof.
  cbn [seq map flat_map]. rewrite !blk_words_k. cbn [seq map app].
  repeat (apply (f_equal2 (@cons N)); [f_equal; lia|]). reflexivity.
Qed.

(** Two to the 128, kept folded. *)
Definition M128 : N := (2 ^ 128)%N.

Lemma M128_eq : (2 ^ 128 = M128)%N. Proof. reflexivity. Qed.
Lemma M128_mod : (exists q, M128 = 8 * q /\ 8 <= q)%N.
Proof. exists (2 ^ 125)%N. split; [reflexivity|]. vm_compute. discriminate. Qed.
Lemma stream_end_eq : (stream_end = 16 * (M128 - 8))%N. Proof. reflexivity. Qed.
Global Opaque M128 stream_end.

Lemma generate_ok enc k s : (s mod 8 = 0)%N -> (s <= M128 - 8)%N ->
  generate enc {| rc_key := k; rc_state := s |}
  = if (s + 16 <=? M128)%N
    then Some (map (fun i => kword enc k (4 * s + N.of_nat i)) (seq 0 32), {| rc_key := k; rc_state := (s + 8)%N |})
    else None.
Proof.
  intros H8 HM. unfold generate. cbn [rc_key rc_state]. destruct M128_mod as (q & Hq & Hq').
  rewrite (count_blocks_ok 8 M128 M128_eq) by lia. change (N.of_nat 8) with 8%N.
  destruct (N.ltb_spec (s + 8) M128), (N.leb_spec (s + 16) M128); try (exfalso; lia); [|reflexivity].
  cbn [obind]. rewrite gen_words. reflexivity.
Qed.

(** The generator [g] stands at word [w] of the key stream of [k]. *)
Record at_word (enc : N -> N -> N) (k w : N) (g : rng) : Prop := {
  aw_key : rc_key (r_core g) = k;
  aw_len : length (r_results g) = 32;
  aw_idx : r_index g <= 32;
  aw_pos : (4 * rc_state (r_core g) = w + N.of_nat (32 - r_index g))%N;
  aw_mod : (rc_state (r_core g) mod 8 = 0)%N;
  aw_end : (rc_state (r_core g) <= M128 - 8)%N;
  aw_buf : forall i, r_index g <= i < 32 ->
    nth_error (r_results g) i = Some (kword enc k (w + N.of_nat (i - r_index g))) }.

Lemma at_fresh enc k : at_word enc k 0 (from_seed k).
Proof.
  destruct M128_mod as (q & Hq & Hq').
  split; unfold from_seed, block_rng_new, results_len; cbn [r_core r_results r_index rc_key rc_state]; try reflexivity; try lia.
Qed.

Lemma nth_kwords enc k b i : i < 32 ->
  nth_error (map (fun i => kword enc k (b + N.of_nat i)) (seq 0 32)) i = Some (kword enc k (b + N.of_nat i)).
Proof.
  intros Hi. rewrite (map_nth_error (fun i => kword enc k (b + N.of_nat i)) i (seq 0 32) (d:=i)); auto.
  rewrite (nth_error_nth' _ 0) by (rewrite seq_length; auto). rewrite seq_nth by auto. reflexivity.
Qed.

(** Refilling a used-up buffer. *)
Lemma refill_ok enc k w g i : at_word enc k w g -> r_index g = 32 -> i < 32 ->
  (w + N.of_nat i <= 4 * (M128 - 8))%N ->
  match generate_and_set enc g i with
  | Some g' => at_word enc k (w + N.of_nat i) g' /\ r_index g' = i
      /\ (forall j, j < 32 -> nth_error (r_results g') j = Some (kword enc k (w + N.of_nat j)))
      /\ (w + 32 <= 4 * (M128 - 8))%N
  | None => (w = 4 * (M128 - 8))%N
  end.
Proof.
  intros [A1 A2 A3 A4 A5 A6 A7] HI Hi HE. unfold generate_and_set, results_len, oassert.
  destruct (Nat.ltb_spec i 32); [|exfalso; lia]. cbn [obind].
  destruct g as [[key st] res idx]. cbn [r_core r_results r_index rc_key rc_state] in *. subst key idx.
  rewrite generate_ok by auto. destruct M128_mod as (q & Hq & Hq').
  assert (W : w = (4 * st)%N) by lia. subst w.
  destruct (N.leb_spec (st + 16) M128) as [L|L]; cbn [obind]; [|lia].
  split; [|split; [reflexivity|split; [|lia]]].
  - split; cbn [r_core r_results r_index rc_key rc_state]; auto; try lia.
    intros j Hj. rewrite nth_kwords by lia. do 2 f_equal. lia.
  - intros j Hj. cbn [r_results]. apply nth_kwords; auto.
Qed.

Lemma at_pos enc k w w' g : at_word enc k w g -> w = w' -> at_word enc k w' g.
Proof. intros H <-. auto. Qed.

Lemma at_bound enc k w g : at_word enc k w g -> (w <= 4 * (M128 - 8))%N.
Proof. intros [A1 A2 A3 A4 A5 A6 A7]. lia. Qed.

(** Consuming [n] buffered words. *)
Lemma at_adv enc k w g n : at_word enc k w g -> r_index g + n <= 32 ->
  at_word enc k (w + N.of_nat n) {| r_core := r_core g; r_results := r_results g; r_index := r_index g + n |}.
Proof.
  intros [A1 A2 A3 A4 A5 A6 A7] H. split; cbn [r_core r_results r_index]; auto; try lia.
  intros i Hi. rewrite A7 by lia. do 2 f_equal. lia.
Qed.

(** The buffer after making sure it is not used up. *)
Lemma ready enc k w g : at_word enc k w g ->
  match (if results_len <=? r_index g then generate_and_set enc g 0 else Some g) with
  | Some g' => at_word enc k w g' /\ r_index g' < 32
  | None => (w = 4 * (M128 - 8))%N
  end.
Proof.
  intros A. unfold results_len. pose proof (at_bound _ _ _ _ A) as B. pose proof (aw_idx _ _ _ _ A).
  destruct (Nat.leb_spec 32 (r_index g)) as [L|L]; [|auto].
  pose proof (refill_ok enc k w g 0 A ltac:(lia) ltac:(lia) ltac:(lia)) as R.
  destruct (generate_and_set enc g 0) as [g'|]; auto. destruct R as (R1 & R2 & _ & _).
  split; [eapply at_pos; [exact R1|lia]|lia].
Qed.

Lemma next_u32_ok enc k w g : at_word enc k w g ->
  match next_u32 enc g with
  | Some (v, g') => v = kword enc k w /\ at_word enc k (w + 1) g'
  | None => (4 * (M128 - 8) < w + 1)%N
  end.
Proof.
  intros A. unfold next_u32. pose proof (ready enc k w g A) as R.
  destruct (if results_len <=? r_index g then generate_and_set enc g 0 else Some g) as [g1|]; cbn [obind]; [|lia].
  destruct R as [R1 R2]. rewrite (aw_buf _ _ _ _ R1) by lia. cbn [obind]. split.
  - f_equal. lia.
  - apply (at_adv enc k w g1 1); [exact R1|lia].
Qed.

Lemma kword_lt enc k w : (kword enc k w < 2 ^ 32)%N.
Proof. exact (kle_lt enc k (4 * w) 4). Qed.

(** Two words as a little-endian number. *)
Lemma lor_words lo hi n : (lo < 2 ^ n)%N -> N.lor (N.shiftl hi n) lo = (lo + 2 ^ n * hi)%N.
Proof.
  intros H. rewrite N.shiftl_mul_pow2, N.lor_comm.
  assert (D : N.land lo (hi * 2 ^ n) = 0%N).
  { apply N.bits_inj. intros j. rewrite N.land_spec, N.bits_0.
    destruct (N.lt_ge_cases j n) as [L|L].
    - rewrite N.mul_pow2_bits_low by auto. apply andb_false_r.
    - replace (N.testbit lo j) with false; [reflexivity|]. symmetry.
      destruct (N.eq_dec lo 0) as [->|Z0]; [apply N.bits_0|]. apply N.bits_above_log2.
      apply N.log2_lt_pow2; [lia|]. eapply N.lt_le_trans; [exact H|]. apply N.pow_le_mono_r; [discriminate|auto]. }
  rewrite <- N.lxor_lor by auto. rewrite <- N.add_nocarry_lxor by auto. lia.
Qed.

Lemma kword2 enc k w : N.lor (N.shiftl (kword enc k (w + 1)) 32) (kword enc k w) = le_num (kbytes enc k (4 * w) 8).
Proof.
  rewrite lor_words by apply kword_lt. change 8 with (4 + 4). rewrite kbytes_app, le_num_app, kbytes_length.
  unfold kword. change (256 ^ N.of_nat 4)%N with (2 ^ 32)%N. do 4 f_equal. lia.
Qed.

Lemma next_u64_ok enc k w g : at_word enc k w g ->
  match next_u64 enc g with
  | Some (v, g') => v = le_num (kbytes enc k (4 * w) 8) /\ at_word enc k (w + 2) g'
  | None => (4 * (M128 - 8) < w + 2)%N
  end.
Proof.
  intros A. unfold next_u64, read_u64. pose proof (at_bound _ _ _ _ A) as B. pose proof (aw_idx _ _ _ _ A) as I.
  cbv zeta. change (results_len - 1) with 31. unfold results_len.
  destruct (Nat.ltb_spec (r_index g) 31) as [L|L].
  - rewrite !(aw_buf _ _ _ _ A) by lia. cbn [obind]. split; [|apply (at_adv enc k w g 2); auto; lia].
    rewrite <- kword2. apply (f_equal2 N.lor); [apply (f_equal (fun x => N.shiftl (kword enc k x) 32)); lia | apply (f_equal (kword enc k)); lia].
  - destruct (Nat.leb_spec 32 (r_index g)) as [L'|L'].
    + destruct (N.le_gt_cases (w + 2) (4 * (M128 - 8))) as [E|E].
      * pose proof (refill_ok enc k w g 2 A ltac:(lia) ltac:(lia) ltac:(lia)) as R.
        destruct (generate_and_set enc g 2) as [g'|]; cbn [obind]; [|lia]. destruct R as (R1 & R2 & R3 & R4).
        rewrite !R3 by lia. cbn [obind]. split; [|exact R1]. rewrite <- kword2. apply (f_equal2 N.lor); [apply (f_equal (fun x => N.shiftl (kword enc k x) 32)); lia | apply (f_equal (kword enc k)); lia].
      * assert (H : generate_and_set enc g 2 = None); [|rewrite H; exact E].
        pose proof (refill_ok enc k w g 0 A ltac:(lia) ltac:(lia) ltac:(lia)) as R.
        unfold generate_and_set, results_len, oassert in *. change (0 <? 32) with true in R. change (2 <? 32) with true.
        cbn [obind] in *. destruct (generate enc (r_core g)) as [[ws c]|]; auto. cbn [obind] in R. exfalso. lia.
    + assert (I31 : r_index g = 31) by lia. rewrite (aw_buf _ _ _ _ A) by lia. cbn [obind].
      pose proof (at_adv enc k w g 1 A ltac:(lia)) as A1.
      set (g1 := {| r_core := r_core g; r_results := r_results g; r_index := r_index g + 1 |}) in *.
      assert (Q : generate_and_set enc g 1 = generate_and_set enc g1 1) by reflexivity. rewrite Q.
      pose proof (at_bound _ _ _ _ A1) as B1. 
      destruct (N.le_gt_cases (w + 2) (4 * (M128 - 8))) as [E|E].
      * pose proof (refill_ok enc k (w + N.of_nat 1) g1 1 A1 ltac:(cbn; lia) ltac:(lia) ltac:(lia)) as R.
        destruct (generate_and_set enc g1 1) as [g'|]; cbn [obind]; [|lia]. destruct R as (R1 & R2 & R3 & R4).
        rewrite R3 by lia. cbn [obind]. split; [|eapply at_pos; [exact R1|lia]]. rewrite <- kword2. apply (f_equal2 N.lor); [apply (f_equal (fun x => N.shiftl (kword enc k x) 32)); lia | apply (f_equal (kword enc k)); lia].
      * assert (H : generate_and_set enc g1 1 = None); [|rewrite H; exact E].
        pose proof (refill_ok enc k (w + N.of_nat 1) g1 0 A1 ltac:(cbn; lia) ltac:(lia) ltac:(lia)) as R.
        unfold generate_and_set, results_len, oassert in *. change (0 <? 32) with true in R. change (1 <? 32) with true.
        cbn [obind] in *. destruct (generate enc (r_core g1)) as [[ws c]|]; auto. cbn [obind] in R. exfalso. lia.
Qed.

Lemma gen_block_ok enc k w g : at_word enc k w g ->
  match gen_block enc g with
  | Some (v, g') => v = le_num (kbytes enc k (4 * w) 16) /\ at_word enc k (w + 4) g'
  | None => (4 * (M128 - 8) < w + 4)%N
  end.
Proof.
  intros A. unfold gen_block. pose proof (next_u64_ok enc k w g A) as R.
  destruct (next_u64 enc g) as [[lo g1]|]; cbn [obind]; [|lia]. destruct R as [-> A1].
  pose proof (next_u64_ok enc k _ g1 A1) as R.
  destruct (next_u64 enc g1) as [[hi g2]|]; cbn [obind]; [|lia]. destruct R as [-> A2]. split.
  - rewrite lor_words by apply (kle_lt enc k (4 * w) 8).
    change 16 with (8 + 8). rewrite (kbytes_app enc k (4 * w) 8 8), le_num_app, kbytes_length.
    change (256 ^ N.of_nat 8)%N with (2 ^ 64)%N. do 4 f_equal. lia.
  - eapply at_pos; [exact A2|lia].
Qed.

(** ** Filling bytes *)

Lemma flat_words enc k n : forall w l,
  (forall i, i < n -> nth_error l i = Some (kword enc k (w + N.of_nat i))) ->
  flat_map u32_bytes (firstn n l) = kbytes enc k (4 * w) (4 * n).
Proof.
  induction n as [|n IH]; intros w l H; [reflexivity|].
  destruct l as [|x l]; [discriminate (H 0 ltac:(lia))|].
  pose proof (H 0 ltac:(lia)) as H0. cbn [nth_error] in H0. change (N.of_nat 0) with 0%N in H0. injection H0 as H0. rewrite H0. cbn [firstn flat_map].
  rewrite N.add_0_r, u32_bytes_kword. rewrite (IH (w + 1)%N).
  - replace (4 * S n) with (4 + 4 * n) by lia. rewrite kbytes_app. do 2 f_equal. lia.
  - intros i Hi. specialize (H (S i) ltac:(lia)). cbn [nth_error] in H. rewrite H. do 2 f_equal. lia.
Qed.

Lemma nth_error_skip {A} n (l : list A) i : nth_error (skipn n l) i = nth_error l (n + i).
Proof. revert l. induction n as [|n IH]; intros [|x l]; auto; [destruct i; reflexivity|apply IH]. Qed.

Lemma firstn_kbytes enc k p a n : a <= n -> firstn a (kbytes enc k p n) = kbytes enc k p a.
Proof.
  intros H. replace n with (a + (n - a)) by lia. rewrite kbytes_app, firstn_app, kbytes_length, Nat.sub_diag, firstn_O, app_nil_r.
  apply firstn_all2. rewrite kbytes_length. auto.
Qed.

Lemma fill_loop_ok enc k : forall fuel n w g, n < fuel -> at_word enc k w g ->
  match fill_loop enc fuel n g with
  | Some (bs, g') => bs = kbytes enc k (4 * w) n /\ at_word enc k (w + N.of_nat ((n + 3) / 4)) g'
  | None => (4 * (M128 - 8) < w + N.of_nat ((n + 3) / 4))%N
  end.
Proof.
  induction fuel as [|fuel IH]; intros n w g Hn A; [lia|].
  destruct n as [|n0]; [cbn; split; auto; rewrite N.add_0_r; auto|].
  set (n := S n0) in *. cbn [fill_loop]. unfold n at 1.
  pose proof (ready enc k w g A) as R. cbv iota.
  destruct (if results_len <=? r_index g then generate_and_set enc g 0 else Some g) as [g1|]; cbn [obind]; [|lia].
  destruct R as [A1 I1]. unfold fill_chunk.
  assert (LS : length (skipn (r_index g1) (r_results g1)) = 32 - r_index g1) by (rewrite skipn_length, (aw_len _ _ _ _ A1); auto).
  rewrite LS. set (u := Nat.min ((32 - r_index g1) * 4) n). cbv zeta.
  assert (U : (u + 3) / 4 <= 32 - r_index g1) by lia.
  rewrite (flat_words enc k ((u + 3) / 4) w) by
    (intros i Hi; rewrite nth_error_skip; rewrite (aw_buf _ _ _ _ A1) by lia; do 3 f_equal; lia).
  rewrite firstn_kbytes by lia. rewrite kbytes_length.
  assert (D : u <= n /\ 1 <= u) by lia.
  pose proof (at_adv enc k w g1 ((u + 3) / 4) A1 ltac:(lia)) as A2.
  pose proof (IH (n - u) _ _ ltac:(lia) A2) as R.
  assert (C : (u + 3) / 4 + (n - u + 3) / 4 = (n + 3) / 4 /\ (u = n \/ u mod 4 = 0)) by lia.
  destruct (fill_loop enc fuel (n - u) _) as [[rest g2]|]; cbn [obind]; [|lia].
  destruct R as [-> A3]. split; [|eapply at_pos; [exact A3|lia]].
  destruct C as [C [E|E]].
  - rewrite E, Nat.sub_diag. cbn [kbytes seq map]. unfold kbytes at 2. cbn [seq map]. apply app_nil_r.
  - replace n with (u + (n - u)) at 2 by lia. rewrite kbytes_app. do 2 f_equal. lia.
Qed.

Lemma fill_bytes_ok enc k w g n : at_word enc k w g ->
  match fill_bytes enc n g with
  | Some (bs, g') => bs = kbytes enc k (4 * w) n /\ at_word enc k (w + N.of_nat ((n + 3) / 4)) g'
  | None => (4 * (M128 - 8) < w + N.of_nat ((n + 3) / 4))%N
  end.
Proof. intros A. apply fill_loop_ok; auto. lia. Qed.

(** ** Calls and histories *)

(** Generator and specification state agree. *)
Definition at_st (enc : N -> N -> N) (st : N * N) (g : rng) : Prop :=
  exists w, snd st = (4 * w)%N /\ at_word enc (fst st) w g.

Lemma after_word w n : after (4 * w) n = (4 * (w + N.of_nat ((n + 3) / 4)))%N.
Proof. unfold after. lia. Qed.

Lemma le_bytes16 enc k p : le_num (kbytes enc k p 16) = blk_of_bytes (kbytes enc k p 16).
Proof. apply le_num_blk. Qed.

Lemma at_st_fresh enc k : at_st enc (k, 0%N) (from_seed k).
Proof. exists 0%N. split; [reflexivity|apply at_fresh]. Qed.

Lemma do_call_ok enc c st g : at_st enc st g ->
  match do_call enc c g, s_call enc c st with
  | Some (a, g', new), Some (a', st', new') => a = a' /\ at_st enc st' g' /\ Forall2 (at_st enc) new' new
  | None, None => True
  | _, _ => False
  end.
Proof.
  intros (w & P & A). destruct st as [k pos]. cbn [fst snd] in *. subst pos.
  pose proof (next_u32_ok enc k w g A) as R1. pose proof (next_u64_ok enc k w g A) as R2.
  pose proof (gen_block_ok enc k w g A) as R3.
  assert (RE : forall n, (after (4 * w) n <=? stream_end)%N = (w + N.of_nat ((n + 3) / 4) <=? 4 * (M128 - 8))%N).
  { intros n. rewrite after_word, stream_end_eq.
    destruct (N.leb_spec (w + N.of_nat ((n + 3) / 4)) (4 * (M128 - 8))),
             (N.leb_spec (4 * (w + N.of_nat ((n + 3) / 4))) (16 * (M128 - 8))); auto; exfalso; lia. }
  unfold s_call. rewrite RE, !after_word.
  destruct c as [| |n| | |]; cbn [want do_call].
  - change ((4 + 3) / 4) with 1. destruct (next_u32 enc g) as [[v g']|]; cbn [obind].
    + destruct R1 as [-> B]. pose proof (at_bound _ _ _ _ B). destruct (N.leb_spec (w + N.of_nat 1) (4 * (M128 - 8))); [|lia].
      split; [reflexivity|split; [|constructor]]. exists (w + N.of_nat 1)%N. split; [reflexivity|exact B].
    + destruct (N.leb_spec (w + N.of_nat 1) (4 * (M128 - 8))); [lia|auto].
  - change ((8 + 3) / 4) with 2. destruct (next_u64 enc g) as [[v g']|]; cbn [obind].
    + destruct R2 as [-> B]. pose proof (at_bound _ _ _ _ B). destruct (N.leb_spec (w + N.of_nat 2) (4 * (M128 - 8))); [|lia].
      split; [reflexivity|split; [|constructor]]. exists (w + N.of_nat 2)%N. split; [reflexivity|exact B].
    + destruct (N.leb_spec (w + N.of_nat 2) (4 * (M128 - 8))); [lia|auto].
  - pose proof (fill_bytes_ok enc k w g n A) as R. destruct (fill_bytes enc n g) as [[v g']|]; cbn [obind].
    + destruct R as [-> B]. pose proof (at_bound _ _ _ _ B). destruct (N.leb_spec (w + N.of_nat ((n + 3) / 4)) (4 * (M128 - 8))); [|lia].
      split; [reflexivity|split; [|constructor]]. eexists. split; [reflexivity|exact B].
    + destruct (N.leb_spec (w + N.of_nat ((n + 3) / 4)) (4 * (M128 - 8))); [lia|auto].
  - change ((16 + 3) / 4) with 4. destruct (gen_block enc g) as [[v g']|]; cbn [obind].
    + destruct R3 as [-> B]. pose proof (at_bound _ _ _ _ B). destruct (N.leb_spec (w + N.of_nat 4) (4 * (M128 - 8))); [|lia].
      split; [reflexivity|split; [|constructor]]. exists (w + N.of_nat 4)%N. split; [reflexivity|exact B].
    + destruct (N.leb_spec (w + N.of_nat 4) (4 * (M128 - 8))); [lia|auto].
  - change ((16 + 3) / 4) with 4. unfold fork. destruct (gen_block enc g) as [[v g']|]; cbn [obind].
    + destruct R3 as [-> B]. pose proof (at_bound _ _ _ _ B). destruct (N.leb_spec (w + N.of_nat 4) (4 * (M128 - 8))); [|lia].
      split; [reflexivity|split; [|constructor; [apply at_st_fresh|constructor]]]. exists (w + N.of_nat 4)%N. split; [reflexivity|exact B].
    + destruct (N.leb_spec (w + N.of_nat 4) (4 * (M128 - 8))); [lia|auto].
  - unfold from_rng. pose proof (fill_bytes_ok enc k w g 16 A) as R. change ((16 + 3) / 4) with 4 in *.
    destruct (fill_bytes enc 16 g) as [[v g']|]; cbn [obind].
    + destruct R as [-> B]. pose proof (at_bound _ _ _ _ B). destruct (N.leb_spec (w + N.of_nat 4) (4 * (M128 - 8))); [|lia].
      split; [reflexivity|split; [|constructor; [rewrite le_bytes16; apply at_st_fresh|constructor]]]. exists (w + N.of_nat 4)%N. split; [reflexivity|exact B].
    + destruct (N.leb_spec (w + N.of_nat 4) (4 * (M128 - 8))); [lia|auto].
Qed.

Lemma forall2_nth_or {A B} (R : A -> B -> Prop) l l' i : Forall2 R l l' ->
  match nth_error l i, nth_error l' i with
  | Some a, Some b => R a b
  | None, None => True
  | _, _ => False
  end.
Proof. intros H. revert i. induction H; intros [|i]; cbn; auto. apply IHForall2. Qed.

Lemma forall2_upd {A B} (R : A -> B -> Prop) l l' i a b : Forall2 R l l' -> R a b -> i < length l ->
  Forall2 R (firstn i l ++ a :: skipn (S i) l) (upd i b l').
Proof.
  intros H HR. revert i. induction H as [|x y l l' Hxy HF IH]; intros [|i] Hi; cbn [length] in *; try lia.
  - cbn. constructor; auto.
  - cbn [firstn skipn upd app]. constructor; auto. apply (IH i). lia.
Qed.

Lemma do_calls_ok enc h : forall sts gs, Forall2 (at_st enc) sts gs -> do_calls enc h gs = s_calls enc h sts.
Proof.
  induction h as [|[i c] h IH]; intros sts gs F; [reflexivity|]. cbn [do_calls s_calls].
  pose proof (forall2_nth_or _ _ _ i F) as N. destruct (nth_error sts i) as [st|] eqn:E1, (nth_error gs i) as [g|] eqn:E2; try contradiction; auto.
  cbn [obind]. pose proof (do_call_ok enc c st g N) as D.
  destruct (do_call enc c g) as [[[a g'] new]|], (s_call enc c st) as [[[a' st'] new']|]; try contradiction; auto.
  cbn [obind]. destruct D as (-> & D1 & D2).
  rewrite (IH (firstn i sts ++ st' :: skipn (S i) sts ++ new') (upd i g' gs ++ new)).
  - reflexivity.
  - change (st' :: skipn (S i) sts ++ new') with ((st' :: skipn (S i) sts) ++ new'). rewrite app_assoc.
    apply Forall2_app; auto. apply forall2_upd; auto. apply nth_error_Some. congruence.
Qed.

(** ** Stretches never overlap *)

Lemma after_le pos n : (pos + N.of_nat n <= after pos n)%N.
Proof. unfold after. lia. Qed.

Lemma stretches_from h : forall pos j p n, In (j, p, n) (stretches h pos) -> (pos j <= p)%N.
Proof.
  induction h as [|[i c] h IH]; intros pos j p n H; [contradiction|]. cbn [stretches] in H. destruct H as [E|H].
  - injection E as <- <- <-. lia.
  - apply IH in H. pose proof (after_le (pos i) (want c)). destruct (Nat.eqb_spec j i) as [->|]; lia.
Qed.

Lemma stretches_sorted h : forall pos a b g p n q m, a < b ->
  nth_error (stretches h pos) a = Some (g, p, n) -> nth_error (stretches h pos) b = Some (g, q, m) ->
  (p + N.of_nat n <= q)%N.
Proof.
  induction h as [|[i c] h IH]; intros pos a b g p n q m L Ha Hb; [destruct a; discriminate|].
  cbn [stretches] in *. destruct b as [|b]; [lia|]. cbn [nth_error] in Hb. destruct a as [|a].
  - cbn [nth_error] in Ha. injection Ha as <- <- <-. apply nth_error_In, stretches_from in Hb.
    rewrite Nat.eqb_refl in Hb. pose proof (after_le (pos i) (want c)). lia.
  - exact (IH _ a b _ _ _ _ _ ltac:(lia) Ha Hb).
Qed.

(** ** Blocks *)

Lemma block_byte enc k b j : j < 16 -> kbyte enc k (16 * b + N.of_nat j) = (N.shiftr (enc k b) (N.of_nat (8 * j)) mod 256)%N.
Proof.
  intros H. unfold kbyte. replace ((16 * b + N.of_nat j) / 16)%N with b by lia.
  replace (8 * ((16 * b + N.of_nat j) mod 16))%N with (N.of_nat (8 * j)) by lia. reflexivity.
Qed.

Lemma kbytes_block enc k b : kbytes enc k (16 * b) 16 = blk_bytes (enc k b).
Proof. unfold kbytes, blk_bytes. apply map_ext_in. intros j Hj. apply in_seq in Hj. apply block_byte. lia. Qed.

Lemma N_split x a : x = (x mod 2 ^ a + 2 ^ a * N.shiftr x a)%N.
Proof. rewrite N.shiftr_div_pow2. pose proof (N.div_mod x (2 ^ a) ltac:(apply N.pow_nonzero; discriminate)). lia. Qed.

Lemma le_shift n : forall x s, (x < 2 ^ (s + N.of_nat (8 * n)))%N ->
  le_num (map (fun i => (N.shiftr x (s + N.of_nat (8 * i)) mod 256)%N) (seq 0 n)) = N.shiftr x s.
Proof.
  induction n as [|n IH]; intros x s H.
  - cbn [seq map le_num]. rewrite N.shiftr_div_pow2. symmetry. apply N.div_small. cbn in H. rewrite N.add_0_r in H. exact H.
  - cbn [seq map le_num]. rewrite <- seq_shift, map_map.
    rewrite (map_ext _ (fun i => (N.shiftr x (s + 8 + N.of_nat (8 * i)) mod 256)%N)).
    2:{ intros i. do 2 f_equal. lia. }
    rewrite IH.
    + change (8 * 0) with 0. rewrite N.add_0_r. rewrite <- N.shiftr_shiftr.
      change 256%N with (2 ^ 8)%N. symmetry. apply (N_split (N.shiftr x s) 8).
    + replace (s + 8 + N.of_nat (8 * n))%N with (s + N.of_nat (8 * S n))%N by lia. exact H.
Qed.

Lemma blk_bytes_le x : (x < 2 ^ 128)%N -> le_num (blk_bytes x) = x.
Proof. intros H. unfold blk_bytes. exact (le_shift 16 x 0 H). Qed.

Lemma stretches_length h : forall pos, length (stretches h pos) = length h.
Proof. induction h as [|[i c] h IH]; intros pos; cbn; auto. Qed.

Lemma stretches_ext h : forall pos pos', (forall j, pos j = pos' j) -> stretches h pos = stretches h pos'.
Proof.
  induction h as [|[i c] h IH]; intros pos pos' H; auto. cbn. rewrite H. f_equal. apply IH.
  intros j. destruct (j =? i); auto.
Qed.

Lemma skipn_cons_nth {A} (l : list A) : forall i x, nth_error l i = Some x -> skipn i l = x :: skipn (S i) l.
Proof. induction l as [|y l IH]; intros [|i] x E; try discriminate; [injection E as <-; reflexivity|]. exact (IH i x E). Qed.

Lemma s_calls_stretches enc h : forall sts pos r,
  (forall j st, nth_error sts j = Some st -> snd st = pos j) ->
  (forall j, length sts <= j -> pos j = 0%N) ->
  s_calls enc h sts = Some r ->
  exists new,
    let keys := map fst sts ++ new in
    (forall keys', keys' = keys -> new = child_keys enc keys' (combine (map snd h) (stretches h pos)))
    /\ length r = length h
    /\ forall a i c, nth_error h a = Some (i, c) ->
         exists k p, nth_error keys i = Some k /\ nth_error (stretches h pos) a = Some (i, p, want c)
           /\ nth_error r a = Some (answer_of c (kbytes enc k p (want c))).
Proof.
  induction h as [|[i c] h IH]; intros sts pos r HP HN E.
  - cbn in E. injection E as <-. exists []. repeat split; auto. intros [|a] i c H; discriminate.
  - cbn [s_calls] in E. destruct (nth_error sts i) as [[k p]|] eqn:Ei; [|discriminate].
    pose proof (HP _ _ Ei) as Pi. cbn [snd] in Pi. subst p. unfold s_call in E.
    destruct (after (pos i) (want c) <=? stream_end)%N; [|discriminate].
    set (st' := (k, after (pos i) (want c))) in *.
    set (ch := match c with CFork | CFromRng => [(le_num (kbytes enc k (pos i) (want c)), 0%N)] | _ => [] end) in *.
    destruct (s_calls enc h (firstn i sts ++ st' :: skipn (S i) sts ++ ch)) as [r'|] eqn:E'; [|discriminate].
    injection E as <-.
    assert (Li : i < length sts) by (apply nth_error_Some; congruence).
    set (pos' := fun j => if j =? i then after (pos i) (want c) else pos j) in *.
    assert (LF : length (firstn i sts) = i) by (rewrite firstn_length; lia).
    assert (SPL : sts = firstn i sts ++ (k, pos i) :: skipn (S i) sts).
    { rewrite <- (firstn_skipn i sts) at 1. f_equal. apply skipn_cons_nth; auto. }
    destruct (IH (firstn i sts ++ st' :: skipn (S i) sts ++ ch) pos' r') as (new & H1 & H2 & H3).
    + intros j st Hj. unfold pos'. destruct (Nat.eqb_spec j i) as [->|NE].
      * rewrite nth_error_app2 in Hj by lia. rewrite LF, Nat.sub_diag in Hj. cbn in Hj. injection Hj as <-. reflexivity.
      * destruct (Nat.lt_ge_cases j (length sts)) as [Lj|Lj].
        -- apply HP. rewrite SPL. destruct (Nat.lt_ge_cases j i).
           ++ rewrite nth_error_app1 in * by lia. auto.
           ++ rewrite nth_error_app2 in * by lia. rewrite LF in *. destruct (j - i) as [|d] eqn:ED; [lia|]. cbn [nth_error] in *.
              rewrite nth_error_app1 in Hj; auto. rewrite skipn_length. lia.
        -- rewrite HN by auto. apply nth_error_In in Hj as Hin.
           rewrite nth_error_app2 in Hj by lia. rewrite LF in Hj. destruct (j - i) as [|d] eqn:ED; [lia|]. cbn [nth_error] in Hj.
           rewrite nth_error_app2 in Hj by (rewrite skipn_length; lia).
           apply nth_error_In in Hj. unfold ch in Hj. destruct c; cbn in Hj; try contradiction; destruct Hj as [<-|[]]; reflexivity.
    + intros j Hj. rewrite app_length in Hj. cbn [length] in Hj. rewrite app_length, skipn_length, LF in Hj. unfold pos'.
      destruct (Nat.eqb_spec j i); [lia|]. apply HN. lia.
    + exact E'.
    + assert (MF : map fst (firstn i sts ++ st' :: skipn (S i) sts ++ ch) = map fst sts ++ map fst ch).
      { rewrite SPL at 3. rewrite !map_app. cbn [map]. rewrite map_app, <- app_assoc. reflexivity. }
      rewrite MF, <- app_assoc in *. exists (map fst ch ++ new). cbv zeta in *.
      assert (Ki : nth_error (map fst sts ++ map fst ch ++ new) i = Some k).
      { rewrite nth_error_app1 by (rewrite map_length; auto). rewrite (map_nth_error fst i sts Ei). reflexivity. }
      split; [|split; [cbn; lia|]].
      * intros keys' ->. pose proof (nth_error_nth _ _ 0%N Ki) as Kn.
        set (K := map fst sts ++ map fst ch ++ new) in *. cbn [map stretches combine snd]. fold pos'.
        transitivity (map fst ch ++ child_keys enc K (combine (map snd h) (stretches h pos'))).
        { rewrite <- (H1 _ eq_refl). reflexivity. }
        unfold child_keys at 2. cbn [flat_map]. fold (child_keys enc K (combine (map snd h) (stretches h pos'))).
        f_equal. subst ch. destruct c; try reflexivity; rewrite Kn; reflexivity.
      * intros [|a] i' c' Ha.
        -- cbn in Ha. injection Ha as <- <-. exists k, (pos i). split; [exact Ki|split; [reflexivity|]]. destruct c; reflexivity.
        -- cbn [nth_error] in Ha. destruct (H3 a i' c' Ha) as (k' & p' & Q1 & Q2 & Q3). exists k', p'. auto.
Qed.
