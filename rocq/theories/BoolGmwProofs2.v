(** Further proofs about the boolean GMW model: masking, sharing, linear gates,
    storage, alignment of SIMD vectors. *)
From Coq Require Import List Bool Arith Lia Permutation.
Require Import Verif.Prelude Verif.PreludeProofs Verif.BitVecModel Verif.BitVecSpec Verif.BitVecProofs
  Verif.GateModel Verif.ProtocolModel Verif.BoolGmwModel Verif.BoolGmwSpec Verif.BoolGmwProofs.
Import ListNotations.

Lemma words_of_raw W l : 0 < W -> bv_raw (bv_of_bits W l) = words_of W l.
Proof.
  intros HW. rewrite bv_of_bits_raw by auto. unfold words_of. f_equal. f_equal.
  unfold bv_words. destruct (Nat.eqb_spec (length l) 0) as [->|Hn].
  - rewrite Nat.mod_0_l by lia. rewrite !Nat.sub_0_r, Nat.mod_same by lia. lia.
  - simpl. pose proof (Nat.div_mod (length l) W ltac:(lia)) as E.
    pose proof (Nat.mod_upper_bound (length l) W ltac:(lia)) as B.
    set (q := length l / W) in *. set (r := length l mod W) in *.
    destruct (Nat.eq_dec r 0) as [Hr|Hr].
    + assert (X : (length l + W - 1) / W = q).
      { symmetry. apply (Nat.div_unique _ _ q (W - 1)); lia. }
      rewrite X, Hr, Nat.sub_0_r, Nat.mod_same by lia. lia.
    + assert (X : (length l + W - 1) / W = q + 1).
      { symmetry. apply (Nat.div_unique _ _ (q + 1) (r - 1)); lia. }
      rewrite X, Nat.mod_small by lia. lia.
Qed.

Lemma words_of_inj W a b : length a = length b -> words_of W a = words_of W b -> a = b.
Proof.
  intros HL H. unfold words_of in H. rewrite HL in H.
  apply (f_equal (firstn (length b))) in H.
  rewrite !firstn_app_exact in H; auto.
Qed.

(** *** Scalar masking *)
Definition ab (t : triple) : bool * bool := (mt_a t, mt_b t).

Lemma zip_xor_solve (f : bool * bool -> bool) (g : triple -> bool) ps :
  forall ms d, length ms = length ps -> length d = length ps ->
  (zip_with (fun p mt => xorb (f p) (g mt)) ps ms = d <->
   map g ms = zip_with (fun p x => xorb (f p) x) ps d).
Proof.
  induction ps as [|p ps IH]; intros [|m ms] [|x d] H1 H2; simpl in *; try discriminate.
  - tauto.
  - specialize (IH ms d ltac:(lia) ltac:(lia)). split; intros H; inversion H; subst.
    + f_equal; [destruct (f p), (g m); auto|]. apply IH; auto.
    + f_equal; [rewrite H3; destruct (f p), x; auto|]. apply IH; auto.
Qed.

Lemma map_pair_eq ms (a b : list bool) : length a = length ms -> length b = length ms ->
  (map mt_a ms = a /\ map mt_b ms = b <-> map ab ms = zip_with pair a b).
Proof.
  revert a b; induction ms; intros [|x a'] [|y b'] H1 H2; simpl in *; try discriminate.
  - tauto.
  - specialize (IHms a' b' ltac:(lia) ltac:(lia)). split.
    + intros [A B]. inversion A; inversion B; subst. unfold ab at 1. f_equal. apply IHms; auto.
    + intros H. unfold ab at 1 in H. inversion H; subst. destruct IHms as [_ K].
      destruct (K ltac:(auto)). split; f_equal; auto.
Qed.

Theorem bool_scalar_masking W ps d e :
  0 < W -> length d = length ps -> length e = length ps ->
  exists masks, length masks = length ps /\
    forall party h m T outs, mts_wf W h m T -> length ps <= m ->
      (bool_compute_msg W party (repeat BAnd (length ps)) outs (flat_pairs ps) T
       = Some (BMsg (length ps) (words_of W e) (words_of W d), T)
       <-> map (fun t => (mt_a t, mt_b t)) (lastn (length ps) (mts_iter T)) = masks).
Proof.
  intros HW HD HE.
  exists (rev (zip_with pair (zip_with (fun p x => xorb (fst p) x) ps d)
                             (zip_with (fun p x => xorb (snd p) x) ps e))).
  split. { rewrite rev_length, !zip_with_length. lia. }
  intros party h m T outs Hwf Hle. change (fun t => (mt_a t, mt_b t)) with ab.
  rewrite (bool_compute_msg_spec W h m T party outs ps Hwf Hle).
  pose proof (mts_iter_length _ _ _ _ Hwf) as HL.
  set (ms := rev (lastn (length ps) (mts_iter T))).
  assert (Lms : length ms = length ps) by (unfold ms, lastn; rewrite rev_length, skipn_length; lia).
  replace (lastn (length ps) (mts_iter T)) with (rev ms) by (unfold ms; apply rev_involutive).
  rewrite map_rev.
  assert (R : forall (A : Type) (x y : list A), rev x = rev y <-> x = y).
  { intros A x y. split; [|congruence]. intros H. rewrite <- (rev_involutive x), H. apply rev_involutive. }
  rewrite R. rewrite <- map_pair_eq by (rewrite zip_with_length; lia).
  rewrite <- (zip_xor_solve fst mt_a ps ms d) by auto.
  rewrite <- (zip_xor_solve snd mt_b ps ms e) by auto.
  unfold scalar_msg. rewrite !words_of_raw by auto.
  split.
  - intros H. inversion H as [[H1 H2 H3]].
    apply words_of_inj in H2; [|rewrite zip_with_length; lia].
    apply words_of_inj in H3; [|rewrite zip_with_length; lia].
    auto.
  - intros [H1 H2]. cbn zeta. rewrite H1, H2, HE. reflexivity.
Qed.

(** *** SIMD masking *)

(** Message bit [i] before the head offset of the used triples is the plain
    operand bit, whatever the triples are. *)
Theorem bool_simd_unmasked W ps m h T party g outs :
  0 < W -> simd_pairs_ok W ps ->
  let N := sum_list (simd_sizes ps) in
  N <= m -> mts_wf W h m T ->
  exists msg, bool_compute_msg_simd W party g outs (flat_pairs ps) T = Some (msg, T) /\
    forall i, i < N -> i < (h + (m - N)) mod W ->
      nth i (bm_e (bs_data msg)) false = nth i (flat_map (fun p => bv_bits (fst p)) ps) false /\
      nth i (bm_d (bs_data msg)) false = nth i (flat_map (fun p => bv_bits (snd p)) ps) false.
Proof.
  intros HW Hps N HN Hwf.
  destruct (mts_split_off_last_spec W h m T N HW Hwf HN)
    as (R & U & S0 & WR & WU & IR & IU & A0 & B0 & C0).
  pose proof (bool_compute_msg_simd_spec W h m T party g outs ps U R HW Hwf Hps HN S0 A0 B0) as M0.
  eexists; split; [exact M0|]. intros i Hi Hh.
  destruct (used_raw_length W _ N U HW WU) as (RA & RB & RC).
  pose proof (words_N_le W N HW) as HNW.
  pose proof (simd_d_length W ps Hps) as LD. fold N in LD.
  pose proof (simd_e_length W ps Hps) as LE. fold N in LE.
  assert (Z : forall v, bv_wf W v -> bv_head v = h -> bv_len v = m ->
    nth i (bv_raw (bv_slice_from W v (m - N))) false = false).
  { intros v Hv Hh' Hl. rewrite slice_from_raw; auto.
    - rewrite Hh'. destruct (Nat.ltb_spec i ((h + (m - N)) mod W)); auto; lia.
    - rewrite skipn_length, (bv_bits_length W), Hl by auto. replace (m - (m - N)) with N by lia. lia. }
  destruct Hwf as (wa & wb & wc & ha & hb & hc & la & lb & lc).
  unfold simd_msg; cbn [bs_data bm_e bm_d]. split.
  - rewrite raw_zip_nth by (rewrite ?pwords_length, ?LE, ?LD; lia).
    rewrite pwords_nth by (rewrite ?LE, ?LD; auto; lia). rewrite B0, Z by auto. rewrite xorb_false_r. reflexivity.
  - rewrite raw_zip_nth by (rewrite ?pwords_length, ?LE, ?LD; lia).
    rewrite pwords_nth by (rewrite ?LE, ?LD; auto; lia). rewrite A0, Z by auto. rewrite xorb_false_r. reflexivity.
Qed.

Lemma words_mod_nth W l i : i < length l -> nth i (words_of W l) false = nth i l false.
Proof. intros. unfold words_of. apply app_nth1; auto. Qed.

Lemma raw_zip_words W l v n : 0 < W -> bv_wf W v -> bv_head v = 0 -> bv_len v = length l ->
  n = length l ->
  firstn n (raw_zip xorb (pwords W l) (bv_raw v)) = zip_with xorb l (bv_bits v).
Proof.
  intros HW [Hh Hr] H0 HL ->.
  rewrite firstn_raw_zip.
  assert (E1 : firstn (length l) (pwords W l) = l).
  { unfold pwords. rewrite words_of_raw by auto. unfold words_of. apply firstn_app_exact; auto. }
  rewrite E1. unfold bv_bits. rewrite H0, HL. simpl. apply raw_zip_eq_zip_with.
  rewrite firstn_length, Hr, H0, HL.
  pose proof (words_N_le W (length l) HW). lia.
Qed.

(** With aligned triples the live part of the message determines the masks and
    every message value is hit by exactly one choice of masks. *)
Theorem bool_simd_masking W ps d e :
  0 < W -> simd_pairs_ok W ps ->
  let N := sum_list (simd_sizes ps) in
  length d = N -> length e = N ->
  exists ma mb, length ma = N /\ length mb = N /\
    forall party g h m T outs, mts_wf W h m T -> N <= m -> (h + (m - N)) mod W = 0 ->
      exists msg, bool_compute_msg_simd W party g outs (flat_pairs ps) T = Some (msg, T) /\
        (firstn N (bm_d (bs_data msg)) = d /\ firstn N (bm_e (bs_data msg)) = e
         <-> map mt_a (lastn N (mts_iter T)) = ma /\ map mt_b (lastn N (mts_iter T)) = mb).
Proof.
  intros HW Hps N HD HE.
  pose proof (simd_d_length W ps Hps) as LD. fold N in LD.
  pose proof (simd_e_length W ps Hps) as LE. fold N in LE.
  exists (zip_with xorb (simd_d ps) d), (zip_with xorb (simd_e ps) e).
  split; [rewrite zip_with_length; lia|]. split; [rewrite zip_with_length; lia|].
  intros party g h m T outs Hwf HN Hal.
  destruct (mts_split_off_last_spec W h m T N HW Hwf HN)
    as (R & U & S0 & WR & WU & IR & IU & A0 & B0 & C0).
  pose proof (bool_compute_msg_simd_spec W h m T party g outs ps U R HW Hwf Hps HN S0 A0 B0) as M0.
  eexists; split; [exact M0|].
  pose proof (mts_iter_length _ _ _ _ Hwf) as HL.
  unfold lastn. rewrite HL. rewrite <- IU.
  rewrite Hal in WU. pose proof WU as (wa & wb & wc & ha & hb & hc & la & lb & lc).
  assert (EA : map mt_a (mts_iter U) = bv_bits (ts_a U)).
  { apply (list_ext false); rewrite ?map_length, (mts_iter_length _ _ _ _ WU).
    - rewrite (bv_bits_length W); auto.
    - intros i Hi. change false with (mt_a mt0) at 1. rewrite map_nth.
      rewrite (mts_iter_nth W 0 N U i WU Hi). reflexivity. }
  assert (EB : map mt_b (mts_iter U) = bv_bits (ts_b U)).
  { apply (list_ext false); rewrite ?map_length, (mts_iter_length _ _ _ _ WU).
    - rewrite (bv_bits_length W); auto.
    - intros i Hi. change false with (mt_b mt0) at 1. rewrite map_nth.
      rewrite (mts_iter_nth W 0 N U i WU Hi). reflexivity. }
  rewrite EA, EB. unfold simd_msg; cbn [bs_data bm_d bm_e].
  rewrite (raw_zip_words W (simd_d ps) (ts_a U) N) by (auto; lia).
  rewrite (raw_zip_words W (simd_e ps) (ts_b U) N) by (auto; lia).
  assert (SOL : forall x y z : list bool, length x = length y -> length z = length y ->
     (zip_with xorb x y = z <-> y = zip_with xorb x z)).
  { induction x as [|p x IH]; intros [|q y] [|r z] H1 H2; simpl in *; try discriminate; [tauto|].
    specialize (IH y z ltac:(lia) ltac:(lia)).
    split; intros H; injection H as Ha Hb; f_equal; try (apply IH; auto).
    - rewrite <- Ha. destruct p, q; auto.
    - rewrite Ha. destruct p, r; auto. }
  pose proof (bv_bits_length W _ wa). pose proof (bv_bits_length W _ wb).
  rewrite SOL by lia. rewrite (SOL (simd_e ps)) by lia. tauto.
Qed.

(** *** Alignment of SIMD values *)

Theorem bool_simd_xor_aligned W party x y :
  0 < W -> bv_wf W x -> bv_wf W y -> bv_len x = bv_len y -> bv_head x = bv_head y ->
  exists r, bool_eval_ni_simd W party BXor [x; y] = Some r /\ bv_wf W r /\
    bv_head r = bv_head x /\ bv_len r = bv_len x /\
    bv_bits r = bits_xor (bv_bits x) (bv_bits y).
Proof.
  intros HW Wx Wy HL HH. simpl. eexists; split; [reflexivity|].
  pose proof (bv_bits_length W x Wx) as Lx.
  assert (Wc : bv_wf W (bv_clone W x)) by (apply bv_copy_wf; apply Wx).
  split; [apply fast_bit_xor_wf; auto|]. split; [reflexivity|].
  split; [simpl; apply Lx|].
  rewrite (fast_bit_xor_bits W); auto; [|simpl; lia].
  unfold bv_clone. rewrite bv_copy_bits by auto. reflexivity.
Qed.

Lemma sum_mod0 W sizes : 0 < W -> Forall (fun n => n mod W = 0) sizes -> sum_list sizes mod W = 0.
Proof.
  intros HW H. induction H; simpl; [apply Nat.mod_0_l; lia|].
  rewrite Nat.add_mod, H, IHForall by lia. apply Nat.mod_0_l; lia.
Qed.

Lemma Forall_firstn' {A} (P : A -> Prop) n l : Forall P l -> Forall P (firstn n l).
Proof. intros H; revert n; induction H; intros [|n]; simpl; auto. Qed.

(** *** Linear gates *)

Theorem bool_local_ok g in0 in1 :
  local_gate g -> length in0 = length in1 -> bool_input_size g <= length in0 ->
  exists r0 r1, bool_eval_ni 0 g in0 = Some r0 /\ bool_eval_ni 1 g in1 = Some r1 /\
    bool_gate_sem g (bits_xor in0 in1) = Some (xorb r0 r1).
Proof.
  intros Hg HL HS. unfold bits_xor.
  destruct g as [b| | |]; simpl in *; try contradiction.
  - destruct in0 as [|x0 in0], in1 as [|x1 in1]; simpl in *; try lia; try discriminate.
    destruct b; try contradiction; eexists _, _; repeat split; reflexivity.
  - destruct in0 as [|x0 [|y0 in0]], in1 as [|x1 [|y1 in1]]; simpl in *; try lia; try discriminate.
    eexists _, _; repeat split; auto. simpl. f_equal. destruct x0, x1, y0, y1; reflexivity.
  - destruct in0 as [|x0 in0], in1 as [|x1 in1]; simpl in *; try lia; try discriminate.
    eexists _, _; repeat split; auto. simpl. f_equal. destruct x0, x1; reflexivity.
Qed.

Theorem bool_constant_ok o0 o1 c :
  xorb (bool_share_constant 0 o0 c) (bool_share_constant 1 o1 c) = c.
Proof. destruct c; reflexivity. Qed.

(** SIMD versions, for vectors with equal head offsets. *)
Lemma bv_clone_spec W v : 0 < W -> bv_wf W v ->
  bv_wf W (bv_clone W v) /\ bv_bits (bv_clone W v) = bv_bits v /\
  bv_head (bv_clone W v) = bv_head v /\ bv_len (bv_clone W v) = bv_len v.
Proof.
  intros HW Hv. split; [apply bv_copy_wf; apply Hv|]. split; [apply bv_copy_bits; auto|].
  split; [reflexivity|]. simpl. apply (bv_bits_length W); auto.
Qed.

Theorem bool_local_simd_ok W g h n in0 in1 :
  0 < W -> local_gate g -> length in0 = length in1 -> bool_input_size g <= length in0 ->
  Forall (fun v => bv_wf W v /\ bv_head v = h /\ bv_len v = n) in0 ->
  Forall (fun v => bv_wf W v /\ bv_head v = h /\ bv_len v = n) in1 ->
  exists r0 r1, bool_eval_ni_simd W 0 g in0 = Some r0 /\ bool_eval_ni_simd W 1 g in1 = Some r1 /\
    bv_wf W r0 /\ bv_wf W r1 /\ bv_head r0 = h /\ bv_head r1 = h /\
    bv_len r0 = n /\ bv_len r1 = n /\
    forall i, i < n ->
      bool_gate_sem g (zip_with (fun v0 v1 => xorb (nth i (bv_bits v0) false) (nth i (bv_bits v1) false)) in0 in1)
      = Some (xorb (nth i (bv_bits r0) false) (nth i (bv_bits r1) false)).
Proof.
  intros HW Hg HL HS F0 F1.
  destruct g as [b| | |]; simpl in HS; try contradiction.
  - destruct in0 as [|x0 in0], in1 as [|x1 in1]; simpl in HL, HS; try lia; try discriminate.
    inversion F0 as [|? ? (Wx0 & Hx0 & Lx0) _]; subst. inversion F1 as [|? ? (Wx1 & Hx1 & Lx1) _]; subst.
    destruct (bv_clone_spec W x0 HW Wx0) as (A1 & A2 & A3 & A4).
    destruct (bv_clone_spec W x1 HW Wx1) as (B1 & B2 & B3 & B4).
    destruct b; try contradiction; exists (bv_clone W x0), (bv_clone W x1);
      (repeat split; [..|intros i Hi; rewrite A2, B2; reflexivity]); auto; try congruence;
      try apply A1; try apply B1.
  - destruct in0 as [|x0 [|y0 in0]], in1 as [|x1 [|y1 in1]]; simpl in HL, HS; try lia; try discriminate.
    inversion F0 as [|? ? (Wx0 & Hx0 & Lx0) F0']; subst. inversion F0' as [|? ? (Wy0 & Hy0 & Ly0) _]; subst.
    inversion F1 as [|? ? (Wx1 & Hx1 & Lx1) F1']; subst. inversion F1' as [|? ? (Wy1 & Hy1 & Ly1) _]; subst.
    destruct (bool_simd_xor_aligned W 0 x0 y0 HW Wx0 Wy0 ltac:(congruence) ltac:(congruence))
      as (r0 & E0 & R1 & R2 & R3 & R4).
    destruct (bool_simd_xor_aligned W 1 x1 y1 HW Wx1 Wy1 ltac:(congruence) ltac:(congruence))
      as (r1 & E1 & S1 & S2 & S3 & S4).
    exists r0, r1. simpl in E0, E1. simpl. split; [exact E0|]. split; [exact E1|].
    split; [auto|]. split; [auto|]. split; [auto|]. split; [congruence|]. split; [congruence|].
    split; [congruence|]. intros i Hi. f_equal. rewrite R4, S4. unfold bits_xor.
    rewrite !(zip_with_nth xorb _ _ i false false) by (rewrite (bv_bits_length W); auto; lia).
    destruct (nth i (bv_bits x0) false), (nth i (bv_bits x1) false),
      (nth i (bv_bits y0) false), (nth i (bv_bits y1) false); reflexivity.
  - destruct in0 as [|x0 in0], in1 as [|x1 in1]; simpl in HL, HS; try lia; try discriminate.
    inversion F0 as [|? ? (Wx0 & Hx0 & Lx0) _]; subst. inversion F1 as [|? ? (Wx1 & Hx1 & Lx1) _]; subst.
    destruct (bv_clone_spec W x0 HW Wx0) as (A1 & A2 & A3 & A4).
    destruct (bv_clone_spec W x1 HW Wx1) as (B1 & B2 & B3 & B4).
    exists (bv_not (bv_clone W x0)), (bv_clone W x1).
    split; [reflexivity|]. split; [reflexivity|]. split; [apply bv_not_wf; auto|]. split; [auto|].
    split; [auto|]. split; [congruence|]. split; [cbn [bv_not bv_len]; congruence|]. split; [congruence|].
    intros i Hi. simpl. f_equal. rewrite bv_not_bits, A2, B2.
    rewrite (nth_indep (map negb (bv_bits x0)) false (negb false)) by (rewrite map_length, (bv_bits_length W); auto; lia).
    rewrite map_nth. destruct (nth i (bv_bits x0) false), (nth i (bv_bits x1) false); reflexivity.
Qed.

(** *** Sharing *)

Section Sharing.
  Variable S : Type.
  Variable fill : S -> nat -> list bool * S.
  Hypothesis fill_length : forall s n, length (fst (fill s n)) = n.

  Lemma rand_bitvec_spec W size s : 0 < W ->
    bv_wf W (fst (rand_bitvec fill W size s)) /\ bv_head (fst (rand_bitvec fill W size s)) = 0 /\
    bv_len (fst (rand_bitvec fill W size s)) = size /\
    bv_bits (fst (rand_bitvec fill W size s)) = firstn size (fst (fill s (W * bv_words W 0 size))).
  Proof.
    intros HW. unfold rand_bitvec. pose proof (fill_length s (W * bv_words W 0 size)) as HL.
    destruct (fill s (W * bv_words W 0 size)) as [raw s']; simpl in *.
    repeat split; auto.
  Qed.

  Theorem xor_sharing_roundtrip W s x : 0 < W -> bv_wf W x ->
    let '(s0, s1, _) := xor_share fill W s x in
    bv_bits (xor_reconstruct W s0 s1) = bv_bits x /\ bv_len s0 = bv_len x /\ bv_len s1 = bv_len x.
  Proof.
    intros HW Hx. unfold xor_share.
    pose proof (rand_bitvec_spec W (bv_len x) s HW) as (R1 & R2 & R3 & R4).
    destruct (rand_bitvec fill W (bv_len x) s) as [r s']; simpl in R1, R2, R3, R4.
    split; [|split; auto; apply bv_xor_len; auto].
    unfold xor_reconstruct.
    rewrite bv_xor_bits; auto; [| apply bv_xor_wf; auto | rewrite bv_xor_len; auto].
    rewrite bv_xor_bits; auto.
    assert (E : length (bv_bits r) = length (bv_bits x)) by (rewrite !(bv_bits_length W); auto).
    revert E. generalize (bv_bits r) (bv_bits x). intros l; induction l; intros [|y m] E; simpl in *;
      try discriminate; auto. f_equal; auto. destruct a, y; reflexivity.
  Qed.
End Sharing.

Theorem xor_sharing_hiding W x y raw : 0 < W -> bv_wf W x -> bv_wf W y -> bv_len x = bv_len y ->
  length raw = W * bv_words W 0 (bv_len x) ->
  let sh v r := xor_share (const_fill r) W tt v in
  fst (fst (sh x raw)) = fst (fst (sh y raw)) /\
  (exists raw', length raw' = length raw /\
     bv_bits (snd (fst (sh y raw'))) = bv_bits (snd (fst (sh x raw)))) /\
  (forall r1 r2, length r1 = length raw -> length r2 = length raw ->
     bv_bits (snd (fst (sh y r1))) = bv_bits (snd (fst (sh y r2))) ->
     firstn (bv_len y) r1 = firstn (bv_len y) r2).
Proof.
  intros HW Wx Wy HL HR sh.
  assert (B : forall v r, bv_wf W v -> length r = W * bv_words W 0 (bv_len v) ->
    bv_bits (snd (fst (sh v r))) = zip_with xorb (bv_bits v) (firstn (bv_len v) r)).
  { intros v r Hv Hr. unfold sh, xor_share, rand_bitvec, const_fill. cbn [fst snd].
    apply bv_xor_bits; auto. split; simpl; auto; lia. }
  split; [|split].
  - unfold sh, xor_share, rand_bitvec, const_fill. simpl. rewrite HL. reflexivity.
  - exists (zip_with xorb (bv_bits x) (zip_with xorb (bv_bits y) (firstn (bv_len x) raw))
            ++ skipn (bv_len x) raw).
    pose proof (bv_bits_length W x Wx) as Lx. pose proof (bv_bits_length W y Wy) as Ly.
    pose proof (words_N_le W (bv_len x) HW) as HN.
    assert (LZ : length (zip_with xorb (bv_bits x) (zip_with xorb (bv_bits y) (firstn (bv_len x) raw))) = bv_len x).
    { rewrite !zip_with_length, firstn_length. lia. }
    split; [rewrite app_length, LZ, skipn_length; lia|].
    rewrite (B y _ Wy) by (rewrite app_length, LZ, skipn_length, <- HL; lia).
    rewrite (B x raw Wx HR).
    rewrite (firstn_app_exact _ _ (bv_len y)) by lia.
    assert (LR : length (firstn (bv_len x) raw) = bv_len x) by (rewrite firstn_length; lia).
    revert Lx Ly LR. rewrite <- HL. clear. generalize (firstn (bv_len x) raw) as l.
    generalize (bv_bits x) (bv_bits y) (bv_len x).
    intros xx yy nn l; revert xx yy nn; induction l; intros [|p m] [|q k] [|n] A1 A2 A3; simpl in *; try lia; auto.
    apply (f_equal2 cons); [destruct p, q, a; reflexivity|]. apply (IHl m k n); lia.
  - intros r1 r2 H1 H2. rewrite (B y r1 Wy), (B y r2 Wy) by (rewrite <- HL; congruence).
    pose proof (bv_bits_length W y Wy) as Ly.
    pose proof (words_N_le W (bv_len x) HW) as HN.
    assert (LR1 : length (firstn (bv_len y) r1) = bv_len y) by (rewrite firstn_length; lia).
    assert (LR2 : length (firstn (bv_len y) r2) = bv_len y) by (rewrite firstn_length; lia).
    revert LR1 LR2 Ly. generalize (firstn (bv_len y) r1) as l. generalize (firstn (bv_len y) r2) as l2.
    generalize (bv_bits y) (bv_len y). clear.
    intros yy nn l2 l; revert yy nn l2; induction l; intros [|q k] [|n] [|p m] A1 A2 A3 E; simpl in *; try lia; auto.
    injection E as E1 E2. apply (f_equal2 cons); [destruct q, a, p; simpl in *; congruence|].
    apply (IHl k n m); auto; lia.
Qed.

(** *** Storage histories *)

Lemma mts_append_spec W h n h' n' t u : 0 < W -> mts_wf W h n t -> mts_wf W h' n' u ->
  mts_wf W h (n + n') (mts_append W t u) /\ mts_iter (mts_append W t u) = mts_iter t ++ mts_iter u.
Proof.
  intros HW (a1 & a2 & a3 & a4 & a5 & a6 & a7 & a8 & a9) (b1 & b2 & b3 & b4 & b5 & b6 & b7 & b8 & b9).
  pose proof (bv_bits_length W _ a1). pose proof (bv_bits_length W _ a2). pose proof (bv_bits_length W _ a3).
  pose proof (bv_bits_length W _ b1). pose proof (bv_bits_length W _ b2). pose proof (bv_bits_length W _ b3).
  split.
  - unfold mts_wf, mts_append; cbn [ts_a ts_b ts_c].
    split; [apply bv_extend_wf; auto|]. split; [apply bv_extend_wf; auto|]. split; [apply bv_extend_wf; auto|].
    cbn [bv_extend bv_copy bv_head bv_len]. rewrite !app_length. repeat split; auto; lia.
  - unfold mts_iter, mts_append; cbn [ts_a ts_b ts_c]. rewrite !bv_extend_bits by auto.
    rewrite (zip_with_app pair) by lia. apply zip_with_app. rewrite zip_with_length. lia.
Qed.

Lemma sop_run_ok W ops : forall t out, 0 < W -> mts_ok W t ->
  (forall u, In (SAppend u) ops -> mts_ok W u) ->
  forall t' out', ofold (sop_step W) (t, out) ops = Some (t', out') ->
  mts_ok W t' /\
  exists given, out' = out ++ given /\
    Permutation (concat (map mts_iter given) ++ mts_iter t')
                (mts_iter t ++ flat_map sop_put ops).
Proof.
  induction ops as [|o ops IH]; intros t out HW Ht Hin t' out' H; simpl in H.
  - inversion H; subst. split; auto. exists []. rewrite app_nil_r. simpl. split; auto.
    rewrite app_nil_r. apply Permutation_refl.
  - assert (Hin' : forall u, In (SAppend u) ops -> mts_ok W u) by (intros; apply Hin; right; auto).
    destruct Ht as (h & n & Hwf).
    assert (SPLIT : forall k, ('(r, u) <- mts_split_off_last W t k;; Some (r, out ++ [u])) <> None ->
       exists r u, mts_split_off_last W t k = Some (r, u) /\ mts_ok W r /\
         mts_iter t = mts_iter r ++ mts_iter u).
    { intros k Hk. destruct (le_dec k n) as [Hle|Hle].
      - destruct (mts_split_off_last_spec W h n t k HW Hwf Hle) as (r & u & E & Wr & Wu & Ir & Iu & _).
        exists r, u. split; auto. split; [eexists _, _; eauto|]. rewrite Ir, Iu. symmetry; apply firstn_skipn.
      - exfalso. apply Hk. unfold mts_split_off_last, mts_len.
        destruct Hwf as (_ & _ & _ & _ & _ & _ & -> & _). destruct (Nat.leb_spec k n); [lia|]. reflexivity. }
    assert (STEP : forall k, ofold (sop_step W) (t, out) (o :: ops) = Some (t', out') ->
        sop_put o = [] -> sop_step W (t, out) o = ('(r, u) <- mts_split_off_last W t k;; Some (r, out ++ [u])) ->
        mts_ok W t' /\ exists given, out' = out ++ given /\
        Permutation (concat (map mts_iter given) ++ mts_iter t') (mts_iter t ++ flat_map sop_put (o :: ops))).
    { intros k HH Hput Hstep. cbn [ofold] in HH. rewrite Hstep in HH.
      destruct (SPLIT k) as (r & u & E & Hr & EI). { intros C; rewrite C in HH; discriminate. }
      rewrite E in HH. simpl in HH.
      destruct (IH r (out ++ [u]) HW Hr Hin' t' out' HH) as (G1 & given & G2 & G3).
      split; auto. exists (u :: given). split; [rewrite G2, <- app_assoc; auto|].
      simpl. rewrite Hput. simpl. rewrite <- app_assoc.
      transitivity (mts_iter u ++ (mts_iter r ++ flat_map sop_put ops)).
      - apply Permutation_app_head; auto.
      - rewrite EI. rewrite app_assoc. apply Permutation_app_tail. apply Permutation_app_comm. }
    destruct o as [u|k|k].
    + simpl in H. destruct (Hin u (or_introl eq_refl)) as (h' & n' & Hu).
      destruct (mts_append_spec W h n h' n' t u HW Hwf Hu) as (A1 & A2).
      destruct (IH (mts_append W t u) out HW ltac:(eexists _, _; eauto) Hin' t' out' H) as (G1 & given & G2 & G3).
      split; auto. exists given. split; auto. rewrite A2 in G3. simpl. rewrite app_assoc. exact G3.
    + apply (STEP k); auto.
    + apply (STEP k); auto.
Qed.

(** A history only fails when more is requested than is stored. *)
Lemma mts_split_total W t n : 0 < W -> mts_ok W t -> n <= length (mts_iter t) ->
  exists r u, mts_split_off_last W t n = Some (r, u) /\ mts_ok W r /\ length (mts_iter u) = n.
Proof.
  intros HW (h & m & Hwf) Hn. rewrite (mts_iter_length _ _ _ _ Hwf) in Hn.
  destruct (mts_split_off_last_spec W h m t n HW Hwf Hn) as (r & u & E & Wr & Wu & Ir & Iu & _).
  exists r, u. split; auto. split; [eexists _, _; eauto|]. apply (mts_iter_length _ _ _ _ Wu).
Qed.

(** *** Random pairs *)
Section RandomPair.
  Variable S : Type.
  Variable fill : S -> nat -> list bool * S.
  Hypothesis fill_length : forall s n, length (fst (fill s n)) = n.

  Theorem mts_random_pair_ok W size s : 0 < W ->
    exists t0 t1 s', mts_random_pair fill W size s = Some (t0, t1, s') /\
      mts_wf W 0 size t0 /\ mts_wf W 0 size t1 /\ triples_ok (mts_iter t0) (mts_iter t1).
  Proof.
    intros HW. unfold mts_random_pair.
    pose proof (rand_bitvec_spec S fill fill_length W size) as RS.
    pose proof (RS s HW) as (P1 & P2 & P3 & _). destruct (rand_bitvec fill W size s) as [a1 s1]; cbn [fst] in *.
    pose proof (RS s1 HW) as (Q1 & Q2 & Q3 & _). destruct (rand_bitvec fill W size s1) as [a2 s2]; cbn [fst] in *.
    pose proof (RS s2 HW) as (U1 & U2 & U3 & _). destruct (rand_bitvec fill W size s2) as [b1 s3]; cbn [fst] in *.
    pose proof (RS s3 HW) as (V1 & V2 & V3 & _). destruct (rand_bitvec fill W size s3) as [b2 s4]; cbn [fst] in *.
    pose proof (RS s4 HW) as (X1 & X2 & X3 & _). destruct (rand_bitvec fill W size s4) as [c1 s5]; cbn [fst] in *.
    unfold mts_from_raw. rewrite P3, U3, X3, Nat.eqb_refl. cbn [andb obind].
    set (c2 := mts_compute_c W (MTS a1 b1 c1) a2 b2).
    assert (E : bv_bits c2 = zip_with xorb (zip_with andb (zip_with xorb (bv_bits a2) (bv_bits a1))
        (zip_with xorb (bv_bits b2) (bv_bits b1))) (bv_bits c1)).
    { unfold c2, mts_compute_c; cbn [ts_a ts_b ts_c].
      assert (Z1 : bv_wf W (bv_xor W a2 a1)) by (apply bv_xor_wf; auto).
      assert (Z2 : bv_wf W (bv_xor W b2 b1)) by (apply bv_xor_wf; auto).
      assert (Z3 : bv_wf W (bv_and W (bv_xor W a2 a1) (bv_xor W b2 b1))) by (apply bv_and_wf; auto).
      rewrite bv_xor_bits; auto; [| rewrite bv_and_len, bv_xor_len; auto; congruence].
      rewrite bv_and_bits; auto; [| rewrite !bv_xor_len; auto; congruence].
      rewrite !bv_xor_bits; auto; congruence. }
    assert (Wc : bv_wf W c2).
    { unfold c2, mts_compute_c. apply bv_xor_wf. apply bv_and_wf. apply bv_xor_wf. auto. }
    assert (Hc : bv_head c2 = 0) by (unfold c2, mts_compute_c, bv_xor, bv_and; simpl; auto).
    assert (Lc : bv_len c2 = size).
    { rewrite <- (bv_bits_length W c2 Wc), E, !zip_with_length, !(bv_bits_length W) by auto. lia. }
    rewrite Q3, V3, Lc, Nat.eqb_refl. cbn [andb obind].
    eexists _, _, _; split; [reflexivity|].
    assert (M1 : mts_wf W 0 size (MTS a1 b1 c1)) by (unfold mts_wf; cbn [ts_a ts_b ts_c]; tauto).
    assert (M2 : mts_wf W 0 size (MTS a2 b2 c2)) by (unfold mts_wf; cbn [ts_a ts_b ts_c]; tauto).
    split; auto. split; auto.
    pose proof (bv_bits_length W a1 P1). pose proof (bv_bits_length W a2 Q1).
    pose proof (bv_bits_length W b1 U1). pose proof (bv_bits_length W b2 V1).
    pose proof (bv_bits_length W c1 X1). unfold mts_iter; cbn [ts_a ts_b ts_c]. rewrite E.
    assert (LL : length (bv_bits a2) = length (bv_bits a1) /\ length (bv_bits b1) = length (bv_bits a1)
       /\ length (bv_bits b2) = length (bv_bits a1) /\ length (bv_bits c1) = length (bv_bits a1)) by lia.
    clear - LL. revert LL.
    generalize (bv_bits a1) (bv_bits a2) (bv_bits b1) (bv_bits b2) (bv_bits c1).
    intros l; induction l as [|w l IH]; intros [|w2 l2] [|v1 m1] [|v2 m2] [|u k]; simpl;
      intros (L1 & L2 & L3 & L4); try discriminate; constructor.
    - unfold triple_ok; simpl. destruct w, w2, v1, v2, u; reflexivity.
    - apply IH. repeat split; lia.
  Qed.
End RandomPair.

(** *** Pure layers through the executor's call sequence *)

Lemma bool_eval_int_empty W party gs outs m0 m1 T h m :
  0 < W -> mts_wf W h m T -> bm_size m0 = 0 -> bm_size m1 = 0 ->
  exists R, bool_eval_int W party gs outs m0 m1 T = Some ([], R) /\
    mts_wf W h m R /\ mts_iter R = mts_iter T.
Proof.
  intros HW Hwf H0 H1. unfold bool_eval_int. rewrite H0, H1. cbn [Nat.eqb oassert obind].
  destruct (mts_split_off_last_spec W h m T 0 HW Hwf ltac:(lia)) as (R & U & E & WR & WU & IR & IU & _).
  rewrite E. cbn [obind]. exists R.
  assert (L : mts_iter U = []).
  { apply length_zero_iff_nil. rewrite (mts_iter_length _ _ _ _ WU). reflexivity. }
  rewrite Nat.sub_0_r in *. rewrite firstn_all2 in IR by (rewrite (mts_iter_length _ _ _ _ Hwf); auto).
  split; [|split; auto]. rewrite L. simpl.
  destruct (bv_bits (bv_from_vec (bm_d m0))), (bv_bits (bv_from_vec (bm_e m0))),
    (bv_bits (bv_from_vec (bm_d m1))), (bv_bits (bv_from_vec (bm_e m1))); reflexivity.
Qed.

(** The storage vectors of a wf storage split at 0 keep head and raw words. *)
Lemma bv_split_off_all W v : 0 < W -> bv_wf W v ->
  exists v2, bv_split_off W v (bv_len v) = Some (v, v2).
Proof.
  intros HW [Hh Hr]. unfold bv_split_off. rewrite Nat.leb_refl.
  eexists. f_equal. f_equal. rewrite firstn_all2 by lia. destruct v; reflexivity.
Qed.

Lemma mts_split_zero W h m T : 0 < W -> mts_wf W h m T ->
  exists u, mts_split_off_last W T 0 = Some (T, u).
Proof.
  intros HW (a1 & a2 & a3 & a4 & a5 & a6 & a7 & a8 & a9).
  unfold mts_split_off_last, mts_len. destruct (Nat.leb_spec 0 (bv_len (ts_a T))); [|lia].
  rewrite Nat.sub_0_r.
  destruct (bv_split_off_all W _ HW a1) as (x & ->).
  rewrite a7. cbn [obind].
  destruct (bv_split_off_all W _ HW a2) as (y & E2). rewrite a8 in E2. rewrite E2. cbn [obind].
  destruct (bv_split_off_all W _ HW a3) as (z & E3). rewrite a9 in E3. rewrite E3. cbn [obind].
  eexists. f_equal. f_equal. destruct T; reflexivity.
Qed.

Lemma bool_eval_int_empty' W party gs outs m0 m1 T h m :
  0 < W -> mts_wf W h m T -> bm_size m0 = 0 -> bm_size m1 = 0 ->
  bool_eval_int W party gs outs m0 m1 T = Some ([], T).
Proof.
  intros HW Hwf H0 H1.
  destruct (bool_eval_int_empty W party gs outs m0 m1 T h m HW Hwf H0 H1) as (R & E & _ & _).
  rewrite E. f_equal. f_equal. unfold bool_eval_int in E. rewrite H0, H1 in E.
  cbn [Nat.eqb oassert obind] in E.
  destruct (mts_split_zero W h m T HW Hwf) as (u & Eu). rewrite Eu in E. cbn [obind] in E.
  inversion E; auto.
Qed.

Lemma bool_simd_empty W h m T party g outs : 0 < W -> mts_wf W h m T ->
  bool_compute_msg_simd W party g outs [] T = Some (BSimdMsg (BMsg 0 [] []) [], T).
Proof.
  intros HW Hwf. unfold bool_compute_msg_simd. cbn [bool_simd_chunks obind].
  cbn [bv_of_bits bv_copy bv_len length]. unfold mts_len.
  destruct (Nat.leb_spec 0 (bv_len (ts_a T))); [|lia]. cbn [oassert obind].
  assert (Z : bv_raw (bv_of_bits W []) = []).
  { apply length_zero_iff_nil. unfold bv_of_bits, bv_copy. cbn [bv_raw length].
    rewrite pad_words_length, bv_words_zero. lia. }
  unfold fast_bit_xor, bv_into_vec. cbn [bv_raw]. rewrite Z. reflexivity.
Qed.

Lemma bool_eval_int_simd_empty W h m T party g outs : 0 < W -> mts_wf W h m T ->
  bool_eval_int_simd W party g outs (BSimdMsg (BMsg 0 [] []) []) (BSimdMsg (BMsg 0 [] []) []) T
  = Some ([], T).
Proof.
  intros HW Hwf. unfold bool_eval_int_simd. cbn [bs_data bs_sizes bm_size bm_d bm_e].
  cbn [Nat.eqb list_nat_eqb oassert obind sum_list fold_right].
  destruct (mts_split_zero W h m T HW Hwf) as (u & ->). reflexivity.
Qed.

Theorem bool_pure_scalar_layer W ps0 ps1 n m h0 h1 T0 T1 :
  0 < W -> length ps0 = n -> length ps1 = n -> n <= m ->
  mts_wf W h0 m T0 -> mts_wf W h1 m T1 ->
  triples_ok (mts_iter T0) (mts_iter T1) ->
  exists o0 o1 R0 R1,
    bool_layer W n (flat_pairs ps0) (flat_pairs ps1) 0 [] [] T0 T1
      = Some ((o0, o1), ([], []), (R0, R1)) /\
    bits_xor o0 o1 = and_of_pairs ps0 ps1 /\ length o0 = n /\ length o1 = n /\
    mts_iter R0 = firstn (m - n) (mts_iter T0) /\
    mts_iter R1 = firstn (m - n) (mts_iter T1).
Proof.
  intros HW L0 L1 Hn W0 W1 Hok.
  destruct (bool_scalar_layer W ps0 ps1 n m h0 h1 T0 T1 [] [] HW L0 L1 Hn W0 W1 Hok)
    as (m0 & m1 & o0 & o1 & R0 & R1 & C0 & C1 & E0 & E1 & LO0 & LO1 & X & WR0 & WR1 & I0 & I1).
  exists o0, o1, R0, R1. split; [|auto].
  unfold bool_layer. rewrite C0. cbn [obind].
  rewrite (bool_simd_empty W h0 m T0) by auto. cbn [obind].
  rewrite C1. cbn [obind]. rewrite (bool_simd_empty W h1 m T1) by auto. cbn [obind].
  rewrite E0. cbn [obind repeat]. rewrite (bool_eval_int_simd_empty W h0 (m - n)) by auto. cbn [obind].
  rewrite E1. cbn [obind]. rewrite (bool_eval_int_simd_empty W h1 (m - n)) by auto. reflexivity.
Qed.

Theorem bool_pure_simd_layer W ps0 ps1 m h T0 T1 :
  0 < W -> simd_pairs_ok W ps0 -> simd_pairs_ok W ps1 ->
  simd_sizes ps0 = simd_sizes ps1 ->
  let N := sum_list (simd_sizes ps0) in
  N <= m -> mts_wf W h m T0 -> mts_wf W h m T1 ->
  triples_ok (mts_iter T0) (mts_iter T1) ->
  exists p0 p1 R0 R1,
    bool_layer W 0 [] [] (length ps0) (flat_pairs ps0) (flat_pairs ps1) T0 T1
      = Some (([], []), (p0, p1), (R0, R1)) /\
    length p0 = length ps0 /\ length p1 = length ps0 /\
    (forall j, j < length ps0 ->
      bv_wf W (nth j p0 bv0) /\ bv_wf W (nth j p1 bv0) /\
      bits_xor (bv_bits (nth j p0 bv0)) (bv_bits (nth j p1 bv0))
      = simd_and (nth j ps0 (bv0, bv0)) (nth j ps1 (bv0, bv0))) /\
    mts_iter R0 = firstn (m - N) (mts_iter T0) /\
    mts_iter R1 = firstn (m - N) (mts_iter T1).
Proof.
  intros HW P0 P1 HS N HN W0 W1 Hok.
  destruct (bool_simd_layer W ps0 ps1 m h T0 T1 (repeat BAnd (length ps0)) (repeat BAnd (length ps0)) [] []
     HW P0 P1 HS HN W0 W1 Hok)
    as (m0 & m1 & o0 & o1 & R0 & R1 & C0 & C1 & E0 & E1 & LO0 & LO1 & X & WR0 & WR1 & I0 & I1).
  exists o0, o1, R0, R1. split; [|split; [auto|split; [auto|split; [|auto]]]].
  2:{ intros j Hj. destruct (X j Hj) as (A & B & _ & _ & _ & _ & C). auto. }
  unfold bool_layer.
  pose proof (bool_compute_msg_spec W h m T0 0 [] [] W0 ltac:(simpl; lia)) as Q0.
  pose proof (bool_compute_msg_spec W h m T1 1 [] [] W1 ltac:(simpl; lia)) as Q1.
  cbn [length repeat flat_pairs flat_map] in Q0, Q1. cbn [repeat].
  rewrite Q0. cbn [obind]. rewrite C0. cbn [obind]. rewrite Q1. cbn [obind]. rewrite C1. cbn [obind].
  rewrite (bool_eval_int_empty' W 0 _ _ _ _ T0 h m) by auto. cbn [obind]. rewrite E0. cbn [obind].
  rewrite (bool_eval_int_empty' W 1 _ _ _ _ T1 h m) by auto. cbn [obind]. rewrite E1. reflexivity.
Qed.

(** *** XOR of two outputs of the same SIMD layer *)
Theorem bool_simd_outputs_xor W ps0 ps1 m h T0 T1 j k :
  0 < W -> simd_pairs_ok W ps0 -> simd_pairs_ok W ps1 ->
  simd_sizes ps0 = simd_sizes ps1 ->
  sum_list (simd_sizes ps0) <= m -> mts_wf W h m T0 -> mts_wf W h m T1 ->
  triples_ok (mts_iter T0) (mts_iter T1) ->
  j < length ps0 -> k < length ps0 ->
  nth j (simd_sizes ps0) 0 = nth k (simd_sizes ps0) 0 ->
  sum_list (firstn j (simd_sizes ps0)) mod W = sum_list (firstn k (simd_sizes ps0)) mod W ->
  exists p0 p1 R0 R1 r0 r1,
    bool_layer W 0 [] [] (length ps0) (flat_pairs ps0) (flat_pairs ps1) T0 T1
      = Some (([], []), (p0, p1), (R0, R1)) /\
    bool_eval_ni_simd W 0 BXor [nth j p0 bv0; nth k p0 bv0] = Some r0 /\
    bool_eval_ni_simd W 1 BXor [nth j p1 bv0; nth k p1 bv0] = Some r1 /\
    bits_xor (bv_bits r0) (bv_bits r1) =
      bits_xor (simd_and (nth j ps0 (bv0, bv0)) (nth j ps1 (bv0, bv0)))
               (simd_and (nth k ps0 (bv0, bv0)) (nth k ps1 (bv0, bv0))).
Proof.
  intros HW P0 P1 HS HN W0 W1 Hok Hj Hk HLen HHead.
  destruct (bool_pure_simd_layer W ps0 ps1 m h T0 T1 HW P0 P1 HS HN W0 W1 Hok)
    as (p0 & p1 & R0 & R1 & E & L0 & L1 & X & _ & _).
  destruct (bool_simd_layer W ps0 ps1 m h T0 T1 (repeat BAnd (length ps0)) (repeat BAnd (length ps0)) [] []
     HW P0 P1 HS HN W0 W1 Hok)
    as (m0 & m1 & o0 & o1 & S0 & S1 & C0 & C1 & E0 & E1 & LO0 & LO1 & Y & _ & _ & _ & _).
  assert (p0 = o0 /\ p1 = o1) as [-> ->].
  { revert E. unfold bool_layer.
    pose proof (bool_compute_msg_spec W h m T0 0 [] [] W0 ltac:(simpl; lia)) as Q0.
    pose proof (bool_compute_msg_spec W h m T1 1 [] [] W1 ltac:(simpl; lia)) as Q1.
    cbn [length repeat flat_pairs flat_map] in Q0, Q1. cbn [repeat].
    rewrite Q0. cbn [obind]. rewrite C0. cbn [obind]. rewrite Q1. cbn [obind]. rewrite C1. cbn [obind].
    rewrite (bool_eval_int_empty' W 0 _ _ _ _ T0 h m) by auto. cbn [obind]. rewrite E0. cbn [obind].
    rewrite (bool_eval_int_empty' W 1 _ _ _ _ T1 h m) by auto. cbn [obind]. rewrite E1.
    intros [= -> -> _ _]. auto. }
  destruct (Y j Hj) as (A1 & A2 & A3 & A4 & A5 & A6 & A7).
  destruct (Y k Hk) as (B1 & B2 & B3 & B4 & B5 & B6 & B7).
  destruct (bool_simd_xor_aligned W 0 (nth j o0 bv0) (nth k o0 bv0)) as (r0 & F0 & _ & _ & _ & G0); auto;
    [congruence|congruence|].
  destruct (bool_simd_xor_aligned W 1 (nth j o1 bv0) (nth k o1 bv0)) as (r1 & F1 & _ & _ & _ & G1); auto;
    [congruence|congruence|].
  exists o0, o1, R0, R1, r0, r1. split; [exact E|]. split; [exact F0|]. split; [exact F1|].
  rewrite G0, G1, <- A7, <- B7.
  pose proof (bv_bits_length W _ A1). pose proof (bv_bits_length W _ A2).
  pose proof (bv_bits_length W _ B1). pose proof (bv_bits_length W _ B2).
  assert (LL : length (bv_bits (nth k o0 bv0)) = length (bv_bits (nth j o0 bv0)) /\
               length (bv_bits (nth j o1 bv0)) = length (bv_bits (nth j o0 bv0)) /\
               length (bv_bits (nth k o1 bv0)) = length (bv_bits (nth j o0 bv0))) by lia.
  revert LL. clear. unfold bits_xor.
  generalize (bv_bits (nth j o0 bv0)) (bv_bits (nth k o0 bv0)) (bv_bits (nth j o1 bv0)) (bv_bits (nth k o1 bv0)).
  intros l; induction l as [|a l IH]; intros [|b1 l1] [|b2 l2] [|b3 l3] (? & ? & ?); simpl in *; try lia; auto.
  apply (f_equal2 cons); [destruct a, b1, b2, b3; reflexivity|]. apply IH. lia.
Qed.

(** Cutting [n] triples from the end of a batch of [m] leaves the first
    [(m - n) mod W] message bits unmasked. *)
Theorem bool_cut_batch_unmasked W m n T party g outs ps :
  0 < W -> n <= m -> mts_wf W 0 m T -> simd_pairs_ok W ps ->
  sum_list (simd_sizes ps) = n ->
  exists rest cut msg,
    mts_split_off_last W T n = Some (rest, cut) /\
    bool_compute_msg_simd W party g outs (flat_pairs ps) cut = Some (msg, cut) /\
    forall i, i < n -> i < (m - n) mod W ->
      nth i (bm_e (bs_data msg)) false = nth i (flat_map (fun p => bv_bits (fst p)) ps) false /\
      nth i (bm_d (bs_data msg)) false = nth i (flat_map (fun p => bv_bits (snd p)) ps) false.
Proof.
  intros HW Hn Hwf Hps HS.
  destruct (mts_split_off_last_spec W 0 m T n HW Hwf Hn) as (R & U & S0 & WR & WU & _).
  cbn [Nat.add] in WU.
  destruct (bool_simd_unmasked W ps n ((m - n) mod W) U party g outs HW Hps ltac:(lia) WU) as (msg & C & D).
  exists R, U, msg. split; [auto|]. split; [auto|]. intros i Hi Hi'. apply D; [lia|].
  rewrite HS, Nat.sub_diag, Nat.add_0_r, Nat.mod_mod by lia. auto.
Qed.

Theorem bool_cut_aligned_masked W m n ps d e :
  0 < W -> simd_pairs_ok W ps -> sum_list (simd_sizes ps) = n -> n <= m -> (m - n) mod W = 0 ->
  length d = n -> length e = n ->
  exists ma mb, length ma = n /\ length mb = n /\
    forall party g T outs, mts_wf W 0 m T ->
      exists rest cut msg,
        mts_split_off_last W T n = Some (rest, cut) /\
        bool_compute_msg_simd W party g outs (flat_pairs ps) cut = Some (msg, cut) /\
        (firstn n (bm_d (bs_data msg)) = d /\ firstn n (bm_e (bs_data msg)) = e
         <-> map mt_a (lastn n (mts_iter T)) = ma /\ map mt_b (lastn n (mts_iter T)) = mb).
Proof.
  intros HW Hps HS Hn Hal HD HE.
  destruct (bool_simd_masking W ps d e HW Hps ltac:(congruence) ltac:(congruence)) as (ma & mb & L1 & L2 & H).
  rewrite HS in *. exists ma, mb. split; [auto|]. split; [auto|]. intros party g T outs Hwf.
  destruct (mts_split_off_last_spec W 0 m T n HW Hwf Hn) as (R & U & S0 & WR & WU & IR & IU & _).
  cbn [Nat.add] in WU.
  destruct (H party g ((m - n) mod W) n U outs WU ltac:(lia)) as (msg & C & D).
  { rewrite Nat.sub_diag, Nat.add_0_r, Nat.mod_mod by lia. auto. }
  exists R, U, msg. split; [auto|]. split; [auto|].
  pose proof (mts_iter_length _ _ _ _ WU) as LU. pose proof (mts_iter_length _ _ _ _ Hwf) as LT.
  unfold lastn in *. rewrite LU, Nat.sub_diag in D. rewrite LT. rewrite IU in D. exact D.
Qed.
