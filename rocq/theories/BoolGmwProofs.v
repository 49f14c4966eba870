(** Proofs about the boolean GMW model. *)
From Coq Require Import List Bool Arith Lia.
Require Import Verif.Prelude Verif.PreludeProofs Verif.BitVecModel Verif.BitVecSpec Verif.BitVecProofs
  Verif.GateModel Verif.ProtocolModel Verif.BoolGmwModel Verif.BoolGmwSpec.
Import ListNotations.

Definition mt0 : triple := MT false false false.

Lemma mts_iter_length W h n t : mts_wf W h n t -> length (mts_iter t) = n.
Proof.
  intros (Ha & Hb & Hc & _ & _ & _ & La & Lb & Lc). unfold mts_iter.
  rewrite !zip_with_length, !(bv_bits_length W) by auto. lia.
Qed.

Lemma mts_iter_nth W h n t i : mts_wf W h n t -> i < n ->
  nth i (mts_iter t) mt0 =
  MT (nth i (bv_bits (ts_a t)) false) (nth i (bv_bits (ts_b t)) false)
     (nth i (bv_bits (ts_c t)) false).
Proof.
  intros (Ha & Hb & Hc & _ & _ & _ & La & Lb & Lc) Hi. unfold mts_iter.
  rewrite (zip_with_nth _ _ _ i (false, false) false).
  - rewrite (zip_with_nth _ _ _ i false false); rewrite ?(bv_bits_length W) by auto; try lia.
    reflexivity.
  - rewrite zip_with_length, !(bv_bits_length W) by auto; lia.
  - rewrite (bv_bits_length W) by auto; lia.
Qed.

Lemma mts_split_off_last_spec W h m t n : 0 < W -> mts_wf W h m t -> n <= m ->
  exists r u, mts_split_off_last W t n = Some (r, u) /\
    mts_wf W h (m - n) r /\ mts_wf W ((h + (m - n)) mod W) n u /\
    mts_iter r = firstn (m - n) (mts_iter t) /\
    mts_iter u = skipn (m - n) (mts_iter t) /\
    ts_a u = bv_slice_from W (ts_a t) (m - n) /\
    ts_b u = bv_slice_from W (ts_b t) (m - n) /\
    ts_c u = bv_slice_from W (ts_c t) (m - n).
Proof.
  intros HW (Ha & Hb & Hc & Ea & Eb & Ec & La & Lb & Lc) Hn.
  unfold mts_split_off_last, mts_len. rewrite La.
  destruct (Nat.leb_spec n m); [|lia].
  destruct (bv_split_off_spec W (ts_a t) (m - n) HW Ha ltac:(lia))
    as (a1 & a2 & -> & Wa1 & Wa2 & Ba1 & Ba2 & Ha1 & La1 & Ha2 & La2 & Sa).
  destruct (bv_split_off_spec W (ts_b t) (m - n) HW Hb ltac:(lia))
    as (b1 & b2 & -> & Wb1 & Wb2 & Bb1 & Bb2 & Hb1 & Lb1 & Hb2 & Lb2 & Sb).
  destruct (bv_split_off_spec W (ts_c t) (m - n) HW Hc ltac:(lia))
    as (c1 & c2 & -> & Wc1 & Wc2 & Bc1 & Bc2 & Hc1 & Lc1 & Hc2 & Lc2 & Sc).
  simpl. eexists _, _; split; [reflexivity|].
  repeat split; simpl; auto; try congruence; try lia;
    try (destruct Wa1; auto; fail); try (destruct Wa2; auto; fail);
    try (destruct Wb1; auto; fail); try (destruct Wb2; auto; fail);
    try (destruct Wc1; auto; fail); try (destruct Wc2; auto; fail).
  - unfold mts_iter; simpl. rewrite Ba1, Bb1, Bc1. rewrite !zip_with_firstn. reflexivity.
  - unfold mts_iter; simpl. rewrite Ba2, Bb2, Bc2. rewrite !zip_with_skipn. reflexivity.
Qed.

(** ** Scalar layers *)

Lemma flat_pairs_cons {A} (p : A * A) ps : flat_pairs (p :: ps) = fst p :: snd p :: flat_pairs ps.
Proof. reflexivity. Qed.

Lemma bool_msg_loop_spec ps : forall mts rest, length ps <= length mts ->
  bool_msg_loop (repeat BAnd (length ps)) mts (flat_pairs ps ++ rest) =
  Some (zip_with (fun p mt => xorb (fst p) (mt_a mt)) ps mts,
        zip_with (fun p mt => xorb (snd p) (mt_b mt)) ps mts).
Proof.
  induction ps as [|p ps IH]; intros mts rest H; simpl; auto.
  destruct mts as [|mt mts]; simpl in H; [lia|].
  simpl. fold (flat_pairs ps). rewrite IH by lia. reflexivity.
Qed.

Lemma zip_with_prefix {A B C} (f : A -> B -> C) xs ys :
  zip_with f xs ys = zip_with f xs (firstn (length xs) ys).
Proof. revert ys; induction xs; destruct ys; simpl; auto. f_equal; auto. Qed.

Lemma bool_eval_loop_pad party ms : forall d e rd re pd pe prd pre,
  length d = length ms -> length e = length ms -> length rd = length ms ->
  length re = length ms ->
  bool_eval_loop party (d ++ pd) (e ++ pe) (rd ++ prd) (re ++ pre) ms =
  bool_eval_loop party d e rd re ms.
Proof.
  induction ms; intros d e rd re pd pe prd pre; destruct d, e, rd, re; simpl; intros;
    try discriminate; auto.
  - destruct pd, pe, prd, pre; auto.
  - f_equal. apply IHms; auto.
Qed.

(** The Beaver identity for one gate. *)
Lemma and_evaluate_ok x0 y0 x1 y1 m0 m1 : triple_ok m0 m1 ->
  let d0 := xorb x0 (mt_a m0) in let e0 := xorb y0 (mt_b m0) in
  let d1 := xorb x1 (mt_a m1) in let e1 := xorb y1 (mt_b m1) in
  xorb (and_evaluate d0 d1 e0 e1 m0 0) (and_evaluate d1 d0 e1 e0 m1 1)
  = andb (xorb x0 x1) (xorb y0 y1).
Proof.
  destruct m0 as [a0 b0 c0], m1 as [a1 b1 c1]. unfold triple_ok, and_evaluate; simpl.
  destruct x0, y0, x1, y1, a0, b0, c0, a1, b1, c1; simpl; intros H; congruence.
Qed.

Lemma bool_eval_loop_ok ps0 : forall ps1 ms0 ms1,
  length ps1 = length ps0 -> length ms0 = length ps0 ->
  triples_ok ms0 ms1 ->
  let d p m := zip_with (fun p mt => xorb (fst p) (mt_a mt)) p m in
  let e p m := zip_with (fun p mt => xorb (snd p) (mt_b mt)) p m in
  bits_xor (bool_eval_loop 0 (d ps0 ms0) (e ps0 ms0) (d ps1 ms1) (e ps1 ms1) ms0)
           (bool_eval_loop 1 (d ps1 ms1) (e ps1 ms1) (d ps0 ms0) (e ps0 ms0) ms1)
  = and_of_pairs ps0 ps1.
Proof.
  induction ps0 as [|p0 ps0 IH]; intros [|p1 ps1] ms0 ms1 H1 H2 Hok; simpl in *; try discriminate.
  - reflexivity.
  - destruct Hok as [|m0 m1 ms0 ms1 Hm Hms]; simpl in *; [discriminate|].
    unfold bits_xor, and_of_pairs in *. cbn [zip_with]. f_equal.
    + apply (and_evaluate_ok (fst p0) (snd p0) (fst p1) (snd p1) m0 m1 Hm).
    + apply IH; auto; congruence.
Qed.

Lemma bool_eval_loop_length party d e rd re ms :
  length (bool_eval_loop party d e rd re ms) =
  Nat.min (length d) (Nat.min (length e) (Nat.min (length rd) (Nat.min (length re) (length ms)))).
Proof.
  revert d e rd re; induction ms; intros d e rd re; destruct d, e, rd, re; simpl; auto; lia.
Qed.

Lemma Forall2_firstn {A B} (R : A -> B -> Prop) n l1 l2 :
  Forall2 R l1 l2 -> Forall2 R (firstn n l1) (firstn n l2).
Proof.
  intros H; revert n; induction H; intros [|n]; simpl; constructor; auto.
Qed.

Lemma Forall2_skipn {A B} (R : A -> B -> Prop) n l1 l2 :
  Forall2 R l1 l2 -> Forall2 R (skipn n l1) (skipn n l2).
Proof.
  intros H; revert n; induction H; intros [|n]; simpl; auto.
Qed.

Lemma Forall2_rev {A B} (R : A -> B -> Prop) l1 l2 :
  Forall2 R l1 l2 -> Forall2 R (rev l1) (rev l2).
Proof. intros H; induction H; simpl; auto. apply Forall2_app; auto. Qed.

(** One party's message for a scalar layer. *)
Definition scalar_msg (W : nat) (ps : list (bool * bool)) (ms : list triple) : bmsg :=
  let d := zip_with (fun p mt => xorb (fst p) (mt_a mt)) ps ms in
  let e := zip_with (fun p mt => xorb (snd p) (mt_b mt)) ps ms in
  BMsg (length e) (bv_raw (bv_of_bits W e)) (bv_raw (bv_of_bits W d)).

Lemma bool_compute_msg_spec W h m T party outs ps :
  mts_wf W h m T -> length ps <= m ->
  bool_compute_msg W party (repeat BAnd (length ps)) outs (flat_pairs ps) T
  = Some (scalar_msg W ps (rev (lastn (length ps) (mts_iter T))), T).
Proof.
  intros Hwf Hle. unfold bool_compute_msg.
  pose proof (mts_iter_length _ _ _ _ Hwf) as HL.
  pose proof (bool_msg_loop_spec ps (rev (mts_iter T)) []) as HM.
  rewrite app_nil_r in HM. rewrite HM by (rewrite rev_length; lia). cbn [obind].
  unfold scalar_msg, bv_into_vec, lastn. rewrite <- firstn_rev.
  rewrite (zip_with_prefix (fun p mt => xorb (fst p) (mt_a mt)) ps (rev (mts_iter T))).
  rewrite (zip_with_prefix (fun p mt => xorb (snd p) (mt_b mt)) ps (rev (mts_iter T))).
  reflexivity.
Qed.

Theorem bool_scalar_layer W ps0 ps1 n m h0 h1 T0 T1 outs0 outs1 :
  0 < W -> length ps0 = n -> length ps1 = n -> n <= m ->
  mts_wf W h0 m T0 -> mts_wf W h1 m T1 ->
  triples_ok (mts_iter T0) (mts_iter T1) ->
  exists m0 m1 o0 o1 R0 R1,
    bool_compute_msg W 0 (repeat BAnd n) outs0 (flat_pairs ps0) T0 = Some (m0, T0) /\
    bool_compute_msg W 1 (repeat BAnd n) outs1 (flat_pairs ps1) T1 = Some (m1, T1) /\
    bool_eval_int W 0 (repeat BAnd n) outs0 m0 m1 T0 = Some (o0, R0) /\
    bool_eval_int W 1 (repeat BAnd n) outs1 m1 m0 T1 = Some (o1, R1) /\
    length o0 = n /\ length o1 = n /\
    bits_xor o0 o1 = and_of_pairs ps0 ps1 /\
    mts_wf W h0 (m - n) R0 /\ mts_wf W h1 (m - n) R1 /\
    mts_iter R0 = firstn (m - n) (mts_iter T0) /\
    mts_iter R1 = firstn (m - n) (mts_iter T1).
Proof.
  intros HW L0 L1 Hnm W0 W1 Hok.
  pose proof (mts_iter_length _ _ _ _ W0) as ML0.
  pose proof (mts_iter_length _ _ _ _ W1) as ML1.
  destruct (mts_split_off_last_spec W h0 m T0 n HW W0 Hnm)
    as (R0 & U0 & S0 & WR0 & WU0 & IR0 & IU0 & _).
  destruct (mts_split_off_last_spec W h1 m T1 n HW W1 Hnm)
    as (R1 & U1 & S1 & WR1 & WU1 & IR1 & IU1 & _).
  pose proof (bool_compute_msg_spec W h0 m T0 0 outs0 ps0 W0 ltac:(lia)) as C0.
  pose proof (bool_compute_msg_spec W h1 m T1 1 outs1 ps1 W1 ltac:(lia)) as C1.
  rewrite L0 in C0. rewrite L1 in C1.
  set (ms0 := rev (lastn n (mts_iter T0))) in *.
  set (ms1 := rev (lastn n (mts_iter T1))) in *.
  assert (Lm0 : length ms0 = n) by (unfold ms0, lastn; rewrite rev_length, skipn_length; lia).
  assert (Lm1 : length ms1 = n) by (unfold ms1, lastn; rewrite rev_length, skipn_length; lia).
  assert (Hms : triples_ok ms0 ms1).
  { apply Forall2_rev. unfold lastn. rewrite ML0, ML1. apply Forall2_skipn; auto. }
  assert (E0 : bool_eval_int W 0 (repeat BAnd n) outs0 (scalar_msg W ps0 ms0) (scalar_msg W ps1 ms1) T0
     = Some (bool_eval_loop 0
        (zip_with (fun p mt => xorb (fst p) (mt_a mt)) ps0 ms0)
        (zip_with (fun p mt => xorb (snd p) (mt_b mt)) ps0 ms0)
        (zip_with (fun p mt => xorb (fst p) (mt_a mt)) ps1 ms1)
        (zip_with (fun p mt => xorb (snd p) (mt_b mt)) ps1 ms1) ms0, R0)).
  { unfold bool_eval_int, scalar_msg. cbn [bm_size bm_d bm_e].
    rewrite !zip_with_length, L0, L1, Lm0, Lm1, Nat.min_id, Nat.eqb_refl. cbn [oassert obind].
    rewrite S0. cbn [obind]. f_equal. f_equal.
    rewrite !bv_from_vec_bits, !bv_of_bits_raw by auto.
    replace (rev (mts_iter U0)) with ms0 by (unfold ms0, lastn; rewrite IU0, ML0; auto).
    apply bool_eval_loop_pad; rewrite zip_with_length; lia. }
  assert (E1 : bool_eval_int W 1 (repeat BAnd n) outs1 (scalar_msg W ps1 ms1) (scalar_msg W ps0 ms0) T1
     = Some (bool_eval_loop 1
        (zip_with (fun p mt => xorb (fst p) (mt_a mt)) ps1 ms1)
        (zip_with (fun p mt => xorb (snd p) (mt_b mt)) ps1 ms1)
        (zip_with (fun p mt => xorb (fst p) (mt_a mt)) ps0 ms0)
        (zip_with (fun p mt => xorb (snd p) (mt_b mt)) ps0 ms0) ms1, R1)).
  { unfold bool_eval_int, scalar_msg. cbn [bm_size bm_d bm_e].
    rewrite !zip_with_length, L0, L1, Lm0, Lm1, Nat.min_id, Nat.eqb_refl. cbn [oassert obind].
    rewrite S1. cbn [obind]. f_equal. f_equal.
    rewrite !bv_from_vec_bits, !bv_of_bits_raw by auto.
    replace (rev (mts_iter U1)) with ms1 by (unfold ms1, lastn; rewrite IU1, ML1; auto).
    apply bool_eval_loop_pad; rewrite zip_with_length; lia. }
  eexists _, _, _, _, R0, R1.
  split; [exact C0|]. split; [exact C1|]. split; [exact E0|]. split; [exact E1|].
  repeat split; try assumption; try (apply WR0); try (apply WR1).
  - rewrite bool_eval_loop_length, !zip_with_length. lia.
  - rewrite bool_eval_loop_length, !zip_with_length. lia.
  - apply bool_eval_loop_ok; auto; lia.
Qed.

(** ** SIMD layers *)

Definition simd_d (ps : list (bitvec * bitvec)) : list bool := flat_map (fun p => bv_bits (snd p)) ps.
Definition simd_e (ps : list (bitvec * bitvec)) : list bool := flat_map (fun p => bv_bits (fst p)) ps.

Lemma bool_simd_chunks_spec W ps : simd_pairs_ok W ps ->
  bool_simd_chunks (flat_pairs ps) = Some (simd_sizes ps, simd_d ps, simd_e ps).
Proof.
  induction 1 as [|p ps (H1 & H2 & H3) _ IH]; auto.
  rewrite flat_pairs_cons. cbn [bool_simd_chunks]. rewrite H3, Nat.eqb_refl.
  cbn [oassert obind]. rewrite IH. cbn [obind]. unfold simd_sizes; simpl. rewrite H3. reflexivity.
Qed.

Lemma simd_d_length W ps : simd_pairs_ok W ps -> length (simd_d ps) = sum_list (simd_sizes ps).
Proof.
  induction 1 as [|p ps (H1 & H2 & H3) _ IH]; simpl; auto.
  rewrite app_length, IH, (bv_bits_length W), H3; auto.
Qed.

Lemma simd_e_length W ps : simd_pairs_ok W ps -> length (simd_e ps) = sum_list (simd_sizes ps).
Proof.
  induction 1 as [|p ps (H1 & H2 & H3) _ IH]; simpl; auto.
  rewrite app_length, IH, (bv_bits_length W); auto.
Qed.

Lemma bv_words_head_mono W h n : 0 < W -> bv_words W 0 n <= bv_words W h n.
Proof.
  intros HW. unfold bv_words. destruct (Nat.eqb_spec n 0); try lia.
  apply Nat.div_le_mono; lia.
Qed.

Lemma bv_words_mult W k : 0 < W -> bv_words W 0 (W * k) = k.
Proof.
  intros HW. unfold bv_words. destruct (Nat.eqb_spec (W * k) 0).
  - destruct k; [reflexivity|nia].
  - symmetry. apply (Nat.div_unique _ _ k (W - 1)); lia.
Qed.

Definition pwords (W : nat) (l : list bool) : list bool := bv_raw (bv_of_bits W l).

(** One party's SIMD message. *)
Definition simd_msg (W : nat) (ps : list (bitvec * bitvec)) (u : mul_triples) : bsimdmsg :=
  BSimdMsg (BMsg 0 (raw_zip xorb (pwords W (simd_e ps)) (bv_raw (ts_b u)))
                   (raw_zip xorb (pwords W (simd_d ps)) (bv_raw (ts_a u)))) (simd_sizes ps).

Lemma bool_compute_msg_simd_spec W h m T party gates outs ps U R :
  0 < W -> mts_wf W h m T -> simd_pairs_ok W ps -> sum_list (simd_sizes ps) <= m ->
  mts_split_off_last W T (sum_list (simd_sizes ps)) = Some (R, U) ->
  ts_a U = bv_slice_from W (ts_a T) (m - sum_list (simd_sizes ps)) ->
  ts_b U = bv_slice_from W (ts_b T) (m - sum_list (simd_sizes ps)) ->
  bool_compute_msg_simd W party gates outs (flat_pairs ps) T = Some (simd_msg W ps U, T).
Proof.
  intros HW Hwf Hps Hle HS HA HB. unfold bool_compute_msg_simd.
  rewrite (bool_simd_chunks_spec W) by auto. cbn [obind].
  destruct Hwf as (_ & _ & _ & _ & _ & _ & La & _ & _).
  unfold mts_len. rewrite La.
  replace (bv_len (bv_of_bits W (simd_d ps))) with (sum_list (simd_sizes ps))
    by (symmetry; apply (simd_d_length W); auto).
  destruct (Nat.leb_spec (sum_list (simd_sizes ps)) m); [|lia]. cbn [oassert obind].
  unfold simd_msg, pwords, fast_bit_xor, bv_into_vec; cbn [bv_raw].
  rewrite HA, HB. reflexivity.
Qed.

(** Raw content of the used triples at word position [i]. *)
Lemma used_raw_length W h N u : 0 < W -> mts_wf W h N u ->
  W * bv_words W 0 N <= length (bv_raw (ts_a u)) /\
  W * bv_words W 0 N <= length (bv_raw (ts_b u)) /\
  W * bv_words W 0 N <= length (bv_raw (ts_c u)).
Proof.
  intros HW ((_ & Ha) & (_ & Hb) & (_ & Hc) & Ea & Eb & Ec & La & Lb & Lc).
  rewrite Ha, Hb, Hc, Ea, Eb, Ec, La, Lb, Lc.
  pose proof (bv_words_head_mono W h N HW). nia.
Qed.

(** Raw triples at the same word position belong together (possibly the
    all-zero triple before the head offset). *)
Definition raw_triple (u : mul_triples) (i : nat) : triple :=
  MT (nth i (bv_raw (ts_a u)) false) (nth i (bv_raw (ts_b u)) false) (nth i (bv_raw (ts_c u)) false).

Lemma slice_from_raw W v from i : 0 < W ->
  let h := (bv_head v + from) mod W in
  let l := skipn from (bv_bits v) in
  i < W * bv_words W 0 (length l) ->
  nth i (bv_raw (bv_slice_from W v from)) false = if i <? h then false else nth (i - h) l false.
Proof.
  intros HW h l Hi. unfold bv_slice_from. fold h l. apply bv_copy_raw_nth.
  pose proof (bv_words_head_mono W h (length l) HW). nia.
Qed.

Lemma raw_triple_ok W h m T0 T1 n i :
  0 < W -> mts_wf W h m T0 -> mts_wf W h m T1 -> n <= m ->
  triples_ok (mts_iter T0) (mts_iter T1) ->
  forall U0 U1,
  ts_a U0 = bv_slice_from W (ts_a T0) (m - n) -> ts_b U0 = bv_slice_from W (ts_b T0) (m - n) ->
  ts_c U0 = bv_slice_from W (ts_c T0) (m - n) ->
  ts_a U1 = bv_slice_from W (ts_a T1) (m - n) -> ts_b U1 = bv_slice_from W (ts_b T1) (m - n) ->
  ts_c U1 = bv_slice_from W (ts_c T1) (m - n) ->
  i < W * bv_words W 0 n ->
  triple_ok (raw_triple U0 i) (raw_triple U1 i).
Proof.
  intros HW W0 W1 Hn Hok U0 U1 A0 B0 C0 A1 B1 C1 Hi.
  pose proof W0 as (a0 & b0 & c0 & ha0 & hb0 & hc0 & la0 & lb0 & lc0).
  pose proof W1 as (a1 & b1 & c1 & ha1 & hb1 & hc1 & la1 & lb1 & lc1).
  unfold raw_triple. rewrite A0, B0, C0, A1, B1, C1.
  assert (G : forall v, bv_wf W v -> bv_head v = h -> bv_len v = m ->
     nth i (bv_raw (bv_slice_from W v (m - n))) false =
     if i <? (h + (m - n)) mod W then false
     else nth (m - n + (i - (h + (m - n)) mod W)) (bv_bits v) false).
  { intros v Hv Hh Hl.
    assert (length (skipn (m - n) (bv_bits v)) = n)
      by (rewrite skipn_length, (bv_bits_length W); auto; lia).
    rewrite slice_from_raw; auto; [|rewrite H; auto].
    rewrite Hh. destruct (i <? (h + (m - n)) mod W); auto. apply nth_skipn. }
  rewrite !G by auto.
  destruct (i <? (h + (m - n)) mod W); [reflexivity|].
  set (j := m - n + (i - (h + (m - n)) mod W)).
  destruct (lt_dec j m) as [Hj|Hj].
  - rewrite <- (mts_iter_nth W h m T0 j W0 Hj), <- (mts_iter_nth W h m T1 j W1 Hj).
    pose proof (mts_iter_length _ _ _ _ W0) as L0.
    assert (Hj' : j < length (mts_iter T0)) by lia. clear - Hok Hj'.
    revert Hj'. generalize j as k.
    induction Hok; simpl; intros k Hk; [lia|]. destruct k; auto. apply IHHok; lia.
  - rewrite !nth_overflow by (rewrite (bv_bits_length W); auto; lia). reflexivity.
Qed.

(** Result vector before it is cut. *)
Definition simd_res (W party : nat) (total : nat) (d e : bitvec) (u : mul_triples) : bitvec :=
  let res := match party with
             | 0 => fast_bit_and (bv_clone W d) e
             | _ => bv_of_bits W (repeat false total)
             end in
  fast_bit_xor (fast_bit_xor (fast_bit_xor res (fast_bit_and d (ts_b u)))
                             (fast_bit_and e (ts_a u))) (ts_c u).

Lemma simd_res_nth W party N d e u i :
  0 < W -> i < W * bv_words W 0 N ->
  bv_head d = 0 -> bv_len d = W * bv_words W 0 N -> length (bv_raw d) = W * bv_words W 0 N ->
  bv_head e = 0 -> length (bv_raw e) = W * bv_words W 0 N ->
  W * bv_words W 0 N <= length (bv_raw (ts_a u)) ->
  W * bv_words W 0 N <= length (bv_raw (ts_b u)) ->
  W * bv_words W 0 N <= length (bv_raw (ts_c u)) ->
  nth i (bv_raw (simd_res W party N d e u)) false =
  let di := nth i (bv_raw d) false in
  let ei := nth i (bv_raw e) false in
  let t := raw_triple u i in
  xorb (xorb (xorb (match party with 0 => andb di ei | _ => false end)
                   (andb di (mt_b t))) (andb ei (mt_a t))) (mt_c t).
Proof.
  intros HW Hi Hd Hdl Hdr He Her Ha Hb Hc.
  assert (Hclone : bv_raw (bv_clone W d) = bv_raw d).
  { unfold bv_clone. rewrite Hd.
    assert (HB : bv_bits d = bv_raw d).
    { unfold bv_bits. rewrite Hd, Hdl. simpl. rewrite <- Hdr. apply firstn_all. }
    rewrite HB. change (bv_copy W 0 (bv_raw d)) with (bv_of_bits W (bv_raw d)).
    rewrite bv_of_bits_raw by auto. rewrite Hdr, bv_words_mult by auto.
    rewrite Nat.sub_diag. apply app_nil_r. }
  assert (Hz : length (bv_raw (bv_of_bits W (repeat false N))) = W * bv_words W 0 N).
  { unfold bv_of_bits, bv_copy; cbn [bv_raw]. rewrite pad_words_length, repeat_length. reflexivity. }
  unfold simd_res. cbn zeta.
  set (res := match party with 0 => fast_bit_and (bv_clone W d) e
                             | S _ => bv_of_bits W (repeat false N) end).
  assert (Hrl : length (bv_raw res) = W * bv_words W 0 N).
  { unfold res. destruct party; auto. cbn [fast_bit_and bv_raw]. rewrite raw_zip_length, Hclone. auto. }
  cbn [fast_bit_xor fast_bit_and bv_raw].
  rewrite !raw_zip_nth; rewrite ?raw_zip_length; try lia.
  unfold raw_triple; cbn [mt_a mt_b mt_c].
  f_equal. f_equal. f_equal.
  unfold res. destruct party; cbn [fast_bit_and bv_raw].
  - rewrite raw_zip_nth by (rewrite ?Hclone; lia). rewrite Hclone. reflexivity.
  - rewrite bv_of_bits_raw by auto.
    destruct (lt_dec i N).
    + rewrite app_nth1 by (rewrite repeat_length; auto). apply nth_repeat_any.
    + rewrite app_nth2 by (rewrite repeat_length; lia). apply nth_repeat_any.
Qed.

Lemma pwords_nth W l i : 0 < W -> i < W * bv_words W 0 (length l) ->
  nth i (pwords W l) false = nth i l false.
Proof.
  intros HW Hi. unfold pwords, bv_of_bits. rewrite bv_copy_raw_nth by auto.
  simpl. f_equal. lia.
Qed.

Lemma pwords_length W l : length (pwords W l) = W * bv_words W 0 (length l).
Proof. unfold pwords, bv_of_bits, bv_copy; cbn [bv_raw]. apply pad_words_length. Qed.

(** Cutting two result vectors whose XOR is known. *)
Lemma bool_cut_spec W res : forall sizes off, 0 < W -> bv_wf W res ->
  off + sum_list sizes <= bv_len res ->
  exists outs, bool_cut W res off sizes = Some outs /\ length outs = length sizes /\
    forall j, j < length sizes ->
      let o := nth j outs (BV 0 0 []) in
      let n := nth j sizes 0 in
      let k := off + sum_list (firstn j sizes) in
      bv_wf W o /\ bv_len o = n /\ bv_head o = (bv_head res + k) mod W /\
      bv_bits o = firstn n (skipn k (bv_bits res)).
Proof.
  induction sizes as [|n ns IH]; intros off HW Hwf Hle; simpl in *.
  - exists []. split; [reflexivity|split; [reflexivity|]]. intros; lia.
  - destruct (Nat.leb_spec (off + n) (bv_len res)); [|lia]. cbn [oassert obind].
    destruct (IH (off + n) HW Hwf ltac:(lia)) as (outs & -> & HL & HO).
    cbn [obind]. eexists; split; [reflexivity|]. split; [simpl; congruence|].
    intros [|j] Hj.
    + simpl. rewrite Nat.add_0_r. repeat split.
      * apply Nat.mod_upper_bound; lia.
      * unfold bv_slice_range, bv_copy; cbn [bv_raw bv_len bv_head]. rewrite pad_words_length. auto.
      * simpl. rewrite firstn_length, skipn_length, (bv_bits_length W) by auto. lia.
      * apply bv_copy_bits; auto.
    + specialize (HO j ltac:(lia)). simpl in *.
      replace (off + (n + sum_list (firstn j ns))) with (off + n + sum_list (firstn j ns)) by lia.
      exact HO.
Qed.

Lemma list_nat_eqb_refl l : list_nat_eqb l l = true.
Proof. induction l; simpl; auto. rewrite Nat.eqb_refl; auto. Qed.

Lemma list_nat_eqb_eq a b : list_nat_eqb a b = true -> a = b.
Proof.
  revert b; induction a; destruct b; simpl; intros H; try discriminate; auto.
  apply andb_true_iff in H as [H1 H2]. apply Nat.eqb_eq in H1. f_equal; auto.
Qed.

(** AND of the shared SIMD operands, gate by gate. *)
Lemma nth_simd_flat (f : bitvec * bitvec -> bitvec) ps j i :
  forall W, Forall (fun p => bv_wf W (f p) /\ bv_len (f p) = bv_len (fst p)) ps ->
  j < length ps -> i < nth j (simd_sizes ps) 0 ->
  nth (sum_list (firstn j (simd_sizes ps)) + i) (flat_map (fun p => bv_bits (f p)) ps) false
  = nth i (bv_bits (f (nth j ps (BV 0 0 [], BV 0 0 [])))) false.
Proof.
  intros W H. revert j; induction H as [|p ps [H1 H2] H IH]; intros j Hj Hi; simpl in *; [lia|].
  destruct j; simpl in *.
  - rewrite app_nth1; auto. rewrite (bv_bits_length W); auto; lia.
  - rewrite app_nth2; rewrite (bv_bits_length W) by auto; [|lia].
    rewrite <- IH by (auto; lia). f_equal. lia.
Qed.

Lemma simd_pairs_ok_fst W ps : simd_pairs_ok W ps ->
  Forall (fun p => bv_wf W (fst p) /\ bv_len (fst p) = bv_len (fst p)) ps.
Proof. intros H. eapply Forall_impl; [|exact H]. intros p (A & B & C); auto. Qed.

Lemma simd_pairs_ok_snd W ps : simd_pairs_ok W ps ->
  Forall (fun p => bv_wf W (snd p) /\ bv_len (snd p) = bv_len (fst p)) ps.
Proof. intros H. eapply Forall_impl; [|exact H]. intros p (A & B & C); auto. Qed.

Lemma sum_firstn_nth sizes j : j < length sizes ->
  sum_list (firstn j sizes) + nth j sizes 0 <= sum_list sizes.
Proof.
  revert j; induction sizes; simpl; intros j Hj; [lia|].
  destruct j; simpl; [lia|]. specialize (IHsizes j ltac:(lia)). lia.
Qed.

Lemma simd_res_wf W party N d e u : 0 < W ->
  bv_wf W d -> bv_head d = 0 -> bv_wf W (simd_res W party N d e u).
Proof.
  intros HW Hd H0. unfold simd_res. cbn zeta. repeat apply fast_bit_xor_wf.
  destruct party.
  - apply fast_bit_and_wf. unfold bv_clone. apply bv_copy_wf. rewrite H0; auto.
  - apply bv_copy_wf; auto.
Qed.

Lemma words_N_le W N : 0 < W -> N <= W * bv_words W 0 N.
Proof.
  intros HW. destruct (Nat.eq_dec N 0); [lia|].
  pose proof (bv_words_ge W 0 N HW n). lia.
Qed.

(** The XOR of the two uncut result vectors at a live position. *)
Lemma simd_res_xor W h m T0 T1 U0 U1 N D0 E0 D1 E1 i :
  0 < W -> mts_wf W h m T0 -> mts_wf W h m T1 -> N <= m ->
  triples_ok (mts_iter T0) (mts_iter T1) ->
  ts_a U0 = bv_slice_from W (ts_a T0) (m - N) -> ts_b U0 = bv_slice_from W (ts_b T0) (m - N) ->
  ts_c U0 = bv_slice_from W (ts_c T0) (m - N) ->
  ts_a U1 = bv_slice_from W (ts_a T1) (m - N) -> ts_b U1 = bv_slice_from W (ts_b T1) (m - N) ->
  ts_c U1 = bv_slice_from W (ts_c T1) (m - N) ->
  mts_wf W ((h + (m - N)) mod W) N U0 -> mts_wf W ((h + (m - N)) mod W) N U1 ->
  length D0 = N -> length E0 = N -> length D1 = N -> length E1 = N ->
  i < N ->
  let d0 := bv_from_vec (raw_zip xorb (pwords W D0) (bv_raw (ts_a U0))) in
  let e0 := bv_from_vec (raw_zip xorb (pwords W E0) (bv_raw (ts_b U0))) in
  let d1 := bv_from_vec (raw_zip xorb (pwords W D1) (bv_raw (ts_a U1))) in
  let e1 := bv_from_vec (raw_zip xorb (pwords W E1) (bv_raw (ts_b U1))) in
  xorb (nth i (bv_bits (simd_res W 0 N (fast_bit_xor d0 d1) (fast_bit_xor e0 e1) U0)) false)
       (nth i (bv_bits (simd_res W 1 N (fast_bit_xor d1 d0) (fast_bit_xor e1 e0) U1)) false)
  = andb (xorb (nth i E0 false) (nth i E1 false)) (xorb (nth i D0 false) (nth i D1 false)).
Proof.
  intros HW W0 W1 HN Hok A0 B0 C0 A1 B1 C1 WU0 WU1 LD0 LE0 LD1 LE1 Hi d0 e0 d1 e1.
  pose proof (words_N_le W N HW) as HNW.
  destruct (used_raw_length W _ N U0 HW WU0) as (RA0 & RB0 & RC0).
  destruct (used_raw_length W _ N U1 HW WU1) as (RA1 & RB1 & RC1).
  pose proof (pwords_length W D0) as PD0. rewrite LD0 in PD0.
  pose proof (pwords_length W D1) as PD1. rewrite LD1 in PD1.
  pose proof (pwords_length W E0) as PE0. rewrite LE0 in PE0.
  pose proof (pwords_length W E1) as PE1. rewrite LE1 in PE1.
  rewrite bv_bits_nth by (simpl; rewrite ?raw_zip_length, ?PD0, ?repeat_length,
     ?(firstn_all2 (n := bv_len _)); try lia;
     unfold bv_bits; simpl; rewrite firstn_length, !raw_zip_length, PD0; lia).
  rewrite bv_bits_nth by (simpl; rewrite ?raw_zip_length, ?PD1, ?repeat_length; lia).
  replace (bv_head (simd_res W 0 N (fast_bit_xor d0 d1) (fast_bit_xor e0 e1) U0)) with 0 by reflexivity.
  replace (bv_head (simd_res W 1 N (fast_bit_xor d1 d0) (fast_bit_xor e1 e0) U1)) with 0 by reflexivity.
  simpl (0 + i).
  rewrite !simd_res_nth; auto; try lia;
    try (subst d0 e0 d1 e1; cbn [fast_bit_xor bv_from_vec bv_raw bv_len bv_head];
         rewrite ?raw_zip_length; lia).
  pose proof (raw_triple_ok W h m T0 T1 N i HW W0 W1 HN Hok U0 U1 A0 B0 C0 A1 B1 C1 ltac:(lia)) as HT.
  assert (X0 : nth i (bv_raw (fast_bit_xor d0 d1)) false =
     xorb (xorb (nth i D0 false) (mt_a (raw_triple U0 i))) (xorb (nth i D1 false) (mt_a (raw_triple U1 i)))).
  { subst d0 d1. cbn [fast_bit_xor bv_from_vec bv_raw].
    rewrite !raw_zip_nth by (rewrite ?raw_zip_length; lia).
    rewrite !pwords_nth by (rewrite ?LD0, ?LD1; auto; lia). reflexivity. }
  assert (X1 : nth i (bv_raw (fast_bit_xor d1 d0)) false =
     xorb (xorb (nth i D1 false) (mt_a (raw_triple U1 i))) (xorb (nth i D0 false) (mt_a (raw_triple U0 i)))).
  { subst d0 d1. cbn [fast_bit_xor bv_from_vec bv_raw].
    rewrite !raw_zip_nth by (rewrite ?raw_zip_length; lia).
    rewrite !pwords_nth by (rewrite ?LD0, ?LD1; auto; lia). reflexivity. }
  assert (Y0 : nth i (bv_raw (fast_bit_xor e0 e1)) false =
     xorb (xorb (nth i E0 false) (mt_b (raw_triple U0 i))) (xorb (nth i E1 false) (mt_b (raw_triple U1 i)))).
  { subst e0 e1. cbn [fast_bit_xor bv_from_vec bv_raw].
    rewrite !raw_zip_nth by (rewrite ?raw_zip_length; lia).
    rewrite !pwords_nth by (rewrite ?LE0, ?LE1; auto; lia). reflexivity. }
  assert (Y1 : nth i (bv_raw (fast_bit_xor e1 e0)) false =
     xorb (xorb (nth i E1 false) (mt_b (raw_triple U1 i))) (xorb (nth i E0 false) (mt_b (raw_triple U0 i)))).
  { subst e0 e1. cbn [fast_bit_xor bv_from_vec bv_raw].
    rewrite !raw_zip_nth by (rewrite ?raw_zip_length; lia).
    rewrite !pwords_nth by (rewrite ?LE0, ?LE1; auto; lia). reflexivity. }
  cbn zeta. rewrite X0, X1, Y0, Y1. clear - HT.
  destruct (raw_triple U0 i) as [a0 b0 c0], (raw_triple U1 i) as [a1 b1 c1].
  unfold triple_ok in HT; simpl in *.
  destruct (nth i D0 false), (nth i D1 false), (nth i E0 false), (nth i E1 false),
    a0, b0, a1, b1, c0, c1; simpl in *; congruence.
Qed.

Theorem bool_simd_layer W ps0 ps1 m h T0 T1 g0 g1 outs0 outs1 :
  0 < W -> simd_pairs_ok W ps0 -> simd_pairs_ok W ps1 ->
  simd_sizes ps0 = simd_sizes ps1 ->
  let N := sum_list (simd_sizes ps0) in
  N <= m -> mts_wf W h m T0 -> mts_wf W h m T1 ->
  triples_ok (mts_iter T0) (mts_iter T1) ->
  exists m0 m1 o0 o1 R0 R1,
    bool_compute_msg_simd W 0 g0 outs0 (flat_pairs ps0) T0 = Some (m0, T0) /\
    bool_compute_msg_simd W 1 g1 outs1 (flat_pairs ps1) T1 = Some (m1, T1) /\
    bool_eval_int_simd W 0 g0 outs0 m0 m1 T0 = Some (o0, R0) /\
    bool_eval_int_simd W 1 g1 outs1 m1 m0 T1 = Some (o1, R1) /\
    length o0 = length ps0 /\ length o1 = length ps0 /\
    (forall j, j < length ps0 ->
      let q0 := nth j o0 bv0 in let q1 := nth j o1 bv0 in
      bv_wf W q0 /\ bv_wf W q1 /\
      bv_len q0 = nth j (simd_sizes ps0) 0 /\ bv_len q1 = nth j (simd_sizes ps0) 0 /\
      bv_head q0 = sum_list (firstn j (simd_sizes ps0)) mod W /\
      bv_head q1 = sum_list (firstn j (simd_sizes ps0)) mod W /\
      bits_xor (bv_bits q0) (bv_bits q1) = simd_and (nth j ps0 (bv0, bv0)) (nth j ps1 (bv0, bv0))) /\
    mts_wf W h (m - N) R0 /\ mts_wf W h (m - N) R1 /\
    mts_iter R0 = firstn (m - N) (mts_iter T0) /\
    mts_iter R1 = firstn (m - N) (mts_iter T1).
Proof.
  intros HW P0 P1 HS N HN W0 W1 Hok.
  assert (LP : length ps1 = length ps0).
  { unfold simd_sizes in HS. apply (f_equal (@length nat)) in HS. rewrite !map_length in HS. auto. }
  assert (HS1 : sum_list (simd_sizes ps1) = N) by (unfold N; rewrite HS; auto).
  destruct (mts_split_off_last_spec W h m T0 N HW W0 HN)
    as (R0 & U0 & S0 & WR0 & WU0 & IR0 & IU0 & A0 & B0 & C0).
  destruct (mts_split_off_last_spec W h m T1 N HW W1 HN)
    as (R1 & U1 & S1 & WR1 & WU1 & IR1 & IU1 & A1 & B1 & C1).
  pose proof (bool_compute_msg_simd_spec W h m T0 0 g0 outs0 ps0 U0 R0 HW W0 P0 HN S0 A0 B0) as M0.
  assert (M1 : bool_compute_msg_simd W 1 g1 outs1 (flat_pairs ps1) T1 = Some (simd_msg W ps1 U1, T1)).
  { apply (bool_compute_msg_simd_spec W h m T1 1 g1 outs1 ps1 U1 R1); auto; rewrite HS1; auto. }
  set (d0 := bv_from_vec (raw_zip xorb (pwords W (simd_d ps0)) (bv_raw (ts_a U0)))).
  set (e0 := bv_from_vec (raw_zip xorb (pwords W (simd_e ps0)) (bv_raw (ts_b U0)))).
  set (d1 := bv_from_vec (raw_zip xorb (pwords W (simd_d ps1)) (bv_raw (ts_a U1)))).
  set (e1 := bv_from_vec (raw_zip xorb (pwords W (simd_e ps1)) (bv_raw (ts_b U1)))).
  set (r0 := simd_res W 0 N (fast_bit_xor d0 d1) (fast_bit_xor e0 e1) U0).
  set (r1 := simd_res W 1 N (fast_bit_xor d1 d0) (fast_bit_xor e1 e0) U1).
  pose proof (simd_d_length W ps0 P0) as LD0. fold N in LD0.
  pose proof (simd_e_length W ps0 P0) as LE0. fold N in LE0.
  pose proof (simd_d_length W ps1 P1) as LD1. rewrite HS1 in LD1.
  pose proof (simd_e_length W ps1 P1) as LE1. rewrite HS1 in LE1.
  assert (Wd : forall D U, length D = N -> bv_wf W (bv_from_vec (raw_zip xorb (pwords W D) U))).
  { intros D U HD. split; simpl; auto. rewrite raw_zip_length, pwords_length, HD, bv_words_mult; auto. }
  assert (Wr0 : bv_wf W r0).
  { apply simd_res_wf; auto. apply fast_bit_xor_wf. apply Wd; auto. }
  assert (Wr1 : bv_wf W r1).
  { apply simd_res_wf; auto. apply fast_bit_xor_wf. apply Wd; auto. }
  assert (Lr0 : N <= bv_len r0).
  { unfold r0, simd_res, bv_clone, bv_copy. cbn [fast_bit_xor fast_bit_and bv_len].
    rewrite (bv_bits_length W).
    - unfold d0. cbn [fast_bit_xor bv_from_vec bv_len]. rewrite raw_zip_length, pwords_length, LD0.
      apply words_N_le; auto.
    - apply fast_bit_xor_wf. apply Wd; auto. }
  assert (Lr1 : N <= bv_len r1).
  { unfold r1, simd_res, bv_of_bits, bv_copy. cbn [fast_bit_xor fast_bit_and bv_len].
    rewrite repeat_length. auto. }
  destruct (bool_cut_spec W r0 (simd_sizes ps0) 0 HW Wr0 Lr0) as (o0 & K0 & LO0 & Q0).
  assert (Lr1' : 0 + sum_list (simd_sizes ps1) <= bv_len r1) by (rewrite HS1; auto).
  destruct (bool_cut_spec W r1 (simd_sizes ps1) 0 HW Wr1 Lr1') as (o1 & K1 & LO1 & Q1).
  assert (V0 : bool_eval_int_simd W 0 g0 outs0 (simd_msg W ps0 U0) (simd_msg W ps1 U1) T0 = Some (o0, R0)).
  { unfold bool_eval_int_simd, simd_msg. cbn [bs_data bs_sizes bm_size bm_d bm_e].
    rewrite Nat.eqb_refl, <- HS, list_nat_eqb_refl. cbn [oassert obind].
    fold N. rewrite S0. cbn [obind]. cbn zeta.
    fold d0 e0 d1 e1. unfold r0, simd_res in K0. cbn zeta in K0. rewrite K0. reflexivity. }
  assert (V1 : bool_eval_int_simd W 1 g1 outs1 (simd_msg W ps1 U1) (simd_msg W ps0 U0) T1 = Some (o1, R1)).
  { unfold bool_eval_int_simd, simd_msg. cbn [bs_data bs_sizes bm_size bm_d bm_e].
    rewrite Nat.eqb_refl, <- HS, list_nat_eqb_refl. cbn [oassert obind].
    fold N. rewrite S1. cbn [obind]. cbn zeta.
    fold d0 e0 d1 e1. unfold r1, simd_res in K1. cbn zeta in K1.
    rewrite <- HS in K1. rewrite K1. reflexivity. }
  exists (simd_msg W ps0 U0), (simd_msg W ps1 U1), o0, o1, R0, R1.
  split; [exact M0|]. split; [exact M1|]. split; [exact V0|]. split; [exact V1|].
  assert (LSZ : length (simd_sizes ps0) = length ps0) by (unfold simd_sizes; apply map_length).
  split; [congruence|]. split; [rewrite LO1, <- HS; congruence|].
  split; [|repeat split; auto; try apply WR0; try apply WR1].
  intros j Hj q0 q1.
  specialize (Q0 j ltac:(lia)). specialize (Q1 j ltac:(rewrite <- HS; lia)).
  fold bv0 in Q0, Q1. fold q0 in Q0. fold q1 in Q1. rewrite <- HS in Q1. cbn zeta in Q0, Q1.
  destruct Q0 as (wq0 & lq0 & hq0 & bq0). destruct Q1 as (wq1 & lq1 & hq1 & bq1).
  split; auto. split; auto. split; auto. split; auto.
  split; [rewrite hq0; reflexivity|]. split; [rewrite hq1; reflexivity|].
  pose proof (sum_firstn_nth (simd_sizes ps0) j ltac:(lia)) as HSJ. fold N in HSJ.
  set (n := nth j (simd_sizes ps0) 0) in *. simpl (0 + _) in *.
  set (k := sum_list (firstn j (simd_sizes ps0))) in *.
  pose proof (bv_bits_length W q0 wq0) as Lq0. pose proof (bv_bits_length W q1 wq1) as Lq1.
  assert (PJ0 : In (nth j ps0 (bv0,bv0)) ps0) by (apply nth_In; auto).
  pose proof (proj1 (Forall_forall _ _) P0 _ PJ0) as (X1 & X2 & X3).
  assert (PJ1 : In (nth j ps1 (bv0,bv0)) ps1) by (apply nth_In; lia).
  pose proof (proj1 (Forall_forall _ _) P1 _ PJ1) as (Y1 & Y2 & Y3).
  assert (SZ0 : bv_len (fst (nth j ps0 (bv0,bv0))) = n).
  { unfold n, simd_sizes. rewrite (nth_indep _ 0 ((fun p => bv_len (fst p)) (bv0,bv0))) by (rewrite map_length; auto).
    rewrite (map_nth (fun p => bv_len (fst p))). reflexivity. }
  assert (SZ1 : bv_len (fst (nth j ps1 (bv0,bv0))) = n).
  { unfold n. rewrite HS. unfold simd_sizes.
    rewrite (nth_indep _ 0 ((fun p => bv_len (fst p)) (bv0,bv0))) by (rewrite map_length; lia).
    rewrite (map_nth (fun p => bv_len (fst p))). reflexivity. }
  apply (list_ext false).
  { unfold simd_and, bits_xor, bits_and. rewrite !zip_with_length, Lq0, Lq1.
    rewrite !(bv_bits_length W) by auto. lia. }
  intros i Hi. unfold bits_xor in Hi. rewrite zip_with_length, Lq0, Lq1 in Hi.
  assert (Hi' : i < n) by lia.
  unfold bits_xor. rewrite (zip_with_nth _ _ _ i false false) by lia.
  rewrite bq0, bq1, !nth_firstn, !nth_skipn by auto.
  unfold simd_and, bits_and, bits_xor.
  rewrite (zip_with_nth andb _ _ i false false)
    by (rewrite zip_with_length, !(bv_bits_length W) by auto; lia).
  rewrite !(zip_with_nth xorb _ _ i false false) by (rewrite (bv_bits_length W) by auto; lia).
  pose proof (simd_res_xor W h m T0 T1 U0 U1 N (simd_d ps0) (simd_e ps0) (simd_d ps1) (simd_e ps1)
    (k + i) HW W0 W1 HN Hok A0 B0 C0 A1 B1 C1 WU0 WU1 LD0 LE0 LD1 LE1 ltac:(lia)) as HX.
  cbn zeta in HX. fold d0 e0 d1 e1 in HX. fold r0 r1 in HX. rewrite HX.
  unfold simd_d, simd_e.
  pose proof (nth_simd_flat fst ps0 j i W (simd_pairs_ok_fst W ps0 P0) Hj Hi') as Z1.
  pose proof (nth_simd_flat snd ps0 j i W (simd_pairs_ok_snd W ps0 P0) Hj Hi') as Z2.
  assert (Hj1 : j < length ps1) by lia.
  assert (Hi1 : i < nth j (simd_sizes ps1) 0) by (rewrite <- HS; auto).
  pose proof (nth_simd_flat fst ps1 j i W (simd_pairs_ok_fst W ps1 P1) Hj1 Hi1) as Z3.
  pose proof (nth_simd_flat snd ps1 j i W (simd_pairs_ok_snd W ps1 P1) Hj1 Hi1) as Z4.
  rewrite <- HS in Z3, Z4. fold k in Z1, Z2, Z3, Z4.
  rewrite Z1, Z2, Z3, Z4. reflexivity.
Qed.
