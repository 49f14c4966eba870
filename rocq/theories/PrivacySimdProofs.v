(** Masking of whole boolean GMW executions of SIMD circuits whose lanes fill
    whole words and whose triples start at a word. *)
From Coq Require Import List Bool Arith Lia.
Require Import Verif.Prelude Verif.PreludeProofs Verif.BitVecModel Verif.BitVecSpec
  Verif.BitVecProofs Verif.GateModel Verif.ProtocolModel Verif.BoolGmwModel Verif.BoolGmwSpec
  Verif.BoolGmwProofs Verif.BoolGmwProofs2 Verif.CircuitModel Verif.ExecModel Verif.ExecSpec
  Verif.ExecProofs Verif.ExecBoolSpec Verif.ExecBoolProofs Verif.PartyModel Verif.PrivacySpec
  Verif.PrivacyProofs Verif.PrivacyBoolProofs.
Import ListNotations.

Lemma aligned_setup W n x y : setup_aligned W n x y -> bool_setup_ok W n x y.
Proof. intros (h & m & A & _ & B & C & D). exists h, m. auto. Qed.

Lemma aligned_sym W n x y : setup_aligned W n x y -> setup_aligned W n y x.
Proof. intros (h & m & A & B & C & D & E). exists h, m. auto 6 using triples_ok_sym. Qed.

(** Vectors that start at a word and fill whole words are their content. *)
Lemma whole_raw W x : 0 < W -> bv_wf W x -> bv_head x = 0 -> bv_len x mod W = 0 ->
  bv_bits x = bv_raw x.
Proof.
  intros HW (Hh & Hr) H0 Hm. unfold bv_bits. rewrite H0 in *. cbn [skipn].
  apply firstn_all2. rewrite Hr.
  apply Nat.mod_divide in Hm; [|lia]. destruct Hm as (k & ->).
  rewrite (Nat.mul_comm k W), bv_words_mult; auto.
Qed.

Lemma whole_eq W x y : 0 < W -> bv_wf W x -> bv_wf W y -> bv_head x = 0 -> bv_head y = 0 ->
  bv_len x = bv_len y -> bv_len x mod W = 0 -> bv_bits x = bv_bits y -> x = y.
Proof.
  intros HW Wx Wy Hx Hy L M E. rewrite (whole_raw W x), (whole_raw W y) in E by congruence.
  destruct x, y; cbn in *; congruence.
Qed.

Lemma iter_a W h n u : mts_wf W h n u -> map mt_a (mts_iter u) = bv_bits (ts_a u).
Proof.
  intros WU. pose proof WU as (wa & wb & wc & ha & hb & hc & la & lb & lc).
  apply (list_ext false); rewrite ?map_length, (mts_iter_length _ _ _ _ WU).
  - rewrite (bv_bits_length W); auto.
  - intros i Hi. change false with (mt_a mt0) at 1. rewrite map_nth.
    rewrite (mts_iter_nth W h n u i WU Hi). reflexivity.
Qed.
Lemma iter_b W h n u : mts_wf W h n u -> map mt_b (mts_iter u) = bv_bits (ts_b u).
Proof.
  intros WU. pose proof WU as (wa & wb & wc & ha & hb & hc & la & lb & lc).
  apply (list_ext false); rewrite ?map_length, (mts_iter_length _ _ _ _ WU).
  - rewrite (bv_bits_length W); auto.
  - intros i Hi. change false with (mt_b mt0) at 1. rewrite map_nth.
    rewrite (mts_iter_nth W h n u i WU Hi). reflexivity.
Qed.
Lemma iter_c W h n u : mts_wf W h n u -> map mt_c (mts_iter u) = bv_bits (ts_c u).
Proof.
  intros WU. pose proof WU as (wa & wb & wc & ha & hb & hc & la & lb & lc).
  apply (list_ext false); rewrite ?map_length, (mts_iter_length _ _ _ _ WU).
  - rewrite (bv_bits_length W); auto.
  - intros i Hi. change false with (mt_c mt0) at 1. rewrite map_nth.
    rewrite (mts_iter_nth W h n u i WU Hi). reflexivity.
Qed.

Lemma whole_mts_eq W n u u' : 0 < W -> n mod W = 0 -> mts_wf W 0 n u -> mts_wf W 0 n u' ->
  mts_iter u = mts_iter u' -> ts_a u = ts_a u' /\ ts_b u = ts_b u' /\ ts_c u = ts_c u'.
Proof.
  intros HW Hn U U' E.
  pose proof (iter_a _ _ _ _ U) as A. pose proof (iter_a _ _ _ _ U') as A'.
  pose proof (iter_b _ _ _ _ U) as B. pose proof (iter_b _ _ _ _ U') as B'.
  pose proof (iter_c _ _ _ _ U) as C. pose proof (iter_c _ _ _ _ U') as C'.
  rewrite E in A, B, C.
  destruct U as (wa & wb & wc & ha & hb & hc & la & lb & lc).
  destruct U' as (wa' & wb' & wc' & ha' & hb' & hc' & la' & lb' & lc').
  split; [|split]; apply (whole_eq W); auto; congruence.
Qed.

(** The data of a SIMD message when everything is aligned. *)
Definition amsg (ps : list (bitvec * bitvec)) (us : list triple) : bsimdmsg :=
  BSimdMsg (BMsg 0 (zip_with (fun x t => xorb x (mt_b t)) (simd_e ps) us)
                   (zip_with (fun x t => xorb x (mt_a t)) (simd_d ps) us)) (simd_sizes ps).

Lemma zip_with_map_r {A B C D} (f : A -> B -> C) (g : D -> B) l : forall l',
  zip_with f l (map g l') = zip_with (fun x y => f x (g y)) l l'.
Proof. induction l as [|x l IH]; intros [|y l']; cbn; auto. f_equal; auto. Qed.

Lemma simd_msg_aligned W ps u : 0 < W -> simd_pairs_ok W ps ->
  sum_list (simd_sizes ps) mod W = 0 -> mts_wf W 0 (sum_list (simd_sizes ps)) u ->
  simd_msg W ps u = amsg ps (mts_iter u).
Proof.
  intros HW Hps Hm Hu. unfold simd_msg, amsg.
  pose proof (simd_d_length W ps Hps) as LD. pose proof (simd_e_length W ps Hps) as LE.
  pose proof Hu as (wa & wb & wc & ha & hb & hc & la & lb & lc).
  assert (LW : forall l x, length l = sum_list (simd_sizes ps) ->
     firstn (length l) (raw_zip xorb (pwords W l) x) = raw_zip xorb (pwords W l) x).
  { intros l x L. apply firstn_all2. rewrite raw_zip_length, pwords_length, L.
    apply Nat.mod_divide in Hm; [|lia]. destruct Hm as (k & ->).
    rewrite (Nat.mul_comm k W), bv_words_mult; auto. }
  rewrite <- (LW (simd_e ps)), <- (LW (simd_d ps)) by auto.
  rewrite (raw_zip_words W (simd_d ps) (ts_a u) (length (simd_d ps))) by (auto; lia).
  rewrite (raw_zip_words W (simd_e ps) (ts_b u) (length (simd_e ps))) by (auto; lia).
  rewrite <- (iter_a _ _ _ _ Hu), <- (iter_b _ _ _ _ Hu), !zip_with_map_r. reflexivity.
Qed.

Section SimdPriv.
Variable W : nat.
Hypothesis HW : 0 < W.
Variable ec : ecirc bool_gate.
(** the SIMD size of all interactive gates *)
Variable nl : nat.
Hypothesis Hnl : nl <> 0 /\ nl mod W = 0.
Notation pr := (bool_gmw W).

Definition noscalar : p_msg pr := BMsg 0 [] [].

Lemma empty_scalar_msg : scalar_msg W [] [] = BMsg 0 [] [].
Proof.
  unfold scalar_msg. cbv zeta. rewrite !words_of_raw by auto. cbn [zip_with length].
  unfold words_of. cbn [length app]. rewrite Nat.mod_0_l, Nat.sub_0_r, Nat.mod_same by lia. reflexivity.
Qed.

Lemma send_simd party l b dg dos ps h m st :
  el_int (el_scalar l) = [] ->
  omap (ec_gate ec) (el_int (el_simd l)) = Some dg ->
  omap (fun g => c <- go_cell (pr:=pr) b g ;; cell_simd c) (el_int (el_simd l)) = Some dos ->
  omap (fun g => c <- go_get (pr:=pr) b g ;; cell_simd c)
    (concat (map (ec_parents ec) (el_int (el_simd l)))) = Some (flat_pairs ps) ->
  simd_pairs_ok W ps -> let N := sum_list (simd_sizes ps) in N mod W = 0 ->
  mts_wf W h m st -> N <= m -> (h + (m - N)) mod W = 0 ->
  ex_send (pr:=pr) party ec l st b =
    (b' <- ofold go_free b (el_free (el_simd l)) ;;
     Some (EM (pr:=pr) noscalar (Some (amsg ps (lastn N (mts_iter st)))), st, b')).
Proof.
  intros Hs Hg Ho Hi Hps N HN Hwf Hle Hal. unfold ex_send. cbv zeta.
  cbn [p_gate p_share p_simd p_compute_msg p_compute_msg_simd p_simd_support bool_gmw] in *.
  rewrite Hs. cbn [omap map concat obind].
  pose proof (bool_compute_msg_spec W h m st party [] [] Hwf (Nat.le_0_l m)) as M.
  cbn [length repeat flat_pairs flat_map lastn] in M. rewrite M. cbn [obind].
  rewrite Hg. cbn [obind]. rewrite Ho. cbn [obind]. rewrite Hi. cbn [obind].
  destruct (mts_split_off_last_spec W h m st N HW Hwf Hle) as (R & U & S0 & WR & WU & IR & IU & A0 & B0 & C0).
  rewrite (bool_compute_msg_simd_spec W h m st party dg dos ps U R HW Hwf Hps Hle S0 A0 B0). cbn [obind].
  rewrite Hal in WU. rewrite (simd_msg_aligned W ps U HW Hps HN WU). rewrite IU.
  unfold lastn. rewrite (mts_iter_length _ _ _ _ Hwf).
  replace (scalar_msg W [] _) with (noscalar).
  2:{ unfold noscalar. rewrite <- empty_scalar_msg. reflexivity. }
  reflexivity.
Qed.

Lemma recv_simd party l b dg dos ps us other h1 m1 st1 h2 m2 st2 g :
  el_int (el_scalar l) = [] ->
  omap (ec_gate ec) (el_int (el_simd l)) = Some dg ->
  omap (fun g => c <- go_cell (pr:=pr) b g ;; cell_simd c) (el_int (el_simd l)) = Some dos ->
  let N := sum_list (simd_sizes ps) in N mod W = 0 ->
  mts_wf W h1 m1 st1 -> mts_wf W h2 m2 st2 -> N <= m1 -> N <= m2 ->
  (h1 + (m1 - N)) mod W = 0 -> (h2 + (m2 - N)) mod W = 0 -> same_last N st1 st2 ->
  ex_recv (pr:=pr) party ec l st1 (EM (pr:=pr) noscalar (Some (amsg ps us))) other b = Some g ->
  ex_recv (pr:=pr) party ec l st2 (EM (pr:=pr) noscalar (Some (amsg ps us))) other b = Some g.
Proof.
  intros Hs Hg Ho N HN W1 W2 L1 L2 A1 A2 Hsame. unfold ex_recv. cbv zeta. cbn [em_scalar em_simd].
  cbn [p_gate p_share p_simd p_eval_int p_eval_int_simd bool_gmw] in *.
  rewrite Hs. cbn [omap obind].
  destruct (Nat.eq_dec (bm_size (em_scalar other)) 0) as [Hz|Hz].
  2:{ unfold bool_eval_int at 1, noscalar. cbn [bm_size].
      destruct (Nat.eqb_spec 0 (bm_size (em_scalar other))); [congruence|]. cbn [oassert obind]. discriminate. }
  rewrite (bool_eval_int_empty' W party [] [] noscalar (em_scalar other) st1 h1 m1) by auto.
  rewrite (bool_eval_int_empty' W party [] [] noscalar (em_scalar other) st2 h2 m2) by auto.
  cbn [obind]. destruct (em_simd other) as [x|]; [|auto].
  rewrite Hg. cbn [obind]. rewrite Ho. cbn [obind].
  unfold bool_eval_int_simd, amsg. cbn [bs_data bs_sizes bm_size bm_d bm_e].
  destruct (0 =? bm_size (bs_data x)); cbn [oassert obind]; [|discriminate].
  destruct (list_nat_eqb (simd_sizes ps) (bs_sizes x)); cbn [oassert obind]; [|discriminate].
  fold N.
  destruct (mts_split_off_last_spec W h1 m1 st1 N HW W1 L1) as (r1 & u1 & E1 & _ & V1 & _ & I1 & _).
  destruct (mts_split_off_last_spec W h2 m2 st2 N HW W2 L2) as (r2 & u2 & E2 & _ & V2 & _ & I2 & _).
  rewrite E1, E2. cbn [obind]. rewrite A1 in V1. rewrite A2 in V2.
  destruct (whole_mts_eq W N u1 u2 HW HN V1 V2) as (-> & -> & ->).
  { rewrite I1, I2. unfold same_last, lastn in Hsame.
    rewrite (mts_iter_length _ _ _ _ W1), (mts_iter_length _ _ _ _ W2) in Hsame. exact Hsame. }
  match goal with |- obind (obind (obind (bool_cut W ?r ?o ?s) _) _) _ = _ -> _ =>
    destruct (bool_cut W r o s) end; cbn [obind]; auto.
Qed.

Definition SMsg (n : nat) (t : emsg pr) : Prop :=
  exists de, length (fst de) = n /\ length (snd de) = n /\ t = simd_emsg W nl de.

Lemma xor_sol x y z : length x = length y -> length z = length y ->
  (zip_with xorb x y = z <-> y = zip_with xorb x z).
Proof.
  revert y z. induction x as [|p x IH]; intros [|q y] [|r z] H1 H2; simpl in *; try discriminate; [tauto|].
  specialize (IH y z ltac:(lia) ltac:(lia)).
  split; intros H; injection H as Ha Hb; f_equal; try (apply IH; auto).
  - rewrite <- Ha. destruct p, q; auto.
  - rewrite Ha. destruct p, r; auto.
Qed.

Lemma sum_repeat n k : sum_list (repeat n k) = n * k.
Proof.
  induction k as [|k IH]; cbn [repeat]; [cbn; lia|].
  change (sum_list (n :: repeat n k)) with (n + sum_list (repeat n k)). rewrite IH. lia.
Qed.

Lemma combine_ab (ts : list triple) ma mb : length ma = length ts -> length mb = length ts ->
  map mt_a (zip_with complete ts (combine ma mb)) = ma /\
  map mt_b (zip_with complete ts (combine ma mb)) = mb.
Proof.
  revert ma mb. induction ts as [|t ts IH]; intros [|a ma] [|b mb] L1 L2; try discriminate; auto.
  cbn in *. destruct (IH ma mb) as [A B]; try lia. rewrite A, B. auto.
Qed.

(** The masking obligations of one party in one SIMD layer. *)
Lemma mask_party_simd party l b b' dg dos ps k :
  el_int (el_scalar l) = [] ->
  omap (ec_gate ec) (el_int (el_simd l)) = Some dg ->
  omap (fun g => c <- go_cell (pr:=pr) b g ;; cell_simd c) (el_int (el_simd l)) = Some dos ->
  omap (fun g => c <- go_get (pr:=pr) b g ;; cell_simd c)
    (concat (map (ec_parents ec) (el_int (el_simd l)))) = Some (flat_pairs ps) ->
  simd_pairs_ok W ps -> simd_sizes ps = repeat nl k ->
  ofold go_free b (el_free (el_simd l)) = Some b' ->
  omap (fun g => c <- go_cell (pr:=pr) b' g ;; cell_simd c) (el_int (el_simd l)) = Some dos ->
  let N := nl * k in
  (forall sc t, (exists sh, setup_aligned W N sc sh) -> SMsg N t ->
     exists sh sh' b1, setup_aligned W N sc sh /\
       ex_send (pr:=pr) party ec l sh b = Some (t, sh', b1)) /\
  (forall sc sh t x y, setup_aligned W N sc sh ->
     ex_send (pr:=pr) party ec l sh b = Some (t, x, y) -> SMsg N t) /\
  (forall sc sh1 sh2 t x1 x2 y1 y2,
     setup_aligned W N sc sh1 -> setup_aligned W N sc sh2 ->
     ex_send (pr:=pr) party ec l sh1 b = Some (t, x1, y1) ->
     ex_send (pr:=pr) party ec l sh2 b = Some (t, x2, y2) -> same_last N sh1 sh2) /\
  (forall sc sh1 sh2 t x1 y1 mc g,
     setup_aligned W N sc sh1 -> setup_aligned W N sc sh2 ->
     same_last N sh1 sh2 ->
     ex_send (pr:=pr) party ec l sh1 b = Some (t, x1, y1) ->
     ex_recv (pr:=pr) party ec l x1 t mc y1 = Some g ->
     exists x2, ex_send (pr:=pr) party ec l sh2 b = Some (t, x2, y1) /\
       ex_recv (pr:=pr) party ec l x2 t mc y1 = Some g).
Proof.
  intros Hs Hg Ho Hi Hps Hsz Hf Ho' N.
  assert (EN : sum_list (simd_sizes ps) = N) by (rewrite Hsz; apply sum_repeat).
  assert (MN : N mod W = 0).
  { destruct Hnl as [_ D]. apply Nat.mod_divide in D; [|lia]. destruct D as (z & E).
    unfold N. rewrite E. replace (z * W * k) with (z * k * W) by lia. apply Nat.mod_mul. lia. }
  pose proof (simd_d_length W ps Hps) as LD. rewrite EN in LD.
  pose proof (simd_e_length W ps Hps) as LE. rewrite EN in LE.
  assert (SEND : forall h m st, mts_wf W h m st -> N <= m -> (h + (m - N)) mod W = 0 ->
     ex_send (pr:=pr) party ec l st b =
     Some (EM (pr:=pr) noscalar (Some (amsg ps (lastn N (mts_iter st)))), st, b')).
  { intros h m st Hwf Hle Hal.
    rewrite (send_simd party l b dg dos ps h m st) by (auto; rewrite EN; auto).
    rewrite Hf, EN. reflexivity. }
  assert (LEN : forall st h m, mts_wf W h m st -> N <= m -> length (lastn N (mts_iter st)) = N).
  { intros st h m Hwf Hle. unfold lastn. rewrite skipn_length, (mts_iter_length _ _ _ _ Hwf). lia. }
  assert (SZ : forall d : list bool, length d = N -> repeat nl (length d / nl) = simd_sizes ps).
  { intros d Ld. rewrite Hsz, Ld. unfold N. f_equal. rewrite Nat.mul_comm. apply Nat.div_mul. lia. }
  split; [|split; [|split]].
  - intros sc t (sh0 & h & m & Hle & Hal & Wc & W0 & Hok) ([d e] & Ld & Le & ->). cbn [fst snd] in *.
    set (ma := zip_with xorb (simd_d ps) d). set (mb := zip_with xorb (simd_e ps) e).
    assert (Lma : length ma = N) by (unfold ma; rewrite zip_with_length, LD, Ld; apply Nat.min_id).
    assert (Lmb : length mb = N) by (unfold mb; rewrite zip_with_length, LE, Le; apply Nat.min_id).
    set (cs := mts_iter sc) in *.
    assert (Lcs : length cs = m) by (apply (mts_iter_length _ _ _ _ Wc)).
    assert (L0 : length (mts_iter sh0) = m) by (apply (mts_iter_length _ _ _ _ W0)).
    set (tl := zip_with complete (skipn (m - N) cs) (combine ma mb)).
    assert (Lsk : length (skipn (m - N) cs) = N) by (rewrite skipn_length; lia).
    assert (Lcb : length (combine ma mb) = N) by (rewrite combine_length, Lma, Lmb; apply Nat.min_id).
    assert (Lz : length tl = N) by (unfold tl; rewrite zip_with_length, Lsk, Lcb; apply Nat.min_id).
    set (hs := firstn (m - N) (mts_iter sh0) ++ tl).
    assert (Lhs : length hs = m).
    { unfold hs. rewrite app_length, firstn_length, Lz, L0. lia. }
    assert (Hh : h < W) by (destruct Wc as ((A & _) & _ & _ & <- & _); auto).
    pose proof (mts_make_wf W h hs Hh) as Wh. rewrite Lhs in Wh.
    exists (mts_make W h hs), (mts_make W h hs), b'. split.
    + exists h, m. split; auto. split; auto. split; auto. split; auto. rewrite mts_make_iter by auto.
      fold cs. unfold hs. rewrite <- (firstn_skipn (m - N) cs) at 1.
      apply Forall2_app; [|apply complete_ok; exact (eq_trans Lcb (eq_sym Lsk))].
      assert (X : forall k x y, triples_ok x y -> Forall2 triple_ok (firstn k x) (firstn k y)).
      { clear. intros k x y H. revert k. induction H; intros [|k]; cbn; constructor; auto. }
      apply X; auto.
    + rewrite (SEND h m) by auto. rewrite mts_make_iter by auto. unfold hs.
      rewrite lastn_app_exact by auto. unfold simd_emsg, amsg, noscalar. cbn [fst snd].
      rewrite (SZ d Ld). rewrite <- (zip_with_map_r xorb mt_a), <- (zip_with_map_r xorb mt_b).
      destruct (combine_ab (skipn (m - N) cs) ma mb) as [EA EB]; [congruence..|].
      fold tl in EA, EB. rewrite EA, EB.
      rewrite (proj2 (xor_sol (simd_d ps) ma d ltac:(congruence) ltac:(congruence)) eq_refl).
      rewrite (proj2 (xor_sol (simd_e ps) mb e ltac:(congruence) ltac:(congruence)) eq_refl).
      reflexivity.
  - intros sc sh t x y (h & m & Hle & Hal & Wc & W0 & Hok) S1.
    rewrite (SEND h m) in S1 by auto. apply Some_inj3 in S1. destruct S1 as (<- & _ & _).
    pose proof (LEN sh _ _ W0 Hle) as K.
    exists (zip_with (fun x t => xorb x (mt_a t)) (simd_d ps) (lastn N (mts_iter sh)),
            zip_with (fun x t => xorb x (mt_b t)) (simd_e ps) (lastn N (mts_iter sh))).
    cbn [fst snd].
    assert (LZ : length (zip_with (fun x t => xorb x (mt_a t)) (simd_d ps) (lastn N (mts_iter sh))) = N)
      by (rewrite zip_with_length, K, LD; apply Nat.min_id).
    split; [exact LZ|]. split; [rewrite zip_with_length, K, LE; apply Nat.min_id|].
    unfold simd_emsg, amsg, noscalar. cbn [fst snd]. rewrite (SZ _ LZ). reflexivity.
  - intros sc sh1 sh2 t x1 x2 y1 y2 (h & m & Hle & Hal & Wc & W1 & Ok1) (h2 & m2 & Hle2 & Hal2 & Wc2 & W2 & Ok2) S1 S2.
    assert (m2 = m) as ->.
    { pose proof (mts_iter_length _ _ _ _ Wc). pose proof (mts_iter_length _ _ _ _ Wc2). lia. }
    rewrite (SEND h m) in S1 by auto. rewrite (SEND h2 m) in S2 by auto.
    apply Some_inj3 in S1. destruct S1 as (S1 & _ & _).
    apply Some_inj3 in S2. destruct S2 as (S2 & _ & _). rewrite <- S1 in S2. clear S1.
    apply (f_equal (em_simd (pr:=pr))) in S2. cbn [em_simd] in S2.
    apply (f_equal (fun o : option bsimdmsg => match o with Some x => bs_data x | None => BMsg 0 [] [] end)) in S2.
    unfold amsg in S2. cbn [bs_data] in S2.
    pose proof (f_equal bm_e S2) as E2. pose proof (f_equal bm_d S2) as E3. cbn [bm_e bm_d] in E2, E3.
    pose proof (LEN sh1 _ _ W1 Hle) as K1. pose proof (LEN sh2 _ _ W2 Hle) as K2.
    unfold same_last.
    assert (X : forall k x y, triples_ok x y -> triples_ok (skipn k x) (skipn k y)).
    { clear. intros k0 x y H. revert k0. unfold triples_ok. induction H; intros [|k0]; cbn; auto. }
    assert (Y : forall (g : triple -> bool) qs us us',
       length us = length qs -> length us' = length qs ->
       zip_with (fun p mt => xorb p (g mt)) qs us = zip_with (fun p mt => xorb p (g mt)) qs us' ->
       map g us = map g us').
    { clear. intros g. induction qs as [|q qs IH]; intros [|u us] [|u' us'] L L' E; try discriminate; auto.
      cbn in *. injection E as E0 E. f_equal; auto. destruct q, (g u), (g u'); cbn in *; congruence. }
    apply Y in E2; [|congruence..]. apply Y in E3; [|congruence..].
    pose proof (mts_iter_length _ _ _ _ W1) as M1. pose proof (mts_iter_length _ _ _ _ W2) as M2.
    unfold lastn in *. rewrite M1, M2 in *.
    apply (triples_det (skipn (m - N) (mts_iter sc))); auto.
    revert E2 E3.
    generalize (skipn (m - N) (mts_iter sh1)) (skipn (m - N) (mts_iter sh2)).
    clear. induction l as [|x l IH]; intros [|y l'] E2 E3; try discriminate; auto.
    cbn in *. injection E2 as -> E2. injection E3 as -> E3. f_equal; auto.
  - intros sc sh1 sh2 t x1 y1 mc g (h & m & Hle & Hal & Wc & W1 & Ok1) (h2 & m2 & Hle2 & Hal2 & Wc2 & W2 & Ok2) Hsame S1 R1.
    rewrite (SEND h m) in S1 by auto. apply Some_inj3 in S1. destruct S1 as (<- & <- & <-).
    exists sh2. rewrite (SEND h2 m2) by auto. unfold same_last in Hsame. rewrite Hsame. split; auto.
    eapply (recv_simd party l b' dg dos ps _ mc h m sh1 h2 m2 sh2); eauto; rewrite ?EN; auto.
    rewrite <- Hsame. exact R1.
Qed.

Variable ins : list (list bool).
Variable v : gid -> list bool.
Variable i0 i1 : istore pr.
Hypothesis Ht : typed ec.
Hypothesis Hv : valuation ec ins v.
Hypothesis Hww : whole_words W ec.
Hypothesis Hnd : NoDup (ec_inputs ec).
Hypothesis Hin : shares_of W (ec_simd ec 0) i0 i1 ins.

Definition SInv (ls : list elayer) (g0 g1 : gouts pr) : Prop :=
  (forall l, In l ls -> el_int (el_scalar l) = [] /\
     forall g, In g (el_int (el_simd l)) -> ec_simd ec (fst g) = Some nl) /\
  exists Live Todo, sched_ok bool_ops ec Live Todo ls /\
    EInv (pr:=pr) ec (BR W ec v) (BI W) Live Todo g0 g1.

(** Both parties' obligations in one layer. *)
Lemma both_layer_simd l ls g0 g1 : SInv (l :: ls) g0 g1 ->
  exists a b,
    ofold (ex_ni (pr:=pr) 0 ec (ec_main_simd (pr:=pr) ec) i0) g0 (el_ni l) = Some a /\
    ofold (ex_ni (pr:=pr) 1 ec (ec_main_simd (pr:=pr) ec) i1) g1 (el_ni l) = Some b /\
    (el_int_count l = 0 -> SInv ls a b) /\
    (el_int_count l <> 0 ->
      (forall st0 st1, setup_aligned W (el_int_count l) st0 st1 ->
       exists m0 m1 st0' st1' a' b' a'' b'',
         ex_send (pr:=pr) 0 ec l st0 a = Some (m0, st0', a') /\
         ex_send (pr:=pr) 1 ec l st1 b = Some (m1, st1', b') /\
         ex_recv (pr:=pr) 0 ec l st0' m0 m1 a' = Some a'' /\
         ex_recv (pr:=pr) 1 ec l st1' m1 m0 b' = Some b'' /\ SInv ls a'' b'') /\
      exists k dg do0 do1 ps0 ps1 a' b',
        nl * k = el_int_count l /\ el_int (el_scalar l) = [] /\
        omap (ec_gate ec) (el_int (el_simd l)) = Some dg /\
        (omap (fun g => c <- go_cell (pr:=pr) a g ;; cell_simd c) (el_int (el_simd l)) = Some do0 /\
         omap (fun g => c <- go_get (pr:=pr) a g ;; cell_simd c)
           (concat (map (ec_parents ec) (el_int (el_simd l)))) = Some (flat_pairs ps0) /\
         simd_pairs_ok W ps0 /\ simd_sizes ps0 = repeat nl k /\
         ofold go_free a (el_free (el_simd l)) = Some a' /\
         omap (fun g => c <- go_cell (pr:=pr) a' g ;; cell_simd c) (el_int (el_simd l)) = Some do0) /\
        (omap (fun g => c <- go_cell (pr:=pr) b g ;; cell_simd c) (el_int (el_simd l)) = Some do1 /\
         omap (fun g => c <- go_get (pr:=pr) b g ;; cell_simd c)
           (concat (map (ec_parents ec) (el_int (el_simd l)))) = Some (flat_pairs ps1) /\
         simd_pairs_ok W ps1 /\ simd_sizes ps1 = repeat nl k /\
         ofold go_free b (el_free (el_simd l)) = Some b' /\
         omap (fun g => c <- go_cell (pr:=pr) b' g ;; cell_simd c) (el_int (el_simd l)) = Some do1)).
Proof.
  intros (Hsc & Live & Todo & (HL & HS) & E).
  destruct (Hsc l (or_introl eq_refl)) as [Hs Hn].
  destruct (bool_int_sound W HW ec v ins Ht Hv Hww Live Todo l HL (or_introl Hs)) as (HI & HK).
  destruct (layer_pieces (pr:=pr) bool_ops ec (BR W ec v) (BI W) (BR_kind W ec v) (bool_setup_ok W)
    i0 i1 l Live Todo g0 g1 (bool_ni_sound W HW ec v ins Ht Hv Hnd i0 i1 Hin) HI HK
    (fun H => ltac:(discriminate H)) HL E) as (a & b & N0 & N1 & E1 & Z & NZ).
  assert (HP : forall x y, EInv (pr:=pr) ec (BR W ec v) (BI W) (live_after Live l) (todo_after Todo l) x y ->
              SInv ls x y).
  { intros x y HE. split; [intros; apply Hsc; right; auto|]. eauto. }
  exists a, b. split; [exact N0|]. split; [exact N1|]. split; [auto|]. intros Hz. split.
  { intros st0 st1 Hok.
    destruct (NZ Hz st0 st1 (aligned_setup _ _ _ _ Hok)) as (m0 & m1 & st0' & st1' & a' & b' & a'' & b'' & A & B & C & D & EE).
    exists m0, m1, st0', st1', a', b', a'', b''. auto 9. }
  clear NZ Z.
  destruct (el_scalar_None (pr:=pr) bool_ops ec l Live Todo HL) as [Ks Kd].
  change (@ec_simd (p_gate pr) ec) with (@ec_simd bool_gate ec) in *.
  assert (Hint : forall g, In g (el_int (el_simd l)) -> In g (el_int l))
    by (intros; apply (el_int_split (pr:=pr) (BR W ec v) (BI W)); auto).
  assert (Hand : forall g, In g (el_int (el_simd l)) -> ec_gate ec g = Some BAnd).
  { intros g Hg. destruct (lo_int _ _ _ _ _ HL g (Hint g Hg)) as ((gate & A & B) & _).
    destruct gate; try discriminate. auto. }
  assert (Hlan : map (lanes ec) (el_int (el_simd l)) = repeat nl (length (el_int (el_simd l)))).
  { clear - Hn. induction (el_int (el_simd l)) as [|g gs IH]; auto. cbn [map length repeat].
    f_equal; [|apply IH; intros; apply Hn; right; auto].
    unfold lanes. rewrite Hn by (left; auto). reflexivity. }
  assert (Hcnt : el_int_count l = nl * length (el_int (el_simd l))).
  { rewrite (el_int_count_lanes W HW ec) by (intros; apply (lo_simd _ _ _ _ _ HL) in H; tauto).
    rewrite Hs, Hlan, sum_repeat. reflexivity. }
  destruct (fetch_outs_simd (pr:=pr) ec (BR W ec v) (BI W) _ _ a b (el_int (el_simd l)) E1)
    as (do0 & do1 & O0 & O1 & HO).
  { intros g Hg. destruct (lo_int _ _ _ _ _ HL g (Hint g Hg)) as ((gate & A & _) & B & C & _).
    split; [split; auto|]. split; [exists gate; exact A|]. destruct (Kd g Hg) as (n & En & _).
    change (ec_simd ec (fst g) <> None). rewrite En. congruence. }
  destruct (fetch_ins_simd (pr:=pr) ec (BR W ec v) (BI W) (BR_kind W ec v) _ _ a b
     (concat (map (ec_parents ec) (el_int (el_simd l)))) E1) as (di0 & di1 & DI0 & DI1 & HDI).
  { intros p Hp. apply in_concat in Hp. destruct Hp as (x & Hx & Hp). apply in_map_iff in Hx.
    destruct Hx as (g & <- & Hg). split.
    - apply (lo_int _ _ _ _ _ HL g (Hint g Hg)); auto.
    - exact (proj2 HK g p Hg Hp). }
  change (all3 (RDb W ec v) (concat (map (@ec_parents bool_gate ec) (el_int (el_simd l)))) di0 di1) in HDI.
  destruct (pairs_simd W HW ec v ins Ht Hv _ di0 di1 (fun g Hg => conj (Hand g Hg)
      (ex_intro _ nl (Hn g Hg))) HDI)
    as (ps0 & ps1 & -> & -> & L0 & L1 & P0 & P1 & S0 & S1 & _).
  assert (Hfr : freed l = el_free (el_simd l)).
  { unfold freed. destruct (Nat.eqb_spec (el_int_count l) 0); congruence. }
  destruct (EInv_free_all (pr:=pr) ec (BR W ec v) (BI W) (el_free (el_simd l)) _ _ a b E1)
    as (a' & b' & F0 & F1 & _ & B0 & B1).
  { intros f Hf. rewrite <- Hfr in Hf. apply (lo_free _ _ _ _ _ HL f Hf). }
  assert (Hnf : forall g, In g (el_int (el_simd l)) -> ~ In g (el_free (el_simd l))).
  { intros g Hg Hf. rewrite <- Hfr in Hf.
    destruct (lo_int _ _ _ _ _ HL g (Hint g Hg)) as (_ & B & C & _).
    destruct (lo_free _ _ _ _ _ HL g Hf) as [_ [Hx|Hx]]; auto. }
  exists (length (el_int (el_simd l))), (repeat BAnd (length (el_int (el_simd l)))), do0, do1, ps0, ps1, a', b'.
  split; [congruence|]. split; [exact Hs|]. split; [apply omap_and_gates; exact Hand|].
  rewrite Hlan in S0, S1.
  split; (split; [assumption|split; [assumption|split; [assumption|split; [assumption|split; [assumption|]]]]]).
  - rewrite (free_cells W l a a' _ cell_simd); auto.
  - rewrite (free_cells W l b b' _ cell_simd); auto.
Qed.

Lemma mask01_simd : mask_layer (pr:=pr) ec 0 1 i0 i1 SInv (setup_aligned W) same_last SMsg.
Proof.
  intros l ls gc gh HI. destruct (both_layer_simd l ls gc gh HI) as (a & b & N0 & N1 & Z & NZ).
  exists a, b. split; [exact N0|]. split; [exact N1|]. split; [exact Z|]. intros Hz n.
  destruct (NZ Hz) as (A & k & dg & do0 & do1 & ps0 & ps1 & a' & b' & Hk & Hd & G & _ & (O & P & Q & S & F & O')).
  split; [exact A|]. unfold n. rewrite <- Hk.
  exact (mask_party_simd 1 l b b' dg do1 ps1 k Hd G O P Q S F O').
Qed.

Lemma mask10_simd : mask_layer (pr:=pr) ec 1 0 i1 i0 (fun ls gc gh => SInv ls gh gc) (setup_aligned W) same_last SMsg.
Proof.
  intros l ls gc gh HI. destruct (both_layer_simd l ls gh gc HI) as (a & b & N0 & N1 & Z & NZ).
  exists b, a. split; [exact N1|]. split; [exact N0|]. split; [exact Z|]. intros Hz n.
  destruct (NZ Hz) as (A & k & dg & do0 & do1 & ps0 & ps1 & a' & b' & Hk & Hd & G & (O & P & Q & S & F & O') & _).
  split.
  { intros sc sh Hok. apply aligned_sym in Hok.
    destruct (A sh sc Hok) as (m0 & m1 & st0' & st1' & x & y & x' & y' & B & C & D & E & I).
    exists m1, m0, st1', st0', y, x, y', x'. auto 9. }
  unfold n. rewrite <- Hk.
  exact (mask_party_simd 0 l a a' dg do0 ps0 k Hd G O P Q S F O').
Qed.
End SimdPriv.
