(** Masking of whole boolean GMW executions of circuits without SIMD layers. *)
From Coq Require Import List Bool Arith Lia.
Require Import Verif.Prelude Verif.PreludeProofs Verif.BitVecModel Verif.BitVecSpec
  Verif.BitVecProofs Verif.GateModel Verif.ProtocolModel Verif.BoolGmwModel Verif.BoolGmwSpec
  Verif.BoolGmwProofs Verif.BoolGmwProofs2 Verif.CircuitModel Verif.ExecModel Verif.ExecSpec
  Verif.ExecProofs Verif.ExecBoolSpec Verif.ExecBoolProofs Verif.PartyModel Verif.PrivacySpec
  Verif.PrivacyProofs.
Import ListNotations.

(** *** Storages with a given content *)

Definition mts_make (W h : nat) (l : list triple) : mul_triples :=
  MTS (bv_copy W h (map mt_a l)) (bv_copy W h (map mt_b l)) (bv_copy W h (map mt_c l)).

Lemma mts_make_wf W h l : h < W -> mts_wf W h (length l) (mts_make W h l).
Proof.
  intros H. unfold mts_wf, mts_make. cbn [ts_a ts_b ts_c].
  repeat (split; [solve [apply bv_copy_wf; auto | cbn; rewrite ?map_length; auto]|]).
  cbn. apply map_length.
Qed.

Lemma mts_make_iter W h l : 0 < W -> mts_iter (mts_make W h l) = l.
Proof.
  intros HW. unfold mts_iter, mts_make. cbn [ts_a ts_b ts_c]. rewrite !bv_copy_bits by auto.
  induction l as [|[a b c] l IH]; cbn in *; auto. f_equal; auto.
Qed.

Lemma triple_ok_sym x y : triple_ok x y -> triple_ok y x.
Proof. unfold triple_ok. destruct x as [[] [] []], y as [[] [] []]; cbn; auto. Qed.

Lemma triples_ok_sym x y : triples_ok x y -> triples_ok y x.
Proof. unfold triples_ok. induction 1; constructor; auto. apply triple_ok_sym; auto. Qed.

Lemma setup_ok_sym W n x y : bool_setup_ok W n x y -> bool_setup_ok W n y x.
Proof. intros (h & m & A & B & C & D). exists h, m. auto using triples_ok_sym. Qed.

(** Completing the masks of one party to valid triples. *)
Definition complete (t : triple) (ab : bool * bool) : triple :=
  MT (fst ab) (snd ab)
    (xorb (mt_c t) (andb (xorb (mt_a t) (fst ab)) (xorb (mt_b t) (snd ab)))).

Lemma complete_ok ts ms : length ms = length ts -> triples_ok ts (zip_with complete ts ms).
Proof.
  revert ms. induction ts as [|t ts IH]; intros [|m ms] H; try discriminate; [constructor|].
  cbn. constructor; [|apply IH; cbn in *; lia]. destruct t as [a b c], m as [x y].
  unfold triple_ok, complete. cbn. destruct a, b, c, x, y; reflexivity.
Qed.

Lemma complete_ab ts ms : length ms = length ts ->
  map (fun t => (mt_a t, mt_b t)) (zip_with complete ts ms) = ms.
Proof.
  revert ms. induction ts as [|t ts IH]; intros [|m ms] H; try discriminate; auto.
  cbn. destruct m; f_equal. apply IH. cbn in H; lia.
Qed.

Lemma triples_det ts : forall us us', triples_ok ts us -> triples_ok ts us' ->
  map (fun t => (mt_a t, mt_b t)) us = map (fun t => (mt_a t, mt_b t)) us' -> us = us'.
Proof.
  induction ts as [|t ts IH]; intros us us' H H' E; inversion H; inversion H'; subst; auto.
  cbn in E. injection E as Ea Eb E. f_equal; eauto.
  match goal with A : triple_ok t ?x, B : triple_ok t ?y |- ?x = ?y =>
    revert A B Ea Eb; unfold triple_ok; destruct x as [a b c], y as [a' b' c']; cbn end.
  intros A B -> ->. rewrite <- B in A. f_equal.
  destruct (mt_c t), c, c'; cbn in A; congruence.
Qed.

Lemma lastn_app_exact {A} n (a b : list A) : length b = n -> lastn n (a ++ b) = b.
Proof.
  intros <-. unfold lastn. rewrite app_length, Nat.add_sub. apply skipn_app_exact. auto.
Qed.

Lemma Some_inj3 {A B C} (a a' : A) (b b' : B) (c c' : C) :
  Some (a, b, c) = Some (a', b', c') -> a = a' /\ b = b' /\ c = c'.
Proof. intros H. injection H. auto. Qed.

Section BoolPriv.
Variable W : nat.
Hypothesis HW : 0 < W.
Variable ec : ecirc bool_gate.
Notation pr := (bool_gmw W).

Definition nosimd : p_simdmsg pr := BSimdMsg (BMsg 0 [] []) [].

(** What [ex_send] does in a layer without SIMD gates. *)
Lemma send_scalar party l b so ps h m st :
  omap (ec_gate ec) (el_int (el_scalar l)) = Some (repeat BAnd (length ps)) ->
  omap (fun g => c <- go_cell (pr:=pr) b g ;; cell_scalar c) (el_int (el_scalar l)) = Some so ->
  omap (fun g => c <- go_get (pr:=pr) b g ;; cell_scalar c)
    (concat (map (ec_parents ec) (el_int (el_scalar l)))) = Some (flat_pairs ps) ->
  el_int (el_simd l) = [] -> mts_wf W h m st -> length ps <= m ->
  ex_send (pr:=pr) party ec l st b =
    (b' <- ofold go_free b (el_free (el_simd l)) ;;
     Some (EM (pr:=pr) (scalar_msg W ps (rev (lastn (length ps) (mts_iter st)))) (Some nosimd), st, b')).
Proof.
  intros Hg Ho Hi Hd Hwf Hle. unfold ex_send. cbv zeta.
  cbn [p_gate p_share p_compute_msg p_compute_msg_simd p_simd_support bool_gmw] in *.
  rewrite Hg. cbn [obind]. rewrite Ho. cbn [obind]. rewrite Hi. cbn [obind].
  rewrite (bool_compute_msg_spec W h m st party so ps Hwf Hle). cbn [obind].
  rewrite Hd. cbn [omap map concat obind].
  rewrite (bool_simd_empty W h m st) by auto. cbn [obind]. reflexivity.
Qed.

(** [ex_recv] only looks at the last triples. *)
Lemma recv_scalar party l b gs so (own : p_msg pr) other h1 m1 st1 h2 m2 st2 g :
  omap (ec_gate ec) (el_int (el_scalar l)) = Some gs ->
  omap (fun g => c <- go_cell (pr:=pr) b g ;; cell_scalar c) (el_int (el_scalar l)) = Some so ->
  el_int (el_simd l) = [] -> mts_wf W h1 m1 st1 -> mts_wf W h2 m2 st2 ->
  bm_size own <= m1 -> bm_size own <= m2 -> same_last (bm_size own) st1 st2 ->
  ex_recv (pr:=pr) party ec l st1 (EM (pr:=pr) own (Some nosimd)) other b = Some g ->
  ex_recv (pr:=pr) party ec l st2 (EM (pr:=pr) own (Some nosimd)) other b = Some g.
Proof.
  intros Hg Ho Hd W1 W2 L1 L2 Hs. unfold ex_recv. cbv zeta. cbn [em_scalar em_simd].
  cbn [p_gate p_share p_simd p_eval_int p_eval_int_simd bool_gmw] in *.
  rewrite Hg. cbn [obind]. rewrite Ho. cbn [obind]. rewrite Hd.
  unfold bool_eval_int.
  destruct (bm_size own =? bm_size (em_scalar other)); cbn [oassert obind]; [|discriminate].
  destruct (mts_split_off_last_spec W h1 m1 st1 (bm_size own) HW W1 L1) as (r1 & u1 & E1 & V1 & _ & _ & I1 & _).
  destruct (mts_split_off_last_spec W h2 m2 st2 (bm_size own) HW W2 L2) as (r2 & u2 & E2 & V2 & _ & _ & I2 & _).
  rewrite E1, E2. cbn [obind].
  replace (mts_iter u2) with (mts_iter u1).
  2:{ rewrite I1, I2. unfold same_last, lastn in Hs.
      rewrite (mts_iter_length _ _ _ _ W1), (mts_iter_length _ _ _ _ W2) in Hs. exact Hs. }
  destruct (em_simd other) as [x|]; [|auto].
  cbn [omap obind]. unfold bool_eval_int_simd, nosimd. cbn [bs_data bs_sizes bm_size bm_d bm_e sum_list fold_right].
  destruct (0 =? bm_size (bs_data x)); cbn [oassert obind]; [|discriminate].
  destruct (list_nat_eqb [] (bs_sizes x)); cbn [oassert obind]; [|discriminate].
  destruct (mts_split_zero W _ _ r1 HW V1) as (w1 & ->).
  destruct (mts_split_zero W _ _ r2 HW V2) as (w2 & ->).
  cbn [obind bool_cut]. auto.
Qed.

Lemma free_cells l (b b' : gouts pr) (X : Type) (k : cell pr -> option X) gs :
  ofold go_free b (el_free (el_simd l)) = Some b' ->
  (forall h, ~ In h (el_free (el_simd l)) -> go_cell b' h = go_cell b h) ->
  (forall g, In g gs -> ~ In g (el_free (el_simd l))) ->
  omap (fun g => c <- go_cell b' g ;; k c) gs = omap (fun g => c <- go_cell b g ;; k c) gs.
Proof. intros _ H1 H2. apply omap_ext. intros g Hg. rewrite H1; auto. Qed.

(** The masking obligations of one party in one layer. *)
Lemma mask_party party l b b' so ps :
  omap (ec_gate ec) (el_int (el_scalar l)) = Some (repeat BAnd (length ps)) ->
  omap (fun g => c <- go_cell (pr:=pr) b g ;; cell_scalar c) (el_int (el_scalar l)) = Some so ->
  omap (fun g => c <- go_get (pr:=pr) b g ;; cell_scalar c)
    (concat (map (ec_parents ec) (el_int (el_scalar l)))) = Some (flat_pairs ps) ->
  el_int (el_simd l) = [] ->
  ofold go_free b (el_free (el_simd l)) = Some b' ->
  omap (fun g => c <- go_cell (pr:=pr) b' g ;; cell_scalar c) (el_int (el_scalar l)) = Some so ->
  (forall sc t, (exists sh, bool_setup_ok W (length ps) sc sh) ->
     (exists de, length (fst de) = length ps /\ length (snd de) = length ps /\ t = scalar_emsg W de) ->
     exists sh sh' b1, bool_setup_ok W (length ps) sc sh /\
       ex_send (pr:=pr) party ec l sh b = Some (t, sh', b1)) /\
  (forall sc sh t x y, bool_setup_ok W (length ps) sc sh ->
     ex_send (pr:=pr) party ec l sh b = Some (t, x, y) ->
     exists de, length (fst de) = length ps /\ length (snd de) = length ps /\ t = scalar_emsg W de) /\
  (forall sc sh1 sh2 t x1 x2 y1 y2,
     bool_setup_ok W (length ps) sc sh1 -> bool_setup_ok W (length ps) sc sh2 ->
     ex_send (pr:=pr) party ec l sh1 b = Some (t, x1, y1) ->
     ex_send (pr:=pr) party ec l sh2 b = Some (t, x2, y2) -> same_last (length ps) sh1 sh2) /\
  (forall sc sh1 sh2 t x1 y1 mc g,
     bool_setup_ok W (length ps) sc sh1 -> bool_setup_ok W (length ps) sc sh2 ->
     same_last (length ps) sh1 sh2 ->
     ex_send (pr:=pr) party ec l sh1 b = Some (t, x1, y1) ->
     ex_recv (pr:=pr) party ec l x1 t mc y1 = Some g ->
     exists x2, ex_send (pr:=pr) party ec l sh2 b = Some (t, x2, y1) /\
       ex_recv (pr:=pr) party ec l x2 t mc y1 = Some g).
Proof.
  intros Hg Ho Hi Hd Hf Ho'.
  assert (SEND : forall h m st, mts_wf W h m st -> length ps <= m ->
     ex_send (pr:=pr) party ec l st b =
     Some (EM (pr:=pr) (scalar_msg W ps (rev (lastn (length ps) (mts_iter st)))) (Some nosimd), st, b')).
  { intros h m st Hwf Hle. rewrite (send_scalar party l b so ps h m st) by auto. rewrite Hf. reflexivity. }
  assert (LEN : forall st h m, mts_wf W h m st -> length ps <= m ->
     length (lastn (length ps) (mts_iter st)) = length ps).
  { intros st h m Hwf Hle. unfold lastn. rewrite skipn_length, (mts_iter_length _ _ _ _ Hwf). lia. }
  split; [|split; [|split]].
  - intros sc t (sh0 & h & m & Hle & Wc & W0 & Hok) ([d e] & Ld & Le & ->). cbn [fst snd] in *.
    destruct (bool_scalar_masking W ps d e HW Ld Le) as (masks & Lm & Hmask).
    set (cs := mts_iter sc) in *.
    assert (Lcs : length cs = m) by (apply (mts_iter_length _ _ _ _ Wc)).
    assert (L0 : length (mts_iter sh0) = m) by (apply (mts_iter_length _ _ _ _ W0)).
    set (hs := firstn (m - length ps) (mts_iter sh0) ++
               zip_with complete (skipn (m - length ps) cs) masks).
    assert (Lsk : length (skipn (m - length ps) cs) = length ps) by (rewrite skipn_length; lia).
    assert (Lz : length (zip_with complete (skipn (m - length ps) cs) masks) = length ps)
      by (rewrite zip_with_length, Lsk, Lm; apply Nat.min_id).
    assert (Lhs : length hs = m).
    { unfold hs. rewrite app_length, firstn_length, Lz, L0. lia. }
    assert (Hh : h < W) by (destruct Wc as ((A & _) & _ & _ & <- & _); auto).
    pose proof (mts_make_wf W h hs Hh) as Wh. rewrite Lhs in Wh.
    exists (mts_make W h hs), (mts_make W h hs), b'. split.
    + exists h, m. split; auto. split; auto. split; auto. rewrite mts_make_iter by auto.
      fold cs. unfold hs. rewrite <- (firstn_skipn (m - length ps) cs) at 1.
      apply Forall2_app; [|apply complete_ok; exact (eq_trans Lm (eq_sym Lsk))].
      assert (X : forall k x y, triples_ok x y -> Forall2 triple_ok (firstn k x) (firstn k y)).
      { clear. intros k x y H. revert k. induction H; intros [|k]; cbn; constructor; auto. }
      apply X; auto.
    + rewrite (SEND h m) by auto. unfold scalar_emsg. cbn [fst snd].
      pose proof (proj2 (Hmask party h m (mts_make W h hs) so Wh Hle)) as HH.
      rewrite (bool_compute_msg_spec W h m (mts_make W h hs) party so ps Wh Hle) in HH.
      rewrite Le. unfold nosimd.
      assert (HE : Some (scalar_msg W ps (rev (lastn (length ps) (mts_iter (mts_make W h hs)))), mts_make W h hs)
         = Some (BMsg (length ps) (words_of W e) (words_of W d), mts_make W h hs)).
      { apply HH. rewrite mts_make_iter by auto. unfold hs. rewrite lastn_app_exact by auto.
        apply complete_ab. exact (eq_trans Lm (eq_sym Lsk)). }
      apply (f_equal (fun o => match o with Some (x, _) => x | None => BMsg 0 [] [] end)) in HE.
      cbv beta iota in HE. rewrite HE. reflexivity.
  - intros sc sh t x y (h & m & Hle & Wc & W0 & Hok) S1.
    rewrite (SEND h m) in S1 by auto. apply Some_inj3 in S1. destruct S1 as (<- & _ & _).
    pose proof (LEN sh _ _ W0 Hle) as K.
    set (ms := rev (lastn (length ps) (mts_iter sh))).
    assert (Lms : length ms = length ps) by (unfold ms; rewrite rev_length; exact K).
    exists (zip_with (fun p mt => xorb (fst p) (mt_a mt)) ps ms,
            zip_with (fun p mt => xorb (snd p) (mt_b mt)) ps ms).
    cbn [fst snd]. rewrite !zip_with_length, Lms. split; [apply Nat.min_id|]. split; [apply Nat.min_id|].
    unfold scalar_emsg, scalar_msg, nosimd. cbn [fst snd]. cbv zeta.
    rewrite !words_of_raw by auto. reflexivity.
  - intros sc sh1 sh2 t x1 x2 y1 y2 (h & m & Hle & Wc & W1 & Ok1) (h2 & m2 & Hle2 & Wc2 & W2 & Ok2) S1 S2.
    assert (m2 = m) as ->.
    { pose proof (mts_iter_length _ _ _ _ Wc). pose proof (mts_iter_length _ _ _ _ Wc2). lia. }
    rewrite (SEND h m) in S1 by auto. rewrite (SEND h2 m) in S2 by auto.
    apply Some_inj3 in S1. destruct S1 as (S1 & _ & _).
    apply Some_inj3 in S2. destruct S2 as (S2 & _ & _). rewrite <- S1 in S2. clear S1.
    apply (f_equal (em_scalar (pr:=pr))) in S2. cbn [em_scalar] in S2. unfold same_last, lastn.
    pose proof (LEN sh1 _ _ W1 Hle) as K1. pose proof (LEN sh2 _ _ W2 Hle) as K2.
    unfold scalar_msg in S2. cbv zeta in S2.
    pose proof (f_equal bm_e S2) as E2. pose proof (f_equal bm_d S2) as E3. cbn [bm_e bm_d] in E2, E3.
    rewrite !words_of_raw in E2, E3 by auto.
    apply words_of_inj in E2; [|rewrite !zip_with_length, !rev_length; lia].
    apply words_of_inj in E3; [|rewrite !zip_with_length, !rev_length; lia].
    pose proof (mts_iter_length _ _ _ _ W1) as M1. pose proof (mts_iter_length _ _ _ _ W2) as M2.
    unfold lastn in *. rewrite M1, M2 in *.
    assert (X : forall k x y, triples_ok x y -> triples_ok (skipn k x) (skipn k y)).
    { clear. intros k x y H. revert k. unfold triples_ok. induction H; intros [|k]; cbn; auto. }
    apply (triples_det (skipn (m - length ps) (mts_iter sc))); auto.
    assert (Y : forall (f : bool * bool -> bool) (g : triple -> bool) qs us us',
       length us = length qs -> length us' = length qs ->
       zip_with (fun p mt => xorb (f p) (g mt)) qs us = zip_with (fun p mt => xorb (f p) (g mt)) qs us' ->
       map g us = map g us').
    { clear. intros f g. induction qs as [|q qs IH]; intros [|u us] [|u' us'] L L' E; try discriminate; auto.
      cbn in *. injection E as E0 E. f_equal; auto. destruct (f q), (g u), (g u'); cbn in *; congruence. }
    apply Y in E2; [|rewrite rev_length; auto..]. apply Y in E3; [|rewrite rev_length; auto..].
    rewrite !map_rev in E2, E3.
    apply (f_equal (@rev bool)) in E2. apply (f_equal (@rev bool)) in E3.
    rewrite !rev_involutive in E2, E3.
    revert E2 E3.
    generalize (skipn (m - length ps) (mts_iter sh1)) (skipn (m - length ps) (mts_iter sh2)).
    clear. induction l as [|x l IH]; intros [|y l'] E2 E3; try discriminate; auto.
    cbn in *. injection E2 as -> E2. injection E3 as -> E3. f_equal; auto.
  - intros sc sh1 sh2 t x1 y1 mc g (h & m & Hle & Wc & W1 & Ok1) (h2 & m2 & Hle2 & Wc2 & W2 & Ok2) Hs S1 R1.
    rewrite (SEND h m) in S1 by auto. apply Some_inj3 in S1. destruct S1 as (<- & <- & <-).
    exists sh2. rewrite (SEND h2 m2) by auto. unfold same_last in Hs. rewrite Hs. split; auto.
    assert (Hsz : bm_size (scalar_msg W ps (rev (lastn (length ps) (mts_iter sh2)))) = length ps).
    { unfold scalar_msg. cbn [bm_size]. rewrite zip_with_length, rev_length, (LEN sh2 h2 m2) by auto. apply Nat.min_id. }
    eapply (recv_scalar party l b' _ so _ mc h m sh1 h2 m2 sh2); eauto; try (rewrite Hsz; auto).
    rewrite <- Hs. exact R1.
Qed.

Variable ins : list (list bool).
Variable v : gid -> list bool.
Variable i0 i1 : istore pr.
Hypothesis Ht : typed ec.
Hypothesis Hv : valuation ec ins v.
Hypothesis Hww : whole_words W ec.
Hypothesis Hnd : NoDup (ec_inputs ec).
Hypothesis Hin : shares_of W (ec_simd ec 0) i0 i1 ins.

Definition PInv (ls : list elayer) (g0 g1 : gouts pr) : Prop :=
  (forall l, In l ls -> el_int (el_simd l) = []) /\
  exists Live Todo, sched_ok bool_ops ec Live Todo ls /\
    EInv (pr:=pr) ec (BR W ec v) (BI W) Live Todo g0 g1.

Definition PMsg (n : nat) (t : emsg pr) : Prop :=
  exists de, length (fst de) = n /\ length (snd de) = n /\ t = scalar_emsg W de.

(** Both parties' obligations in one layer. *)
Lemma both_layer l ls g0 g1 : PInv (l :: ls) g0 g1 ->
  exists a b,
    ofold (ex_ni (pr:=pr) 0 ec (ec_main_simd (pr:=pr) ec) i0) g0 (el_ni l) = Some a /\
    ofold (ex_ni (pr:=pr) 1 ec (ec_main_simd (pr:=pr) ec) i1) g1 (el_ni l) = Some b /\
    (el_int_count l = 0 -> PInv ls a b) /\
    (el_int_count l <> 0 ->
      (forall st0 st1, bool_setup_ok W (el_int_count l) st0 st1 ->
       exists m0 m1 st0' st1' a' b' a'' b'',
         ex_send (pr:=pr) 0 ec l st0 a = Some (m0, st0', a') /\
         ex_send (pr:=pr) 1 ec l st1 b = Some (m1, st1', b') /\
         ex_recv (pr:=pr) 0 ec l st0' m0 m1 a' = Some a'' /\
         ex_recv (pr:=pr) 1 ec l st1' m1 m0 b' = Some b'' /\ PInv ls a'' b'') /\
      exists so0 so1 ps0 ps1 a' b',
        length ps0 = el_int_count l /\ length ps1 = el_int_count l /\
        el_int (el_simd l) = [] /\
        omap (ec_gate ec) (el_int (el_scalar l)) = Some (repeat BAnd (el_int_count l)) /\
        (omap (fun g => c <- go_cell (pr:=pr) a g ;; cell_scalar c) (el_int (el_scalar l)) = Some so0 /\
         omap (fun g => c <- go_get (pr:=pr) a g ;; cell_scalar c)
           (concat (map (ec_parents ec) (el_int (el_scalar l)))) = Some (flat_pairs ps0) /\
         ofold go_free a (el_free (el_simd l)) = Some a' /\
         omap (fun g => c <- go_cell (pr:=pr) a' g ;; cell_scalar c) (el_int (el_scalar l)) = Some so0) /\
        (omap (fun g => c <- go_cell (pr:=pr) b g ;; cell_scalar c) (el_int (el_scalar l)) = Some so1 /\
         omap (fun g => c <- go_get (pr:=pr) b g ;; cell_scalar c)
           (concat (map (ec_parents ec) (el_int (el_scalar l)))) = Some (flat_pairs ps1) /\
         ofold go_free b (el_free (el_simd l)) = Some b' /\
         omap (fun g => c <- go_cell (pr:=pr) b' g ;; cell_scalar c) (el_int (el_scalar l)) = Some so1)).
Proof.
  intros (Hsc & Live & Todo & (HL & HS) & E).
  assert (Hd : el_int (el_simd l) = []) by (apply Hsc; left; auto).
  destruct (bool_int_sound W HW ec v ins Ht Hv Hww Live Todo l HL (or_intror Hd)) as (HI & HK).
  destruct (layer_pieces (pr:=pr) bool_ops ec (BR W ec v) (BI W) (BR_kind W ec v) (bool_setup_ok W)
    i0 i1 l Live Todo g0 g1 (bool_ni_sound W HW ec v ins Ht Hv Hnd i0 i1 Hin) HI HK
    (fun _ => Hd) HL E) as (a & b & N0 & N1 & E1 & Z & NZ).
  assert (HP : forall x y, EInv (pr:=pr) ec (BR W ec v) (BI W) (live_after Live l) (todo_after Todo l) x y ->
              PInv ls x y).
  { intros x y HE. split; [intros; apply Hsc; right; auto|]. eauto. }
  exists a, b. split; [exact N0|]. split; [exact N1|]. split; [auto|]. intros Hz. split.
  { intros st0 st1 Hok.
    destruct (NZ Hz st0 st1 Hok) as (m0 & m1 & st0' & st1' & a' & b' & a'' & b'' & A & B & C & D & EE).
    exists m0, m1, st0', st1', a', b', a'', b''. auto 9. }
  clear NZ Z.
  destruct (el_scalar_None (pr:=pr) bool_ops ec l Live Todo HL) as [Ks Kd].
  change (@ec_simd (p_gate pr) ec) with (@ec_simd bool_gate ec) in *.
  assert (Hint : forall g, In g (el_int (el_scalar l)) -> In g (el_int l))
    by (intros; apply (el_int_split (pr:=pr) (BR W ec v) (BI W)); auto).
  assert (Hs : forall g, In g (el_int (el_scalar l)) -> ec_gate ec g = Some BAnd).
  { intros g Hg. destruct (lo_int _ _ _ _ _ HL g (Hint g Hg)) as ((gate & A & B) & _).
    destruct gate; try discriminate. auto. }
  assert (Hcnt : el_int_count l = length (el_int (el_scalar l))).
  { rewrite (el_int_count_lanes W HW ec) by (intros; apply (lo_simd _ _ _ _ _ HL) in H; tauto).
    rewrite Hd. cbn [map sum_list fold_right]. rewrite Nat.add_0_r.
    clear - Ks. induction (el_int (el_scalar l)) as [|g gs IH]; auto.
    cbn [map]. change (sum_list (?a :: ?b)) with (a + sum_list b). rewrite IH by (intros; apply Ks; simpl; auto).
    unfold lanes. rewrite Ks by (simpl; auto). auto. }
  destruct (fetch_outs_scalar (pr:=pr) ec (BR W ec v) (BI W) _ _ a b (el_int (el_scalar l)) E1)
    as (so0 & so1 & O0 & O1 & HO).
  { intros g Hg. destruct (lo_int _ _ _ _ _ HL g (Hint g Hg)) as ((gate & A & _) & B & C & _).
    split; [split; auto|]. split; [exists gate; exact A|]. exact (Ks g Hg). }
  destruct (fetch_ins_scalar (pr:=pr) ec (BR W ec v) (BI W) (BR_kind W ec v) _ _ a b
     (concat (map (ec_parents ec) (el_int (el_scalar l)))) E1) as (si0 & si1 & SI0 & SI1 & HSI).
  { intros p Hp. apply in_concat in Hp. destruct Hp as (x & Hx & Hp). apply in_map_iff in Hx.
    destruct Hx as (g & <- & Hg). split.
    - apply (lo_int _ _ _ _ _ HL g (Hint g Hg)); auto.
    - exact (proj1 HK g p Hg Hp). }
  change (all3 (RSb W ec v) (concat (map (@ec_parents bool_gate ec) (el_int (el_scalar l)))) si0 si1) in HSI.
  destruct (pairs_scalar W HW ec v ins Ht Hv _ _ _ (fun g Hg => conj (Hs g Hg) (Ks g Hg)) HSI)
    as (ps0 & ps1 & -> & -> & L0 & L1 & _).
  assert (Hfr : freed l = el_free (el_simd l)).
  { unfold freed. destruct (Nat.eqb_spec (el_int_count l) 0); congruence. }
  destruct (EInv_free_all (pr:=pr) ec (BR W ec v) (BI W) (el_free (el_simd l)) _ _ a b E1)
    as (a' & b' & F0 & F1 & _ & B0 & B1).
  { intros f Hf. rewrite <- Hfr in Hf. apply (lo_free _ _ _ _ _ HL f Hf). }
  assert (Hnf : forall g, In g (el_int (el_scalar l)) -> ~ In g (el_free (el_simd l))).
  { intros g Hg Hf. rewrite <- Hfr in Hf.
    destruct (lo_int _ _ _ _ _ HL g (Hint g Hg)) as (_ & B & C & _).
    destruct (lo_free _ _ _ _ _ HL g Hf) as [_ [Hn|Hn]]; auto. }
  exists so0, so1, ps0, ps1, a', b'.
  split; [rewrite Hcnt; exact L0|]. split; [rewrite Hcnt; exact L1|]. split; [exact Hd|].
  split; [rewrite Hcnt; apply omap_and_gates; exact Hs|].
  split; (split; [assumption|split; [assumption|split; [assumption|]]]).
  - rewrite (free_cells l a a' _ cell_scalar); auto.
  - rewrite (free_cells l b b' _ cell_scalar); auto.
Qed.

Lemma mask01 : mask_layer (pr:=pr) ec 0 1 i0 i1 PInv (bool_setup_ok W) same_last PMsg.
Proof.
  intros l ls gc gh HI. destruct (both_layer l ls gc gh HI) as (a & b & N0 & N1 & Z & NZ).
  exists a, b. split; [exact N0|]. split; [exact N1|]. split; [exact Z|]. intros Hz n.
  destruct (NZ Hz) as (A & so0 & so1 & ps0 & ps1 & a' & b' & L0 & L1 & Hd & G & _ & (O & P & F & O')).
  split; [exact A|].
  pose proof (mask_party 1 l b b' so1 ps1) as M. unfold n. rewrite <- L1 in G |- *.
  exact (M G O P Hd F O').
Qed.

Lemma mask10 : mask_layer (pr:=pr) ec 1 0 i1 i0 (fun ls gc gh => PInv ls gh gc) (bool_setup_ok W) same_last PMsg.
Proof.
  intros l ls gc gh HI. destruct (both_layer l ls gh gc HI) as (a & b & N0 & N1 & Z & NZ).
  exists b, a. split; [exact N1|]. split; [exact N0|]. split; [exact Z|]. intros Hz n.
  destruct (NZ Hz) as (A & so0 & so1 & ps0 & ps1 & a' & b' & L0 & L1 & Hd & G & (O & P & F & O') & _).
  split.
  { intros sc sh Hok. apply setup_ok_sym in Hok.
    destruct (A sh sc Hok) as (m0 & m1 & st0' & st1' & x & y & x' & y' & B & C & D & E & I).
    exists m1, m0, st1', st0', y, x, y', x'. auto 9. }
  pose proof (mask_party 0 l a a' so0 ps0) as M. unfold n. rewrite <- L0 in G |- *.
  exact (M G O P Hd F O').
Qed.
End BoolPriv.
