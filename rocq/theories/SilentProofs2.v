(** Lemmas for silent OT: the parties. *)
From Coq Require Import ZArith List Bool Arith NArith Lia Permutation ZifyBool ZifyNat ZifyN.
Require Import Verif.Prelude Verif.PreludeProofs Verif.ZapUtilModel Verif.ZapUtilSpec Verif.ZapUtilProofs Verif.ZapUtilTheorems
  Verif.PprfModel Verif.PprfSpec Verif.PprfProofs Verif.PprfProofs2 Verif.PprfTheorems Verif.SilentModel Verif.SilentSpec Verif.SilentProofs.
Import ListNotations.
Open Scope nat_scope.

(** ** The rows of the PPRF output are blocks *)

Definition rows_ok (o : pprf_out) : Prop := match o with OTrans _ rows => Forall blocks_ok rows | OInter _ => True end.

Lemma upd_ok i x l : (x < 2 ^ 128)%N -> blocks_ok l -> blocks_ok (upd i x l).
Proof.
  unfold blocks_ok. intros Hx. revert i. induction l as [|y l IH]; intros i H; [destruct i; constructor|].
  inversion H; subst. destruct i; cbn [upd]; constructor; auto.
Qed.

Lemma copy_cols_rows trees step fin fuel : forall i k out, Forall blocks_ok out -> Forall blocks_ok (copy_cols trees step fin fuel i k out).
Proof.
  induction fuel as [|fuel IH]; intros i k out H; auto. cbn [copy_cols]. destruct (i <? fin); auto. apply IH.
  apply Forall_forall. intros row Hr. apply in_map_iff in Hr. destruct Hr as ([r row'] & <- & Hin). cbn [fst snd].
  apply upd_ok; [apply blk_lt; rewrite map_length, seq_length; lia|].
  rewrite Forall_forall in H. apply H. apply in_combine_r in Hin. auto.
Qed.

Lemma write_group_rows c g trees out out' : write_group c g trees out = Some out' -> rows_ok out -> rows_ok out'.
Proof.
  destruct out as [l|n rows]; cbn [write_group].
  - destruct (write_interleaved c g trees l); cbn [obind]; [|discriminate]. intros E _. injection E as <-. exact I.
  - unfold copy_out. destruct (pc_count c mod 8 =? 0); cbn [oassert obind]; [|discriminate].
    destruct (length (nth 0 trees []) mod 16 =? 0); cbn [oassert obind]; [|discriminate].
    destruct (16 <=? length (nth 0 trees [])); cbn [oassert obind]; [|discriminate].
    intros E H. injection E as <-. cbn [rows_ok] in *. apply copy_cols_rows. auto.
Qed.

Lemma send_rows enc H c f value roots ots order : forall out ms out', send_groups enc H c f value roots ots order out = Some (ms, out') ->
  rows_ok out -> rows_ok out'.
Proof.
  induction order as [|q order IH]; intros out ms out' E Ho; cbn [send_groups] in E.
  - injection E as _ <-. auto.
  - destruct (send_group enc H c f value roots ots (8 * q)) as [[m leaves]|]; cbn [obind] in E; [|discriminate].
    destruct (write_group c (8 * q) leaves out) as [o1|] eqn:Ew; cbn [obind] in E; [|discriminate].
    destruct (send_groups enc H c f value roots ots order o1) as [[ms2 o2]|] eqn:Es; cbn [obind] in E; [|discriminate].
    injection E as _ <-. eapply IH; [exact Es|]. eapply write_group_rows; eauto.
Qed.

Lemma recv_rows enc H c f choices ots ms : forall out out', recv_groups enc H c f choices ots ms out = Some out' ->
  rows_ok out -> rows_ok out'.
Proof.
  induction ms as [|m ms IH]; intros out out' E Ho; cbn [recv_groups] in E.
  - injection E as <-. auto.
  - destruct (recv_group enc H c f choices ots m) as [leaves|]; cbn [obind] in E; [|discriminate].
    destruct (write_group c (gm_g m) leaves out) as [o1|] eqn:Ew; cbn [obind] in E; [|discriminate].
    eapply IH; [exact E|]. eapply write_group_rows; eauto.
Qed.

Lemma zeros_rows c f : rows_ok (out_zeros c f).
Proof.
  destruct f; cbn [out_zeros rows_ok]; auto. apply Forall_forall. intros x Hx. apply repeat_spec in Hx. subst x. apply repeat0_ok.
Qed.

(** ** Base OTs *)

Lemma zip_firstn {A B C} (f : A -> B -> C) k : forall l m, firstn k (zip_with f l m) = zip_with f (firstn k l) (firstn k m).
Proof. induction k as [|k IH]; intros [|x l] [|y m]; cbn; auto. rewrite IH. auto. Qed.
Lemma zip_skipn {A B C} (f : A -> B -> C) k : forall l m, length l = length m -> skipn k (zip_with f l m) = zip_with f (skipn k l) (skipn k m).
Proof. induction k as [|k IH]; intros [|x l] [|y m] L; cbn; auto; try discriminate. Qed.

Lemma ots_match_firstn k s c r : ots_match s c r -> ots_match (firstn k s) (firstn k c) (firstn k r).
Proof. intros [L ->]. split; [rewrite !firstn_length; lia|apply zip_firstn]. Qed.
Lemma ots_match_skipn k s c r : ots_match s c r -> ots_match (skipn k s) (skipn k c) (skipn k r).
Proof. intros [L ->]. split; [rewrite !skipn_length; lia|apply zip_skipn; auto]. Qed.
Lemma ots_match_len s c r : ots_match s c r -> length s = length c /\ length r = length c.
Proof. intros [L ->]. rewrite zip_with_length. lia. Qed.

Lemma concat_slice {A} d (rows : list (list A)) : Forall (fun row => length row = d) rows -> forall t, t < length rows ->
  firstn d (skipn (t * d) (concat rows)) = nth t rows [].
Proof.
  induction 1 as [|row rows Hr F IH]; intros t Ht; [cbn in Ht; lia|]. destruct t as [|t]; cbn [concat nth].
  - cbn [Nat.mul skipn]. rewrite firstn_app, Hr, Nat.sub_diag. cbn [firstn]. rewrite app_nil_r, <- Hr. apply firstn_all.
  - replace (S t * d) with (length row + t * d) by lia. rewrite skipn_app. rewrite skipn_all2 by lia.
    replace (length row + t * d - length row) with (t * d) by lia. apply IH. cbn in Ht. lia.
Qed.
Lemma concat_total {A} d (rows : list (list A)) : Forall (fun row => length row = d) rows -> length (concat rows) = d * length rows.
Proof. induction 1; cbn [concat length]; [lia|]. rewrite app_length. lia. Qed.

Lemma shape_rows_nth {A} n d (l : list A) t : t < n -> nth t (shape_rows n d l) [] = firstn d (skipn (t * d) l).
Proof. intros H. unfold shape_rows. rewrite nth_map_seq; auto. Qed.

(** ** The noise positions *)

Lemma noise_app a b p : noise (a ++ b) p = noise a p || noise b p.
Proof. apply existsb_app. Qed.

Lemma noise_bound S m p : Forall (fun i => i < m) S -> m <= p -> noise S p = false.
Proof.
  intros F H. unfold noise. destruct (existsb (Nat.eqb p) S) eqn:E; auto. apply existsb_exists in E. destruct E as (x & Hx & Ex).
  apply Nat.eqb_eq in Ex. subst x. rewrite Forall_forall in F. specialize (F p Hx). lia.
Qed.

Lemma gap_noise g : forall s p, noise (map fst (filter snd (combine (seq s (length g)) g))) p = (s <=? p) && nth (p - s) g false.
Proof.
  induction g as [|b g IH]; intros s p.
  - cbn. destruct (p - s); rewrite andb_false_r; auto.
  - cbn [length seq combine filter snd]. destruct (Nat.leb_spec s p) as [H|H].
    + destruct (Nat.eq_dec p s) as [->|Hn].
      * rewrite Nat.sub_diag. cbn [nth andb]. destruct b.
        -- cbn [map fst]. unfold noise. cbn [existsb]. rewrite Nat.eqb_refl. auto.
        -- rewrite IH. destruct (Nat.leb_spec (S s) s); [lia|auto].
      * replace (p - s) with (S (p - S s)) by lia. cbn [nth andb].
        assert (E : noise (map fst (filter snd (combine (seq (S s) (length g)) g))) p = nth (p - S s) g false).
        { rewrite IH. destruct (Nat.leb_spec (S s) p); [auto|lia]. }
        destruct b; auto. cbn [map fst]. unfold noise at 1. cbn [existsb]. destruct (Nat.eqb_spec p s); [lia|]. exact E.
    + cbn [andb].
      assert (E : noise (map fst (filter snd (combine (seq (S s) (length g)) g))) p = false).
      { rewrite IH. destruct (Nat.leb_spec (S s) p); [lia|auto]. }
      destruct b; auto. cbn [map fst]. unfold noise at 1. cbn [existsb]. destruct (Nat.eqb_spec p s); [lia|]. exact E.
Qed.

Lemma gap_bound g : forall s, Forall (fun i => i < s + length g) (map fst (filter snd (combine (seq s (length g)) g))).
Proof.
  intros s. apply Forall_forall. intros x Hx. apply in_map_iff in Hx. destruct Hx as ([y b] & <- & Hin). apply filter_In in Hin.
  destruct Hin as [Hin _]. apply in_combine_l in Hin. apply in_seq in Hin. cbn [fst]. lia.
Qed.

Lemma recv_points_nth umax pc f choices t : t < length choices ->
  nth t (recv_points umax pc f choices) 0 = interleave_point umax (active_path (nth t choices [])) t (length choices) (pc_domain pc) f.
Proof.
  intros H. unfold recv_points. rewrite (nth_map_d _ _ _ (0, [])) by (rewrite combine_length, seq_length; lia).
  rewrite combine_nth by (rewrite seq_length; auto). rewrite seq_nth by auto. reflexivity.
Qed.

Lemma recv_points_len umax pc f choices : length (recv_points umax pc f choices) = length choices.
Proof. unfold recv_points. rewrite map_length, combine_length, seq_length. lia. Qed.

(** ** Sizes *)

Lemma enc_sizes bits e pc : enc_ok e -> (N.of_nat (enc_per e) < 2 ^ N.of_nat bits)%N -> enc_pprf bits e = Some pc ->
  pc_count pc = enc_parts e /\ pc_domain pc = enc_per e /\ sizes_ok pc (enc_format e).
Proof.
  intros (_ & H8 & Hp8 & Hp & Ho) Hb E. destruct (C34_depth _ _ _ _ Hb E) as (A & B & D). split; auto. split; auto.
  unfold sizes_ok. rewrite A. split; auto. split; auto. rewrite B in *.
  assert (P2 : forall k, pc_depth pc <= k -> enc_per e <= 2 ^ k).
  { intros k Hk. eapply Nat.le_trans; [exact D|]. apply Nat.pow_le_mono_r; lia. }
  assert (Hmul : enc_per e >= 8) by (pose proof (Nat.div_mod (enc_per e) 8 ltac:(lia)); lia).
  destruct e as [c a|k c M]; cbn [enc_format enc_per] in *.
  - destruct (le_lt_dec 4 (pc_depth pc)); auto. specialize (P2 3 ltac:(lia)). cbn in P2. lia.
  - split.
    + destruct (le_lt_dec 2 (pc_depth pc)); auto. specialize (P2 1 ltac:(lia)). cbn in P2. lia.
    + pose proof (Nat.div_mod (lc_per c) 8 ltac:(lia)) as D8. rewrite Hp8, Nat.add_0_r in D8. rewrite D8.
      replace (8 * (lc_per c / 8)) with (4 * (lc_per c / 8) * 2) by lia. apply Nat.mod_mul. lia.
Qed.

(** ** The sparse vectors of both parties *)

Lemma silent_core enc H aes bits umax e pc sbase rbase choices gap_choices roots order delta :
  enc_ok e -> inputs_ok bits umax e pc sbase rbase choices gap_choices roots order ->
  let S := noise_points umax pc e choices gap_choices in
  Forall (fun p => p < enc_N2 e) S /\
  exists ms vals rtS, rt_shape e rtS /\
    correlated_send enc H aes bits e sbase delta roots order = (b <- send_compress e rtS ;; Some (ms, vals, b)) /\
    forall ms', Permutation ms ms' -> exists rtR, rt_shape e rtR /\
      (forall packed, correlated_receive enc H aes bits umax e rbase choices gap_choices ms' vals packed = recv_compress e rtR S packed) /\
      forall p r, p < enc_N2 e -> r < 128 ->
        rt_bit rtR p r = xorb (rt_bit rtS p r) (noise S p && N.testbit delta (N.of_nat r)).
Proof.
  intros He [Hb Hu Hpc Hch Hrows Hgap Hbase Hroots Hord Hpts] S.
  destruct (enc_sizes bits e pc He Hb Hpc) as (Ec & Ed & Hsz). assert (He0 := He). destruct He0 as (EN & H8 & Hp8 & Hp0 & Ho).
  set (d := pc_depth pc). set (n := d * enc_parts e).
  assert (Lcc : length (concat choices) = n) by (rewrite (concat_total d) by auto; rewrite Hch; reflexivity).
  destruct (ots_match_len _ _ _ Hbase) as [Ls Lr]. rewrite app_length, Lcc, Hgap in Ls, Lr.
  assert (Hgapm : ots_match (skipn n sbase) gap_choices (skipn n rbase)).
  { pose proof (ots_match_skipn n _ _ _ Hbase) as M. rewrite skipn_app, <- Lcc, skipn_all, Nat.sub_diag in M. cbn [skipn app] in M.
    rewrite Lcc in M. exact M. }
  assert (Hmain : ots_match (firstn n sbase) (concat choices) (firstn n rbase)).
  { pose proof (ots_match_firstn n _ _ _ Hbase) as M. rewrite firstn_app, Lcc, Nat.sub_diag in M. cbn [firstn] in M.
    rewrite app_nil_r in M. rewrite <- Lcc in M at 2. rewrite firstn_all in M. exact M. }
  assert (Hpt : forall t, t < enc_parts e ->
             interleave_point umax (active_path (nth t choices [])) t (enc_parts e) (enc_per e) (enc_format e) < enc_N2 e).
  { intros t Ht. rewrite Forall_forall in Hpts. rewrite <- Ed, <- Hch. rewrite <- recv_points_nth by lia. apply Hpts. apply nth_In.
    rewrite recv_points_len. lia. }
  assert (Hin : enc_format e = Interleaved -> forall t, t < enc_parts e -> punctured (nth t choices []) < enc_per e).
  { intros Hf t Ht. specialize (Hpt t Ht). rewrite Hf in Hpt. cbn [interleave_point] in Hpt. rewrite C34_point in Hpt.
    destruct (Nat.leb_spec (enc_per e) (punctured (nth t choices []))); [lia|auto]. }
  destruct (C34_expand enc H pc (enc_format e) umax delta roots (shape_rows (enc_parts e) d (firstn n sbase)) choices
              (shape_rows (enc_parts e) d (firstn n rbase)) order Hsz) as (ms & outS & ES & ShS & HR).
  { rewrite Ec; auto. } { rewrite Ec; unfold shape_rows; rewrite map_length, seq_length; auto. } { rewrite Ec; auto. }
  { rewrite Ec; unfold shape_rows; rewrite map_length, seq_length; auto. }
  { rewrite Ec. intros t Ht. split; [|split].
    - rewrite Forall_forall in Hrows. apply Hrows. apply nth_In. lia.
    - rewrite !shape_rows_nth by auto. rewrite <- (concat_slice d choices Hrows t) by lia.
      apply ots_match_firstn, ots_match_skipn. exact Hmain.
    - intros Hf. rewrite Ed. auto. }
  { rewrite Ec. auto. }
  assert (Hgp : forall x, In x S -> x < enc_N2 e).
  { intros x Hx. unfold S, noise_points in Hx. apply in_app_or in Hx. destruct Hx as [Hx|Hx].
    - rewrite Forall_forall in Hpts. auto.
    - pose proof (gap_bound gap_choices (enc_parts e * enc_per e)) as B. rewrite Forall_forall in B. specialize (B x Hx). rewrite Hgap in B. lia. }
  split; [apply Forall_forall; exact Hgp|].
  (* the common parts of both functions *)
  assert (Esb : split_base pc (enc_gap e) sbase = Some (shape_rows (enc_parts e) d (firstn n sbase), skipn n sbase)).
  { unfold split_base. rewrite Ec. fold d. fold n. rewrite Ls, Nat.eqb_refl. reflexivity. }
  assert (Erb : split_base pc (enc_gap e) rbase = Some (shape_rows (enc_parts e) d (firstn n rbase), skipn n rbase)).
  { unfold split_base. rewrite Ec. fold d. fold n. rewrite Lr, Nat.eqb_refl. reflexivity. }
  assert (LgS : length (skipn n sbase) = enc_gap e) by (rewrite skipn_length; lia).
  assert (LgR : length (skipn n rbase) = enc_gap e) by (rewrite skipn_length; lia).
  pose proof (send_rows _ _ _ _ _ _ _ _ _ _ _ ES (zeros_rows _ _)) as RS.
  assert (Hrr : forall ms' outR, receiver_expand enc H pc (enc_format e) choices (shape_rows (enc_parts e) d (firstn n rbase)) ms' = Some outR -> rows_ok outR).
  { intros ms' outR E. unfold receiver_expand in E. destruct ((pc_count pc + 7) / 8 <=? length (firstn (pc_count pc / 8) ms')); cbn [oassert obind] in E; [|discriminate].
    eapply recv_rows; [exact E|apply zeros_rows]. }
  exists ms, (snd (gap_send aes (skipn n sbase) delta)).
  unfold correlated_send. rewrite Hpc. cbn [obind]. rewrite Esb. cbn [obind]. rewrite ES. cbn [obind].
  rewrite LgS. unfold correlated_receive. rewrite Hpc. cbn [obind]. rewrite Erb. cbn [obind]. rewrite LgR.
  destruct (Nat.eq_dec (enc_gap e) 0) as [G0|G0].
  - (* no gap *)
    assert (Eg : gap_choices = []) by (destruct gap_choices; auto; cbn in Hgap; lia).
    assert (ES' : S = recv_points umax pc (enc_format e) choices) by (unfold S, noise_points; rewrite Eg; cbn; apply app_nil_r).
    assert (Hns : match e with ELib Silver _ _ => False | _ => True end).
    { destruct e as [|[] c M]; auto. cbn [enc_gap] in G0. lia. }
    assert (Hwg : forall out tail, with_gap e true out tail = Some (Arr out)) by (intros; destruct e as [|[] c M]; auto; contradiction).
    assert (Hshape : forall out, shape pc (enc_format e) out -> rows_ok out -> rt_shape e (Arr out)).
    { intros out Sh R. clear ES. destruct e as [c a|[] c M]; destruct out as [l|m rows]; cbn [enc_format shape] in Sh; try contradiction.
      - destruct Sh as (En & Lrow & Lrr). cbn [rt_shape rows_ok enc_parts enc_per enc_N2 enc_gap] in *.
        assert (Hm : qc_N2 c mod 128 = 0) by apply Ho.
        assert (Hn2 : m = qc_n2blocks c).
        { rewrite En, Ec, Ed. unfold qc_n2blocks. rewrite (Nat.mul_comm (qc_parts c)). replace (qc_per c * qc_parts c) with (qc_N2 c) by lia.
          pose proof (Nat.div_mod (qc_N2 c) 128 ltac:(lia)). symmetry. apply (Nat.div_unique _ 128 _ 127); lia. }
        split; auto. split; auto. apply Forall_forall. intros row Hr. destruct (In_nth _ _ [] Hr) as (i & Hi & <-). split; [apply Lrr; lia|].
        rewrite Forall_forall in R. auto.
      - cbn [rt_shape enc_parts enc_per enc_N2 enc_gap] in *. rewrite Sh, Ec, Ed. rewrite Nat.mul_comm. lia.
      - cbn [rt_shape enc_parts enc_per enc_N2 enc_gap] in *. rewrite Sh, Ec, Ed. rewrite Nat.mul_comm. lia. }
    assert (Hpos : enc_N2 e <= out_positions (pc_count pc) (pc_domain pc) (enc_format e)).
    { rewrite Ec, Ed, EN, G0, Nat.add_0_r, (Nat.mul_comm (enc_per e)). unfold out_positions. destruct (enc_format e); [|lia].
      pose proof (Nat.div_mod (enc_parts e * enc_per e + 127) 128 ltac:(lia)). pose proof (Nat.mod_upper_bound (enc_parts e * enc_per e + 127) 128 ltac:(lia)). lia. }
    exists (Arr outS). split; [apply Hshape; auto|]. rewrite G0. cbn [Nat.eqb].
    split; [destruct (gap_send aes (skipn n sbase) delta); rewrite Hwg; reflexivity|].
    intros ms' Pm. destruct (HR ms' Pm) as (outR & ER & ShR & Bits). exists (Arr outR). split; [apply Hshape; eauto|]. split.
    + intros packed. rewrite ER. cbn [obind]. rewrite Hwg. reflexivity.
    + intros p r Hp Hr. cbn [rt_bit]. specialize (Bits p r ltac:(lia) Hr). rewrite ES'. unfold noise. rewrite <- Bits.
      rewrite <- xorb_assoc, xorb_nilpotent, xorb_false_l. reflexivity.
  - (* Silver *)
    destruct e as [c a|[] c M]; cbn [enc_gap] in G0; try lia. cbn [enc_format enc_N2 enc_parts enc_per enc_gap enc_req] in *.
    destruct outS as [lS|m rows]; [|cbn [shape] in ShS; contradiction]. cbn [shape] in ShS.
    assert (Hf : forall A (x y : A), (if lc_gap c =? 0 then x else y) = y) by (intros A x y; destruct (Nat.eqb_spec (lc_gap c) 0); [lia|auto]).
    set (g := gap_send aes (skipn n sbase) delta).
    assert (Lt : length (fst g) = lc_gap c) by (unfold g, gap_send; cbn [fst]; rewrite map_length; auto).
    assert (Lv : length (snd g) = lc_gap c) by (unfold g, gap_send; cbn [snd]; rewrite map_length; auto).
    assert (LlS : length lS = lc_per c * lc_parts c) by (rewrite ShS, Ec, Ed; apply Nat.mul_comm).
    exists (Vec (lS ++ fst g)). split; [cbn [rt_shape]; rewrite app_length; lia|]. split.
    { destruct g as [tl vl] eqn:Eg. unfold with_gap. rewrite Hf. cbn [obind fst snd]. reflexivity. }
    intros ms' Pm. destruct (HR ms' Pm) as (outR & ER & ShR & Bits).
    destruct outR as [lR|m rows]; [|cbn [shape] in ShR; contradiction]. cbn [shape] in ShR.
    assert (LlR : length lR = lc_per c * lc_parts c) by (rewrite ShR, Ec, Ed; apply Nat.mul_comm).
    pose proof (C35_correct aes _ _ delta _ Hgapm) as C35. fold g in C35.
    exists (Vec (lR ++ gap_receive aes (skipn n rbase) gap_choices (snd g))). split.
    { cbn [rt_shape]. rewrite app_length, C35, zip_with_length, Lt, Hgap. lia. }
    split.
    { intros packed. rewrite ER. cbn [obind]. unfold with_gap. rewrite Hf. reflexivity. }
    intros p r Hp Hr. cbn [rt_bit]. unfold S, noise_points. cbn [enc_format enc_parts enc_per]. rewrite noise_app, gap_noise.
    assert (Fp : Forall (fun i => i < lc_parts c * lc_per c) (recv_points umax pc Interleaved choices)).
    { apply Forall_forall. intros x Hx. destruct (In_nth _ _ 0 Hx) as (t & Ht & <-). rewrite recv_points_len in Ht. rewrite recv_points_nth by auto.
      rewrite C34_point, Hch, Ed. apply (C37_inside_partial umax (lc_parts c) (lc_per c) Interleaved); [auto|lia|apply Hin; auto; lia|discriminate]. }
    destruct (Nat.ltb_spec p (lc_per c * lc_parts c)) as [Hlt|Hge].
    + rewrite !app_nth1 by lia. destruct (Nat.leb_spec (lc_parts c * lc_per c) p); [lia|]. cbn [andb]. rewrite orb_false_r.
      assert (Hpos : p < out_positions (pc_count pc) (pc_domain pc) Interleaved) by (rewrite Ec, Ed; cbn [out_positions]; lia).
      specialize (Bits p r Hpos Hr). cbn [out_bit] in Bits. unfold noise. rewrite <- Bits. rewrite <- xorb_assoc, xorb_nilpotent, xorb_false_l. reflexivity.
    + rewrite (noise_bound _ _ _ Fp) by lia. cbn [orb]. destruct (Nat.leb_spec (lc_parts c * lc_per c) p); [|lia]. cbn [andb].
      rewrite !app_nth2 by lia. rewrite LlR, LlS. replace (p - lc_parts c * lc_per c) with (p - lc_per c * lc_parts c) by lia.
      rewrite C35. set (q := p - lc_per c * lc_parts c). assert (Hq : q < lc_gap c) by (unfold q; lia).
      clearbody q. clear - Hq Lt Hgap. revert Hq Lt Hgap. generalize (fst g) as tl. generalize (lc_gap c) as k. intros k tl Hq Lt Lg.
      revert q k tl Hq Lt Lg. induction gap_choices as [|b gs IH]; intros q k tl Hq Lt Lg; [cbn in Lg; lia|].
      destruct tl as [|x tl]; [cbn in *; lia|]. destruct q as [|q]; cbn [zip_with nth].
      * destruct b; cbn [andb]; [apply N.lxor_spec|rewrite xorb_false_r; auto].
      * cbn in Lt, Lg. apply (IH q (k - 1) tl); lia.
Qed.
