(** C57: silent OT from the base OTs to the correlated and random OTs, for all codes;
    C58: the boolean triples made from it. *)
From Coq Require Import ZArith Znumtheory List Bool Arith NArith Lia Permutation ZifyBool ZifyNat ZifyN.
Require Import Verif.Prelude Verif.PreludeProofs Verif.ZapUtilModel Verif.ZapUtilSpec Verif.ZapUtilProofs Verif.ZapUtilTheorems
  Verif.PprfModel Verif.PprfSpec Verif.PprfProofs Verif.PprfProofs2 Verif.PprfTheorems Verif.SilentModel Verif.SilentSpec
  Verif.SilentProofs Verif.SilentProofs2.
Import ListNotations.
Open Scope nat_scope.

(** ** C57 *)

(** For every code, all base OTs, choices, seeds, orders of the threads and of the
    messages: the outputs satisfy a_i = b_i + c_i * delta, and the choices c are the
    codeword of the receiver's noise positions. *)
Theorem C57_correlated : forall enc H aes bits umax e pc sbase rbase choices gap_choices roots order delta,
  enc_ok e -> inputs_ok bits umax e pc sbase rbase choices gap_choices roots order ->
  exists ms vals b, correlated_send enc H aes bits e sbase delta roots order = Some (ms, vals, b) /\
    forall ms', Permutation ms ms' ->
    exists a c, correlated_receive enc H aes bits umax e rbase choices gap_choices ms' vals false = Some (a, Some c) /\
      let cw := code_word e (noise (noise_points umax pc e choices gap_choices)) in
      correlated (out_count e) delta a b cw /\
      (forall i, i < out_count e -> nth i c 0%N = N.b2n (cw i)).
Proof.
  intros enc H aes bits umax e pc sbase rbase choices gap_choices roots order delta He Hi.
  destruct (silent_core enc H aes bits umax e pc sbase rbase choices gap_choices roots order delta He Hi)
    as (F & ms & vals & rtS & ShS & ES & HR).
  destruct (send_compress_ok e rtS He ShS) as (b & Eb & Lb & Bb). rewrite Eb in ES. cbn [obind] in ES.
  exists ms, vals, b. split; auto. intros ms' Pm. destruct (HR ms' Pm) as (rtR & ShR & ER & Bits).
  destruct (recv_compress_ok e rtR _ He ShR F) as [(a & c & E & La & Lc & Bc & Ba) _].
  exists a, c. rewrite ER. split; auto. intros cw. split; auto. split; auto. split; auto. intros i r Hlt Hr.
  rewrite Ba, Bb by auto. unfold cw. rewrite <- code_word_lin. apply code_word_ext; auto.
Qed.
Print Assumptions C57_correlated.

(** The same with the choices packed into the least significant bits. *)
Theorem C57_packed : forall enc H aes bits umax e pc sbase rbase choices gap_choices roots order delta,
  enc_ok e -> inputs_ok bits umax e pc sbase rbase choices gap_choices roots order ->
  exists ms vals b, correlated_send enc H aes bits e sbase delta roots order = Some (ms, vals, b) /\
    forall ms', Permutation ms ms' ->
    exists a, correlated_receive enc H aes bits umax e rbase choices gap_choices ms' vals true = Some (a, None) /\
      correlated_packed (out_count e) delta a b (code_word e (noise (noise_points umax pc e choices gap_choices))).
Proof.
  intros enc H aes bits umax e pc sbase rbase choices gap_choices roots order delta He Hi.
  destruct (silent_core enc H aes bits umax e pc sbase rbase choices gap_choices roots order delta He Hi)
    as (F & ms & vals & rtS & ShS & ES & HR).
  destruct (send_compress_ok e rtS He ShS) as (b & Eb & Lb & Bb). rewrite Eb in ES. cbn [obind] in ES.
  exists ms, vals, b. split; auto. intros ms' Pm. destruct (HR ms' Pm) as (rtR & ShR & ER & Bits).
  destruct (recv_compress_ok e rtR _ He ShR F) as [_ (a & E & La & Ba)].
  exists a. rewrite ER. split; auto. split; auto. split; auto. intros i Hlt. split.
  - change 0%N with (N.of_nat 0) at 2. rewrite Ba by (auto; lia). reflexivity.
  - intros r Hr. rewrite Ba by (auto; lia). destruct (Nat.eqb_spec r 0); [lia|]. rewrite Bb by (auto; lia).
    rewrite <- code_word_lin. apply code_word_ext; auto. intros p Hp. apply Bits; auto. lia.
Qed.
Print Assumptions C57_packed.

(** Random OT: for every hash function the receiver's string is the sender's string
    selected by its choice, and the choices are the codeword. *)
Theorem C57_random : forall enc H aes cr bits umax e pc sbase rbase choices gap_choices roots order delta,
  enc_ok e -> inputs_ok bits umax e pc sbase rbase choices gap_choices roots order ->
  exists ms vals sent, random_send enc H aes cr bits e sbase delta roots order = Some (ms, vals, sent) /\
    length sent = out_count e /\
    forall ms', Permutation ms ms' ->
    exists received ch, random_receive enc H aes cr bits umax e rbase choices gap_choices ms' vals = Some (received, ch) /\
      length received = out_count e /\ length ch = out_count e /\
      forall i, i < out_count e ->
        nth i ch false = code_word e (noise (noise_points umax pc e choices gap_choices)) i /\
        nth i received 0%N = (if nth i ch false then snd (nth i sent (0, 0)%N) else fst (nth i sent (0, 0)%N)).
Proof.
  intros enc H aes cr bits umax e pc sbase rbase choices gap_choices roots order delta He Hi.
  destruct (C57_packed enc H aes bits umax e pc sbase rbase choices gap_choices roots order delta He Hi) as (ms & vals & b & ES & HR).
  exists ms, vals, (silent_send_hash cr delta b). unfold random_send. rewrite ES. cbn [obind]. split; auto.
  assert (Lb : length b = out_count e) by (destruct (HR ms (Permutation_refl _)) as (a & _ & _ & L & _); auto).
  split; [unfold silent_send_hash; rewrite map_length; auto|]. intros ms' Pm.
  destruct (HR ms' Pm) as (a & ER & La & _ & Ba). unfold random_receive. rewrite ER. cbn [obind]. unfold silent_recv_hash.
  eexists. eexists. split; [reflexivity|]. rewrite !map_length. split; auto. split; auto. intros i Hlt. destruct (Ba i Hlt) as [B0 Br].
  rewrite (nth_map_d _ _ _ 0%N) by lia. split; auto. rewrite B0. unfold silent_send_hash. rewrite (nth_map_d _ _ _ 0%N) by lia.
  rewrite (nth_map_d _ _ _ 0%N) by lia.
  set (w := code_word e (noise (noise_points umax pc e choices gap_choices)) i) in *.
  assert (E : N.land (nth i a 0%N) (N.lxor blk_ones 1)
            = N.lxor (N.land (nth i b 0%N) (N.lxor blk_ones 1)) (if w then N.land delta (N.lxor blk_ones 1) else 0%N)).
  { apply N.bits_inj. intros r. rewrite N.lxor_spec, !N.land_spec. rewrite (N.lxor_comm blk_ones 1).
    destruct (N.ltb_spec r 128) as [Hr|Hr].
    - replace (N.testbit (if w then N.land delta (N.lxor 1 blk_ones) else 0%N) r)
        with (w && N.testbit delta r && N.testbit (N.lxor 1 blk_ones) r) by (destruct w; rewrite ?N.land_spec, ?N.bits_0; auto).
      destruct (N.eq_dec r 0) as [->|Hn].
      + replace (N.testbit (N.lxor 1 blk_ones) 0) with false by reflexivity. rewrite !andb_false_r. reflexivity.
      + replace (N.testbit (N.lxor 1 blk_ones) r) with true.
        * rewrite !andb_true_r. specialize (Br (N.to_nat r) ltac:(lia)). rewrite N2Nat.id in Br. exact Br.
        * symmetry. rewrite N.lxor_spec. unfold blk_ones. rewrite N.ones_spec_low by lia. change 1%N with (2 ^ 0)%N.
          rewrite N.pow2_bits_false by lia. reflexivity.
    - replace (N.testbit (N.lxor 1 blk_ones) r) with false.
      + rewrite !andb_false_r, xorb_false_l. destruct w; [|rewrite N.bits_0; auto]. rewrite N.land_spec.
        rewrite N.lxor_spec. unfold blk_ones. rewrite N.ones_spec_high by lia. change 1%N with (2 ^ 0)%N.
        rewrite N.pow2_bits_false by lia. cbn. rewrite andb_false_r. auto.
      + symmetry. rewrite N.lxor_spec. unfold blk_ones. rewrite N.ones_spec_high by lia. change 1%N with (2 ^ 0)%N.
        rewrite N.pow2_bits_false by lia. reflexivity. }
  rewrite E. destruct w; cbn [fst snd]; [reflexivity|]. rewrite N.lxor_0_r. reflexivity.
Qed.
Print Assumptions C57_random.

(** The choices sampled by the receiver are inside of the sparse vector. *)
Theorem C57_sampled : forall umax bits e pc rnd choices,
  enc_pprf bits e = Some pc -> enc_parts e mod 8 = 0 -> Forall (fun row => length row = pc_depth pc) rnd ->
  sample_choice_bits umax bits e rnd = Some choices ->
  length choices = enc_parts e /\ Forall (fun row => length row = pc_depth pc) choices /\
  Forall (fun p => p < enc_N2 e) (recv_points umax pc (enc_format e) choices).
Proof.
  intros umax bits e pc rnd choices Hpc H8 Hr E. unfold sample_choice_bits in E. rewrite Hpc in E. cbn [obind] in E.
  assert (Ec : pc_count pc = enc_parts e).
  { unfold enc_pprf, pprf_conf_new in Hpc. destruct (log2_ceil bits (N.of_nat (enc_per e))); cbn [obind] in Hpc; [|discriminate].
    injection Hpc as <-. reflexivity. }
  replace (next_mult (pc_count pc) 8) with (enc_parts e) in E.
  2:{ rewrite Ec. unfold next_mult. pose proof (Nat.div_mod (enc_parts e) 8 ltac:(lia)) as D. rewrite H8, Nat.add_0_r in D.
      rewrite (Nat.mul_comm _ 8). rewrite D at 1. f_equal. apply (Nat.div_unique _ 8 _ 7); lia. }
  assert (G : forall n s rnd rows, Forall (fun row => length row = pc_depth pc) rnd ->
            sample_rows umax pc (enc_format e) (enc_N2 e) (seq s n) rnd = Some rows ->
            length rows = n /\ Forall (fun row => length row = pc_depth pc) rows /\
            forall j, j < n -> interleave_point umax (active_path (nth j rows [])) (s + j) (pc_count pc) (pc_domain pc) (enc_format e) < enc_N2 e).
  { clear E Hr rnd choices. induction n as [|n IH]; intros s rnd rows Hr E; cbn [seq sample_rows] in E.
    - injection E as <-. repeat split; auto. intros; lia.
    - destruct (interleave_point umax 0 s (pc_count pc) (pc_domain pc) (enc_format e) <? enc_N2 e); cbn [oassert obind] in E; [|discriminate].
      destruct (sample_row umax pc (enc_format e) (enc_N2 e) s rnd) as [[row rnd']|] eqn:Er; cbn [obind] in E; [|discriminate].
      destruct (sample_rows umax pc (enc_format e) (enc_N2 e) (seq (S s) n) rnd') as [rest|] eqn:Es; cbn [obind] in E; [|discriminate].
      injection E as <-.
      assert (R : length row = pc_depth pc /\ Forall (fun row => length row = pc_depth pc) rnd' /\
                  interleave_point umax (active_path row) s (pc_count pc) (pc_domain pc) (enc_format e) < enc_N2 e).
      { clear - Hr Er. induction rnd as [|x rnd IH]; cbn [sample_row] in Er; [discriminate|]. inversion Hr; subst.
        destruct (Nat.ltb_spec (interleave_point umax (active_path x) s (pc_count pc) (pc_domain pc) (enc_format e)) (enc_N2 e)).
        - injection Er as <- <-. auto.
        - apply IH; auto. }
      destruct R as (R1 & R2 & R3). destruct (IH _ _ _ R2 Es) as (I1 & I2 & I3). split; [cbn; lia|]. split; [constructor; auto|].
      intros [|j] Hj; cbn [nth]; [rewrite Nat.add_0_r; auto|]. replace (s + S j) with (S s + j) by lia. apply I3. lia. }
  destruct (G _ _ _ _ Hr E) as (G1 & G2 & G3). split; auto. split; auto. apply Forall_forall. intros x Hx.
  destruct (In_nth _ _ 0 Hx) as (t & Ht & <-). rewrite recv_points_len in Ht. rewrite recv_points_nth by auto.
  rewrite G1. rewrite <- Ec. apply (G3 t). lia.
Qed.
Print Assumptions C57_sampled.

(** ** Configurations *)

Lemma next_prime_odd n p : is_next_prime n p -> (2 <= n)%N -> Nat.odd (N.to_nat p) = true.
Proof.
  intros (H1 & Hp & _) H2. destruct (Nat.odd (N.to_nat p)) eqn:E; auto. exfalso.
  rewrite <- Nat.negb_even in E. apply negb_false_iff in E. apply Nat.even_spec in E. destruct E as [k Hk].
  assert (D : (2 | Z.of_N p)%Z) by (exists (Z.of_nat k); lia).
  apply prime_divisors in D; auto. lia.
Qed.

(** Every quasi-cyclic configuration (noise weight 176) meets [enc_ok].  Partial: the full
    statement does not have the hypothesis on [qc_P]; without it it is false (see
    [C57_qc_refuted]). *)
Theorem C57_qc_config_partial : forall np num_ots scaler c a,
  is_next_prime (N.max num_ots (128 * 128)) (np (N.max num_ots (128 * 128))) -> (2 <= scaler)%N ->
  qc_configure np 176 num_ots scaler = Some c -> length a = qc_scaler c - 1 ->
  qc_P c <= 128 * qc_nblocks c ->
  enc_ok (EQc c a) /\ enc_req (EQc c a) = N.to_nat num_ots /\ out_count (EQc c a) = N.to_nat num_ots.
Proof.
  intros np num_ots scaler c a Hp Hs E La HP. unfold qc_configure in E.
  replace (negb (176 =? 0)%N) with true in E by reflexivity. cbn [oassert obind] in E.
  destruct (N.eqb_spec scaler 0); [lia|]. cbn [negb oassert obind] in E.
  set (P := np (N.max num_ots (128 * 128))) in *. set (ss := ((P * scaler + 176 - 1) / 176)%N) in *.
  set (per := ((ss + 7) / 8 * 8)%N) in *. injection E as <-.
  split; [|cbn; auto]. unfold enc_ok. cbn [enc_N2 enc_per enc_parts enc_gap qc_P qc_N2 qc_per qc_parts qc_scaler qc_req] in *.
  unfold qc_nblocks in *. cbn [qc_N] in *.
  assert (Hodd : Nat.odd (N.to_nat P) = true) by (eapply next_prime_odd; [exact Hp|lia]).
  destruct Hp as (Hlt & _ & _).
  pose proof (N.div_mod (P * scaler + 176 - 1) 176 ltac:(lia)) as D1. fold ss in D1.
  pose proof (N.mod_lt (P * scaler + 176 - 1) 176 ltac:(lia)) as M1.
  pose proof (N.div_mod (ss + 7) 8 ltac:(lia)) as D2. pose proof (N.mod_lt (ss + 7) 8 ltac:(lia)) as M2.
  set (k := ((ss + 7) / 8)%N) in *. assert (Ep : (per = 8 * k)%N) by (unfold per; lia).
  assert (PS : (2 * P <= P * scaler)%N) by nia.
  assert (N2b : (per * 176 <= P * scaler + 1407)%N) by lia.
  pose proof (N.mul_div_le (per * 176) scaler ltac:(lia)) as Ms.
  assert (Nb : (per * 176 / scaler <= P + 1407)%N) by (apply N.div_le_upper_bound; [lia|nia]).
  set (n1 := (per * 176 / scaler)%N) in *. 
  assert (E2 : N.to_nat (per * 176) = 128 * (11 * N.to_nat k)) by lia.
  pose proof (Nat.div_mod (N.to_nat n1) 128 ltac:(lia)) as D3.
  set (nb := N.to_nat n1 / 128) in *.
  repeat split.
  - lia.
  - replace (N.to_nat per) with (N.to_nat k * 8) by lia. apply Nat.mod_mul. lia.
  - lia.
  - lia.
  - lia.
  - exact La.
  - exact Hodd.
  - exact HP.
  - lia.
  - lia.
  - rewrite E2, Nat.mul_comm. apply Nat.mod_mul. lia.
  - assert (nb * 128 <= N.to_nat n1) by lia. nia.
Qed.
Print Assumptions C57_qc_config_partial.

(** With scaler 2 (the default of the triple provider) a section size divisible by 16
    suffices. *)
Theorem C57_qc_config_sections : forall np num_ots c, qc_configure np 176 num_ots 2 = Some c ->
  qc_per c mod 16 = 0 -> qc_P c <= 128 * qc_nblocks c.
Proof.
  intros np num_ots c E H16. unfold qc_configure in E.
  replace (negb (176 =? 0)%N) with true in E by reflexivity. cbn [oassert obind] in E.
  replace (negb (2 =? 0)%N) with true in E by reflexivity. cbn [oassert obind] in E.
  set (P := np (N.max num_ots (128 * 128))) in *. set (ss := ((P * 2 + 176 - 1) / 176)%N) in *.
  injection E as <-. cbn [qc_P qc_per] in *. unfold qc_nblocks. cbn [qc_N].
  pose proof (N.div_mod (P * 2 + 176 - 1) 176 ltac:(lia)) as D1. fold ss in D1. pose proof (N.mod_lt (P * 2 + 176 - 1) 176 ltac:(lia)) as M1.
  pose proof (N.div_mod (ss + 7) 8 ltac:(lia)) as D2. pose proof (N.mod_lt (ss + 7) 8 ltac:(lia)) as M2.
  set (k := ((ss + 7) / 8)%N) in *.
  pose proof (Nat.div_mod (N.to_nat (k * 8)) 16 ltac:(lia)) as D3. rewrite H16, Nat.add_0_r in D3.
  set (j := N.to_nat (k * 8) / 16) in *. 
  assert (E1 : (k * 8 * 176 / 2 = 128 * (11 * N.of_nat j))%N).
  { replace (k * 8 * 176)%N with (128 * (11 * N.of_nat j) * 2)%N by lia. apply N.div_mul. lia. }
  rewrite E1. replace (N.to_nat (128 * (11 * N.of_nat j))) with (11 * j * 128) by lia. rewrite Nat.div_mul by lia. lia.
Qed.
Print Assumptions C57_qc_config_sections.

(** The configurations of the libOTe codes meet [enc_ok]. *)
Theorem C57_lib_config : forall k weight gap num_ots c M,
  lib_configure weight gap num_ots = Some c -> weight mod 8 = 0 -> 0 < num_ots ->
  (match k with Silver => 0 < gap | _ => gap = 0 end) ->
  length M = (match k with Silver => lc_N2 c | ExAcc => num_ots | ExConv => 2 * num_ots end) ->
  Forall (fun row => length row = match k with Silver => lc_N2 c | _ => 2 * num_ots end) M ->
  enc_ok (ELib k c M) /\ enc_req (ELib k c M) = num_ots /\ 2 * num_ots <= lc_N2 c /\ lc_code c = 2 * num_ots.
Proof.
  intros k weight gap num_ots c M E H8 Hn Hg LM FM. unfold lib_configure in E.
  destruct (Nat.leb_spec 1 weight) as [Hw|]; cbn [oassert obind] in E; [|discriminate].
  set (ss := (num_ots * 2 + weight - 1) / weight) in *. unfold next_mult in E.
  assert (Hss : num_ots * 2 <= ss * weight).
  { unfold ss. pose proof (Nat.div_mod (num_ots * 2 + weight - 1) weight ltac:(lia)) as D.
    pose proof (Nat.mod_upper_bound (num_ots * 2 + weight - 1) weight ltac:(lia)). nia. }
  assert (Hk : ss <= (ss + (8 - 1)) / 8 * 8).
  { pose proof (Nat.div_mod (ss + (8 - 1)) 8 ltac:(lia)) as D. pose proof (Nat.mod_upper_bound (ss + (8 - 1)) 8 ltac:(lia)). lia. }
  set (q := (ss + (8 - 1)) / 8) in *. replace ((ss + 8 - 1) / 8) with q in E by (unfold q; f_equal; lia).
  injection E as <-. cbn [lc_N2 lc_code] in *.
  assert (0 < ss) by (destruct ss; lia).
  assert (B : 2 * num_ots <= q * 8 * weight + gap) by nia.
  split; [|split; [reflexivity|split; [exact B|lia]]].
  unfold enc_ok. cbn [enc_N2 enc_per enc_parts lc_N2 lc_per lc_parts].
  split. { destruct k; cbn [enc_gap lc_gap]; lia. }
  split; [exact H8|]. split; [apply Nat.mod_mul; lia|]. split; [lia|].
  destruct k; cbn [lc_gap lc_N2 lc_req lc_code].
  - repeat split; auto. lia.
  - split; auto. split; [lia|]. eapply Forall_impl; [|exact FM]. cbn. intros; lia.
  - split; [lia|]. split; [lia|]. eapply Forall_impl; [|exact FM]. cbn. intros; lia.
Qed.
Print Assumptions C57_lib_config.

(** A transposed output with at least one row. *)
Definition trans_rows (o : pprf_out) : Prop := match o with OTrans _ rows => rows <> [] | OInter _ => False end.

Lemma copy_cols_ne trees step fin fuel : forall i k out, out <> [] -> copy_cols trees step fin fuel i k out <> [].
Proof.
  induction fuel as [|fuel IH]; intros i k out H; auto. cbn [copy_cols]. destruct (i <? fin); auto. apply IH.
  destruct out; [congruence|]. cbn. discriminate.
Qed.

Lemma send_trans enc H c f value roots ots order : forall out ms out', send_groups enc H c f value roots ots order out = Some (ms, out') ->
  trans_rows out -> trans_rows out'.
Proof.
  induction order as [|q order IH]; intros out ms out' E Ho; cbn [send_groups] in E.
  - injection E as _ <-. auto.
  - destruct (send_group enc H c f value roots ots (8 * q)) as [[m leaves]|]; cbn [obind] in E; [|discriminate].
    destruct (write_group c (8 * q) leaves out) as [o1|] eqn:Ew; cbn [obind] in E; [|discriminate].
    destruct (send_groups enc H c f value roots ots order o1) as [[ms2 o2]|] eqn:Es; cbn [obind] in E; [|discriminate].
    injection E as _ <-. eapply IH; [exact Es|]. destruct out as [l|n rows]; cbn [trans_rows] in Ho; [contradiction|].
    cbn [write_group] in Ew. unfold copy_out in Ew. destruct (pc_count c mod 8 =? 0); cbn [oassert obind] in Ew; [|discriminate].
    destruct (length (nth 0 leaves []) mod 16 =? 0); cbn [oassert obind] in Ew; [|discriminate].
    destruct (16 <=? length (nth 0 leaves [])); cbn [oassert obind] in Ew; [|discriminate].
    injection Ew as <-. cbn [trans_rows]. apply copy_cols_ne. auto.
Qed.

Lemma zip_len {A B C} (g : A -> B -> C) l m : length (zip_with g l m) = min (length l) (length m).
Proof. revert m. induction l; destruct m; cbn; auto. Qed.

Lemma reduce_none c a b : 128 * qc_nblocks c < qc_P c -> qc_reduce c a b = None.
Proof.
  intros H. unfold qc_reduce. destruct (2 <=? qc_scaler c); cbn [oassert obind]; auto.
  match goal with |- (x <- ?e ;; _) = None => destruct e as [acc|]; cbn [obind]; auto end.
  unfold modp. destruct (1 <=? qc_P c); cbn [oassert obind]; auto. rewrite repeat_length.
  replace ((qc_P c + 127) / 128 <=? qc_nblocks c) with false; [reflexivity|].
  symmetry. apply Nat.leb_gt. apply Nat.div_le_lower_bound; lia.
Qed.

(** All sends with such a configuration panic. *)
Theorem C57_qc_panic : forall enc H aes bits c a base delta roots order,
  128 * qc_nblocks c < qc_P c -> correlated_send enc H aes bits (EQc c a) base delta roots order = None.
Proof.
  intros enc H aes bits c a base delta roots order HP. unfold correlated_send.
  destruct (enc_pprf bits (EQc c a)) as [pc|]; cbn [obind]; auto.
  destruct (split_base pc (enc_gap (EQc c a)) base) as [[ots gap_ots]|]; cbn [obind]; auto.
  destruct (sender_expand enc H pc (enc_format (EQc c a)) delta roots ots order) as [[ms out]|] eqn:E; cbn [obind]; auto.
  apply send_trans in E; [|cbn; discriminate]. destruct out as [l|n rows]; cbn [trans_rows] in E; [contradiction|].
  destruct (gap_send aes gap_ots delta) as [tail vals]. unfold with_gap.
  destruct (length gap_ots =? 0); cbn [obind send_compress]; auto.
  destruct rows as [|r rows]; [congruence|]. unfold qc_dual_encode. cbn [firstn omap]. rewrite reduce_none by auto. reflexivity.
Qed.
Print Assumptions C57_qc_panic.

Lemma small_prime : is_next_prime 17590 17597.
Proof.
  assert (D : forall n k, (1 < n)%Z -> (1 < k)%Z -> ~ prime (n * k)).
  { intros n k Hn Hk Hp. assert (Dv : (n | n * k)%Z) by (exists k; lia).
    destruct (prime_divisors _ Hp n Dv) as [X|[X|[X|X]]]; nia. }
  split; [lia|]. split.
  - change (Z.of_N 17597) with 17597%Z. apply prime_intro; [lia|].
    intros n Hn.
    assert (F : forallb (fun d => negb (17597 mod d =? 0)%Z) (map Z.of_nat (seq 2 131)) = true) by (vm_compute; reflexivity).
    assert (NP : prime 17597).
    { destruct (prime_dec 17597) as [|NP]; auto. exfalso. apply not_prime_divide in NP; [|lia]. destruct NP as (q & Hq & [k Hk]).
      assert (G : forall d, (2 <= d <= 132)%Z -> (17597 mod d <> 0)%Z).
      { intros d Hd. rewrite forallb_forall in F. specialize (F d). destruct (Z.eqb_spec (17597 mod d) 0); auto.
        exfalso. assert (In d (map Z.of_nat (seq 2 131))).
        { apply in_map_iff. exists (Z.to_nat d). split; [lia|]. apply in_seq. lia. }
        specialize (F H). discriminate. }
      destruct (Z_le_gt_dec q 132).
      - apply (G q); [lia|]. rewrite Hk. apply Z.mod_mul. lia.
      - assert (k <= 132)%Z by nia. apply (G k); [nia|]. rewrite Hk, Z.mul_comm. apply Z.mod_mul. nia. }
    apply rel_prime_le_prime; auto.
  - intros q Hq Hp.
    assert (C : (q = 17591 \/ q = 17592 \/ q = 17593 \/ q = 17594 \/ q = 17595 \/ q = 17596)%N) by lia.
    destruct C as [->|[->|[->|[->|[->| ->]]]]].
    + apply (D 7 2513)%Z; try lia. exact Hp.
    + apply (D 2 8796)%Z; try lia. exact Hp.
    + apply (D 73 241)%Z; try lia. exact Hp.
    + apply (D 2 8797)%Z; try lia. exact Hp.
    + apply (D 5 3519)%Z; try lia. exact Hp.
    + apply (D 2 8798)%Z; try lia. exact Hp.
Qed.

Lemma next_prime_unique n p q : is_next_prime n p -> is_next_prime n q -> p = q.
Proof.
  intros (A1 & A2 & A3) (B1 & B2 & B3). destruct (N.lt_trichotomy p q) as [L|[L|L]]; auto; exfalso.
  - apply (B3 p); auto.
  - apply (A3 q); auto.
Qed.

(** The missing hypothesis is needed: 17590 OTs with scaler 2 give the prime 17597 but only
    137 blocks, and the sender panics in the reduction for all inputs. *)
Theorem C57_qc_refuted : exists num_ots, forall np,
  is_next_prime (N.max num_ots (128 * 128)) (np (N.max num_ots (128 * 128))) ->
  exists c, qc_configure np 176 num_ots 2 = Some c /\ N.of_nat (qc_req c) = num_ots /\
    forall enc H aes bits a base delta roots order,
      correlated_send enc H aes bits (EQc c a) base delta roots order = None.
Proof.
  exists 17590%N. intros np Hp. change (N.max 17590 (128 * 128)) with 17590%N in Hp.
  assert (E : np 17590%N = 17597%N) by (eapply next_prime_unique; [exact Hp|apply small_prime]).
  unfold qc_configure. change (N.max 17590 (128 * 128)) with 17590%N. rewrite E.
  eexists. split; [reflexivity|]. cbn [qc_req]. split; [apply N2Nat.id|].
  intros. apply C57_qc_panic. unfold qc_nblocks. cbn [qc_N qc_P].
  replace ((((17597 * 2 + 176 - 1) / 176 + 7) / 8 * 8 * 176 / 2)%N) with 17600%N by reflexivity.
  replace (N.to_nat 17600 / 128) with (N.to_nat (17600 / 128)) by (rewrite N2Nat.inj_div; reflexivity).
  replace (17600 / 128)%N with 137%N by reflexivity. lia.
Qed.
Print Assumptions C57_qc_refuted.

(** ExConv gives out at least twice the requested number of OTs, and the choices from the
    code size on are the noise positions themselves. *)
Theorem C57_exconv_count : forall weight num_ots c M,
  lib_configure weight 0 num_ots = Some c -> weight mod 8 = 0 -> 0 < num_ots ->
  out_count (ELib ExConv c M) <> enc_req (ELib ExConv c M) /\
  forall S i, 2 * num_ots <= i -> code_word (ELib ExConv c M) (noise S) i = noise S i.
Proof.
  intros weight num_ots c M E H8 Hn.
  destruct (C57_lib_config ExConv weight 0 num_ots c (repeat (repeat false (2 * num_ots)) (2 * num_ots)) E H8 Hn eq_refl) as (_ & Er & B & Ec).
  { apply repeat_length. }
  { apply Forall_forall. intros x Hx. apply repeat_spec in Hx. subst x. apply repeat_length. }
  cbn [enc_req] in Er. split.
  - cbn [out_count enc_req]. lia.
  - intros S i Hi. cbn [code_word]. rewrite Ec. destruct (Nat.ltb_spec i (2 * num_ots)); [lia|auto].
Qed.
Print Assumptions C57_exconv_count.

(** ** C58 *)

Lemma skipn_nth {A} n (l : list A) d : forall i, nth i (skipn n l) d = nth (n + i) l d.
Proof. revert l. induction n as [|n IH]; intros [|x l] i; cbn [skipn]; auto. - destruct i; auto. - rewrite IH. reflexivity. Qed.

Lemma Forall2_nth_intro {A} (R : A -> A -> Prop) d l m : length l = length m ->
  (forall i, i < length l -> R (nth i l d) (nth i m d)) -> Forall2 R l m.
Proof.
  revert m. induction l as [|x l IH]; intros [|y m] L H; cbn in L; try discriminate; constructor.
  - apply (H 0). cbn. lia.
  - apply IH; [lia|]. intros i Hi. apply (H (S i)). cbn. lia.
Qed.

Lemma silent_triples_nth sent received ch i n : length sent = n -> length received = n -> length ch = n -> i < n ->
  nth i (silent_triples sent (received, ch)) (false, false, false) =
  (let m := nth i sent (0, 0)%N in
   let a := nth i ch false in let b := xorb (N.testbit (fst m) 0) (N.testbit (snd m) 0) in
   (a, b, xorb (xorb (a && b) (N.testbit (nth i received 0%N) 0)) (N.testbit (fst m) 0))).
Proof.
  intros L1 L2 L3. revert sent received ch i L1 L2 L3. unfold silent_triples. cbn [fst snd].
  induction n as [|n IH]; intros [|m sent] [|r received] [|c ch] i L1 L2 L3 Hi; cbn in L1, L2, L3; try discriminate; try lia.
  destruct i as [|i]; [reflexivity|]. cbn [map combine zip_with nth]. apply IH; lia.
Qed.

Lemma silent_triples_len sent received ch n : length sent = n -> length received = n -> length ch = n ->
  length (silent_triples sent (received, ch)) = n.
Proof.
  intros L1 L2 L3. revert sent received ch L1 L2 L3. unfold silent_triples. cbn [fst snd].
  induction n as [|n IH]; intros [|m sent] [|r received] [|c ch] L1 L2 L3; cbn in L1, L2, L3; try discriminate; auto.
  cbn [map combine zip_with length]. f_equal. apply IH; lia.
Qed.

(** Both parties run one silent OT in each direction with the same code.  Their triples
    match position by position, and so do the triples of equal requests; the first
    components are the codeword of the party's noise positions. *)
Theorem C58_triples : forall enc H aes cr bits umax e pcP sbaseP rbaseQ choicesQ gapQ rootsP orderP deltaP
    pcQ sbaseQ rbaseP choicesP gapP rootsQ orderQ deltaQ,
  enc_ok e ->
  inputs_ok bits umax e pcP sbaseP rbaseQ choicesQ gapQ rootsP orderP ->
  inputs_ok bits umax e pcQ sbaseQ rbaseP choicesP gapP rootsQ orderQ ->
  exists msP valsP sentP msQ valsQ sentQ,
    random_send enc H aes cr bits e sbaseP deltaP rootsP orderP = Some (msP, valsP, sentP) /\
    random_send enc H aes cr bits e sbaseQ deltaQ rootsQ orderQ = Some (msQ, valsQ, sentQ) /\
    forall msP' msQ', Permutation msP msP' -> Permutation msQ msQ' ->
    exists receivedP receivedQ,
      random_receive enc H aes cr bits umax e rbaseP choicesP gapP msQ' valsQ = Some receivedP /\
      random_receive enc H aes cr bits umax e rbaseQ choicesQ gapQ msP' valsP = Some receivedQ /\
      let tP := silent_triples sentP receivedP in
      let tQ := silent_triples sentQ receivedQ in
      length tP = out_count e /\ Forall2 triples_match tP tQ /\
      (forall i, i < out_count e -> tr_a (nth i tP (false, false, false)) =
        code_word e (noise (noise_points umax pcQ e choicesP gapP)) i) /\
      forall amount,
        (amount <= out_count e -> exists gP kP gQ kQ,
           silent_request tP amount = Some (gP, kP) /\ silent_request tQ amount = Some (gQ, kQ) /\
           length gP = amount /\ tP = kP ++ gP /\ Forall2 triples_match gP gQ /\ Forall2 triples_match kP kQ) /\
        (out_count e < amount -> silent_request tP amount = None /\ silent_request tQ amount = None).
Proof.
  intros enc H aes cr bits umax e pcP sbaseP rbaseQ choicesQ gapQ rootsP orderP deltaP
    pcQ sbaseQ rbaseP choicesP gapP rootsQ orderQ deltaQ He HP HQ.
  destruct (C57_random enc H aes cr bits umax e pcP sbaseP rbaseQ choicesQ gapQ rootsP orderP deltaP He HP)
    as (msP & valsP & sentP & ESP & LP & RP).
  destruct (C57_random enc H aes cr bits umax e pcQ sbaseQ rbaseP choicesP gapP rootsQ orderQ deltaQ He HQ)
    as (msQ & valsQ & sentQ & ESQ & LQ & RQ).
  exists msP, valsP, sentP, msQ, valsQ, sentQ. split; auto. split; auto. intros msP' msQ' PP PQ.
  destruct (RP msP' PP) as (rQ & chQ & ERQ & LrQ & LcQ & BQ).
  destruct (RQ msQ' PQ) as (rP & chP & ERP & LrP & LcP & BP).
  exists (rP, chP), (rQ, chQ). split; auto. split; auto. intros tP tQ.
  assert (LtP : length tP = out_count e) by (apply silent_triples_len; auto).
  assert (LtQ : length tQ = out_count e) by (apply silent_triples_len; auto).
  assert (M : Forall2 triples_match tP tQ).
  { apply (Forall2_nth_intro _ (false, false, false)); [lia|]. intros i Hi. rewrite LtP in Hi. unfold tP, tQ.
    rewrite !(silent_triples_nth _ _ _ _ (out_count e)) by auto. cbn zeta.
    destruct (BP i Hi) as [_ ->]. destruct (BQ i Hi) as [_ ->].
    destruct (nth i sentP (0, 0)%N) as [p0 p1]. destruct (nth i sentQ (0, 0)%N) as [q0 q1]. cbn [fst snd].
    unfold triples_match. destruct (nth i chP false), (nth i chQ false), (N.testbit p0 0), (N.testbit p1 0), (N.testbit q0 0), (N.testbit q1 0); reflexivity. }
  split; auto. split; auto. split.
  { intros i Hi. unfold tP. rewrite (silent_triples_nth _ _ _ _ (out_count e)) by auto. unfold tr_a. cbn [fst]. apply BP. auto. }
  intros amount. split.
  - intros Ha. unfold silent_request. rewrite LtP, LtQ. replace (amount <=? out_count e) with true by (symmetry; apply Nat.leb_le; auto).
    cbn [oassert obind]. eexists. eexists. eexists. eexists. split; [reflexivity|]. split; [reflexivity|].
    split; [rewrite skipn_length; lia|]. split; [symmetry; apply firstn_skipn|].
    clear - M. set (n := out_count e - amount). clearbody n. revert n. induction M; intros [|n]; cbn [skipn firstn]; split; auto; try constructor; auto; apply IHM.
  - intros Ha. unfold silent_request. rewrite LtP, LtQ. replace (amount <=? out_count e) with false by (symmetry; apply Nat.leb_gt; auto). auto.
Qed.
Print Assumptions C58_triples.

(** Two positions of the same tree are never both noise positions. *)
Lemma noise_one_per_tree bits umax c M pc sbase rbase choices roots order p q :
  let e := ELib ExConv c M in
  enc_ok e -> inputs_ok bits umax e pc sbase rbase choices [] roots order ->
  ptree pc Interleaved p = ptree pc Interleaved q -> p <> q ->
  noise (noise_points umax pc e choices []) p && noise (noise_points umax pc e choices []) q = false.
Proof.
  intros e He [Hb Hu Hpc Hch Hrows Hgap Hbase Hroots Hord Hpts] ET Hn.
  destruct (enc_sizes bits e pc He Hb Hpc) as (Ec & Ed & Hsz). destruct He as (EN & H8 & _).
  assert (En : noise_points umax pc e choices [] = recv_points umax pc Interleaved choices) by (unfold noise_points; cbn; apply app_nil_r).
  rewrite En. cbn [enc_format e] in Hpts.
  assert (G : forall x, noise (recv_points umax pc Interleaved choices) x = true ->
             x = interleave_point umax (active_path (nth (ptree pc Interleaved x) choices [])) (ptree pc Interleaved x) (pc_count pc) (pc_domain pc) Interleaved).
  { intros x Hx. unfold noise in Hx. apply existsb_exists in Hx. destruct Hx as (y & Hin & Ey). apply Nat.eqb_eq in Ey. subst y.
    assert (Hlt : x < enc_N2 e) by (rewrite Forall_forall in Hpts; auto).
    destruct (In_nth _ _ 0 Hin) as (t & Ht & Ex). rewrite recv_points_len in Ht. rewrite recv_points_nth in Ex by auto.
    rewrite Hch, <- Ec in Ex.
    destruct (le_lt_dec (pc_domain pc) (active_path (nth t choices []))) as [Hge|Ha].
    - cbn [interleave_point] in Ex. replace (pc_domain pc <=? active_path (nth t choices [])) with true in Ex by (symmetry; apply Nat.leb_le; auto). lia.
    - destruct (decode_encode pc Interleaved umax t (active_path (nth t choices []))) as [D1 _]; [rewrite Ec; auto|lia|auto|].
      rewrite Ex in D1. rewrite D1. auto. }
  destruct (noise (recv_points umax pc Interleaved choices) p) eqn:Ep; auto.
  destruct (noise (recv_points umax pc Interleaved choices) q) eqn:Eq; auto.
  exfalso. apply Hn. rewrite (G _ Ep), (G _ Eq), ET. auto.
Qed.

(** The triples that ExConv hands out first are the last ones; their first components are
    noise positions of the same tree, of which at most one is set.  So for 100 triples
    (noise weight 400) two of the 100 handed-out triples never both have a = 1, for all
    codes and inputs: the first components are not uniformly distributed. *)
Theorem C58_exconv_refuted : exists num_ots i j,
  i < j < num_ots /\
  forall c, lib_configure 400 0 num_ots = Some c ->
  forall enc H aes cr bits umax M pc sbase rbase choices roots order delta sent0,
  let e := ELib ExConv c M in
  enc_ok e -> inputs_ok bits umax e pc sbase rbase choices [] roots order -> length sent0 = out_count e ->
  exists ms vals sent, random_send enc H aes cr bits e sbase delta roots order = Some (ms, vals, sent) /\
    exists received, random_receive enc H aes cr bits umax e rbase choices [] ms vals = Some received /\
    exists handed kept, silent_request (silent_triples sent0 received) num_ots = Some (handed, kept) /\
      length handed = num_ots /\
      tr_a (nth i handed (false, false, false)) && tr_a (nth j handed (false, false, false)) = false.
Proof.
  exists 100, 84, 92. split; [lia|]. intros c Ec enc H aes cr bits umax M pc sbase rbase choices roots order delta sent0 e He Hi L0.
  destruct (C57_random enc H aes cr bits umax e pc sbase rbase choices [] roots order delta He Hi) as (ms & vals & sent & ES & LS & HR).
  exists ms, vals, sent. split; auto. destruct (HR ms (Permutation_refl _)) as (r & ch & ER & Lr & Lc & B).
  exists (r, ch). split; auto.
  assert (Lt : length (silent_triples sent0 (r, ch)) = out_count e) by (apply silent_triples_len; auto).
  vm_compute in Ec. injection Ec as Ec.
  assert (E2 : lc_N2 c = 3200) by (rewrite <- Ec; reflexivity). assert (Eco : lc_code c = 200) by (rewrite <- Ec; reflexivity).
  assert (Epr : lc_per c = 8) by (rewrite <- Ec; reflexivity).
  clear Ec. cbn [out_count e] in *. rewrite E2 in *.
  unfold silent_request. rewrite Lt. replace (100 <=? 3200) with true by reflexivity. cbn [oassert obind].
  eexists. eexists. split; [reflexivity|]. split; [rewrite skipn_length, Lt; reflexivity|].
  rewrite !skipn_nth. replace (3200 - 100 + 84) with 3184 by reflexivity. replace (3200 - 100 + 92) with 3192 by reflexivity.
  assert (W : forall x, 200 <= x < 3200 -> tr_a (nth x (silent_triples sent0 (r, ch)) (false, false, false)) = noise (noise_points umax pc e choices []) x).
  { intros x Hx. rewrite (silent_triples_nth _ _ _ _ 3200) by (auto; lia). unfold tr_a. cbn [fst]. destruct (B x) as [-> _]; [lia|].
    unfold e at 1. cbn [code_word]. rewrite Eco. destruct (Nat.ltb_spec x 200); [lia|auto]. }
  rewrite !W by (split; apply Nat.leb_le; reflexivity).
  destruct (enc_sizes bits e pc He (io_bits _ _ _ _ _ _ _ _ _ _ Hi) (io_pprf _ _ _ _ _ _ _ _ _ _ Hi)) as (_ & Ed & _).
  apply (noise_one_per_tree bits umax c M pc sbase rbase choices roots order 3184 3192 He Hi).
  - unfold ptree, pgrp. rewrite Ed. unfold e. cbn [enc_per]. rewrite Epr. reflexivity.
  - intros E. apply Nat.eqb_eq in E. discriminate.
Qed.
Print Assumptions C58_exconv_refuted.

(** ** Concrete cases *)

(** ExConv with 4 OTs and noise weight 8: 8 trees of 8 leaves, code size 8, 64 outputs. *)
Definition cx_c : lib_conf := LibConf 4 0 64 8 8 8.
Definition cx_M : list (list bool) := map (fun i => map (fun j => Nat.odd (i * j + i + j)) (seq 0 8)) (seq 0 8).
Definition cx_e : encoder := ELib ExConv cx_c cx_M.
Definition cx_enc (b : bool) (x : N) : N := ((if b then 7 * x + 3 else 5 * x + 1) mod 2 ^ 128)%N.
Definition cx_H (x : N) : N := ((x * 11 + 13) mod 2 ^ 128)%N.
Definition cx_cr (x : N) : N := N.shiftr x 3.
Definition cx_aes (k x : N) : N := N.lxor k (x + 1).
Definition cx_choices : list (list bool) :=
  map (fun t => map (fun j => j <? t) (seq 0 3)) (seq 0 8).
Definition cx_sbase : list (N * N) := map (fun i => (N.of_nat (1000 + i), N.of_nat (2000 + 3 * i))) (seq 0 24).
Definition cx_rbase : list N := zip_with (fun (m : N * N) (b : bool) => if b then snd m else fst m) cx_sbase (concat cx_choices).
Definition cx_roots : list N := map (fun i => N.of_nat (77 + i * i)) (seq 0 8).
Definition cx_pc : pprf_conf := match enc_pprf 64 cx_e with Some pc => pc | None => PprfConf 0 0 0 end.

Example C57_config_case : lib_configure 8 0 4 = Some cx_c /\ enc_ok cx_e.
Proof.
  split; [reflexivity|]. apply (C57_lib_config ExConv 8 0 4 cx_c cx_M); try reflexivity; [lia|].
  repeat constructor.
Qed.

Example C57_inputs_case : inputs_ok 64 100 cx_e cx_pc cx_sbase cx_rbase cx_choices [] cx_roots [0].
Proof.
  constructor; try reflexivity.
  - apply Nat.leb_le. reflexivity.
  - repeat constructor.
  - repeat split; vm_compute; repeat constructor.
  - apply Forall_forall. intros x Hx.
    assert (E : forallb (fun p => p <? 64) (recv_points 100 cx_pc Interleaved cx_choices) = true) by (vm_compute; reflexivity).
    rewrite forallb_forall in E. apply Nat.ltb_lt. exact (E x Hx).
Qed.

(** The outputs of that run: 64 OTs, some choices set inside of the code and after it. *)
Example C57_case :
  match random_send cx_enc cx_H cx_aes cx_cr 64 cx_e cx_sbase 12345678901234567%N cx_roots [0] with
  | Some (ms, vals, sent) =>
      match random_receive cx_enc cx_H cx_aes cx_cr 64 100 cx_e cx_rbase cx_choices [] ms vals with
      | Some (received, ch) =>
          forallb (fun i => N.eqb (nth i received 0%N)
                              (if nth i ch false then snd (nth i sent (0, 0)%N) else fst (nth i sent (0, 0)%N))) (seq 0 64)
          && forallb (fun i => Bool.eqb (nth i ch false)
                                 (code_word cx_e (noise (noise_points 100 cx_pc cx_e cx_choices [])) i)) (seq 0 64)
          && existsb (fun i => nth i ch false) (seq 0 8) && existsb (fun i => nth i ch false) (seq 8 56)
      | None => false
      end
  | None => false
  end = true.
Proof. vm_compute. reflexivity. Qed.

(** Small quasi-cyclic parameters that fit. *)
Definition cx_qc : qc_conf := QcConf 127 100 128 256 2 16 16.
Example C57_qc_case : enc_ok (EQc cx_qc [[5%N]]).
Proof. repeat split; try reflexivity; apply Nat.leb_le; reflexivity. Qed.

(** 16384 OTs: sections of 192 positions, which is a multiple of 16. *)
Example C57_qc_config_case : exists c, qc_configure (fun _ => 16411%N) 176 16384 2 = Some c /\ qc_per c mod 16 = 0 /\ qc_P c <= 128 * qc_nblocks c.
Proof.
  eexists. split; [reflexivity|]. split; [reflexivity|].
  eapply (C57_qc_config_sections (fun _ => 16411%N)); [reflexivity|reflexivity].
Qed.

(** The triples of two parties that use the same toy inputs with different delta. *)
Example C58_case :
  match random_send cx_enc cx_H cx_aes cx_cr 64 cx_e cx_sbase 12345678901234567%N cx_roots [0],
        random_send cx_enc cx_H cx_aes cx_cr 64 cx_e cx_sbase 9876543211%N cx_roots [0] with
  | Some (ms, vals, sent), Some (ms', vals', sent') =>
      match random_receive cx_enc cx_H cx_aes cx_cr 64 100 cx_e cx_rbase cx_choices [] ms' vals',
            random_receive cx_enc cx_H cx_aes cx_cr 64 100 cx_e cx_rbase cx_choices [] ms vals with
      | Some rP, Some rQ =>
          let tP := silent_triples sent rP in
          let tQ := silent_triples sent' rQ in
          (length tP =? 64) &&
          forallb (fun i => let '(a, b, c) := nth i tP (false, false, false) in
                            let '(a', b', c') := nth i tQ (false, false, false) in
                            Bool.eqb (xorb c c') (xorb a a' && xorb b b')) (seq 0 64)
          && existsb (fun t => snd t) tP
      | _, _ => false
      end
  | _, _ => false
  end = true.
Proof. vm_compute. reflexivity. Qed.
