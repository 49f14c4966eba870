(** The CBC circuit with sub-circuit calls: what the builder holds. *)
From Coq Require Import List Bool Arith Lia Permutation.
Require Import Verif.Prelude Verif.PreludeProofs Verif.GateModel Verif.CircuitModel Verif.CircuitSpec Verif.CircuitProofs
  Verif.CircuitProofs2 Verif.CircuitProofs3 Verif.ExecModel Verif.BoolGmwModel Verif.BoolGmwSpec Verif.InlineModel
  Verif.BristolProofs Verif.BristolTheorems Verif.ConnModel Verif.ConnSpec Verif.ConnProofs Verif.ConnProofs2 Verif.BuilderModel Verif.BuilderSpec
  Verif.BuilderProofs Verif.BuilderProofs2 Verif.CbcModel Verif.CbcSpec Verif.CbcProofs
  Verif.MultiModel Verif.SubCircModel Verif.CbcScModel Verif.CbcScProofs Verif.CbcScProofs2.
Import ListNotations.

(** Circuit [c'] is [c] with the gates [gs], outputs [os] and sub-circuit inputs
    [ss] added. *)
Record grow (c c' : circuit bool_gate) (gs : list bool_gate) (os ss : list nat) : Prop := {
  gw_built : built c';
  gw_gates : c_gates c' = c_gates c ++ gs;
  gw_in : c_inputs c' = c_inputs c;
  gw_out : c_outputs c' = c_outputs c ++ os;
  gw_sc : c_scins c' = c_scins c ++ ss;
  gw_val : forall v, bval c' v -> bval c v }.

Lemma grow_refl c : built c -> grow c c [] [] [].
Proof. intros B. constructor; auto; rewrite app_nil_r; auto. Qed.
Lemma grow_trans a b c g1 g2 o1 o2 s1 s2 : grow a b g1 o1 s1 -> grow b c g2 o2 s2 -> grow a c (g1 ++ g2) (o1 ++ o2) (s1 ++ s2).
Proof.
  intros [B1 G1 I1 O1 S1 V1] [B2 G2 I2 O2 S2 V2]. constructor; auto; try congruence.
  - rewrite G2, G1, app_assoc. auto.
  - rewrite O2, O1, app_assoc. auto.
  - rewrite S2, S1, app_assoc. auto.
Qed.
Lemma grow_count a b g o s : grow a b g o s -> c_count b = c_count a + length g.
Proof. intros [_ G _ _ _ _]. unfold c_count. rewrite G, app_length. auto. Qed.
Lemma sok_grow a b g o s l : grow a b g o s -> Forall (sok a) l -> Forall (sok b) l.
Proof. intros E H. eapply Forall_impl; [|exact H]. intros x [F L]. split; auto. pose proof (grow_count _ _ _ _ _ E). unfold gid in *. lia. Qed.

Section Main.
Variables (cells : list (circuit bool_gate)) (ids : list nat).

Lemma b_wired_main c cn g from : (forall f, In f from -> f < c_count c) ->
  b_wired (BD (c :: cells) (0 :: ids) cn) 0 g from = Some (BD (put_gate bool_ops c g (rev from) :: cells) (0 :: ids) cn, (0, c_count c)).
Proof. intros H. unfold b_wired, b_cell. cbn [b_ids b_cells nth_error obind]. rewrite add_wired_gate_put by auto. reflexivity. Qed.

Lemma grow_put c g from : built c -> (forall f, In f from -> f < c_count c) -> arity g = Some (length from) ->
  is_input_gate bool_ops g = false ->
  grow c (put_gate bool_ops c g (rev from)) [g] (if is_output_gate bool_ops g then [c_count c] else []) (if is_scin_gate bool_ops g then [c_count c] else []).
Proof.
  intros HB Hf Ha Hi. constructor.
  - apply put_built; auto.
  - reflexivity.
  - destruct g as [[]| | |]; try discriminate; reflexivity.
  - destruct g as [[]| | |]; try discriminate; cbn; rewrite ?app_nil_r; reflexivity.
  - destruct g as [[]| | |]; try discriminate; cbn; rewrite ?app_nil_r; reflexivity.
  - intros v Hv. apply put_gate_valued in Hv; [apply Hv|apply HB|auto].
Qed.

Lemma xor_main cn : forall chunk state c, built c -> Forall (sok c) chunk -> Forall (sok c) state -> length chunk = length state ->
  exists c', cbc_xor (BD (c :: cells) (0 :: ids) cn) chunk state =
      Some (BD (c' :: cells) (0 :: ids) cn, map (pair 0) (seq (c_count c) (length chunk))) /\
    grow c c' (repeat BXor (length chunk)) [] [] /\
    forall v, bval c' v -> map v (seq (c_count c) (length chunk)) = bits_xor (bv v chunk) (bv v state).
Proof.
  induction chunk as [|d chunk IH]; intros [|s state] c HB HC HS HL; try discriminate.
  - exists c. split; [reflexivity|]. split; [apply grow_refl; auto|]. reflexivity.
  - pose proof (Forall_inv HC) as [D0 D1]. apply Forall_inv_tail in HC. pose proof (Forall_inv HS) as [S0 S1]. apply Forall_inv_tail in HS. injection HL as HL.
    cbn [cbc_xor]. unfold sec_bin. rewrite D0, S0. cbn [Nat.eqb oassert obind].
    assert (Hf : forall f, In f [snd d; snd s] -> f < c_count c) by (intros f [<-|[<-|[]]]; auto).
    rewrite b_wired_main by auto. cbn [obind].
    pose proof (grow_put c BXor [snd d; snd s] HB Hf eq_refl eq_refl) as G1. cbn [is_output_gate is_scin_gate] in G1.
    set (c1 := put_gate bool_ops c BXor (rev [snd d; snd s])) in *. change (grow c c1 [BXor] [] []) in G1.
    pose proof (grow_count _ _ _ _ _ G1) as N1. cbn [length] in N1. rewrite Nat.add_1_r in N1.
    destruct (IH state c1 (gw_built _ _ _ _ _ G1) (sok_grow _ _ _ _ _ _ G1 HC) (sok_grow _ _ _ _ _ _ G1 HS) HL) as (c' & E & X & V).
    rewrite E. cbn [obind length seq map]. rewrite N1 in *. exists c'. split; [reflexivity|].
    split; [exact (grow_trans _ _ _ _ _ _ _ _ _ G1 X)|]. intros v Hv. rewrite (V v Hv). unfold bits_xor. cbn [bv map zip_with].
    f_equal. pose proof (gw_val _ _ _ _ _ X v Hv) as Hv1. apply put_gate_valued in Hv1; [|apply HB|auto].
    destruct Hv1 as [_ H]. specialize (H eq_refl). cbn in H. congruence.
Qed.

Lemma scins_main cn m : forall c, built c ->
  exists c', sec_scins m (BD (c :: cells) (0 :: ids) cn) 0 = Some (BD (c' :: cells) (0 :: ids) cn, map (pair 0) (seq (c_count c) m)) /\
    grow c c' (repeat (BBase GScInput) m) [] (seq (c_count c) m).
Proof.
  induction m as [|m IH]; intros c HB.
  - exists c. split; [reflexivity|apply grow_refl; auto].
  - cbn [sec_scins]. assert (E1 : sec_scin (BD (c :: cells) (0 :: ids) cn) 0 =
      Some (BD (put_gate bool_ops c (BBase GScInput) (rev []) :: cells) (0 :: ids) cn, (0, c_count c))) by reflexivity.
    rewrite E1. cbn [obind].
    pose proof (grow_put c (BBase GScInput) [] HB ltac:(intros f []) eq_refl eq_refl) as G1.
    set (c1 := put_gate bool_ops c (BBase GScInput) (rev [])) in *. change (grow c c1 [BBase GScInput] [] [c_count c]) in G1.
    pose proof (grow_count _ _ _ _ _ G1) as N1. cbn [length] in N1. rewrite Nat.add_1_r in N1.
    destruct (IH c1 (gw_built _ _ _ _ _ G1)) as (c' & E & X). rewrite E. cbn [obind seq map]. rewrite N1 in *.
    exists c'. split; [reflexivity|exact (grow_trans _ _ _ _ _ _ _ _ _ G1 X)].
Qed.

Lemma outputs_main cn l : forall c, built c -> Forall (sok c) l ->
  exists c', sec_outputs (BD (c :: cells) (0 :: ids) cn) l = Some (BD (c' :: cells) (0 :: ids) cn, seq (c_count c) (length l)) /\
    grow c c' (repeat (BBase GOutput) (length l)) (seq (c_count c) (length l)) [] /\
    forall v, bval c' v -> map v (seq (c_count c) (length l)) = bv v l.
Proof.
  induction l as [|s l IH]; intros c HB HL.
  - exists c. split; [reflexivity|]. split; [apply grow_refl; auto|reflexivity].
  - pose proof (Forall_inv HL) as [S0 S1]. apply Forall_inv_tail in HL. cbn [sec_outputs]. unfold sec_output. rewrite S0.
    assert (Hf : forall f, In f [snd s] -> f < c_count c) by (intros f [<-|[]]; auto).
    rewrite b_wired_main by auto. cbn [obind].
    pose proof (grow_put c (BBase GOutput) [snd s] HB Hf eq_refl eq_refl) as G1.
    set (c1 := put_gate bool_ops c (BBase GOutput) (rev [snd s])) in *. change (grow c c1 [BBase GOutput] [c_count c] []) in G1.
    pose proof (grow_count _ _ _ _ _ G1) as N1. cbn [length] in N1. rewrite Nat.add_1_r in N1.
    destruct (IH c1 (gw_built _ _ _ _ _ G1) (sok_grow _ _ _ _ _ _ G1 HL)) as (c' & E & X & V).
    rewrite E. cbn [obind length seq snd]. rewrite N1 in *. exists c'. split; [reflexivity|].
    split; [exact (grow_trans _ _ _ _ _ _ _ _ _ G1 X)|]. intros v Hv. cbn [map bv]. fold (bv v l). rewrite (V v Hv). f_equal.
    pose proof (gw_val _ _ _ _ _ X v Hv) as Hv1. apply put_gate_valued in Hv1; [|apply HB|auto].
    destruct Hv1 as [_ H]. specialize (H eq_refl). cbn in H. congruence.
Qed.

Lemma inputs_main cn m : forall c, built c ->
  exists c', sec_inputs m (BD (c :: cells) (0 :: ids) cn) = Some (BD (c' :: cells) (0 :: ids) cn, map (pair 0) (seq (c_count c) m)) /\ built c' /\
    c_gates c' = c_gates c ++ repeat (BBase GInput) m /\ c_inputs c' = c_inputs c ++ seq (c_count c) m /\
    c_outputs c' = c_outputs c /\ c_scins c' = c_scins c.
Proof.
  induction m as [|m IH]; intros c HB.
  - exists c. cbn. rewrite !app_nil_r. repeat (split; [solve [auto]|]). auto.
  - cbn [sec_inputs]. unfold sec_input. rewrite b_add_wired, b_wired_main by (intros f []). cbn [obind].
    set (c1 := put_gate bool_ops c (BBase GInput) (rev [])).
    assert (B1 : built c1) by (apply put_built; auto; intros f []).
    destruct (IH c1 B1) as (c' & E & B & G & I & O & S). rewrite E. cbn [obind].
    assert (Hc : c_count c1 = Datatypes.S (c_count c)) by (unfold c_count, c1; simpl; rewrite app_length; simpl; lia).
    rewrite Hc in *. exists c'. split; [reflexivity|]. split; auto. split; [rewrite G; unfold c1; simpl; rewrite <- app_assoc; auto|].
    split; [|split]; [rewrite I; unfold c1; simpl; rewrite <- app_assoc; reflexivity|rewrite O; reflexivity|rewrite S; reflexivity].
Qed.
End Main.

Section Build.
Variables (n B o : nat) (sub : circuit bool_gate) (E : list bool -> list bool -> list bool).
Hypothesis Hn : 0 < n.
Hypothesis HB : n <= B.
Hypothesis Hin : c_scins sub = seq 0 (n + n).
Hypothesis Hout : c_scouts sub = seq o n.

Let key := map (pair 0) (seq 0 n).
Let st (c : circuit bool_gate) (i : nat) (cn : conns) : builder := BD [c; sub] (0 :: repeat 1 i) cn.
Let xa (i : nat) : nat := xat n B i.

Lemma repeat_snoc {A} (x : A) m : repeat x m ++ [x] = x :: repeat x m.
Proof. induction m as [|m IH]; auto. cbn [repeat app]. rewrite IH. reflexivity. Qed.

Lemma cell_sub i : nth_error (0 :: repeat 1 (S i)) (S i) = Some 1.
Proof. cbn [nth_error]. rewrite (nth_error_nth' _ 1) by (rewrite repeat_length; lia). f_equal. apply nth_repeat. Qed.

Lemma aes_main c i cn : built c -> c_count c = xa i + n -> cn_rep cn (hist n B o i) [] ->
  exists c' cn', cbc_sc_aes128 (st c i cn) key (map (pair 0) (seq (xa i) n)) = Some (st c' (S i) cn', map (pair 0) (seq (xa i + n) n)) /\
    grow c c' (repeat (BBase GScInput) n) [] (seq (xa i + n) n) /\ cn_rep cn' (hist n B o (S i)) [].
Proof.
  intros Bc Hc R. unfold cbc_sc_aes128, b_push_shared, st, key. cbn [b_cells b_ids b_cn length]. rewrite repeat_length.
  change ((0 :: repeat 1 i) ++ [1]) with (0 :: (repeat 1 i ++ [1])). rewrite repeat_snoc. change (1 :: repeat 1 i) with (repeat 1 (S i)).
  unfold b_connect_sub, b_cell at 1. cbn [b_ids b_cells b_cn]. rewrite cell_sub. cbn [obind nth_error]. rewrite Hin, Hout, <- map_app.
  destruct (connect_in n B o Hn HB bool_input_size sub cn i R) as (cn1 & E1 & R1). unfold xa.
  match goal with |- context [connect_sc_gates ?a1 ?a2 ?a3 ?a4 ?a5 ?a6] => replace (connect_sc_gates a1 a2 a3 a4 a5 a6) with (Some cn1) by (symmetry; exact E1) end.
  cbn [obind]. unfold b_connect_to_main. rewrite !map_length, !seq_length.
  destruct (scins_main [sub] (repeat 1 (S i)) cn1 n c Bc) as (c' & E2 & G2).
  match goal with |- context [sec_scins ?a1 ?a2 ?a3] => replace (sec_scins a1 a2 a3) with (Some (BD [c'; sub] (0 :: repeat 1 (S i)) cn1, map (pair 0) (seq (c_count c) n))) by (symmetry; exact E2) end.
  cbn [obind]. unfold b_cell. cbn [b_ids b_cells nth_error obind b_cn]. rewrite Hc in *. unfold xa in *.
  destruct (connect_out n B o Hn HB bool_input_size c' cn1 i R1) as (cn2 & E3 & R3).
  assert (Em : map snd (map (pair 0) (seq (xat n B i + n) n)) = seq (xat n B i + n) n) by (rewrite map_map; apply map_id).
  assert (Ef : map (fun s : secret => (S i, snd s)) (map (pair (S i)) (seq o n)) = map (pair (S i)) (seq o n)) by (rewrite map_map; reflexivity).
  match goal with |- context [connect_sc_gates ?a1 ?a2 ?a3 ?a4 ?a5 ?a6] => replace (connect_sc_gates a1 a2 a3 a4 a5 a6) with (Some cn2)
    by (symmetry; rewrite <- E3; f_equal; [exact Ef|exact Em]) end.
  cbn [obind]. exists c', cn2. split; [reflexivity|]. split; auto.
Qed.

Definition block_gates : list bool_gate := repeat BXor n ++ repeat (BBase GScInput) n ++ repeat (BBase GOutput) n.

Lemma chunks_main : forall cs c i cn state outs, built c -> c_count c = xa i -> Forall (sok c) state -> length state = n ->
  Forall (Forall (sok c)) cs -> Forall (fun l => length l = n) cs -> cn_rep cn (hist n B o i) [] ->
  exists c' cn' state' os, ofold (cbc_sc_chunk key) (st c i cn, (state, outs)) cs = Some (st c' (i + length cs) cn', (state', outs ++ os)) /\
    grow c c' (concat (repeat block_gates (length cs))) os (concat (map (fun j => seq (xa j + n) n) (seq i (length cs)))) /\
    cn_rep cn' (hist n B o (i + length cs)) [] /\
    forall v, bval c' v -> (forall j, i <= j < i + length cs -> map v (seq (xa j + n) n) = E (map v (seq (xa j) n)) (bv v key)) ->
      map v os = concat (cbc_blocks E (bv v key) (bv v state) (map (bv v) cs)).
Proof.
  induction cs as [|chunk cs IH]; intros c i cn state outs Bc Hc HS LS HC HL R.
  - exists c, cn, state, []. cbn [ofold length]. rewrite Nat.add_0_r, app_nil_r. split; [reflexivity|]. split; [apply grow_refl; auto|].
    split; auto.
  - pose proof (Forall_inv HC) as C1. pose proof (Forall_inv_tail HC) as C2. pose proof (Forall_inv HL) as L1. pose proof (Forall_inv_tail HL) as L2.
    cbn beta in L1. cbn [ofold cbc_sc_chunk].
    destruct (xor_main [sub] (repeat 1 i) cn chunk state c Bc C1 HS) as (c1 & E1 & G1 & V1); [congruence|]. rewrite L1, Hc in *.
    unfold st at 1. rewrite E1. cbn [obind].
    pose proof (grow_count _ _ _ _ _ G1) as N1. rewrite repeat_length, Hc in N1.
    destruct (aes_main c1 i cn (gw_built _ _ _ _ _ G1) N1 R) as (c2 & cn2 & E2 & G2 & R2). unfold st at 1 in E2.
    rewrite E2. cbn [obind]. rewrite LS, map_length, seq_length, Nat.eqb_refl. cbn [oassert obind].
    pose proof (grow_count _ _ _ _ _ G2) as N2. rewrite repeat_length, N1 in N2.
    assert (K2 : Forall (sok c2) (map (pair 0) (seq (xa i + n) n))).
    { apply Forall_forall. intros s Hs. apply in_map_iff in Hs. destruct Hs as (g & <- & Hg). apply in_seq in Hg. split; auto. cbn [snd]. lia. }
    destruct (outputs_main [sub] (repeat 1 (S i)) cn2 (map (pair 0) (seq (xa i + n) n)) c2 (gw_built _ _ _ _ _ G2) K2) as (c3 & E3 & G3 & V3).
    rewrite map_length, seq_length in *. unfold st at 1. rewrite E3. cbn [obind].
    pose proof (grow_count _ _ _ _ _ G3) as N3. rewrite repeat_length, N2 in N3.
    pose proof (grow_trans _ _ _ _ _ _ _ _ _ G1 (grow_trans _ _ _ _ _ _ _ _ _ G2 G3)) as G. cbn [app] in G. rewrite app_nil_r in G.
    fold block_gates in G.
    assert (C3 : Forall (Forall (sok c3)) cs) by (eapply Forall_impl; [|exact C2]; intros l; apply (sok_grow _ _ _ _ _ _ G)).
    assert (N3' : c_count c3 = xa (S i)) by (unfold xa in *; rewrite xat_S; lia).
    destruct (IH c3 (S i) cn2 (map (pair 0) (seq (xa i + n) n)) (outs ++ seq (c_count c2) n) (gw_built _ _ _ _ _ G3) N3'
      (sok_grow _ _ _ _ _ _ G3 K2) ltac:(rewrite map_length, seq_length; auto) C3 L2 R2) as (c4 & cn4 & st4 & os & E4 & G4 & R4 & V4).
    unfold st at 1 in E4. replace (i + S (length cs)) with (S i + length cs) by lia.
    exists c4, cn4, st4, (seq (c_count c2) n ++ os).
    split; [cbn [length]; replace (i + S (length cs)) with (S i + length cs) by lia; rewrite E4, app_assoc; reflexivity|].
    split; [exact (grow_trans _ _ _ _ _ _ _ _ _ G G4)|].
    split; [cbn [length]; replace (i + S (length cs)) with (S i + length cs) by lia; exact R4|]. intros v Hv HJ.
    pose proof (gw_val _ _ _ _ _ G4 v Hv) as Hv3. pose proof (gw_val _ _ _ _ _ G3 v Hv3) as Hv2. pose proof (gw_val _ _ _ _ _ G2 v Hv2) as Hv1.
    assert (Ebv : bv v (map (pair 0) (seq (xa i + n) n)) = map v (seq (xa i + n) n)) by (unfold bv; rewrite map_map; reflexivity).
    cbn [map cbc_blocks concat]. rewrite map_app.
    rewrite (V4 v Hv); [|intros j Hj; apply HJ; cbn [length]; lia].
    rewrite Ebv. rewrite (V3 v Hv3), Ebv. rewrite (HJ i) by (cbn [length]; lia). rewrite (V1 v Hv1). reflexivity.
Qed.

Lemma build_main k : B = n + n + n * k ->
  exists c cn os, cbc_sc_build_n n sub (n * k) = Some (BD [c; sub] (0 :: repeat 1 k) cn, os) /\ built c /\
    c_gates c = repeat (BBase GInput) B ++ concat (repeat block_gates k) /\ c_inputs c = seq 0 B /\ c_outputs c = os /\
    c_scins c = concat (map (fun j => seq (xa j + n) n) (seq 0 k)) /\ cn_rep cn (hist n B o k) [] /\
    forall v, bval c v -> (forall j, j < k -> map v (seq (xa j + n) n) = E (map v (seq (xa j) n)) (map v (seq 0 n))) ->
      map v os = concat (cbc_blocks E (map v (seq 0 n)) (map v (seq n n)) (chunks_exact n (map v (seq (n + n) (n * k))))).
Proof.
  intros EB. unfold cbc_sc_build_n. rewrite (Nat.mul_comm n k), Nat.mod_mul by lia. cbn [Nat.eqb oassert obind].
  destruct (inputs_main [sub] [] cn_empty n c_new built_new) as (c1 & E1 & B1 & G1 & I1 & O1 & S1). rewrite E1. cbn [obind].
  destruct (inputs_main [sub] [] cn_empty n c1 B1) as (c2 & E2 & B2 & G2 & I2 & O2 & S2). rewrite E2. cbn [obind].
  destruct (inputs_main [sub] [] cn_empty (k * n) c2 B2) as (c3 & E3 & B3 & G3 & I3 & O3 & S3). rewrite E3. cbn [obind].
  cbn [c_new c_inputs c_gates c_outputs c_scins app] in *.
  assert (N1 : c_count c1 = n) by (unfold c_count; rewrite G1, repeat_length; auto).
  assert (N2 : c_count c2 = n + n) by (unfold c_count; rewrite G2, G1, app_length, !repeat_length; auto).
  assert (N3 : c_count c3 = n + n + k * n) by (unfold c_count; rewrite G3, G2, G1, !app_length, !repeat_length; auto).
  change (c_count (@c_new bool_gate)) with 0 in *. rewrite N1, N2 in *.
  assert (Hfresh : forall a m, a + m <= n + n + k * n -> Forall (sok c3) (map (pair 0) (seq a m))).
  { intros a m H. apply Forall_forall. intros s Hs. apply in_map_iff in Hs. destruct Hs as (g & <- & Hg). apply in_seq in Hg.
    split; auto. cbn [snd]. lia. }
  set (data := map (pair 0) (seq (n + n) (k * n)) : list secret).
  assert (Ld : length data = k * n) by (unfold data; rewrite map_length, seq_length; auto).
  assert (Lc : length (chunks_exact n data) = k) by (unfold chunks_exact; rewrite map_length, seq_length, Ld; apply Nat.div_mul; lia).
  destruct (chunks_main (chunks_exact n data) c3 0 cn_empty (map (pair 0) (seq n n)) (@nil nat))
    as (c4 & cn4 & st4 & os & E4 & G4 & R4 & V4); auto; try (rewrite map_length, seq_length; auto); try (apply Hfresh; lia).
  { unfold xa, xat. lia. }
  { assert (Hd : Forall (sok c3) data) by (apply Hfresh; lia).
    unfold chunks_exact. apply Forall_forall. intros l Hl. apply in_map_iff in Hl. destruct Hl as (i & <- & _).
    rewrite Forall_forall in *. intros s Hs. apply Hd. rewrite <- (firstn_skipn (i * n) data). apply in_or_app. right.
    rewrite <- (firstn_skipn n (skipn (i * n) data)). apply in_or_app. auto. }
  { unfold chunks_exact. apply Forall_forall. intros l Hl. apply in_map_iff in Hl. destruct Hl as (i & <- & Hi). apply in_seq in Hi.
    rewrite Ld, Nat.div_mul in Hi by lia. rewrite firstn_length, skipn_length, Ld. apply Nat.min_l.
    assert (S i * n <= k * n) by (apply Nat.mul_le_mono_r; lia). cbn in H. lia. }
  { exact cn_rep_empty. }
  rewrite Lc in *. cbn [Nat.add app] in *.
  match type of E4 with ?L = ?R => match goal with |- context [ofold ?f ?x ?l] => replace (ofold f x l) with R by (symmetry; exact E4) end end.
  cbn [obind].
  assert (Hc3 : c_gates c3 = repeat (BBase GInput) B).
  { rewrite G3, G2, G1, EB, (Nat.mul_comm n k), !repeat_app. reflexivity. }
  exists c4, cn4, os. split; [reflexivity|]. destruct G4 as [B4 G4 I4 O4 S4 _].
  split; auto. split; [rewrite G4, Hc3; auto|]. split; [rewrite I4, I3, I2, I1, EB, (Nat.mul_comm n k), !seq_app; reflexivity|].
  split; [rewrite O4, O3, O2, O1; reflexivity|]. split; [rewrite S4, S3, S2, S1; reflexivity|]. split; [exact R4|].
  assert (Ek : forall (v : nat -> bool) a m, bv v (map (pair 0) (seq a m)) = map v (seq a m)) by (intros; unfold bv; rewrite map_map; reflexivity).
  intros v Hv HJ. rewrite (V4 v Hv); [|intros j Hj; unfold key; rewrite Ek; apply HJ; lia].
  unfold key. rewrite !Ek. change (map (bv v) (chunks_exact n data)) with (map (map (fun s : secret => v (snd s))) (chunks_exact n data)).
  rewrite chunks_exact_map. unfold data. rewrite !map_map. reflexivity.
Qed.
End Build.
