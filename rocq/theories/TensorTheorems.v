(** C59, C60: the tensor variant of ABY2 (tensor_aby2.rs). *)
From Coq Require Import List Bool Arith NArith Lia Permutation.
Require Import Verif.Prelude Verif.PreludeProofs Verif.GateModel Verif.ProtocolModel Verif.BoolGmwModel Verif.BoolGmwSpec Verif.ExecBoolSpec
  Verif.CircuitModel Verif.CircuitSpec Verif.CircuitProofs Verif.CircuitProofs2 Verif.CircuitProofs3 Verif.CircuitCheck
  Verif.ExecModel Verif.ExecSpec Verif.ExecProofs Verif.ExecCircuitSpec Verif.ExecCircuitProofs Verif.ExecTheorems
  Verif.BitMatModel Verif.BitMatSpec Verif.BitMatTheorems
  Verif.Aby2Model Verif.Aby2Spec Verif.Aby2Proofs Verif.Aby2CircuitProofs
  Verif.TensorModel Verif.TensorSpec Verif.TensorProofs Verif.TensorExecProofs Verif.TensorCircuitProofs Verif.TensorSetupProofs Verif.TensorRunProofs.
Import ListNotations.
Open Scope nat_scope.

(** ** C59: shares and gates *)

(** Sharing by either party, for bits and matrices whose number of entries is a positive multiple of 8:
    the owner's [share_tensor] and the other party's [plain_delta_to_share_tensor] succeed, the private
    parts are the draws alone, both know the same masked value, and the reconstruction is the input. *)
Theorem C59_share_reconstruct : forall xs party priv joint priv' m m' s t,
  party <= 1 ->
  Forall (fun x => dim_ok (dim_of x) /\ has_dim (dim_of x) x) xs ->
  td_new party priv joint m = Some s -> td_new (1 - party) priv' joint m' = Some t ->
  exists sh ds s' sh' t',
    td_share s xs = Some (sh, ds, s') /\ td_delta t ds = Some (sh', t') /\
    all3 (fun x a b => tcarries (dim_of x) x a b) xs sh sh' /\
    td_reconstruct sh sh' = Some xs /\ td_reconstruct sh' sh = Some xs.
Proof.
  intros xs party priv joint priv' m m' s t Hp HX Es Et.
  assert (Hr : td_remote t = td_local s).
  { unfold td_new in Es, Et. destruct party as [|[|]]; [| |lia]; cbn in Es, Et; injection Es as <-; injection Et as <-; reflexivity. }
  destruct (share_ok xs s HX) as (sh & ds & s' & X & _ & _ & _ & R). destruct (R t Hr) as (sh' & t' & Y & _ & _ & A).
  exists sh, ds, s', sh', t'. split; auto. split; auto. split; auto.
  destruct (all3_length _ _ _ _ A) as [L0 L1].
  assert (HR : forall a b, length a = length xs -> length b = length xs ->
     (forall i x p q, nth_error xs i = Some x -> nth_error a i = Some p -> nth_error b i = Some q -> tcarries (dim_of x) x p q) ->
     td_reconstruct a b = Some xs).
  { intros a b La Lb H. apply (reconstruct_all (map dim_of xs)); auto.
    - apply Forall_forall. intros d Hd. apply in_map_iff in Hd. destruct Hd as (x & <- & Hx). rewrite Forall_forall in HX. apply (HX x Hx).
    - apply map_length.
    - intros i d x p q Hd Hx Ha Hb. rewrite (map_nth_error _ _ _ Hx) in Hd. injection Hd as <-. eauto. }
  split; apply HR; auto; try lia.
  - intros i x p q Hx Ha Hb. destruct (Aby2ExecProofs.all3_nth _ _ _ _ A i x Hx) as (a & b & Ea & Eb & HC). congruence.
  - intros i x p q Hx Ha Hb. destruct (Aby2ExecProofs.all3_nth _ _ _ _ A i x Hx) as (a & b & Ea & Eb & HC). apply tcarries_sym. congruence.
Qed.
Print Assumptions C59_share_reconstruct.

(** One AND gate: for all shares of its operands, all shares [e0], [e1] of the product of their masks and
    all output masks, the messages are computed, both parties obtain the same public value, and their
    output shares carry the product with the masks of the outputs. *)
Theorem C59_and_gate : forall junk xa xb a0 a1 b0 b1 e0 e1 o0 o1,
  tcarries DBit xa a0 a1 -> tcarries DBit xb b0 b1 ->
  has_dim DBit e0 -> has_dim DBit e1 -> has_dim DBit (ts_priv o0) -> has_dim DBit (ts_priv o1) ->
  xorb (tv_entry e0 0 0) (tv_entry e1 0 0) =
    xorb (tv_entry (ts_priv a0) 0 0) (tv_entry (ts_priv a1) 0 0) && xorb (tv_entry (ts_priv b0) 0 0) (tv_entry (ts_priv b1) 0 0) ->
  forall s0 s1, exists d0 d1 r0 r1 x,
    t_compute_msg junk 0 [TAnd2] [o0] [a0; b0] (s0 ++ [e0]) = Some ([d0], s0) /\
    t_compute_msg junk 1 [TAnd2] [o1] [a1; b1] (s1 ++ [e1]) = Some ([d1], s1) /\
    t_eval_all [o0] [d0] [d1] = Some [r0] /\ t_eval_all [o1] [d1] [d0] = Some [r1] /\
    ts_priv r0 = ts_priv o0 /\ ts_priv r1 = ts_priv o1 /\ tcarries DBit x r0 r1 /\ tensor_sem TAnd2 [xa; xb] x.
Proof.
  intros junk xa xb a0 a1 b0 b1 e0 e1 o0 o1 A B F0 F1 O0 O1 E s0 s1.
  destruct (and2_delta junk xa xb a0 a1 b0 b1 e0 e1 o0 o1 A B F0 F1 O0 O1 E s0 s1) as
    (d0 & d1 & d & r0 & r1 & X0 & X1 & T0 & T1 & P0 & P1 & Q0 & Q1 & x & C & Sm).
  exists d0, d1, r0, r1, x. cbn [t_compute_msg t_input_size firstn t_eval_all]. rewrite X0, X1. cbn [obind].
  rewrite T0, T1. cbn [obind]. rewrite P0, P1. cbn [obind]. auto 10.
Qed.
Print Assumptions C59_and_gate.

(** One matrix multiplication. *)
Theorem C59_matmult_gate : forall junk r k c xa xb a0 a1 b0 b1 e0 e1 o0 o1,
  dim_ok (DMat r k) -> dim_ok (DMat k c) -> dim_ok (DMat r c) ->
  tcarries (DMat r k) xa a0 a1 -> tcarries (DMat k c) xb b0 b1 ->
  has_dim (DMat r c) e0 -> has_dim (DMat r c) e1 -> has_dim (DMat r c) (ts_priv o0) -> has_dim (DMat r c) (ts_priv o1) ->
  (forall i j, i < r -> j < c -> xorb (tv_entry e0 i j) (tv_entry e1 i j) =
    xor_sum k (fun t => xorb (tv_entry (ts_priv a0) i t) (tv_entry (ts_priv a1) i t) &&
                        xorb (tv_entry (ts_priv b0) t j) (tv_entry (ts_priv b1) t j))) ->
  forall s0 s1, exists d0 d1 r0 r1 x,
    t_compute_msg junk 0 [TMatMult r c] [o0] [a0; b0] (s0 ++ [e0]) = Some ([d0], s0) /\
    t_compute_msg junk 1 [TMatMult r c] [o1] [a1; b1] (s1 ++ [e1]) = Some ([d1], s1) /\
    t_eval_all [o0] [d0] [d1] = Some [r0] /\ t_eval_all [o1] [d1] [d0] = Some [r1] /\
    ts_priv r0 = ts_priv o0 /\ ts_priv r1 = ts_priv o1 /\ tcarries (DMat r c) x r0 r1 /\ tensor_sem (TMatMult r c) [xa; xb] x.
Proof.
  intros junk r k c xa xb a0 a1 b0 b1 e0 e1 o0 o1 Dr Dk Dc A B F0 F1 O0 O1 E s0 s1.
  destruct (matmult_delta junk r k c xa xb a0 a1 b0 b1 e0 e1 o0 o1 Dr Dk Dc A B F0 F1 O0 O1 E s0 s1) as
    (d0 & d1 & d & r0 & r1 & X0 & X1 & T0 & T1 & P0 & P1 & Q0 & Q1 & x & C & Sm).
  exists d0, d1, r0, r1, x. cbn [t_compute_msg t_input_size firstn t_eval_all]. rewrite X0, X1. cbn [obind].
  rewrite T0, T1. cbn [obind]. rewrite P0, P1. cbn [obind]. auto 10.
Qed.
Print Assumptions C59_matmult_gate.

(** The XOR gate on bits and on matrices. *)
Theorem C59_xor_gate : forall d xa xb a0 a1 b0 b1,
  dim_ok d -> tcarries d xa a0 a1 -> tcarries d xb b0 b1 ->
  exists r0 r1 x, t_eval_ni 0 TXor [a0; b0] = Some r0 /\ t_eval_ni 1 TXor [a1; b1] = Some r1 /\ tcarries d x r0 r1 /\
    forall i j, in_dim d i j -> tv_entry x i j = xorb (tv_entry xa i j) (tv_entry xb i j).
Proof.
  intros d xa xb a0 a1 b0 b1 Hd (A1 & A2 & A3 & A4 & A5 & A6) (B1 & B2 & B3 & B4 & B5 & B6).
  destruct (tv_xor_ok d xa xb) as (x & Ex & Hx & Hxe); auto.
  destruct (tv_xor_ok d (ts_pub a0) (ts_pub b0)) as (p & Ep & Hp & Hpe); auto.
  destruct (tv_xor_ok d (ts_priv a0) (ts_priv b0)) as (q & Eq & Hq & Hqe); auto.
  destruct (tv_xor_ok d (ts_priv a1) (ts_priv b1)) as (q' & Eq' & Hq' & Hqe'); auto.
  assert (EN : forall party, t_eval_ni party TXor [a0; b0] = ts_xor a0 b0 /\ t_eval_ni party TXor [a1; b1] = ts_xor a1 b1) by (intros; split; reflexivity).
  assert (HS : exists r0 r1, ts_xor a0 b0 = Some r0 /\ ts_xor a1 b1 = Some r1 /\ ts_pub r0 = p /\ ts_pub r1 = p /\ ts_priv r0 = q /\ ts_priv r1 = q').
  { pose proof Ep as Ep'. rewrite <- A3, <- B3 in Ep'.
    destruct d.
    - destruct a0, a1, b0, b1; cbn in *; try contradiction; try discriminate.
      eexists _, _. split; [reflexivity|]. split; [reflexivity|]. cbn. repeat split; congruence.
    - destruct a0, a1, b0, b1; cbn [ts_pub ts_priv has_dim] in *; try contradiction; try discriminate.
      cbn [tv_xor ts_xor] in *.
      destruct (bm_xor pub pub1) as [u|]; [|discriminate]. destruct (bm_xor pub0 pub2) as [u'|]; [|discriminate].
      destruct (bm_xor priv priv1) as [w|]; [|discriminate]. destruct (bm_xor priv0 priv2) as [w'|]; [|discriminate].
      cbn [obind] in *. eexists _, _. split; [reflexivity|]. split; [reflexivity|]. cbn [ts_pub ts_priv]. repeat split; congruence. }
  destruct HS as (r0 & r1 & R0 & R1 & U0 & U1 & V0 & V1).
  exists r0, r1, x. split; [rewrite (proj1 (EN 0)); auto|]. split; [rewrite (proj2 (EN 1)); auto|]. split.
  - split; auto. rewrite U0, U1, V0, V1. split; auto. split; auto. split; auto. split; auto.
    intros i j H. rewrite Hxe, Hpe, Hqe, Hqe', (A6 i j H), (B6 i j H) by auto.
    destruct (tv_entry (ts_pub a0) i j), (tv_entry (ts_priv a0) i j), (tv_entry (ts_priv a1) i j), (tv_entry (ts_pub b0) i j), (tv_entry (ts_priv b0) i j), (tv_entry (ts_priv b1) i j); reflexivity.
  - intros i j H. apply Hxe. auto.
Qed.
Print Assumptions C59_xor_gate.

(** The inverter: party 0 negates its public part and party 1 keeps it (as for the Boolean GMW protocol,
    whose shares have no public part), so [reconstruct_tensor] panics for all shares of all values. *)
Theorem C59_inv_refuted : forall d x a b, dim_ok d -> tcarries d x a b ->
  exists r0 r1, t_eval_ni 0 TensorModel.TInv [a] = Some r0 /\ t_eval_ni 1 TensorModel.TInv [b] = Some r1 /\ td_reconstruct [r0] [r1] = None.
Proof.
  intros d x a b Hd (_ & P & E & _). exists (ts_not a), b. split; [reflexivity|]. split; [reflexivity|].
  cbn [td_reconstruct]. rewrite E.
  assert (H : tv_eqb (ts_pub (ts_not a)) (ts_pub a) = false).
  { destruct (tv_eqb (ts_pub (ts_not a)) (ts_pub a)) eqn:H; auto. apply tv_eqb_spec in H.
    destruct d, a; cbn in *; try contradiction.
    - injection H as H. destruct (as_pub s); discriminate.
    - destruct P as (<- & <- & X). injection H as H. unfold exact in X. destruct pub as [r c l]. cbn in *.
      injection H as H. destruct l as [|y l]; [cbn in X; nia|]. cbn in H. injection H as H _. destruct y; discriminate. }
  rewrite H. reflexivity.
Qed.
Print Assumptions C59_inv_refuted.

(** A constant bit is put into the private part of both parties, where it cancels: every scalar constant
    is reconstructed as 0.  (Matrix constants become the public part and are correct.) *)
Theorem C59_constant_refuted : forall out0 out1 b,
  td_reconstruct [t_share_constant 0 out0 (TScalar b)] [t_share_constant 1 out1 (TScalar b)] = Some [TScalar false].
Proof. intros. cbn. destruct b; reflexivity. Qed.
Print Assumptions C59_constant_refuted.
Theorem C59_matrix_constant : forall out0 out1 m, dim_ok (DMat (bm_rows m) (bm_cols m)) -> exact m ->
  tcarries (DMat (bm_rows m) (bm_cols m)) (TMatrix m) (t_share_constant 0 out0 (TMatrix m)) (t_share_constant 1 out1 (TMatrix m)) /\
  td_reconstruct [t_share_constant 0 out0 (TMatrix m)] [t_share_constant 1 out1 (TMatrix m)] = Some [TMatrix m].
Proof.
  intros out0 out1 m Hd X.
  assert (T : tcarries (DMat (bm_rows m) (bm_cols m)) (TMatrix m) (t_share_constant 0 out0 (TMatrix m)) (t_share_constant 1 out1 (TMatrix m))).
  { assert (X0 : exact (BitMat (bm_rows m) (bm_cols m) (repeat false (bm_rows m * bm_cols m)))) by (unfold exact; cbn; apply repeat_length).
    unfold tcarries. cbn [t_share_constant ts_pub ts_priv has_dim bm_rows bm_cols]. repeat (split; auto).
    intros i j H. rewrite xorb_nilpotent, xorb_false_r. reflexivity. }
  split; auto. apply (reconstruct_all [DMat (bm_rows m) (bm_cols m)] [TMatrix m]); auto.
  intros [|i] d x s t E1 E2 E3 E4; [|destruct i; discriminate].
  injection E1 as <-. injection E2 as <-. injection E3 as <-. injection E4 as <-. exact T.
Qed.
Print Assumptions C59_matrix_constant.

(** ** C60: executions *)

(** Setup and online phase together, for all circuits of inputs, XOR and AND gates on bits, matrix
    multiplications and outputs whose dimensions agree (all products of dimensions positive multiples of
    8), all owners of the inputs, all seeds, all inputs of the right dimensions, and any source of valid
    multiplication triples for the GMW execution of the setup circuit: both parties build the same setup
    circuit, nothing panics, and the reconstructed outputs are the plain values of the circuit. *)
Theorem C60_execution : forall W junk c ty m os priv0 priv1 joint,
  0 < W -> main_ok tensor_ops c -> c_simd c = None -> tensor_dims c ty ->
  omap m (c_inputs c) = Some os ->
  exists ec s t s1 t1 go0 go1 sc ins iss ecs i0 i1,
    ec_of_base tensor_ops c = Some ec /\
    td_new 0 priv0 joint (by_map 0 m) = Some s /\ td_new 1 priv1 joint (by_map 1 m) = Some t /\
    t_setup_gate_outputs junk ec s = Some (s1, go0) /\ t_setup_gate_outputs junk ec t = Some (t1, go1) /\
    t_setup_circuit junk ec go0 = Some (sc, ins, iss) /\ t_setup_circuit junk ec go1 = Some (sc, ins, iss) /\
    ec_of_base bool_ops sc = Some ecs /\
    t_setup_inputs junk go0 ins = Some i0 /\ t_setup_inputs junk go1 ins = Some i1 /\
    forall (Sv : Type) (req : Sv -> nat -> option (mul_triples * Sv)) J,
      serves req (bool_setup_ok W) J ->
      forall p0 p1 rest, J (requests ecs ++ rest) p0 p1 ->
      exists x0 x1 g0 q0 g1 q1 e0 e1,
        ex2_run (pr:=bool_gmw W) req ecs (@IScalar (bool_gmw W) i0) (@IScalar (bool_gmw W) i1)
          ((go_init (pr:=bool_gmw W) ecs, p0), (go_init (pr:=bool_gmw W) ecs, p1)) = Some (x0, x1, ((g0, q0), (g1, q1))) /\
        t_collect ec g0 iss = Some e0 /\ t_collect ec g1 iss = Some e1 /\ J rest q0 q1 /\
        forall xs0 xs1,
          length xs0 = owned ByP0 os -> length xs1 = owned ByP1 os ->
          Forall2 has_dim (map ty (c_inputs c)) (merge os xs0 xs1) ->
          exists sh0 d0 s' sh1 d1 t' r0 s'' r1 t'' v o0 o1 st,
            td_share s xs0 = Some (sh0, d0, s') /\ td_share t xs1 = Some (sh1, d1, t') /\
            td_delta s' d1 = Some (r0, s'') /\ td_delta t' d0 = Some (r1, t'') /\
            tensor_plain c (merge os xs0 xs1) v /\
            ex2_run (pr:=tensor junk) t_request ec
              (@IScalar (tensor junk) (merge os sh0 r0)) (@IScalar (tensor junk) (merge os r1 sh1))
              ((go0, e0), (go1, e1)) = Some (@IScalar (tensor junk) o0, @IScalar (tensor junk) o1, st) /\
            td_reconstruct o0 o1 = Some (map v (c_outputs c)).
Proof.
  intros W junk c ty m os priv0 priv1 joint HW Hm Hs Ho Hos.
  destruct (t_gmw_setup W junk c ty m os priv0 priv1 joint HW Hm Hs Ho Hos) as
    (ec & s & t & s1 & t1 & go0 & go1 & l0 & l1 & sc & ins & iss & ecs & i0 & i1 & A1 & A2 & A3 & A4 & A5 & _ & A6 & A7 & A8 & A9 & A10 & A11 & A12).
  exists ec, s, t, s1, t1, go0, go1, sc, ins, iss, ecs, i0, i1.
  do 10 (split; [assumption|]). intros Sv req J HJ p0 p1 rest Hj.
  destruct (A11 Sv req J HJ p0 p1 rest Hj) as (x0 & x1 & g0 & q0 & g1 & q1 & E0 & E1 & B1 & B2 & B3 & B4 & B5).
  exists x0, x1, g0, q0, g1, q1, (t_from_raw E0), (t_from_raw E1).
  split; [exact B1|]. split; [exact B2|]. split; [exact B3|]. split; [exact B5|].
  intros xs0 xs1 L0 L1 HD. apply (A12 xs0 xs1 E0 E1); auto.
Qed.
Print Assumptions C60_execution.

(** The plain values are determined by the inputs, so [C60_execution] leaves no choice of [v]. *)
Theorem C60_plain_unique : forall c ty m os xs0 xs1 v v',
  main_ok tensor_ops c -> c_simd c = None -> tensor_dims c ty -> omap m (c_inputs c) = Some os ->
  Forall2 has_dim (map ty (c_inputs c)) (merge os xs0 xs1) ->
  tensor_plain c (merge os xs0 xs1) v -> tensor_plain c (merge os xs0 xs1) v' ->
  forall g, g < c_count c -> v g = v' g.
Proof.
  intros c ty m os xs0 xs1 v v' Hm Hs Ho Hos HD Hv Hv'.
  destruct (base_sched tensor_ops c Hm) as (ls & Els & Eec & HP & HS & HSO); [congruence|auto|].
  assert (H : forall n l1 l2, length l1 <= n -> all_ids ls = l1 ++ l2 -> forall g, In g l1 -> v g = v' g).
  { induction n as [|n IH]; intros l1 l2 Ln El g Hg.
    - destruct l1; [destruct Hg|cbn in Ln; lia].
    - destruct (in_split _ _ Hg) as (m1 & m2 & ->). rewrite <- app_assoc in El. cbn [app] in El.
      destruct (t_ids_order (fun _ => false) c ls HS HP m1 g (m2 ++ l2) El) as ((gate & Eg) & _ & Hincl).
      rewrite app_length in Ln. cbn in Ln.
      assert (HPv : map v (parents c g) = map v' (parents c g)).
      { apply map_ext_in. intros p Hp. eapply (IH m1); [lia|exact El|]. apply Hincl. auto. }
      pose proof (Hv g gate Eg) as V. pose proof (Hv' g gate Eg) as V'.
      pose proof (t_plain_dims (fun _ => false) c ty Ho ls HS HP _ _ HD Hv g gate Eg) as D.
      pose proof (t_plain_dims (fun _ => false) c ty Ho ls HS HP _ _ HD Hv' g gate Eg) as D'.
      assert (HG : (exists dim, gate = TBase GInput dim) \/ tensor_sem gate (map v (parents c g)) (v g) /\ tensor_sem gate (map v' (parents c g)) (v' g)).
      { destruct gate as [[] dim| | | | | |r cc|]; eauto. }
      destruct HG as [(dim & ->)|[V1 V1']].
      + destruct V as (i & I1 & I2), V' as (j & J1 & J2).
        assert (i = j).
        { assert (ND : NoDup (c_inputs c)) by (destruct Hm as (Ha & _); apply api_api_wf in Ha; rewrite (aw_inputs _ _ Ha); unfold ids_where; apply NoDup_filter, seq_NoDup).
          eapply NoDup_nth_error; eauto; [|congruence]. apply nth_error_Some. congruence. }
        subst j. congruence.
      + rewrite HPv in V1. apply (tensor_sem_fun gate _ _ _ (ty g) (proj1 (Ho g gate Eg)) D D' V1 V1'). }
  intros g Hg. eapply (H (length (all_ids ls)) (all_ids ls) []); auto. { rewrite app_nil_r; auto. }
  apply (t_all_ids_In (fun _ => false) c ls HP). auto.
Qed.
Print Assumptions C60_plain_unique.

(** Gates the setup of the gate outputs does not support: constants, the inverter, AND with three or four
    operands, [Combine]/[Select], SIMD connections and inputs with more than two dimensions.  Every
    circuit containing one of them panics, for all seeds. *)
Definition t_unsupported (gate : tensor_gate) : Prop :=
  match gate with
  | TBase (GConstant _) _ | TBase (GConnectToMainFromSimd _) _ | TAnd3 | TAnd4 | TensorModel.TInv | TOther => True
  | TBase GInput dim => 3 <= length dim
  | _ => False
  end.
Lemma ofold_none {S A} (f : S -> A -> option S) l x : In x l -> (forall s, f s x = None) -> forall s, ofold f s l = None.
Proof.
  induction l as [|y l IH]; intros Hx Hf s; [destruct Hx|]. destruct Hx as [->|H]; cbn [ofold].
  - rewrite Hf. reflexivity.
  - destruct (f s y); cbn [obind]; auto.
Qed.
Theorem C60_unsupported_refuted : forall junk c gate,
  main_ok tensor_ops c -> c_simd c = None -> In gate (c_gates c) -> t_unsupported gate ->
  exists ec, ec_of_base tensor_ops c = Some ec /\ forall ds, t_setup_gate_outputs junk ec ds = None.
Proof.
  intros junk c gate Hm Hs Hg Hu.
  destruct (base_sched tensor_ops c Hm) as (ls & Els & Eec & HP & HS & HSO); [congruence|auto|].
  exists (ec_base c ls). split; auto. intros ds. unfold t_setup_gate_outputs.
  destruct (forallb _ _); [|reflexivity]. cbn [oassert obind].
  apply In_nth_error in Hg. destruct Hg as (g & Eg).
  apply (ofold_none _ _ (0, g)).
  { rewrite ec_iter_base. apply in_map. apply (t_all_ids_In junk c ls HP). apply nth_error_Some. congruence. }
  intros [s go]. unfold t_setup_gate. cbn [ec_base ec_gate fst snd Nat.eqb]. rewrite Eg. cbn [obind].
  match goal with |- context [omap ?f ?l] => destruct (omap f l) as [ins|] end; [|reflexivity]. cbn [obind].
  assert (HN : forall r, t_setup_output gate ins r = None).
  { intros r. destruct gate as [[] dim| | | | | |rr cc|]; cbn in Hu; try contradiction; try reflexivity.
    destruct dim as [|? [|? [|? ?]]]; cbn in Hu; try lia. reflexivity. }
  destruct (td_map s g) as [[]|]; rewrite HN; reflexivity.
Qed.
Print Assumptions C60_unsupported_refuted.

(** Concrete circuits. *)
Lemma none_by {A} (o : option A) : match o with None => true | Some _ => false end = true -> o = None.
Proof. destruct o; [discriminate|auto]. Qed.
Definition t_build (l : list (tensor_gate * list nat)) : circuit tensor_gate := c_build tensor_ops c_new_main l.
Definition t_demo_m (i : nat) : option input_by := Some (if Nat.even i then ByP0 else ByP1).

(** The XOR of two matrices, which [evaluate_non_interactive] supports ([C59_xor_gate]), panics in the
    setup, for all seeds. *)
Definition t_demo_xor : circuit tensor_gate :=
  t_build [(TBase GInput [2; 4], []); (TBase GInput [2; 4], []); (TXor, [0; 1]); (TBase GOutput [2; 4], [2])].
Theorem C60_matrix_xor_refuted : forall junk priv joint,
  exists ec s, main_ok tensor_ops t_demo_xor /\ ec_of_base tensor_ops t_demo_xor = Some ec /\
    td_new 0 priv joint (by_map 0 t_demo_m) = Some s /\ t_setup_gate_outputs junk ec s = None.
Proof.
  intros junk priv joint. eexists _, _. split. { apply main_check_ok; [apply c_build_api; constructor|]; vm_compute; reflexivity. }
  split; [vm_compute; reflexivity|]. split; [reflexivity|]. apply none_by. vm_compute. reflexivity.
Qed.
Print Assumptions C60_matrix_xor_refuted.

(** A product whose number of entries is not a multiple of 8 panics in the setup although all operands
    are accepted: 2x4 times 4x2. *)
Definition t_demo_small : circuit tensor_gate :=
  t_build [(TBase GInput [2; 4], []); (TBase GInput [4; 2], []); (TMatMult 2 2, [0; 1]); (TBase GOutput [2; 2], [2])].
Theorem C60_small_product_refuted : forall junk priv joint,
  exists ec s, main_ok tensor_ops t_demo_small /\ ec_of_base tensor_ops t_demo_small = Some ec /\
    td_new 0 priv joint (by_map 0 t_demo_m) = Some s /\ t_setup_gate_outputs junk ec s = None /\
    forall a b, exact a -> exact b -> bm_rows a = 2 -> bm_cols a = 4 -> bm_rows b = 4 -> bm_cols b = 2 ->
      td_share s [TMatrix a; TMatrix b] <> None.
Proof.
  intros junk priv joint. eexists _, _. split. { apply main_check_ok; [apply c_build_api; constructor|]; vm_compute; reflexivity. }
  split; [vm_compute; reflexivity|]. split; [reflexivity|]. split; [apply none_by; vm_compute; reflexivity|].
  intros a b Xa Xb Ra Ca Rb Cb.
  destruct (share_ok [TMatrix a; TMatrix b] (TDS (WRng priv 0) (WRng (joint 0) 0) (WRng (joint 1) 0) (by_map 0 t_demo_m))) as (sh & ds & s' & E & _).
  - repeat constructor; cbn [dim_of dim_ok has_dim]; rewrite ?Ra, ?Ca, ?Rb, ?Cb; auto; try lia.
  - cbn [td_new] in *. cbn in *. rewrite E. discriminate.
Qed.
Print Assumptions C60_small_product_refuted.

(** A circuit with a matrix product of 2x4 and 4x4, another product of the result, and bits. *)
Definition t_demo : circuit tensor_gate :=
  t_build [(TBase GInput [2; 4], []); (TBase GInput [4; 4], []); (TMatMult 2 4, [0; 1]); (TMatMult 2 4, [2; 1]);
     (TBase GOutput [2; 4], [3]); (TBase GInput [], []); (TBase GInput [], []); (TAnd2, [5; 6]); (TXor, [7; 5]);
     (TBase GOutput [], [8])].
Definition t_demo_ty (g : nat) : tdim :=
  match g with 0 | 2 | 3 | 4 => DMat 2 4 | 1 => DMat 4 4 | _ => DBit end.
Definition t_demo_a : bitmat := BitMat 2 4 [true; false; true; true; false; true; false; true].
Definition t_demo_b : bitmat := BitMat 4 4 [true; false; false; true; false; true; true; false; true; true; false; false; false; false; true; true].
Example C60_case :
  main_ok tensor_ops t_demo /\ c_simd t_demo = None /\ tensor_dims t_demo t_demo_ty /\
  omap t_demo_m (c_inputs t_demo) = Some [ByP0; ByP1; ByP1; ByP0] /\
  Forall2 has_dim (map t_demo_ty (c_inputs t_demo))
    (merge [ByP0; ByP1; ByP1; ByP0] [TMatrix t_demo_a; TScalar true] [TMatrix t_demo_b; TScalar true]) /\
  (ec <- ec_of_base tensor_ops t_demo ;;
   s <- td_new 0 (fun i => N.of_nat (i * i)) (fun k i => N.of_nat (k + i)) (by_map 0 t_demo_m) ;;
   '(_, go) <- t_setup_gate_outputs (fun _ => true) ec s ;;
   '(sc, ins, iss) <- t_setup_circuit (fun _ => true) ec go ;;
   Some (ins, map (@length nat) iss,
         length (filter (fun g => match g with BAnd => true | _ => false end) (c_gates sc)),
         length (filter (fun g => match g with BXor => true | _ => false end) (c_gates sc)))) =
  Some ([(0, 0); (0, 1); (0, 5); (0, 6); (0, 2)], [8; 1; 8], 65, 48).
Proof.
  split. { apply main_check_ok; [apply c_build_api; constructor|]; vm_compute; reflexivity. }
  split; [reflexivity|]. split.
  { intros g gate E. do 10 (destruct g as [|g]; [vm_compute in E; injection E as <-; vm_compute; repeat (split; auto with arith); eauto|]).
    vm_compute in E. destruct g; discriminate. }
  split; [reflexivity|]. split. { vm_compute. repeat constructor. }
  vm_compute. reflexivity.
Qed.
