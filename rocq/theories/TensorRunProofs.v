(** Tensor ABY2: complete runs of the setup and the online phase. *)
From Coq Require Import List Bool Arith NArith Lia ZArith Permutation.
From Coq Require Import ZifyBool ZifyNat.
Require Import Verif.Prelude Verif.PreludeProofs Verif.BitVecModel Verif.GateModel Verif.ProtocolModel Verif.BoolGmwModel Verif.BoolGmwSpec Verif.ExecBoolSpec Verif.ExecBoolProofs
  Verif.CircuitModel Verif.CircuitSpec Verif.CircuitProofs Verif.CircuitProofs2 Verif.CircuitProofs3
  Verif.ExecModel Verif.ExecSpec Verif.ExecProofs Verif.ExecCircuitSpec Verif.ExecCircuitProofs Verif.ExecTheorems
  Verif.BitMatModel Verif.BitMatSpec Verif.BitMatTheorems
  Verif.Aby2Model Verif.Aby2Spec Verif.Aby2Proofs Verif.Aby2ExecProofs Verif.Aby2CircuitProofs Verif.Aby2SetupProofs Verif.Aby2Theorems Verif.Aby2SetupTheorems
  Verif.TensorModel Verif.TensorSpec Verif.TensorProofs Verif.TensorExecProofs Verif.TensorCircuitProofs Verif.TensorSetupProofs.
Import ListNotations.
Open Scope nat_scope.

(** *** The GMW execution of a setup circuit *)
Definition gmw_read {W} (go : gouts (bool_gmw W)) (i : nat) : option bool :=
  c <- go_cell (pr:=bool_gmw W) go (0, i) ;; cell_scalar c.

Lemma gmw_circuit_run W sc iss : 0 < W -> cok sc -> c_outputs sc = concat iss ->
  exists ecs, ec_of_base bool_ops sc = Some ecs /\
  forall i0 i1 : list bool, length i0 = length (c_inputs sc) -> length i1 = length (c_inputs sc) ->
  forall (Sv : Type) (req : Sv -> nat -> option (mul_triples * Sv)) J,
    serves req (bool_setup_ok W) J ->
    forall p0 p1 rest, J (requests ecs ++ rest) p0 p1 ->
    exists x0 x1 g0 q0 g1 q1 E0 E1 w,
      ex2_run (pr:=bool_gmw W) req ecs (@IScalar (bool_gmw W) i0) (@IScalar (bool_gmw W) i1)
        ((go_init (pr:=bool_gmw W) ecs, p0), (go_init (pr:=bool_gmw W) ecs, p1)) = Some (x0, x1, ((g0, q0), (g1, q1))) /\
      tbval sc w /\ map w (c_inputs sc) = zip_with xorb i0 i1 /\
      omap (omap (gmw_read g0)) iss = Some E0 /\ omap (omap (gmw_read g1)) iss = Some E1 /\
      Forall2 (fun is ab => length (fst ab) = length (snd ab) /\ zip_with xorb (fst ab) (snd ab) = map w is) iss (combine E0 E1) /\
      J rest q0 q1.
Proof.
  intros HW [CW CS' CO] Eout. pose proof (wired_main_ok _ _ CW) as Hsm.
  destruct (C11_execution_computes_circuit W sc HW Hsm CO) as (ecs & Eecs & Hinit & Hex).
  { unfold simd_ok. rewrite CS'. exact I. }
  exists ecs. split; auto. intros i0 i1 L0 L1 Sv req J HJ p0 p1 rest Hj.
  destruct (Hex Sv req J HJ (@IScalar (bool_gmw W) i0) (@IScalar (bool_gmw W) i1)
     (map (fun b => [b]) (bits_xor i0 i1))) with
     (go0 := go_init (pr:=bool_gmw W) ecs) (go1 := go_init (pr:=bool_gmw W) ecs) (s0 := p0) (s1 := p1) (rest := rest)
     as (v & x0 & x1 & g0 & g1 & q0 & q1 & Hv & ER & HO & _ & _ & Hj'); auto.
  { rewrite CS'. cbn. split; [transitivity (length (c_inputs sc)); auto|reflexivity]. }
  { rewrite map_length. unfold bits_xor. rewrite zip_with_length. lia. }
  set (w := fun i => hd false (v i)).
  assert (Hlane : c_lanes sc = 1) by (unfold c_lanes; rewrite CS'; auto).
  assert (Hhd : forall i, nth 0 (v i) false = w i) by (intros i; unfold w; destruct (v i); auto).
  assert (Hbv : tbval sc w).
  { split.
    - intros g gate Eg. destruct (Hv g gate Eg) as (Lv & HS). rewrite Hlane in Lv, HS.
      destruct gate as [[]| | |]; auto.
      + intros a Ea. specialize (HS 0 ltac:(lia)). rewrite Ea in HS. cbn in HS. injection HS as HS. rewrite !Hhd in HS. auto.
      + intros a b Ea. specialize (HS 0 ltac:(lia)). rewrite Ea in HS. cbn in HS. injection HS as HS. rewrite !Hhd in HS. auto.
    - intros g a b Eg Ea. destruct (Hv g _ Eg) as (Lv & HS). rewrite Hlane in Lv, HS.
      specialize (HS 0 ltac:(lia)). rewrite Ea in HS. cbn in HS. injection HS as HS. rewrite !Hhd in HS. auto. }
  assert (Hiv : map w (c_inputs sc) = zip_with xorb i0 i1).
  { apply list_ext with (d := false).
    { rewrite map_length, zip_with_length. lia. }
    intros k Hk. rewrite map_length in Hk.
    destruct Hsm as (Ha & _). pose proof (api_api_wf _ _ Ha) as Hw.
    destruct (nth_error (c_inputs sc) k) as [i|] eqn:Hi; [|apply nth_error_None in Hi; lia].
    assert (Hin : In i (c_inputs sc)) by (eapply nth_error_In; eauto).
    rewrite (aw_inputs _ _ Hw) in Hin. apply ids_where_In in Hin. destruct Hin as (x & Ex & Kx).
    destruct x as [[]| | |]; try discriminate. destruct (Hv i _ Ex) as (_ & k' & K1 & K2).
    assert (k' = k). {
      assert (ND : NoDup (c_inputs sc)) by (rewrite (aw_inputs _ _ Hw); unfold ids_where; apply NoDup_filter, seq_NoDup).
      eapply NoDup_nth_error; eauto; [|congruence]. apply nth_error_Some. congruence. }
    subst k'. rewrite (nth_error_nth (map w (c_inputs sc)) k false (map_nth_error w _ _ Hi)).
    unfold bits_xor in K2.
    destruct (nth_error (zip_with xorb i0 i1) k) as [b|] eqn:Eb; [|apply nth_error_None in Eb; rewrite zip_with_length in Eb; lia].
    rewrite (map_nth_error _ _ _ Eb) in K2. rewrite (nth_error_nth _ _ _ Eb). unfold w. injection K2 as <-. reflexivity. }
  rewrite CS' in HO.
  destruct x0 as [y0|]; [|destruct HO]. destruct x1 as [y1|]; [|destruct HO]. destruct HO as [Ly HO].
  assert (Eouts : ec_outputs ecs = concat iss).
  { unfold ec_of_base in Eecs. destruct (c_layers bool_ops sc); [|discriminate]. injection Eecs as <-. cbn. auto. }
  assert (Hread : omap (gmw_read g0) (concat iss) = Some y0 /\ omap (gmw_read g1) (concat iss) = Some y1).
  { unfold ex2_run in ER.
    do 2 (match type of ER with context [oassert ?b] => destruct b; [|discriminate ER] end; cbn [oassert obind] in ER).
    match type of ER with context [ofold ?f ?a ?b] => destruct (ofold f a b) as [[[ga pa] [gb pb]]|]; [|discriminate ER] end. cbn [obind] in ER.
    destruct (ex_outputs (pr:=bool_gmw W) ecs ga) as [oa|] eqn:Ea; [|discriminate]. cbn [obind] in ER.
    destruct (ex_outputs (pr:=bool_gmw W) ecs gb) as [ob|] eqn:Eb; [|discriminate]. cbn [obind] in ER.
    injection ER as -> -> -> -> -> ->.
    assert (RD : forall go y, ex_outputs (pr:=bool_gmw W) ecs go = Some (@IScalar (bool_gmw W) y) ->
      omap (gmw_read go) (concat iss) = Some y).
    { intros go y E. unfold ex_outputs in E. change (@ec_outputs (p_gate (bool_gmw W)) ecs) with (@ec_outputs bool_gate ecs) in E.
      rewrite Eouts in E. destruct (omap _ (concat iss)) as [cs|] eqn:Ec; [|discriminate]. cbn [obind] in E.
      destruct (ec_main_simd _).
      - destruct (omap cell_simd cs); discriminate.
      - destruct (omap cell_scalar cs) as [l|] eqn:El; [|discriminate]. cbn in E. injection E as <-.
        clear - Ec El. revert cs l Ec El. induction (concat iss) as [|i r IH]; intros cs l Ec El; cbn [omap] in *.
        + injection Ec as <-. cbn in El. injection El as <-. auto.
        + destruct (go_get go (0, i)) as [x|] eqn:Eg; [|discriminate]. cbn [obind] in Ec.
          destruct (omap _ r) as [cs'|] eqn:Er; [|discriminate]. cbn in Ec. injection Ec as <-. cbn [omap] in El.
          destruct (cell_scalar x) as [y|] eqn:Ex; [|discriminate]. cbn [obind] in El.
          destruct (omap cell_scalar cs') as [l'|] eqn:El'; [|discriminate]. cbn in El. injection El as <-.
          apply go_get_cell in Eg. destruct Eg as [Eg _].
          unfold gmw_read at 1. rewrite Eg. cbn [obind]. rewrite Ex. cbn [obind].
          rewrite (IH cs' l'); auto. }
    auto. }
  destruct Hread as [R0 R1].
  destruct (omap_concat _ _ _ R0) as (E0 & EE0 & CE0). destruct (omap_concat _ _ _ R1) as (E1 & EE1 & CE1).
  exists (@IScalar (bool_gmw W) y0), (@IScalar (bool_gmw W) y1), g0, q0, g1, q1, E0, E1, w.
  split; auto. split; auto. split; auto. split; auto. split; auto. split; auto.
  apply zip_groups; [apply (omap_lengths _ _ _ EE0)|apply (omap_lengths _ _ _ EE1)|].
  rewrite CE0, CE1. rewrite Eout in HO. change (zip_with xorb y0 y1) with (bits_xor y0 y1).
  assert (E2 : map (hd false) (map v (concat iss)) = map (hd false) (map (fun b => [b]) (bits_xor y0 y1))) by congruence.
  rewrite !map_map in E2. cbn in E2. rewrite map_id in E2. auto.
Qed.

(** *** The online phase *)
Lemma tcarries_sym d x a b : tcarries d x a b -> tcarries d x b a.
Proof.
  intros (A & B & C & D & E & F). split; auto. split; [rewrite C; auto|]. split; auto. split; auto. split; auto.
  intros i j H. rewrite (F i j H), C. f_equal. apply xorb_comm.
Qed.

Lemma t_run_ok : forall junk c ty m os priv0 priv1 joint,
  main_ok tensor_ops c -> c_simd c = None -> tensor_dims c ty ->
  omap m (c_inputs c) = Some os ->
  exists ec s t s1 t1 go0 go1 l0 l1,
    ec_of_base tensor_ops c = Some ec /\
    td_new 0 priv0 joint (by_map 0 m) = Some s /\ td_new 1 priv1 joint (by_map 1 m) = Some t /\
    t_setup_gate_outputs junk ec s = Some (s1, go0) /\ t_setup_gate_outputs junk ec t = Some (t1, go1) /\
    (forall g, ec_gate ec g <> None ->
       exists a b, go_get (pr:=tensor junk) go0 g = Some (@CS (tensor junk) a) /\ go_get (pr:=tensor junk) go1 g = Some (@CS (tensor junk) b) /\
         ts_priv a = l0 g /\ ts_priv b = l1 g) /\
    (forall g p, ec_gate ec g <> None -> In p (ec_parents ec g) -> ec_gate ec p <> None) /\
    t_typed ec (fun g => ty (snd g)) /\ t_masks ec (fun g => ty (snd g)) l0 /\ t_masks ec (fun g => ty (snd g)) l1 /\
    forall xs0 xs1 E0 E1,
      length xs0 = owned ByP0 os -> length xs1 = owned ByP1 os ->
      Forall2 has_dim (map ty (c_inputs c)) (merge os xs0 xs1) ->
      all3 (teval_ok ec (fun g => ty (snd g)) l0 l1) (t_int_iter ec) E0 E1 ->
      exists sh0 d0 s' sh1 d1 t' r0 s'' r1 t'' v o0 o1 st,
        td_share s xs0 = Some (sh0, d0, s') /\ td_share t xs1 = Some (sh1, d1, t') /\
        td_delta s' d1 = Some (r0, s'') /\ td_delta t' d0 = Some (r1, t'') /\
        tensor_plain c (merge os xs0 xs1) v /\
        ex2_run (pr:=tensor junk) t_request ec
          (@IScalar (tensor junk) (merge os sh0 r0)) (@IScalar (tensor junk) (merge os r1 sh1))
          ((go0, t_from_raw E0), (go1, t_from_raw E1)) = Some (@IScalar (tensor junk) o0, @IScalar (tensor junk) o1, st) /\
        td_reconstruct o0 o1 = Some (map v (c_outputs c)).
Proof.
  intros junk c ty m os priv0 priv1 joint Hm Hs Ho Hos.
  destruct (base_sched tensor_ops c Hm) as (ls & Els & Eec & HP & HS & HSO); [congruence|auto|].
  set (s := TDS (WRng priv0 0) (WRng (joint 0) 0) (WRng (joint 1) 0) (by_map 0 m)).
  set (t := TDS (WRng priv1 0) (WRng (joint 1) 0) (WRng (joint 0) 0) (by_map 1 m)).
  destruct (t_base_setup junk c ty Hm Hs Ho ls Els HS HP s) as (s1 & go0 & l0 & S0 & Sh0 & M0 & C0 & I0).
  destruct (t_base_setup junk c ty Hm Hs Ho ls Els HS HP t) as (t1 & go1 & l1 & S1 & Sh1 & M1 & C1 & I1).
  set (ec := ec_base c ls) in *.
  assert (HT : t_typed ec (fun g => ty (snd g))) by (apply (t_base_typed junk); auto).
  exists ec, s, t, s1, t1, go0, go1, l0, l1.
  split; auto. split; [reflexivity|]. split; [reflexivity|]. split; auto. split; auto.
  assert (Hgo : forall g, ec_gate ec g <> None ->
       exists a b, go_get (pr:=tensor junk) go0 g = Some (@CS (tensor junk) a) /\ go_get (pr:=tensor junk) go1 g = Some (@CS (tensor junk) b) /\
         ts_priv a = l0 g /\ ts_priv b = l1 g).
  { intros g Hg. destruct (ec_gate ec g) as [gate|] eqn:Eg; [|congruence].
    destruct (C0 g gate Eg) as (a & A1 & A2). destruct (C1 g gate Eg) as (b & B1 & B2). exists a, b. auto. }
  split; auto.
  assert (Hpar : forall g p, ec_gate ec g <> None -> In p (ec_parents ec g) -> ec_gate ec p <> None).
  { intros [z g] p Hg Hp. unfold ec in *. cbn [ec_base ec_gate ec_parents fst snd] in *.
    destruct (Nat.eqb_spec z 0) as [->|]; [|congruence]. apply in_map_iff in Hp. destruct Hp as (y & <- & Hy). cbn.
    destruct (nth_error (c_gates c) g) as [gate|] eqn:Eg; [|congruence].
    destruct (t_parent_gate junk c ls HS HP g gate y Eg Hy) as (gate' & ->). congruence. }
  split; auto. split; auto. split; auto. split; auto.
  intros xs0 xs1 E0 E1 L0 L1 HD HE.
  pose proof (omap_length _ _ _ Hos) as Los.
  destruct (t_plain_exists junk c ty Hm Ho ls HS HP (merge os xs0 xs1) HD) as (v & Hv).
  assert (HDok : Forall dim_ok (map ty (c_inputs c))).
  { apply Forall_forall. intros d Hd. apply in_map_iff in Hd. destruct Hd as (i & <- & Hi).
    destruct Hm as (Ha & _). pose proof (api_api_wf _ _ Ha) as Hw. rewrite (aw_inputs _ _ Hw) in Hi. apply ids_where_In in Hi.
    destruct Hi as (x & Ex & _). apply (Ho i x Ex). }
  destruct (merge_plain_ok os _ _ _ L0 L1 HDok HD) as [P0 P1].
  destruct (share_ok xs0 s P0) as (sh0 & d0 & s' & X0 & Ld0 & Es' & D0 & R0).
  destruct (share_ok xs1 t P1) as (sh1 & d1 & t' & X1 & Ld1 & Et' & D1 & R1).
  destruct (R1 s') as (r0 & s'' & Y0 & _ & Q0 & A1). { rewrite Es'. reflexivity. }
  destruct (R0 t') as (r1 & t'' & Y1 & _ & Q1 & A0). { rewrite Et'. reflexivity. }
  assert (A1' : all3 (fun x a b => tcarries (dim_of x) x a b) xs1 r0 sh1).
  { clear - A1. induction A1; constructor; auto. apply tcarries_sym; auto. }
  pose proof (merge_all3 _ os _ _ _ _ _ _ A0 A1') as AM.
  destruct (all3_length _ _ _ _ AM) as [LM0 LM1]. rewrite (merge_length os xs0 xs1 L0 L1) in LM0, LM1.
  assert (DD0 : map ts_priv (merge os sh0 r0) = map (fun i => l0 (0, i)) (c_inputs c)).
  { rewrite I0, (t_input_draws_merge _ m (c_inputs c) os xs0 xs1 _ _ 0 Hos) by auto. cbn [Nat.eqb].
    rewrite merge_map, D0, Q0, Es'. reflexivity. }
  assert (DD1 : map ts_priv (merge os r1 sh1) = map (fun i => l1 (0, i)) (c_inputs c)).
  { rewrite I1, (t_input_draws_merge _ m (c_inputs c) os xs0 xs1 _ _ 1 Hos) by auto. cbn [Nat.eqb].
    rewrite merge_map, D1, Q1, Et'. reflexivity. }
  destruct (t_exec_sound junk ec (fun g => ty (snd g)) (fun g => v (snd g)) l0 l1 (merge os xs0 xs1) HT) with
    (Todo := fun g : gid => fst g = 0) (go0 := go0) (go1 := go1) (s0 := merge os sh0 r0) (s1 := merge os r1 sh1)
    (t0 := t_from_raw E0) (t1 := t_from_raw E1) as (o0 & o1 & st & ER & AO); auto.
  - apply t_base_valuation; auto.
  - intros [z g] gate Eg. cbn in Eg. destruct (z =? 0); [|discriminate]. cbn [snd].
    apply (t_plain_dims junk c ty Ho ls HS HP (merge os xs0 xs1) v HD Hv g gate Eg).
  - cbn. destruct Hm as (Ha & _). apply api_api_wf in Ha. rewrite (aw_inputs _ _ Ha). unfold ids_where. apply NoDup_filter, seq_NoDup.
  - intros i id x Hi Hx. cbn [ec_base ec_inputs ec] in Hi.
    destruct (all3_nth _ _ _ _ AM i x Hx) as (a & b & Ea & Eb & HC). exists a, b. split; auto. split; auto. split; [|split].
    + assert (HX : has_dim (ty id) x).
      { clear - HD Hi Hx. revert i Hi Hx HD. generalize (merge os xs0 xs1). induction (c_inputs c) as [|y r IH]; intros l i Hi Hx F.
        - destruct i; discriminate.
        - inversion F; subst. destruct i; cbn in Hi, Hx; [injection Hi as <-; injection Hx as <-; auto|eapply IH; [exact Hi|exact Hx|auto]]. }
      cbn [snd]. rewrite <- (has_dim_of _ _ HX). exact HC.
    + pose proof (map_nth_error ts_priv i _ Ea) as Y. rewrite DD0, (map_nth_error _ _ _ Hi) in Y. congruence.
    + pose proof (map_nth_error ts_priv i _ Eb) as Y. rewrite DD1, (map_nth_error _ _ _ Hi) in Y. congruence.
  - cbn. lia.
  - cbn. lia.
  - intros g k0 k1 _ K0 K1 Hg. destruct (Hgo g Hg) as (a & b & G0 & G1 & Pa & Pb).
    pose proof (go_get_cell (pr:=tensor junk) go0 g (@CS (tensor junk) a)) as U0. pose proof (go_get_cell (pr:=tensor junk) go1 g (@CS (tensor junk) b)) as U1.
    rewrite (proj1 (U0 G0)) in K0. rewrite (proj1 (U1 G1)) in K1. injection K0 as <-. injection K1 as <-. auto.
  - exists E0, E1. split; auto. split; auto. unfold ec in *. rewrite <- t_int_iter_layers; auto.
  - exists sh0, d0, s', sh1, d1, t', r0, s'', r1, t'', v, o0, o1, st.
    do 5 (split; [assumption|]). split; [exact ER|].
    cbn [ec_base ec_outputs ec] in AO.
    assert (AO' : all3 (fun i a b => tcarries (ty i) (v i) a b) (c_outputs c) o0 o1).
    { clear - AO. revert o0 o1 AO. induction (c_outputs c) as [|x r IH]; intros o0 o1 AO; cbn [map] in *.
      - apply all3_nil_inv in AO. destruct AO as [-> ->]. constructor.
      - destruct (all3_cons_inv _ _ _ _ _ AO) as (a & b & ra & rb & -> & -> & [X _] & AO'). constructor; auto. }
    destruct (all3_length _ _ _ _ AO') as [LO0 LO1].
    apply (reconstruct_all (map ty (c_outputs c))).
    + apply Forall_forall. intros d Hd. apply in_map_iff in Hd. destruct Hd as (i & <- & Hi).
      destruct Hm as (Ha & _). pose proof (api_api_wf _ _ Ha) as Hw. rewrite (aw_outputs _ _ Hw) in Hi. apply ids_where_In in Hi.
      destruct Hi as (x & Ex & _). apply (Ho i x Ex).
    + rewrite !map_length. auto.
    + intros i d x a b Hd Hx Ha Hb. destruct (nth_error (c_outputs c) i) as [o|] eqn:Eo.
      * rewrite (map_nth_error ty _ _ Eo) in Hd. rewrite (map_nth_error v _ _ Eo) in Hx. injection Hd as <-. injection Hx as <-.
        destruct (all3_nth _ _ _ _ AO' i o Eo) as (a' & b' & Ea & Eb & HC).
        rewrite Ha in Ea. rewrite Hb in Eb. injection Ea as <-. injection Eb as <-. exact HC.
      * apply nth_error_None in Eo. assert (nth_error (map v (c_outputs c)) i = None) by (apply nth_error_None; rewrite map_length; auto). congruence.
    + rewrite map_length. auto.
    + rewrite map_length. auto.
Qed.

(** *** The setup phase *)
Definition dsize (d : tdim) : nat := match d with DBit => 1 | DMat r c => r * c end.
Lemma flatten_length d v : has_dim d v -> length (tv_flatten v) = dsize d.
Proof. destruct d, v; cbn; try tauto. intros (<- & <- & E). exact E. Qed.

Definition tlam (l0 l1 : gid -> tval) (p : gid) : list bool := zip_with xorb (tv_flatten (l0 p)) (tv_flatten (l1 p)).

Lemma nth_zip_xor (a b : list bool) i : length a = length b -> nth i (zip_with xorb a b) false = xorb (nth i a false) (nth i b false).
Proof.
  revert b i. induction a as [|x a IH]; intros [|y b] i L; try discriminate; [destruct i; reflexivity|].
  destruct i; cbn; auto.
Qed.

Definition tconv (gate : tensor_gate) (bits : list bool) : tval :=
  match gate with TMatMult r c => TMatrix (BitMat r c bits) | _ => TScalar (nth 0 bits false) end.

(** Data of one gate. *)
Lemma t_data_ok ec ty l0 l1 g gate p q e0 e1 :
  t_typed ec ty -> ec_gate ec g = Some gate -> t_is_interactive gate = true -> ec_parents ec g = [p; q] ->
  has_dim (ty p) (l0 p) -> has_dim (ty p) (l1 p) -> has_dim (ty q) (l0 q) -> has_dim (ty q) (l1 q) ->
  length e0 = length e1 -> zip_with xorb e0 e1 = tprod gate (tlam l0 l1 p) (tlam l0 l1 q) ->
  length e0 = dsize (ty g) /\ teval_ok ec ty l0 l1 g (tconv gate e0) (tconv gate e1).
Proof.
  intros [_ HT] Eg Hi Ep P0 P1 Q0 Q1 L E. destruct (HT g gate Eg) as (Hok & HD & _ & _). rewrite Ep in HD. cbn [map] in HD.
  assert (LZ : length (zip_with xorb e0 e1) = length e0) by (rewrite zip_with_length; lia).
  destruct gate; try discriminate; cbn [gate_dims] in HD; try tauto.
  - destruct HD as [HD Hg]. injection HD as Hp Hq. rewrite Hg. cbn [dsize tprod tconv] in *. rewrite E in LZ. cbn in LZ.
    split; [auto|]. unfold teval_ok. rewrite Hg. cbn [has_dim]. split; auto. split; auto. exists p, q. split; auto. cbv zeta. intros i j _. rewrite Hp.
    cbn [tv_entry]. rewrite <- nth_zip_xor, E by auto. cbn [nth]. rewrite Hp in P0, P1. rewrite Hq in Q0, Q1.
    unfold tlam. destruct (l0 p), (l1 p), (l0 q), (l1 q); try contradiction. reflexivity.
  - destruct HD as (k & HD & Hg). injection HD as Hp Hq. rewrite Hg. cbn [dsize tconv] in *.
    rewrite Hp in P0, P1. rewrite Hq in Q0, Q1. rewrite Hg in Hok. cbn in Hok. destruct Hok as (Hr & Hc & H8).
    destruct (l0 p) as [| |a0] eqn:Ea0; try contradiction. destruct (l1 p) as [| |a1] eqn:Ea1; try contradiction.
    destruct (l0 q) as [| |b0] eqn:Eb0; try contradiction. destruct (l1 q) as [| |b1] eqn:Eb1; try contradiction.
    cbn [has_dim] in *. destruct P0 as (Ra0 & Ca0 & Xa0). destruct P1 as (Ra1 & Ca1 & Xa1).
    destruct Q0 as (Rb0 & Cb0 & Xb0). destruct Q1 as (Rb1 & Cb1 & Xb1).
    unfold tlam in E. rewrite Ea0, Ea1, Eb0, Eb1 in E. cbn [tv_flatten tprod] in E. unfold exact in *.
    rewrite zip_with_length, Xa0, Xa1, Ra0, Ra1, Ca0, Ca1, Nat.min_id in E.
    rewrite (Nat.mul_comm rows k), Nat.div_mul in E by lia.
    assert (LE : length e0 = rows * cols) by (rewrite <- LZ, E, map_length, seq_length; auto).
    split; auto. unfold teval_ok. rewrite Hg. cbn [has_dim bm_rows bm_cols]. unfold exact. cbn [bm_rows bm_cols bm_data].
    split; [auto|]. split; [split; [auto|split; [auto|lia]]|]. exists p, q. split; auto. cbv zeta. intros i j Hij. cbn in Hij. rewrite Hp.
    cbn [tv_entry]. unfold entry. cbn [bm_cols bm_data]. rewrite <- nth_zip_xor, E by auto.
    assert (Hn : i * cols + j < rows * cols) by nia.
    rewrite (nth_indep _ _ ((fun n => xor_sum k (fun t => nth (n / cols * k + t) (zip_with xorb (bm_data a0) (bm_data a1)) false && nth (t * cols + n mod cols) (zip_with xorb (bm_data b0) (bm_data b1)) false)) 0))
      by (rewrite map_length, seq_length; auto).
    rewrite (map_nth (fun n => xor_sum k (fun t => nth (n / cols * k + t) (zip_with xorb (bm_data a0) (bm_data a1)) false && nth (t * cols + n mod cols) (zip_with xorb (bm_data b0) (bm_data b1)) false))).
    rewrite seq_nth by auto. cbn [Nat.add].
    replace ((i * cols + j) / cols) with i by (rewrite Nat.add_comm, Nat.div_add by lia; rewrite Nat.div_small; lia).
    replace ((i * cols + j) mod cols) with j by (rewrite Nat.add_comm, Nat.mod_add by lia; rewrite Nat.mod_small; lia).
    apply xor_sum_ext. intros t Ht. rewrite Ea0, Ea1, Eb0, Eb1. cbn [tv_entry]. unfold entry.
    rewrite !nth_zip_xor by nia. rewrite Ca0, Ca1, Cb0, Cb1. reflexivity.
Qed.

Lemma t_collect1_ok {W} (go : gouts (bool_gmw W)) gate d is bits :
  t_is_interactive gate = true -> dim_ok d -> (exists ps, gate_dims gate ps d) -> length bits = dsize d ->
  omap (gmw_read go) is = Some bits -> t_collect1 go gate is = Some (tconv gate bits).
Proof.
  intros Hi Hd (ps & HG) L E. destruct gate; try discriminate; cbn [gate_dims] in HG; try tauto.
  - destruct HG as [_ ->]. cbn in L. destruct bits as [|b [|]]; try discriminate.
    pose proof (omap_length _ _ _ E) as LE. destruct is as [|i [|]]; try discriminate. cbn in E.
    destruct (gmw_read go i) as [x|] eqn:Ei; [|discriminate]. cbn in E. injection E as ->.
    unfold t_collect1. unfold gmw_read in Ei. rewrite Ei. reflexivity.
  - destruct HG as (k & _ & ->). cbn [dsize] in L. unfold dim_ok in Hd. destruct Hd as (_ & _ & H8).
    unfold t_collect1. change (bv <- omap (gmw_read go) is ;; m <- from_bits 8 bv rows cols ;; Some (TMatrix m) = Some (tconv (TMatMult rows cols) bits)).
    rewrite E. cbn [obind]. unfold from_bits. rewrite L, H8, !Nat.eqb_refl. reflexivity.
Qed.

(** For every circuit: the setup phase succeeds and leaves the parties with shares of the products. *)
Lemma t_gmw_setup : forall W junk c ty m os priv0 priv1 joint,
  0 < W -> main_ok tensor_ops c -> c_simd c = None -> tensor_dims c ty ->
  omap m (c_inputs c) = Some os ->
  exists ec s t s1 t1 go0 go1 l0 l1 sc ins iss ecs i0 i1,
    ec_of_base tensor_ops c = Some ec /\
    td_new 0 priv0 joint (by_map 0 m) = Some s /\ td_new 1 priv1 joint (by_map 1 m) = Some t /\
    t_setup_gate_outputs junk ec s = Some (s1, go0) /\ t_setup_gate_outputs junk ec t = Some (t1, go1) /\
    (forall g, ec_gate ec g <> None ->
       exists a b, go_get (pr:=tensor junk) go0 g = Some (@CS (tensor junk) a) /\ go_get (pr:=tensor junk) go1 g = Some (@CS (tensor junk) b) /\
         ts_priv a = l0 g /\ ts_priv b = l1 g) /\
    t_setup_circuit junk ec go0 = Some (sc, ins, iss) /\ t_setup_circuit junk ec go1 = Some (sc, ins, iss) /\
    ec_of_base bool_ops sc = Some ecs /\
    t_setup_inputs junk go0 ins = Some i0 /\ t_setup_inputs junk go1 ins = Some i1 /\
    (forall (Sv : Type) (req : Sv -> nat -> option (mul_triples * Sv)) J,
      serves req (bool_setup_ok W) J ->
      forall p0 p1 rest, J (requests ecs ++ rest) p0 p1 ->
      exists x0 x1 g0 q0 g1 q1 E0 E1,
        ex2_run (pr:=bool_gmw W) req ecs (@IScalar (bool_gmw W) i0) (@IScalar (bool_gmw W) i1)
          ((go_init (pr:=bool_gmw W) ecs, p0), (go_init (pr:=bool_gmw W) ecs, p1)) = Some (x0, x1, ((g0, q0), (g1, q1))) /\
        t_collect ec g0 iss = Some (t_from_raw E0) /\ t_collect ec g1 iss = Some (t_from_raw E1) /\
        all3 (teval_ok ec (fun g => ty (snd g)) l0 l1) (t_int_iter ec) E0 E1 /\ J rest q0 q1) /\
    (forall xs0 xs1 E0 E1,
      length xs0 = owned ByP0 os -> length xs1 = owned ByP1 os ->
      Forall2 has_dim (map ty (c_inputs c)) (merge os xs0 xs1) ->
      all3 (teval_ok ec (fun g => ty (snd g)) l0 l1) (t_int_iter ec) E0 E1 ->
      exists sh0 d0 s' sh1 d1 t' r0 s'' r1 t'' v o0 o1 st,
        td_share s xs0 = Some (sh0, d0, s') /\ td_share t xs1 = Some (sh1, d1, t') /\
        td_delta s' d1 = Some (r0, s'') /\ td_delta t' d0 = Some (r1, t'') /\
        tensor_plain c (merge os xs0 xs1) v /\
        ex2_run (pr:=tensor junk) t_request ec
          (@IScalar (tensor junk) (merge os sh0 r0)) (@IScalar (tensor junk) (merge os r1 sh1))
          ((go0, t_from_raw E0), (go1, t_from_raw E1)) = Some (@IScalar (tensor junk) o0, @IScalar (tensor junk) o1, st) /\
        td_reconstruct o0 o1 = Some (map v (c_outputs c))).
Proof.
  intros W junk c ty m os priv0 priv1 joint HW Hm Hs Ho Hos.
  destruct (t_run_ok junk c ty m os priv0 priv1 joint Hm Hs Ho Hos) as
    (ec & s & t & s1 & t1 & go0 & go1 & l0 & l1 & Eec & Es & Et & S0 & S1 & Hgo & Hpar & HT & M0 & M1 & Hrun).
  set (tyg := fun g : gid => ty (snd g)) in *.
  assert (Hp0 : forall p, ec_gate ec p <> None -> t_private junk go0 p = Some (tv_flatten (l0 p))).
  { intros p Hp. destruct (Hgo p Hp) as (a & b & G0 & _ & Pa & _). unfold t_private.
    change (go_get go0 p) with (go_get (pr:=tensor junk) go0 p). rewrite G0. cbn. rewrite Pa. auto. }
  assert (Hp1 : forall p, ec_gate ec p <> None -> t_private junk go1 p = Some (tv_flatten (l1 p))).
  { intros p Hp. destruct (Hgo p Hp) as (a & b & _ & G0 & _ & Pa). unfold t_private.
    change (go_get go1 p) with (go_get (pr:=tensor junk) go1 p). rewrite G0. cbn. rewrite Pa. auto. }
  assert (HD0 : forall p, ec_gate ec p <> None -> has_dim (tyg p) (l0 p)).
  { intros p Hp. destruct (ec_gate ec p) eqn:E; [|congruence]. apply (M0 p _ E). }
  assert (HD1 : forall p, ec_gate ec p <> None -> has_dim (tyg p) (l1 p)).
  { intros p Hp. destruct (ec_gate ec p) eqn:E; [|congruence]. apply (M1 p _ E). }
  assert (Hint : forall g, In g (t_int_iter ec) -> exists gate p q, ec_gate ec g = Some gate /\ t_is_interactive gate = true /\
      ec_parents ec g = [p; q] /\ ec_gate ec p <> None /\ ec_gate ec q <> None).
  { intros g Hg. unfold t_int_iter in Hg. apply filter_In in Hg. destruct Hg as [_ Hg].
    destruct (ec_gate ec g) as [gate|] eqn:Eg; [|discriminate].
    destruct (proj2 HT g gate Eg) as (_ & HG & _).
    assert (exists p q, ec_parents ec g = [p; q]) as (p & q & Ep).
    { destruct gate; try discriminate; cbn [gate_dims] in HG; try tauto; destruct (ec_parents ec g) as [|p [|q [|? ?]]]; cbn in HG; eauto;
        exfalso; (destruct HG as [HG _]; discriminate) || (destruct HG as (? & HG & _); discriminate). }
    exists gate, p, q. split; auto. split; auto. split; auto.
    split; apply (Hpar g); try congruence; rewrite Ep; cbn; auto. }
  destruct (t_setup_circuit_ok junk ec go0 (fun p => dsize (tyg p))) as (sc & ins & iss & Esc & C & Eout & Lin & Hins & HV).
  { intros g Hg. destruct (Hint g Hg) as (gate & p & q & Eg & Hi & Ep & Np & Nq). exists p, q. split; auto.
    rewrite (Hp0 p Np), (Hp0 q Nq). cbn [obind]. rewrite (flatten_length _ _ (HD0 p Np)), (flatten_length _ _ (HD0 q Nq)).
    split; auto. split; auto. rewrite Eg. destruct (proj2 HT g gate Eg) as (Hok & HG & Hpok & _). rewrite Ep in HG, Hpok. cbn [map] in HG.
    destruct gate; try discriminate; cbn [gate_dims] in HG; try tauto.
    - destruct HG as [HG _]. injection HG as -> ->. auto.
    - destruct HG as (k & HG & HG'). injection HG as H1 H2. pose proof (Hpok p (or_introl eq_refl)) as Kp. rewrite HG' in Hok. fold (tyg p) in H1. fold (tyg q) in H2.
      rewrite H1 in Kp. cbn in Kp, Hok. split; [lia|]. split; [lia|]. exists k. rewrite H1, H2. split; [lia|auto]. }
  assert (Hpriv : forall p, In p ins -> ec_gate ec p <> None).
  { intros p Hp. destruct (Hins p Hp) as (g & Hg & Hpg). destruct (Hint g Hg) as (gate & x & y & Eg & _). apply (Hpar g p); auto. congruence. }
  assert (Esc1 : t_setup_circuit junk ec go1 = Some (sc, ins, iss)).
  { rewrite <- Esc. unfold t_setup_circuit. erewrite tb_gates_w; [reflexivity|]. intros g p Hg Hp.
    destruct (Hint g Hg) as (gate & x & y & Eg & _).
    assert (Np : ec_gate ec p <> None) by (apply (Hpar g p); auto; congruence).
    cbv beta. rewrite (Hp0 p Np), (Hp1 p Np). cbn [obind]. rewrite (flatten_length _ _ (HD0 p Np)), (flatten_length _ _ (HD1 p Np)). reflexivity. }
  destruct (gmw_circuit_run W sc iss HW C Eout) as (ecs & Eecs & Hex).
  set (i0 := concat (map (fun p => tv_flatten (l0 p)) ins)). set (i1 := concat (map (fun p => tv_flatten (l1 p)) ins)).
  assert (I0 : t_setup_inputs junk go0 ins = Some i0).
  { unfold t_setup_inputs. erewrite omap_some; [reflexivity|]. intros p Hp. apply Hp0, Hpriv, Hp. }
  assert (I1 : t_setup_inputs junk go1 ins = Some i1).
  { unfold t_setup_inputs. erewrite omap_some; [reflexivity|]. intros p Hp. apply Hp1, Hpriv, Hp. }
  assert (LI : forall l : gid -> tval, (forall p, ec_gate ec p <> None -> has_dim (tyg p) (l p)) ->
     length (concat (map (fun p => tv_flatten (l p)) ins)) = length (c_inputs sc)).
  { intros l Hl. rewrite Lin. clear - Hpriv Hl. induction ins as [|p r IH]; auto. cbn [map concat]. rewrite app_length.
    rewrite (flatten_length _ _ (Hl p (Hpriv p (or_introl eq_refl)))), IH; auto. intros; apply Hpriv; cbn; auto. }
  exists ec, s, t, s1, t1, go0, go1, l0, l1, sc, ins, iss, ecs, i0, i1.
  do 11 (split; [assumption|]). split; [|exact Hrun].
  intros Sv req J HJ p0 p1 rest Hj.
  destruct (Hex i0 i1 (LI l0 HD0) (LI l1 HD1) Sv req J HJ p0 p1 rest Hj) as
    (x0 & x1 & g0 & q0 & g1 & q1 & B0 & B1 & w & ER & Hw & Hwi & R0 & R1 & HG & Hj').
  assert (HZ : zip_with xorb i0 i1 = concat (map (tlam l0 l1) ins)).
  { unfold i0, i1. clear - Hpriv HD0 HD1. induction ins as [|p r IH]; auto. cbn [map concat].
    rewrite zip_with_app, IH; auto.
    - intros; apply Hpriv; cbn; auto.
    - assert (Np : ec_gate ec p <> None) by (apply Hpriv; cbn; auto).
      rewrite (flatten_length _ _ (HD0 p Np)), (flatten_length _ _ (HD1 p Np)). auto. }
  rewrite HZ in Hwi.
  assert (HWV := HV (tlam l0 l1) w Hw).
  assert (HWV' := HWV ltac:(intros p Hp; unfold tlam; rewrite zip_with_length, (flatten_length _ _ (HD0 p (Hpriv p Hp))), (flatten_length _ _ (HD1 p (Hpriv p Hp))), Nat.min_id; auto) Hwi).
  clear HWV.
  pose proof (omap_length _ _ _ R0) as LE0. pose proof (omap_length _ _ _ R1) as LE1.
  assert (HC : exists E0 E1,
    omap (fun gis => gate <- ec_gate ec (fst gis) ;; t_collect1 g0 gate (snd gis)) (combine (t_int_iter ec) iss) = Some E0 /\
    omap (fun gis => gate <- ec_gate ec (fst gis) ;; t_collect1 g1 gate (snd gis)) (combine (t_int_iter ec) iss) = Some E1 /\
    all3 (teval_ok ec tyg l0 l1) (t_int_iter ec) E0 E1).
  { clear - R0 R1 HG HWV' LE0 LE1 Hint HT HD0 HD1. revert B0 B1 LE0 LE1 R0 R1 HG Hint.
    induction HWV' as [|g is gs iss (gate & p & q & Eg & Ep & Hps) HW2 IH]; intros B0 B1 LE0 LE1 R0 R1 HG Hint.
    - exists [], []. split; auto. split; auto. constructor.
    - destruct B0 as [|b0 B0]; [discriminate|]. destruct B1 as [|b1 B1]; [discriminate|]. cbn [combine] in HG.
      inversion HG as [|? ? ? ? [HL HX] HG']; subst. cbn [fst snd] in HL, HX.
      cbn [omap] in R0, R1. destruct (omap (gmw_read g0) is) as [c0|] eqn:K0; [|discriminate]. cbn [obind] in R0.
      destruct (omap (omap (gmw_read g0)) iss) as [B0'|] eqn:K0'; [|discriminate]. cbn [obind] in R0. injection R0 as -> ->.
      destruct (omap (gmw_read g1) is) as [c1|] eqn:K1; [|discriminate]. cbn [obind] in R1.
      destruct (omap (omap (gmw_read g1)) iss) as [B1'|] eqn:K1'; [|discriminate]. cbn [obind] in R1. injection R1 as -> ->.
      destruct (IH B0 B1) as (E0 & E1 & J0 & J1 & JA); auto. { intros x Hx. apply Hint. cbn; auto. }
      destruct (Hint g (or_introl eq_refl)) as (gate' & p' & q' & Eg' & Hi & Ep' & Np & Nq).
      rewrite Eg in Eg'. injection Eg' as <-. rewrite Ep in Ep'. injection Ep' as <- <-.
      destruct (t_data_ok ec tyg l0 l1 g gate p q b0 b1 HT Eg Hi Ep) as [LB HE]; auto. { congruence. }
      destruct (proj2 HT g gate Eg) as (Hok & HGd & _).
      exists (tconv gate b0 :: E0), (tconv gate b1 :: E1). cbn [combine omap fst snd]. rewrite Eg. cbn [obind].
      rewrite (t_collect1_ok g0 gate (tyg g) is b0), (t_collect1_ok g1 gate (tyg g) is b1); eauto; [|congruence].
      cbn [obind]. rewrite J0, J1. split; auto. split; auto. constructor; auto. }
  destruct HC as (E0 & E1 & J0 & J1 & JA).
  exists x0, x1, g0, q0, g1, q1, E0, E1. split; auto.
  split; [unfold t_collect; rewrite J0; reflexivity|]. split; [unfold t_collect; rewrite J1; reflexivity|]. auto.
Qed.
