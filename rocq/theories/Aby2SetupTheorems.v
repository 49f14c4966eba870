(** C41 with the setup phase of [AbySetupProvider]: the products of the masks are computed by a GMW
    execution of the setup circuit. *)
From Coq Require Import List Bool Arith Lia Permutation.
Require Import Verif.Prelude Verif.PreludeProofs Verif.BitVecModel Verif.GateModel Verif.ProtocolModel Verif.BoolGmwModel Verif.BoolGmwSpec Verif.ExecBoolSpec Verif.ExecBoolProofs
  Verif.CircuitModel Verif.CircuitSpec Verif.CircuitProofs Verif.CircuitProofs2 Verif.CircuitProofs3 Verif.CircuitCheck
  Verif.ExecModel Verif.ExecSpec Verif.ExecProofs Verif.ExecCircuitSpec Verif.ExecCircuitProofs Verif.ExecTheorems
  Verif.Aby2Model Verif.Aby2Spec Verif.Aby2Proofs Verif.Aby2ExecProofs Verif.Aby2CircuitProofs Verif.Aby2SetupProofs Verif.Aby2Theorems.
Import ListNotations.
Open Scope nat_scope.

(** Reading the shares group by group. *)
Lemma omap_concat {A B} (f : A -> option B) iss : forall l, omap f (concat iss) = Some l ->
  exists ls, omap (omap f) iss = Some ls /\ concat ls = l.
Proof.
  induction iss as [|is iss IH]; intros l H; cbn in H.
  - injection H as <-. exists []. auto.
  - rewrite omap_app in H. destruct (omap f is) as [a|] eqn:Ea; [|discriminate]. cbn in H.
    destruct (omap f (concat iss)) as [b|] eqn:Eb; [|discriminate]. cbn in H. injection H as <-.
    destruct (IH b eq_refl) as (ls & E & <-). exists (a :: ls). split; auto. apply omap_cons; auto.
Qed.

Lemma zip_groups (iss : list (list nat)) (w : nat -> bool) : forall a b,
  Forall2 (fun is x => length x = length is) iss a -> Forall2 (fun is x => length x = length is) iss b ->
  zip_with xorb (concat a) (concat b) = map w (concat iss) ->
  Forall2 (fun is ab => length (fst ab) = length (snd ab) /\ zip_with xorb (fst ab) (snd ab) = map w is) iss (combine a b).
Proof.
  induction iss as [|is iss IH]; intros a b Ha Hb H; inversion Ha; inversion Hb; subst; cbn in *; constructor.
  - cbn. split; [lia|].
    assert (E : firstn (length is) (zip_with xorb (y ++ concat l') (y0 ++ concat l'0)) = firstn (length is) (map w (is ++ concat iss))) by congruence.
    rewrite zip_with_app in E by lia. rewrite map_app in E.
    rewrite !firstn_app_exact in E; auto; rewrite ?zip_with_length, ?map_length; lia.
  - apply IH; auto.
    assert (E : skipn (length is) (zip_with xorb (y ++ concat l') (y0 ++ concat l'0)) = skipn (length is) (map w (is ++ concat iss))) by congruence.
    rewrite zip_with_app in E by lia. rewrite map_app in E.
    rewrite !skipn_app_exact in E; auto; rewrite ?zip_with_length, ?map_length; lia.
Qed.

Lemma omap_lengths {A B} (f : A -> option B) iss : forall ls, omap (omap f) iss = Some ls ->
  Forall2 (fun is x => length x = length is) iss ls.
Proof.
  induction iss as [|is iss IH]; intros ls H; cbn in H; [injection H as <-; auto|].
  destruct (omap f is) as [a|] eqn:Ea; [|discriminate]. cbn in H.
  destruct (omap (omap f) iss) as [b|] eqn:Eb; [|discriminate]. cbn in H. injection H as <-.
  constructor; auto. apply (omap_length _ _ _ Ea).
Qed.

(** For every circuit, AND gates of any fan-in: the setup phase succeeds and leaves each party with
    shares of the products [eval_ok] asks for. *)
Lemma gmw_setup : forall W c m os priv0 priv1 joint,
  0 < W -> main_ok aby_ops c -> c_simd c = None -> aby_operands c ->
  omap m (c_inputs c) = Some os ->
  exists ec s t s1 t1 go0 go1 l0 l1 sc ins iss ecs i0 i1,
    ec_of_base aby_ops c = Some ec /\
    ds_new 0 priv0 joint (by_map 0 m) = Some s /\ ds_new 1 priv1 joint (by_map 1 m) = Some t /\
    setup_gate_outputs ec s = Some (s1, go0) /\ setup_gate_outputs ec t = Some (t1, go1) /\
    (forall g, ec_gate ec g <> None ->
       exists a b, go_get (pr:=aby2) go0 g = Some (@CS aby2 a) /\ go_get (pr:=aby2) go1 g = Some (@CS aby2 b) /\
         as_priv a = l0 g /\ as_priv b = l1 g) /\
    setup_circuit ec = Some (sc, ins, iss) /\ ec_of_base bool_ops sc = Some ecs /\
    setup_inputs go0 ins = Some i0 /\ setup_inputs go1 ins = Some i1 /\
    (forall (Sv : Type) (req : Sv -> nat -> option (mul_triples * Sv)) J,
      serves req (bool_setup_ok W) J ->
      forall p0 p1 rest, J (requests ecs ++ rest) p0 p1 ->
      exists x0 x1 g0 q0 g1 q1 E0 E1,
        ex2_run (pr:=bool_gmw W) req ecs (@IScalar (bool_gmw W) i0) (@IScalar (bool_gmw W) i1)
          ((go_init (pr:=bool_gmw W) ecs, p0), (go_init (pr:=bool_gmw W) ecs, p1)) = Some (x0, x1, ((g0, q0), (g1, q1))) /\
        setup_collect g0 iss = Some (from_raw E0) /\ setup_collect g1 iss = Some (from_raw E1) /\
        all3 (eval_ok ec l0 l1) (ec_int_iter ec) E0 E1 /\ J rest q0 q1) /\
    (forall xs0 xs1 sh0 d0 s' sh1 d1 t' E0 E1,
      (forall n, In (AAnd n) (c_gates c) -> n <= 2) ->
      length xs0 = owned ByP0 os -> length xs1 = owned ByP1 os ->
      ds_share s xs0 = (sh0, d0, s') -> ds_share t xs1 = (sh1, d1, t') ->
      all3 (eval_ok ec l0 l1) (ec_int_iter ec) E0 E1 ->
      exists v o0 o1 st,
        aby_plain c (merge os xs0 xs1) v /\
        ex2_run (pr:=aby2) aby_request ec
          (@IScalar aby2 (merge os sh0 (fst (ds_plain_delta_to_share s' d1))))
          (@IScalar aby2 (merge os (fst (ds_plain_delta_to_share t' d0)) sh1))
          ((go0, from_raw E0), (go1, from_raw E1)) = Some (@IScalar aby2 o0, @IScalar aby2 o1, st) /\
        ds_reconstruct o0 o1 = Some (map v (c_outputs c))).
Proof.
  intros W c m os priv0 priv1 joint HW Hm Hs Ho Hos.
  destruct (aby_run_ok c m os priv0 priv1 joint Hm Hs Ho) as
    (ec & s & t & s1 & t1 & go0 & go1 & l0 & l1 & Eec & Es & Et & S0 & S1 & Hgo & Hpar & HT & Hnd & Hint & Hrun); auto.
  destruct (setup_circuit_ok ec) as (sc & ins & iss & Esc & [CW CS' CO] & Lin & Eout & Hins & HV).
  { intros g Hg. destruct (Hint g Hg) as (n & Eg & _). exists n. split; auto. apply (proj2 HT g _ Eg). }
  pose proof (wired_main_ok _ _ CW) as Hsm.
  destruct (C11_execution_computes_circuit W sc HW Hsm CO) as (ecs & Eecs & Hinit & Hex).
  { unfold simd_ok. rewrite CS'. exact I. }
  assert (Hpriv : forall p, In p ins -> ec_gate ec p <> None).
  { intros p Hp. destruct (Hins p Hp) as (g & Hg & Hpg). destruct (Hint g Hg) as (n & Eg & _).
    apply (Hpar g p); auto. congruence. }
  assert (I0 : setup_inputs go0 ins = Some (map l0 ins)).
  { unfold setup_inputs. apply omap_some. intros p Hp. destruct (Hgo p (Hpriv p Hp)) as (a & b & G0 & _ & Pa & _).
    change (go_get go0 p) with (go_get (pr:=aby2) go0 p). rewrite G0. cbn. rewrite Pa. auto. }
  assert (I1 : setup_inputs go1 ins = Some (map l1 ins)).
  { unfold setup_inputs. apply omap_some. intros p Hp. destruct (Hgo p (Hpriv p Hp)) as (a & b & _ & G0 & _ & Pa).
    change (go_get go1 p) with (go_get (pr:=aby2) go1 p). rewrite G0. cbn. rewrite Pa. auto. }
  exists ec, s, t, s1, t1, go0, go1, l0, l1, sc, ins, iss, ecs, (map l0 ins), (map l1 ins).
  do 10 (split; [assumption|]). split; [|exact Hrun].
  intros Sv req J HJ p0 p1 rest Hj.
  destruct (Hex Sv req J HJ (@IScalar (bool_gmw W) (map l0 ins)) (@IScalar (bool_gmw W) (map l1 ins))
     (map (fun b => [b]) (bits_xor (map l0 ins) (map l1 ins)))) with
     (go0 := go_init (pr:=bool_gmw W) ecs) (go1 := go_init (pr:=bool_gmw W) ecs) (s0 := p0) (s1 := p1) (rest := rest)
     as (v & x0 & x1 & g0 & g1 & q0 & q1 & Hv & ER & HO & _ & _ & Hj'); auto.
  { rewrite CS'. cbn. rewrite !map_length. auto. }
  { rewrite map_length. unfold bits_xor. rewrite zip_with_length, !map_length. lia. }
  set (w := fun i => hd false (v i)).
  assert (Hlane : c_lanes sc = 1) by (unfold c_lanes; rewrite CS'; auto).
  assert (Hbv : bval sc w).
  { intros g gate Eg. destruct (Hv g gate Eg) as (Lv & HS). rewrite Hlane in Lv, HS.
    assert (Hhd : forall i, nth 0 (v i) false = w i) by (intros i; unfold w; destruct (v i); auto).
    destruct gate as [[]| | |]; auto.
    - intros a Ea. specialize (HS 0 ltac:(lia)). rewrite Ea in HS. cbn in HS. injection HS as HS. rewrite !Hhd in HS. auto.
    - intros a b Ea. specialize (HS 0 ltac:(lia)). rewrite Ea in HS. cbn in HS. injection HS as HS. rewrite !Hhd in HS. auto. }
  assert (Hiv : forall k p i, nth_error ins k = Some p -> nth_error (c_inputs sc) k = Some i -> w i = xorb (l0 p) (l1 p)).
  { intros k p i Hp Hi.
    destruct Hsm as (Ha & _). pose proof (api_api_wf _ _ Ha) as Hw.
    assert (Hin : In i (c_inputs sc)) by (eapply nth_error_In; eauto).
    rewrite (aw_inputs _ _ Hw) in Hin. apply ids_where_In in Hin. destruct Hin as (x & Ex & Kx).
    destruct x as [[]| | |]; try discriminate. destruct (Hv i _ Ex) as (_ & k' & K1 & K2).
    assert (k' = k). { 
      assert (ND : NoDup (c_inputs sc)) by (rewrite (aw_inputs _ _ Hw); unfold ids_where; apply NoDup_filter, seq_NoDup).
      eapply NoDup_nth_error; eauto; [|congruence]. apply nth_error_Some. congruence. }
    subst k'. assert (Ez : zip_with xorb (map l0 ins) (map l1 ins) = map (fun p => xorb (l0 p) (l1 p)) ins).
    { clear. induction ins; cbn; f_equal; auto. }
    unfold bits_xor in K2. rewrite Ez, map_map, (map_nth_error _ _ _ Hp) in K2. unfold w. injection K2 as <-. reflexivity. }
  pose proof (HV (fun p => xorb (l0 p) (l1 p)) w Hbv Hiv) as HW2.
  (* what is read back *)
  rewrite CS' in HO.
  destruct x0 as [y0|]; [|destruct HO]. destruct x1 as [y1|]; [|destruct HO]. destruct HO as [Ly HO].
  assert (Eouts : ec_outputs ecs = concat iss).
  { unfold ec_of_base in Eecs. destruct (c_layers bool_ops sc); [|discriminate]. injection Eecs as <-. cbn. auto. }
  assert (Hread : exists l0' l1', omap (fun i => c <- go_cell (pr:=bool_gmw W) g0 (0, i) ;; cell_scalar c) (concat iss) = Some l0' /\
                   omap (fun i => c <- go_cell (pr:=bool_gmw W) g1 (0, i) ;; cell_scalar c) (concat iss) = Some l1' /\ l0' = y0 /\ l1' = y1).
  { unfold ex2_run in ER.
    do 2 (match type of ER with context [oassert ?b] => destruct b; [|discriminate ER] end; cbn [oassert obind] in ER).
    match type of ER with context [ofold ?f ?a ?b] => destruct (ofold f a b) as [[[ga pa] [gb pb]]|]; [|discriminate ER] end. cbn [obind] in ER.
    destruct (ex_outputs (pr:=bool_gmw W) ecs ga) as [oa|] eqn:Ea; [|discriminate]. cbn [obind] in ER.
    destruct (ex_outputs (pr:=bool_gmw W) ecs gb) as [ob|] eqn:Eb; [|discriminate]. cbn [obind] in ER.
    injection ER as -> -> -> -> -> ->.
    assert (RD : forall go y, ex_outputs (pr:=bool_gmw W) ecs go = Some (@IScalar (bool_gmw W) y) ->
      omap (fun i => c <- go_cell (pr:=bool_gmw W) go (0, i) ;; cell_scalar c) (concat iss) = Some y).
    { intros go y E. unfold ex_outputs in E. change (@ec_outputs (p_gate (bool_gmw W)) ecs) with (@ec_outputs bool_gate ecs) in E.
      rewrite Eouts in E. destruct (omap _ (concat iss)) as [cs|] eqn:Ec; [|discriminate]. cbn [obind] in E.
      destruct (ec_main_simd _).
      - destruct (omap cell_simd cs); discriminate.
      - destruct (omap cell_scalar cs) as [l|] eqn:El; [|discriminate]. cbn in E. injection E as <-.
        clear - Ec El. revert cs l Ec El. induction (concat iss) as [|i r IH]; intros cs l Ec El; cbn [omap] in *.
        + injection Ec as <-. cbn in El. injection El as <-. auto.
        + destruct (go_get go (0, i)) as [x|] eqn:Eg; [|discriminate]. cbn [obind] in Ec.
          destruct (omap _ r) as [cs'|] eqn:Er; [|discriminate]. cbn in Ec. injection Ec as <-. cbn [omap] in El.
          destruct (cell_scalar x) as [y|] eqn:Ex; [|discriminate]. cbn [obind] in El.
          destruct (omap cell_scalar cs') as [l'|] eqn:El'; [|discriminate]. cbn in El. injection El as <-.
          apply go_get_cell in Eg. destruct Eg as [Eg _]. rewrite Eg. cbn [obind]. rewrite Ex. cbn [obind].
          rewrite (IH cs' l'); auto. }
    exists y0, y1. auto. }
  destruct Hread as (r0 & r1 & R0 & R1 & -> & ->).
  destruct (omap_concat _ _ _ R0) as (E0 & EE0 & CE0). destruct (omap_concat _ _ _ R1) as (E1 & EE1 & CE1).
  exists (@IScalar (bool_gmw W) y0), (@IScalar (bool_gmw W) y1), g0, q0, g1, q1, E0, E1.
  split; auto. split; [unfold setup_collect; rewrite EE0; reflexivity|].
  split; [unfold setup_collect; rewrite EE1; reflexivity|]. split; auto.
  assert (HZ : zip_with xorb (concat E0) (concat E1) = map w (concat iss)).
  { rewrite CE0, CE1. rewrite Eout in HO. change (zip_with xorb y0 y1) with (bits_xor y0 y1).
    assert (E2 : map (hd false) (map v (concat iss)) = map (hd false) (map (fun b => [b]) (bits_xor y0 y1))) by congruence.
    rewrite !map_map in E2. cbn in E2. rewrite map_id in E2. auto. }
  pose proof (zip_groups iss w E0 E1 (omap_lengths _ _ _ EE0) (omap_lengths _ _ _ EE1) HZ) as HG.
  pose proof (omap_length _ _ _ EE0) as LE0. pose proof (omap_length _ _ _ EE1) as LE1.
  clear - HG HW2 LE0 LE1. revert E0 E1 LE0 LE1 HG.
  induction HW2 as [|g is gs iss (ps & Pp & Hps) HW2 IH]; intros E0 E1 LE0 LE1 HG.
  - destruct E0; [|discriminate]. destruct E1; [|discriminate]. constructor.
  - destruct E0 as [|e0 E0]; [discriminate|]. destruct E1 as [|e1 E1]; [discriminate|]. cbn in HG. inversion HG; subst.
    constructor; [|apply IH; auto]. exists ps. cbn in H2. destruct H2 as [H2 H2']. split; auto. split; auto. congruence.
Qed.

(** The setup phase alone, for AND gates of any fan-in: the masks [l0], [l1] are the private parts of
    the parties' gate outputs; afterwards they hold shares of the product of the masks of every
    subset of at least two operands of every AND gate. *)
Theorem C41_gmw_setup_data : forall W c m os priv0 priv1 joint,
  0 < W -> main_ok aby_ops c -> c_simd c = None -> aby_operands c ->
  omap m (c_inputs c) = Some os ->
  exists ec s t s1 t1 go0 go1 l0 l1 sc ins iss ecs i0 i1,
    ec_of_base aby_ops c = Some ec /\
    ds_new 0 priv0 joint (by_map 0 m) = Some s /\ ds_new 1 priv1 joint (by_map 1 m) = Some t /\
    setup_gate_outputs ec s = Some (s1, go0) /\ setup_gate_outputs ec t = Some (t1, go1) /\
    (forall g, ec_gate ec g <> None ->
       exists a b, go_get (pr:=aby2) go0 g = Some (@CS aby2 a) /\ go_get (pr:=aby2) go1 g = Some (@CS aby2 b) /\
         as_priv a = l0 g /\ as_priv b = l1 g) /\
    setup_circuit ec = Some (sc, ins, iss) /\ ec_of_base bool_ops sc = Some ecs /\
    setup_inputs go0 ins = Some i0 /\ setup_inputs go1 ins = Some i1 /\
    (forall (Sv : Type) (req : Sv -> nat -> option (mul_triples * Sv)) J,
      serves req (bool_setup_ok W) J ->
      forall p0 p1 rest, J (requests ecs ++ rest) p0 p1 ->
      exists x0 x1 g0 q0 g1 q1 E0 E1,
        ex2_run (pr:=bool_gmw W) req ecs (@IScalar (bool_gmw W) i0) (@IScalar (bool_gmw W) i1)
          ((go_init (pr:=bool_gmw W) ecs, p0), (go_init (pr:=bool_gmw W) ecs, p1)) = Some (x0, x1, ((g0, q0), (g1, q1))) /\
        setup_collect g0 iss = Some (from_raw E0) /\ setup_collect g1 iss = Some (from_raw E1) /\
        all3 (eval_ok ec l0 l1) (ec_int_iter ec) E0 E1 /\ J rest q0 q1).
Proof.
  intros W c m os priv0 priv1 joint HW Hm Hs Ho Hos.
  destruct (gmw_setup W c m os priv0 priv1 joint HW Hm Hs Ho Hos) as
    (ec & s & t & s1 & t1 & go0 & go1 & l0 & l1 & sc & ins & iss & ecs & i0 & i1 & A1 & A2 & A3 & A4 & A5 & A6 & A7 & A8 & A9 & A10 & A11 & _).
  exists ec, s, t, s1, t1, go0, go1, l0, l1, sc, ins, iss, ecs, i0, i1.
  do 10 (split; [assumption|]). assumption.
Qed.
Print Assumptions C41_gmw_setup_data.

(** Setup phase and online phase together, with any source of valid multiplication triples and AND
    gates of at most two operands: the reconstructed outputs are the plain values. *)
Theorem C41_gmw_execution : forall W c m os priv0 priv1 joint,
  0 < W -> main_ok aby_ops c -> c_simd c = None -> aby_operands c ->
  (forall n, In (AAnd n) (c_gates c) -> n <= 2) ->
  omap m (c_inputs c) = Some os ->
  exists ec s t s1 t1 go0 go1 sc ins iss ecs i0 i1,
    ec_of_base aby_ops c = Some ec /\
    ds_new 0 priv0 joint (by_map 0 m) = Some s /\ ds_new 1 priv1 joint (by_map 1 m) = Some t /\
    setup_gate_outputs ec s = Some (s1, go0) /\ setup_gate_outputs ec t = Some (t1, go1) /\
    setup_circuit ec = Some (sc, ins, iss) /\ ec_of_base bool_ops sc = Some ecs /\
    setup_inputs go0 ins = Some i0 /\ setup_inputs go1 ins = Some i1 /\
    forall (Sv : Type) (req : Sv -> nat -> option (mul_triples * Sv)) J,
      serves req (bool_setup_ok W) J ->
      forall p0 p1 rest, J (requests ecs ++ rest) p0 p1 ->
      exists x0 x1 g0 q0 g1 q1 t0 t1,
        ex2_run (pr:=bool_gmw W) req ecs (@IScalar (bool_gmw W) i0) (@IScalar (bool_gmw W) i1)
          ((go_init (pr:=bool_gmw W) ecs, p0), (go_init (pr:=bool_gmw W) ecs, p1)) = Some (x0, x1, ((g0, q0), (g1, q1))) /\
        setup_collect g0 iss = Some t0 /\ setup_collect g1 iss = Some t1 /\
        forall xs0 xs1 sh0 d0 s' sh1 d1 t',
          length xs0 = owned ByP0 os -> length xs1 = owned ByP1 os ->
          ds_share s xs0 = (sh0, d0, s') -> ds_share t xs1 = (sh1, d1, t') ->
          exists v o0 o1 st,
            aby_plain c (merge os xs0 xs1) v /\
            ex2_run (pr:=aby2) aby_request ec
              (@IScalar aby2 (merge os sh0 (fst (ds_plain_delta_to_share s' d1))))
              (@IScalar aby2 (merge os (fst (ds_plain_delta_to_share t' d0)) sh1))
              ((go0, t0), (go1, t1)) = Some (@IScalar aby2 o0, @IScalar aby2 o1, st) /\
            ds_reconstruct o0 o1 = Some (map v (c_outputs c)).
Proof.
  intros W c m os priv0 priv1 joint HW Hm Hs Ho Hf Hos.
  destruct (gmw_setup W c m os priv0 priv1 joint HW Hm Hs Ho Hos) as
    (ec & s & t & s1 & t1 & go0 & go1 & l0 & l1 & sc & ins & iss & ecs & i0 & i1 & A1 & A2 & A3 & A4 & A5 & A6 & A7 & A8 & A9 & A10 & A11 & A12).
  exists ec, s, t, s1, t1, go0, go1, sc, ins, iss, ecs, i0, i1.
  do 9 (split; [assumption|]). intros Sv req J HJ p0 p1 rest Hj.
  destruct (A11 Sv req J HJ p0 p1 rest Hj) as (x0 & x1 & g0 & q0 & g1 & q1 & E0 & E1 & B1 & B2 & B3 & B4 & _).
  exists x0, x1, g0, q0, g1, q1, (from_raw E0), (from_raw E1). split; [exact B1|]. split; [reflexivity || exact B2|]. split; [exact B3|].
  intros xs0 xs1 sh0 d0 s' sh1 d1 t' L0 L1 X0 X1. apply (A12 xs0 xs1 sh0 d0 s' sh1 d1 t' E0 E1); auto.
Qed.
Print Assumptions C41_gmw_execution.

(** A circuit with a three-input AND gate, and one with a repeated operand: their setup circuits. *)
Definition aby_demo3 : circuit aby_gate :=
  c_build aby_ops c_new_main
    [(ABase GInput, []); (ABase GInput, []); (ABase GInput, []); (AAnd 3, [0; 1; 2]); (AXor, [3; 0]);
     (AAnd 2, [1; 0]); (AAnd 2, [4; 4]); (ABase GOutput, [5]); (ABase GOutput, [6])].
Example C41_setup_case :
  main_ok aby_ops aby_demo3 /\ c_simd aby_demo3 = None /\ aby_operands aby_demo3 /\
  omap aby_demo_m (c_inputs aby_demo3) = Some [ByP0; ByP1; ByP0] /\
  exists ec sc, ec_of_base aby_ops aby_demo3 = Some ec /\
    setup_circuit ec = Some (sc, [(0, 1); (0, 0); (0, 2); (0, 4)], [[9]; [10; 11; 12; 13]; [14]]) /\
    length (filter (fun g => match g with BAnd => true | _ => false end) (c_gates sc)) = 5.
Proof.
  split. { apply main_check_ok; [apply c_build_api; constructor|]; vm_compute; reflexivity. }
  split; [reflexivity|]. split.
  { intros g gate E. do 9 (destruct g as [|g]; [vm_compute in E; injection E as <-; vm_compute; auto|]).
    vm_compute in E. destruct g; discriminate. }
  split; [reflexivity|]. eexists _, _. split; [vm_compute; reflexivity|]. split; vm_compute; reflexivity.
Qed.
