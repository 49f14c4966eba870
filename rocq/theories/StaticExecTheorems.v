(** C23: executing a program on precomputed layers. *)
From Coq Require Import List Bool Arith Lia Permutation Sorting.Sorted.
Require Import Verif.Prelude Verif.PreludeProofs Verif.BitVecModel Verif.BitVecSpec Verif.GateModel
  Verif.ProtocolModel Verif.BoolGmwModel
  Verif.BoolGmwSpec Verif.CircuitModel Verif.CircuitSpec Verif.CircuitProofs Verif.CircuitProofs2
  Verif.CircuitProofs3 Verif.ExecModel Verif.ExecSpec Verif.ExecProofs Verif.ExecBoolSpec Verif.ExecBoolProofs
  Verif.ExecCircuitSpec Verif.ExecCircuitProofs Verif.ExecTheorems Verif.ConnModel Verif.ConnSpec
  Verif.ConnProofs Verif.ConnProofs2 Verif.ConnTheorems Verif.CircuitCheck
  Verif.MultiModel Verif.MultiSpec
  Verif.MultiProofs Verif.MultiTheorems Verif.MultiExecSpec Verif.MultiExecProofs Verif.MultiExecProofs2
  Verif.MultiExecTheorems
  Verif.StaticModel Verif.StaticSpec Verif.StaticProofs Verif.StaticProofs2 Verif.StaticProofs3 Verif.StaticTheorems
  Verif.StaticExecProofs.
Import ListNotations.

(** What is asked of a program here: as for C55, but nothing about who reads the
    outputs and the arguments of calls; and the conditions of C23 on its layers
    [ls]. *)
Record static_program (W imax : nat) (m : mcirc bool_gate) (cl : list (circuit bool_gate)) (h : list (gid * gid))
  (simd : option nat) (ls : list elayer) : Prop := {
  sp_list : forall k, mc_get m k = nth_error cl k;
  sp_circuits : circuits_ok bool_ops (mc_get m);
  sp_wires : wires_ok bool_ops (mc_get m) h;
  sp_wired : wired_as imax m h;
  sp_callable : all_callable bool_ops (mc_get m) h;
  sp_base : program_base W cl simd;
  sp_gates : forall sc, sc < length (mc_map m) -> exists c, mc_get m sc = Some c /\ c_count c <> 0;
  sp_order : opens_in_order m ls;
  sp_open : opens_before_parting m h ls;
  sp_clean : parts_cleanly m h ls }.

(** What the executor sees of the precomputed circuit. *)
Lemma static_ec W imax m cl h simd geqb perm ls :
  (forall a b, geqb a b = true <-> a = b) -> rearranges perm ->
  mc_layers bool_ops imax m perm = Some ls -> static_program W imax m cl h simd ls ->
  exists s ec c0, st_precompute bool_ops geqb imax m perm = Some s /\ ec_of_static imax s = Some ec /\
    mc_get m 0 = Some c0 /\ ec_agree (ec_multi m imax c0 ls) ec /\ ec_layers ec = map no_free ls /\
    sched_ok bool_ops (ec_multi m imax c0 ls) (fun _ => False) (fun _ => True) (map no_free ls).
Proof.
  intros Hg HP HL [H1 H2 H3 H4 H5 H6 H7 H8 H9 H10].
  destruct (C23_same_layers_partial bool_ops geqb imax m h perm ls Hg H2 H3 H4 HP HL H8 H9 H10)
    as (s & vs & A & B & C & _ & _ & c0 & D & E & F).
  destruct (pre_total bool_ops m imax h H2 H3 H4 perm HP ls HL) as (tls & Htls).
  destruct (precompute_final bool_ops m imax h H2 H3 H4 perm HP ls HL tls Htls geqb Hg H8 H9 H10) as (s' & A' & FN & _).
  rewrite A in A'. apply some_inj in A'. subst s'.
  destruct (static_counts bool_ops m imax h H2 H3 H4 perm HP ls HL tls Htls H5 H7 s FN) as (CN & _).
  destruct (ls_spec bool_ops m imax h H2 H3 H4 perm HP ls HL) as (S1 & S2 & S3 & S4).
  assert (Hall : forall g, mc_gate m g <> None -> In g (flat ls)).
  { intros g Hgt. apply S4. apply callable_runs; auto. unfold mc_gate in Hgt. unfold gate_exists.
    destruct (mc_get m (fst g)) as [c|]; [|cbn [obind] in Hgt; congruence]. exists c. split; auto.
    apply nth_error_Some. exact Hgt. }
  assert (El : ec_of_static imax s = Some (EC
     (fun g => option_map (fun e => fst (snd e)) (find (fun e => gid_eqb (fst e) g) (st_items vs)))
     (fun g => match find (fun e => gid_eqb (fst e) g) (st_items vs) with Some e => snd (snd e) | None => [] end)
     (map no_free ls) (fun id => match st_get s id with Some x => ss_simd x | None => None end)
     (st_ins s) (st_outs s)
     (map (fun id => match mc_get m id with Some c => (c_count c, c_simd c) | None => (0, None) end)
        (seq 0 (length (mc_map m)))))).
  { unfold ec_of_static. rewrite C, CN. cbn [obind]. rewrite <- (views_layers m imax ls vs B). reflexivity. }
  eexists s, _, c0. split; auto. split; [exact El|]. split; auto. split; [|split; [reflexivity|]].
  - constructor; cbn [ec_gate ec_parents ec_simd ec_inputs ec_outputs ec_counts ec_multi]; auto.
    + intros g. apply (look_spec m imax ls vs g B Hall).
    + intros g Hgt. apply (look_spec m imax ls vs g B Hall). exact Hgt.
    + intros k. destruct (le_lt_dec (length (mc_map m)) k) as [Hk|Hk].
      * assert (E1 : mc_get m k = None).
        { unfold mc_get. rewrite (proj2 (nth_error_None _ _) Hk). auto. }
        assert (E2 : st_get s k = None).
        { unfold st_get. destruct FN as [FL _]. rewrite (proj2 (nth_error_None (st_map s) k)); auto. lia. }
        rewrite E1, E2. auto.
      * destruct (static_rec bool_ops m imax h H2 H3 H4 perm HP ls HL tls Htls H5 H7 s k FN Hk) as (sub & c & X & Y & Z & _).
        rewrite X, Y. auto.
  - apply (kept_sched bool_ops m imax h) with (E := []); auto.
    + intros g. apply H4.
    + intros k c Hk. rewrite H1 in Hk. rewrite (po_simd _ _ _ H6 k c Hk). intros Es.
      destruct (po_lanes _ _ _ H6 0 Es). congruence.
    + intros o Ho. cbn [app]. apply Hall. unfold mc_gate. cbn [fst snd]. rewrite D. cbn [obind].
      assert (Hc : api_wf bool_ops c0). { apply api_api_wf. destruct H2 as [_ HC]. apply (HC 0 c0 D). }
      rewrite (aw_outputs _ _ Hc) in Ho. apply ids_where_In in Ho. destruct Ho as (x & Ex & _). congruence.
Qed.

(** Both parties' runs on the precomputed layers finish and give shares of the
    values that the circuit with every call inlined computes.  Since precomputed
    layers release nothing, outputs and arguments of calls may also be read in
    their own circuit (false for the layers computed on the fly, see
    C51_read_after_release_refuted).  Missing: as for C55, and the conditions of
    C23_same_layers_partial. *)
Theorem C23_execution_partial :
  forall W imax m cl h simd geqb perm ls, 0 < W -> (forall a b, geqb a b = true <-> a = b) -> rearranges perm ->
  mc_layers bool_ops imax m perm = Some ls -> static_program W imax m cl h simd ls ->
  exists s ec, st_precompute bool_ops geqb imax m perm = Some s /\ ec_of_static imax s = Some ec /\
  shape_ok (pr:=bool_gmw W) ec (go_init (pr:=bool_gmw W) ec) /\
  forall (Sv : Type) (req : Sv -> nat -> option (mul_triples * Sv)) J,
  serves req (bool_setup_ok W) J ->
  forall (i0 i1 : istore (bool_gmw W)) ins,
  shares_of W simd i0 i1 ins -> length ins = length (ec_inputs ec) ->
  forall (go0 go1 : gouts (bool_gmw W)) s0 s1 rest,
  shape_ok (pr:=bool_gmw W) ec go0 -> shape_ok (pr:=bool_gmw W) ec go1 ->
  J (requests ec ++ rest) s0 s1 ->
  exists v o0 o1 go0' go1' s0' s1',
    plain_value (inline_all bool_ops cl h) ins v /\
    ex2_run (pr:=bool_gmw W) req ec i0 i1 ((go0, s0), (go1, s1))
      = Some (o0, o1, ((go0', s0'), (go1', s1'))) /\
    shares_of W simd o0 o1 (map v (c_outputs (inline_all bool_ops cl h))) /\
    shape_ok (pr:=bool_gmw W) ec go0' /\ shape_ok (pr:=bool_gmw W) ec go1' /\ J rest s0' s1'.
Proof.
  intros W imax m cl h simd geqb perm ls HW Hg HP HL HSP.
  destruct (static_ec W imax m cl h simd geqb perm ls Hg HP HL HSP) as (s & ec & c0 & A & B & G0 & AG & EL & HS).
  exists s, ec. split; auto. split; auto. destruct HSP as [H1 H2 H3 H4 H5 H6 H7 H8 H9 H10].
  pose proof G0 as H0. rewrite H1 in H0.
  split.
  { eapply (agree_shape (pr:=bool_gmw W)); eauto. rewrite (agree_init (pr:=bool_gmw W) _ _ AG).
    apply (multi_shape_init W HW m imax cl H1). }
  intros Sv req J HJ i0 i1 ins Hin Hlen go0 go1 s0 s1 rest Sh0 Sh1 Hj.
  destruct (flat_spec W m h cl simd H1 H2 H3 H5 H6) as (c0' & H0' & _ & _ & Es & Es0).
  destruct (flat_io W HW m h cl simd H1 H2 H3 H5 H6) as (c1 & H01 & Ei & Eo).
  rewrite H0 in H0', H01. injection H0' as <-. injection H01 as <-.
  assert (Hm : main_ok bool_ops (inline_all bool_ops cl h))
    by (apply (flat_main_ok W HW m imax h cl simd); auto).
  assert (Hsh : shares_of W (c_simd (inline_all bool_ops cl h)) i0 i1 ins) by (rewrite Es; auto).
  assert (Einp : ec_inputs ec = c_inputs c0) by (rewrite (ea_inputs _ _ AG); reflexivity).
  destruct (plain_value_exists (inline_all bool_ops cl h) Hm ins) as (v & Hv).
  { apply (flat_operands W HW m imax h cl simd); auto. }
  { rewrite Ei, <- Einp. exact Hlen. }
  { apply (shares_lanes W _ HW i0 i1); auto. }
  exists v.
  assert (Hs0 : ec_simd ec 0 = simd).
  { rewrite (ea_simd _ _ AG). apply (ec_simd_multi W m imax cl simd H1 H6 c0 ls 0 c0 H0). }
  destruct (bool_exec_sound W ec ins (fun g => v (flat_id cl g)) Sv req J i0 i1 go0 go1 s0 s1 rest
     (fun _ => True) HW) as (o0 & o1 & go0' & go1' & s0' & s1' & E & R); auto.
  - eapply agree_typed; [exact AG|]. apply (multi_typed W HW m imax h cl simd); auto.
  - intros sc n. rewrite (ea_simd _ _ AG). cbn [ec_multi ec_simd]. rewrite H1.
    destruct (nth_error cl sc) as [c|] eqn:Ec; [|discriminate].
    rewrite (po_simd _ _ _ H6 sc c Ec). apply (po_lanes _ _ _ H6).
  - intros l Hl. rewrite EL in Hl. apply in_map_iff in Hl. destruct Hl as (L & <- & HLl).
    pose proof (multi_pure W m imax h cl simd H1 H2 H3 H4 H6 c0 ls perm HL HP L HLl) as X.
    assert (Y : el_scalar (no_free L) = no_free (el_scalar L) /\ el_simd (no_free L) = no_free (el_simd L)).
    { clear. unfold el_scalar, el_simd, no_free. split; induction L as [|[[sc [n|]] b] L IH]; simpl; rewrite ?IH; auto. }
    destruct Y as [-> ->]. rewrite !no_free_int. exact X.
  - rewrite Einp, <- Ei. apply base_inputs_nodup; auto.
  - rewrite EL. eapply agree_sched; eauto.
  - eapply agree_valuation; [exact AG|]. apply (multi_valuation W HW m imax h cl simd); auto.
  - rewrite Hs0. auto.
  - rewrite Hs0 in R. exists o0, o1, go0', go1', s0', s1'. split; auto. split; auto. rewrite Eo.
    rewrite (ea_outputs _ _ AG) in R. cbn [ec_multi ec_outputs] in R.
    erewrite map_ext in R; [exact R|]. intros o. f_equal. apply (flat_main_id W m h cl simd); auto.
Qed.
Print Assumptions C23_execution_partial.

(** The program of [C23_case] with 16 lanes: two copies that part, and an input
    that is an argument of both calls and read in the main circuit too, so that
    [program_ok] does not hold. *)
Definition part16_main : circuit bool_gate := c_set_simd part_main 16.
Definition and16_sub : circuit bool_gate := c_set_simd and_sub 16.
Definition part16_circuit : mcirc bool_gate := program_of [part16_main; and16_sub] [0; 1; 1] part_wires.

Example C23_execution_case :
  (exists ls, mc_layers bool_ops 100 part16_circuit (fun _ st => st) = Some ls /\
     static_program 8 100 part16_circuit [part16_main; and16_sub; and16_sub] part_wires (Some 16) ls) /\
  ~ program_ok 8 [part16_main; and16_sub; and16_sub] part_wires (Some 16).
Proof.
  split.
  - assert (V : valid_program part16_circuit part_wires).
    { apply valid_check with (rank := part_rank); try (vm_compute; reflexivity).
      + eexists. vm_compute. reflexivity.
      + constructor; [|constructor; [|constructor]];
          (split; [apply api_simd, c_build_api|vm_compute; reflexivity]); repeat constructor. }
    destruct V as (V1 & V2 & V3 & V4).
    destruct (mc_layers bool_ops 100 part16_circuit (fun _ st => st)) as [ls|] eqn:E; [|vm_compute in E; discriminate].
    exists ls. split; auto.
    assert (X : option_map (fun ls => steps_check part_wires (mc_map part16_circuit) [] (concat ls))
      (mc_layers bool_ops 100 part16_circuit (fun _ st => st)) = Some true) by (vm_compute; reflexivity).
    rewrite E in X. cbn [option_map] in X. apply some_inj in X. destruct (steps_check_ok _ _ _ X) as (A & B & C).
    constructor; auto.
    + intros [|[|[|[|k]]]]; reflexivity.
    + constructor.
      * apply program_gates_ok. vm_compute. reflexivity.
      * intros [|[|[|[|k]]]] c Ec; cbn [nth_error] in Ec;
          first [apply some_eq in Ec; subst c; vm_compute; reflexivity|discriminate Ec].
      * intros n En. injection En as <-. split; [discriminate|reflexivity].
    + intros [|[|[|sc]]] Hsc; [| | |exfalso; cbn in Hsc; lia]; eexists; (split; [reflexivity|vm_compute; discriminate]).
  - intros [_ _ X]. specialize (X (0, 0) (1, 0) part16_main).
    assert (Y : children part16_main 0 = []) by (apply X; [discriminate|vm_compute; auto|reflexivity]).
    vm_compute in Y. discriminate.
Qed.
