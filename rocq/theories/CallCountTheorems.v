(** Triples needed by programs with sub-circuit calls (C13, C55, C23), with layers
    computed on the fly and precomputed. *)
From Coq Require Import List Bool Arith Lia Permutation.
Require Import Verif.Prelude Verif.PreludeProofs Verif.BitVecModel Verif.GateModel Verif.ProtocolModel Verif.BoolGmwModel
  Verif.BoolGmwSpec Verif.BoolGmwProofs Verif.CircuitModel Verif.CircuitSpec Verif.ExecModel Verif.ExecSpec Verif.ExecBoolSpec
  Verif.ExecBoolProofs Verif.ExecCircuitSpec Verif.ExecTheorems Verif.ConnModel Verif.MultiModel Verif.MultiSpec Verif.MultiProofs
  Verif.MultiTheorems Verif.MultiExecSpec Verif.MultiExecProofs2 Verif.MultiExecTheorems
  Verif.StaticModel Verif.StaticSpec Verif.StaticTheorems Verif.StaticExecProofs Verif.StaticExecTheorems
  Verif.CallCountProofs.
Import ListNotations.

(** The triples that the layers of an execution ask for are never more than
    [interactive_count_times_simd] of the program reports, for circuits of any SIMD
    sizes and gates of any protocol; and exactly as many if every gate can be
    reached. *)
Theorem C13_calls_total :
  forall (P G : Type) (ops : gate_ops P G) (m : mcirc G) imax h perm,
  circuits_ok ops (mc_get m) -> wires_ok ops (mc_get m) h -> wired_as imax m h -> rearranges perm ->
  exists ec, ec_of_mc ops imax m perm = Some ec /\
    sum_list (requests ec) <= mc_int_count m /\
    (all_callable ops (mc_get m) h -> sum_list (requests ec) = mc_int_count m).
Proof.
  intros P G ops m imax h perm HC HW HA HP.
  destruct (C22_once_partial P G ops m imax h perm HC HW HA HP) as (ls & HL & _).
  pose proof HC as HC'. destruct HC' as [(c0 & E0) _]. unfold ec_of_mc. rewrite E0. cbn [obind]. rewrite HL. cbn [obind].
  eexists. split; [reflexivity|]. unfold requests. cbn [ec_layers]. rewrite sum_nonzero. split.
  - eapply count_le; eauto.
  - intros HR. eapply count_eq; eauto.
Qed.
Print Assumptions C13_calls_total.

(** A run of a program with calls that finds exactly the reported number of triples
    in the pools of the two parties finishes, computes the program with every call
    inlined and leaves the pools empty.  Missing: as for C55. *)
Theorem C55_exact_triples_partial :
  forall W imax m cl h simd perm, 0 < W -> program W imax m cl h simd -> rearranges perm ->
  exists ec, ec_of_mc bool_ops imax m perm = Some ec /\
  forall (i0 i1 : istore (bool_gmw W)) ins sh T0 T1,
  shares_of W simd i0 i1 ins -> length ins = length (ec_inputs ec) ->
  mts_wf W sh (mc_int_count m) T0 -> mts_wf W sh (mc_int_count m) T1 -> triples_ok (mts_iter T0) (mts_iter T1) ->
  exists v o0 o1 go0' go1' R0 R1,
    plain_value (inline_all bool_ops cl h) ins v /\
    ex2_run (pr:=bool_gmw W) (pool_req W) ec i0 i1
        ((go_init (pr:=bool_gmw W) ec, T0), (go_init (pr:=bool_gmw W) ec, T1))
      = Some (o0, o1, ((go0', R0), (go1', R1))) /\
    shares_of W simd o0 o1 (map v (c_outputs (inline_all bool_ops cl h))) /\
    mts_iter R0 = [] /\ mts_iter R1 = [].
Proof.
  intros W imax m cl h simd perm HW HPr HP.
  destruct (C55_calls_as_inlined_partial W imax m cl h simd perm HW HPr HP) as (ec & Eec & Hinit & Hrun).
  destruct (C13_calls_total _ _ bool_ops m imax h perm (pg_circuits _ _ _ _ _ _ HPr) (pg_wires _ _ _ _ _ _ HPr)
    (pg_wired _ _ _ _ _ _ HPr) HP) as (ec' & Eec' & _ & Hsum).
  rewrite Eec in Eec'. injection Eec' as <-. specialize (Hsum (pg_callable _ _ _ _ _ _ HPr)).
  exists ec. split; auto. intros i0 i1 ins sh T0 T1 Hin Hl W0 W1 Hok.
  destruct (Hrun _ (pool_req W) (pool_J W 0) (pool_serves W 0 HW) i0 i1 ins Hin Hl
    (go_init (pr:=bool_gmw W) ec) (go_init (pr:=bool_gmw W) ec) T0 T1 [] Hinit Hinit)
    as (v & o0 & o1 & g0 & g1 & R0 & R1 & Hv & E & HO & _ & _ & (h' & V0 & V1 & _)).
  - exists sh. rewrite app_nil_r, Hsum, Nat.add_0_r. auto.
  - exists v, o0, o1, g0, g1, R0, R1. split; auto. split; auto. split; auto.
    split; apply length_zero_iff_nil; erewrite mts_iter_length by eassumption; reflexivity.
Qed.
Print Assumptions C55_exact_triples_partial.

Lemma no_free_count L : el_int_count (no_free L) = el_int_count L.
Proof. unfold el_int_count, no_free. rewrite map_map. f_equal. apply map_ext. intros [[sc s] b]. auto. Qed.

(** The same for precomputed layers, whose number of interactive gates is counted
    in another way.  Missing: as for C23_execution_partial. *)
Theorem C23_exact_triples_partial :
  forall W imax m cl h simd geqb perm ls, 0 < W -> (forall a b, geqb a b = true <-> a = b) -> rearranges perm ->
  mc_layers bool_ops imax m perm = Some ls -> static_program W imax m cl h simd ls ->
  exists s ec n, st_precompute bool_ops geqb imax m perm = Some s /\ ec_of_static imax s = Some ec /\
  st_int_count_simd s = Some n /\ n = mc_int_count m /\ sum_list (requests ec) = n /\
  forall (i0 i1 : istore (bool_gmw W)) ins sh T0 T1,
  shares_of W simd i0 i1 ins -> length ins = length (ec_inputs ec) ->
  mts_wf W sh n T0 -> mts_wf W sh n T1 -> triples_ok (mts_iter T0) (mts_iter T1) ->
  exists v o0 o1 go0' go1' R0 R1,
    plain_value (inline_all bool_ops cl h) ins v /\
    ex2_run (pr:=bool_gmw W) (pool_req W) ec i0 i1
        ((go_init (pr:=bool_gmw W) ec, T0), (go_init (pr:=bool_gmw W) ec, T1))
      = Some (o0, o1, ((go0', R0), (go1', R1))) /\
    shares_of W simd o0 o1 (map v (c_outputs (inline_all bool_ops cl h))) /\
    mts_iter R0 = [] /\ mts_iter R1 = [].
Proof.
  intros W imax m cl h simd geqb perm ls HW Hg HP HL HSP.
  destruct (C23_execution_partial W imax m cl h simd geqb perm ls HW Hg HP HL HSP) as (s & ec & Es & Eec & Hinit & Hrun).
  destruct (static_ec W imax m cl h simd geqb perm ls Hg HP HL HSP) as (s' & ec' & c0 & Es' & Eec' & _ & _ & EL & _).
  rewrite Es in Es'. injection Es' as <-. rewrite Eec in Eec'. injection Eec' as <-.
  destruct (C23_same_counts_partial bool_ops geqb imax m h perm ls Hg (sp_circuits _ _ _ _ _ _ _ HSP) (sp_wires _ _ _ _ _ _ _ HSP)
    (sp_wired _ _ _ _ _ _ _ HSP) HP HL (sp_order _ _ _ _ _ _ _ HSP) (sp_open _ _ _ _ _ _ _ HSP) (sp_clean _ _ _ _ _ _ _ HSP)
    (sp_callable _ _ _ _ _ _ _ HSP) (sp_gates _ _ _ _ _ _ _ HSP)) as (s' & Es' & _ & _ & _ & Ecnt).
  rewrite Es in Es'. injection Es' as <-.
  assert (Hsum : sum_list (requests ec) = mc_int_count m).
  { unfold requests. rewrite EL, sum_nonzero, map_map. rewrite (map_ext _ el_int_count) by apply no_free_count.
    eapply count_eq; eauto; try apply HSP. }
  exists s, ec, (mc_int_count m). do 5 (split; auto). intros i0 i1 ins sh T0 T1 Hin Hl W0 W1 Hok.
  destruct (Hrun _ (pool_req W) (pool_J W 0) (pool_serves W 0 HW) i0 i1 ins Hin Hl
    (go_init (pr:=bool_gmw W) ec) (go_init (pr:=bool_gmw W) ec) T0 T1 [] Hinit Hinit)
    as (v & o0 & o1 & g0 & g1 & R0 & R1 & Hv & E & HO & _ & _ & (h' & V0 & V1 & _)).
  - exists sh. rewrite app_nil_r, Hsum, Nat.add_0_r. auto.
  - exists v, o0, o1, g0, g1, R0, R1. split; auto. split; auto. split; auto.
    split; apply length_zero_iff_nil; erewrite mts_iter_length by eassumption; reflexivity.
Qed.
Print Assumptions C23_exact_triples_partial.

(** The programs of C55_case: one AND in a circuit that is called twice, and one
    AND in 16 lanes; and the program of C23_execution_case.  The number counts every call. *)
Example C13_calls_case :
  program 8 100 two_circuit [two_main; two_sub; two_sub] two_wires None /\ mc_int_count two_circuit = 2 /\
  length (mc_circuits two_circuit) = 2 /\
  program 8 100 lanes_circuit [lanes_main; lanes_sub] lanes_wires (Some 16) /\ mc_int_count lanes_circuit = 16 /\
  (exists ls, mc_layers bool_ops 100 part16_circuit (fun _ st => st) = Some ls /\
     static_program 8 100 part16_circuit [part16_main; and16_sub; and16_sub] part_wires (Some 16) ls) /\
  mc_int_count part16_circuit = 64.
Proof.
  destruct C55_case as (A & B & _). split; [exact A|]. split; [vm_compute; reflexivity|]. split; [vm_compute; reflexivity|].
  split; [exact B|]. split; [vm_compute; reflexivity|]. split; [apply C23_execution_case|]. vm_compute. reflexivity.
Qed.
