(** Property theorems about executions of one boolean circuit: C11, C12, C13. *)
From Coq Require Import List Bool Arith Lia Permutation.
Require Import Verif.Prelude Verif.PreludeProofs Verif.BitVecModel Verif.BitVecSpec
  Verif.BitVecProofs Verif.GateModel Verif.ProtocolModel Verif.BoolGmwModel Verif.BoolGmwSpec
  Verif.BoolGmwProofs Verif.BoolGmwProofs2 Verif.BoolGmwTheorems
  Verif.CircuitModel Verif.CircuitSpec Verif.CircuitProofs3 Verif.CircuitTheorems
  Verif.ExecModel Verif.ExecSpec Verif.ExecProofs Verif.ExecBoolSpec Verif.ExecBoolProofs
  Verif.ExecCircuitSpec Verif.ExecCircuitProofs.
Import ListNotations.

Lemma shares_lanes W c (HW : 0 < W) (i0 i1 : istore (bool_gmw W)) ins :
  shares_of W (c_simd c) i0 i1 ins -> Forall (fun x => length x = @c_lanes bool_gate c) ins.
Proof.
  unfold shares_of, c_lanes. destruct (c_simd c) as [n|], i0 as [l0|l0], i1 as [l1|l1]; try tauto.
  - intros (L & F0 & F1 & ->). revert l1 L F1. induction F0 as [|x l0 Hx F0 IH]; intros [|y l1] L F1;
      simpl in *; constructor; auto; try discriminate.
    + inversion F1; subst. apply (lane_vec_xor_length W HW n x y); auto.
    + inversion F1; subst. apply IH; auto.
  - intros (L & ->). apply Forall_forall. intros x Hx. apply in_map_iff in Hx.
    destruct Hx as (b & <- & _). auto.
Qed.

Lemma base_pure {P G} (ops : gate_ops P G) (c : circuit G) ls : pure_layers (ec_base c ls).
Proof.
  intros l Hl. simpl in Hl. apply in_map_iff in Hl. destruct Hl as (b & <- & _).
  unfold wrap1, el_scalar, el_simd. destruct (c_simd c); simpl; auto.
Qed.

Lemma base_shape_init {pr} (c : circuit (p_gate pr)) ls :
  shape_ok (ec_base c ls) (go_init (pr:=pr) (ec_base c ls)).
Proof.
  intros [sc g] gate E. cbn [ec_base ec_gate fst snd] in E.
  destruct (Nat.eqb_spec sc 0) as [->|]; [|discriminate].
  assert (Hg : g < c_count c) by (apply nth_error_Some; congruence).
  unfold go_init, go_cell, kind_ok. cbn [ec_base ec_counts ec_simd map go_data fst snd nth_error].
  assert (R : forall A (d : A), nth_error (repeat d (c_count c)) g = Some d).
  { intros A d. rewrite (nth_error_nth' _ d) by (rewrite repeat_length; auto).
    rewrite nth_repeat_any. auto. }
  destruct (c_simd c); rewrite R; cbn [obind]; eexists; split; eauto; exact I.
Qed.

(** ** C11 *)

(** For any circuit [c], any provider [req] that serves both parties with valid
    triples, any inputs [ins], any XOR shares [i0], [i1] of them and any previous
    content of the gate output buffers: the run finishes ([Some]) and its
    outputs are XOR shares of the plaintext values of the output gates.
    [plain_value] is the evaluation of the circuit graph. *)
Theorem C11_execution_computes_circuit :
  forall W c, 0 < W -> main_ok bool_ops c -> operands_ok c -> simd_ok W c ->
  exists ec, ec_of_base bool_ops c = Some ec /\
  shape_ok (pr:=bool_gmw W) ec (go_init (pr:=bool_gmw W) ec) /\
  forall (Sv : Type) (req : Sv -> nat -> option (mul_triples * Sv)) J,
  serves req (bool_setup_ok W) J ->
  forall (i0 i1 : istore (bool_gmw W)) ins,
  shares_of W (c_simd c) i0 i1 ins -> length ins = length (c_inputs c) ->
  forall (go0 go1 : gouts (bool_gmw W)) s0 s1 rest,
  shape_ok (pr:=bool_gmw W) ec go0 -> shape_ok (pr:=bool_gmw W) ec go1 ->
  J (requests ec ++ rest) s0 s1 ->
  exists v o0 o1 go0' go1' s0' s1',
    plain_value c ins v /\
    ex2_run (pr:=bool_gmw W) req ec i0 i1 ((go0, s0), (go1, s1))
      = Some (o0, o1, ((go0', s0'), (go1', s1'))) /\
    shares_of W (c_simd c) o0 o1 (map v (c_outputs c)) /\
    shape_ok (pr:=bool_gmw W) ec go0' /\ shape_ok (pr:=bool_gmw W) ec go1' /\ J rest s0' s1'.
Proof.
  intros W c HW Hm Ho Hs.
  assert (Hs0 : c_simd c <> Some 0).
  { unfold simd_ok in Hs. destruct (c_simd c); [|discriminate]. intros E. injection E as ->. tauto. }
  assert (Hs1 : c_simd c = None \/ forall o, In o (c_outputs c) -> children c o = []).
  { unfold simd_ok in Hs. destruct (c_simd c); [right|left]; tauto. }
  destruct (base_sched bool_ops c Hm Hs0 Hs1) as (ls & _ & Eec & _ & _ & HS).
  exists (ec_base c ls). split; auto. split; [apply (base_shape_init (pr:=bool_gmw W))|].
  intros Sv req J HJ i0 i1 ins Hin Hlen go0 go1 s0 s1 rest Sh0 Sh1 Hj.
  destruct (plain_value_exists c Hm ins Ho Hlen (shares_lanes W c HW i0 i1 ins Hin)) as (v & Hv).
  exists v.
  destruct (bool_exec_sound W (ec_base c ls) ins (fun g => v (snd g)) Sv req J i0 i1 go0 go1 s0 s1 rest
     (fun g => fst g = 0) HW (base_typed c Hm ls Ho)) as (o0 & o1 & go0' & go1' & s0' & s1' & E & R); auto.
  - intros sc n. simpl. intros E. unfold simd_ok in Hs. rewrite E in Hs. tauto.
  - apply (base_pure bool_ops).
  - simpl. apply base_inputs_nodup; auto.
  - apply base_valuation; auto.
  - exists o0, o1, go0', go1', s0', s1'. split; auto.
Qed.
Print Assumptions C11_execution_computes_circuit.

(** The plaintext result is determined by the circuit and the inputs. *)
Theorem C11_plaintext_unique :
  forall c ins v v', main_ok bool_ops c -> plain_value c ins v -> plain_value c ins v' ->
  map v (c_outputs c) = map v' (c_outputs c).
Proof.
  intros c ins v v' Hm Hv Hv'. apply map_ext_in. intros o Ho.
  apply (plain_value_unique c Hm ins v v'); auto; [apply base_inputs_nodup; auto|].
  destruct Hm as (Ha & _). apply api_api_wf in Ha. rewrite (aw_outputs _ _ Ha) in Ho.
  apply ids_where_In in Ho. destruct Ho as (x & E & _). apply nth_error_Some. congruence.
Qed.
Print Assumptions C11_plaintext_unique.

(** ** C12 *)

(** Any number of executions with the same pair of executors. *)
Theorem C12_executor_reuse :
  forall W c, 0 < W -> main_ok bool_ops c -> operands_ok c -> simd_ok W c ->
  exists ec, ec_of_base bool_ops c = Some ec /\
  forall (Sv : Type) (req : Sv -> nat -> option (mul_triples * Sv)) J,
  serves req (bool_setup_ok W) J ->
  forall (runs : list (istore (bool_gmw W) * istore (bool_gmw W))) (inss : list (list (list bool))),
  Forall2 (fun i ins => shares_of W (c_simd c) (fst i) (snd i) ins /\ length ins = length (c_inputs c))
    runs inss ->
  forall s0 s1 rest, J (concat (repeat (requests ec) (length runs)) ++ rest) s0 s1 ->
  exists outs s',
    ex2_history (pr:=bool_gmw W) req ec runs
      ((go_init (pr:=bool_gmw W) ec, s0), (go_init (pr:=bool_gmw W) ec, s1)) = Some (outs, s') /\
    Forall2 (fun o ins => exists v, plain_value c ins v /\
               shares_of W (c_simd c) (fst o) (snd o) (map v (c_outputs c))) outs inss.
Proof.
  intros W c HW Hm Ho Hs.
  destruct (C11_execution_computes_circuit W c HW Hm Ho Hs) as (ec & Eec & Hinit & Hrun).
  exists ec. split; auto. intros Sv req J HJ runs inss HF.
  specialize (Hrun Sv req J HJ).
  assert (H : forall s0 s1 rest go0 go1,
    shape_ok (pr:=bool_gmw W) ec go0 -> shape_ok (pr:=bool_gmw W) ec go1 ->
    J (concat (repeat (requests ec) (length runs)) ++ rest) s0 s1 ->
    exists outs s', ex2_history (pr:=bool_gmw W) req ec runs ((go0, s0), (go1, s1)) = Some (outs, s') /\
    Forall2 (fun o ins => exists v, plain_value c ins v /\
               shares_of W (c_simd c) (fst o) (snd o) (map v (c_outputs c))) outs inss).
  { induction HF as [|[i0 i1] ins runs inss (Hi & Hl) HF IH]; intros s0 s1 rest go0 go1 Sh0 Sh1 Hj.
    - exists [], ((go0, s0), (go1, s1)). split; [reflexivity|constructor].
    - cbn [length repeat concat] in Hj. rewrite <- app_assoc in Hj.
      destruct (Hrun i0 i1 ins Hi Hl go0 go1 s0 s1 _ Sh0 Sh1 Hj)
        as (v & o0 & o1 & g0 & g1 & t0 & t1 & Hv & E & HO & S0 & S1 & Hj').
      destruct (IH t0 t1 rest g0 g1 S0 S1 Hj') as (outs & s' & E' & HF').
      exists ((o0, o1) :: outs), s'. split; [|constructor; eauto].
      cbn [ex2_history]. rewrite E. cbn [obind]. rewrite E'. reflexivity. }
  intros s0 s1 rest. apply H; auto.
Qed.
Print Assumptions C12_executor_reuse.

(** ** C13 *)

(** The requests of an execution are a fixed list (they do not depend on inputs,
    shares or the party, and the run above consumes exactly [requests ec]); they
    add up to the reported number of interactive gates times lanes. *)
Theorem C13_requests_total :
  forall W c, main_ok bool_ops c -> simd_ok W c ->
  exists ec, ec_of_base bool_ops c = Some ec /\
    sum_list (requests ec) = c_icount c * c_lanes c /\
    c_icount c = length (filter bool_is_interactive (c_gates c)).
Proof.
  intros W c Hm Hs.
  destruct (main_layers bool_ops c Hm) as (ls & A & B & C & _).
  exists (ec_base c ls). split; [apply ec_of_base_eq; auto|]. split.
  - apply (requests_total bool_ops); auto.
  - destruct Hm as (Ha & _). apply api_api_wf in Ha. apply (aw_icount _ _ Ha).
Qed.
Print Assumptions C13_requests_total.

(** A pool filled beforehand; every request splits off its last triples
    (boolean/mod.rs [split_off_last]). *)
Definition pool_req (W : nat) (t : mul_triples) (n : nat) : option (mul_triples * mul_triples) :=
  '(rest, out) <- mts_split_off_last W t n ;; Some (out, rest).

Definition pool_J (W extra : nat) (ns : list nat) (t0 t1 : mul_triples) : Prop :=
  exists h, mts_wf W h (sum_list ns + extra) t0 /\ mts_wf W h (sum_list ns + extra) t1 /\
    triples_ok (mts_iter t0) (mts_iter t1).

Lemma triples_ok_skipn n a b : triples_ok a b -> triples_ok (skipn n a) (skipn n b).
Proof.
  unfold triples_ok. intros H. revert n. induction H; intros [|n]; simpl; auto.
Qed.
Lemma triples_ok_firstn n a b : triples_ok a b -> triples_ok (firstn n a) (firstn n b).
Proof.
  unfold triples_ok. intros H. revert n. induction H; intros [|n]; simpl; auto.
Qed.

Lemma pool_serves W extra : 0 < W -> serves (pool_req W) (bool_setup_ok W) (pool_J W extra).
Proof.
  intros HW n ns t0 t1 (h & W0 & W1 & Hok).
  set (m := sum_list (n :: ns) + extra) in *.
  assert (Hm : m = n + (sum_list ns + extra)) by (unfold m; simpl; lia).
  destruct (mts_split_off_last_spec W h m t0 n HW W0 ltac:(lia))
    as (R0 & U0 & S0 & WR0 & WU0 & IR0 & IU0 & A0 & B0 & C0).
  destruct (mts_split_off_last_spec W h m t1 n HW W1 ltac:(lia))
    as (R1 & U1 & S1 & WR1 & WU1 & IR1 & IU1 & A1 & B1 & C1).
  exists U0, U1, R0, R1. unfold pool_req. rewrite S0, S1. cbn [obind].
  split; auto. split; auto. split.
  - eexists _, n. split; [lia|]. split; [exact WU0|]. split; [exact WU1|].
    rewrite IU0, IU1. apply triples_ok_skipn; auto.
  - exists h. replace (m - n) with (sum_list ns + extra) in * by lia.
    split; auto. split; auto. rewrite IR0, IR1. apply triples_ok_firstn; auto.
Qed.

(** Exactly the reported number of triples is enough for one execution, and none
    is left: both pools end empty. *)
Theorem C13_exact_preprocessing_suffices :
  forall W c, 0 < W -> main_ok bool_ops c -> operands_ok c -> simd_ok W c ->
  exists ec, ec_of_base bool_ops c = Some ec /\
  forall (i0 i1 : istore (bool_gmw W)) ins h T0 T1,
  shares_of W (c_simd c) i0 i1 ins -> length ins = length (c_inputs c) ->
  mts_wf W h (c_icount c * c_lanes c) T0 -> mts_wf W h (c_icount c * c_lanes c) T1 ->
  triples_ok (mts_iter T0) (mts_iter T1) ->
  exists v o0 o1 go0' go1' R0 R1,
    plain_value c ins v /\
    ex2_run (pr:=bool_gmw W) (pool_req W) ec i0 i1
        ((go_init (pr:=bool_gmw W) ec, T0), (go_init (pr:=bool_gmw W) ec, T1))
      = Some (o0, o1, ((go0', R0), (go1', R1))) /\
    shares_of W (c_simd c) o0 o1 (map v (c_outputs c)) /\
    mts_iter R0 = [] /\ mts_iter R1 = [].
Proof.
  intros W c HW Hm Ho Hs.
  destruct (C11_execution_computes_circuit W c HW Hm Ho Hs) as (ec & Eec & Hinit & Hrun).
  destruct (C13_requests_total W c Hm Hs) as (ec' & Eec' & Hsum & _).
  rewrite Eec in Eec'. injection Eec' as <-.
  exists ec. split; auto. intros i0 i1 ins h T0 T1 Hin Hl W0 W1 Hok.
  destruct (Hrun _ (pool_req W) (pool_J W 0) (pool_serves W 0 HW) i0 i1 ins Hin Hl
    (go_init (pr:=bool_gmw W) ec) (go_init (pr:=bool_gmw W) ec) T0 T1 [] Hinit Hinit)
    as (v & o0 & o1 & g0 & g1 & R0 & R1 & Hv & E & HO & _ & _ & (h' & V0 & V1 & _)).
  - exists h. rewrite app_nil_r, Hsum, Nat.add_0_r. auto.
  - exists v, o0, o1, g0, g1, R0, R1. split; auto. split; auto. split; auto.
    split; apply length_zero_iff_nil; erewrite mts_iter_length by eassumption; reflexivity.
Qed.
Print Assumptions C13_exact_preprocessing_suffices.

(** ** Concrete cases *)

Definition ex_simd_circ : circuit bool_gate := c_set_simd ex_circ 8.

(** A decision procedure for the hypothesis, for concrete circuits. *)
Definition operands_okb (c : circuit bool_gate) : bool :=
  forallb (fun g => match nth_error (c_gates c) g with
    | Some (BBase GInput) | Some (BBase (GConstant _)) => true
    | Some (BBase (GConnectToMainFromSimd _)) => false
    | Some BAnd | Some BXor => length (parents c g) =? 2
    | _ => length (parents c g) =? 1 end) (seq 0 (length (c_gates c))).

Lemma operands_okb_ok c : operands_okb c = true -> operands_ok c.
Proof.
  unfold operands_okb. rewrite forallb_forall. intros H g gate E.
  assert (Hg : g < length (c_gates c)) by (apply nth_error_Some; congruence).
  specialize (H g). rewrite E in H. rewrite in_seq in H. specialize (H ltac:(lia)).
  destruct gate as [[]| | |]; try discriminate; auto; apply Nat.eqb_eq; auto.
Qed.

Definition simd_okb (W : nat) (c : circuit bool_gate) : bool :=
  match c_simd c with
  | None => true
  | Some n => negb (n =? 0) && (n mod W =? 0) &&
      forallb (fun o => match children c o with [] => true | _ => false end) (c_outputs c)
  end.

Lemma simd_okb_ok W c : simd_okb W c = true -> simd_ok W c.
Proof.
  unfold simd_okb, simd_ok. destruct (c_simd c) as [n|]; auto.
  rewrite !andb_true_iff, negb_true_iff, Nat.eqb_eq, Nat.eqb_neq, forallb_forall.
  intros [[A B] C]. split; auto. split; auto. intros o Ho. specialize (C o Ho).
  destruct (children c o); auto; discriminate.
Qed.

Lemma ex_operands : operands_ok ex_circ /\ operands_ok ex_simd_circ.
Proof. split; apply operands_okb_ok; vm_compute; reflexivity. Qed.

Lemma ex_simd_wired : wired bool_ops ex_simd_circ.
Proof. apply wired_simd, ex_circ_wired. Qed.

(** Two parties, inputs 1 and 1 (shares 1,0 and 0,1): the example circuit gives
    not ((((1&1)^(1&1))^1)&1) = 0 and 1. *)
Example C11_case :
  main_ok bool_ops ex_circ /\ operands_ok ex_circ /\ simd_ok 8 ex_circ /\
  main_ok bool_ops ex_simd_circ /\ operands_ok ex_simd_circ /\ simd_ok 8 ex_simd_circ.
Proof.
  split; [apply wired_main_ok, ex_circ_wired|]. split; [apply ex_operands|].
  split; [exact I|]. split; [apply wired_main_ok, ex_simd_wired|]. split; [apply ex_operands|].
  apply simd_okb_ok. vm_compute. reflexivity.
Qed.

Definition ex_out2 {S} (r : option (istore (bool_gmw 8) * istore (bool_gmw 8) * S)) : list bool :=
  match r with Some (IScalar a, IScalar b, _) => bits_xor a b | _ => [] end.

Definition ex_p0 : mul_triples := ex_mk [MT true true false; MT false true true].
Definition ex_p1 : mul_triples := ex_mk [MT true false false; MT true true true].

Example C13_case :
  mts_wf 8 0 2 ex_p0 /\ mts_wf 8 0 2 ex_p1 /\ triples_ok (mts_iter ex_p0) (mts_iter ex_p1) /\
  option_map requests (ec_of_base bool_ops ex_circ) = Some [1; 1] /\
  option_map (fun ec => ex_out2 (ex2_run (pr:=bool_gmw 8) (pool_req 8) ec
      (@IScalar (bool_gmw 8) [true; false]) (@IScalar (bool_gmw 8) [false; true])
      ((go_init (pr:=bool_gmw 8) ec, ex_p0), (go_init (pr:=bool_gmw 8) ec, ex_p1))))
    (ec_of_base bool_ops ex_circ) = Some [false; true].
Proof.
  split; [ex_wf|]. split; [ex_wf|]. split; [vm_compute; repeat constructor|].
  split; vm_compute; reflexivity.
Qed.

(** Two runs of the same executors, four triples. *)
Definition ex_zeros : mul_triples := ex_mk (repeat (MT false false false) 4).
Example C12_case :
  option_map (fun ec => option_map (fun r => map (fun o => ex_out2 (Some (o, tt))) (fst r))
    (ex2_history (pr:=bool_gmw 8) (pool_req 8) ec
      [(@IScalar (bool_gmw 8) [true; false], @IScalar (bool_gmw 8) [false; true]);
       (@IScalar (bool_gmw 8) [true; true], @IScalar (bool_gmw 8) [true; false])]
      ((go_init (pr:=bool_gmw 8) ec, ex_zeros), (go_init (pr:=bool_gmw 8) ec, ex_zeros))))
    (ec_of_base bool_ops ex_circ) = Some (Some [[false; true]; [true; true]]).
Proof. vm_compute. reflexivity. Qed.

(** Without the last condition of [simd_ok] the claim is false: a SIMD circuit
    whose output gate 2 is also an operand of the AND gate 3.  Its share is
    released with the layer and the first output is empty. *)
Definition ex_out_circ : circuit bool_gate :=
  let src c := fst (add_gate bool_ops c (BBase GInput)) in
  let c := src (src c_new_main) in
  let c := ex_put c (BBase GOutput) [0] in
  let c := ex_put c BAnd [2; 1] in
  c_set_simd (ex_put c (BBase GOutput) [3]) 8.

Definition ex_vec (b : bool) : bitvec := bv_of_bits 8 (repeat b 8).
Definition ex_lens (i : istore (bool_gmw 8)) : list nat :=
  match i with ISimd l => map bv_len l | IScalar _ => [] end.
Definition ex_pool8 : mul_triples := ex_mk (repeat (MT false false false) 8).
Definition ex_out_run (ec : ecirc bool_gate) :=
  ex2_run (pr:=bool_gmw 8) (pool_req 8) ec
    (@ISimd (bool_gmw 8) [ex_vec true; ex_vec true]) (@ISimd (bool_gmw 8) [ex_vec true; ex_vec false])
    ((go_init (pr:=bool_gmw 8) ec, ex_pool8), (go_init (pr:=bool_gmw 8) ec, ex_pool8)).

Theorem C11_simd_output_operand_refuted :
  exists c ec (i0 i1 o0 o1 : istore (bool_gmw 8)) T s v,
    main_ok bool_ops c /\ operands_ok c /\ c_simd c = Some 8 /\
    ec_of_base bool_ops c = Some ec /\
    mts_wf 8 0 8 T /\ triples_ok (mts_iter T) (mts_iter T) /\
    shares_of 8 (Some 8) i0 i1 [repeat false 8; repeat true 8] /\
    plain_value c [repeat false 8; repeat true 8] v /\
    ex2_run (pr:=bool_gmw 8) (pool_req 8) ec i0 i1
      ((go_init (pr:=bool_gmw 8) ec, T), (go_init (pr:=bool_gmw 8) ec, T)) = Some (o0, o1, s) /\
    ~ shares_of 8 (Some 8) o0 o1 (map v (c_outputs c)).
Proof.
  assert (Hw : wired bool_ops ex_out_circ).
  { unfold ex_out_circ. apply wired_simd.
    repeat (apply ex_put_wired;
      [ | reflexivity | discriminate | repeat constructor | eexists; vm_compute; reflexivity ]).
    repeat (apply wired_source; [|reflexivity]). apply wired_main. }
  pose proof (wired_main_ok _ _ Hw) as Hm.
  assert (Ho : operands_ok ex_out_circ) by (apply operands_okb_ok; vm_compute; reflexivity).
  destruct (plain_value_exists ex_out_circ Hm [repeat false 8; repeat true 8] Ho) as (v & Hv).
  { vm_compute. reflexivity. }
  { repeat constructor. }
  destruct (ec_of_base bool_ops ex_out_circ) as [ec|] eqn:Eec; [|vm_compute in Eec; discriminate].
  assert (Hrun : option_map (fun e => option_map (fun r => ex_lens (fst (fst r))) (ex_out_run e))
      (ec_of_base bool_ops ex_out_circ) = Some (Some [0; 8])) by (vm_compute; reflexivity).
  rewrite Eec in Hrun. cbn [option_map] in Hrun.
  destruct (ex_out_run ec) as [[[o0 o1] s]|] eqn:E; [|discriminate]. cbn [option_map fst] in Hrun.
  exists ex_out_circ, ec, (@ISimd (bool_gmw 8) [ex_vec true; ex_vec true]),
    (@ISimd (bool_gmw 8) [ex_vec true; ex_vec false]), o0, o1, ex_pool8, s, v.
  split; [auto|]. split; [auto|]. split; [reflexivity|]. split; [auto|]. split; [ex_wf|].
  split; [vm_compute; repeat constructor|].
  split; [split; [reflexivity|]; split; [repeat constructor; ex_wf|];
          split; [repeat constructor; ex_wf|reflexivity]|].
  split; [auto|]. split; [exact E|].
  unfold shares_of. destruct o0 as [l0|l0]; [auto|]. destruct o1 as [l1|l1]; [auto|].
  cbn [ex_lens] in Hrun. intros (_ & F & _).
  destruct l0 as [|x l0]; [discriminate|]. inversion F as [|? ? (_ & _ & Hx) _]; subst.
  cbn [map] in Hrun. congruence.
Qed.
Print Assumptions C11_simd_output_operand_refuted.
