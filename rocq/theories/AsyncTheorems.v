(** Property theorems about asynchronous executions: C14. *)
From Coq Require Import List Bool Arith Lia.
Require Import Verif.Prelude Verif.PreludeProofs Verif.BitVecModel Verif.GateModel Verif.ProtocolModel
  Verif.BoolGmwModel Verif.BoolGmwSpec Verif.BoolGmwTheorems Verif.CircuitModel Verif.CircuitSpec
  Verif.CircuitTheorems Verif.ExecModel Verif.ExecSpec Verif.ExecBoolSpec Verif.ExecCircuitSpec
  Verif.ExecTheorems Verif.AsyncModel Verif.AsyncProofs.
Import ListNotations.

(** For any protocol: whenever the two parties succeed in lock step, then under
    every schedule and every channel capacity of at least 1 the run never gets
    stuck before both parties have returned, it always takes the same number of
    steps, and it always ends with the lock-step results and empty channels. *)
Theorem C14_no_deadlock_any_protocol :
  forall (pr : protocol) (S : Type) (req : S -> nat -> option (p_setup pr * S))
    (ec : ecirc (p_gate pr)) i0 i1 cap go0 s0 go1 s1 o0 o1 go0' s0' go1' s1',
  1 <= cap ->
  ex2_run req ec i0 i1 ((go0, s0), (go1, s1)) = Some (o0, o1, ((go0', s0'), (go1', s1'))) ->
  let final := Sys (PDone o0 go0' s0') (PDone o1 go1' s1') [] [] in
  exists N, forall sched t,
    a_run req ec cap i0 i1 (a_init ec go0 go1 s0 s1) sched = Some t ->
    (exists sched', a_run req ec cap i0 i1 t sched' = Some final /\ length sched + length sched' = N) /\
    (t = final \/ exists w t', a_step req ec cap i0 i1 t w = Some t').
Proof. intros. eapply async_run; eauto. Qed.
Print Assumptions C14_no_deadlock_any_protocol.

(** For boolean circuits, with the plaintext result: no lock-step hypothesis. *)
Theorem C14_boolean_execution_schedule_independent :
  forall W c, 0 < W -> main_ok bool_ops c -> operands_ok c -> simd_ok W c ->
  exists ec, ec_of_base bool_ops c = Some ec /\
  forall (Sv : Type) (req : Sv -> nat -> option (mul_triples * Sv)) J,
  serves req (bool_setup_ok W) J ->
  forall (i0 i1 : istore (bool_gmw W)) ins,
  shares_of W (c_simd c) i0 i1 ins -> length ins = length (c_inputs c) ->
  forall (go0 go1 : gouts (bool_gmw W)) s0 s1,
  shape_ok (pr:=bool_gmw W) ec go0 -> shape_ok (pr:=bool_gmw W) ec go1 ->
  J (requests ec) s0 s1 ->
  forall cap, 1 <= cap ->
  exists v o0 o1 go0' go1' s0' s1' N,
    plain_value c ins v /\
    shares_of W (c_simd c) o0 o1 (map v (c_outputs c)) /\
    let final := Sys (PDone o0 go0' s0') (PDone o1 go1' s1') [] [] in
    forall sched t,
      a_run (pr:=bool_gmw W) req ec cap i0 i1 (a_init (pr:=bool_gmw W) ec go0 go1 s0 s1) sched = Some t ->
      (exists sched', a_run (pr:=bool_gmw W) req ec cap i0 i1 t sched' = Some final /\
                      length sched + length sched' = N) /\
      (t = final \/ exists w t', a_step (pr:=bool_gmw W) req ec cap i0 i1 t w = Some t').
Proof.
  intros W c HW Hm Ho Hs.
  destruct (C11_execution_computes_circuit W c HW Hm Ho Hs) as (ec & Eec & _ & Hrun).
  exists ec. split; auto. intros Sv req J HJ i0 i1 ins Hin Hl go0 go1 s0 s1 Sh0 Sh1 Hj cap Hcap.
  destruct (Hrun Sv req J HJ i0 i1 ins Hin Hl go0 go1 s0 s1 [] Sh0 Sh1)
    as (v & o0 & o1 & g0 & g1 & t0 & t1 & Hv & E & HO & _); [rewrite app_nil_r; auto|].
  destruct (async_run (pr:=bool_gmw W) req ec i0 i1 cap _ _ _ _ _ _ _ _ _ _ Hcap E) as (N & HN).
  exists v, o0, o1, g0, g1, t0, t1, N. auto.
Qed.
Print Assumptions C14_boolean_execution_schedule_independent.

(** The example circuit: party 0 runs ahead as far as it can, then party 1, on
    channels of capacity 1 and 2; the same result as in C13_case.  With capacity 1
    its second send blocks until party 1 has received the first message. *)
Definition ex_async (cap : nat) (sched : list bool) : option (option (list bool)) :=
  option_map (fun ec => option_map (fun y =>
      match y_0 y, y_1 y with
      | PDone a _ _, PDone b _ _ => ex_out2 (Some (a, b, tt))
      | _, _ => [] end)
    (a_run (pr:=bool_gmw 8) (pool_req 8) ec cap
      (@IScalar (bool_gmw 8) [true; false]) (@IScalar (bool_gmw 8) [false; true])
      (a_init (pr:=bool_gmw 8) ec (go_init (pr:=bool_gmw 8) ec) (go_init (pr:=bool_gmw 8) ec) ex_p0 ex_p1)
      sched)) (ec_of_base bool_ops ex_circ).

Example C14_case :
  let ahead := [false; false; true; true; false; false] in
  let rest := [true; false; false; false; true; true; true] in
  ex_async 1 (ahead ++ [true; true; false] ++ rest) = Some (Some [false; true]) /\
  ex_async 1 (ahead ++ [false]) = Some None /\
  ex_async 2 (ahead ++ [false; true; true] ++ rest) = Some (Some [false; true]) /\
  (* with a channel of capacity 0 party 0 cannot send *)
  ex_async 0 [false; true] = Some (Some []) /\ ex_async 0 [false; true; false] = Some None /\
  ex_async 0 [false; true; true] = Some None.
Proof. vm_compute. repeat split. Qed.
