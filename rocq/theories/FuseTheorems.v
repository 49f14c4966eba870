(** Theorems about converted FUSE modules: C64. *)
From Coq Require Import List Bool Arith ZArith Lia.
Require Import Verif.ParseModel Verif.Prelude Verif.PreludeProofs Verif.GateModel Verif.ProtocolModel Verif.CircuitModel
  Verif.ChannelModel Verif.BoolGmwModel Verif.BoolGmwSpec Verif.ArithGmwModel Verif.InlineModel
  Verif.ExecModel Verif.ExecSpec Verif.ExecProofs
  Verif.MixedModel Verif.MixedSpec Verif.MixedProgSpec Verif.MixedProgProofs2 Verif.MixedProgProofs3 Verif.MixedProgProofs4
  Verif.MixedTheorems Verif.MixedTheorems2 Verif.FuseModel Verif.FuseSpec Verif.FuseProofs.
Import ListNotations.
Open Scope nat_scope.

Lemma single_convert maxu cap w ep nodes : f_convert maxu cap w (single ep nodes) = f_nodes maxu cap w [] true nodes c_new [].
Proof. unfold f_convert, single. cbn [fm_entry fm_circuits obind f_sub_circs fc_name find fc_nodes]. rewrite Nat.eqb_refl. reflexivity. Qed.

Lemma keys_nil : keys [] [] [] [].
Proof. split; auto. intros id v vs H. discriminate. Qed.

(** What holds of C64: the circuit of a module without calls, offsets and constants
    other than true and one computes the outputs of the module.  Missing for the full
    statement: offsets, other constants and calls, for which it is false (below),
    several conversions in one layer (C45), and [CallMode::CallCircuits]. *)
Theorem C64_fuse_partial :
  forall W w maxu cap ep nodes ins outs,
  0 < W -> 0 < w -> 1000 <= maxu -> 2 <= cap ->
  (In w [8; 16; 32; 64] \/ Forall (fun n => fn_op n <> FSplit) nodes) ->
  Forall plain_node nodes -> NoDup (map fn_id nodes) ->
  feval w nodes [] [] ins = Some (outs, []) ->
  exists c ls, f_convert maxu cap w (single ep nodes) = Some c /\ c_layers mixed_ops c = Some ls /\
    ((forall l, In l ls -> conversions c l <= 1) -> runs_correctly W w c ins outs).
Proof.
  intros W w maxu cap ep nodes ins outs HW Hw Hm Hc Hs Hp Hn H.
  destruct (nodes_sim maxu cap w Hm Hc Hw [] nodes [] [] ins outs [] c_new [] [] [] Hs Hp Hn (fun _ _ => eq_refl) H (empty_shape _ (or_introl eq_refl)) keys_nil)
    as (prog & penv & c & genv & EP & EC & HA & _ & EF).
  destruct (prog_exec_from c_new W w maxu cap prog ins penv outs (or_introl eq_refl) HW Hw Hm Hc HA EP) as (c' & ids & ls & ec & EC' & EL & EE & HX).
  rewrite EC in EC'. injection EC' as <- <-. exists c, ls. rewrite single_convert. split; auto. split; auto.
  intros HC. exists ec. split; [exact EE|exact (HX HC)].
Qed.
Print Assumptions C64_fuse_partial.

(** A module with a single Split or Merge needs no condition on the layers. *)
Theorem C64_fuse_one_conversion_partial :
  forall W w maxu cap ep nodes ins outs,
  0 < W -> 0 < w -> 1000 <= maxu -> 2 <= cap ->
  (In w [8; 16; 32; 64] \/ Forall (fun n => fn_op n <> FSplit) nodes) ->
  Forall plain_node nodes -> NoDup (map fn_id nodes) -> length (filter is_conv nodes) <= 1 ->
  feval w nodes [] [] ins = Some (outs, []) ->
  exists c, f_convert maxu cap w (single ep nodes) = Some c /\ runs_correctly W w c ins outs.
Proof.
  intros W w maxu cap ep nodes ins outs HW Hw Hm Hc Hs Hp Hn H1 H.
  destruct (nodes_sim maxu cap w Hm Hc Hw [] nodes [] [] ins outs [] c_new [] [] [] Hs Hp Hn (fun _ _ => eq_refl) H (empty_shape _ (or_introl eq_refl)) keys_nil)
    as (prog & penv & c & genv & EP & EC & HA & HN & EF).
  destruct (prog_exec_from c_new W w maxu cap prog ins penv outs (or_introl eq_refl) HW Hw Hm Hc HA EP) as (c' & ids & ls & ec & EC' & EL & EE & HX).
  rewrite EC in EC'. injection EC' as <- <-. exists c. rewrite single_convert. split; auto.
  exists ec. split; [exact EE|]. apply HX. intros l Hl.
  pose proof (prog_convs_from c_new maxu cap w prog ins _ c genv ls (or_introl eq_refl) Hm Hc Hw HA EP EC EL l Hl) as HL.
  assert (E : sum_list (map fconv nodes) = length (filter is_conv nodes)).
  { clear. unfold fconv. induction nodes as [|n nodes IH]; auto. cbn [map filter]. change (sum_list (?a :: ?b)) with (a + sum_list b).
    rewrite IH. destruct (is_conv n); auto. }
  lia.
Qed.
Print Assumptions C64_fuse_one_conversion_partial.

(** ** Where it is false *)

Definition frun (m : fmodule) (i0 i1 : list mixed) : option (list pval) :=
  c <- f_convert 1000 2 8 m ;;
  ec <- ec_of_base mixed_ops c ;;
  '(o0, o1, _) <- ex2_run (pr:=mixed_gmw 8 8) ins_req ec (IScalar (pr:=mixed_gmw 8 8) i0) (IScalar (pr:=mixed_gmw 8 8) i1)
    (go_init (pr:=mixed_gmw 8 8) ec, 0, (go_init (pr:=mixed_gmw 8 8) ec, 1)) ;;
  match o0, o1 with IScalar a, IScalar b => Some (zip_with rec8 a b) | _, _ => None end.

Lemma frun_correct m c ins outs i0 i1 :
  f_convert 1000 2 8 m = Some c -> runs_correctly 8 8 c ins outs -> all3 (pshares 8) ins i0 i1 -> frun m i0 i1 = Some outs.
Proof.
  intros EC (ec & EE & HX) HI.
  destruct (HX _ ins_req _ ins_req_serves i0 i1 0 1 [] HI) as (o0 & o1 & s' & ER & HO).
  { rewrite app_nil_r. unfold requests. apply Forall_forall. intros n Hn. apply filter_In in Hn. destruct Hn as [_ Hn].
    apply negb_true_iff in Hn. apply Nat.eqb_neq in Hn. lia. }
  unfold frun. rewrite EC. cbn [obind]. rewrite EE. cbn [obind].
  match type of ER with ?e = _ => match goal with |- context [obind ?e' _] => change e' with e end end.
  rewrite ER. cbn [obind]. f_equal. apply shares_rec8. auto.
Qed.

Definition nd (id : nat) (ins offs : list nat) (op : fop) (p : Z) : fnode := FNode id ins offs op p.

(** The payload of constants is ignored: false becomes true. *)
Definition const_nodes : list fnode := [nd 0 [] [] FInput 0; nd 1 [] [] (FConstant (Some FtBool)) 0; nd 2 [0; 1] [] FXor 0; nd 3 [2] [] FOutput 0].

Theorem C64_constant_refuted :
  exists nodes ins outs c, NoDup (map fn_id nodes) /\ feval 8 nodes [] [] ins = Some (outs, []) /\
    f_convert 1000 2 8 (single 0 nodes) = Some c /\ ~ runs_correctly 8 8 c ins outs.
Proof.
  destruct (f_convert 1000 2 8 (single 0 const_nodes)) as [c|] eqn:EC; [|vm_compute in EC; discriminate].
  exists const_nodes, [PB true], [PB true], c. split; [repeat constructor; cbn; lia|]. split; [reflexivity|]. split; [exact EC|].
  intros H. eapply (frun_correct _ _ _ _ [MBool true] [MBool false] EC) in H.
  - vm_compute in H. discriminate.
  - apply rec8_shares; [reflexivity|repeat constructor|reflexivity].
Qed.
Print Assumptions C64_constant_refuted.

(** Offsets are ignored: every reader of a Split gets its first bit. *)
Definition offset_nodes : list fnode := [nd 0 [] [] FInput 0; nd 1 [0] [] FSplit 0; nd 2 [1] [1] FOutput 0].

Theorem C64_offset_refuted :
  exists nodes ins outs c, NoDup (map fn_id nodes) /\ feval 8 nodes [] [] ins = Some (outs, []) /\
    f_convert 1000 2 8 (single 0 nodes) = Some c /\ ~ runs_correctly 8 8 c ins outs.
Proof.
  destruct (f_convert 1000 2 8 (single 0 offset_nodes)) as [c|] eqn:EC; [|vm_compute in EC; discriminate].
  exists offset_nodes, [PA 2%Z], [PB true], c. split; [repeat constructor; cbn; lia|]. split; [reflexivity|]. split; [exact EC|].
  intros H. eapply (frun_correct _ _ _ _ [MArith 1%Z] [MArith 1%Z] EC) in H.
  - vm_compute in H. discriminate.
  - apply rec8_shares; [reflexivity|repeat constructor|reflexivity].
Qed.
Print Assumptions C64_offset_refuted.

(** Calls: the circuit 1 subtracts its inputs, the entry point calls it with its own
    inputs and outputs the result; the converted circuit subtracts the other way
    round. *)
Definition sub_nodes : list fnode := [nd 0 [] [] FInput 0; nd 1 [] [] FInput 0; nd 2 [0; 1] [] FSub 0; nd 3 [2] [] FOutput 0].
Definition call_nodes : list fnode := [nd 0 [] [] FInput 0; nd 1 [] [] FInput 0; nd 2 [0; 1] [] (FCall (Some 1)) 0; nd 3 [2] [] FOutput 0].

Theorem C64_call_refuted :
  exists ins outs c, feval 8 sub_nodes [] [] ins = Some (outs, []) /\
    f_convert 1000 2 8 (FModule (Some 0) (Some [FCircuit 1 sub_nodes; FCircuit 0 call_nodes])) = Some c /\
    ~ runs_correctly 8 8 c ins outs.
Proof.
  destruct (f_convert 1000 2 8 (FModule (Some 0) (Some [FCircuit 1 sub_nodes; FCircuit 0 call_nodes]))) as [c|] eqn:EC; [|vm_compute in EC; discriminate].
  exists [PA 5%Z; PA 3%Z], [PA 2%Z], c. split; [reflexivity|]. split; [reflexivity|].
  intros H. eapply (frun_correct _ _ _ _ [MArith 1%Z; MArith 1%Z] [MArith 4%Z; MArith 2%Z] EC) in H.
  - vm_compute in H. discriminate.
  - apply rec8_shares; [reflexivity|repeat constructor|reflexivity].
Qed.
Print Assumptions C64_call_refuted.

(** A module without its entry point converts without an error to the empty circuit. *)
Theorem C64_missing_entry_refuted :
  exists m ep cs c, fm_entry m = Some ep /\ fm_circuits m = Some cs /\ (forall f, In f cs -> fc_name f <> ep) /\
    f_convert 1000 2 8 m = Some c /\ c_gates c = [].
Proof.
  exists (FModule (Some 0) (Some [FCircuit 1 sub_nodes])), 0, [FCircuit 1 sub_nodes], c_new.
  split; [reflexivity|]. split; [reflexivity|]. split; [|split; [reflexivity|reflexivity]].
  intros f [<-|[]]. discriminate.
Qed.
Print Assumptions C64_missing_entry_refuted.

(** (x - y) * 1 + x, its lowest bit and that bit negated, with x = 200, y = 30. *)
Definition case_nodes : list fnode :=
  [nd 7 [] [] FInput 0; nd 3 [] [] FInput 0; nd 4 [7; 3] [] FSub 0; nd 5 [] [] (FConstant (Some FtInt32)) 1; nd 6 [4; 5] [] FMul 0;
   nd 8 [6; 7] [0; 0] FAdd 0; nd 9 [8] [] FSplit 0; nd 10 [9] [] FNot 0; nd 11 [8] [] FOutput 0; nd 12 [10] [] FOutput 0; nd 13 [9] [0] FOutput 0].

Example C64_case :
  Forall plain_node case_nodes /\ NoDup (map fn_id case_nodes) /\ length (filter is_conv case_nodes) = 1 /\
  feval 8 case_nodes [] [] [PA 200; PA 30]%Z = Some ([PA 114%Z; PB true; PB false], []) /\
  frun (single 0 case_nodes) [MArith 150; MArith 10]%Z [MArith 50; MArith 20]%Z = Some [PA 114%Z; PB true; PB false].
Proof.
  split; [repeat constructor|]. split; [repeat constructor; cbn; lia|]. split; [reflexivity|]. split; [reflexivity|]. vm_compute. reflexivity.
Qed.
