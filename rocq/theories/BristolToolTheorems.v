(** C73: the tool that compiles Bristol files. *)
From Coq Require Import List Bool Arith Lia.
Require Import Verif.Prelude Verif.PreludeProofs Verif.GateModel Verif.CircuitModel Verif.CircuitSpec Verif.CircuitProofs Verif.CircuitProofs2 Verif.CircuitProofs3
  Verif.BoolGmwModel Verif.BoolGmwSpec Verif.InlineModel Verif.BristolSpec Verif.BristolProofs
  Verif.ProtocolModel Verif.ExecCircuitSpec Verif.ExecModel Verif.ExecSpec Verif.ExecBoolSpec Verif.ExecTheorems
  Verif.BristolTheorems Verif.ConnModel Verif.ConnSpec Verif.BuilderModel Verif.BuilderSpec Verif.BuilderProofs
  Verif.CbcModel Verif.CbcSpec Verif.CbcProofs Verif.CbcTheorems
  Verif.MultiModel Verif.MultiSpec Verif.MultiTheorems Verif.MultiExecSpec Verif.MultiExecProofs Verif.MultiExecProofs2 Verif.MultiExecTheorems
  Verif.CbcScModel Verif.CbcScProofs4 Verif.CbcScTheorems
  Verif.StaticModel Verif.StaticSpec Verif.StaticTheorems Verif.StaticExecProofs Verif.StaticExecTheorems Verif.BristolToolModel Verif.BristolToolProofs Verif.BristolToolProofs2 Verif.BristolToolProofs3 Verif.CallCountTheorems.
Import ListNotations.

(** Number of values per wire. *)
Definition lanes_of (simd : option nat) : nat := match simd with Some n => n | None => 1 end.
(** The values of lane [i]. *)
Definition lane (i : nat) (xs : list (list bool)) : list bool := map (fun x => nth i x false) xs.

(** Executing [ec] on shares of [nin] values gives shares of [nout] values, lane by
    lane those of [F]. *)
Definition executes (W : nat) (ec : ecirc bool_gate) (simd : option nat) (nin nout : nat) (F : list bool -> list bool) : Prop :=
  forall (Sv : Type) (req : Sv -> nat -> option (mul_triples * Sv)) J, serves req (bool_setup_ok W) J ->
  forall (i0 i1 : istore (bool_gmw W)) ins, shares_of W simd i0 i1 ins -> length ins = nin ->
  forall s0 s1 rest, J (requests ec ++ rest) s0 s1 ->
  exists o0 o1 st' outs,
    ex2_run (pr:=bool_gmw W) req ec i0 i1
      ((go_init (pr:=bool_gmw W) ec, s0), (go_init (pr:=bool_gmw W) ec, s1)) = Some (o0, o1, st') /\
    shares_of W simd o0 o1 outs /\
    length outs = nout /\ Forall (fun y => length y = lanes_of simd) outs /\
    forall i, i < lanes_of simd -> lane i outs = F (lane i ins).

(** What the compiled circuit says about itself is right: the number of triples that
    an execution uses, lanes and inputs. *)
Definition reports (x : exec_circuit) (ec : ecirc bool_gate) (simd : option nat) (nin : nat) : Prop :=
  x_int_count x = Some (sum_list (requests ec)) /\ x_simd_size x 0 = Some simd /\ x_input_count x = Some nin.

(** What is left to show about the values of a program. *)
Definition carries (cl : list (circuit bool_gate)) (h : list (gid * gid)) (simd : option nat) (nin nout : nat) (F : list bool -> list bool) : Prop :=
  forall ins v, plain_value (inline_all bool_ops cl h) ins v -> length ins = nin ->
    let outs := map v (c_outputs (inline_all bool_ops cl h)) in
    length outs = nout /\ Forall (fun y => length y = lanes_of simd) outs /\ forall i, i < lanes_of simd -> lane i outs = F (lane i ins).

Lemma program_executes W imax m cl h simd nin nout F geqb perm (dyn : bool) : 0 < W -> (forall x y, geqb x y = true <-> x = y) -> rearranges perm ->
  program W imax m cl h simd -> (exists n, n <= 2 /\ mc_map m = seq 0 n) ->
  (forall p k t, In (p, (S k, t)) h -> fst p = 0) ->
  (forall sc, sc < length (mc_map m) -> exists c, mc_get m sc = Some c /\ c_count c <> 0) ->
  (forall c, mc_get m 0 = Some c -> length (c_inputs c) = nin) ->
  carries cl h simd nin nout F ->
  exists x ec, (if dyn then Some (XDyn m) else x_precompute geqb imax perm (XDyn m)) = Some x /\ x_ec imax perm x = Some ec /\
    executes W ec simd nin nout F /\ reports x ec simd nin.
Proof.
  intros HW Hg HP PR Hmap Hfrom Hcnt Hnin HC. destruct dyn.
  - destruct (C55_calls_as_inlined_partial W imax m cl h simd perm HW PR HP) as (ec & E & Sh & X).
    pose proof E as E'. unfold ec_of_mc in E'. destruct (mc_get m 0) as [c0|] eqn:E0; [|discriminate]. cbn [obind] in E'.
    destruct (mc_layers bool_ops imax m perm) as [ls|] eqn:EL; [|discriminate]. cbn [obind] in E'.
    assert (Hei : length (ec_inputs ec) = nin) by (injection E' as <-; exact (Hnin c0 eq_refl)).
    exists (XDyn m), ec. split; auto. split; auto. split.
    + intros Sv req J HJ i0 i1 ins Hs Hl s0 s1 rest Hj.
      destruct (X Sv req J HJ i0 i1 ins Hs ltac:(congruence) _ _ s0 s1 rest Sh Sh Hj) as (v & o0 & o1 & g0 & g1 & t0 & t1 & Hv & Hr & Ho & _).
      exists o0, o1, ((g0, t0), (g1, t1)), (map v (c_outputs (inline_all bool_ops cl h))). split; [exact Hr|]. split; [exact Ho|]. exact (HC ins v Hv Hl).
    + destruct PR as [P1 P2 P3 P4 P5 P6]. unfold reports, x_int_count, x_simd_size, x_input_count. rewrite E0. cbn [obind].
      destruct (C13_calls_total _ _ bool_ops m imax h perm P2 P3 P4 HP) as (ec' & Ec & _ & Hsum). rewrite E in Ec. injection Ec as <-.
      rewrite (Hsum P5), (Hnin c0 eq_refl). split; auto. split; auto. f_equal.
      apply (po_simd _ _ _ (po_base _ _ _ _ P6) 0). rewrite <- P1. exact E0.
  - destruct (bt_static W imax m cl h simd perm HP PR Hmap Hfrom Hcnt) as (ls & HL & SP).
    destruct (C23_execution_partial W imax m cl h simd geqb perm ls HW Hg HP HL SP) as (s & ec & E1 & E2 & Sh & X).
    destruct (C23_exact_triples_partial W imax m cl h simd geqb perm ls HW Hg HP HL SP) as (s' & ec' & n & E1' & E2' & Hn & _ & Hsum & _).
    rewrite E1 in E1'. injection E1' as <-. rewrite E2 in E2'. injection E2' as <-.
    destruct (static_ec W imax m cl h simd geqb perm ls Hg HP HL SP) as (s' & ec' & c0 & A & B & G0 & AG & _).
    rewrite E1 in A. injection A as <-. rewrite E2 in B. injection B as <-.
    assert (Hei : length (ec_inputs ec) = nin) by (rewrite (ea_inputs _ _ AG); exact (Hnin c0 G0)).
    exists (XStatic s), ec. split; [cbn [x_precompute]; rewrite E1; reflexivity|]. split; auto. split.
    + intros Sv req J HJ i0 i1 ins Hs Hl s0 s1 rest Hj.
      destruct (X Sv req J HJ i0 i1 ins Hs ltac:(congruence) _ _ s0 s1 rest Sh Sh Hj) as (v & o0 & o1 & g0 & g1 & t0 & t1 & Hv & Hr & Ho & _).
      exists o0, o1, ((g0, t0), (g1, t1)), (map v (c_outputs (inline_all bool_ops cl h))). split; [exact Hr|]. split; [exact Ho|]. exact (HC ins v Hv Hl).
    + unfold reports, x_int_count, x_simd_size, x_input_count. rewrite Hn, Hsum. split; auto.
      pose proof (ea_simd _ _ AG 0) as Es. cbn [ec_multi ec_simd] in Es. rewrite G0 in Es.
      unfold ec_of_static in E2. destruct (st_views imax s false false) as [vs|]; [|discriminate]. cbn [obind] in E2.
      destruct (st_gate_counts s) as [cs|] eqn:Ec; [|discriminate]. cbn [obind] in E2. injection E2 as <-. cbn [ec_simd ec_inputs] in Es, Hei.
      split; [|f_equal; exact Hei].
      assert (Hg0 : exists d, st_get s 0 = Some d).
      { unfold st_gate_counts in Ec. destruct (C23_same_counts_partial bool_ops geqb imax m h perm ls Hg (sp_circuits _ _ _ _ _ _ _ SP) (sp_wires _ _ _ _ _ _ _ SP)
          (sp_wired _ _ _ _ _ _ _ SP) HP HL (sp_order _ _ _ _ _ _ _ SP) (sp_open _ _ _ _ _ _ _ SP) (sp_clean _ _ _ _ _ _ _ SP)
          (sp_callable _ _ _ _ _ _ _ SP) (sp_gates _ _ _ _ _ _ _ SP)) as (s' & Es' & Ecs & _).
        rewrite E1 in Es'. injection Es' as <-. unfold st_gate_counts in Ecs. rewrite Ec in Ecs. injection Ecs as ->.
        assert (Hlen : length (mc_map m) <> 0).
        { unfold mc_get in G0. destruct (mc_map m); [discriminate G0|discriminate]. }
        destruct (st_get s 0) as [d|] eqn:Ed; [eauto|]. exfalso.
        destruct (length (st_map s)) as [|q] eqn:Eq; cbn [seq omap] in Ec.
        - injection Ec as Ec. destruct (length (mc_map m)); [congruence|discriminate Ec].
        - rewrite Ed in Ec. discriminate Ec. }
      destruct Hg0 as (d & Ed). rewrite Ed in *. cbn [obind]. f_equal. rewrite Es.
      apply (po_simd _ _ _ (sp_base _ _ _ _ _ _ _ SP) 0). rewrite <- (sp_list _ _ _ _ _ _ _ SP). exact G0.
Qed.

Section Run.
Variables (b : br_circuit) (F : list bool -> list bool).
Hypothesis Ha : 0 < br_total_in b.
Hypothesis Hm : 0 < br_total_out b.
Hypothesis H1 : br_header_ok b.
Hypothesis H2 : br_wires_ok b.
Hypothesis H3 : br_no_self b.
Hypothesis HF : forall x, length x = br_total_in b -> br_eval b x = Some (F x).

Lemma load_ok l : exists c, from_bristol bool_ops bool_from_br b l = Some (Some c) /\ br_shape l (br_total_in b) c /\
  length (out_ids l c) = br_total_out b /\
  forall x w, length x = br_total_in b -> bval c w -> map w (in_ids l c) = x -> map w (out_ids l c) = F x.
Proof.
  destruct (from_bristol_spec b l (repeat false (br_total_in b)) _ H1 H2 H3 (repeat_length _ _) (HF _ (repeat_length _ _))) as (c & E & S & L & _).
  exists c. split; auto. split; auto. split; auto. intros x w Lx Hw Hx.
  destruct (from_bristol_spec b l x (F x) H1 H2 H3 Lx (HF x Lx)) as (c' & E' & _ & _ & V). rewrite E in E'. injection E' as <-. exact (V w Hw Hx).
Qed.

Lemma run_scalar W imax geqb perm dyn : 0 < W -> (forall x y, geqb x y = true <-> x = y) -> rearranges perm ->
  exists m, bt_circuit b None = Some m /\ exists x ec, bt_compile geqb imax perm b None dyn = Some x /\ x_ec imax perm x = Some ec /\
    executes W ec None (br_total_in b) (br_total_out b) F /\ reports x ec None (br_total_in b).
Proof.
  intros HW Hg HP. destruct (load_ok LoadCircuit) as (c & E & S & L & V).
  exists (MC [c] [0] cn_empty).
  assert (EC : bt_circuit b None = Some (MC [c] [0] cn_empty)).
  { unfold bt_circuit, bt_load. change (from_br_kind BAnd BXor BInv) with bool_from_br. rewrite E. reflexivity. }
  split; auto. unfold bt_compile. rewrite EC. cbn [obind].
  pose proof (one_program W imax _ c S) as PR. pose proof (bs_in _ _ _ S) as Ein. cbn [in_ids] in Ein.
  apply program_executes with (cl := [c]) (h := []); auto.
  - exists 1. split; auto.
  - intros p k t [].
  - intros [|sc] Hsc; [|cbn in Hsc; lia]. exists c. split; [reflexivity|]. pose proof (bs_nin _ _ _ S). lia.
  - intros d Hd. injection Hd as <-. rewrite Ein, seq_length. auto.
  - intros ins v Hv Hl outs. destruct PR as [P1 P2 P3 P4 P5 P6]. pose proof (po_base _ _ _ _ P6) as P7.
    destruct (C55_inlined_is_executable W imax _ [c] [] None HW ltac:(constructor; auto)) as (_ & _ & _ & _ & c0 & G0 & Ei & Eo).
    injection G0 as <-. unfold outs. rewrite Eo. change (c_outputs c) with (out_ids LoadCircuit c). split; [rewrite map_length; auto|].
    assert (Eid : forall g, flat_id [c] (0, g) = g) by (intros g; apply (flat_main_id W _ [] [c] None P1 P7)).
    split.
    + apply Forall_forall. intros y Hy. apply in_map_iff in Hy. destruct Hy as (g & <- & Hgo). cbn [out_ids] in Hgo.
      rewrite (aw_outputs _ _ (api_api_wf _ _ (bs_api _ _ _ S))) in Hgo. apply ids_where_In in Hgo. destruct Hgo as (x & Hx & _).
      pose proof (lane_length W _ [c] [] None P1 P2 P3 P5 P7 ins v Hv 0 c g x eq_refl Hx) as HL. rewrite Eid in HL. exact HL.
    + intros i Hi. unfold lane at 1. rewrite map_map.
      rewrite (map_ext _ (fun g => nth i (v (flat_id [c] (0, g))) false)) by (intros g; rewrite Eid; auto).
      apply V; [unfold lane; rewrite map_length; auto| |].
      * exact (lane_valued W imax _ [c] [] None HW P1 P2 P3 P4 P5 P7 ins v Hv i Hi 0 c eq_refl).
      * cbn [in_ids]. rewrite Ein.
        apply (lane_inputs W _ [c] [] None P1 P2 P3 P5 P7 ins v Hv i _ c eq_refl); auto.
        intros g Hgl. pose proof (bs_nin _ _ _ S) as HN. destruct (nth_error (c_gates c) g) as [x|] eqn:Ex; [|apply nth_error_None in Ex; unfold c_count in HN; lia].
        destruct (bs_gate _ _ _ S g x Ex) as [(_ & -> & _)|(Hc & _)]; [reflexivity|lia].
Qed.

Lemma run_simd W imax geqb perm dyn size : 0 < W -> (forall x y, geqb x y = true <-> x = y) -> rearranges perm -> size <> 0 -> size mod W = 0 ->
  exists m, bt_circuit b (Some size) = Some m /\ (Forall (fun c => c_count c <= imax) (mc_circuits m) ->
  exists x ec, bt_compile geqb imax perm b (Some size) dyn = Some x /\ x_ec imax perm x = Some ec /\
    executes W ec (Some size) (br_total_in b) (br_total_out b) F /\ reports x ec (Some size) (br_total_in b)).
Proof.
  intros HW Hg HP S1 S2. destruct (load_ok LoadSub) as (sub & E & Hsh & L & V). cbn [in_ids out_ids] in L, V.
  destruct (bristol_last b sub Ha E) as (o & Ho & Hoc & Hch). rewrite L in Ho, Hoc.
  pose proof (bs_in _ _ _ Hsh) as Hsi. cbn [in_ids] in Hsi. set (a := br_total_in b) in *. set (k := br_total_out b) in *.
  destruct (bt_build_main a k o sub size Ha Hm Hsi Ho) as (c & cn & Eb & HM & Hcn).
  exists (MC [c; c_set_simd sub size] [0; 1] cn).
  assert (EC : bt_circuit b (Some size) = Some (MC [c; c_set_simd sub size] [0; 1] cn)).
  { unfold bt_circuit, bt_load. change (from_br_kind BAnd BXor BInv) with bool_from_br. rewrite E. cbn [obind]. rewrite Eb. reflexivity. }
  split; auto. intros HI. cbn [mc_circuits] in HI. pose proof (Forall_inv HI) as I1. pose proof (Forall_inv (Forall_inv_tail HI)) as I2. cbn beta in I1, I2.
  change (c_count (c_set_simd sub size)) with (c_count sub) in I2.
  unfold bt_compile. rewrite EC. cbn [obind].
  pose proof (bt_program a k o size sub c cn Ha Hm Hsh Hoc Hch HM Hcn W imax S1 S2 I1 I2) as PR.
  set (cl := [c; c_set_simd sub size]) in *. set (h := bt_wires a k o) in *.
  assert (Hwi : forall p t, In (p, t) h <-> bt_wire a k o p t) by (intros p t; apply (bt_in_wires a k o)).
  apply program_executes with (cl := cl) (h := h); auto.
  - exists 2. split; auto.
  - intros p q t Ht. apply Hwi in Ht. inversion Ht; subst. reflexivity.
  - intros [|[|sc]] Hsc; [exists c|exists (c_set_simd sub size)|cbn in Hsc; lia]; (split; [reflexivity|]).
    + rewrite (main_count a k o size sub c Ha Hm Hoc HM). lia.
    + change (c_count sub <> 0). lia.
  - intros d Hd. injection Hd as <-. rewrite (main_inputs a k o size sub c Ha Hm Hoc HM), seq_length. auto.
  - intros ins v Hv Hl outs. destruct PR as [P1 P2 P3 P4 P5 P6]. pose proof (po_base _ _ _ _ P6) as P7.
    destruct (C55_inlined_is_executable W imax _ cl h (Some size) HW ltac:(constructor; eauto)) as (_ & _ & _ & _ & c0 & G0 & Ei & Eo).
    injection G0 as <-. unfold outs. rewrite Eo, (main_outputs a k o size sub c Ha Hm Hoc HM). split; [rewrite map_length, seq_length; auto|].
    assert (Eid : forall g, flat_id cl (0, g) = g) by (intros g; apply (flat_main_id W _ h cl (Some size) P1 P7)).
    split.
    + apply Forall_forall. intros y Hy. apply in_map_iff in Hy. destruct Hy as (g & <- & Hgo). apply in_seq in Hgo.
      pose proof (main_output a k o size sub c Ha Hm Hoc HM (g - (a + k)) ltac:(lia)) as Hx. replace (a + k + (g - (a + k))) with g in Hx by lia.
      pose proof (lane_length W _ cl h (Some size) P1 P2 P3 P5 P7 ins v Hv 0 c g _ eq_refl Hx) as HL. rewrite Eid in HL. exact HL.
    + intros i Hi. set (w := fun q g : nat => nth i (v (flat_id cl (q, g))) false).
      assert (Hwire : forall p t, bt_wire a k o p t -> w (fst t) (snd t) = w (fst p) (snd p)).
      { intros p t Ht. apply (lane_wire W imax _ cl h (Some size) HW P1 P2 P3 P4 P5 P7 ins v Hv i Hi). apply Hwi. auto. }
      assert (Hin : map (w 0) (seq 0 a) = lane i ins).
      { apply (lane_inputs W _ cl h (Some size) P1 P2 P3 P5 P7 ins v Hv i a c eq_refl); auto; [apply (main_inputs a k o size sub c Ha Hm Hoc HM)|].
        intros g Hgl. apply (main_input a k size c HM). auto. }
      pose proof (lane_valued W imax _ cl h (Some size) HW P1 P2 P3 P4 P5 P7 ins v Hv i Hi 1 (c_set_simd sub size) eq_refl) as Hv1.
      change (bval sub (w 1)) in Hv1.
      rewrite <- (V (lane i ins) (w 1)); [|unfold lane; rewrite map_length; auto|exact Hv1|].
      * unfold lane. rewrite map_map, Ho. apply map_seq_eq. intros j Hj.
        pose proof (main_output a k o size sub c Ha Hm Hoc HM j Hj) as Hx.
        pose proof (lane_gate W imax _ cl h (Some size) HW P1 P2 P3 P4 P5 P7 ins v Hv i Hi 0 c _ _ eq_refl Hx ltac:(discriminate)) as HG.
        rewrite (not_wired _ h cl P1 P2 P3 0 c _ _ eq_refl Hx eq_refl), app_nil_r, (bm_outs _ _ _ _ HM j Hj) in HG.
        cbn [map fst snd] in HG. change (Some (w 0 (a + j)) = Some (w 0 (a + k + j))) in HG. injection HG as HG.
        pose proof (Hwire _ _ (bw_out a k o j Hj)) as HO. cbn [fst snd] in HO. rewrite <- HO, HG. unfold w. rewrite Eid. reflexivity.
      * rewrite Hsi, <- Hin. apply map_seq_eq. intros j Hj. exact (Hwire _ _ (bw_in a k o j Hj)).
Qed.
End Run.

(** Compiling a Bristol circuit and executing the result gives, lane by lane, the
    value of the Bristol circuit: with or without [--simd] and with or without
    [--dyn-layers], which decides whether the layers are precomputed.  The circuit also
    reports its triples, lanes and inputs correctly.
    Gate indices are at most [imax]. *)
Theorem C73_bristol_tool :
  forall W b F simd dyn_layers imax geqb perm, 0 < W ->
  0 < br_total_in b -> 0 < br_total_out b -> br_header_ok b -> br_wires_ok b -> br_no_self b ->
  (forall x, length x = br_total_in b -> br_eval b x = Some (F x)) ->
  (forall size, simd = Some size -> size <> 0 /\ size mod W = 0) ->
  (forall x y, geqb x y = true <-> x = y) -> rearranges perm ->
  exists m, bt_circuit b simd = Some m /\
    (Forall (fun c => c_count c <= imax) (mc_circuits m) ->
     exists x ec, bt_compile geqb imax perm b simd dyn_layers = Some x /\ x_ec imax perm x = Some ec /\
       executes W ec simd (br_total_in b) (br_total_out b) F /\ reports x ec simd (br_total_in b) /\
       match x with XDyn m' => dyn_layers = true /\ m' = m | XStatic _ => dyn_layers = false end).
Proof.
  intros W b F simd dyn imax geqb perm HW Ha Hm H1 H2 H3 HF HS Hg HP.
  assert (HX : exists m, bt_circuit b simd = Some m /\
    (Forall (fun c => c_count c <= imax) (mc_circuits m) ->
     exists x ec, bt_compile geqb imax perm b simd dyn = Some x /\ x_ec imax perm x = Some ec /\
       executes W ec simd (br_total_in b) (br_total_out b) F /\ reports x ec simd (br_total_in b))).
  { destruct simd as [size|].
    - destruct (HS size eq_refl) as [S1 S2]. exact (run_simd b F Ha Hm H1 H2 H3 HF W imax geqb perm dyn size HW Hg HP S1 S2).
    - destruct (run_scalar b F Ha Hm H1 H2 H3 HF W imax geqb perm dyn HW Hg HP) as (m & E & X). exists m. auto. }
  destruct HX as (m & Em & HX). exists m. split; [exact Em|]. intros Hi. destruct (HX Hi) as (x & ec & Ex & Ec & HE & HR).
  exists x, ec. do 4 (split; [assumption|]). clear - Em Ex. unfold bt_compile in Ex. rewrite Em in Ex. cbn [obind] in Ex. destruct dyn.
  - injection Ex as <-. auto.
  - unfold x_precompute in Ex. destruct (st_precompute bool_ops geqb imax m perm); [|discriminate Ex]. cbn [obind] in Ex. injection Ex as <-. reflexivity.
Qed.
Print Assumptions C73_bristol_tool.

(** The two-bit adder of C16_case, compiled for 16 lanes: a main circuit of 8 gates
    that calls a circuit of 11 gates; and compiled without lanes.  Both also with
    precomputed layers. *)
Definition add2 (x : list bool) : list bool :=
  match x with
  | [x0; x1; y0; y1] => [xorb x0 y0; xorb (xorb x1 y1) (x0 && y0)]
  | _ => []
  end.
Example C73_case :
  0 < br_total_in ex_bristol /\ 0 < br_total_out ex_bristol /\ br_header_ok ex_bristol /\ br_wires_ok ex_bristol /\ br_no_self ex_bristol /\
  (forall x, length x = br_total_in ex_bristol -> br_eval ex_bristol x = Some (add2 x)) /\
  16 mod 8 = 0 /\
  option_map (fun m => (map c_count (mc_circuits m), mc_map m)) (bt_circuit ex_bristol (Some 16)) = Some ([8; 11], [0; 1]) /\
  option_map (fun m => (map c_count (mc_circuits m), mc_map m)) (bt_circuit ex_bristol None) = Some ([11], [0]) /\
  map (fun simd => match bt_compile bool_gate_eqb 100 (fun _ st => st) ex_bristol simd false with
    | Some (XStatic s) => map ss_count (st_subs s) | _ => [] end) [Some 16; None] = [[8; 11]; [11]].
Proof.
  destruct C16_case as (A1 & A2 & A3 & _). split; [vm_compute; lia|]. split; [vm_compute; lia|]. do 3 (split; [assumption|]). split.
  { intros [|x0 [|x1 [|y0 [|y1 [|]]]]] H; try discriminate H. destruct x0, x1, y0, y1; reflexivity. }
  split; [reflexivity|]. split; [vm_compute; reflexivity|]. split; vm_compute; reflexivity.
Qed.
