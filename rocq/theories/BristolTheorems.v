(** Property theorems about loading Bristol circuits: C16. *)
From Coq Require Import List Bool Arith Lia.
Require Import Verif.Prelude Verif.PreludeProofs Verif.GateModel Verif.CircuitModel
  Verif.CircuitSpec Verif.CircuitProofs Verif.CircuitProofs2 Verif.CircuitProofs3 Verif.CircuitCheck
  Verif.ProtocolModel Verif.BoolGmwModel Verif.BoolGmwSpec
  Verif.InlineModel Verif.InlineSpec Verif.InlineProofs Verif.InlineTheorems
  Verif.BristolSpec Verif.BristolProofs Verif.ExecCircuitSpec
  Verif.ExecModel Verif.ExecSpec Verif.ExecBoolSpec Verif.ExecTheorems.
Import ListNotations.

Lemma shape_acyclic l nin c : br_shape l nin c -> acyclic c.
Proof. intros H. exists (fun x => x). apply H. Qed.

Lemma shape_main nin c : br_shape LoadCircuit nin c -> main_ok bool_ops c /\ operands_ok c.
Proof.
  intros H. split.
  - split; [apply H|]. split; [eapply shape_acyclic; eauto|]. intros g x Hx.
    destruct (bs_gate _ _ _ H g x Hx) as [(_ & -> & Hp)|(_ & [[Hk Hp]|[Hk Hp]])].
    + rewrite Hp. split; auto.
    + destruct (parents c g); [discriminate|]. destruct Hk as [->| ->]; split; discriminate.
    + destruct (parents c g); [discriminate|]. destruct Hk as [->| ->]; split; discriminate.
  - intros g x Hx. destruct (bs_gate _ _ _ H g x Hx) as [(_ & -> & Hp)|(_ & [[Hk Hp]|[Hk Hp]])].
    + exact I.
    + destruct Hk as [->| ->]; auto.
    + destruct Hk as [->| ->]; auto.
Qed.

Lemma shape_sub nin c : br_shape LoadSub nin c -> callable bool_ops c /\ bool_arity_ok c.
Proof.
  intros H. split.
  - split; [|split].
    + split; [apply H|]. split; [eapply shape_acyclic; eauto|]. intros g x Hx.
      destruct (bs_gate _ _ _ H g x Hx) as [(_ & -> & Hp)|(_ & [[Hk Hp]|[Hk Hp]])].
      * rewrite Hp. split; auto.
      * destruct (parents c g); [discriminate|]. destruct Hk as [->| ->]; split; discriminate.
      * destruct (parents c g); [discriminate|]. destruct Hk as [->| ->]; split; discriminate.
    + apply H.
    + intros g x Hx. destruct (bs_gate _ _ _ H g x Hx) as [(_ & -> & Hp)|(_ & [[Hk Hp]|[Hk Hp]])];
        [|destruct Hk as [->| ->]|destruct Hk as [->| ->]]; exact I.
  - intros g x Hx. destruct (bs_gate _ _ _ H g x Hx) as [(_ & -> & Hp)|(_ & [[Hk Hp]|[Hk Hp]])].
    + rewrite Hp. simpl. lia.
    + destruct Hk as [->| ->]; auto.
    + destruct Hk as [->| ->]; rewrite Hp; simpl; auto.
Qed.

(** Lists of one-lane values. *)
Definition lane1 (l : list bool) : list (list bool) := map (fun b => [b]) l.

Lemma plain_valued c ins v : c_simd c = None -> plain_value c ins v ->
  valued bool_ops bool_gate_sem c (fun g => nth 0 (v g) false).
Proof.
  intros Hs Hv g x Hx Hsrc. destruct (Hv g x Hx) as [HL HV]. unfold c_lanes in *. rewrite Hs in *.
  destruct x as [[]| | |]; try discriminate; apply HV; lia.
Qed.

Lemma plain_inputs c nin ins v : c_simd c = None -> c_inputs c = seq 0 nin -> nin <= c_count c ->
  (forall g, g < nin -> nth_error (c_gates c) g = Some (BBase GInput)) ->
  length ins = nin -> plain_value c (lane1 ins) v ->
  map (fun g => nth 0 (v g) false) (c_inputs c) = ins.
Proof.
  intros Hs Hi Hn Hg Hlen Hv. rewrite Hi. apply (list_ext false).
  - rewrite map_length, seq_length. auto.
  - intros i Hil. rewrite map_length, seq_length in Hil.
    rewrite (nth_indep _ false (nth 0 (v 0) false)) by (rewrite map_length, seq_length; auto).
    rewrite (map_nth (fun g => nth 0 (v g) false)). rewrite seq_nth by auto. simpl.
    destruct (Hv i _ (Hg i Hil)) as [_ (j & J1 & J2)]. rewrite Hi in J1.
    assert (Hj : j < nin) by (rewrite <- (seq_length nin 0); apply nth_error_Some; congruence).
    rewrite (nth_error_nth' _ 0) in J1 by (rewrite seq_length; auto). rewrite seq_nth in J1 by auto.
    simpl in J1. injection J1 as ->. unfold lane1 in J2. rewrite nth_error_map in J2.
    destruct (nth_error ins i) as [b|] eqn:Eb; [|discriminate]. simpl in J2. injection J2 as <-.
    simpl. symmetry. apply nth_error_nth. auto.
Qed.

(** ** C16 *)

(** A Bristol circuit that has a meaning (every wire is written before it is
    read, gates have the right number of wires) and in which no gate overwrites
    its own operand is converted into a circuit with the same function, for both
    kinds of [load].  Missing for the full property: the two excluded cases, see
    the refutations below. *)
Theorem C16_bristol_circuit_partial :
  forall b, br_header_ok b -> br_wires_ok b -> br_no_self b ->
  forall ins outs, length ins = br_total_in b -> br_eval b ins = Some outs ->
  exists c, from_bristol bool_ops bool_from_br b LoadCircuit = Some (Some c) /\
    main_ok bool_ops c /\ operands_ok c /\ c_simd c = None /\
    length (c_inputs c) = br_total_in b /\ length (c_outputs c) = br_total_out b /\
    (forall v, plain_value c (lane1 ins) v -> map v (c_outputs c) = lane1 outs).
Proof.
  intros b H1 H2 H3 ins outs Hl He.
  destruct (from_bristol_spec b LoadCircuit ins outs H1 H2 H3 Hl He) as (c & E & HS & HO & HV).
  exists c. destruct (shape_main _ _ HS) as [A B]. split; auto. split; auto. split; auto.
  split; [apply HS|]. pose proof (bs_in _ _ _ HS) as Hin. simpl in Hin. split; [rewrite Hin; apply seq_length|].
  split; auto. intros v Hv. pose proof (bs_simd _ _ _ HS) as Hsimd.
  assert (Hin1 : map (fun g => nth 0 (v g) false) (c_inputs c) = ins).
  { apply (plain_inputs c (br_total_in b)); auto; [apply HS|]. intros g Hg.
    destruct (nth_error (c_gates c) g) as [x|] eqn:Ex.
    - destruct (bs_gate _ _ _ HS g x Ex) as [(_ & -> & _)|(Hge & _)]; auto. lia.
    - apply nth_error_None in Ex. pose proof (bs_nin _ _ _ HS). unfold c_count in *. lia. }
  specialize (HV _ (plain_valued c _ v Hsimd Hv) Hin1). simpl in HV. rewrite <- HV.
  unfold lane1. rewrite map_map. apply map_ext_in. intros o Ho.
  assert (Hog : exists x, nth_error (c_gates c) o = Some x).
  { destruct A as (Ha & _). apply api_api_wf in Ha. rewrite (aw_outputs _ _ Ha) in Ho.
    apply ids_where_In in Ho. destruct Ho as (x & Ex & _). eauto. }
  destruct Hog as (x & Ex). destruct (Hv o x Ex) as [HL _]. unfold c_lanes in HL. rewrite Hsimd in HL.
  destruct (v o) as [|y [|]]; try discriminate. auto.
Qed.
Print Assumptions C16_bristol_circuit_partial.

Theorem C16_bristol_sub_circuit_partial :
  forall b, br_header_ok b -> br_wires_ok b -> br_no_self b ->
  forall ins outs, length ins = br_total_in b -> br_eval b ins = Some outs ->
  exists c, from_bristol bool_ops bool_from_br b LoadSub = Some (Some c) /\
    callable bool_ops c /\ bool_arity_ok c /\
    length (c_scins c) = br_total_in b /\ length (c_scouts c) = br_total_out b /\
    (forall v, valued bool_ops bool_gate_sem c v -> map v (c_scins c) = ins ->
       map v (c_scouts c) = outs).
Proof.
  intros b H1 H2 H3 ins outs Hl He.
  destruct (from_bristol_spec b LoadSub ins outs H1 H2 H3 Hl He) as (c & E & HS & HO & HV).
  exists c. destruct (shape_sub _ _ HS) as [A B]. split; auto. split; auto. split; auto.
  pose proof (bs_in _ _ _ HS) as Hin. simpl in Hin. split; [rewrite Hin; apply seq_length|].
  split; auto.
Qed.
Print Assumptions C16_bristol_sub_circuit_partial.

(** Loading a Bristol circuit and executing it between two parties gives shares
    of the function value. *)
Theorem C16_bristol_execution_partial :
  forall W b, 0 < W -> br_header_ok b -> br_wires_ok b -> br_no_self b ->
  forall ins outs, length ins = br_total_in b -> br_eval b ins = Some outs ->
  exists c ec, from_bristol bool_ops bool_from_br b LoadCircuit = Some (Some c) /\
    ec_of_base bool_ops c = Some ec /\
    forall (Sv : Type) (req : Sv -> nat -> option (mul_triples * Sv)) J,
    serves req (bool_setup_ok W) J ->
    forall (i0 i1 : istore (bool_gmw W)), shares_of W None i0 i1 (lane1 ins) ->
    forall s0 s1 rest, J (requests ec ++ rest) s0 s1 ->
    exists o0 o1 st',
      ex2_run (pr:=bool_gmw W) req ec i0 i1
        ((go_init (pr:=bool_gmw W) ec, s0), (go_init (pr:=bool_gmw W) ec, s1)) = Some (o0, o1, st') /\
      shares_of W None o0 o1 (lane1 outs).
Proof.
  intros W b HW H1 H2 H3 ins outs Hl He.
  destruct (C16_bristol_circuit_partial b H1 H2 H3 ins outs Hl He) as (c & E & A & B & C & D & _ & F).
  assert (Hs : simd_ok W c) by (unfold simd_ok; rewrite C; exact I).
  destruct (C11_execution_computes_circuit W c HW A B Hs) as (ec & Eec & Hsh & HX).
  exists c, ec. split; auto. split; auto. intros Sv req J HJ i0 i1 Hsh01 s0 s1 rest Hj.
  rewrite C in HX.
  assert (Hlen1 : length (lane1 ins) = length (c_inputs c)) by (unfold lane1; rewrite map_length; congruence).
  destruct (HX Sv req J HJ i0 i1 (lane1 ins) Hsh01 Hlen1 _ _ s0 s1 rest Hsh Hsh Hj)
    as (v & o0 & o1 & go0' & go1' & s0' & s1' & Hv & Hrun & Hout & _).
  exists o0, o1, ((go0', s0'), (go1', s1')). split; auto. rewrite <- (F v Hv). auto.
Qed.
Print Assumptions C16_bristol_execution_partial.

(** ** When the conversion fails *)

Lemma wm_inputs {P G} (ops : gate_ops P G) l : forall n i (st : circuit G * list nat),
  Forall (fun m => m = 0 \/ m < c_count (fst st)) (snd st) ->
  let st' := br_inputs ops l n i st in
  Forall (fun m => m = 0 \/ m < c_count (fst st')) (snd st') /\ length (snd st') = length (snd st).
Proof.
  induction n as [|n IH]; intros i st H; [simpl; auto|]. cbn zeta. cbn [br_inputs].
  destruct (add_gate ops (fst st) (g_wrap ops (load_in l))) as [c1 id] eqn:E.
  assert (Hc : c_count c1 = S (c_count (fst st)) /\ id = c_count (fst st)).
  { injection E as <- <-. unfold c_count. simpl. rewrite app_length. simpl. split; lia. }
  destruct Hc as [Hc ->].
  specialize (IH (S i) (c1, upd i (c_count (fst st)) (snd st))). cbn zeta in IH. cbn [fst snd] in IH.
  rewrite upd_length in IH. apply IH. rewrite Hc.
  clear -H. remember (snd st) as l0. clear Heql0. revert i. induction H as [|m l0 Hm H IHl]; intros i; [destruct i; constructor|].
  destruct i as [|i]; cbn [upd]; constructor; auto; try lia.
  eapply Forall_impl; [|apply H]. simpl; intros; lia.
Qed.

Lemma br_map_out_iff id : forall outs wm,
  (br_map_out outs id wm = None <-> ~ Forall (fun w => w < length wm) outs) /\
  (forall wm', br_map_out outs id wm = Some wm' ->
     length wm' = length wm /\ forall K : nat -> Prop, K id -> Forall K wm -> Forall K wm').
Proof.
  induction outs as [|o r IH]; intros wm; simpl.
  - split; [split; [discriminate|intros H; exfalso; apply H; constructor]|].
    intros wm' E. injection E as <-. auto.
  - destruct (Nat.ltb_spec o (length wm)) as [Ho|Ho].
    + destruct (IH (upd o id wm)) as [I1 I2]. rewrite upd_length in I1, I2. split.
      * rewrite I1. split; intros H HF; apply H; [inversion HF; auto|constructor; auto].
      * intros wm' E. destruct (I2 wm' E) as [L K']. split; auto. intros K HK HF. apply K'; auto.
        clear -HK HF. revert o. induction HF; intros o; destruct o; simpl; constructor; auto.
    + split; [|discriminate]. split; auto. intros _ HF. inversion HF; subst. lia.
Qed.

Lemma br_wire_in_total {G} wm id : forall ins (c : circuit G),
  Forall (fun m => m = 0 \/ m < c_count c) wm -> id < c_count c ->
  (Forall (fun w => w < length wm) ins ->
     exists c', br_wire_in ins id wm c = Some (Some c') /\ c_count c' = c_count c) /\
  (~ Forall (fun w => w < length wm) ins -> br_wire_in ins id wm c = Some None).
Proof.
  induction ins as [|w r IH]; intros c HF Hid; simpl.
  - split; [eauto|]. intros H. exfalso. apply H. constructor.
  - destruct (nth_error wm w) as [m|] eqn:E.
    + assert (Hw : w < length wm) by (apply nth_error_Some; congruence).
      assert (Hm : m < c_count c).
      { rewrite Forall_forall in HF. apply nth_error_In in E. apply HF in E. lia. }
      destruct (add_wire_some c m id Hm Hid) as (c1 & Ec). rewrite Ec. cbn [obind].
      destruct (add_wire_spec _ _ _ _ Ec) as (Eg & _).
      assert (Hc1 : c_count c1 = c_count c) by (unfold c_count; rewrite Eg; auto).
      destruct (IH c1) as [I1 I2]; [rewrite Hc1; auto|rewrite Hc1; auto|]. rewrite Hc1 in I1. split.
      * intros H. inversion H; subst. auto.
      * intros H. apply I2. intros HF'. apply H. constructor; auto.
    + apply nth_error_None in E. split; auto. intros H. inversion H; subst. lia.
Qed.

Lemma Forall_lt_dec n l : {Forall (fun w => w < n) l} + {~ Forall (fun w => w < n) l}.
Proof. apply Forall_dec. intros w. apply lt_dec. Qed.

Lemma br_gates_total {P G} (ops : gate_ops P G) from : forall gs (c : circuit G) wm,
  Forall (fun m => m = 0 \/ m < c_count c) wm ->
  (Forall (fun g => Forall (fun w => w < length wm) (br_in g) /\
                    Forall (fun w => w < length wm) (br_out g)) gs ->
     exists c' wm', br_gates_loop ops from gs c wm = Some (Some (c', wm')) /\
       Forall (fun m => m = 0 \/ m < c_count c') wm' /\ length wm' = length wm) /\
  (~ Forall (fun g => Forall (fun w => w < length wm) (br_in g) /\
                      Forall (fun w => w < length wm) (br_out g)) gs ->
     br_gates_loop ops from gs c wm = Some None).
Proof.
  induction gs as [|g r IH]; intros c wm HF.
  - simpl. split; [eauto|]. intros H. exfalso. apply H. constructor.
  - cbn [br_gates_loop]. destruct (add_gate ops c (from (br_op g))) as [c1 id] eqn:E.
    assert (Hc : c_count c1 = S (c_count c) /\ id = c_count c).
    { injection E as <- <-. unfold c_count. simpl. rewrite app_length. simpl. split; lia. }
    destruct Hc as [Hc ->].
    destruct (br_map_out_iff (c_count c) (br_out g) wm) as [M1 M2].
    destruct (br_map_out (br_out g) (c_count c) wm) as [wm1|] eqn:Em.
    + destruct (M2 wm1 eq_refl) as [L K].
      assert (Hout : Forall (fun w => w < length wm) (br_out g)).
      { destruct (Forall_lt_dec (length wm) (br_out g)) as [|Hn]; auto. apply M1 in Hn. discriminate. }
      assert (HF1 : Forall (fun m => m = 0 \/ m < c_count c1) wm1).
      { apply K; [rewrite Hc; lia|]. eapply Forall_impl; [|apply HF]. simpl. intros. lia. }
      destruct (br_wire_in_total wm1 (c_count c) (br_in g) c1 HF1) as [W1 W2]; [lia|]. rewrite L in W1, W2.
      destruct (Forall_lt_dec (length wm) (br_in g)) as [Hin|Hin].
      * destruct (W1 Hin) as (c2 & E2 & Hc2). rewrite E2. cbn [obind].
        destruct (IH c2 wm1) as [I1 I2]; [rewrite Hc2; auto|]. rewrite L in I1, I2. split.
        -- intros H. inversion H; subst. auto.
        -- intros H. apply I2. intros HF'. apply H. constructor; auto.
      * rewrite (W2 Hin). cbn [obind]. split; auto. intros H. inversion H; subst. tauto.
    + split; auto. intros H. inversion H; subst.
      assert (Hn : ~ Forall (fun w => w < length wm) (br_out g)) by (apply M1; auto). tauto.
Qed.

Lemma br_outputs_total {P G} (ops : gate_ops P G) l : forall ws (c : circuit G),
  Forall (fun m => m = 0 \/ m < c_count c) ws -> exists c', br_outputs ops l ws c = Some c'.
Proof.
  induction ws as [|w r IH]; intros c H; simpl; [eauto|]. inversion H; subst.
  set (c1 := fst (add_gate ops c (g_wrap ops (load_out l)))).
  assert (Hc : c_count c1 = S (c_count c)) by (unfold c1, c_count; simpl; rewrite app_length; simpl; lia).
  destruct (add_wire_some c1 w (length (c_gates c))) as (c2 & E); [lia|unfold c_count in *; lia|].
  unfold c1 in E. cbn [fst add_gate] in E. rewrite E. cbn [obind]. apply IH.
  destruct (add_wire_spec _ _ _ _ E) as (Eg & _).
  assert (Hc2 : c_count c2 = S (c_count c)) by (unfold c_count in *; rewrite Eg; exact Hc).
  rewrite Hc2. eapply Forall_impl; [|eauto]. simpl. intros. lia.
Qed.

(** Exact conditions for the three outcomes, for every gate set. *)
Theorem C16_bristol_outcomes :
  forall (P G : Type) (ops : gate_ops P G) (from : br_kind -> G) b l,
  (from_bristol ops from b l = None <->
     bh_wires (bc_header b) < br_total_in b \/
     (br_wires_ok b /\ bh_wires (bc_header b) < br_total_out b)) /\
  (from_bristol ops from b l = Some None <->
     br_total_in b <= bh_wires (bc_header b) /\ ~ br_wires_ok b).
Proof.
  intros P G ops from b l. unfold from_bristol.
  destruct (Nat.leb_spec (br_total_in b) (bh_wires (bc_header b))) as [Hi|Hi]; cbn [oassert obind].
  2:{ split; split; try discriminate; auto; intros [H _]; lia. }
  destruct (br_inputs ops l (br_total_in b) 0 (c_new, repeat 0 (bh_wires (bc_header b)))) as [c0 wm0] eqn:E0.
  destruct (wm_inputs ops l (br_total_in b) 0 (c_new, repeat 0 (bh_wires (bc_header b)))) as [HF HL].
  { simpl. apply Forall_forall. intros m Hm. apply repeat_spec in Hm. auto. }
  cbn zeta in HF, HL. rewrite E0 in HF, HL. cbn [fst snd] in HF, HL. rewrite repeat_length in HL.
  destruct (br_gates_total ops from (bc_gates b) c0 wm0 HF) as [G1 G2]. rewrite HL in G1, G2.
  fold (br_wires_ok b) in G1, G2.
  assert (Hdec : br_wires_ok b \/ ~ br_wires_ok b).
  { unfold br_wires_ok. destruct (Forall_dec (fun g => Forall (fun w => w < bh_wires (bc_header b)) (br_in g) /\
                   Forall (fun w => w < bh_wires (bc_header b)) (br_out g))) with (l := bc_gates b) as [H|H]; auto.
    intros g. destruct (Forall_lt_dec (bh_wires (bc_header b)) (br_in g)), (Forall_lt_dec (bh_wires (bc_header b)) (br_out g));
      [left|right|right|right]; tauto. }
  destruct Hdec as [Hw|Hw].
  - destruct (G1 Hw) as (c1 & wm1 & E1 & HF1 & HL1). rewrite E1. cbn [obind].
    destruct (Nat.leb_spec (br_total_out b) (bh_wires (bc_header b))) as [Ho|Ho]; cbn [oassert obind].
    + destruct (br_outputs_total ops l (skipn (bh_wires (bc_header b) - br_total_out b) wm1) c1) as (c2 & E2).
      { rewrite <- (firstn_skipn (bh_wires (bc_header b) - br_total_out b) wm1) in HF1.
        apply Forall_app in HF1. tauto. }
      rewrite E2. cbn [obind]. split; split; try discriminate; [intros [H|[_ H]]; lia|tauto].
    + split; split; auto; try discriminate. tauto.
  - rewrite (G2 Hw). cbn [obind]. split; split; try discriminate; auto. intros [H|[H _]]; [lia|tauto].
Qed.
Print Assumptions C16_bristol_outcomes.

(** A header that announces fewer wires than inputs makes the conversion panic
    instead of returning an error. *)
Theorem C16_header_panic_refuted :
  exists b, from_bristol bool_ops bool_from_br b LoadCircuit = None.
Proof. exists (BrCircuit (BrHeader 0 1 [2] [1]) []). reflexivity. Qed.
Print Assumptions C16_header_panic_refuted.

(** A gate that overwrites its own operand is legal for the specification, but
    the converted circuit has a self-loop and admits no values. *)
Theorem C16_overwrite_refuted :
  exists b ins outs c,
    br_header_ok b /\ br_wires_ok b /\ length ins = br_total_in b /\ br_eval b ins = Some outs /\
    from_bristol bool_ops bool_from_br b LoadCircuit = Some (Some c) /\
    ~ (exists v, valued bool_ops bool_gate_sem c v).
Proof.
  set (b := BrCircuit (BrHeader 1 1 [1] [1]) [BrGate BrInv [0] [0]]).
  destruct (from_bristol bool_ops bool_from_br b LoadCircuit) as [[c|]|] eqn:E;
    try (vm_compute in E; discriminate).
  exists b, [true], [false], c. split; [split; vm_compute; auto|]. split.
  { constructor; [|constructor]. split; constructor; auto. }
  split; [reflexivity|]. split; [reflexivity|]. split; [exact E|].
  vm_compute in E. injection E as <-. intros (v & Hv). specialize (Hv 1 BInv eq_refl eq_refl).
  simpl in Hv. injection Hv as Hv. destruct (v 1); discriminate.
Qed.
Print Assumptions C16_overwrite_refuted.

(** A two-bit adder modulo 4 with a reused wire number and a fan-out gate. *)
Definition ex_bristol : br_circuit :=
  BrCircuit (BrHeader 5 8 [2; 2] [2])
    [BrGate BrXor [0; 2] [6]; BrGate BrAnd [0; 2] [4; 5]; BrGate BrXor [1; 3] [0];
     BrGate BrXor [0; 5] [7]; BrGate BrInv [4] [1]].

Example C16_case :
  br_header_ok ex_bristol /\ br_wires_ok ex_bristol /\ br_no_self ex_bristol /\
  br_eval ex_bristol [true; false; true; true] = Some [false; false] /\
  br_eval ex_bristol [true; true; false; true] = Some [true; false] /\
  match from_bristol bool_ops bool_from_br ex_bristol LoadCircuit with
  | Some (Some c) => c_outputs c = [9; 10] /\ c_count c = 11
  | _ => False
  end.
Proof.
  split; [split; vm_compute; lia|]. split; [repeat constructor|]. split.
  { repeat constructor; intros w; simpl; lia. }
  split; [reflexivity|]. split; [reflexivity|]. vm_compute. split; reflexivity.
Qed.
