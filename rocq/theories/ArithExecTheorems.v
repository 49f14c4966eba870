(** C80: executions of arithmetic circuits. *)
From Coq Require Import List Bool Arith ZArith Lia.
Require Import Verif.Prelude Verif.PreludeProofs Verif.GateModel Verif.ProtocolModel Verif.CircuitModel Verif.CircuitSpec Verif.CircuitProofs Verif.CircuitProofs3 Verif.CircuitTheorems
  Verif.ArithGmwModel Verif.ArithGmwSpec Verif.ArithGmwProofs Verif.ArithGmwTheorems
  Verif.ExecModel Verif.ExecSpec Verif.ExecProofs Verif.ExecLayerProofs Verif.ExecCircuitProofs Verif.ExecTheorems Verif.Aby2Proofs Verif.Aby2ExecProofs Verif.MixedExecProofs.
Import ListNotations.
Open Scope nat_scope.

(** ** Specification *)

(** [v] assigns to every gate its value modulo [2^w] when the input gates carry [ins]. *)
Definition arith_value (w : Z) (c : circuit arith_gate) (ins : list Z) (v : nat -> Z) : Prop :=
  forall g gate, nth_error (c_gates c) g = Some gate ->
  match gate with
  | ABase GInput => exists i, nth_error (c_inputs c) i = Some g /\ nth_error ins i = Some (v g)
  | _ => arith_gate_sem w gate (map v (parents c g)) = Some (v g)
  end.

(** Every gate has the number of operands its kind needs; constants are ring elements. *)
Definition arith_operands (w : Z) (c : circuit arith_gate) : Prop :=
  forall g gate, nth_error (c_gates c) g = Some gate ->
  match gate with
  | ABase GInput => True
  | ABase (GConstant x) => in_ring w x
  | ABase (GConnectToMainFromSimd _) => False
  | AMul | AAdd | ASub => length (parents c g) = 2
  | _ => length (parents c g) = 1
  end.

(** Setup data for [n] multiplications: triples that reconstruct to (0,0,0) or (1,1,1),
    the only ones that give right products (C07). *)
Definition arith_setup_ok (w : Z) (n : nat) (st0 st1 : amts) : Prop :=
  exists m, n <= m /\ amts_wf m st0 /\ amts_wf m st1 /\ Forall2 (trivial_triple w) (amts_iter st0) (amts_iter st1).

(** ** Values *)

Section Values.
Variables (w : Z) (c : circuit arith_gate).
Hypothesis Hm : main_ok arith_ops c.
Hypothesis Ho : arith_operands w c.

Fixpoint aval (ins : list Z) (fuel g : nat) : Z :=
  match fuel with
  | 0 => 0%Z
  | S f =>
      match nth_error (c_gates c) g with
      | Some (ABase GInput) => match index_of (c_inputs c) g with Some i => nth i ins 0%Z | None => 0%Z end
      | Some gate => match arith_gate_sem w gate (map (aval ins f) (parents c g)) with Some x => x | None => 0%Z end
      | None => 0%Z
      end
  end.

Lemma inputs_nodup : NoDup (c_inputs c).
Proof.
  destruct Hm as (Ha & _). apply api_api_wf in Ha. rewrite (aw_inputs _ _ Ha).
  unfold ids_where. apply NoDup_filter. apply seq_NoDup.
Qed.

Lemma arith_value_exists ins : length ins = length (c_inputs c) -> exists v, arith_value w c ins v.
Proof.
  intros HL. pose proof inputs_nodup as Hnd. destruct Hm as (Ha & (rank & Hrank) & _). apply api_api_wf in Ha.
  assert (H : forall n g f f', rank g < n -> rank g < f -> rank g < f' -> aval ins f g = aval ins f' g).
  { induction n as [|n IH]; intros g f f' Hn Hf Hf'; [lia|]. destruct f as [|f]; [lia|]. destruct f' as [|f']; [lia|]. cbn [aval].
    destruct (nth_error (c_gates c) g) as [gate|]; auto.
    assert (E : map (aval ins f) (parents c g) = map (aval ins f') (parents c g)).
    { apply map_ext_in. intros p Hp. specialize (Hrank _ _ Hp). apply IH; lia. }
    rewrite E. reflexivity. }
  exists (fun g => aval ins (S (rank g)) g). intros g gate E. pose proof (Ho _ _ E) as HO.
  assert (EM : map (fun p => aval ins (S (rank p)) p) (parents c g) = map (aval ins (rank g)) (parents c g)).
  { apply map_ext_in. intros p Hp. specialize (Hrank _ _ Hp). apply (H (S (rank p))); lia. }
  assert (K : match gate with ABase GInput => False | _ => True end ->
    arith_gate_sem w gate (map (fun p => aval ins (S (rank p)) p) (parents c g)) = Some (aval ins (S (rank g)) g)).
  { intros Hk. rewrite EM. assert (EX : exists x, arith_gate_sem w gate (map (aval ins (rank g)) (parents c g)) = Some x).
    { destruct (parents c g) as [|p [|q [|]]]; destruct gate as [[]| | |]; cbn in *; try lia; try contradiction; eauto. }
    destruct EX as (x & EX). cbn [aval]. rewrite E. rewrite EX. destruct gate as [[]| | |]; try contradiction; reflexivity. }
  destruct gate as [[]| | |]; try exact (K I).
  assert (Hin : In g (c_inputs c)).
  { rewrite (aw_inputs _ _ Ha). apply ids_where_In. exists (ABase GInput). auto. }
  apply In_nth_error in Hin. destruct Hin as (i & Hi).
  assert (Hil : i < length ins) by (rewrite HL; apply nth_error_Some; congruence).
  exists i. split; [exact Hi|]. cbn [aval]. rewrite E, (index_of_some _ _ _ Hnd Hi). apply nth_error_nth'. exact Hil.
Qed.
End Values.

(** ** Executions *)

Section Run.
Variables (w : Z) (c : circuit arith_gate) (ls : list blayer).
Hypothesis Hw : (0 < w)%Z.
Hypothesis Hm : main_ok arith_ops c.
Hypothesis Ho : arith_operands w c.
Hypothesis Hs : c_simd c = None.
Notation pr := (arith_gmw w).
Notation ec := (ec_base c ls).
Variables (s0 s1 : list Z) (v : nat -> Z).
Hypothesis Hl : length s0 = length s1.
Hypothesis Hv : arith_value w c (shared_list w s0 s1) v.

Definition ARS (g : gid) (a b : Z) : Prop := shared w a b = v (snd g).
Definition AR (g : gid) (c0 c1 : cell pr) : Prop :=
  match c0, c1 with CS a, CS b => ARS g a b | _, _ => False end.
Definition AI (g : gid) (c0 c1 : cell pr) : Prop := True.

Lemma AR_kind g c0 c1 : AR g c0 c1 -> kind_ok (pr:=pr) ec g c0 /\ kind_ok (pr:=pr) ec g c1.
Proof. unfold AR, kind_ok. cbn [ec_base ec_simd]. rewrite Hs. destruct c0, c1; tauto. Qed.

Lemma AR_list ps : forall c0 c1, all3 AR ps c0 c1 ->
  exists x0 x1, omap (cell_scalar (pr:=pr)) c0 = Some x0 /\ omap (cell_scalar (pr:=pr)) c1 = Some x1 /\ all3 ARS ps x0 x1.
Proof.
  intros c0 c1 H. induction H as [|p a b ps c0 c1 Hp H (x0 & x1 & A & B & C)].
  - exists [], []. repeat split; auto. constructor.
  - destruct a as [a|]; [|destruct Hp]. destruct b as [b|]; [|destruct Hp].
    exists (a :: x0), (b :: x1). split; [apply omap_cons; auto|]. split; [apply omap_cons; auto|]. constructor; auto.
Qed.

Lemma ARS_map ps x0 x1 : all3 ARS ps x0 x1 -> length x0 = length ps /\ length x1 = length ps /\ shared_list w x0 x1 = map (fun g => v (snd g)) ps.
Proof.
  induction 1 as [|g a b ps x0 x1 H HA (A & B & C)]; cbn; auto. split; [lia|]. split; [lia|]. f_equal; auto.
Qed.

Lemma gate_of g gate : ec_gate ec g = Some gate -> fst g = 0 /\ nth_error (c_gates c) (snd g) = Some gate.
Proof. cbn [ec_base ec_gate]. destruct (Nat.eqb_spec (fst g) 0); [auto|discriminate]. Qed.

Lemma shared_nth i x : nth_error (shared_list w s0 s1) i = Some x ->
  exists a b, nth_error s0 i = Some a /\ nth_error s1 i = Some b /\ shared w a b = x.
Proof.
  revert i. revert Hl. clear. revert s1. induction s0 as [|a l IH]; intros [|b m] HL i E; try discriminate; [destruct i; discriminate|].
  destruct i as [|i]; cbn in E.
  - injection E as E. exists a, b. auto.
  - apply (IH m); auto.
Qed.

Lemma arith_ni_sound : ni_sound (pr:=pr) arith_ops ec AR AI (IScalar (pr:=pr) s0) (IScalar (pr:=pr) s1).
Proof.
  intros g gate cur0 cur1 ps0 ps1 Hg Hi K0 K1 _ HA.
  change (@ec_gate (p_gate pr) ec g) with (@ec_gate arith_gate ec g) in Hg. destruct (gate_of g gate Hg) as [F0 Eg].
  pose proof (Hv _ _ Eg) as HV. pose proof (Ho _ _ Eg) as HO.
  change (@ec_parents (p_gate pr) ec g) with (map (pair 0) (parents c (snd g))) in HA.
  enough (HE : exists r0 r1 : Z,
    eval_cell (pr:=pr) 0 ec (ec_main_simd (pr:=pr) ec) (IScalar (pr:=pr) s0) g gate cur0 ps0 = Some (CS (pr:=pr) r0) /\
    eval_cell (pr:=pr) 1 ec (ec_main_simd (pr:=pr) ec) (IScalar (pr:=pr) s1) g gate cur1 ps1 = Some (CS (pr:=pr) r1) /\ ARS g r0 r1).
  { destruct HE as (r0 & r1 & E0 & E1 & HR). exists (CS (pr:=pr) r0), (CS (pr:=pr) r1).
    destruct (AR_kind g (CS (pr:=pr) r0) (CS (pr:=pr) r1) HR). auto. }
  assert (HS : @ec_simd (p_gate pr) ec (fst g) = None) by exact Hs.
  assert (Hms : ec_main_simd (pr:=pr) ec = false).
  { unfold ec_main_simd. change (@ec_simd (p_gate pr) ec 0) with (c_simd c). rewrite Hs. reflexivity. }
  rewrite Hms.
  destruct (AR_list _ _ _ HA) as (x0 & x1 & X0 & X1 & HX). destruct (ARS_map _ _ _ HX) as (L0 & L1 & SX). rewrite map_length in L0, L1.
  rewrite map_map in SX. change (shared_list w x0 x1 = map v (parents c (snd g))) in SX.
  assert (HLoc : arith_local_gate gate -> arith_gate_sem w gate (map v (parents c (snd g))) = Some (v (snd g)) -> arith_input_size gate <= length x0 ->
    exists r0 r1, arith_eval_ni w 0 gate x0 = Some r0 /\ arith_eval_ni w 1 gate x1 = Some r1 /\ ARS g r0 r1).
  { intros A B C. destruct (C08_arith_local_gate w gate x0 x1) as (r0 & r1 & R0 & R1 & R2); [lia|exact A|congruence|exact C|].
    exists r0, r1. split; [exact R0|]. split; [exact R1|]. unfold ARS. rewrite SX in R2. rewrite B in R2.
    apply (f_equal (fun o => match o with Some z => z | None => 0%Z end)) in R2. symmetry. exact R2. }
  destruct gate as [b| | |].
  2:{ discriminate. }
  1: destruct b as [ | | | | |sel| |k| ].
  2:{ destruct HV as (i & Hi1 & Hn). destruct (shared_nth _ _ Hn) as (a & b & A & B & C). exists a, b.
      unfold eval_cell. cbn [p_as_base arith_gmw arith_as_base]. rewrite F0. cbn [Nat.eqb oassert obind].
      change (@ec_inputs (p_gate pr) ec) with (c_inputs c). rewrite (index_of_some _ _ _ (inputs_nodup c Hm) Hi1). cbn [obind].
      change (@nth_error (p_share pr) s0 i) with (@nth_error Z s0 i). change (@nth_error (p_share pr) s1 i) with (@nth_error Z s1 i).
      rewrite A, B. split; [reflexivity|]. split; [reflexivity|]. exact C. }
  7:{ unfold kind_ok in K0, K1. rewrite HS in K0, K1. destruct cur0 as [u0|]; [|destruct K0]. destruct cur1 as [u1|]; [|destruct K1].
      exists (arith_share_constant 0 u0 k), (arith_share_constant 1 u1 k). unfold eval_cell. cbn [p_as_base arith_gmw arith_as_base]. rewrite HS.
      split; [reflexivity|]. split; [reflexivity|]. unfold ARS. rewrite (C08_arith_constant w u0 u1 k HO).
      destruct (map v (parents c (snd g))); cbn in HV; congruence. }
  5:{ destruct HO. }
  all: destruct HLoc as (r0 & r1 & R0 & R1 & R2); [exact I|exact HV|cbn; lia|];
    exists r0, r1; unfold eval_cell; cbn [p_as_base arith_gmw arith_as_base]; rewrite HS;
    change (p_eval_ni pr) with (arith_eval_ni w); split; [|split; [|exact R2]];
    [rewrite X0; cbn [obind]; rewrite R0; reflexivity|rewrite X1; cbn [obind]; rewrite R1; reflexivity].
Qed.

Lemma mul_pairs gs : forall si0 si1, (forall g, In g gs -> ec_gate ec g = Some AMul) ->
  all3 ARS (concat (map (ec_parents ec) gs)) si0 si1 ->
  exists ps0 ps1, si0 = flat_zpairs ps0 /\ si1 = flat_zpairs ps1 /\ length ps0 = length gs /\ length ps1 = length gs /\
    mul_of_pairs w ps0 ps1 = map (fun g => v (snd g)) gs.
Proof.
  induction gs as [|g gs IH]; intros si0 si1 H HA.
  - apply all3_nil_inv in HA. destruct HA as [-> ->]. exists [], []. repeat split; auto.
  - destruct (gate_of g AMul) as [F0 Eg]; [apply H; cbn; auto|]. pose proof (Ho _ _ Eg) as HO. pose proof (Hv _ _ Eg) as HV. cbn beta iota in HO, HV.
    cbn [map concat] in HA. change (ec_parents ec g) with (map (pair 0) (parents c (snd g))) in HA.
    destruct (parents c (snd g)) as [|p [|q [|]]]; try discriminate. cbn [map app] in HA, HV.
    destruct (all3_cons_inv _ _ _ _ _ HA) as (a0 & a1 & r0 & r1 & -> & -> & Rp & HA1).
    destruct (all3_cons_inv _ _ _ _ _ HA1) as (b0 & b1 & t0 & t1 & -> & -> & Rq & HA2).
    destruct (IH t0 t1) as (ps0 & ps1 & -> & -> & L0 & L1 & E); [intros; apply H; cbn; auto|exact HA2|].
    exists ((a0, b0) :: ps0), ((a1, b1) :: ps1). split; [reflexivity|]. split; [reflexivity|]. split; [cbn; lia|]. split; [cbn; lia|].
    unfold mul_of_pairs in *. cbn [zip_with map fst snd]. f_equal; [|exact E].
    unfold ARS, shared in Rp, Rq. cbn [snd] in Rp, Rq. cbn [arith_gate_sem] in HV.
    apply (f_equal (fun o => match o with Some z => z | None => 0%Z end)) in HV. rewrite <- HV, <- Rp, <- Rq.
    apply Z.mul_mod. apply Z.pow_nonzero; lia.
Qed.

Lemma mul_gates gs : (forall g, In g gs -> ec_gate ec g = Some AMul) -> omap (ec_gate ec) gs = Some (repeat AMul (length gs)).
Proof.
  induction gs as [|g gs IH]; intros H; auto. cbn [omap]. rewrite H by (cbn; auto). cbn [obind].
  rewrite IH by (intros; apply H; cbn; auto). reflexivity.
Qed.

Lemma shares_intro gs : forall o0 o1, length o0 = length gs -> length o1 = length gs ->
  shared_list w o0 o1 = map (fun g => v (snd g)) gs -> all3 ARS gs o0 o1.
Proof.
  induction gs as [|g gs IH]; intros [|a o0] [|b o1] L0 L1 E; try discriminate; [constructor|].
  cbn in E. injection E as E1 E2. constructor; [exact E1|]. apply IH; auto.
Qed.

Lemma firstn_forall2 {A B} (P : A -> B -> Prop) n : forall l m, Forall2 P l m -> Forall2 P (firstn n l) (firstn n m).
Proof. induction n; intros l m H; cbn; [constructor|]. destruct H; constructor; auto. Qed.

Lemma arith_int_sound l : (forall sc simd b, In (sc, simd, b) l -> simd = None) -> (forall g, In g (el_int l) -> ec_gate ec g = Some AMul) ->
  int_sound (pr:=pr) ec AR AI (arith_setup_ok w) l.
Proof.
  intros HL Hg st0 st1 sg dg so0 so1 si0 si1 do0 do1 di0 di1 HK Hsg Hdg HO HI HD HDI.
  destruct (el_scalar_all l HL) as (A & B & C). rewrite A in *. rewrite B in *. rewrite C in HK.
  change (omap (@ec_gate arith_gate ec) (el_int l) = Some sg) in Hsg. rewrite (mul_gates _ Hg) in Hsg. injection Hsg as <-.
  change (all3 ARS (concat (map (@ec_parents arith_gate ec) (el_int l))) si0 si1) in HI.
  destruct (mul_pairs _ _ _ Hg HI) as (ps0 & ps1 & -> & -> & L0 & L1 & E).
  destruct HK as (m & Hm' & W0 & W1 & HT).
  destruct (C07_mul_layer_partial w ps0 ps1 (length (el_int l)) m st0 st1 L0 L1 Hm' W0 W1 (firstn_forall2 _ _ _ _ HT))
    as (o0 & o1 & R0 & R1 & EL & LO0 & LO1 & SO & _).
  exists o0, o1, [], []. split.
  - unfold arith_layer in EL. unfold pair_layer. change (p_compute_msg pr) with (arith_compute_msg w). change (p_eval_int pr) with (arith_eval_int w).
    change (p_simd_support pr) with false. unfold arith_compute_msg in *.
    destruct (arith_msg_loop w (repeat AMul (length (el_int l))) (amts_iter st0) (flat_zpairs ps0)) as [[d0 e0]|]; [|discriminate]. cbn [obind] in *.
    destruct (arith_msg_loop w (repeat AMul (length (el_int l))) (amts_iter st1) (flat_zpairs ps1)) as [[d1 e1]|]; [|discriminate]. cbn [obind] in *.
    unfold arith_eval_int in *. cbn [am_e am_d] in *.
    destruct (amts_remove_first st0 (length e0)) as [[q0 u0]|]; [|discriminate]. cbn [obind] in *.
    destruct (amts_remove_first st1 (length e1)) as [[q1 u1]|]; [|discriminate]. cbn [obind] in *.
    apply (f_equal (fun o => match o with Some (x, _) => Some (x, (@nil (list Z), @nil (list Z))) | None => None end)) in EL. exact EL.
  - split; [|constructor]. change (all3 ARS (el_int l) o0 o1). apply shares_intro; auto. rewrite SO. exact E.
Qed.

Lemma sched_layers Live Todo lys : sched_ok arith_ops ec Live Todo lys ->
  forall l, In l lys -> (forall sc simd b, In (sc, simd, b) l -> simd = None) /\ (forall g, In g (el_int l) -> ec_gate ec g = Some AMul).
Proof.
  revert Live Todo. induction lys as [|l lys IH]; intros Live Todo HS x Hx; [destruct Hx|].
  destruct HS as [HL HS]. destruct Hx as [<-|Hx]; [|eapply IH; eauto]. split.
  - intros sc simd b Hin. destruct (lo_simd _ _ _ _ _ HL sc simd b Hin) as [E _]. rewrite <- E. exact Hs.
  - intros g Hg. destruct (lo_int _ _ _ _ _ HL g Hg) as ((gate & A & B) & _). destruct gate as [[]| | |]; try discriminate. exact A.
Qed.

Lemma arith_run {Sv} (req : Sv -> nat -> option (amts * Sv)) J : serves req (arith_setup_ok w) J ->
  length s0 = length (c_inputs c) ->
  sched_ok arith_ops ec (fun _ => False) (fun g => fst g = 0) (ec_layers ec) ->
  forall t0 t1 rest, J (requests ec ++ rest) t0 t1 ->
  exists o0 o1 st, ex2_run (pr:=pr) req ec (IScalar (pr:=pr) s0) (IScalar (pr:=pr) s1) ((go_init (pr:=pr) ec, t0), (go_init (pr:=pr) ec, t1)) =
      Some (IScalar (pr:=pr) o0, IScalar (pr:=pr) o1, st) /\
    length o0 = length o1 /\ shared_list w o0 o1 = map v (c_outputs c).
Proof.
  intros HJ HL HS t0 t1 rest Hj. pose proof (sched_layers _ _ _ HS) as HSL.
  assert (HL1 : length s1 = length (c_inputs c)) by (rewrite <- Hl; exact HL).
  destruct (ex2_run_sound (pr:=pr) arith_ops ec AR AI AR_kind req (arith_setup_ok w) J HJ (IScalar (pr:=pr) s0) (IScalar (pr:=pr) s1)
     (fun _ => False) (fun g => fst g = 0) (go_init (pr:=pr) ec) (go_init (pr:=pr) ec) t0 t1 rest arith_ni_sound HL HL1)
    as (o0 & o1 & a & b & d & e & E & HR & _).
  - intros l Hin. destruct (HSL l Hin) as [A B]. split; [apply arith_int_sound; auto|].
    destruct (el_scalar_all l A) as (X & Y & _). split.
    + split; intros g p Hg Hp; [exact Hs|]. rewrite Y in Hg. destruct Hg.
    + intros _. rewrite Y. reflexivity.
  - exact HS.
  - constructor; [apply (base_shape_init (pr:=pr))|apply (base_shape_init (pr:=pr))|intros g []|intros; exact I].
  - exact Hj.
  - change (@ec_simd (p_gate pr) ec 0) with (c_simd c) in HR. rewrite Hs in HR.
    destruct o0 as [o0|]; [|destruct HR]. destruct o1 as [o1|]; [|destruct HR].
    exists o0, o1. eexists. split; [exact E|]. change (all3 ARS (map (pair 0) (c_outputs c)) o0 o1) in HR.
    destruct (ARS_map _ _ _ HR) as (A & B & C). rewrite map_map in C. split; [exact (eq_trans A (eq_sym B))|exact C].
Qed.
End Run.

(** Two parties that execute an arithmetic circuit on additive shares get shares of the
    values of its outputs.  Missing: triples other than those of C07. *)
Theorem C80_execution_partial :
  forall w c, (0 < w)%Z -> main_ok arith_ops c -> arith_operands w c -> c_simd c = None ->
  exists ec, ec_of_base arith_ops c = Some ec /\
  forall s0 s1, length s0 = length (c_inputs c) -> length s1 = length (c_inputs c) ->
  exists v, arith_value w c (shared_list w s0 s1) v /\
  forall (Sv : Type) (req : Sv -> nat -> option (amts * Sv)) J, serves req (arith_setup_ok w) J ->
  forall t0 t1 rest, J (requests ec ++ rest) t0 t1 ->
  exists o0 o1 st,
    ex2_run (pr:=arith_gmw w) req ec (IScalar (pr:=arith_gmw w) s0) (IScalar (pr:=arith_gmw w) s1)
      ((go_init (pr:=arith_gmw w) ec, t0), (go_init (pr:=arith_gmw w) ec, t1)) = Some (IScalar (pr:=arith_gmw w) o0, IScalar (pr:=arith_gmw w) o1, st) /\
    length o0 = length o1 /\ shared_list w o0 o1 = map v (c_outputs c).
Proof.
  intros w c Hw Hm Ho Hs. destruct (base_sched arith_ops c Hm) as (ls & _ & Eec & _ & _ & HS); [congruence|auto|].
  exists (ec_base c ls). split; [exact Eec|]. intros s0 s1 L0 L1.
  destruct (arith_value_exists w c Hm Ho (shared_list w s0 s1)) as (v & Hv).
  { unfold shared_list. rewrite zip_with_length, L0, L1. apply Nat.min_id. }
  exists v. split; [exact Hv|]. intros Sv req J HJ t0 t1 rest Hj.
  apply (arith_run w c ls Hw Hm Ho Hs s0 s1 v ltac:(congruence) Hv req J HJ L0 HS t0 t1 rest Hj).
Qed.
Print Assumptions C80_execution_partial.

(** mul_triple/arithmetic/insecure_provider.rs 24-26 [request_mts]; the provider has no
    state. *)
Definition arith_insecure (_ : unit) (n : nat) : option (amts * unit) := Some (amts_zeros n, tt).

(** With the insecure provider, which the tests use, all outputs are right. *)
Theorem C80_insecure_provider :
  forall w c, (0 < w)%Z -> main_ok arith_ops c -> arith_operands w c -> c_simd c = None ->
  exists ec, ec_of_base arith_ops c = Some ec /\
  forall s0 s1, length s0 = length (c_inputs c) -> length s1 = length (c_inputs c) ->
  exists v o0 o1 st, arith_value w c (shared_list w s0 s1) v /\
    ex2_run (pr:=arith_gmw w) arith_insecure ec (IScalar (pr:=arith_gmw w) s0) (IScalar (pr:=arith_gmw w) s1)
      ((go_init (pr:=arith_gmw w) ec, tt), (go_init (pr:=arith_gmw w) ec, tt)) = Some (IScalar (pr:=arith_gmw w) o0, IScalar (pr:=arith_gmw w) o1, st) /\
    additive_reconstruct w o0 o1 = map v (c_outputs c).
Proof.
  intros w c Hw Hm Ho Hs. destruct (C80_execution_partial w c Hw Hm Ho Hs) as (ec & Eec & R). exists ec. split; [exact Eec|].
  intros s0 s1 L0 L1. destruct (R s0 s1 L0 L1) as (v & Hv & RR). exists v.
  destruct (RR unit arith_insecure (fun _ _ _ => True)) with (t0 := tt) (t1 := tt) (rest := @nil nat) as (o0 & o1 & st & E & _ & S); [|exact I|].
  - intros n ns [] [] _. exists (amts_zeros n), (amts_zeros n), tt, tt. split; [reflexivity|]. split; [reflexivity|]. split; [|exact I].
    assert (W : amts_wf n (amts_zeros n)) by (unfold amts_wf, amts_zeros; cbn [as_a as_b as_c]; rewrite !repeat_length; auto).
    exists n. split; [lia|]. split; [exact W|]. split; [exact W|]. rewrite zeros_iter. clear.
    induction n; cbn; constructor; auto. exists 0%Z. unfold shared. cbn [at_a at_b at_c]. change (0 + 0)%Z with 0%Z. rewrite Zmod_0_l. auto.
  - exists o0, o1, st. auto.
Qed.
Print Assumptions C80_insecure_provider.

(** x * y + 7. *)
Definition ex_arith : option (circuit arith_gate) :=
  let '(c, x) := add_gate arith_ops c_new (ABase GInput) in
  let '(c, y) := add_gate arith_ops c (ABase GInput) in
  '(c, m) <- add_wired_gate arith_ops c AMul [x; y] ;;
  let '(c, k) := add_gate arith_ops c (ABase (GConstant 7%Z)) in
  '(c, s) <- add_wired_gate arith_ops c AAdd [m; k] ;;
  '(c, _) <- add_wired_gate arith_ops c (ABase GOutput) [s] ;;
  Some c.

(** A provider of valid triples, 2 * 3 = 6. *)
Definition valid_provider (party : bool) (n : nat) : option (amts * bool) :=
  Some (if party then amts_zeros n else AMTS (repeat 2%Z n) (repeat 3%Z n) (repeat 6%Z n), party).

(** Compile and execute a circuit, the output shares. *)
Definition arith_run_of {Sv} (w : Z) (req : Sv -> nat -> option (amts * Sv)) (oc : option (circuit arith_gate)) (s0 s1 : list Z) (t0 t1 : Sv)
  : option (list Z * list Z) :=
  c <- oc ;;
  ec <- ec_of_base arith_ops c ;;
  '(o0, o1, _) <- ex2_run (pr:=arith_gmw w) req ec (IScalar (pr:=arith_gmw w) s0) (IScalar (pr:=arith_gmw w) s1)
      ((go_init (pr:=arith_gmw w) ec, t0), (go_init (pr:=arith_gmw w) ec, t1)) ;;
  match o0, o1 with IScalar l0, IScalar l1 => Some (l0, l1) | _, _ => None end.

(** False for other valid triples: 1 * 1 + 7 gives another result than 8. *)
Theorem C80_execution_refuted :
  exists o0 o1,
    (forall n t u, valid_provider false n = Some (t, false) -> valid_provider true n = Some (u, true) ->
       Forall2 (atriple_ok 8) (amts_iter t) (amts_iter u)) /\
    arith_run_of 8 valid_provider ex_arith [1%Z; 1%Z] [0%Z; 0%Z] false true = Some (o0, o1) /\
    shared_list 8 o0 o1 <> [8%Z].
Proof.
  assert (E : exists o0 o1, arith_run_of 8 valid_provider ex_arith [1%Z; 1%Z] [0%Z; 0%Z] false true = Some (o0, o1) /\ shared_list 8 o0 o1 <> [8%Z]).
  { eexists _, _. split; [vm_compute; reflexivity|]. vm_compute. discriminate. }
  destruct E as (o0 & o1 & E & N). exists o0, o1. split; [|split; [exact E|exact N]].
  clear. intros n t u A B. unfold valid_provider in A, B.
  assert (A' : t = AMTS (repeat 2%Z n) (repeat 3%Z n) (repeat 6%Z n)) by congruence. assert (B' : u = amts_zeros n) by congruence. subst t u.
  rewrite zeros_iter. unfold amts_iter. cbn [as_a as_b as_c]. clear. induction n as [|n IH]; cbn [repeat zip_with]; constructor; [reflexivity|exact IH].
Qed.
Print Assumptions C80_execution_refuted.

Example C80_case :
  match ex_arith with Some c => arith_operands 8 c /\ c_simd c = None | None => False end /\
  match arith_run_of 8 arith_insecure ex_arith [250%Z; 3%Z] [10%Z; 2%Z] tt tt with
  | Some (o0, o1) => additive_reconstruct 8 o0 o1 = [27%Z]
  | None => False
  end.
Proof.
  split; [|vm_compute; reflexivity]. 
  assert (E : match ex_arith with Some c => c_gates c = [ABase GInput; ABase GInput; AMul; ABase (GConstant 7%Z); AAdd; ABase GOutput] /\ c_simd c = None /\
    map (fun g => length (parents c g)) (seq 0 6) = [0; 0; 2; 0; 2; 1] | None => False end) by (vm_compute; auto).
  destruct ex_arith as [c|]; [|exact E]. destruct E as (G & S & P). split; [|exact S].
  cbn [seq map] in P. assert (P2 : length (parents c 2) = 2 /\ length (parents c 4) = 2 /\ length (parents c 5) = 1) by (repeat split; congruence).
  intros g gate E. rewrite G in E. do 6 (destruct g as [|g]; [cbn [nth_error] in E; assert (H := f_equal (fun o => match o with Some x => x | None => AMul end) E); cbn beta iota in H; subst gate; try tauto; split; reflexivity || discriminate|]).
  destruct g; discriminate.
Qed.
