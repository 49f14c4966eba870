(** Boolean GMW instance of the executor soundness. *)
From Coq Require Import List Bool Arith Lia.
Require Import Verif.Prelude Verif.PreludeProofs Verif.BitVecModel Verif.BitVecSpec
  Verif.BitVecProofs Verif.GateModel Verif.ProtocolModel Verif.BoolGmwModel Verif.BoolGmwSpec
  Verif.BoolGmwProofs Verif.BoolGmwProofs2 Verif.CircuitModel Verif.ExecModel Verif.ExecSpec
  Verif.ExecProofs Verif.ExecBoolSpec.
Import ListNotations.

Section BoolExec.
Variable W : nat.
Hypothesis HW : 0 < W.
Variable ec : ecirc bool_gate.
Variable v : gid -> list bool.
Notation pr := (bool_gmw W).

Definition BR (g : gid) (c0 c1 : cell pr) : Prop :=
  match ec_simd ec (fst g), c0, c1 with
  | None, CS a, CS b => v g = [xorb a b]
  | Some n, CD x, CD y => lane_vec W n x /\ lane_vec W n y /\ v g = bits_xor (bv_bits x) (bv_bits y)
  | _, _, _ => False
  end.

Definition BI (g : gid) (c0 c1 : cell pr) : Prop := True.

Lemma BR_kind g c0 c1 : BR g c0 c1 -> kind_ok (pr:=pr) ec g c0 /\ kind_ok (pr:=pr) ec g c1.
Proof. unfold BR, kind_ok. cbn [p_gate bool_gmw]. destruct (ec_simd ec (fst g)), c0, c1; tauto. Qed.

Lemma BR_scalar_list ps : forall c0 c1, all3 BR ps c0 c1 ->
  Forall (fun p => ec_simd ec (fst p) = None) ps ->
  exists (x0 x1 : list bool), omap cell_scalar c0 = Some x0 /\ omap cell_scalar c1 = Some x1 /\
    length x0 = length ps /\ length x1 = length ps /\
    bits_xor x0 x1 = map (fun p => nth 0 (v p) false) ps /\ c0 = map (@CS pr) x0.
Proof.
  intros c0 c1 H. induction H as [|p c d ps c0 c1 Hp H IH]; intros F.
  - exists [], []. repeat split; auto.
  - inversion F as [|? ? F1 F2]; subst. destruct (IH F2) as (x0 & x1 & A & B & C & D & E & E').
    unfold BR in Hp. rewrite F1 in Hp. destruct c as [a|a]; [|destruct Hp].
    destruct d as [b|b]; [|destruct Hp].
    exists (a :: x0), (b :: x1). cbn [omap cell_scalar obind]. rewrite A, B. cbn [obind].
    split; auto. split; auto. split; [exact (f_equal S C)|]. split; [exact (f_equal S D)|].
    split; [|rewrite E'; reflexivity]. cbn. rewrite Hp. cbn. rewrite <- E. reflexivity.
Qed.

Lemma BR_simd_list n ps : forall c0 c1, all3 BR ps c0 c1 ->
  Forall (fun p => ec_simd ec (fst p) = Some n) ps ->
  exists (x0 x1 : list bitvec), omap cell_simd c0 = Some x0 /\ omap cell_simd c1 = Some x1 /\
    length x0 = length ps /\ length x1 = length ps /\
    Forall (lane_vec W n) x0 /\ Forall (lane_vec W n) x1 /\
    zip_with (fun x y => bits_xor (bv_bits x) (bv_bits y)) x0 x1 = map v ps.
Proof.
  intros c0 c1 H. induction H as [|p c d ps c0 c1 Hp H IH]; intros F.
  - exists [], []. repeat split; auto.
  - inversion F as [|? ? F1 F2]; subst. destruct (IH F2) as (x0 & x1 & A & B & C & D & E & E1 & E2).
    unfold BR in Hp. rewrite F1 in Hp. destruct c as [a|a]; [destruct Hp|].
    destruct d as [b|b]; [destruct Hp|]. destruct Hp as (K0 & K1 & K2).
    exists (a :: x0), (b :: x1). cbn [omap cell_simd obind]. rewrite A, B. cbn [obind].
    split; auto. split; auto. split; [exact (f_equal S C)|]. split; [exact (f_equal S D)|].
    split; [constructor; auto|]. split; [constructor; auto|]. cbn. rewrite K2. rewrite <- E2. reflexivity.
Qed.

Lemma bits_xor_nth a b i : i < length a -> i < length b ->
  nth i (bits_xor a b) false = xorb (nth i a false) (nth i b false).
Proof. intros. unfold bits_xor. rewrite (zip_with_nth xorb _ _ i false false) by auto. auto. Qed.

Lemma zip_with_map_fst {A B C D} (f : A -> B -> C) (g : C -> D) l1 l2 :
  zip_with (fun a b => g (f a b)) l1 l2 = map g (zip_with f l1 l2).
Proof. revert l2; induction l1; intros [|? ?]; simpl; auto. rewrite IHl1; auto. Qed.

Lemma zip_with_ext_Forall {A B C} (P : A -> Prop) (Q : B -> Prop) (f g : A -> B -> C) l1 l2 :
  (forall a b, P a -> Q b -> f a b = g a b) -> Forall P l1 -> Forall Q l2 ->
  zip_with f l1 l2 = zip_with g l1 l2.
Proof.
  intros H F1; revert l2; induction F1; intros [|? ?] F2; simpl; auto.
  inversion F2; subst. rewrite H, IHF1; auto.
Qed.

Lemma lane_vec_xor_length n x y : lane_vec W n x -> lane_vec W n y ->
  length (bits_xor (bv_bits x) (bv_bits y)) = n.
Proof.
  intros (A & _ & B) (C & _ & D). unfold bits_xor. rewrite zip_with_length.
  rewrite !(bv_bits_length W) by auto. lia.
Qed.

Lemma lanes_val g c0 c1 : BR g c0 c1 -> length (v g) = lanes ec g.
Proof.
  unfold BR, lanes. destruct (ec_simd ec (fst g)) as [n|].
  - destruct c0, c1; try tauto. intros (A & B & ->). apply lane_vec_xor_length; auto.
  - destruct c0, c1; try tauto. intros ->. auto.
Qed.

(** Local gates on operands of the gate's own circuit. *)
Lemma ni_local gate g ps0 ps1 :
  local_gate gate ->
  Forall (fun p => ec_simd ec (fst p) = ec_simd ec (fst g)) (ec_parents ec g) ->
  bool_input_size gate <= length (ec_parents ec g) ->
  all3 BR (ec_parents ec g) ps0 ps1 ->
  (length (v g) = lanes ec g /\
   forall i, i < lanes ec g ->
     bool_gate_sem gate (map (fun p => nth i (v p) false) (ec_parents ec g)) = Some (nth i (v g) false)) ->
  match ec_simd ec (fst g) with
  | None => exists (x0 x1 : list bool) r0 r1, omap cell_scalar ps0 = Some x0 /\ omap cell_scalar ps1 = Some x1 /\
      bool_eval_ni 0 gate x0 = Some r0 /\ bool_eval_ni 1 gate x1 = Some r1 /\
      BR g (@CS pr r0) (@CS pr r1)
  | Some _ => exists (x0 x1 : list bitvec) r0 r1, omap cell_simd ps0 = Some x0 /\ omap cell_simd ps1 = Some x1 /\
      bool_eval_ni_simd W 0 gate x0 = Some r0 /\ bool_eval_ni_simd W 1 gate x1 = Some r1 /\
      BR g (@CD pr r0) (@CD pr r1)
  end.
Proof.
  intros Hl HF Hn HA [HL HV]. unfold lanes in HL, HV.
  destruct (ec_simd ec (fst g)) as [n|] eqn:Es.
  - destruct (BR_simd_list n _ _ _ HA HF) as (x0 & x1 & A & B & C & D & E & E1 & E2).
    destruct (bool_local_simd_ok W gate 0 n x0 x1 HW Hl ltac:(lia) ltac:(lia) E E1)
      as (r0 & r1 & R0 & R1 & R2 & R3 & R4 & R5 & R6 & R7 & R8).
    exists x0, x1, r0, r1. split; auto. split; auto. split; auto. split; auto.
    unfold BR. rewrite Es.
    split; [split; auto|]. split; [split; auto|].
    apply (list_ext false).
    { rewrite HL, (lane_vec_xor_length n); [auto| |]; split; auto. }
    intros i Hi. rewrite HL in Hi. specialize (HV i Hi). specialize (R8 i Hi).
    rewrite bits_xor_nth by (rewrite (bv_bits_length W); auto; lia).
    rewrite <- map_map with (f := v) (g := fun l => nth i l false) in HV.
    rewrite <- E2 in HV. rewrite <- zip_with_map_fst in HV.
    rewrite (zip_with_ext_Forall (lane_vec W n) (lane_vec W n) _
              (fun v0 v1 => xorb (nth i (bv_bits v0) false) (nth i (bv_bits v1) false))) in HV; auto.
    + congruence.
    + intros a b (P1 & P2 & P3) (Q1 & Q2 & Q3). apply bits_xor_nth; rewrite (bv_bits_length W); auto; lia.
  - destruct (BR_scalar_list _ _ _ HA HF) as (x0 & x1 & A & B & C & D & E & _).
    destruct (bool_local_ok gate x0 x1 Hl ltac:(lia) ltac:(lia)) as (r0 & r1 & R0 & R1 & R2).
    exists x0, x1, r0, r1. split; auto. split; auto. split; auto. split; auto.
    unfold BR. rewrite Es.
    specialize (HV 0 ltac:(lia)). rewrite <- E in HV. rewrite HV in R2. injection R2 as R2.
    destruct (v g) as [|a [|b r]]; simpl in HL; try lia. simpl in R2. congruence.
Qed.

Variable ins : list (list bool).
Hypothesis Htyped : typed ec.
Hypothesis Hval : valuation ec ins v.
Hypothesis Hnd : NoDup (ec_inputs ec).

Lemma index_of_nth l i x : NoDup l -> nth_error l i = Some x -> index_of l x = Some i.
Proof.
  intros H. revert i. induction H as [|y l Hn H IH]; intros i Hi; [destruct i; discriminate|].
  destruct i as [|i]; simpl in *.
  - injection Hi as ->. rewrite Nat.eqb_refl. auto.
  - destruct (Nat.eqb_spec x y).
    + subst. exfalso. apply Hn. eapply nth_error_In; eauto.
    + rewrite (IH _ Hi). auto.
Qed.

Lemma zip_with_nth_error {A B C} (f : A -> B -> C) l1 : forall l2 i c,
  nth_error (zip_with f l1 l2) i = Some c ->
  exists a b, nth_error l1 i = Some a /\ nth_error l2 i = Some b /\ c = f a b.
Proof.
  induction l1 as [|a l1 IH]; intros [|b l2] i c H; destruct i; simpl in *; try discriminate.
  - injection H as <-. eauto.
  - eauto.
Qed.

Lemma lane_vec_clone n x : lane_vec W n x -> lane_vec W n (bv_clone W x) /\ bv_bits (bv_clone W x) = bv_bits x.
Proof.
  intros (A & B & C). destruct (bv_clone_spec W x HW A) as (D & E & F & G).
  split; auto. split; auto. split; congruence.
Qed.

(** Gates evaluated through the last two arms of the executor's match. *)
Definition plain_gate (gate : bool_gate) : Prop :=
  match gate with
  | BAnd | BBase GInput | BBase GScInput | BBase (GConstant _) | BBase (GConnectToMainFromSimd _) => False
  | _ => True
  end.

Lemma ni_default (i0 i1 : istore pr) g gate cur0 cur1 ps0 ps1 :
  plain_gate gate -> gate_typed ec g gate -> gate_eq ec ins v g gate ->
  all3 BR (ec_parents ec g) ps0 ps1 ->
  exists v0 v1 : cell pr,
    eval_cell (pr:=pr) 0 ec (ec_main_simd (pr:=pr) ec) i0 g gate cur0 ps0 = Some v0 /\
    eval_cell (pr:=pr) 1 ec (ec_main_simd (pr:=pr) ec) i1 g gate cur1 ps1 = Some v1 /\ BR g v0 v1.
Proof.
  intros Hp HT HV HA.
  assert (HL : match ec_simd ec (fst g) with
  | None => exists (x0 x1 : list bool) r0 r1, omap cell_scalar ps0 = Some x0 /\ omap cell_scalar ps1 = Some x1 /\
      bool_eval_ni 0 gate x0 = Some r0 /\ bool_eval_ni 1 gate x1 = Some r1 /\
      BR g (@CS pr r0) (@CS pr r1)
  | Some _ => exists (x0 x1 : list bitvec) r0 r1, omap cell_simd ps0 = Some x0 /\ omap cell_simd ps1 = Some x1 /\
      bool_eval_ni_simd W 0 gate x0 = Some r0 /\ bool_eval_ni_simd W 1 gate x1 = Some r1 /\
      BR g (@CD pr r0) (@CD pr r1)
  end).
  { apply ni_local; auto; destruct gate as [[]| | |]; try destruct Hp; cbn in HT; try tauto;
      try exact Logic.I; destruct HT as [HT1 HT2]; try exact HT2; try exact HV; cbn in *; lia. }
  assert (Hb : forall party inp cur ps, eval_cell (pr:=pr) party ec (ec_main_simd (pr:=pr) ec) inp g gate cur ps =
     match ec_simd ec (fst g) with
     | Some _ => xs <- omap cell_simd ps ;; o <- bool_eval_ni_simd W party gate xs ;; Some (@CD pr o)
     | None => xs <- omap cell_scalar ps ;; o <- bool_eval_ni party gate xs ;; Some (@CS pr o)
     end).
  { intros. unfold eval_cell. change (@ec_simd (p_gate pr) ec (fst g)) with (@ec_simd bool_gate ec (fst g)).
    destruct gate as [[]| | |]; try destruct Hp; destruct (ec_simd ec (fst g)); reflexivity. }
  rewrite !Hb. destruct (ec_simd ec (fst g)).
  - destruct HL as (x0 & x1 & r0 & r1 & A & B & C & D & E). exists (@CD pr r0), (@CD pr r1).
    rewrite A, B. cbn [obind]. rewrite C, D. cbn [obind]. auto.
  - destruct HL as (x0 & x1 & r0 & r1 & A & B & C & D & E). exists (@CS pr r0), (@CS pr r1).
    rewrite A, B. cbn [obind]. rewrite C, D. cbn [obind]. auto.
Qed.

Lemma bool_ni_sound (i0 i1 : istore pr) :
  shares_of W (ec_simd ec 0) i0 i1 ins ->
  ni_sound (pr:=pr) bool_ops ec BR BI i0 i1.
Proof.
  intros Hin g gate cur0 cur1 ps0 ps1 Hg Hi K0 K1 _ HA.
  change (@ec_parents (p_gate pr) ec g) with (@ec_parents bool_gate ec g) in HA.
  pose proof (Htyped g gate Hg) as HT. pose proof (Hval g gate Hg) as HV.
  enough (exists v0 v1 : cell pr,
    eval_cell (pr:=pr) 0 ec (ec_main_simd (pr:=pr) ec) i0 g gate cur0 ps0 = Some v0 /\
    eval_cell (pr:=pr) 1 ec (ec_main_simd (pr:=pr) ec) i1 g gate cur1 ps1 = Some v1 /\ BR g v0 v1) as HE.
  { destruct HE as (v0 & v1 & E0 & E1 & HR). exists v0, v1. destruct (BR_kind _ _ _ HR). auto. }
  destruct gate as [b| | |]; [|discriminate| |].
  - destruct b as [ | | | | |sel| |c| ].
    + (* Output *)
      apply ni_default; auto; exact Logic.I.
    + (* Input *)
      cbn [gate_typed] in HT. destruct HT as [HT1 HT2]. cbn [gate_eq] in HV.
      destruct HV as (i & Hi1 & Hi2).
      unfold eval_cell. cbn [p_as_base bool_gmw bool_as_base].
      rewrite HT1. cbn [Nat.eqb oassert obind].
      change (@ec_inputs (p_gate pr) ec) with (@ec_inputs bool_gate ec).
      rewrite (index_of_nth _ _ _ Hnd Hi1). cbn [obind].
      unfold ec_main_simd. change (@ec_simd (p_gate pr) ec 0) with (@ec_simd bool_gate ec 0).
      unfold BR. rewrite HT1.
      unfold shares_of in Hin. destruct (ec_simd ec 0) as [n|].
      * destruct i0 as [|l0]; [destruct Hin|]. destruct i1 as [|l1]; [destruct Hin|].
        destruct Hin as (L & F0 & F1 & ->). apply zip_with_nth_error in Hi2.
        destruct Hi2 as (x & y & X & Y & Exy).
        cbn [p_simd pr] in X, Y.
        exists (@CD pr (bv_clone W x)), (@CD pr (bv_clone W y)).
        assert (Lx : lane_vec W n x) by (rewrite Forall_forall in F0; apply F0; eapply nth_error_In; eauto).
        assert (Ly : lane_vec W n y) by (rewrite Forall_forall in F1; apply F1; eapply nth_error_In; eauto).
        destruct (lane_vec_clone n x Lx) as [A1 A2]. destruct (lane_vec_clone n y Ly) as [B1 B2].
        change (nth_error l0 i) with (@nth_error bitvec l0 i).
        change (nth_error l1 i) with (@nth_error bitvec l1 i). rewrite X, Y. cbn [obind].
        split; [reflexivity|]. split; [reflexivity|]. split; auto. split; auto.
        rewrite A2, B2. auto.
      * destruct i0 as [l0|]; [|destruct Hin]. destruct i1 as [l1|]; [|destruct Hin].
        destruct Hin as (L & ->). rewrite nth_error_map in Hi2.
        destruct (nth_error (bits_xor l0 l1) i) as [z|] eqn:Ez; [|discriminate].
        cbn in Hi2. injection Hi2 as Hi2. apply zip_with_nth_error in Ez.
        destruct Ez as (x & y & X & Y & Exy).
        exists (@CS pr x), (@CS pr y).
        change (nth_error l0 i) with (@nth_error bool l0 i).
        change (nth_error l1 i) with (@nth_error bool l1 i). rewrite X, Y. cbn [obind].
        split; [reflexivity|]. split; [reflexivity|]. congruence.
    + (* ScInput *)
      cbn [gate_typed] in HT. cbn [gate_eq] in HV.
      unfold eval_cell. cbn [p_as_base bool_gmw bool_as_base].
      unfold ec_main_simd. change (@ec_simd (p_gate pr) ec 0) with (@ec_simd bool_gate ec 0).
      change (@ec_simd (p_gate pr) ec (fst g)) with (@ec_simd bool_gate ec (fst g)).
      assert (Hloc : length (ec_parents ec g) = 1 ->
         Forall (fun p => ec_simd ec (fst p) = ec_simd ec (fst g)) (ec_parents ec g) ->
         (exists p, ec_parents ec g = [p] /\ v g = v p) ->
         length (v g) = lanes ec g /\
         forall i, i < lanes ec g -> bool_gate_sem (BBase GScInput)
            (map (fun p => nth i (v p) false) (ec_parents ec g)) = Some (nth i (v g) false)).
      { intros H1 H2 (p & Hp & Hv). rewrite Hp in *. inversion H2 as [|? ? Hs _]; subst.
        destruct (all3_cons_inv _ _ _ _ _ HA) as (c0 & c1 & l0 & l1 & _ & _ & HRp & _). apply lanes_val in HRp.
        split; [rewrite Hv, HRp; unfold lanes; rewrite Hs; auto|].
        intros i Hlt. rewrite Hv. reflexivity. }
      destruct (ec_simd ec 0) as [n0|] eqn:E0; destruct (ec_simd ec (fst g)) as [n|] eqn:Es;
        try contradiction.
      * destruct HT as [HT1 HT2].
        pose proof (ni_local (BBase GScInput) g ps0 ps1 Logic.I
           ltac:(rewrite Es; exact HT2) ltac:(cbn in *; lia) HA (Hloc HT1 HT2 HV)) as HL.
        rewrite Es in HL.
        destruct HL as (x0 & x1 & r0 & r1 & A & B & C & D & E). exists (@CD pr r0), (@CD pr r1).
        rewrite A, B. cbn [obind p_eval_ni_simd bool_gmw]. rewrite C, D. cbn [obind]. auto.
      * destruct HT as [HT1 HT2].
        destruct (BR_scalar_list _ _ _ HA HT2) as (x0 & x1 & A & B & C & D & E & _).
        exists (@CD pr (bv_of_bits W x0)), (@CD pr (bv_of_bits W x1)).
        rewrite A, B. cbn [obind]. split; [reflexivity|]. split; [reflexivity|].
        unfold BR. rewrite Es.
        assert (Hlv : forall x : list bool, length x = n -> lane_vec W n (bv_of_bits W x)).
        { intros x Hx. split; [apply bv_copy_wf; auto|]. split; [reflexivity|exact Hx]. }
        split; [apply Hlv; lia|]. split; [apply Hlv; lia|].
        rewrite !bv_of_bits_bits by auto. rewrite HV, E. apply map_ext. intros p.
        destruct (v p); reflexivity.
      * destruct HT as [HT1 HT2].
        pose proof (ni_local (BBase GScInput) g ps0 ps1 Logic.I
           ltac:(rewrite Es; exact HT2) ltac:(cbn in *; lia) HA (Hloc HT1 HT2 HV)) as HL.
        rewrite Es in HL.
        destruct HL as (x0 & x1 & r0 & r1 & A & B & C & D & E). exists (@CS pr r0), (@CS pr r1).
        rewrite A, B. cbn [obind p_eval_ni bool_gmw]. rewrite C, D. cbn [obind]. auto.
    + (* ScOutput *)
      apply ni_default; auto; exact Logic.I.
    + (* ConnectToMain *)
      apply ni_default; auto; exact Logic.I.
    + (* ConnectToMainFromSimd *)
      cbn [gate_typed] in HT. cbn [gate_eq] in HV.
      destruct HT as (Hs & p & n & Hp & Hpn & Hsel). destruct HV as (p' & Hp' & Hv).
      rewrite Hp in Hp'. injection Hp' as <-. rewrite Hp in HA.
      destruct (all3_cons_inv _ _ _ _ _ HA) as (c0 & c1 & l0 & l1 & -> & -> & HRp & HA').
      apply all3_nil_inv in HA'. destruct HA' as [-> ->].
      unfold BR in HRp. rewrite Hpn in HRp. destruct c0 as [|x]; [destruct HRp|].
      destruct c1 as [|y]; [destruct HRp|]. destruct HRp as (Lx & Ly & Ev).
      cbn [p_simd pr] in x, y.
      assert (Hb : forall z, lane_vec W n z -> nth_error (bv_bits z) sel = Some (nth sel (bv_bits z) false)).
      { intros z (Z1 & Z2 & Z3). apply nth_error_nth'. rewrite (bv_bits_length W); auto. lia. }
      exists (@CS pr (nth sel (bv_bits x) false)), (@CS pr (nth sel (bv_bits y) false)).
      unfold eval_cell. cbn [p_as_base bool_gmw bool_as_base p_simd_get].
      rewrite (Hb x Lx), (Hb y Ly). cbn [obind]. split; auto. split; auto.
      unfold BR. rewrite Hs, Hv, Ev. f_equal. destruct Lx as (X1 & X2 & X3), Ly as (Y1 & Y2 & Y3).
      apply bits_xor_nth; rewrite (bv_bits_length W); auto; lia.
    + (* Identity *)
      apply ni_default; auto; exact Logic.I.
    + (* Constant *)
      cbn [gate_eq] in HV. unfold kind_ok in K0, K1. unfold lanes in HV.
      unfold eval_cell. cbn [p_as_base bool_gmw bool_as_base].
      change (@ec_simd (p_gate pr) ec (fst g)) with (@ec_simd bool_gate ec (fst g)) in *.
      unfold BR. destruct (ec_simd ec (fst g)) as [n|].
      * destruct cur0 as [|u0]; [destruct K0|]. destruct cur1 as [|u1]; [destruct K1|].
        exists (@CD pr (bv_of_bits W (repeat c n))), (@CD pr (bv_of_bits W (repeat false n))).
        split; [reflexivity|]. split; [reflexivity|].
        assert (Hlv : forall b, lane_vec W n (bv_of_bits W (repeat b n))).
        { intros b. split; [apply bv_copy_wf; auto|]. split; [reflexivity|apply repeat_length]. }
        split; auto. split; auto. rewrite !bv_of_bits_bits by auto. rewrite HV.
        clear. induction n; simpl; auto. unfold bits_xor in *. simpl. rewrite <- IHn.
        destruct c; reflexivity.
      * destruct cur0 as [u0|]; [|destruct K0]. destruct cur1 as [u1|]; [|destruct K1].
        exists (@CS pr c), (@CS pr false). split; [reflexivity|]. split; [reflexivity|].
        rewrite HV. destruct c; reflexivity.
    + (* Debug *)
      apply ni_default; auto; exact Logic.I.
  - apply ni_default; auto; exact Logic.I.
  - apply ni_default; auto; exact Logic.I.
Qed.

(** *** Interactive layers *)

Lemma sum_list_app a b : sum_list (a ++ b) = sum_list a + sum_list b.
Proof. induction a; simpl; auto. unfold sum_list in *; simpl; lia. Qed.

Lemma lanes_block sc simd ids : ec_simd ec sc = simd ->
  sum_list (map (lanes ec) (map (pair sc) ids)) = (match simd with Some n => n | None => 1 end) * length ids.
Proof.
  intros E. rewrite map_map. induction ids as [|i ids IH]; simpl.
  - rewrite Nat.mul_0_r. reflexivity.
  - change (sum_list (?a :: ?b)) with (a + sum_list b). rewrite IH.
    unfold lanes. simpl. rewrite E. lia.
Qed.

Lemma el_int_count_lanes l :
  (forall sc simd b, In (sc, simd, b) l -> ec_simd ec sc = simd) ->
  el_int_count l = sum_list (map (lanes ec) (el_int (el_scalar l))) +
                   sum_list (map (lanes ec) (el_int (el_simd l))).
Proof.
  unfold el_int_count, el_int, el_scalar, el_simd.
  induction l as [|[[sc simd] b] l IH]; intros H; auto.
  assert (Hs : ec_simd ec sc = simd) by (apply (H sc simd b); simpl; auto).
  specialize (IH (fun a b c Hin => H a b c (or_intror Hin))).
  cbn [map filter]. change (sum_list (?a :: ?b)) with (a + sum_list b). rewrite IH.
  rewrite <- (lanes_block sc simd (bl_int b) Hs).
  destruct simd; cbn [map concat]; rewrite map_app, sum_list_app; unfold gid in *; lia.
Qed.

Definition RSb := RS (pr:=pr) BR.
Definition RDb := RD (pr:=pr) BR.

(** The parents of an AND gate and the value equation. *)
Lemma and_gate g : ec_gate ec g = Some BAnd ->
  exists p q, ec_parents ec g = [p; q] /\
    ec_simd ec (fst p) = ec_simd ec (fst g) /\ ec_simd ec (fst q) = ec_simd ec (fst g) /\
    length (v g) = lanes ec g /\
    forall i, i < lanes ec g -> nth i (v g) false = andb (nth i (v p) false) (nth i (v q) false).
Proof.
  intros Hg. pose proof (Htyped g _ Hg) as HT. pose proof (Hval g _ Hg) as HV.
  cbn [gate_typed arity] in HT. destruct HT as [HT1 HT2]. cbn [gate_eq] in HV. destruct HV as [HV1 HV2].
  destruct (ec_parents ec g) as [|p [|q [|]]] eqn:Ep; simpl in HT1; try lia.
  inversion HT2 as [|? ? P1 P2]; subst. inversion P2 as [|? ? P3 P4]; subst.
  exists p, q. repeat split; auto. intros i Hi. specialize (HV2 i Hi). simpl in HV2. congruence.
Qed.

Lemma pairs_scalar gs : forall si0 si1 : list bool,
  (forall g, In g gs -> ec_gate ec g = Some BAnd /\ ec_simd ec (fst g) = None) ->
  all3 RSb (concat (map (ec_parents ec) gs)) si0 si1 ->
  exists ps0 ps1, si0 = flat_pairs ps0 /\ si1 = flat_pairs ps1 /\
    length ps0 = length gs /\ length ps1 = length gs /\
    map (fun b => [b]) (and_of_pairs ps0 ps1) = map v gs.
Proof.
  induction gs as [|g gs IH]; intros si0 si1 H HA.
  - apply all3_nil_inv in HA. destruct HA as [-> ->]. exists [], []. repeat split; auto.
  - destruct (H g) as [Hg Hs]; [simpl; auto|].
    destruct (and_gate g Hg) as (p & q & Ep & Sp & Sq & Lv & Ev).
    cbn [map concat] in HA. rewrite Ep in HA. cbn [app] in HA.
    destruct (all3_cons_inv _ _ _ _ _ HA) as (x0 & x1 & r0 & r1 & -> & -> & Rp & HA1).
    destruct (all3_cons_inv _ _ _ _ _ HA1) as (y0 & y1 & t0 & t1 & -> & -> & Rq & HA2).
    destruct (IH t0 t1) as (ps0 & ps1 & -> & -> & L0 & L1 & E); auto.
    { intros; apply H; simpl; auto. }
    exists ((x0, y0) :: ps0), ((x1, y1) :: ps1).
    split; [reflexivity|]. split; [reflexivity|]. split; [simpl; lia|]. split; [simpl; lia|].
    cbn [and_of_pairs zip_with map]. f_equal; auto. cbn [fst snd].
    unfold RSb, RS, BR in Rp, Rq. rewrite Sp, Hs in Rp. rewrite Sq, Hs in Rq.
    unfold lanes in *. rewrite Hs in *. specialize (Ev 0 ltac:(lia)).
    destruct (v g) as [|a [|? ?]]; simpl in Lv; try lia. rewrite Rp, Rq in Ev. simpl in Ev.
    congruence.
Qed.

Lemma bits_and_nth a b i : i < length a -> i < length b ->
  nth i (bits_and a b) false = andb (nth i a false) (nth i b false).
Proof. intros. unfold bits_and. rewrite (zip_with_nth andb _ _ i false false) by auto. auto. Qed.

Lemma pairs_simd gs : forall di0 di1 : list bitvec,
  (forall g, In g gs -> ec_gate ec g = Some BAnd /\ exists n, ec_simd ec (fst g) = Some n) ->
  all3 RDb (concat (map (ec_parents ec) gs)) di0 di1 ->
  exists ps0 ps1, di0 = flat_pairs ps0 /\ di1 = flat_pairs ps1 /\
    length ps0 = length gs /\ length ps1 = length gs /\
    simd_pairs_ok W ps0 /\ simd_pairs_ok W ps1 /\
    simd_sizes ps0 = map (lanes ec) gs /\ simd_sizes ps1 = map (lanes ec) gs /\
    zip_with simd_and ps0 ps1 = map v gs.
Proof.
  induction gs as [|g gs IH]; intros si0 si1 H HA.
  - apply all3_nil_inv in HA. destruct HA as [-> ->]. exists [], []. repeat split; auto; constructor.
  - destruct (H g) as [Hg (n & Hs)]; [simpl; auto|].
    destruct (and_gate g Hg) as (p & q & Ep & Sp & Sq & Lv & Ev).
    cbn [map concat] in HA. rewrite Ep in HA. cbn [app] in HA.
    destruct (all3_cons_inv _ _ _ _ _ HA) as (x0 & x1 & r0 & r1 & -> & -> & Rp & HA1).
    destruct (all3_cons_inv _ _ _ _ _ HA1) as (y0 & y1 & t0 & t1 & -> & -> & Rq & HA2).
    destruct (IH t0 t1) as (ps0 & ps1 & -> & -> & L0 & L1 & P0 & P1 & S0 & S1 & E); auto.
    { intros; apply H; simpl; auto. }
    unfold RDb, RD, BR in Rp, Rq. rewrite Sp, Hs in Rp. rewrite Sq, Hs in Rq.
    destruct Rp as (Vx0 & Vx1 & Ex). destruct Rq as (Vy0 & Vy1 & Ey).
    unfold lanes in Lv, Ev. rewrite Hs in Lv, Ev.
    exists ((x0, y0) :: ps0), ((x1, y1) :: ps1).
    split; [reflexivity|]. split; [reflexivity|]. split; [simpl; lia|]. split; [simpl; lia|].
    pose proof (lane_vec_xor_length n x0 x1 Vx0 Vx1) as LX.
    pose proof (lane_vec_xor_length n y0 y1 Vy0 Vy1) as LY.
    destruct Vx0 as (? & ? & ?), Vx1 as (? & ? & ?), Vy0 as (? & ? & ?), Vy1 as (? & ? & ?).
    split; [constructor; auto; simpl; repeat split; auto; try (apply H0); try (apply H6); congruence|].
    split; [constructor; auto; simpl; repeat split; auto; try (apply H3); try (apply H9); congruence|].
    split; [simpl; rewrite S0; f_equal; unfold lanes; rewrite Hs; auto|].
    split; [simpl; rewrite S1; f_equal; unfold lanes; rewrite Hs; auto|].
    cbn [zip_with map]. f_equal; auto. unfold simd_and. cbn [fst snd].
    apply (list_ext false).
    + unfold bits_and. rewrite zip_with_length. lia.
    + intros i Hi. unfold bits_and in Hi. rewrite zip_with_length in Hi.
      rewrite bits_and_nth by lia. rewrite Ev by lia. rewrite Ex, Ey. auto.
Qed.

Lemma omap_and_gates gs : (forall g, In g gs -> ec_gate ec g = Some BAnd) ->
  omap (ec_gate ec) gs = Some (repeat BAnd (length gs)).
Proof.
  induction gs as [|g gs IH]; intros H; auto. cbn [omap]. rewrite H by (simpl; auto). cbn [obind].
  rewrite IH by (intros; apply H; simpl; auto). reflexivity.
Qed.

Hypothesis Hww : whole_words W ec.

Lemma RDb_intro g n x y : ec_simd ec (fst g) = Some n ->
  lane_vec W n x -> lane_vec W n y -> v g = bits_xor (bv_bits x) (bv_bits y) -> RDb g x y.
Proof. intros E A B C. unfold RDb, RD, BR. rewrite E. auto. Qed.

Lemma all3_intro_bool gs (o0 o1 : list bool) :
  (forall g, In g gs -> ec_simd ec (fst g) = None) ->
  length o0 = length gs -> length o1 = length gs ->
  map (fun b => [b]) (bits_xor o0 o1) = map v gs -> all3 RSb gs o0 o1.
Proof.
  revert o0 o1. induction gs as [|g gs IH]; intros [|a o0] [|b o1] H L0 L1 E; simpl in *; try lia.
  - constructor.
  - injection E as E1 E2. constructor.
    + unfold RSb, RS, BR. rewrite H by auto. auto.
    + apply IH; auto.
Qed.

Lemma all3_intro_simd gs (o0 o1 : list bitvec) :
  length o0 = length gs -> length o1 = length gs ->
  (forall j, j < length gs -> RDb (nth j gs (0, 0)) (nth j o0 bv0) (nth j o1 bv0)) ->
  all3 RDb gs o0 o1.
Proof.
  revert o0 o1. induction gs as [|g gs IH]; intros [|a o0] [|b o1] L0 L1 H; simpl in *; try lia.
  - constructor.
  - constructor.
    + apply (H 0). lia.
    + apply IH; try lia. intros j Hj. apply (H (S j)). lia.
Qed.

Lemma bool_int_sound Live Todo l :
  layer_ok bool_ops ec Live Todo l ->
  el_int (el_scalar l) = [] \/ el_int (el_simd l) = [] ->
  int_sound (pr:=pr) ec BR BI (bool_setup_ok W) l /\ parents_kind (pr:=pr) ec l.
Proof.
  intros HL Hpure.
  destruct (el_scalar_None (pr:=pr) bool_ops ec l Live Todo HL) as [Ks Kd].
  change (@ec_simd (p_gate pr) ec) with (@ec_simd bool_gate ec) in *.
  assert (Hand : forall g, In g (el_int l) -> ec_gate ec g = Some BAnd).
  { intros g Hg. destruct (lo_int _ _ _ _ _ HL g Hg) as ((gate & A & B) & _).
    destruct gate; try discriminate. auto. }
  assert (Hs : forall g, In g (el_int (el_scalar l)) -> ec_gate ec g = Some BAnd)
    by (intros; apply Hand; apply (el_int_split (pr:=pr) BR BI); auto).
  assert (Hd : forall g, In g (el_int (el_simd l)) -> ec_gate ec g = Some BAnd)
    by (intros; apply Hand; apply (el_int_split (pr:=pr) BR BI); auto).
  split.
  2:{ split; intros g p Hg Hp.
      - destruct (and_gate g (Hs g Hg)) as (a & b & Ep & Sa & Sb & _).
        change (In p (@ec_parents bool_gate ec g)) in Hp. rewrite Ep in Hp.
        change (ec_simd ec (fst p) = None).
        destruct Hp as [<-|[<-|[]]]; rewrite ?Sa, ?Sb; auto.
      - destruct (and_gate g (Hd g Hg)) as (a & b & Ep & Sa & Sb & _).
        change (In p (@ec_parents bool_gate ec g)) in Hp. rewrite Ep in Hp.
        change (ec_simd ec (fst p) <> None). destruct (Kd g Hg) as (n & En & _).
        destruct Hp as [<-|[<-|[]]]; rewrite ?Sa, ?Sb, En; congruence. }
  intros st0 st1 sg dg so0 so1 si0 si1 do0 do1 di0 di1 Hok Esg Edg HO HSI HDO HDI.
  change (omap (@ec_gate bool_gate ec) (el_int (el_scalar l)) = Some sg) in Esg.
  change (omap (@ec_gate bool_gate ec) (el_int (el_simd l)) = Some dg) in Edg.
  rewrite (omap_and_gates _ Hs) in Esg. injection Esg as <-.
  rewrite (omap_and_gates _ Hd) in Edg. injection Edg as <-.
  change (all3 RSb (concat (map (@ec_parents bool_gate ec) (el_int (el_scalar l)))) si0 si1) in HSI.
  change (all3 RDb (concat (map (@ec_parents bool_gate ec) (el_int (el_simd l)))) di0 di1) in HDI.
  destruct (pairs_scalar _ _ _ (fun g Hg => conj (Hs g Hg) (Ks g Hg)) HSI)
    as (ps0 & ps1 & -> & -> & L0 & L1 & Eand).
  destruct (pairs_simd _ di0 di1 (fun g Hg => conj (Hd g Hg)
      (match Kd g Hg with ex_intro _ n (conj A _) => ex_intro _ n A end)) HDI)
    as (qs0 & qs1 & -> & -> & M0 & M1 & P0 & P1 & S0 & S1 & Eqand).
  destruct Hok as (h & m & Hm & W0 & W1 & Htr).
  assert (Hcnt : el_int_count l = length (el_int (el_scalar l)) + sum_list (map (lanes ec) (el_int (el_simd l)))).
  { rewrite el_int_count_lanes by (intros; apply (lo_simd _ _ _ _ _ HL) in H; tauto).
    f_equal. clear - Ks. induction (el_int (el_scalar l)) as [|g gs IH]; auto.
    cbn [map]. change (sum_list (?a :: ?b)) with (a + sum_list b). rewrite IH by (intros; apply Ks; simpl; auto).
    unfold lanes. rewrite Ks by (simpl; auto). auto. }
  rewrite Hcnt in Hm.
  unfold pair_layer. cbn [p_compute_msg p_compute_msg_simd p_eval_int p_eval_int_simd p_simd_support bool_gmw].
  destruct Hpure as [Hp|Hp].
  - rewrite Hp in *. cbn [length repeat] in *.
    destruct ps0; [|simpl in L0; lia]. destruct ps1; [|simpl in L1; lia].
    cbn [flat_pairs flat_map].
    destruct (bool_simd_layer W qs0 qs1 m h st0 st1 (repeat BAnd (length (el_int (el_simd l))))
        (repeat BAnd (length (el_int (el_simd l)))) do0 do1 HW P0 P1 ltac:(congruence)
        ltac:(rewrite S0; lia) W0 W1 Htr)
      as (m0 & m1 & o0 & o1 & R0 & R1 & C0 & C1 & E0 & E1 & LO0 & LO1 & X & _).
    pose proof (bool_compute_msg_spec W h m st0 0 so0 [] W0 ltac:(simpl; lia)) as Q0.
    pose proof (bool_compute_msg_spec W h m st1 1 so1 [] W1 ltac:(simpl; lia)) as Q1.
    cbn [length repeat flat_pairs flat_map] in Q0, Q1.
    rewrite Q0, Q1. cbn [obind]. rewrite C0, C1. cbn [obind].
    rewrite (bool_eval_int_empty' W 0 _ _ _ _ st0 h m) by auto. cbn [obind].
    rewrite (bool_eval_int_empty' W 1 _ _ _ _ st1 h m) by auto. cbn [obind].
    rewrite E0, E1. cbn [obind].
    exists [], [], o0, o1. split; auto. split; [constructor|].
    change (all3 RDb (el_int (el_simd l)) o0 o1).
    change (list bitvec) in o0, o1. apply all3_intro_simd; [rewrite LO0; exact M0|rewrite LO1; exact M0|].
    intros j Hj. assert (Hjl : j < length (el_int (el_simd l))) by exact Hj.
    assert (Hj' : j < length qs0) by (rewrite M0; exact Hjl). destruct (X j Hj') as (A & B & C & D & E & F & G).
    destruct (Kd (nth j (el_int (el_simd l)) (0, 0)) (nth_In _ _ Hjl)) as (n & En & Hn).
    apply (RDb_intro _ n); [exact En|..].
    1, 2: assert (Hsz : nth j (simd_sizes qs0) 0 = n) by
      (rewrite S0; rewrite (nth_indep _ 0 (lanes ec (0, 0))) by (rewrite map_length; auto);
       rewrite map_nth; unfold lanes; rewrite En; auto).
    1, 2: assert (Hh : sum_list (firstn j (simd_sizes qs0)) mod W = 0) by
      (apply sum_mod0; auto; apply Forall_firstn'; rewrite S0; apply Forall_forall; intros x Hx;
       apply in_map_iff in Hx; destruct Hx as (g & <- & Hg); destruct (Kd g Hg) as (k & Ek & _);
       unfold lanes; rewrite Ek; apply (Hww (fst g)); auto).
    1, 2: split; [auto|]; split; congruence.
    rewrite G.
    assert (Ez : nth j (zip_with simd_and qs0 qs1) [] = nth j (map v (el_int (el_simd l))) []) by congruence.
    rewrite (zip_with_nth simd_and _ _ j (bv0, bv0) (bv0, bv0)) in Ez by lia.
    rewrite Ez. rewrite (nth_indep _ [] (v (0, 0))) by (rewrite map_length; auto).
    rewrite map_nth. auto.
  - rewrite Hp in *. cbn [length repeat map sum_list fold_right] in *.
    destruct qs0; [|simpl in M0; lia]. destruct qs1; [|simpl in M1; lia].
    cbn [flat_pairs flat_map]. fold (@flat_pairs bool).
    destruct (bool_scalar_layer W ps0 ps1 (length (el_int (el_scalar l))) m h h st0 st1 so0 so1 HW L0 L1
      ltac:(lia) W0 W1 Htr)
      as (m0 & m1 & o0 & o1 & R0 & R1 & C0 & C1 & E0 & E1 & LO0 & LO1 & X & WR0 & WR1 & _).
    rewrite C0, C1. cbn [obind].
    rewrite (bool_simd_empty W h m st0) by auto. rewrite (bool_simd_empty W h m st1) by auto.
    cbn [obind]. rewrite E0, E1. cbn [obind].
    rewrite (bool_eval_int_simd_empty W h (m - length (el_int (el_scalar l))) R0) by auto.
    rewrite (bool_eval_int_simd_empty W h (m - length (el_int (el_scalar l))) R1) by auto.
    cbn [obind].
    exists o0, o1, [], []. split; auto. split; [|constructor].
    change (all3 RSb (el_int (el_scalar l)) o0 o1).
    apply all3_intro_bool; auto. rewrite X. auto.
Qed.

(** *** Whole executions *)

Lemma outputs_shares simd (l0 l1 : istore pr) :
  ec_simd ec 0 = simd ->
  match simd, l0, l1 with
  | None, IScalar o0, IScalar o1 => all3 RSb (map (pair 0) (ec_outputs ec)) o0 o1
  | Some _, ISimd o0, ISimd o1 => all3 RDb (map (pair 0) (ec_outputs ec)) o0 o1
  | _, _, _ => False
  end ->
  shares_of W simd l0 l1 (map (fun o => v (0, o)) (ec_outputs ec)).
Proof.
  intros Es. destruct simd as [n|], l0 as [o0|o0], l1 as [o1|o1]; try tauto; unfold shares_of.
  - rewrite <- (map_map (pair 0) v). generalize (map (pair 0) (ec_outputs ec)) (in_map_iff (pair 0) (ec_outputs ec)).
    intros gs Hgs HA.
    assert (F : forall g, In g gs -> ec_simd ec (fst g) = Some n).
    { intros g Hg. apply Hgs in Hg. destruct Hg as (x & <- & _). auto. }
    clear Hgs. induction HA as [|g a b gs o0 o1 HR HA IH].
    + repeat split; auto.
    + unfold RDb, RD, BR in HR. rewrite F in HR by (simpl; auto). destruct HR as (A & B & C).
      destruct IH as (I1 & I2 & I3 & I4); [intros; apply F; simpl; auto|].
      split; [exact (f_equal S I1)|]. split; [constructor; auto|]. split; [constructor; auto|].
      cbn [zip_with map]. rewrite C, I4. auto.
  - rewrite <- (map_map (pair 0) v). generalize (map (pair 0) (ec_outputs ec)) (in_map_iff (pair 0) (ec_outputs ec)).
    intros gs Hgs HA.
    assert (F : forall g, In g gs -> ec_simd ec (fst g) = None).
    { intros g Hg. apply Hgs in Hg. destruct Hg as (x & <- & _). auto. }
    clear Hgs. induction HA as [|g a b gs o0 o1 HR HA IH].
    + repeat split; auto.
    + unfold RSb, RS, BR in HR. rewrite F in HR by (simpl; auto).
      destruct IH as (I1 & I4); [intros; apply F; simpl; auto|].
      split; [exact (f_equal S I1)|].
      cbn [bits_xor zip_with map]. rewrite HR, I4. auto.
Qed.
End BoolExec.

Lemma shares_length W simd (i0 i1 : istore (bool_gmw W)) vals :
  shares_of W simd i0 i1 vals -> istore_len i0 = length vals /\ istore_len i1 = length vals.
Proof.
  unfold shares_of, istore_len.
  destruct simd as [n|], i0 as [o0|o0], i1 as [o1|o1]; try tauto.
  - intros (A & _ & _ & ->). rewrite zip_with_length. cbn in *. lia.
  - intros (A & ->). rewrite map_length. unfold bits_xor. rewrite zip_with_length. cbn in *. lia.
Qed.

(** One execution of any executable circuit. *)
Theorem bool_exec_sound W (ec : ecirc bool_gate) ins v
  (Sv : Type) (req : Sv -> nat -> option (mul_triples * Sv)) J
  (i0 i1 : istore (bool_gmw W)) (go0 go1 : gouts (bool_gmw W)) s0 s1 rest Todo :
  0 < W -> typed ec -> whole_words W ec -> pure_layers ec -> NoDup (ec_inputs ec) ->
  length ins = length (ec_inputs ec) ->
  sched_ok bool_ops ec (fun _ => False) Todo (ec_layers ec) ->
  valuation ec ins v ->
  shares_of W (ec_simd ec 0) i0 i1 ins ->
  shape_ok (pr:=bool_gmw W) ec go0 -> shape_ok (pr:=bool_gmw W) ec go1 ->
  serves req (bool_setup_ok W) J -> J (requests ec ++ rest) s0 s1 ->
  exists o0 o1 go0' go1' s0' s1',
    ex2_run (pr:=bool_gmw W) req ec i0 i1 ((go0, s0), (go1, s1))
      = Some (o0, o1, ((go0', s0'), (go1', s1'))) /\
    shares_of W (ec_simd ec 0) o0 o1 (map (fun o => v (0, o)) (ec_outputs ec)) /\
    shape_ok (pr:=bool_gmw W) ec go0' /\ shape_ok (pr:=bool_gmw W) ec go1' /\ J rest s0' s1'.
Proof.
  intros HW Ht Hww Hp Hnd Hlen HS Hv Hin Sh0 Sh1 HJ Hj.
  destruct (shares_length _ _ _ _ _ Hin) as [Li0 Li1].
  assert (HE : EInv (pr:=bool_gmw W) ec (BR W ec v) (BI W) (fun _ => False) Todo go0 go1).
  { constructor; auto; [intros g []|]. intros; exact Logic.I. }
  assert (HI : forall l, In l (ec_layers ec) ->
     int_sound (pr:=bool_gmw W) ec (BR W ec v) (BI W) (bool_setup_ok W) l /\ parents_kind (pr:=bool_gmw W) ec l /\
     (p_simd_support (bool_gmw W) = false -> el_int (el_simd l) = [])).
  { assert (Hall : forall ls Live Todo', sched_ok bool_ops ec Live Todo' ls -> forall l, In l ls ->
               exists Lv Td, layer_ok bool_ops ec Lv Td l).
    { induction ls as [|a ls IH]; intros Lv Td Hs l Hl; [destruct Hl|]. destruct Hs as [H1 H2].
      destruct Hl as [<-|Hl]; eauto. }
    intros l Hl. destruct (Hall _ _ _ HS l Hl) as (Lv & Td & HLo).
    destruct (bool_int_sound W HW ec v ins Ht Hv Hww Lv Td l HLo (Hp l Hl)). repeat split; auto; try apply H0.
    discriminate. }
  destruct (ex2_run_sound (pr:=bool_gmw W) bool_ops ec (BR W ec v) (BI W) (BR_kind W ec v) req
     (bool_setup_ok W) J HJ i0 i1 (fun _ => False) Todo go0 go1 s0 s1 rest
     (bool_ni_sound W HW ec v ins Ht Hv Hnd i0 i1 Hin) ltac:(cbn in *; lia) ltac:(cbn in *; lia) HI HS HE Hj)
    as (o0 & o1 & go0' & go1' & s0' & s1' & E & HO & A & B & C).
  exists o0, o1, go0', go1', s0', s1'. split; [exact E|]. split; [|auto].
  apply outputs_shares; auto.
Qed.
