(** Whole executions of mixed circuits. *)
From Coq Require Import List Bool Arith ZArith Lia Permutation.
Require Import Verif.ParseModel Verif.Prelude Verif.PreludeProofs Verif.GateModel Verif.ProtocolModel Verif.CircuitModel
  Verif.BoolGmwModel Verif.BoolGmwSpec Verif.BoolGmwProofs Verif.ArithGmwModel Verif.ArithGmwSpec Verif.ArithGmwProofs
  Verif.ExecModel Verif.ExecSpec Verif.ExecProofs Verif.ExecLayerProofs Verif.ExecCircuitProofs Verif.Aby2Proofs Verif.Aby2ExecProofs
  Verif.MixedModel Verif.MixedSpec Verif.MixedProgSpec Verif.ZMod Verif.MixedExecProofs.
Import ListNotations.
Open Scope nat_scope.

Definition is_conv (g : mixed_gate) : bool := match g with MGConv _ => true | _ => false end.

(** The setup data that a layer's conversions use. *)
Definition data_of (st0 st1 : msetup) : cdata :=
  CData (hd 0%Z (st_rand st0)) (hd 0%Z (st_rand st1)) (hd 0%Z (rev (st_sb_bool st0))) (hd 0%Z (rev (st_sb_bool st1)))
    (st_sb_arith st0) (st_sb_arith st1).

Lemma data_of_ok cs st0 st1 : st_rand st0 <> [] -> st_rand st1 <> [] -> st_sb_bool st0 <> [] -> st_sb_bool st1 <> [] ->
  data_ok (data_of st0 st1) cs st0 st1.
Proof.
  intros A B C D. unfold data_ok, data_of. cbn [cd_rho0 cd_rho1 cd_r0 cd_r1 cd_a0 cd_a1].
  assert (P : forall l : list Z, l <> [] -> exists t, vec_pop l = Some (hd 0%Z (rev l), t)).
  { intros l Hl. unfold vec_pop. destruct (rev l) as [|x r] eqn:E; [|cbn; eauto].
    exfalso. apply Hl. rewrite <- (rev_involutive l), E. auto. }
  split; intros _.
  - split; [destruct (st_rand st0)|destruct (st_rand st1)]; try congruence; cbn; eauto.
  - destruct (P _ C), (P _ D). repeat split; eauto.
Qed.

Section MixedExec.
Variables (W w : nat).
Hypothesis HW : 0 < W.
Variable ec : ecirc mixed_gate.
Variables (V : gid -> mval) (D : gid -> cdata) (s0 s1 : list mixed).
Notation pr := (mixed_gmw W w).

Definition conv_id (g : gid) : bool := match ec_gate ec g with Some x => is_conv x | None => false end.

(** [V] gives every gate the value computed from those of its operands. *)
Definition mixed_valued : Prop :=
  (forall sc, ec_simd ec sc = None) /\
  (forall g gate, ec_gate ec g = Some gate ->
    match gate with
    | MGBase GInput => fst g = 0 /\ exists i a b, nth_error (ec_inputs ec) i = Some (snd g) /\
        nth_error s0 i = Some a /\ nth_error s1 i = Some b /\ mrel (V g) a b
    | _ => msem w (D g) gate (map V (ec_parents ec g)) = Some (V g)
    end).
Hypothesis Ht : mixed_valued.
Hypothesis Hnd : NoDup (ec_inputs ec).

Definition MRS (g : gid) (a b : mixed) : Prop := mrel (V g) a b.
Definition MR (g : gid) (c0 c1 : cell pr) : Prop :=
  match c0, c1 with CS a, CS b => MRS g a b | _, _ => False end.
Definition MI (g : gid) (c0 c1 : cell pr) : Prop :=
  ec_gate ec g <> None -> match c0, c1 with CS a, CS b => True | _, _ => False end.

Lemma MR_kind g c0 c1 : MR g c0 c1 -> kind_ok (pr:=pr) ec g c0 /\ kind_ok (pr:=pr) ec g c1.
Proof.
  unfold MR, kind_ok. change (@ec_simd (p_gate pr) ec (fst g)) with (@ec_simd mixed_gate ec (fst g)).
  rewrite (proj1 Ht). destruct c0, c1; tauto.
Qed.

Lemma MR_list ps : forall c0 c1, all3 MR ps c0 c1 ->
  exists x0 x1, omap (cell_scalar (pr:=pr)) c0 = Some x0 /\ omap (cell_scalar (pr:=pr)) c1 = Some x1 /\ all3 MRS ps x0 x1.
Proof.
  intros c0 c1 H. induction H as [|p c d ps c0 c1 Hp H (x0 & x1 & A & B & C)].
  - exists [], []. repeat split; auto. constructor.
  - destruct c as [a|]; [|destruct Hp]. destruct d as [b|]; [|destruct Hp].
    exists (a :: x0), (b :: x1). split; [apply omap_cons; auto|]. split; [apply omap_cons; auto|].
    constructor; auto.
Qed.

Lemma MRS_map ps x0 x1 : all3 MRS ps x0 x1 -> all3 mrel (map V ps) x0 x1.
Proof. induction 1; cbn; constructor; auto. Qed.

Lemma mixed_ni_sound : ni_sound (pr:=pr) mixed_ops ec MR MI (IScalar (pr:=pr) s0) (IScalar (pr:=pr) s1).
Proof.
  intros g gate cur0 cur1 ps0 ps1 Hg Hi K0 K1 HI HA.
  change (@ec_parents (p_gate pr) ec g) with (@ec_parents mixed_gate ec g) in HA.
  change (@ec_gate (p_gate pr) ec g) with (@ec_gate mixed_gate ec g) in Hg.
  change (g_inter mixed_ops gate) with (mixed_is_interactive gate) in Hi.
  pose proof (proj2 Ht g gate Hg) as HV.
  assert (HI' : match cur0, cur1 with CS a, CS b => True | _, _ => False end).
  { apply HI. rewrite Hg. discriminate. }
  enough (HE : exists r0 r1 : mixed,
    eval_cell (pr:=pr) 0 ec (ec_main_simd (pr:=pr) ec) (IScalar (pr:=pr) s0) g gate cur0 ps0 = Some (CS (pr:=pr) r0) /\
    eval_cell (pr:=pr) 1 ec (ec_main_simd (pr:=pr) ec) (IScalar (pr:=pr) s1) g gate cur1 ps1 = Some (CS (pr:=pr) r1) /\ MRS g r0 r1).
  { destruct HE as (r0 & r1 & E0 & E1 & HR). exists (CS (pr:=pr) r0), (CS (pr:=pr) r1).
    destruct (MR_kind g (CS (pr:=pr) r0) (CS (pr:=pr) r1) HR). auto. }
  assert (Hms : ec_main_simd (pr:=pr) ec = false).
  { unfold ec_main_simd. change (@ec_simd (p_gate pr) ec 0) with (@ec_simd mixed_gate ec 0). rewrite (proj1 Ht). auto. }
  rewrite Hms.
  assert (Hs : @ec_simd (p_gate pr) ec (fst g) = None) by apply (proj1 Ht).
  assert (HL : match gate with MGBase (GInput | GConstant _) => False | _ => True end ->
    exists x0 x1 r0 r1, omap (cell_scalar (pr:=pr)) ps0 = Some x0 /\ omap (cell_scalar (pr:=pr)) ps1 = Some x1 /\
      mixed_eval_ni w 0 gate x0 = Some r0 /\ mixed_eval_ni w 1 gate x1 = Some r1 /\ MRS g r0 r1).
  { intros Hk. destruct (MR_list _ _ _ HA) as (x0 & x1 & X0 & X1 & HA').
    assert (HS : msem w (D g) gate (map V (ec_parents ec g)) = Some (V g)) by (destruct gate as [[]| | |]; tauto).
    destruct (mixed_local w gate _ _ x0 x1 _ Hi Hk HS (MRS_map _ _ _ HA')) as (r0 & r1 & R0 & R1 & R2).
    exists x0, x1, r0, r1. auto. }
  destruct gate as [b|b|b|b] eqn:Eg.
  - destruct b as [ | | | | |sel| |c| ].
    2:{ (* Input *)
      destruct HV as (HT1 & i & a & b & Hi1 & X & Y & C).
      exists a, b. unfold eval_cell. cbn [p_as_base mixed_gmw mixed_as_base].
      rewrite HT1. cbn [Nat.eqb oassert obind].
      change (@ec_inputs (p_gate pr) ec) with (@ec_inputs mixed_gate ec).
      rewrite (index_of_some _ _ _ Hnd Hi1). cbn [obind].
      change (nth_error s0 i) with (@nth_error mixed s0 i). change (nth_error s1 i) with (@nth_error mixed s1 i).
      rewrite X, Y. split; [reflexivity|]. split; [reflexivity|]. auto. }
    7:{ (* Constant *)
      destruct cur0 as [u0|]; [|destruct cur1; destruct HI']. destruct cur1 as [u1|]; [|destruct HI'].
      exists (mixed_share_constant 0 u0 c), (mixed_share_constant 1 u1 c).
      unfold eval_cell. cbn [p_as_base mixed_gmw mixed_as_base]. rewrite Hs.
      split; [reflexivity|]. split; [reflexivity|]. unfold MRS.
      destruct c as [b|x]; destruct (map V (ec_parents ec g)); cbn in HV; try discriminate; injection HV as HV; rewrite <- HV.
      - exists b, false. cbn. destruct b; auto.
      - cbn. auto. }
    5:{ cbn in HV. destruct (map V (ec_parents ec g)); discriminate. }
    all: destruct (HL I) as (x0 & x1 & r0 & r1 & X0 & X1 & R0 & R1 & R2);
      exists r0, r1; unfold eval_cell; cbn [p_as_base mixed_gmw mixed_as_base]; rewrite Hs;
      change (p_eval_ni pr) with (mixed_eval_ni w); split; [|split; [|auto]];
      [rewrite X0; cbn [obind]; rewrite R0; reflexivity|rewrite X1; cbn [obind]; rewrite R1; reflexivity].
  - destruct (HL I) as (x0 & x1 & r0 & r1 & X0 & X1 & R0 & R1 & R2);
      exists r0, r1; unfold eval_cell; cbn [p_as_base mixed_gmw mixed_as_base]; rewrite Hs;
      change (p_eval_ni pr) with (mixed_eval_ni w); split; [|split; [|auto]];
      [rewrite X0; cbn [obind]; rewrite R0; reflexivity|rewrite X1; cbn [obind]; rewrite R1; reflexivity].
  - destruct (HL I) as (x0 & x1 & r0 & r1 & X0 & X1 & R0 & R1 & R2);
      exists r0, r1; unfold eval_cell; cbn [p_as_base mixed_gmw mixed_as_base]; rewrite Hs;
      change (p_eval_ni pr) with (mixed_eval_ni w); split; [|split; [|auto]];
      [rewrite X0; cbn [obind]; rewrite R0; reflexivity|rewrite X1; cbn [obind]; rewrite R1; reflexivity].
  - destruct (HL I) as (x0 & x1 & r0 & r1 & X0 & X1 & R0 & R1 & R2);
      exists r0, r1; unfold eval_cell; cbn [p_as_base mixed_gmw mixed_as_base]; rewrite Hs;
      change (p_eval_ni pr) with (mixed_eval_ni w); split; [|split; [|auto]];
      [rewrite X0; cbn [obind]; rewrite R0; reflexivity|rewrite X1; cbn [obind]; rewrite R1; reflexivity].
Qed.

(** ** Interactive layers *)
Lemma streams_of d gs : forall sg i0 i1,
  omap (ec_gate ec) gs = Some sg -> forallb mixed_is_interactive sg = true ->
  all3 MRS (concat (map (ec_parents ec) gs)) i0 i1 -> (forall g, In g gs -> conv_id g = true -> D g = d) ->
  exists pb0 pb1 pa0 pa1 cs ci0 ci1,
    streams w d sg (map V gs) i0 i1 pb0 pb1 pa0 pa1 cs ci0 ci1 (map V (filter conv_id gs)) /\
    omap (ec_gate ec) (filter conv_id gs) = Some (map MGConv cs) /\
    all3 MRS (concat (map (ec_parents ec) (filter conv_id gs))) ci0 ci1.
Proof.
  induction gs as [|g gs IH]; intros sg i0 i1 Hsg Hint HI HD.
  - cbn in Hsg. injection Hsg as <-. apply all3_nil_inv in HI. destruct HI as [-> ->].
    exists [], [], [], [], [], [], []. split; [constructor|]. split; [reflexivity|constructor].
  - cbn [omap] in Hsg. destruct (ec_gate ec g) as [gate|] eqn:Hg; [|discriminate]. cbn [obind] in Hsg.
    destruct (omap (ec_gate ec) gs) as [sg'|] eqn:Hsg'; [|discriminate]. cbn [obind] in Hsg. injection Hsg as <-.
    cbn [forallb] in Hint. apply andb_prop in Hint. destruct Hint as [Hint1 Hint2].
    cbn [map concat] in HI. destruct (all3_split _ _ _ _ _ HI) as [I1 I2].
    destruct (IH sg' _ _ eq_refl Hint2 I2 (fun x Hx => HD x (or_intror Hx)))
      as (pb0 & pb1 & pa0 & pa1 & cs & ci0 & ci1 & HS & HC & HA).
    pose proof (proj2 Ht g gate Hg) as HV.
    rewrite <- (firstn_skipn (length (ec_parents ec g)) i0), <- (firstn_skipn (length (ec_parents ec g)) i1).
    pose proof (MRS_map _ _ _ I1) as J1.
    set (p0 := firstn (length (ec_parents ec g)) i0) in *. set (p1 := firstn (length (ec_parents ec g)) i1) in *.
    assert (L2 : forall a b, map V (ec_parents ec g) = [a; b] ->
       exists y0 y1 z0 z1, p0 = [y0; z0] /\ p1 = [y1; z1] /\ mrel a y0 y1 /\ mrel b z0 z1).
    { intros a b E. rewrite E in J1. destruct (all3_cons_inv _ _ _ _ _ J1) as (y0 & y1 & r0 & r1 & -> & -> & X & HA').
      destruct (all3_cons_inv _ _ _ _ _ HA') as (z0 & z1 & t0 & t1 & -> & -> & Y & HA'').
      apply all3_nil_inv in HA''. destruct HA'' as [-> ->]. exists y0, y1, z0, z1. auto. }
    destruct gate as [b|b|b|b]; try discriminate.
    + destruct b as [bb| | |]; try discriminate. 
      replace (filter conv_id (g :: gs)) with (filter conv_id gs) by (cbn [filter]; unfold conv_id at 2; rewrite Hg; reflexivity).
      cbn [map].
      destruct (map V (ec_parents ec g)) as [|[x|] [|[y|] [|? ?]]]; try discriminate. injection HV as HV. rewrite <- HV.
      destruct (L2 _ _ eq_refl) as (y0 & y1 & z0 & z1 & -> & -> & (p & q & -> & -> & <-) & (p' & q' & -> & -> & <-)).
      eexists _, _, _, _, cs, ci0, ci1. split; [|split; [exact HC|exact HA]]. apply st_and. exact HS.
    + destruct b as [bb| | |]; try discriminate. 
      replace (filter conv_id (g :: gs)) with (filter conv_id gs) by (cbn [filter]; unfold conv_id at 2; rewrite Hg; reflexivity).
      cbn [map].
      destruct (map V (ec_parents ec g)) as [|[|a0 a1] [|[|b0 b1] [|? ?]]]; try discriminate. injection HV as HV. rewrite <- HV.
      destruct (L2 _ _ eq_refl) as (y0 & y1 & z0 & z1 & -> & -> & (-> & ->) & (-> & ->)).
      eexists _, _, _, _, cs, ci0, ci1. split; [|split; [exact HC|exact HA]]. apply st_mul. exact HS.
    + assert (Ed : D g = d) by (apply HD; [cbn; auto|unfold conv_id; rewrite Hg; auto]).
      replace (filter conv_id (g :: gs)) with (g :: filter conv_id gs) by (cbn [filter]; unfold conv_id at 2; rewrite Hg; reflexivity).
      cbn [map concat].
      exists pb0, pb1, pa0, pa1, (b :: cs), (p0 ++ ci0), (p1 ++ ci1). split; [|split].
      * apply st_conv with (ps := map V (ec_parents ec g)); auto.
        -- rewrite Ed in HV. destruct b as [| | |i|]; try discriminate.
           ++ destruct (map V (ec_parents ec g)) as [|[|a0 a1] [|? ?]]; try discriminate; reflexivity.
           ++ destruct (map V (ec_parents ec g)) as [|[|a0 a1] [|? ?]]; try discriminate; reflexivity.
           ++ cbn [msem] in HV. destruct (omap mval_bit _) as [bits|] eqn:Eb in HV; [|discriminate]. cbn [obind] in HV.
              apply omap_length in Eb. destruct (Nat.eqb_spec (length bits) w); [|discriminate]. cbn [mixed_input_size]. congruence.
        -- rewrite <- Ed. destruct b; auto.
      * cbn [omap]. rewrite Hg. cbn [obind]. rewrite HC. reflexivity.
      * apply (all3_app _ _ _ _ _ _ _ I1 HA).
Qed.

(** At most one conversion per layer. *)
Definition layer_convs (l : elayer) : Prop :=
  filter conv_id (el_int l) = [] \/
  (exists s r, (filter conv_id (el_int l) = [s; r] \/ filter conv_id (el_int l) = [r; s]) /\
     ec_gate ec s = Some (MGConv CSnd) /\ ec_gate ec r = Some (MGConv CRcv) /\ ec_parents ec s = ec_parents ec r) \/
  (exists b, filter conv_id (el_int l) = [b] /\ ec_gate ec b = Some (MGConv CB2A)).

Definition mixed_ok (l : elayer) (st0 st1 : msetup) : Prop :=
  base_setup_ok W (length (el_int l)) st0 st1 /\
  (st_rand st0 <> [] /\ st_rand st1 <> [] /\ st_sb_bool st0 <> [] /\ st_sb_bool st1 <> []) /\
  (forall g, In g (el_int l) -> conv_id g = true -> D g = data_of st0 st1).

Lemma conv_shape_of l st0 st1 cs ci0 ci1 : layer_convs l -> mixed_ok l st0 st1 ->
  omap (ec_gate ec) (filter conv_id (el_int l)) = Some (map MGConv cs) ->
  all3 MRS (concat (map (ec_parents ec) (filter conv_id (el_int l)))) ci0 ci1 ->
  conv_shape w (data_of st0 st1) cs ci0 ci1 (map V (filter conv_id (el_int l))).
Proof.
  intros HL (_ & _ & HD) HC HA.
  assert (HD' : forall g, In g (filter conv_id (el_int l)) -> D g = data_of st0 st1).
  { intros g Hg. apply filter_In in Hg. destruct Hg. auto. }
  assert (PR : forall s r, ec_gate ec s = Some (MGConv CSnd) -> ec_gate ec r = Some (MGConv CRcv) ->
    ec_parents ec s = ec_parents ec r -> D s = data_of st0 st1 -> D r = data_of st0 st1 ->
    exists x0 x1 p, ec_parents ec s = [p] /\ V p = VP x0 x1 /\
      msem w (data_of st0 st1) (MGConv CSnd) [VP x0 x1] = Some (V s) /\
      msem w (data_of st0 st1) (MGConv CRcv) [VP x0 x1] = Some (V r)).
  { intros s r Gs Gr EP Ds Dr. pose proof (proj2 Ht s _ Gs) as Vs. pose proof (proj2 Ht r _ Gr) as Vr. cbv beta iota in Vs, Vr.
    rewrite Ds in Vs. rewrite Dr, <- EP in Vr.
    destruct (ec_parents ec s) as [|p [|? ?]]; cbn [map] in *; try discriminate.
    - destruct (V p) as [|x0 x1] eqn:Ep; try discriminate. exists x0, x1, p. auto.
    - destruct (V p); discriminate. }
  assert (PA : forall p x0 x1 a b, V p = VP x0 x1 -> all3 MRS [p; p] a b ->
    a = [MArith x0; MArith x0] /\ b = [MArith x1; MArith x1]).
  { intros p x0 x1 a b Ep H. destruct (all3_cons_inv _ _ _ _ _ H) as (y0 & y1 & r0 & r1 & -> & -> & X & H1).
    destruct (all3_cons_inv _ _ _ _ _ H1) as (z0 & z1 & t0 & t1 & -> & -> & Y & H2). apply all3_nil_inv in H2.
    destruct H2 as [-> ->]. unfold MRS in X, Y. rewrite Ep in X, Y. destruct X as [-> ->], Y as [-> ->]. auto. }
  destruct HL as [E|[(s & r & [E|E] & Gs & Gr & EP)|(b & E & Gb)]]; rewrite E in *; cbn [map concat omap] in *.
  - injection HC as HC. destruct cs; [|discriminate]. apply all3_nil_inv in HA. destruct HA as [-> ->]. constructor.
  - rewrite Gs, Gr in HC. cbn [obind] in HC. injection HC as HC.
    destruct cs as [|c1 [|c2 [|? ?]]]; try discriminate. injection HC as <- <-.
    destruct (PR s r Gs Gr EP) as (x0 & x1 & p & Ep & Vp & A & B); [apply HD'; cbn; auto|apply HD'; cbn; auto|].
    rewrite <- EP, Ep in HA. cbn [app] in HA. destruct (PA p x0 x1 _ _ Vp HA) as [-> ->]. constructor; auto.
  - rewrite Gs, Gr in HC. cbn [obind] in HC. injection HC as HC.
    destruct cs as [|c1 [|c2 [|? ?]]]; try discriminate. injection HC as <- <-.
    destruct (PR s r Gs Gr EP) as (x0 & x1 & p & Ep & Vp & A & B); [apply HD'; cbn; auto|apply HD'; cbn; auto|].
    rewrite <- EP, Ep in HA. cbn [app] in HA. destruct (PA p x0 x1 _ _ Vp HA) as [-> ->]. constructor; auto.
  - rewrite Gb in HC. cbn [obind] in HC. injection HC as HC.
    destruct cs as [|c1 [|? ?]]; try discriminate. injection HC as <-.
    rewrite app_nil_r in HA. pose proof (proj2 Ht b _ Gb) as Vb. cbv beta iota in Vb. rewrite HD' in Vb by (cbn; auto).
    apply cs_b2a with (ps := map V (ec_parents ec b)); auto; [apply MRS_map; auto|].
    cbn [msem] in Vb. destruct (omap mval_bit _) as [bits|] eqn:Eb in Vb; [|discriminate]. cbn [obind] in Vb.
    apply omap_length in Eb. destruct (Nat.eqb_spec (length bits) w); [|discriminate]. congruence.
Qed.

Lemma mixed_int_sound l : (forall sc simd b, In (sc, simd, b) l -> simd = None) ->
  (forall g, In g (el_int l) -> exists gate, ec_gate ec g = Some gate /\ mixed_is_interactive gate = true) ->
  layer_convs l -> int_sound (pr:=pr) ec MR MI (fun _ => mixed_ok l) l.
Proof.
  intros Hl Hg HL st0 st1 sg dg so0 so1 si0 si1 do0 do1 di0 di1 HK Hsg Hdg HO HI HD HDI.
  destruct (el_scalar_all l Hl) as (A & B & _). rewrite A in *. rewrite B in *.
  cbn in Hdg. injection Hdg as <-. apply all3_nil_inv in HD, HDI. destruct HD as [-> ->], HDI as [-> ->].
  change (@ec_gate (p_gate pr) ec) with (@ec_gate mixed_gate ec) in Hsg.
  pose proof HK as (HB & (N1 & N2 & N3 & N4) & HDa).
  destruct (streams_of (data_of st0 st1) (el_int l) sg si0 si1 Hsg) as (pb0 & pb1 & pa0 & pa1 & cs & ci0 & ci1 & HS & HC & HA); auto.
  - clear - Hsg Hg. revert sg Hsg Hg. induction (el_int l) as [|g gs IH]; intros sg H Hg; cbn in H.
    + injection H as <-. auto.
    + destruct (Hg g) as (gate & G1 & G2); [cbn; auto|]. rewrite G1 in H. cbn [obind] in H.
      destruct (omap (ec_gate ec) gs) as [r|] eqn:Er; [|discriminate]. cbn [obind] in H. injection H as <-.
      cbn. rewrite G2. apply IH; [exact Er|]. intros; apply Hg; cbn; auto.
  - destruct (mixed_layer_ok W w _ _ _ _ _ _ _ _ _ _ _ _ _ st0 st1 so0 so1 HW HS
      (conv_shape_of _ _ _ _ _ _ HL HK HC HA) (data_of_ok _ _ _ N1 N2 N3 N4))
      as (m0 & m1 & st0' & st1' & o0 & o1 & R0 & R1 & M0 & M1 & E0 & E1 & HR).
    { assert (Lsg : length sg = length (el_int l)) by exact (omap_length _ _ _ Hsg).
      change (base_setup_ok W (@length (p_gate pr) sg) st0 st1). rewrite Lsg. exact HB. }
    exists o0, o1, [], []. unfold pair_layer. change (p_compute_msg pr) with (mixed_compute_msg W w).
    change (p_simd_support pr) with false. rewrite M0. cbn [obind]. rewrite M1. cbn [obind].
    change (p_eval_int pr) with (mixed_eval_int W w). rewrite E0, E1. cbn [obind].
    split; [reflexivity|]. split; [|constructor].
    clear - HR. revert o0 o1 HR. induction (el_int l) as [|g gs IH]; intros o0 o1 HR; cbn [map] in HR.
    + apply all3_nil_inv in HR. destruct HR as [-> ->]. constructor.
    + destruct (all3_cons_inv _ _ _ _ _ HR) as (a & b & ra & rb & -> & -> & X & HR'). constructor; auto.
Qed.

Lemma mixed_sched_layers Live Todo ls : sched_ok mixed_ops ec Live Todo ls ->
  forall l, In l ls -> (forall sc simd b, In (sc, simd, b) l -> simd = None) /\
    (forall g, In g (el_int l) -> exists gate, ec_gate ec g = Some gate /\ mixed_is_interactive gate = true).
Proof.
  revert Live Todo. induction ls as [|l ls IH]; intros Live Todo HS x Hx; [destruct Hx|].
  destruct HS as [HL HS]. destruct Hx as [<-|Hx]; [|eapply IH; eauto]. split.
  - intros sc simd b Hin. destruct (lo_simd _ _ _ _ _ HL sc simd b Hin) as [E _]. rewrite <- E. apply (proj1 Ht).
  - intros g Hg. apply (lo_int _ _ _ _ _ HL g Hg).
Qed.

Theorem mixed_exec_sound {Sv} (req : Sv -> nat -> option (msetup * Sv)) (J : list elayer -> Sv -> Sv -> Prop) Todo go0 go1 t0 t1 :
  length s0 = length (ec_inputs ec) -> length s1 = length (ec_inputs ec) ->
  serves_l req mixed_ok J ->
  sched_ok mixed_ops ec (fun _ => False) Todo (ec_layers ec) ->
  shape_ok (pr:=pr) ec go0 -> shape_ok (pr:=pr) ec go1 ->
  (forall g c0 c1, Todo g -> go_cell (pr:=pr) go0 g = Some c0 -> go_cell (pr:=pr) go1 g = Some c1 -> MI g c0 c1) ->
  (forall l, In l (ec_layers ec) -> layer_convs l) ->
  J (int_layers (ec_layers ec)) t0 t1 ->
  exists o0 o1 s',
    ex2_run (pr:=pr) req ec (IScalar (pr:=pr) s0) (IScalar (pr:=pr) s1) ((go0, t0), (go1, t1)) =
      Some (IScalar (pr:=pr) o0, IScalar (pr:=pr) o1, s') /\
    all3 MRS (map (pair 0) (ec_outputs ec)) o0 o1.
Proof.
  intros Ls0 Ls1 HSv HS Sh0 Sh1 HTodo HC HJ.
  pose proof (mixed_sched_layers _ _ _ HS) as HL.
  destruct (run_sound_l (pr:=pr) mixed_ops ec MR MI MR_kind req mixed_ok J HSv
              (IScalar (pr:=pr) s0) (IScalar (pr:=pr) s1) mixed_ni_sound
              (fun _ => False) Todo go0 go1 t0 t1) as (o0 & o1 & a & b & c & d & E & HR & _); auto.
  - intros l Hl. destruct (HL l Hl) as [A B]. split; [apply mixed_int_sound; auto|].
    destruct (el_scalar_all l A) as (X & Y & _). split.
    + split; intros g p Hg Hp; [apply (proj1 Ht)|]. rewrite Y in Hg. destruct Hg.
    + intros _. rewrite Y. reflexivity.
  - constructor; auto. intros g [].
  - change (@ec_simd (p_gate pr) ec 0) with (@ec_simd mixed_gate ec 0) in HR. rewrite (proj1 Ht) in HR.
    destruct o0 as [o0|]; [|destruct HR]. destruct o1 as [o1|]; [|destruct HR].
    exists o0, o1. eexists. split; [exact E|]. exact HR.
Qed.
End MixedExec.
