(** Whole tensor ABY2 executions. *)
From Coq Require Import List Bool Arith NArith Lia Permutation.
Require Import Verif.Prelude Verif.PreludeProofs Verif.GateModel Verif.ProtocolModel Verif.CircuitModel
  Verif.CircuitProofs Verif.ExecModel Verif.ExecSpec Verif.ExecProofs Verif.ExecLayerProofs
  Verif.BitMatModel Verif.BitMatSpec Verif.BitMatTheorems
  Verif.Aby2Model Verif.Aby2Spec Verif.Aby2Proofs Verif.Aby2ExecProofs Verif.Aby2CircuitProofs
  Verif.TensorModel Verif.TensorSpec Verif.TensorProofs.
Import ListNotations.
Open Scope nat_scope.

Lemma has_dim_fun d d' v : has_dim d v -> has_dim d' v -> d = d'.
Proof. intros A B. apply has_dim_of in A, B. congruence. Qed.

(** [tensor_sem] determines the value. *)
Lemma tensor_sem_fun g xs x y d : dim_ok d -> has_dim d x -> has_dim d y -> tensor_sem g xs x -> tensor_sem g xs y -> x = y.
Proof.
  intros Hd Hx Hy A B. destruct g as [[] dim| | | | | |r c|]; cbn [tensor_sem] in A, B; try contradiction; try congruence.
  - destruct A as (a & b & -> & ->), B as (a' & b' & E & ->). congruence.
  - destruct A as (a & b & -> & ->), B as (a' & b' & E & ->). congruence.
  - destruct A as (a & b & m & -> & -> & R & C & (A1 & A2 & A3 & A4 & A5)), B as (a' & b' & m' & E & -> & R' & C' & (B1 & B2 & B3 & B4 & B5)).
    injection E as <- <-. f_equal. apply matrix_ext; auto; try congruence.
    intros i j Hi Hj. rewrite A5, B5 by congruence. reflexivity.
Qed.

Lemma ts_xor_bit xa xb a0 a1 b0 b1 : tcarries DBit (TScalar xa) (SScalar a0) (SScalar a1) -> tcarries DBit (TScalar xb) (SScalar b0) (SScalar b1) ->
  tcarries DBit (TScalar (xorb xa xb)) (SScalar (as_xor a0 b0)) (SScalar (as_xor a1 b1)).
Proof.
  intros (_ & _ & A3 & _ & _ & A6) (_ & _ & B3 & _ & _ & B6). specialize (A6 0 0 I). specialize (B6 0 0 I). cbn in *.
  injection A3 as A3. injection B3 as B3.
  unfold tcarries. cbn. rewrite A3, B3. do 5 (split; auto). intros _ _ _. rewrite A6, B6.
  destruct a0 as [p q], a1 as [p' q'], b0 as [r s], b1 as [r' s']. cbn. destruct p, q, q', r, s, s'; reflexivity.
Qed.

Section Exec.
Variable junk : nat -> bool.
Variable ec : ecirc tensor_gate.
Variable ty : gid -> tdim.
Variables (v l0 l1 : gid -> tval) (ins : list tval).
Hypothesis Ht : t_typed ec ty.
Hypothesis Hv : t_valuation ec ins v.
Hypothesis Hvd : forall g gate, ec_gate ec g = Some gate -> has_dim (ty g) (v g).
Hypothesis Hm0 : t_masks ec ty l0.
Hypothesis Hm1 : t_masks ec ty l1.
Hypothesis Hnd : NoDup (ec_inputs ec).
Notation pr := (tensor junk).

Definition TRS (g : gid) (a b : tshare) : Prop := tcarries (ty g) (v g) a b /\ ts_priv a = l0 g /\ ts_priv b = l1 g.
Definition TR (g : gid) (c0 c1 : cell pr) : Prop :=
  match c0, c1 with CS a, CS b => TRS g a b | _, _ => False end.
Definition TI (g : gid) (c0 c1 : cell pr) : Prop :=
  ec_gate ec g <> None ->
  match c0, c1 with CS a, CS b => ts_priv a = l0 g /\ ts_priv b = l1 g | _, _ => False end.

Lemma TR_kind g c0 c1 : TR g c0 c1 -> kind_ok (pr:=pr) ec g c0 /\ kind_ok (pr:=pr) ec g c1.
Proof.
  unfold TR, kind_ok. change (@ec_simd (p_gate pr) ec (fst g)) with (@ec_simd tensor_gate ec (fst g)).
  rewrite (proj1 Ht). destruct c0, c1; tauto.
Qed.

Lemma TR_list ps : forall c0 c1, all3 TR ps c0 c1 ->
  exists x0 x1, omap (cell_scalar (pr:=pr)) c0 = Some x0 /\ omap (cell_scalar (pr:=pr)) c1 = Some x1 /\ all3 TRS ps x0 x1.
Proof.
  intros c0 c1 H. induction H as [|p c d ps c0 c1 Hp H (x0 & x1 & A & B & C)].
  - exists [], []. repeat split; auto. constructor.
  - destruct c as [a|]; [|destruct Hp]. destruct d as [b|]; [|destruct Hp].
    exists (a :: x0), (b :: x1). split; [apply omap_cons; auto|]. split; [apply omap_cons; auto|].
    constructor; auto.
Qed.

(** The input storages of both parties. *)
Definition tinputs_ok (s0 s1 : list tshare) : Prop :=
  forall i id x, nth_error (ec_inputs ec) i = Some id -> nth_error ins i = Some x ->
  exists a b, nth_error s0 i = Some a /\ nth_error s1 i = Some b /\
    tcarries (ty (0, id)) x a b /\ ts_priv a = l0 (0, id) /\ ts_priv b = l1 (0, id).

(** Gates evaluated by [evaluate_non_interactive] on their operands. *)
Lemma t_local g gate x0 x1 :
  ec_gate ec g = Some gate -> t_is_interactive gate = false ->
  match gate with TBase GInput _ => False | _ => True end ->
  all3 TRS (ec_parents ec g) x0 x1 ->
  exists r0 r1, t_eval_ni 0 gate x0 = Some r0 /\ t_eval_ni 1 gate x1 = Some r1 /\ TRS g r0 r1.
Proof.
  intros Hg Hi Hk HA. destruct (proj2 Ht g gate Hg) as (Hd & HT & Hpd & _). pose proof (Hv g gate Hg) as HV.
  pose proof (Hvd g gate Hg) as HD.
  destruct (Hm0 g gate Hg) as [D0 M0]. destruct (Hm1 g gate Hg) as [D1 M1].
  assert (L1 : map ty (ec_parents ec g) = [ty g] ->
    exists p a b, ec_parents ec g = [p] /\ ty p = ty g /\ x0 = [a] /\ x1 = [b] /\ TRS p a b).
  { intros L. destruct (ec_parents ec g) as [|p [|? ?]]; try discriminate. cbn in L. injection L as L.
    destruct (all3_cons_inv _ _ _ _ _ HA) as (a & b & r0 & r1 & -> & -> & X & HA').
    apply all3_nil_inv in HA'. destruct HA' as [-> ->]. exists p, a, b. auto. }
  assert (L2 : forall d d', map ty (ec_parents ec g) = [d; d'] ->
    exists p q a b a' b', ec_parents ec g = [p; q] /\ ty p = d /\ ty q = d' /\ x0 = [a; a'] /\ x1 = [b; b'] /\ TRS p a b /\ TRS q a' b').
  { intros d d' L. destruct (ec_parents ec g) as [|p [|q [|? ?]]]; try discriminate. cbn in L. injection L as La Lb.
    destruct (all3_cons_inv _ _ _ _ _ HA) as (a & b & r0 & r1 & -> & -> & X & HA').
    destruct (all3_cons_inv _ _ _ _ _ HA') as (a' & b' & r0' & r1' & -> & -> & X' & HA'').
    apply all3_nil_inv in HA''. destruct HA'' as [-> ->]. exists p, q, a, b, a', b'. auto 10. }
  destruct gate as [[] dim| | | | | |rows cols|]; cbn [gate_dims] in HT; try contradiction; try discriminate;
    try (destruct (L1 HT) as (p & a & b & Ep & Et & -> & -> & C & E0 & E1); rewrite Ep in HV, M0, M1;
         cbn [map tensor_sem mask_rule] in HV, M0, M1; injection HV as HV; injection M0 as M0; injection M1 as M1;
         exists a, b; split; [reflexivity|]; split; [reflexivity|]; unfold TRS; rewrite <- Et, <- HV, <- M0, <- M1; auto).
  destruct HT as [HT Eg]. destruct (L2 _ _ HT) as (p & q & a & b & a' & b' & Ep & T1 & T2 & -> & -> & (C & E0 & E1) & (C' & E0' & E1')).
  rewrite Ep in HV, M0, M1. cbn [map tensor_sem mask_rule] in HV, M0, M1.
  destruct HV as (xa & xb & X1 & X2). injection X1 as XA XB.
  destruct M0 as (ma & mb & Y1 & Y2). injection Y1 as YA YB. destruct M1 as (na & nb & Z1 & Z2). injection Z1 as ZA ZB.
  rewrite T1, XA in C. rewrite T2, XB in C'. rewrite YA in E0. rewrite YB in E0'. rewrite ZA in E1. rewrite ZB in E1'.
  destruct a as [a|?|?]; try discriminate. destruct b as [b|?|?]; try discriminate.
  destruct a' as [a'|?|?]; try discriminate. destruct b' as [b'|?|?]; try discriminate.
  exists (SScalar (as_xor a a')), (SScalar (as_xor b b')). split; [reflexivity|]. split; [reflexivity|].
  unfold TRS. rewrite Eg, X2. split; [apply ts_xor_bit; auto|]. cbn in *. split; congruence.
Qed.

Lemma t_ni_sound s0 s1 : tinputs_ok s0 s1 ->
  ni_sound (pr:=pr) tensor_ops ec TR TI (@IScalar pr s0) (@IScalar pr s1).
Proof.
  intros Hin g gate cur0 cur1 ps0 ps1 Hg Hi K0 K1 HI HA.
  change (@ec_parents (p_gate pr) ec g) with (@ec_parents tensor_gate ec g) in HA.
  change (@ec_gate (p_gate pr) ec g) with (@ec_gate tensor_gate ec g) in Hg.
  change (g_inter tensor_ops gate) with (t_is_interactive gate) in Hi.
  destruct (proj2 Ht g gate Hg) as (Hd & HT & Hpd & HT2). pose proof (Hv g gate Hg) as HV.
  enough (HE : exists r0 r1 : tshare,
    eval_cell (pr:=pr) 0 ec (ec_main_simd (pr:=pr) ec) (@IScalar pr s0) g gate cur0 ps0 = Some (@CS pr r0) /\
    eval_cell (pr:=pr) 1 ec (ec_main_simd (pr:=pr) ec) (@IScalar pr s1) g gate cur1 ps1 = Some (@CS pr r1) /\ TRS g r0 r1).
  { destruct HE as (r0 & r1 & E0 & E1 & HR). exists (@CS pr r0), (@CS pr r1).
    destruct (TR_kind g (@CS pr r0) (@CS pr r1) HR). auto. }
  assert (Hms : ec_main_simd (pr:=pr) ec = false).
  { unfold ec_main_simd. change (@ec_simd (p_gate pr) ec 0) with (@ec_simd tensor_gate ec 0). rewrite (proj1 Ht). auto. }
  rewrite Hms.
  assert (Hs : @ec_simd (p_gate pr) ec (fst g) = None) by apply (proj1 Ht).
  destruct (match gate with TBase GInput _ => true | _ => false end) eqn:Ein.
  - destruct gate as [[] dim| | | | | |rows cols|]; try discriminate.
    destruct HT2 as [HT1 HT2]. destruct HV as (i & Hi1 & Hi2).
    destruct (Hin i (snd g) (v g) Hi1 Hi2) as (a & b & X & Y & C & D0 & D1).
    exists a, b. unfold eval_cell. change (p_as_base pr) with t_as_base. cbn [t_as_base].
    rewrite HT1. cbn [Nat.eqb oassert obind].
    change (@ec_inputs (p_gate pr) ec) with (@ec_inputs tensor_gate ec).
    rewrite (index_of_some _ _ _ Hnd Hi1). cbn [obind].
    change (nth_error s0 i) with (@nth_error tshare s0 i). change (nth_error s1 i) with (@nth_error tshare s1 i).
    rewrite X, Y. split; [reflexivity|]. split; [reflexivity|].
    destruct g as [sc id]. cbn in HT1. subst sc. split; auto.
  - destruct (TR_list _ _ _ HA) as (x0 & x1 & X0 & X1 & HA').
    destruct (t_local g gate x0 x1 Hg Hi) as (r0 & r1 & R0 & R1 & R2); auto.
    { destruct gate as [[] dim| | | | | |rows cols|]; try exact I. discriminate. }
    exists r0, r1. unfold eval_cell. change (p_as_base pr) with t_as_base. change (p_eval_ni pr) with t_eval_ni.
    split; [|split; [|auto]].
    + destruct gate as [[] dim| | | | | |rows cols|]; cbn [t_as_base]; try discriminate; try contradiction;
        rewrite Hs; rewrite X0; cbn [obind]; rewrite R0; reflexivity.
    + destruct gate as [[] dim| | | | | |rows cols|]; cbn [t_as_base]; try discriminate; try contradiction;
        rewrite Hs; rewrite X1; cbn [obind]; rewrite R1; reflexivity.
Qed.

Definition t_ok (l : elayer) (st0 st1 : list tval) : Prop :=
  exists E0 E1, st0 = rev E0 /\ st1 = rev E1 /\ all3 (teval_ok ec ty l0 l1) (el_int l) E0 E1.
Definition t_J (ls : list elayer) (s0 s1 : list tval) : Prop :=
  Forall (fun l => el_int_count l = length (el_int l)) ls /\
  exists E0 E1, s0 = rev E0 /\ s1 = rev E1 /\ all3 (teval_ok ec ty l0 l1) (concat (map el_int ls)) E0 E1.

Lemma t_request_rev (E : list tval) n : n <= length E ->
  t_request (rev E) n = Some (rev (firstn n E), rev (skipn n E)).
Proof.
  intros H. unfold t_request. rewrite rev_length.
  replace (n <=? length E) with true by (symmetry; apply Nat.leb_le; auto). cbn [oassert obind].
  rewrite <- (firstn_skipn n E) at 2 4. rewrite rev_app_distr.
  assert (L : length (rev (skipn n E)) = length E - n) by (rewrite rev_length, skipn_length; auto).
  rewrite <- L. rewrite skipn_app, skipn_all, Nat.sub_diag, firstn_app, firstn_all, Nat.sub_diag.
  cbn [firstn skipn app]. rewrite app_nil_r. reflexivity.
Qed.

Lemma t_serves : serves_l t_request t_ok t_J.
Proof.
  intros l ls s0 s1 (HF & E0 & E1 & -> & -> & HA). inversion HF as [|? ? H1 H2]; subst.
  cbn [map concat] in HA. destruct (all3_split _ _ _ _ _ HA) as [A B]. destruct (all3_length _ _ _ _ HA) as [L0 L1].
  rewrite app_length in L0, L1. rewrite H1. rewrite !t_request_rev by lia.
  eexists _, _, _, _. split; [reflexivity|]. split; [reflexivity|]. split.
  - eexists _, _. split; [reflexivity|]. split; [reflexivity|]. exact A.
  - split; auto. eexists _, _. split; [reflexivity|]. split; [reflexivity|]. exact B.
Qed.

(** One interactive gate. *)
Lemma t_gate g gate a0 a1 b0 b1 e0 e1 o0 o1 p q : ec_gate ec g = Some gate -> t_is_interactive gate = true ->
  ec_parents ec g = [p; q] -> TRS p a0 a1 -> TRS q b0 b1 -> teval_ok ec ty l0 l1 g e0 e1 ->
  ts_priv o0 = l0 g -> ts_priv o1 = l1 g ->
  forall s0 s1, exists d0 d1 d r0 r1,
    t_input_size gate = 2 /\
    t_delta_share junk 0 gate [a0; b0] (s0 ++ [e0]) o0 = Some (d0, s0) /\
    t_delta_share junk 1 gate [a1; b1] (s1 ++ [e1]) o1 = Some (d1, s1) /\
    tv_xor d0 d1 = Some d /\ tv_xor d1 d0 = Some d /\
    ts_set_public o0 d = Some r0 /\ ts_set_public o1 d = Some r1 /\ TRS g r0 r1.
Proof.
  intros Hg Hi Ep (C & C0 & C1) (D & D0 & D1) (E0 & E1 & p' & q' & Ep' & HE) O0 O1 s0 s1.
  rewrite Ep in Ep'. injection Ep' as <- <-.
  destruct (proj2 Ht g gate Hg) as (Hd & HT & Hpd & _). pose proof (Hv g gate Hg) as HV. pose proof (Hvd g gate Hg) as HD.
  destruct (Hm0 g gate Hg) as [M0 _]. destruct (Hm1 g gate Hg) as [M1 _]. rewrite Ep in HT, HV. cbn [map] in HT, HV.
  destruct gate as [[] dim| | | | | |rows cols|]; try discriminate; cbn [gate_dims] in HT; try contradiction.
  - destruct HT as [HT Eg]. injection HT as Tp Tq. rewrite Eg, Tp in *. rewrite Tq in *.
    destruct (and2_delta junk (v p) (v q) a0 a1 b0 b1 e0 e1 o0 o1 C D E0 E1) with (s0 := s0) (s1 := s1)
      as (d0 & d1 & d & r0 & r1 & A1 & A2 & A3 & A4 & A5 & A6 & A7 & A8 & x & A9 & A10).
    { rewrite O0. auto. } { rewrite O1. auto. }
    { rewrite (HE 0 0 I), C0, C1, D0, D1. reflexivity. }
    exists d0, d1, d, r0, r1. split; [reflexivity|]. do 6 (split; [auto|]).
    assert (x = v g). { apply (tensor_sem_fun TAnd2 [v p; v q] x (v g) DBit); [exact I|apply A9|exact HD|exact A10|exact HV]. }
    subst x. unfold TRS. rewrite Eg. split; [exact A9|]. split; congruence.
  - destruct HT as (k & HT & Eg). injection HT as Tp Tq. rewrite Eg, Tp in *. rewrite Tq in *.
    destruct (matmult_delta junk rows k cols (v p) (v q) a0 a1 b0 b1 e0 e1 o0 o1) with (s0 := s0) (s1 := s1)
      as (d0 & d1 & d & r0 & r1 & A1 & A2 & A3 & A4 & A5 & A6 & A7 & A8 & x & A9 & A10); auto.
    { rewrite <- Tp. apply Hpd. rewrite Ep. cbn. auto. }
    { rewrite <- Tq. apply Hpd. rewrite Ep. cbn. auto. }
    { rewrite O0. auto. } { rewrite O1. auto. }
    { intros i j Hi' Hj. rewrite (HE i j (conj Hi' Hj)), C0, C1, D0, D1. reflexivity. }
    exists d0, d1, d, r0, r1. split; [reflexivity|]. do 6 (split; [auto|]).
    assert (x = v g). { apply (tensor_sem_fun (TMatMult rows cols) [v p; v q] x (v g) (DMat rows cols)); [exact Hd|apply A9|exact HD|exact A10|exact HV]. }
    subst x. unfold TRS. rewrite Eg. split; [exact A9|]. split; congruence.
Qed.

(** The interactive gates of one layer. *)
Lemma t_layer gs : forall sg so0 so1 si0 si1 E0 E1,
  omap (ec_gate ec) gs = Some sg -> forallb t_is_interactive sg = true ->
  all3 (fun g a b => ts_priv a = l0 g /\ ts_priv b = l1 g) gs so0 so1 ->
  all3 TRS (concat (map (ec_parents ec) gs)) si0 si1 ->
  all3 (teval_ok ec ty l0 l1) gs E0 E1 ->
  exists d0 d1 r0 r1, t_compute_msg junk 0 sg so0 si0 (rev E0) = Some (d0, []) /\
    t_compute_msg junk 1 sg so1 si1 (rev E1) = Some (d1, []) /\
    t_eval_all so0 d0 d1 = Some r0 /\ t_eval_all so1 d1 d0 = Some r1 /\ all3 TRS gs r0 r1.
Proof.
  induction gs as [|g gs IH]; intros sg so0 so1 si0 si1 E0 E1 Hsg Hint HO HI HE.
  - cbn in Hsg. injection Hsg as <-. apply all3_nil_inv in HO, HI, HE.
    destruct HO as [-> ->], HI as [-> ->], HE as [-> ->]. exists [], [], [], []. cbn. repeat split; auto. constructor.
  - cbn [omap] in Hsg. destruct (ec_gate ec g) as [gate|] eqn:Hg; [|discriminate]. cbn [obind] in Hsg.
    destruct (omap (ec_gate ec) gs) as [sg'|] eqn:Hsg'; [|discriminate]. cbn [obind] in Hsg. injection Hsg as <-.
    cbn [forallb] in Hint. apply andb_prop in Hint. destruct Hint as [Hint1 Hint2].
    destruct (all3_cons_inv _ _ _ _ _ HO) as (o0 & o1 & ro0 & ro1 & -> & -> & [O0 O1] & HO').
    destruct (all3_cons_inv _ _ _ _ _ HE) as (e0 & e1 & re0 & re1 & -> & -> & EE & HE').
    pose proof EE as (_ & _ & p & q & Ep & _).
    cbn [map concat] in HI. rewrite Ep in HI. cbn [app] in HI.
    destruct (all3_cons_inv _ _ _ _ _ HI) as (a0 & a1 & si0' & si1' & -> & -> & HA & HI1).
    destruct (all3_cons_inv _ _ _ _ _ HI1) as (b0 & b1 & si0 & si1 & -> & -> & HB & HI2).
    destruct (IH sg' ro0 ro1 si0 si1 re0 re1 eq_refl Hint2 HO' HI2 HE') as (d0 & d1 & r0 & r1 & M0 & M1 & V0 & V1 & HR).
    destruct (t_gate g gate a0 a1 b0 b1 e0 e1 o0 o1 p q Hg Hint1 Ep HA HB EE O0 O1 (rev re0) (rev re1))
      as (x0 & x1 & d & s0 & s1 & Sz & D0 & D1 & X0 & X1 & S0 & S1 & HS).
    exists (x0 :: d0), (x1 :: d1), (s0 :: r0), (s1 :: r1).
    cbn [t_compute_msg rev]. rewrite Sz. cbn [firstn skipn]. rewrite D0, D1. cbn [obind]. rewrite M0, M1. cbn [obind].
    split; auto. split; auto. cbn [t_eval_all]. rewrite X0, X1. cbn [obind]. rewrite S0, S1. cbn [obind].
    rewrite V0, V1. cbn [obind]. split; auto. split; auto. constructor; auto.
Qed.

Lemma t_int_sound l : (forall sc simd b, In (sc, simd, b) l -> simd = None) ->
  (forall g, In g (el_int l) -> exists gate, ec_gate ec g = Some gate /\ t_is_interactive gate = true) ->
  int_sound (pr:=pr) ec TR TI (fun _ => t_ok l) l.
Proof.
  intros Hl Hg st0 st1 sg dg so0 so1 si0 si1 do0 do1 di0 di1 (E0 & E1 & -> & -> & HE) Hsg Hdg HO HI HD HDI.
  destruct (el_scalar_all l Hl) as (A & B & _). rewrite A in *. rewrite B in *.
  cbn in Hdg. injection Hdg as <-. apply all3_nil_inv in HD, HDI. destruct HD as [-> ->], HDI as [-> ->].
  change (@ec_gate (p_gate pr) ec) with (@ec_gate tensor_gate ec) in Hsg.
  destruct (t_layer (el_int l) sg so0 so1 si0 si1 E0 E1 Hsg) as (d0 & d1 & r0 & r1 & M0 & M1 & V0 & V1 & HR); auto.
  - clear - Hsg Hg. revert sg Hsg Hg. induction (el_int l) as [|g gs IH]; intros sg H Hg; cbn in H.
    + injection H as <-. auto.
    + destruct (Hg g) as (gate & G1 & G2); [cbn; auto|]. rewrite G1 in H. cbn [obind] in H.
      destruct (omap (ec_gate ec) gs) as [r|] eqn:Er; [|discriminate]. cbn [obind] in H. injection H as <-.
      cbn. rewrite G2. apply IH; [exact Er|]. intros; apply Hg; cbn; auto.
  - eapply all3_impl; [|exact HO]. intros g a b Hin Hx. apply Hx. destruct (Hg g Hin) as (gate & G1 & _).
    change (@ec_gate tensor_gate ec g <> None). congruence.
  - exists r0, r1, [], []. unfold pair_layer. change (p_compute_msg pr) with (t_compute_msg junk).
    change (p_simd_support pr) with false. rewrite M0. cbn [obind]. rewrite M1. cbn [obind].
    change (p_eval_int pr) with (fun (_ : nat) (_ : list tensor_gate) (outs : list tshare) (mine other : list tval) (st : list tval) => r <- t_eval_all outs mine other ;; Some (r, st)).
    cbv beta. rewrite V0. cbn [obind]. rewrite V1. cbn [obind].
    split; [reflexivity|]. split; [exact HR|constructor].
Qed.

Lemma t_sched_layers Live Todo ls : sched_ok tensor_ops ec Live Todo ls ->
  forall l, In l ls -> (forall sc simd b, In (sc, simd, b) l -> simd = None) /\
    (forall g, In g (el_int l) -> exists gate, ec_gate ec g = Some gate /\ t_is_interactive gate = true).
Proof.
  revert Live Todo. induction ls as [|l ls IH]; intros Live Todo HS x Hx; [destruct Hx|].
  destruct HS as [HL HS]. destruct Hx as [<-|Hx]; [|eapply IH; eauto]. split.
  - intros sc simd b Hin. destruct (lo_simd _ _ _ _ _ HL sc simd b Hin) as [E _]. rewrite <- E. apply (proj1 Ht).
  - intros g Hg. apply (lo_int _ _ _ _ _ HL g Hg).
Qed.

Theorem t_exec_sound Todo go0 go1 s0 s1 t0 t1 :
  tinputs_ok s0 s1 -> length s0 = length (ec_inputs ec) -> length s1 = length (ec_inputs ec) ->
  sched_ok tensor_ops ec (fun _ => False) Todo (ec_layers ec) ->
  shape_ok (pr:=pr) ec go0 -> shape_ok (pr:=pr) ec go1 ->
  (forall g c0 c1, Todo g -> go_cell (pr:=pr) go0 g = Some c0 -> go_cell (pr:=pr) go1 g = Some c1 -> TI g c0 c1) ->
  (exists E0 E1, t0 = rev E0 /\ t1 = rev E1 /\ all3 (teval_ok ec ty l0 l1) (concat (map el_int (ec_layers ec))) E0 E1) ->
  exists o0 o1 s',
    ex2_run (pr:=pr) t_request ec (@IScalar pr s0) (@IScalar pr s1) ((go0, t0), (go1, t1)) =
      Some (@IScalar pr o0, @IScalar pr o1, s') /\
    all3 TRS (map (pair 0) (ec_outputs ec)) o0 o1.
Proof.
  intros Hin Ls0 Ls1 HS Sh0 Sh1 HTodo (E0 & E1 & -> & -> & HE).
  pose proof (t_sched_layers _ _ _ HS) as HL.
  destruct (run_sound_l (pr:=pr) tensor_ops ec TR TI TR_kind t_request t_ok t_J t_serves
              (@IScalar pr s0) (@IScalar pr s1) (t_ni_sound s0 s1 Hin)
              (fun _ => False) Todo go0 go1 (rev E0) (rev E1)) as (o0 & o1 & a & b & c & d & E & HR & _); auto.
  - intros l Hl. destruct (HL l Hl) as [A B]. split; [apply t_int_sound; auto|].
    destruct (el_scalar_all l A) as (X & Y & _). split.
    + split; intros g p Hg Hp; [apply (proj1 Ht)|]. rewrite Y in Hg. destruct Hg.
    + intros _. rewrite Y. reflexivity.
  - constructor; auto. intros g [].
  - split.
    + apply Forall_forall. intros l Hl. unfold int_layers in Hl. apply filter_In in Hl. destruct Hl as [Hl _].
      apply el_scalar_all. apply (HL l Hl).
    + exists E0, E1. split; auto. split; auto.
      rewrite int_layers_concat; [exact HE|]. intros l Hl. apply el_scalar_all. apply (HL l Hl).
  - change (@ec_simd (p_gate pr) ec 0) with (@ec_simd tensor_gate ec 0) in HR. rewrite (proj1 Ht) in HR.
    destruct o0 as [o0|]; [|destruct HR]. destruct o1 as [o1|]; [|destruct HR].
    exists o0, o1. eexists. split; [exact E|]. exact HR.
Qed.
End Exec.
