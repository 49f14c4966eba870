(** Whole ABY2 executions. *)
From Coq Require Import List Bool Arith Lia Permutation.
Require Import Verif.Prelude Verif.PreludeProofs Verif.GateModel Verif.ProtocolModel Verif.CircuitModel
  Verif.ExecModel Verif.ExecSpec Verif.ExecProofs Verif.ExecLayerProofs Verif.Aby2Model Verif.Aby2Spec Verif.Aby2Proofs.
Import ListNotations.
Open Scope nat_scope.

Lemma all3_nth {A B C} (R : A -> B -> C -> Prop) la lb lc : all3 R la lb lc ->
  forall i a, nth_error la i = Some a -> exists b c, nth_error lb i = Some b /\ nth_error lc i = Some c /\ R a b c.
Proof.
  induction 1 as [|x y z la lb lc H H' IH]; intros [|i] u E; cbn in *; try discriminate; eauto.
  injection E as <-. eauto.
Qed.

Lemma index_of_some l : forall i x, NoDup l -> nth_error l i = Some x -> index_of l x = Some i.
Proof.
  induction l as [|y l IH]; intros [|i] x H E; cbn in *; try discriminate.
  - injection E as ->. rewrite Nat.eqb_refl. auto.
  - inversion H; subst. destruct (Nat.eqb_spec x y) as [->|].
    + exfalso. apply nth_error_In in E. auto.
    + rewrite (IH i); auto.
Qed.

Section AbyExec.
Variable ec : ecirc aby_gate.
Variables (v l0 l1 : gid -> bool) (ins : list bool).
Hypothesis Ht : aby_typed ec.
Hypothesis Hf : fan_in_two ec.
Hypothesis Hv : aby_valuation ec ins v.
Hypothesis Hm0 : aby_masks ec l0.
Hypothesis Hm1 : aby_masks ec l1.
Hypothesis Hnd : NoDup (ec_inputs ec).
Notation pr := aby2.

Definition ARS (g : gid) (a b : ashare) : Prop := carries (v g) a b /\ as_priv a = l0 g /\ as_priv b = l1 g.
Definition AR (g : gid) (c0 c1 : cell pr) : Prop :=
  match c0, c1 with CS a, CS b => ARS g a b | _, _ => False end.
Definition AI (g : gid) (c0 c1 : cell pr) : Prop :=
  ec_gate ec g <> None ->
  match c0, c1 with CS a, CS b => as_priv a = l0 g /\ as_priv b = l1 g | _, _ => False end.

Lemma AR_kind g c0 c1 : AR g c0 c1 -> kind_ok (pr:=pr) ec g c0 /\ kind_ok (pr:=pr) ec g c1.
Proof.
  unfold AR, kind_ok. change (@ec_simd (p_gate pr) ec (fst g)) with (@ec_simd aby_gate ec (fst g)).
  rewrite (proj1 Ht). destruct c0, c1; tauto.
Qed.

Lemma AR_list ps : forall c0 c1, all3 AR ps c0 c1 ->
  exists x0 x1, omap (cell_scalar (pr:=pr)) c0 = Some x0 /\ omap (cell_scalar (pr:=pr)) c1 = Some x1 /\ all3 ARS ps x0 x1.
Proof.
  intros c0 c1 H. induction H as [|p c d ps c0 c1 Hp H (x0 & x1 & A & B & C)].
  - exists [], []. repeat split; auto. constructor.
  - destruct c as [a|]; [|destruct Hp]. destruct d as [b|]; [|destruct Hp].
    exists (a :: x0), (b :: x1). split; [apply omap_cons; auto|]. split; [apply omap_cons; auto|].
    constructor; auto.
Qed.

(** The input storages of both parties. *)
Definition inputs_ok (s0 s1 : list ashare) : Prop :=
  forall i id x, nth_error (ec_inputs ec) i = Some id -> nth_error ins i = Some x ->
  exists a b, nth_error s0 i = Some a /\ nth_error s1 i = Some b /\
    carries x a b /\ as_priv a = l0 (0, id) /\ as_priv b = l1 (0, id).

(** Gates evaluated by [evaluate_non_interactive] on their operands. *)
Lemma aby_local g gate x0 x1 :
  ec_gate ec g = Some gate -> aby_is_interactive gate = false ->
  match gate with ABase GInput | ABase (GConstant _) => False | _ => True end ->
  all3 ARS (ec_parents ec g) x0 x1 ->
  exists r0 r1, aby_eval_ni 0 gate x0 = Some r0 /\ aby_eval_ni 1 gate x1 = Some r1 /\ ARS g r0 r1.
Proof.
  intros Hg Hi Hk HA. pose proof (proj2 Ht g gate Hg) as HT. pose proof (Hv g gate Hg) as HV.
  pose proof (Hm0 g gate Hg) as M0. pose proof (Hm1 g gate Hg) as M1.
  assert (L1 : length (ec_parents ec g) = 1 ->
    exists p a b, ec_parents ec g = [p] /\ x0 = [a] /\ x1 = [b] /\ ARS p a b).
  { intros L. destruct (ec_parents ec g) as [|p [|? ?]]; try discriminate.
    destruct (all3_cons_inv _ _ _ _ _ HA) as (a & b & r0 & r1 & -> & -> & X & HA').
    apply all3_nil_inv in HA'. destruct HA' as [-> ->]. exists p, a, b. auto. }
  assert (L2 : length (ec_parents ec g) = 2 ->
    exists p q a b a' b', ec_parents ec g = [p; q] /\ x0 = [a; a'] /\ x1 = [b; b'] /\ ARS p a b /\ ARS q a' b').
  { intros L. destruct (ec_parents ec g) as [|p [|q [|? ?]]]; try discriminate.
    destruct (all3_cons_inv _ _ _ _ _ HA) as (a & b & r0 & r1 & -> & -> & X & HA').
    destruct (all3_cons_inv _ _ _ _ _ HA') as (a' & b' & r0' & r1' & -> & -> & X' & HA'').
    apply all3_nil_inv in HA''. destruct HA'' as [-> ->]. exists p, q, a, b, a', b'. auto 10. }
  destruct gate as [[]|n| |]; cbn [aby_gate_typed] in HT; try contradiction; try discriminate;
    try (destruct (L1 HT) as (p & a & b & Ep & -> & -> & C & D0 & D1); rewrite Ep in *; cbn in HV, M0, M1;
         injection HV as HV; exists a, b; split; [reflexivity|]; split; [reflexivity|];
         split; [rewrite <- HV; exact C|]; split; congruence).
  - destruct (L2 HT) as (p & q & a & b & a' & b' & Ep & -> & -> & (C & D0 & D1) & (C' & D0' & D1')).
    rewrite Ep in *. cbn in HV, M0, M1. injection HV as HV.
    exists (as_xor a a'), (as_xor b b'). split; [reflexivity|]. split; [reflexivity|].
    split; [rewrite <- HV; apply carries_xor; auto|]. cbn. split; congruence.
  - destruct (L1 HT) as (p & a & b & Ep & -> & -> & C & D0 & D1). rewrite Ep in *. cbn in HV, M0, M1.
    injection HV as HV. exists (as_not a), (as_not b). split; [reflexivity|]. split; [reflexivity|].
    split; [rewrite <- HV; apply carries_not; auto|]. cbn. split; congruence.
Qed.

Lemma aby_ni_sound s0 s1 : inputs_ok s0 s1 ->
  ni_sound (pr:=pr) aby_ops ec AR AI (@IScalar aby2 s0) (@IScalar aby2 s1).
Proof.
  intros Hin g gate cur0 cur1 ps0 ps1 Hg Hi K0 K1 HI HA.
  change (@ec_parents (p_gate pr) ec g) with (@ec_parents aby_gate ec g) in HA.
  change (@ec_gate (p_gate pr) ec g) with (@ec_gate aby_gate ec g) in Hg.
  change (g_inter aby_ops gate) with (aby_is_interactive gate) in Hi.
  pose proof (proj2 Ht g gate Hg) as HT. pose proof (Hv g gate Hg) as HV.
  assert (HI' : match cur0, cur1 with CS a, CS b => as_priv a = l0 g /\ as_priv b = l1 g | _, _ => False end).
  { apply HI. rewrite Hg. discriminate. }
  enough (HE : exists r0 r1 : ashare,
    eval_cell (pr:=pr) 0 ec (ec_main_simd (pr:=pr) ec) (@IScalar aby2 s0) g gate cur0 ps0 = Some (@CS aby2 r0) /\
    eval_cell (pr:=pr) 1 ec (ec_main_simd (pr:=pr) ec) (@IScalar aby2 s1) g gate cur1 ps1 = Some (@CS aby2 r1) /\ ARS g r0 r1).
  { destruct HE as (r0 & r1 & E0 & E1 & HR). exists (@CS aby2 r0), (@CS aby2 r1).
    destruct (AR_kind g (@CS aby2 r0) (@CS aby2 r1) HR). auto. }
  assert (Hms : ec_main_simd (pr:=pr) ec = false).
  { unfold ec_main_simd. change (@ec_simd (p_gate pr) ec 0) with (@ec_simd aby_gate ec 0). rewrite (proj1 Ht). auto. }
  rewrite Hms.
  assert (Hs : @ec_simd (p_gate pr) ec (fst g) = None) by apply (proj1 Ht).
  destruct gate as [b|n| |] eqn:Eg.
  - destruct b as [ | | | | |sel| |c| ].
    2:{ (* Input *)
      destruct HT as [HT1 HT2]. destruct HV as (i & Hi1 & Hi2).
      destruct (Hin i (snd g) (v g) Hi1 Hi2) as (a & b & X & Y & C & D0 & D1).
      exists a, b. unfold eval_cell. cbn [p_as_base aby2 aby_as_base].
      rewrite HT1. cbn [Nat.eqb oassert obind].
      change (@ec_inputs (p_gate pr) ec) with (@ec_inputs aby_gate ec).
      rewrite (index_of_some _ _ _ Hnd Hi1). cbn [obind].
      change (nth_error s0 i) with (@nth_error ashare s0 i). change (nth_error s1 i) with (@nth_error ashare s1 i).
      rewrite X, Y. split; [reflexivity|]. split; [reflexivity|]. split; auto.
      destruct g as [sc id]. cbn in HT1. subst sc. auto. }
    7:{ (* Constant *)
      pose proof (Hm0 g _ Hg) as M0. pose proof (Hm1 g _ Hg) as M1. cbn in M0, M1, HV. injection HV as HV.
      destruct cur0 as [u0|]; [|destruct cur1; destruct HI']. destruct cur1 as [u1|]; [|destruct HI'].
      exists (AS c false), (AS c false). unfold eval_cell. cbn [p_as_base aby2 aby_as_base]. rewrite Hs.
      split; [reflexivity|]. split; [reflexivity|]. split; [|cbn; split; congruence].
      split; auto. rewrite <- HV. destruct c; reflexivity. }
    5:{ destruct HT. }
    all: destruct (AR_list _ _ _ HA) as (x0 & x1 & X0 & X1 & HA');
      destruct (aby_local g _ x0 x1 Hg eq_refl I HA') as (r0 & r1 & R0 & R1 & R2);
      exists r0, r1; unfold eval_cell; cbn [p_as_base aby2 aby_as_base]; rewrite Hs;
      change (p_eval_ni aby2) with aby_eval_ni; split; [|split; [|auto]];
      [rewrite X0; cbn [obind]; rewrite R0; reflexivity|rewrite X1; cbn [obind]; rewrite R1; reflexivity].
  - discriminate.
  - destruct (AR_list _ _ _ HA) as (x0 & x1 & X0 & X1 & HA').
      destruct (aby_local g _ x0 x1 Hg eq_refl I HA') as (r0 & r1 & R0 & R1 & R2);
      exists r0, r1; unfold eval_cell; cbn [p_as_base aby2 aby_as_base]; rewrite Hs;
      change (p_eval_ni aby2) with aby_eval_ni; split; [|split; [|auto]];
      [rewrite X0; cbn [obind]; rewrite R0; reflexivity|rewrite X1; cbn [obind]; rewrite R1; reflexivity].
  - destruct (AR_list _ _ _ HA) as (x0 & x1 & X0 & X1 & HA').
      destruct (aby_local g _ x0 x1 Hg eq_refl I HA') as (r0 & r1 & R0 & R1 & R2);
      exists r0, r1; unfold eval_cell; cbn [p_as_base aby2 aby_as_base]; rewrite Hs;
      change (p_eval_ni aby2) with aby_eval_ni; split; [|split; [|auto]];
      [rewrite X0; cbn [obind]; rewrite R0; reflexivity|rewrite X1; cbn [obind]; rewrite R1; reflexivity].
Qed.

Definition aby_ok (l : elayer) (st0 st1 : list (list bool)) : Prop :=
  exists E0 E1, st0 = rev E0 /\ st1 = rev E1 /\ all3 (eval_ok ec l0 l1) (el_int l) E0 E1.
Definition aby_J (ls : list elayer) (s0 s1 : list (list bool)) : Prop :=
  Forall (fun l => el_int_count l = length (el_int l)) ls /\
  exists E0 E1, s0 = rev E0 /\ s1 = rev E1 /\ all3 (eval_ok ec l0 l1) (concat (map el_int ls)) E0 E1.

Lemma all3_split {A B C} (R : A -> B -> C -> Prop) la la' lb lc : all3 R (la ++ la') lb lc ->
  all3 R la (firstn (length la) lb) (firstn (length la) lc) /\
  all3 R la' (skipn (length la) lb) (skipn (length la) lc).
Proof.
  revert lb lc. induction la as [|a la IH]; intros lb lc H; cbn; [split; auto; constructor|].
  destruct (all3_cons_inv _ _ _ _ _ H) as (b & c & rb & rc & -> & -> & X & H').
  destruct (IH _ _ H'). split; auto. constructor; auto.
Qed.

Lemma request_rev (E : list (list bool)) n : n <= length E ->
  aby_request (rev E) n = Some (rev (firstn n E), rev (skipn n E)).
Proof.
  intros H. unfold aby_request. rewrite rev_length.
  replace (n <=? length E) with true by (symmetry; apply Nat.leb_le; auto). cbn [oassert obind].
  rewrite <- (firstn_skipn n E) at 2 4. rewrite rev_app_distr.
  assert (L : length (rev (skipn n E)) = length E - n) by (rewrite rev_length, skipn_length; auto).
  rewrite <- L. rewrite skipn_app, skipn_all, Nat.sub_diag, firstn_app, firstn_all, Nat.sub_diag.
  cbn [firstn skipn app]. rewrite app_nil_r. reflexivity.
Qed.

Lemma aby_serves : serves_l aby_request aby_ok aby_J.
Proof.
  intros l ls s0 s1 (HF & E0 & E1 & -> & -> & HA). inversion HF as [|? ? H1 H2]; subst.
  cbn [map concat] in HA. destruct (all3_split _ _ _ _ _ HA) as [A B]. destruct (all3_length _ _ _ _ HA) as [L0 L1].
  rewrite app_length in L0, L1. rewrite H1. rewrite !request_rev by lia.
  eexists _, _, _, _. split; [reflexivity|]. split; [reflexivity|]. split.
  - eexists _, _. split; [reflexivity|]. split; [reflexivity|]. exact A.
  - split; auto. eexists _, _. split; [reflexivity|]. split; [reflexivity|]. exact B.
Qed.

(** The AND gates of one layer. *)
Lemma aby_and_layer gs : forall sg so0 so1 si0 si1 E0 E1,
  omap (ec_gate ec) gs = Some sg -> forallb aby_is_interactive sg = true ->
  all3 (fun g a b => as_priv a = l0 g /\ as_priv b = l1 g) gs so0 so1 ->
  all3 ARS (concat (map (ec_parents ec) gs)) si0 si1 ->
  all3 (eval_ok ec l0 l1) gs E0 E1 ->
  exists d0 d1, aby_compute_msg 0 sg so0 si0 (rev E0) = Some (d0, []) /\
    aby_compute_msg 1 sg so1 si1 (rev E1) = Some (d1, []) /\
    all3 ARS gs (zip_with (fun od o => AS (xorb (snd od) o) (as_priv (fst od))) (combine so0 d0) d1)
                (zip_with (fun od o => AS (xorb (snd od) o) (as_priv (fst od))) (combine so1 d1) d0).
Proof.
  induction gs as [|g gs IH]; intros sg so0 so1 si0 si1 E0 E1 Hsg Hint HO HI HE.
  - cbn in Hsg. injection Hsg as <-. apply all3_nil_inv in HO, HI, HE.
    destruct HO as [-> ->], HI as [-> ->], HE as [-> ->]. exists [], []. cbn. repeat split; auto. constructor.
  - cbn [omap] in Hsg. destruct (ec_gate ec g) as [gate|] eqn:Hg; [|discriminate]. cbn [obind] in Hsg.
    destruct (omap (ec_gate ec) gs) as [sg'|] eqn:Hsg'; [|discriminate]. cbn [obind] in Hsg. injection Hsg as <-.
    cbn [forallb] in Hint. apply andb_prop in Hint. destruct Hint as [Hint1 Hint2].
    destruct gate as [|n| |]; try discriminate.
    destruct (all3_cons_inv _ _ _ _ _ HO) as (o0 & o1 & ro0 & ro1 & -> & -> & [O0 O1] & HO').
    destruct (all3_cons_inv _ _ _ _ _ HE) as (e0 & e1 & re0 & re1 & -> & -> & (ps & PP & Le & EE) & HE').
    cbn [map concat] in HI. destruct (all3_split _ _ _ _ _ HI) as [I1 I2].
    pose proof (proj2 Ht g _ Hg) as Hn. cbn in Hn. rewrite Hn in I1, I2.
    destruct (IH sg' ro0 ro1 _ _ re0 re1 eq_refl Hint2 HO' I2 HE') as (d0 & d1 & M0 & M1 & HR).
    pose proof (Hv g _ Hg) as HV. cbn [aby_sem] in HV. rewrite map_length, Hn, Nat.eqb_refl in HV. injection HV as HV.
    destruct (and_gate n (firstn n si0) (firstn n si1) (map v (ec_parents ec g)) e0 e1 o0 o1
                (map (fun p => xorb (l0 p) (l1 p)) ps)) as (x0 & x1 & D0 & D1 & C); auto.
    + apply (Hf g). auto.
    + clear - I1. induction I1 as [|p a b pp aa bb [X _] I1 IH]; cbn; constructor; auto.
    + rewrite map_length. auto.
    + assert (Q : zip_with (fun a b => xorb (as_priv a) (as_priv b)) (firstn n si0) (firstn n si1) =
                  map (fun p => xorb (l0 p) (l1 p)) (ec_parents ec g)).
      { clear - I1. induction I1 as [|p a b pp aa bb (_ & X & Y) I1 IH]; cbn; auto. rewrite X, Y, IH. auto. }
      rewrite Q. apply Permutation_map. auto.
    + rewrite EE, big_subsets_map, map_map. apply map_ext. intros s. symmetry. apply forallb_map.
    + exists (x0 :: d0), (x1 :: d1). cbn [aby_compute_msg].
      change (rev (e0 :: re0)) with (rev re0 ++ [e0]). change (rev (e1 :: re1)) with (rev re1 ++ [e1]).
      rewrite !delta_share_rest, D0, D1. cbn [obind]. rewrite M0, M1. cbn [obind].
      split; auto. split; auto. cbn [combine zip_with]. constructor; auto. cbn [fst snd].
      split; [|cbn; auto]. unfold and_ids in C. rewrite HV in C. exact C.
Qed.

Lemma el_scalar_all (l : elayer) :
  (forall sc simd b, In (sc, simd, b) l -> simd = None) -> el_scalar l = l /\ el_simd l = [] /\ el_int_count l = length (el_int l).
Proof.
  induction l as [|[[sc simd] b] l IH]; intros H; [auto|].
  destruct IH as (A & B & C); [intros; eapply H; cbn; eauto|].
  pose proof (H sc simd b (or_introl eq_refl)). subst simd.
  unfold el_scalar, el_simd in *. cbn [filter]. rewrite A, B. split; auto. split; auto.
  unfold el_int_count, el_int in *. cbn [map concat]. rewrite app_length, map_length.
  change (sum_list (?a :: ?r)) with (a + sum_list r). rewrite C. rewrite Nat.mul_1_l. reflexivity.
Qed.

Lemma aby_int_sound l : (forall sc simd b, In (sc, simd, b) l -> simd = None) ->
  (forall g, In g (el_int l) -> exists gate, ec_gate ec g = Some gate /\ aby_is_interactive gate = true) ->
  int_sound (pr:=pr) ec AR AI (fun _ => aby_ok l) l.
Proof.
  intros Hl Hg st0 st1 sg dg so0 so1 si0 si1 do0 do1 di0 di1 (E0 & E1 & -> & -> & HE) Hsg Hdg HO HI HD HDI.
  destruct (el_scalar_all l Hl) as (A & B & _). rewrite A in *. rewrite B in *.
  cbn in Hdg. injection Hdg as <-. apply all3_nil_inv in HD, HDI. destruct HD as [-> ->], HDI as [-> ->].
  change (@ec_gate (p_gate pr) ec) with (@ec_gate aby_gate ec) in Hsg.
  destruct (aby_and_layer (el_int l) sg so0 so1 si0 si1 E0 E1 Hsg) as (d0 & d1 & M0 & M1 & HR); auto.
  - clear - Hsg Hg. revert sg Hsg Hg. induction (el_int l) as [|g gs IH]; intros sg H Hg; cbn in H.
    + injection H as <-. auto.
    + destruct (Hg g) as (gate & G1 & G2); [cbn; auto|]. rewrite G1 in H. cbn [obind] in H.
      destruct (omap (ec_gate ec) gs) as [r|] eqn:Er; [|discriminate]. cbn [obind] in H. injection H as <-.
      cbn. rewrite G2. apply IH; [exact Er|]. intros; apply Hg; cbn; auto.
  - eapply all3_impl; [|exact HO]. intros g a b Hin Hx. apply Hx. destruct (Hg g Hin) as (gate & G1 & _).
    change (@ec_gate aby_gate ec g <> None). congruence.
  - eexists _, _, [], []. unfold pair_layer. change (p_compute_msg pr) with aby_compute_msg.
    change (p_simd_support pr) with false. rewrite M0. cbn [obind]. rewrite M1. cbn [obind].
    change (p_eval_int pr) with aby_eval_int. unfold aby_eval_int. cbn [obind].
    split; [reflexivity|]. split; [exact HR|constructor].
Qed.

(** Layers of a schedule have no SIMD parts and are in order. *)
Lemma sched_layers Live Todo ls : sched_ok aby_ops ec Live Todo ls ->
  forall l, In l ls -> (forall sc simd b, In (sc, simd, b) l -> simd = None) /\
    (forall g, In g (el_int l) -> exists gate, ec_gate ec g = Some gate /\ aby_is_interactive gate = true).
Proof.
  revert Live Todo. induction ls as [|l ls IH]; intros Live Todo HS x Hx; [destruct Hx|].
  destruct HS as [HL HS]. destruct Hx as [<-|Hx]; [|eapply IH; eauto]. split.
  - intros sc simd b Hin. destruct (lo_simd _ _ _ _ _ HL sc simd b Hin) as [E _]. rewrite <- E. apply (proj1 Ht).
  - intros g Hg. apply (lo_int _ _ _ _ _ HL g Hg).
Qed.

Lemma int_layers_concat (ls : list elayer) : (forall l, In l ls -> el_int_count l = length (el_int l)) ->
  concat (map el_int (int_layers ls)) = concat (map el_int ls).
Proof.
  unfold int_layers. induction ls as [|l ls IH]; intros H; auto.
  cbn [map concat filter]. rewrite <- IH by (intros; apply H; cbn; auto).
  rewrite (H l) by (cbn; auto). destruct (el_int l) as [|g r] eqn:El; cbn [length Nat.eqb negb]; [reflexivity|].
  cbn [map concat]. rewrite El. reflexivity.
Qed.

Theorem aby_exec_sound Todo go0 go1 s0 s1 t0 t1 :
  inputs_ok s0 s1 -> length s0 = length (ec_inputs ec) -> length s1 = length (ec_inputs ec) ->
  sched_ok aby_ops ec (fun _ => False) Todo (ec_layers ec) ->
  shape_ok (pr:=pr) ec go0 -> shape_ok (pr:=pr) ec go1 ->
  (forall g c0 c1, Todo g -> go_cell (pr:=pr) go0 g = Some c0 -> go_cell (pr:=pr) go1 g = Some c1 -> AI g c0 c1) ->
  (exists E0 E1, t0 = rev E0 /\ t1 = rev E1 /\ all3 (eval_ok ec l0 l1) (concat (map el_int (ec_layers ec))) E0 E1) ->
  exists o0 o1 s',
    ex2_run (pr:=pr) aby_request ec (@IScalar aby2 s0) (@IScalar aby2 s1) ((go0, t0), (go1, t1)) =
      Some (@IScalar aby2 o0, @IScalar aby2 o1, s') /\
    all3 ARS (map (pair 0) (ec_outputs ec)) o0 o1.
Proof.
  intros Hin Ls0 Ls1 HS Sh0 Sh1 HTodo (E0 & E1 & -> & -> & HE).
  pose proof (sched_layers _ _ _ HS) as HL.
  destruct (run_sound_l (pr:=pr) aby_ops ec AR AI AR_kind aby_request aby_ok aby_J aby_serves
              (@IScalar aby2 s0) (@IScalar aby2 s1) (aby_ni_sound s0 s1 Hin)
              (fun _ => False) Todo go0 go1 (rev E0) (rev E1)) as (o0 & o1 & a & b & c & d & E & HR & _); auto.
  - intros l Hl. destruct (HL l Hl) as [A B]. split; [apply aby_int_sound; auto|].
    destruct (el_scalar_all l A) as (X & Y & _). split.
    + split; intros g p Hg Hp; [apply (proj1 Ht)|]. rewrite Y in Hg. destruct Hg.
    + intros _. rewrite Y. reflexivity.
  - constructor; auto. intros g [].
  - split.
    + apply Forall_forall. intros l Hl. unfold int_layers in Hl. apply filter_In in Hl. destruct Hl as [Hl _].
      apply el_scalar_all. apply (HL l Hl).
    + exists E0, E1. split; auto. split; auto.
      rewrite int_layers_concat; [exact HE|]. intros l Hl. apply el_scalar_all. apply (HL l Hl).
  - change (@ec_simd (p_gate pr) ec 0) with (@ec_simd aby_gate ec 0) in HR. rewrite (proj1 Ht) in HR.
    destruct o0 as [o0|]; [|destruct HR]. destruct o1 as [o1|]; [|destruct HR].
    exists o0, o1. eexists. split; [exact E|]. exact HR.
Qed.
End AbyExec.
