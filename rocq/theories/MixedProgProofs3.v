(** Executing the circuit of a mixed program: layers, setup data, composition. *)
From Coq Require Import List Bool Arith ZArith Lia Permutation.
Require Import Verif.ParseModel Verif.Prelude Verif.PreludeProofs Verif.GateModel Verif.ProtocolModel
  Verif.CircuitModel Verif.CircuitSpec Verif.CircuitProofs Verif.CircuitProofs2 Verif.CircuitProofs3
  Verif.BoolGmwModel Verif.BoolGmwSpec Verif.ArithGmwModel Verif.InlineModel Verif.InlineProofs
  Verif.ExecModel Verif.ExecSpec Verif.ExecProofs Verif.ExecLayerProofs Verif.ExecCircuitProofs Verif.ExecTheorems
  Verif.Aby2ExecProofs
  Verif.MixedModel Verif.MixedSpec Verif.MixedProgSpec Verif.MixedExecProofs Verif.MixedExecProofs2 Verif.MixedB2aProofs
  Verif.ZMod Verif.MixedProgProofs Verif.MixedProgProofs2.
Import ListNotations.
Open Scope nat_scope.

Lemma Sched_kinds {P G} (ops : gate_ops P G) (c : circuit G) ls : forall P0, Sched ops c P0 ls -> forall l, In l ls ->
  (forall x, In x (bl_int l) -> is_int ops c x = true) /\ (forall x, In x (bl_ni l) -> is_int ops c x = false).
Proof.
  induction ls as [|l ls IH]; intros P0 HS k Hk; [destruct Hk|]. destruct HS as ([R1 R2 R3 R4] & _ & _ & HS).
  destruct Hk as [<-|Hk]; [auto|]. eapply IH; eauto.
Qed.

Lemma mult_depth_same {P G} (ops : gate_ops P G) (c : circuit G) a b i j : parents c a = parents c b ->
  mult_depth ops c a i -> mult_depth ops c b j -> i = j.
Proof.
  assert (HX : forall a b k, parents c a = parents c b -> int_path ops c a k -> int_path ops c b k).
  { intros x y k E H. inversion H; subst; [constructor; congruence|]. eapply ip_step; eauto. congruence. }
  intros E [A1 A2] [B1 B2]. pose proof (A2 _ (HX _ _ _ (eq_sym E) B1)). pose proof (B2 _ (HX _ _ _ E A1)). lia.
Qed.

Lemma small_filter {A} (f : A -> bool) l : length (filter f l) <= 1 ->
  forall x y, In x l -> In y l -> f x = true -> f y = true -> x = y.
Proof.
  intros HL x y Hx Hy Fx Fy. assert (Ix : In x (filter f l)) by (apply filter_In; auto).
  assert (Iy : In y (filter f l)) by (apply filter_In; auto).
  destruct (filter f l) as [|u [|v r]]; cbn in *; try tauto; try lia. destruct Ix as [<-|[]], Iy as [<-|[]]. auto.
Qed.

Lemma nodup_two {A} (l : list A) s r : NoDup l -> s <> r -> In s l -> In r l -> (forall x, In x l -> x = s \/ x = r) ->
  l = [s; r] \/ l = [r; s].
Proof.
  intros HN Hne Hs Hr HA. destruct l as [|a l]; [destruct Hs|]. inversion HN as [|? ? Na N1]; subst.
  destruct l as [|b l].
  { destruct Hs as [<-|[]]. destruct Hr as [Hr|[]]. congruence. }
  inversion N1 as [|? ? Nb N2]; subst. cbn in Na.
  destruct l as [|d l].
  { destruct (HA a) as [->| ->]; cbn; auto; destruct (HA b) as [->| ->]; cbn; auto; tauto. }
  exfalso. cbn in Nb. destruct (HA a) as [->| ->]; cbn; auto; destruct (HA b) as [->| ->]; cbn; auto; destruct (HA d) as [->| ->]; cbn; auto; cbn in *; tauto.
Qed.

Lemma nodup_one {A} (l : list A) x : NoDup l -> In x l -> (forall y, In y l -> y = x) -> l = [x].
Proof.
  intros HN Hx HA. destruct l as [|a [|b l]]; [destruct Hx|rewrite (HA a); cbn; auto|].
  inversion HN as [|? ? Na _]; subst. exfalso. apply Na. rewrite (HA a), (HA b) by (cbn; auto). cbn; auto.
Qed.

Section Layers.
Variable c : circuit mixed_gate.
Variable ls : list blayer.
Hypothesis Hm : main_ok mixed_ops c.
Hypothesis Hsd : c_simd c = None.
Hypothesis Hpair : paired c.
Hypothesis HS : Sched mixed_ops c [] ls.
Hypothesis HP : Permutation (all_ids ls) (seq 0 (c_count c)).
Hypothesis HD : forall j g, in_layer ls j g -> mult_depth mixed_ops c g j.
Notation ec := (ec_base c ls).

Lemma int_in_layer g x : nth_error (c_gates c) g = Some x -> g_inter mixed_ops x = true ->
  exists j l, nth_error ls j = Some l /\ In g (bl_int l).
Proof.
  intros E Hx. assert (Hg : In g (all_ids ls)).
  { apply (Permutation_in _ (Permutation_sym HP)). apply in_seq. split; [lia|]. cbn. apply nth_error_Some. congruence. }
  apply all_ids_layer in Hg. destruct Hg as (j & l & Hl & Hg). exists j, l. split; auto.
  unfold bl_ids in Hg. apply in_app_or in Hg. destruct Hg as [Hg|Hg]; auto.
  destruct (Sched_kinds _ _ _ _ HS l (nth_error_In _ _ Hl)) as [_ A]. specialize (A _ Hg). unfold is_int in A. rewrite E in A. congruence.
Qed.

Lemma ids_nodup : NoDup (all_ids ls).
Proof. apply (Permutation_NoDup (Permutation_sym HP)). apply seq_NoDup. Qed.

Lemma same_layer s l : In l ls -> In s (bl_int l) -> nth_error (c_gates c) s = Some (MGConv CSnd) -> In (S s) (bl_int l).
Proof.
  intros Hl Hs Es. destruct Hpair as [Q1 _]. destruct (Q1 s Es) as [Er Ep].
  destruct (int_in_layer (S s) _ Er eq_refl) as (j & k & Hk & Hr).
  apply In_nth_error in Hl. destruct Hl as (i & Hl).
  assert (Di : mult_depth mixed_ops c s i).
  { apply HD. exists l. split; auto. unfold bl_ids. apply in_or_app. auto. }
  assert (Dj : mult_depth mixed_ops c (S s) j).
  { apply HD. exists k. split; auto. unfold bl_ids. apply in_or_app. auto. }
  pose proof (mult_depth_same _ _ _ _ _ _ Ep Dj Di) as E. subst j. rewrite Hl in Hk. injection Hk as ->. auto.
Qed.

Lemma layer_convs_base l : In l ls -> conversions c l <= 1 -> layer_convs ec (wrap1 (c_simd c) l).
Proof.
  intros Hl HC. unfold layer_convs. rewrite wrap1_int.
  set (f := fun g => match nth_error (c_gates c) g with Some x => is_conv x | None => false end).
  assert (EF : filter (conv_id ec) (map (pair 0) (bl_int l)) = map (pair 0) (filter f (bl_int l))).
  { induction (bl_int l) as [|x r IH]; auto. cbn [map filter]. change (conv_id ec (0, x)) with (f x).
    destruct (f x); cbn [map]; rewrite IH; auto. }
  rewrite EF.
  assert (HN : NoDup (filter f (bl_int l))).
  { apply NoDup_filter. pose proof ids_nodup as HN. apply in_split in Hl. destruct Hl as (a & b & ->).
    unfold all_ids in HN. rewrite map_app, concat_app in HN. apply NoDup_app_r in HN. cbn [map concat] in HN.
    apply NoDup_app_l in HN. unfold bl_ids in HN. apply NoDup_app_r in HN. auto. }
  assert (HK : forall x, In x (filter f (bl_int l)) -> In x (bl_int l) /\
     (nth_error (c_gates c) x = Some (MGConv CSnd) \/ nth_error (c_gates c) x = Some (MGConv CRcv) \/
      nth_error (c_gates c) x = Some (MGConv CB2A))).
  { intros x Hx. apply filter_In in Hx. destruct Hx as [Hx Fx]. split; auto. unfold f in Fx.
    destruct (Sched_kinds _ _ _ _ HS l Hl) as [A _]. specialize (A _ Hx). unfold is_int in A.
    destruct (nth_error (c_gates c) x) as [[| | |[]]|]; try discriminate; auto. }
  unfold conversions in HC. pose proof (small_filter _ _ HC) as HU. cbv beta in HU.
  destruct (filter f (bl_int l)) as [|x r] eqn:Ef; [left; reflexivity|right]. rewrite <- Ef in *.
  assert (Hx : In x (filter f (bl_int l))) by (rewrite Ef; cbn; auto).
  assert (HSR : forall s, nth_error (c_gates c) s = Some (MGConv CSnd) -> In s (bl_int l) ->
    exists s r, (map (pair 0) (filter f (bl_int l)) = [s; r] \/ map (pair 0) (filter f (bl_int l)) = [r; s]) /\
      ec_gate ec s = Some (MGConv CSnd) /\ ec_gate ec r = Some (MGConv CRcv) /\ ec_parents ec s = ec_parents ec r).
  { intros s Es Hs. exists (0, s), (0, S s). pose proof (same_layer s l Hl Hs Es) as Hr. destruct Hpair as [Q1 Q2].
    destruct (Q1 s Es) as [Er Ep]. split.
    - destruct (nodup_two (filter f (bl_int l)) s (S s) HN) as [->| ->]; auto.
      + apply filter_In. unfold f. rewrite Es. auto.
      + apply filter_In. unfold f. rewrite Er. auto.
      + intros y Hy. destruct (HK y Hy) as [Hy' [E|[E|E]]].
        * left. apply HU; auto; [rewrite E|rewrite Es]; auto.
        * right. destruct (Q2 y E) as (s' & -> & E'). f_equal. apply HU; auto; [|rewrite E'|rewrite Es]; auto.
          destruct (int_in_layer s' _ E' eq_refl) as (j & k & Hk & Hs').
          pose proof (same_layer s' k (nth_error_In _ _ Hk) Hs' E') as Hss.
          enough (k = l) by congruence.
          apply In_nth_error in Hl. destruct Hl as (i & Hi).
          assert (Di : mult_depth mixed_ops c (S s') i).
          { apply HD. exists l. split; auto. unfold bl_ids. apply in_or_app. auto. }
          assert (Dj : mult_depth mixed_ops c (S s') j).
          { apply HD. exists k. split; auto. unfold bl_ids. apply in_or_app. auto. }
          pose proof (mult_depth_same _ _ _ _ _ _ eq_refl Dj Di) as Eij. subst j. congruence.
        * left. apply HU; auto; [rewrite E|rewrite Es]; auto.
    - cbn. rewrite Ep. auto. }
  destruct (HK x Hx) as [Hx' [E|[E|E]]].
  - left. eapply HSR; eauto.
  - left. destruct Hpair as [Q1 Q2]. destruct (Q2 x E) as (s & -> & Es). apply (HSR s); auto.
    destruct (int_in_layer s _ Es eq_refl) as (j & k & Hk & Hs).
    pose proof (same_layer s k (nth_error_In _ _ Hk) Hs Es) as Hss.
    enough (k = l) by congruence.
    apply In_nth_error in Hl. destruct Hl as (i & Hi).
    assert (Di : mult_depth mixed_ops c (S s) i).
    { apply HD. exists l. split; auto. unfold bl_ids. apply in_or_app. auto. }
    assert (Dj : mult_depth mixed_ops c (S s) j).
    { apply HD. exists k. split; auto. unfold bl_ids. apply in_or_app. auto. }
    pose proof (mult_depth_same _ _ _ _ _ _ eq_refl Dj Di) as Eij. subst j. congruence.
  - destruct (existsb (fun y => match nth_error (c_gates c) y with Some (MGConv CSnd) => true | _ => false end) (bl_int l)) eqn:Ex.
    + left. apply existsb_exists in Ex. destruct Ex as (y & Hy & Ey). apply (HSR y); auto.
      destruct (nth_error (c_gates c) y) as [[| | |[]]|]; try discriminate; auto.
    + right. exists (0, x). split; [|exact E]. rewrite (nodup_one (filter f (bl_int l)) x); auto.
      intros y Hy. destruct (HK y Hy) as [Hy' [Ey|[Ey|Ey]]].
      * apply HU; auto; [rewrite Ey|rewrite E]; auto.
      * exfalso. destruct Hpair as [Q1 Q2]. destruct (Q2 y Ey) as (s & -> & Es).
        destruct (int_in_layer s _ Es eq_refl) as (j & k & Hk & Hs).
        pose proof (same_layer s k (nth_error_In _ _ Hk) Hs Es) as Hss.
        assert (Ekl : k = l).
        { apply In_nth_error in Hl. destruct Hl as (i & Hi).
          assert (Di : mult_depth mixed_ops c (S s) i).
          { apply HD. exists l. split; auto. unfold bl_ids. apply in_or_app. auto. }
          assert (Dj : mult_depth mixed_ops c (S s) j).
          { apply HD. exists k. split; auto. unfold bl_ids. apply in_or_app. auto. }
          pose proof (mult_depth_same _ _ _ _ _ _ eq_refl Dj Di) as Eij. subst j. congruence. }
        subst k. assert (Ht : existsb (fun y => match nth_error (c_gates c) y with Some (MGConv CSnd) => true | _ => false end) (bl_int l) = true).
        { apply existsb_exists. exists s. rewrite Es. auto. }
        congruence.
      * apply HU; auto; [rewrite Ey|rewrite E]; auto.
Qed.
End Layers.

(** ** Setup data *)

Section Answers.
Context {Sv St : Type}.
Variable req : Sv -> nat -> option (St * Sv).

Fixpoint answers (s : Sv) (ns : list nat) : option (list St) :=
  match ns with
  | [] => Some []
  | n :: r => '(st, s') <- req s n ;; l <- answers s' r ;; Some (st :: l)
  end.

Lemma answers_ok ok J : serves req ok J -> forall ns rest s0 s1, J (ns ++ rest) s0 s1 ->
  exists l0 l1, answers s0 ns = Some l0 /\ answers s1 ns = Some l1 /\ all3 ok ns l0 l1.
Proof.
  intros HJ. induction ns as [|n ns IH]; intros rest s0 s1 H; cbn [app] in H.
  - exists [], []. split; auto. split; auto. constructor.
  - destruct (HJ _ _ _ _ H) as (st0 & st1 & s0' & s1' & E0 & E1 & Hok & H').
    destruct (IH _ _ _ H') as (l0 & l1 & A0 & A1 & A). exists (st0 :: l0), (st1 :: l1). cbn [answers].
    rewrite E0, E1. cbn [obind]. rewrite A0, A1. cbn [obind]. split; auto. split; auto. constructor; auto.
Qed.

Lemma answers_serve ok : serves_l req ok (fun ls s0 s1 => exists l0 l1,
  answers s0 (map el_int_count ls) = Some l0 /\ answers s1 (map el_int_count ls) = Some l1 /\ all3 ok ls l0 l1).
Proof.
  intros l ls s0 s1 (l0 & l1 & A0 & A1 & A). cbn [map answers] in A0, A1.
  destruct (req s0 (el_int_count l)) as [[st0 s0']|] eqn:E0; [|discriminate]. cbn [obind] in A0.
  destruct (answers s0' (map el_int_count ls)) as [r0|] eqn:B0; [|discriminate]. cbn [obind] in A0. injection A0 as <-.
  destruct (req s1 (el_int_count l)) as [[st1 s1']|] eqn:E1; [|discriminate]. cbn [obind] in A1.
  destruct (answers s1' (map el_int_count ls)) as [r1|] eqn:B1; [|discriminate]. cbn [obind] in A1. injection A1 as <-.
  destruct (all3_cons_inv _ _ _ _ _ A) as (b & d & rb & rd & Eb & Ed & X & A'). injection Eb as <- <-. injection Ed as <- <-.
  exists st0, st1, s0', s1'. split; auto. split; auto. split; auto. exists r0, r1. auto.
Qed.
End Answers.

(** The data of the layer that holds a gate. *)
Fixpoint find_data (il : list elayer) (l0 l1 : list msetup) (g : gid) : option (msetup * msetup) :=
  match il, l0, l1 with
  | l :: il, a :: l0, b :: l1 => if existsb (gid_eqb g) (el_int l) then Some (a, b) else find_data il l0 l1 g
  | _, _, _ => None
  end.

Definition gdata (il : list elayer) (l0 l1 : list msetup) (g : gid) : cdata :=
  match find_data il l0 l1 g with Some (a, b) => data_of a b | None => CData 0 0 0 0 [] [] end.

Lemma gid_eqb_eq a b : gid_eqb a b = true <-> a = b.
Proof.
  unfold gid_eqb. destruct a as [x y], b as [u v]. cbn. rewrite andb_true_iff, !Nat.eqb_eq. split; [intros [-> ->]; auto|].
  intros E. injection E as -> ->. auto.
Qed.

Lemma existsb_gid g l : existsb (gid_eqb g) l = true <-> In g l.
Proof.
  rewrite existsb_exists. split.
  - intros (x & Hx & E). apply gid_eqb_eq in E. subst. auto.
  - intros H. exists g. split; auto. apply gid_eqb_eq. auto.
Qed.

Lemma find_data_ok (R : elayer -> msetup -> msetup -> Prop) il : forall l0 l1, NoDup (concat (map el_int il)) -> all3 R il l0 l1 ->
  all3 (fun l a b => R l a b /\ forall g, In g (el_int l) -> find_data il l0 l1 g = Some (a, b)) il l0 l1.
Proof.
  induction il as [|l il IH]; intros l0 l1 HN HA.
  - inversion HA; subst. constructor.
  - destruct (all3_cons_inv _ _ _ _ _ HA) as (a & b & r0 & r1 & -> & -> & X & HA'). cbn [map concat] in HN.
    constructor.
    + split; auto. intros g Hg. cbn [find_data]. apply existsb_gid in Hg. rewrite Hg. auto.
    + eapply all3_impl; [|apply (IH r0 r1 (NoDup_app_r _ _ HN) HA')]. intros k x y Hk (Hr & Hf). split; auto.
      intros g Hg. cbn [find_data]. destruct (existsb (gid_eqb g) (el_int l)) eqn:E; [|auto].
      apply existsb_gid in E. exfalso. eapply NoDup_app_disj; [exact HN|exact E|].
      apply in_concat. exists (el_int k). split; auto. apply in_map. auto.
Qed.

Lemma find_data_in (R : elayer -> msetup -> msetup -> Prop) il : forall l0 l1 g, all3 R il l0 l1 -> In g (concat (map el_int il)) ->
  exists l a b, find_data il l0 l1 g = Some (a, b) /\ R l a b /\ In g (el_int l).
Proof.
  induction il as [|l il IH]; intros l0 l1 g HA Hg; [destruct Hg|].
  destruct (all3_cons_inv _ _ _ _ _ HA) as (a & b & r0 & r1 & -> & -> & X & HA'). cbn [map concat] in Hg. cbn [find_data].
  destruct (existsb (gid_eqb g) (el_int l)) eqn:E.
  - apply existsb_gid in E. exists l, a, b. auto.
  - apply in_app_or in Hg. destruct Hg as [Hg|Hg]; [|apply IH; auto]. apply existsb_gid in Hg. congruence.
Qed.

Lemma requests_layers {G} (ec : ecirc G) : requests ec = map el_int_count (int_layers (ec_layers ec)).
Proof.
  unfold requests, int_layers. generalize (ec_layers ec). induction l as [|l r IH]; auto. cbn [map filter].
  rewrite IH. destruct (negb (el_int_count l =? 0)); auto.
Qed.

(** ** Shares of the inputs *)

Lemma pshares_mrel w ins i0 i1 : all3 (pshares w) ins i0 i1 -> exists ms, map (pv w) ms = ins /\ all3 mrel ms i0 i1.
Proof.
  induction 1 as [|v a b ins i0 i1 Hv H (ms & <- & HA)]; [exists []; split; auto; constructor|].
  destruct v as [x|x].
  - exists (VB x :: ms). split; auto. constructor; auto.
  - destruct Hv as (x0 & x1 & -> & -> & <-). exists (VP x0 x1 :: ms). split; auto. constructor; auto. split; auto.
Qed.

Lemma mrel_pshares w v a b : mrel v a b -> pshares w (pv w v) a b.
Proof. destruct v as [x|x y]; cbn; auto. intros [-> ->]. exists x, y. auto. Qed.

(** ** Programs *)

Lemma new_main_ok : main_ok mixed_ops c_new_main.
Proof. apply wired_main_ok. constructor. Qed.

Lemma new_ok : main_ok mixed_ops c_new.
Proof. apply wired_main_ok. constructor. Qed.

Lemma empty_shape c0 : c0 = c_new \/ c0 = c_new_main -> shape c0 [].
Proof.
  intros [->| ->]; (constructor; auto; [apply new_ok || apply new_main_ok|split; intros [|?] H; discriminate]).
Qed.

Lemma prog_exec_from e0 W w maxu cap prog ins env outs : e0 = c_new \/ e0 = c_new_main ->
  0 < W -> 0 < w -> 1000 <= maxu -> 2 <= cap ->
  (forall a, In (IA2B a) prog -> In w [8; 16; 32; 64]) ->
  prun w prog [] [] ins = Some (env, outs, []) ->
  exists c ids ls ec, comp maxu cap w prog e0 [] = Some (c, ids) /\
    c_layers mixed_ops c = Some ls /\ ec_of_base mixed_ops c = Some ec /\
    ((forall l, In l ls -> conversions c l <= 1) ->
     forall (Sv : Type) (req : Sv -> nat -> option (msetup * Sv)) J, serves req (mixed_setup_ok W w) J ->
     forall i0 i1 s0 s1 rest, all3 (pshares w) ins i0 i1 -> J (requests ec ++ rest) s0 s1 ->
     exists o0 o1 s',
       ex2_run (pr:=mixed_gmw W w) req ec (IScalar (pr:=mixed_gmw W w) i0) (IScalar (pr:=mixed_gmw W w) i1)
         (go_init (pr:=mixed_gmw W w) ec, s0, (go_init (pr:=mixed_gmw W w) ec, s1))
       = Some (IScalar (pr:=mixed_gmw W w) o0, IScalar (pr:=mixed_gmw W w) o1, s') /\
       all3 (pshares w) outs o0 o1).
Proof.
  intros H0 HW Hw Hmx Hcp Hsup Hrun.
  destruct (comp_ok maxu cap w Hmx Hcp Hw prog e0 [] [] [] ins env outs []) as (c & ids & EC & Hsh & _ & HV); auto.
  { apply empty_shape. auto. }
  destruct Hsh as [Hm Hsd He Hp].
  destruct (base_sched mixed_ops c Hm) as (ls & EL & EE & HP & HS & HSO); [congruence|auto|].
  destruct (main_layers mixed_ops c Hm) as (ls' & EL' & _ & _ & HD & _). rewrite EL in EL'. injection EL' as <-.
  exists c, ids, ls, (ec_base c ls). split; auto. split; auto. split; auto.
  intros HC Sv req J HJ i0 i1 s0 s1 rest HI Hj.
  set (ec := ec_base c ls) in *.
  assert (Hcount : forall l, In l (ec_layers ec) -> el_int_count l = length (el_int l)).
  { intros l Hl. cbn [ec ec_base ec_layers] in Hl. apply in_map_iff in Hl. destruct Hl as (b & <- & _).
    apply el_scalar_all. intros sc simd b' [E|[]]. injection E as _ <- _. auto. }
  set (il := int_layers (ec_layers ec)).
  assert (Hil : forall l, In l il -> In l (ec_layers ec)) by (intros l Hl; apply filter_In in Hl; tauto).
  assert (EN : concat (map el_int il) = map (pair 0) (concat (map bl_int ls))).
  { unfold il. rewrite int_layers_concat by auto. cbn [ec ec_base ec_layers]. rewrite map_map, concat_map, map_map.
    f_equal. apply map_ext. intros l. apply wrap1_int. }
  assert (HN : NoDup (concat (map el_int il))).
  { rewrite EN. apply FinFun.Injective_map_NoDup; [intros x y E; injection E; auto|].
    pose proof (ids_nodup c ls HP) as HN. clear - HN. unfold all_ids in HN.
    assert (HX : forall ls, NoDup (concat (map bl_ids ls)) -> NoDup (concat (map bl_int ls)) /\ incl (concat (map bl_int ls)) (concat (map bl_ids ls))).
    { induction ls0 as [|l r IH]; intros H; [split; [constructor|intros ? []]|]. cbn [map concat] in *.
      destruct IH as [A B]; [eapply NoDup_app_r; eauto|]. split.
      - apply NoDup_app_intro; [|exact A|].
        + apply NoDup_app_l in H. unfold bl_ids in H. apply NoDup_app_r in H. auto.
        + intros x Hx Hy. eapply NoDup_app_disj; [exact H| |apply B; exact Hy]. unfold bl_ids. apply in_or_app. auto.
      - apply incl_app; [|apply incl_appr; auto]. apply incl_appl. unfold bl_ids. apply incl_appr. apply incl_refl. }
    apply HX. auto. }
  destruct (answers_ok req _ J HJ _ _ _ _ Hj) as (l0 & l1 & A0 & A1 & A).
  assert (ER : requests ec = map el_int_count il).
  { apply requests_layers. }
  rewrite ER in A, A0, A1.
  assert (A' : all3 (fun l a b => mixed_setup_ok W w (length (el_int l)) a b) il l0 l1).
  { clear - A Hcount Hil. revert l0 l1 A. assert (H : forall l, In l il -> el_int_count l = length (el_int l)) by auto. clear Hil Hcount.
    induction il as [|l r IH]; intros l0 l1 A; cbn [map] in A.
    - inversion A; subst. constructor.
    - destruct (all3_cons_inv _ _ _ _ _ A) as (b & d & rb & rd & -> & -> & X & A'). constructor.
      + rewrite <- H; cbn; auto.
      + apply IH; auto. intros; apply H; cbn; auto. }
  pose proof (find_data_ok _ _ _ _ HN A') as A''.
  set (D := gdata il l0 l1).
  assert (HDg : forall g x, nth_error (c_gates c) g = Some x -> g_inter mixed_ops x = true ->
     exists a b, find_data il l0 l1 (0, g) = Some (a, b) /\ exists n, mixed_setup_ok W w n a b).
  { intros g x Eg Hx. destruct (int_in_layer c ls HS HP g x Eg Hx) as (j & l & Hl & Hg).
    destruct (find_data_in _ _ _ _ (0, g) A') as (k & a & b & F & R & _).
    - rewrite EN, in_pair0. apply in_concat. exists (bl_int l). split; auto. apply in_map. eapply nth_error_In; eauto.
    - exists a, b. split; auto. exists (length (el_int k)). auto. }
  assert (Hgood : dgood w (fun g => D (0, g)) c).
  { intros g x Eg. destruct x as [| | |[]]; auto.
    - (* Snd *)
      destruct (int_in_layer c ls HS HP g _ Eg eq_refl) as (j & l & Hl & Hg).
      pose proof (same_layer c ls Hp HS HP HD g l (nth_error_In _ _ Hl) Hg Eg) as Hg'.
      assert (Hin : In (wrap1 (c_simd c) l) il).
      { unfold il, int_layers. apply filter_In. split; [cbn; apply in_map; eapply nth_error_In; eauto|].
        rewrite Hcount by (cbn; apply in_map; eapply nth_error_In; eauto). rewrite wrap1_int, map_length.
        destruct (bl_int l); [destruct Hg|reflexivity]. }
      apply In_nth_error in Hin. destruct Hin as (i & Hin).
      destruct (all3_nth _ _ _ _ A'' i _ Hin) as (a & b & _ & _ & _ & F). rewrite wrap1_int in F.
      unfold D, gdata. rewrite !F by (apply in_pair0; auto). auto.
    - (* B2A *)
      destruct (HDg g _ Eg eq_refl) as (a & b & F & n & _ & Hb & _). unfold D, gdata. rewrite F.
      intros bits Hlen. apply b2a_value; auto. }
  destruct (pshares_mrel _ _ _ _ HI) as (ms & Ems & HM).
  destruct (HV (fun g => D (0, g)) (fun _ => VB false) ms Hgood) as (V & [VV VE VO VI]).
  { destruct H0 as [->| ->]; (constructor; auto; intros [|?] ? E; discriminate). }
  destruct (all3_length _ _ _ _ HM) as [LI0 LI1].
  assert (HNI : NoDup (c_inputs c)).
  { destruct Hm as (Ha & _). apply api_api_wf in Ha. rewrite (aw_inputs _ _ Ha). apply ids_where_NoDup. }
  assert (LI : length ms = length (c_inputs c)).
  { apply Nat.le_antisymm.
    - apply map_eq_nil in VI. assert (L : length (skipn (length (c_inputs c)) ms) = 0) by (rewrite VI; auto).
      rewrite skipn_length in L. lia.
    - destruct (Nat.le_gt_cases (length (c_inputs c)) (length ms)) as [|Hlt]; auto. exfalso.
      destruct (nth_error (c_inputs c) (length ms)) as [g|] eqn:Eg.
      2:{ apply nth_error_None in Eg. lia. }
      assert (Hg : nth_error (c_gates c) g = Some (MGBase GInput)).
      { apply nth_error_In in Eg. destruct Hm as (Ha & _). apply api_api_wf in Ha. rewrite (aw_inputs _ _ Ha) in Eg.
        apply ids_where_In in Eg. destruct Eg as (x & E & F). destruct x as [[]| | |]; try discriminate. auto. }
      destruct (VV _ _ Hg) as (i & Ei & En).
      assert (i = length ms).
      { apply (proj1 (NoDup_nth_error (c_inputs c)) HNI); [apply nth_error_Some; congruence|congruence]. }
      subst i. assert (length ms < length ms) by (apply nth_error_Some; congruence). lia. }
  destruct (mixed_exec_sound W w HW ec (fun g => V (snd g)) D i0 i1) with
    (req := req) (J := fun ls s0 s1 => exists l0 l1, answers req s0 (map el_int_count ls) = Some l0 /\
       answers req s1 (map el_int_count ls) = Some l1 /\ all3 (mixed_ok W ec D) ls l0 l1)
    (Todo := fun g : gid => fst g = 0) (go0 := go_init (pr:=mixed_gmw W w) ec) (go1 := go_init (pr:=mixed_gmw W w) ec)
    (t0 := s0) (t1 := s1) as (o0 & o1 & s' & ERun & HO).
  - split; [intros; exact Hsd|]. intros [sc g] gate E. cbn [ec ec_base ec_gate fst snd] in E.
    destruct (Nat.eqb_spec sc 0) as [->|]; [|discriminate]. pose proof (VV _ _ E) as HVg.
    cbn [ec ec_base ec_parents ec_inputs fst snd]. rewrite map_map. cbn [snd].
    destruct gate as [[]| | |]; try exact HVg. destruct HVg as (i & Ei & En).
    destruct (all3_nth _ _ _ _ HM _ _ En) as (a & b & Ea & Eb & Hab). split; auto. exists i, a, b. auto.
  - exact HNI.
  - cbn. lia.
  - cbn. lia.
  - apply answers_serve.
  - exact HSO.
  - apply (base_shape_init (pr:=mixed_gmw W w)).
  - apply (base_shape_init (pr:=mixed_gmw W w)).
  - intros g c0 c1 _ E0 E1 HG. destruct (ec_gate ec g) as [gate|] eqn:Eg; [|congruence].
    destruct (base_shape_init (pr:=mixed_gmw W w) c ls g gate Eg) as (x & Ex & HK).
    change (ec_base c ls) with ec in Ex, HK. unfold kind_ok in HK. cbn [ec ec_base ec_simd] in HK. rewrite Hsd in HK.
    rewrite E0 in Ex. injection Ex as ->. rewrite E0 in E1. injection E1 as <-. destruct x; auto.
  - intros l Hl. cbn [ec ec_base ec_layers] in Hl. apply in_map_iff in Hl. destruct Hl as (b & <- & Hb).
    apply layer_convs_base; auto.
  - exists l0, l1. split; auto. split; auto. eapply all3_impl; [|exact A'']. cbv beta. intros l a b Hl ((B1 & B2 & B3 & B4) & F).
    split; auto. split.
    + destruct B2 as (p0 & p1 & r0 & r1 & q0 & q1 & a0 & a1 & -> & -> & _).
      split; auto. split; auto. split; intros EE'; apply app_eq_nil in EE'; destruct EE'; discriminate.
    + intros g Hg _. unfold D, gdata. rewrite F; auto.
  - exists o0, o1, s'. split; [exact ERun|].
    cbn [ec ec_base ec_outputs] in HO. rewrite <- VO. clear - HO. revert o0 o1 HO.
    induction (c_outputs c) as [|o r IH]; intros o0 o1 HO; cbn [map] in *.
    + inversion HO; subst. constructor.
    + destruct (all3_cons_inv _ _ _ _ _ HO) as (b & d & rb & rd & -> & -> & X & HO'). constructor; auto.
      apply mrel_pshares. exact X.
Qed.

Lemma prog_exec W w maxu cap prog ins env outs :
  0 < W -> 0 < w -> 1000 <= maxu -> 2 <= cap ->
  (forall a, In (IA2B a) prog -> In w [8; 16; 32; 64]) ->
  prun w prog [] [] ins = Some (env, outs, []) ->
  exists c ids ls ec, comp maxu cap w prog c_new_main [] = Some (c, ids) /\
    c_layers mixed_ops c = Some ls /\ ec_of_base mixed_ops c = Some ec /\
    ((forall l, In l ls -> conversions c l <= 1) ->
     forall (Sv : Type) (req : Sv -> nat -> option (msetup * Sv)) J, serves req (mixed_setup_ok W w) J ->
     forall i0 i1 s0 s1 rest, all3 (pshares w) ins i0 i1 -> J (requests ec ++ rest) s0 s1 ->
     exists o0 o1 s',
       ex2_run (pr:=mixed_gmw W w) req ec (IScalar (pr:=mixed_gmw W w) i0) (IScalar (pr:=mixed_gmw W w) i1)
         (go_init (pr:=mixed_gmw W w) ec, s0, (go_init (pr:=mixed_gmw W w) ec, s1))
       = Some (IScalar (pr:=mixed_gmw W w) o0, IScalar (pr:=mixed_gmw W w) o1, s') /\
       all3 (pshares w) outs o0 o1).
Proof. apply prog_exec_from. auto. Qed.
