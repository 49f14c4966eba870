(** Two sessions of the ABY2.0 protocol that one party cannot tell apart. *)
From Coq Require Import List Bool Arith Lia Permutation.
Require Import Verif.Prelude Verif.PreludeProofs Verif.GateModel Verif.ProtocolModel Verif.CircuitModel
  Verif.CircuitSpec Verif.CircuitProofs Verif.CircuitProofs2 Verif.CircuitProofs3
  Verif.ExecModel Verif.ExecSpec Verif.ExecProofs Verif.ExecCircuitProofs Verif.ExecTheorems Verif.ExecLayerProofs
  Verif.PartyModel Verif.PrivacyProofs
  Verif.Aby2Model Verif.Aby2Spec Verif.Aby2Proofs Verif.Aby2ExecProofs Verif.Aby2CircuitProofs
  Verif.Aby2PrivSpec Verif.Aby2PrivProofs.
Import ListNotations.
Open Scope nat_scope.

(** *** Masks of two setups with different private streams *)
Definition xf (a b : gid -> bool) (g : gid) : bool := xorb (a g) (b g).

Lemma mask_sem_xor gate (a d : gid -> bool) ps x : mask_sem gate (map (xf a d) ps) = Some x ->
  exists y z, mask_sem gate (map a ps) = Some y /\ mask_sem gate (map d ps) = Some z /\ x = xorb y z.
Proof.
  destruct gate as [[]|n| |]; cbn [mask_sem]; try discriminate;
    try (intros H; injection H as <-; exists false, false; auto; fail);
    destruct ps as [|p [|q [|r ps]]]; cbn [map]; try discriminate; intros H; injection H as <-;
    eexists _, _; (split; [reflexivity|]); (split; [reflexivity|]); unfold xf; auto.
  destruct (a p), (a q), (d p), (d q); reflexivity.
Qed.

Lemma masks_xor ec a d : aby_masks ec a -> aby_masks ec d -> aby_masks ec (xf a d).
Proof.
  intros Ha Hd g gate E. destruct (mask_sem gate (map (xf a d) (ec_parents ec g))) as [x|] eqn:Ex; auto.
  destruct (mask_sem_xor _ _ _ _ _ Ex) as (y & z & Y & Z & ->).
  pose proof (Ha g gate E) as A. rewrite Y in A. pose proof (Hd g gate E) as B. rewrite Z in B.
  unfold xf. congruence.
Qed.

Lemma masks_ext ec a b : (forall g, ec_gate ec g <> None -> a g = b g) ->
  (forall g p, ec_gate ec g <> None -> In p (ec_parents ec g) -> ec_gate ec p <> None) ->
  aby_masks ec a -> aby_masks ec b.
Proof.
  intros He Hp Ha g gate E. pose proof (Ha g gate E) as A.
  assert (M : map a (ec_parents ec g) = map b (ec_parents ec g)).
  { apply map_ext_in. intros p Hin. apply He. apply (Hp g); auto. congruence. }
  rewrite M, He in A by congruence. exact A.
Qed.

(** Valuations of the same circuit differ by masks. *)
Lemma valuations_masks ec ins ins' v v' : aby_valuation ec ins v -> aby_valuation ec ins' v' ->
  aby_masks ec (xf v v').
Proof.
  intros Hv Hv' g gate E. pose proof (Hv g gate E) as A. pose proof (Hv' g gate E) as B.
  destruct gate as [[]|n| |]; cbn [mask_sem aby_sem] in *; auto;
    try (injection A as A; injection B as B; unfold xf; rewrite <- A, <- B; apply xorb_nilpotent);
    destruct (ec_parents ec g) as [|p [|q [|r ps]]]; cbn [map] in *; auto; try discriminate;
    injection A as A; injection B as B; unfold xf; rewrite <- A, <- B;
    repeat match goal with |- context [v ?x] => destruct (v x) end;
    repeat match goal with |- context [v' ?x] => destruct (v' x) end; reflexivity.
Qed.

(** The gates for which a party draws from its private generator. *)
Definition own_draw (ec : ecirc aby_gate) (m : nat -> option share_type) (g : gid) : bool :=
  drawing ec g && match m (snd g) with Some STRemote => false | _ => true end.

Lemma setup_twin ec d (sh : nat -> bool) : aby_typed ec -> aby_masks ec d ->
  forall gs V a b goA goB lA lB dsA goA' dsB goB',
  SInv ec V goA lA -> SInv ec V goB lB ->
  (forall l1 g l2, gs = l1 ++ g :: l2 ->
     (exists gate, ec_gate ec g = Some gate) /\ ~ In g (V ++ l1) /\ incl (ec_parents ec g) (V ++ l1)) ->
  ds_map b = ds_map a -> ds_remote b = ds_remote a -> rng_pos (ds_priv b) = rng_pos (ds_priv a) ->
  (forall i, rng_bits (ds_priv b) i = xorb (rng_bits (ds_priv a) i) (sh i)) ->
  (forall i g, nth_error (filter (own_draw ec (ds_map a)) gs) i = Some g -> sh (rng_pos (ds_priv a) + i) = d g) ->
  (forall g, In g gs -> drawing ec g = true -> own_draw ec (ds_map a) g = false -> d g = false) ->
  (forall g, In g V -> lB g = xf lA d g) ->
  ofold (setup_gate ec) (a, goA) gs = Some (dsA, goA') -> ofold (setup_gate ec) (b, goB) gs = Some (dsB, goB') ->
  exists kA kB, SInv ec (V ++ gs) goA' kA /\ SInv ec (V ++ gs) goB' kB /\
    forall g, In g (V ++ gs) -> kB g = xf kA d g.
Proof.
  intros Ht Hd. induction gs as [|g gs IH]; intros V a b goA goB lA lB dsA goA' dsB goB' SA SB HO Em Er Ep Eb Hi Hr HV FA FB.
  - cbn in FA, FB. injection FA as <- <-. injection FB as <- <-. rewrite app_nil_r. eauto.
  - destruct (HO [] g gs eq_refl) as ((gate & Hg) & Hn & Hp). rewrite app_nil_r in Hn, Hp.
    destruct (setup_step ec V a goA lA g gate Ht SA Hg Hn Hp) as (a1 & goA1 & x & EA & SA1 & MA & _ & DA).
    destruct (setup_step ec V b goB lB g gate Ht SB Hg Hn Hp) as (b1 & goB1 & y & EB & SB1 & MB & _ & DB).
    cbn [ofold] in FA, FB. rewrite EA in FA. rewrite EB in FB. cbn [obind] in FA, FB.
    assert (HO1 : forall l1 h l2, gs = l1 ++ h :: l2 ->
       (exists gt, ec_gate ec h = Some gt) /\ ~ In h ((V ++ [g]) ++ l1) /\ incl (ec_parents ec h) ((V ++ [g]) ++ l1)).
    { intros l1 h l2 ->. destruct (HO (g :: l1) h l2 eq_refl) as (A & B & C). rewrite <- app_assoc. auto. }
    assert (K : forall u, y = xorb x (d g) ->
       (forall i h, nth_error (filter (own_draw ec (ds_map a)) gs) i = Some h -> sh (u + i) = d h) ->
       rng_pos (ds_priv a1) = u -> ds_remote b1 = ds_remote a1 -> rng_pos (ds_priv b1) = rng_pos (ds_priv a1) ->
       rng_bits (ds_priv a1) = rng_bits (ds_priv a) -> rng_bits (ds_priv b1) = rng_bits (ds_priv b) ->
       exists kA kB, SInv ec (V ++ g :: gs) goA' kA /\ SInv ec (V ++ g :: gs) goB' kB /\
         forall h, In h (V ++ g :: gs) -> kB h = xf kA d h).
    { intros u Ey Hu Eu E1 E2 E3 E4.
      destruct (IH (V ++ [g]) a1 b1 goA1 goB1 _ _ dsA goA' dsB goB' SA1 SB1 HO1) as (kA & kB & KA & KB & KK); auto.
      - congruence.
      - intros i. rewrite E3, E4. auto.
      - rewrite MA, Eu. exact Hu.
      - rewrite MA. intros h Hh. apply Hr. cbn; auto.
      - intros h Hh. unfold xf, upd_fun. destruct (gid_eqb_spec h g) as [->|Hne]; auto.
        apply in_app_or in Hh. destruct Hh as [Hh|[Hh|[]]]; [|congruence]. apply HV. auto.
      - rewrite <- app_assoc in KA, KB, KK. cbn [app] in *. eauto. }
    cbn [filter] in Hi.
    destruct (drawing ec g) eqn:Dg.
    + unfold own_draw at 1 in Hi. rewrite Dg in Hi. cbn [andb] in Hi.
      pose proof (Hr g (or_introl eq_refl) Dg) as Hr0. unfold own_draw in Hr0. rewrite Dg in Hr0. cbn [andb] in Hr0.
      rewrite Em in DB.
      destruct (ds_map a (snd g)) as [[|]|].
      * destruct DA as (-> & EA1 & EA2), DB as (-> & EB1 & EB2).
        apply (K (S (rng_pos (ds_priv a)))); rewrite ?EA1, ?EB1; cbn [gen fst snd rng_pos rng_bits]; auto; try congruence.
        -- rewrite Ep, Eb. f_equal. rewrite <- (Nat.add_0_r (rng_pos (ds_priv a))). apply Hi. reflexivity.
        -- intros i h Hh. rewrite <- (Hi (S i) h Hh). f_equal. lia.
      * destruct DA as (-> & EA1 & EA2), DB as (-> & EB1 & EB2).
        apply (K (rng_pos (ds_priv a))); rewrite ?EA1, ?EB1, ?EA2, ?EB2, ?Er; auto.
        rewrite Hr0 by reflexivity. rewrite xorb_false_r. auto.
      * destruct DA as (-> & EA1 & EA2), DB as (-> & EB1 & EB2).
        apply (K (S (rng_pos (ds_priv a)))); rewrite ?EA1, ?EB1; cbn [gen fst snd rng_pos rng_bits]; auto; try congruence.
        -- rewrite Ep, Eb. f_equal. rewrite <- (Nat.add_0_r (rng_pos (ds_priv a))). apply Hi. reflexivity.
        -- intros i h Hh. rewrite <- (Hi (S i) h Hh). f_equal. lia.
    + unfold own_draw at 1 in Hi. rewrite Dg in Hi. cbn [andb] in Hi.
      destruct DA as (EA1 & EA2), DB as (EB1 & EB2).
      apply (K (rng_pos (ds_priv a))); rewrite ?EA1, ?EB1, ?EA2, ?EB2, ?Er; auto.
      (* a linear gate *)
      assert (Hin : In g (V ++ [g])) by (apply in_or_app; cbn; auto).
      assert (PA : forall (l : gid -> bool) z, map (upd_fun l g z) (ec_parents ec g) = map l (ec_parents ec g)).
      { intros l z. apply map_ext_in. intros h Hh. apply upd_fun_other. intros ->. apply Hn. auto. }
      assert (MS : exists z, mask_sem gate (map (xf lA d) (ec_parents ec g)) = Some z).
      { pose proof (proj2 Ht g gate Hg) as T. unfold drawing in Dg. rewrite Hg in Dg. clear - T Dg.
        destruct gate as [[]|n| |]; cbn [aby_gate_typed mask_sem] in *; try discriminate; try contradiction; eauto;
          destruct (ec_parents ec g) as [|p [|q [|r ps]]]; try discriminate; cbn; eauto. }
      destruct MS as (z & Hz). destruct (mask_sem_xor _ _ _ _ _ Hz) as (z1 & z2 & Z1 & Z2 & ->).
      pose proof (si_mask _ _ _ _ SA1 g gate z1 Hin Hg) as QA. rewrite PA, upd_fun_same in QA. rewrite (QA Z1).
      pose proof (Hd g gate Hg) as QD. rewrite Z2 in QD. rewrite QD.
      pose proof (si_mask _ _ _ _ SB1 g gate (xorb z1 z2) Hin Hg) as QB. rewrite PA, upd_fun_same in QB. apply QB.
      rewrite <- Hz. f_equal. apply map_ext_in. intros h Hh. apply HV. auto.
Qed.

(** *** Picking the positions of one owner *)
Fixpoint pick {A} (o : input_by) (os : list input_by) (l : list A) : list A :=
  match os, l with
  | x :: os, y :: l => match x, o with ByP0, ByP0 | ByP1, ByP1 => y :: pick o os l | _, _ => pick o os l end
  | _, _ => []
  end.

Lemma pick_merge {A} os : forall a b : list A, length a = owned ByP0 os -> length b = owned ByP1 os ->
  pick ByP0 os (merge os a b) = a /\ pick ByP1 os (merge os a b) = b.
Proof.
  induction os as [|o os IH]; intros a b La Lb.
  - destruct a; [|discriminate]. destruct b; [|discriminate]. auto.
  - rewrite owned_cons in La, Lb. destruct o; cbn [merge Nat.add] in *.
    + destruct a as [|x a]; [discriminate|]. injection La as La. destruct (IH a b La Lb) as [P Q].
      cbn [pick]. rewrite P, Q. auto.
    + destruct b as [|x b]; [discriminate|]. injection Lb as Lb. destruct (IH a b La Lb) as [P Q].
      cbn [pick]. rewrite P, Q. auto.
Qed.

Lemma pick_zip {A} (f : A -> A -> A) o os : forall a b, length a = length b ->
  pick o os (zip_with f a b) = zip_with f (pick o os a) (pick o os b).
Proof.
  induction os as [|x os IH]; intros a b L; [reflexivity|].
  destruct a as [|u a], b as [|w b]; try discriminate; [reflexivity|].
  injection L as L. cbn [zip_with pick]. rewrite IH by exact L. destruct x, o; reflexivity.
Qed.

Section Base.
Variable c : circuit aby_gate.
Hypothesis Hm : main_ok aby_ops c.
Hypothesis Hs : c_simd c = None.
Hypothesis Ho : aby_operands c.
Hypothesis Hf2 : forall n, In (AAnd n) (c_gates c) -> n <= 2.
Variable ls : list blayer.
Hypothesis Els : c_layers aby_ops c = Some ls.
Hypothesis HS : Sched aby_ops c [] ls.
Hypothesis HP : Permutation (all_ids ls) (seq 0 (c_count c)).
Hypothesis HSO : sched_ok aby_ops (ec_base c ls) (fun _ => False) (fun g : gid => fst g = 0) (ec_layers (ec_base c ls)).
Notation ec := (ec_base c ls).
Variable m : nat -> option input_by.
Variable os : list input_by.
Hypothesis Hos : omap m (c_inputs c) = Some os.
Hypothesis Hmi : forall g, m g <> None -> In g (c_inputs c).

Lemma b_typed : aby_typed ec. Proof. apply aby_base_typed; auto. Qed.
Lemma b_fan : fan_in_two ec.
Proof. intros g n Hg. apply Hf2. cbn in Hg. destruct (fst g =? 0); [|discriminate]. eapply nth_error_In; eauto. Qed.
Lemma b_nodup : NoDup (ec_inputs ec).
Proof. cbn. destruct Hm as (Ha & _). apply api_api_wf in Ha. rewrite (aw_inputs _ _ Ha). unfold ids_where. apply NoDup_filter, seq_NoDup. Qed.
Lemma b_iter g : ec_gate ec g <> None -> In g (ec_iter ec).
Proof.
  intros Hg. destruct g as [z g]. rewrite ec_iter_base. cbn in Hg. destruct (Nat.eqb_spec z 0) as [->|]; [|congruence].
  apply in_pair0. apply (all_ids_In c ls HP). apply nth_error_Some. auto.
Qed.
Lemma b_par g p : ec_gate ec g <> None -> In p (ec_parents ec g) -> ec_gate ec p <> None.
Proof.
  intros Hg Hp. apply b_iter in Hg. destruct (in_split _ _ Hg) as (i1 & i2 & Ei).
  destruct (iter_order c ls HS HP _ _ _ Ei) as (_ & _ & Hincl). apply Hincl in Hp.
  destruct (in_split _ _ Hp) as (j1 & j2 & Ej). rewrite Ej, <- app_assoc in Ei. cbn [app] in Ei.
  destruct (iter_order c ls HS HP _ _ _ Ei) as ((gate & Eg) & _). congruence.
Qed.
Lemma b_input i : In i (c_inputs c) -> ec_gate ec (0, i) = Some (ABase GInput).
Proof.
  intros Hi. destruct Hm as (Ha & _). apply api_api_wf in Ha. rewrite (aw_inputs _ _ Ha) in Hi.
  apply ids_where_In in Hi. destruct Hi as (gate & E & F). cbn. destruct gate as [[]|n| |]; try discriminate. exact E.
Qed.

(** The setup of one party. *)
Lemma b_setup ds : exists ds' go, setup_gate_outputs ec ds = Some (ds', go) /\
  shape_ok (pr:=aby2) ec go /\ aby_masks ec (mask_at go) /\
  (forall g, ec_gate ec g <> None -> exists s, go_get (pr:=aby2) go g = Some (@CS aby2 s) /\ as_priv s = mask_at go g) /\
  map (fun i => mask_at go (0, i)) (c_inputs c) = input_draws (ds_map ds) (c_inputs c) (ds_priv ds) (ds_remote ds).
Proof.
  destruct (base_setup c Hm Hs Ho ls Els HS HP ds) as (ds' & go & l & E & Sh & M & C & I).
  exists ds', go. split; auto. split; auto.
  assert (Q : forall g, ec_gate ec g <> None -> l g = mask_at go g).
  { intros g Hg. destruct (ec_gate ec g) as [gate|] eqn:Eg; [|congruence]. destruct (C g gate Eg) as (s & A & B).
    apply (go_get_cell (pr:=aby2)) in A. unfold mask_at. rewrite (proj1 A). auto. }
  split; [apply (masks_ext ec l); auto; apply b_par|]. split.
  - intros g Hg. destruct (ec_gate ec g) as [gate|] eqn:Eg; [|congruence]. destruct (C g gate Eg) as (s & A & B).
    exists s. split; auto. rewrite <- Q by congruence. auto.
  - rewrite <- I. apply map_ext_in. intros i Hi. symmetry. apply Q. rewrite (b_input i Hi). discriminate.
Qed.

(** The setups of two streams that differ by the draws for [d]. *)
Lemma b_twin d (sh : nat -> bool) a b dsA goA dsB goB :
  aby_masks ec d ->
  ds_map b = ds_map a -> ds_remote b = ds_remote a -> rng_pos (ds_priv b) = 0 -> rng_pos (ds_priv a) = 0 ->
  (forall i, rng_bits (ds_priv b) i = xorb (rng_bits (ds_priv a) i) (sh i)) ->
  (forall i g, nth_error (filter (own_draw ec (ds_map a)) (ec_iter ec)) i = Some g -> sh i = d g) ->
  (forall g, ec_gate ec g <> None -> drawing ec g = true -> own_draw ec (ds_map a) g = false -> d g = false) ->
  setup_gate_outputs ec a = Some (dsA, goA) -> setup_gate_outputs ec b = Some (dsB, goB) ->
  forall g, ec_gate ec g <> None -> mask_at goB g = xf (mask_at goA) d g.
Proof.
  intros Hd E1 E2 E3 E4 E5 E6 E7 FA FB g Hg.
  unfold setup_gate_outputs in FA, FB. cbn [ec_base ec_counts forallb snd] in FA, FB. rewrite Hs in FA, FB. cbn [andb oassert obind] in FA, FB.
  assert (S0 : SInv ec [] (go_init (pr:=aby2) ec) (fun _ => false)).
  { constructor; [apply (base_shape_init (pr:=aby2))|intros h []|intros h gate x []|intros h []]. }
  destruct (setup_twin ec d sh b_typed Hd (ec_iter ec) [] a b _ _ _ _ dsA goA dsB goB S0 S0) as (kA & kB & KA & KB & KK); auto.
  - intros l1 h l2 E. cbn [app]. apply iter_order with (l2 := l2); auto.
  - congruence.
  - intros i h Hh. rewrite E4. apply E6. auto.
  - intros h Hh. apply E7. destruct (in_split _ _ Hh) as (i1 & i2 & Ei).
    destruct (iter_order c ls HS HP _ _ _ Ei) as ((gate & Eg) & _). congruence.
  - intros h [].
  - cbn [app] in *. pose proof (b_iter g Hg) as Hin.
    destruct (si_get _ _ _ _ KA g Hin) as (x & X1 & X2). destruct (si_get _ _ _ _ KB g Hin) as (y & Y1 & Y2).
    apply (go_get_cell (pr:=aby2)) in X1, Y1. pose proof (KK g Hin) as Z.
    unfold xf in *. unfold mask_at. rewrite (proj1 X1), (proj1 Y1). congruence.
Qed.

(** Input shares of both parties. *)
Lemma b_inputs (s t : delta_sharing) xs0 xs1 sh0 d0 s' sh1 d1 t' l0 l1 :
  ds_remote s = ds_local t -> ds_remote t = ds_local s ->
  length xs0 = owned ByP0 os -> length xs1 = owned ByP1 os ->
  ds_share s xs0 = (sh0, d0, s') -> ds_share t xs1 = (sh1, d1, t') ->
  map (fun i => l0 (0, i)) (c_inputs c) = merge os (draws (ds_priv s) (owned ByP0 os)) (draws (ds_remote s) (owned ByP1 os)) ->
  map (fun i => l1 (0, i)) (c_inputs c) = merge os (draws (ds_remote t) (owned ByP0 os)) (draws (ds_priv t) (owned ByP1 os)) ->
  let i0 := merge os sh0 (fst (ds_plain_delta_to_share s' d1)) in
  let i1 := merge os (fst (ds_plain_delta_to_share t' d0)) sh1 in
  inputs_ok ec l0 l1 (merge os xs0 xs1) i0 i1 /\ length i0 = length (c_inputs c) /\ length i1 = length (c_inputs c).
Proof.
  intros R1 R2 L0 L1 X0 X1 I0 I1. cbv zeta.
  pose proof (omap_length _ _ _ Hos) as Los.
  assert (Rs : ds_remote s' = ds_local t).
  { rewrite ds_share_spec in X0. injection X0 as _ _ <-. cbn. auto. }
  assert (Rt : ds_remote t' = ds_local s).
  { rewrite ds_share_spec in X1. injection X1 as _ _ <-. cbn. auto. }
  destruct (share_all3 s xs0 sh0 d0 s' t' X0 Rt) as (A0 & P0 & Q0 & _).
  destruct (share_all3 t xs1 sh1 d1 t' s' X1 Rs) as (A1 & P1 & Q1 & _).
  set (r0 := fst (ds_plain_delta_to_share s' d1)) in *. set (r1 := fst (ds_plain_delta_to_share t' d0)) in *.
  assert (A1' : all3 carries xs1 r0 sh1).
  { clear - A1. induction A1 as [|x a b xs la lb [P Q] H IH]; constructor; auto. split; auto.
    rewrite P in Q. rewrite Q. f_equal. apply xorb_comm. }
  pose proof (merge_all3 carries os _ _ _ _ _ _ A0 A1') as AM.
  destruct (all3_length _ _ _ _ AM) as [LM0 LM1]. rewrite (merge_length os xs0 xs1 L0 L1) in LM0, LM1.
  assert (D0 : map as_priv (merge os sh0 r0) = map (fun i => l0 (0, i)) (c_inputs c)).
  { rewrite I0, merge_map, P0, Q1, L0, L1, R1. reflexivity. }
  assert (D1 : map as_priv (merge os r1 sh1) = map (fun i => l1 (0, i)) (c_inputs c)).
  { rewrite I1, merge_map, P1, Q0, L0, L1, R2. reflexivity. }
  split; [|split; lia].
  intros i id x Hi Hx. cbn [ec_base ec_inputs ec] in Hi.
  destruct (all3_nth _ _ _ _ AM i x Hx) as (a & b & Ea & Eb & HC). exists a, b. split; auto. split; auto. split; auto.
  split.
  - pose proof (map_nth_error as_priv i _ Ea) as Y. rewrite D0, (map_nth_error _ _ _ Hi) in Y. congruence.
  - pose proof (map_nth_error as_priv i _ Eb) as Y. rewrite D1, (map_nth_error _ _ _ Hi) in Y. congruence.
Qed.

(** The state before the first layer and the setup data, for masks that agree with the storages on
    the gates of the circuit. *)
Lemma b_start v l0 l1 go0 go1 : 
  shape_ok (pr:=aby2) ec go0 -> shape_ok (pr:=aby2) ec go1 ->
  (forall g, ec_gate ec g <> None -> exists s, go_get (pr:=aby2) go0 g = Some (@CS aby2 s) /\ as_priv s = l0 g) ->
  (forall g, ec_gate ec g <> None -> exists s, go_get (pr:=aby2) go1 g = Some (@CS aby2 s) /\ as_priv s = l1 g) ->
  WInv ec v l0 l1 (ec_layers ec) go0 go1.
Proof.
  intros S0 S1 G0 G1. exists (fun _ => False), (fun g : gid => fst g = 0). split; [exact HSO|].
  constructor; auto; [intros g []|].
  intros g k0 k1 _ K0 K1 Hg. destruct (G0 g Hg) as (a & A & Pa). destruct (G1 g Hg) as (b & B & Pb).
  pose proof (go_get_cell (pr:=aby2) go0 g (@CS aby2 a) A) as [U0 _].
  pose proof (go_get_cell (pr:=aby2) go1 g (@CS aby2 b) B) as [U1 _].
  rewrite U0 in K0. rewrite U1 in K1. injection K0 as <-. injection K1 as <-. auto.
Qed.

Lemma b_J l0 l1 E0 E1 : all3 (eval_ok ec l0 l1) (ec_int_iter ec) E0 E1 ->
  aby_J ec l0 l1 (int_layers (ec_layers ec)) (from_raw E0) (from_raw E1).
Proof.
  intros HE. pose proof (sched_layers ec b_typed _ _ _ HSO) as HL. split.
  - apply Forall_forall. intros l Hl. unfold int_layers in Hl. apply filter_In in Hl. destruct Hl as [Hl _].
    apply el_scalar_all. apply (HL l Hl).
  - exists E0, E1. split; auto. split; auto.
    rewrite int_layers_concat; [|intros l Hl; apply el_scalar_all; apply (HL l Hl)].
    rewrite <- int_iter_layers; auto.
Qed.

Lemma b_outputs v l0 l1 a b : WInv ec v l0 l1 [] a b ->
  exists o0 o1, ex_outputs (pr:=aby2) ec a = Some (@IScalar aby2 o0) /\ ex_outputs (pr:=aby2) ec b = Some (@IScalar aby2 o1) /\
    all3 (ARS v l0 l1) (map (pair 0) (ec_outputs ec)) o0 o1.
Proof.
  intros (Live & Td & HL & E). cbn [sched_ok] in HL.
  destruct (outputs_sound (pr:=aby2) ec _ _ (AR_kind ec v l0 l1 b_typed) Live Td a b E HL) as (o0 & o1 & A & B & C).
  change (@ec_simd (p_gate aby2) ec 0) with (@ec_simd aby_gate ec 0) in C. rewrite (proj1 b_typed) in C.
  destruct o0 as [o0|]; [|destruct C]. destruct o1 as [o1|]; [|destruct C]. exists o0, o1. auto.
Qed.

(** Setup data of the other party for given setup data of one party. *)
Lemma eval_other l0 l1 l1' gs : forall E0 E1, all3 (eval_ok ec l0 l1) gs E0 E1 ->
  exists E1', all3 (eval_ok ec l0 l1') gs E0 E1'.
Proof.
  induction 1 as [|g e0 e1 gs E0 E1 (ps & P & L & Q) H (E1' & IH)]; [exists []; constructor|].
  exists (zip_with xorb e0 (map (forallb (fun p => xorb (l0 p) (l1' p))) (big_subsets ps)) :: E1').
  constructor; auto. exists ps. split; auto.
  assert (Lb : length e0 = length (big_subsets ps)).
  { apply (f_equal (@length bool)) in Q. rewrite zip_with_length, map_length, <- L, Nat.min_id in Q. auto. }
  revert Lb. generalize (big_subsets ps). clear. intros bs Lb. rewrite zip_with_length, map_length, <- Lb, Nat.min_id.
  split; auto. revert bs Lb. induction e0 as [|x e0 IH]; intros [|y bs] L; try discriminate; auto.
  cbn [map zip_with]. injection L as L. rewrite (IH bs L). f_equal. destruct x, (forallb _ y); reflexivity.
Qed.

Lemma eval_sym l0 l1 gs : forall E0 E1, all3 (eval_ok ec l0 l1) gs E0 E1 -> all3 (eval_ok ec l1 l0) gs E1 E0.
Proof.
  induction 1 as [|g e0 e1 gs E0 E1 (ps & P & L & Q) H IH]; constructor; auto.
  exists ps. split; auto. split; auto. 
  transitivity (zip_with xorb e0 e1).
  - clear. revert e1. induction e0 as [|x e0 IH]; intros [|y e1]; auto. cbn. rewrite IH, xorb_comm. auto.
  - rewrite Q. apply map_ext. intros s. clear. induction s as [|x s IH]; auto. cbn. rewrite IH, xorb_comm. auto.
Qed.

Lemma eval_ext l0 l1 k0 k1 gs : 
  (forall g, In g gs -> ec_gate ec g <> None) ->
  (forall g, ec_gate ec g <> None -> l0 g = k0 g) -> (forall g, ec_gate ec g <> None -> l1 g = k1 g) ->
  forall E0 E1, all3 (eval_ok ec l0 l1) gs E0 E1 -> all3 (eval_ok ec k0 k1) gs E0 E1.
Proof.
  intros Hg H0 H1 E0 E1 H. eapply all3_impl; [|exact H]. intros g e0 e1 Hin (ps & P & L & Q).
  exists ps. split; auto. split; auto. rewrite Q. apply map_ext_in. intros s Hsub.
  assert (Hin2 : forall x, In x s -> ec_gate ec x <> None).
  { intros x Hx. apply (b_par g); [apply Hg; auto|]. apply (Permutation_in _ P).
    unfold big_subsets in Hsub.
    assert (Hpw : In s (powerset ps)) by (rewrite <- (firstn_skipn (S (length ps)) (powerset ps)); apply in_or_app; auto).
    unfold powerset in Hpw. apply in_concat in Hpw. destruct Hpw as (y & Hy & Hs'). apply in_map_iff in Hy.
    destruct Hy as (k & <- & _). clear - Hs' Hx. revert k s Hs' Hx.
    induction ps as [|p ps IH]; intros [|k] s Hs' Hx; cbn in Hs'.
    - destruct Hs' as [<-|[]]. destruct Hx.
    - destruct Hs'.
    - destruct Hs' as [<-|[]]. destruct Hx.
    - apply in_app_or in Hs'. destruct Hs' as [Hs'|Hs']; [|right; eapply IH; eauto].
      apply in_map_iff in Hs'. destruct Hs' as (t & <- & Ht). destruct Hx as [->|Hx]; [left; auto|right; eapply IH; eauto]. }
  clear - Hin2 H0 H1. induction s as [|x s IH]; auto. cbn. rewrite IH by (intros; apply Hin2; cbn; auto).
  rewrite H0, H1 by (apply Hin2; cbn; auto). auto.
Qed.

(** Plain values of the inputs. *)
Lemma plain_inputs ins v : length ins = length (c_inputs c) -> aby_plain c ins v -> map v (c_inputs c) = ins.
Proof.
  intros L Hv. apply (list_ext false). { rewrite map_length; auto. }
  intros i Hi. rewrite map_length in Hi. destruct (nth_error (c_inputs c) i) as [g|] eqn:Eg; [|apply nth_error_None in Eg; lia].
  pose proof (b_input g (nth_error_In _ _ Eg)) as B. cbn in B. destruct (Hv g _ B) as (j & J1 & J2).
  assert (j = i) as ->.
  { pose proof b_nodup as N. cbn in N. rewrite NoDup_nth_error in N. symmetry. apply N; [lia|]. congruence. }
  rewrite (nth_error_nth _ _ _ J2). apply nth_error_nth. apply map_nth_error. auto.
Qed.

Lemma zip_map_xf (a d : gid -> bool) l : map (fun i : nat => xf a d (0, i)) l = zip_with xorb (map (fun i => a (0, i)) l) (map (fun i => d (0, i)) l).
Proof. induction l as [|x l IH]; auto. cbn. rewrite IH. auto. Qed.
Lemma zip_map_xor (a d : nat -> bool) l : map (fun i : nat => xorb (a i) (d i)) l = zip_with xorb (map a l) (map d l).
Proof. induction l as [|x l IH]; auto. cbn. rewrite IH. auto. Qed.

Lemma xor_back (x x' r : list bool) : length x = length r -> length x' = length r ->
  zip_with xorb x' (zip_with xorb r (zip_with xorb x x')) = zip_with xorb x r.
Proof.
  revert x x'. induction r as [|u r IH]; intros [|a x] [|b x'] L L'; try discriminate; auto.
  cbn in *. rewrite IH by lia. f_equal. destruct u, a, b; reflexivity.
Qed.

(** The streams of the other party in the second session. *)
Definition shift_of (mq : nat -> option share_type) (v v' : nat -> bool) (i : nat) : bool :=
  match nth_error (filter (own_draw ec mq) (ec_iter ec)) i with
  | Some g => xorb (v (snd g)) (v' (snd g))
  | None => false
  end.

Lemma not_own party g : party = 0 \/ party = 1 -> ec_gate ec g <> None -> drawing ec g = true ->
  own_draw ec (by_map party m) g = false ->
  exists i, nth_error (c_inputs c) i = Some (snd g) /\ nth_error os i = Some (if party =? 0 then ByP1 else ByP0).
Proof.
  intros Hp Hg Hd Hn. unfold own_draw in Hn. rewrite Hd in Hn. cbn [andb] in Hn.
  unfold by_map in Hn. destruct (m (snd g)) as [o|] eqn:Em; [|discriminate].
  destruct (In_nth_error _ _ (Hmi (snd g) ltac:(congruence))) as (i & Hi). exists i. split; auto.
  pose proof (omap_length _ _ _ Hos) as L.
  destruct (nth_error os i) as [o'|] eqn:Eo; [|apply nth_error_None in Eo; assert (i < length (c_inputs c)) by (apply nth_error_Some; congruence); lia].
  assert (m (snd g) = Some o').
  { clear - Hos Hi Eo. revert os Hos i Hi Eo. induction (c_inputs c) as [|x r IH]; intros os Hos i Hi Eo; [destruct i; discriminate|].
    cbn in Hos. destruct (m x) as [y|] eqn:Ey; [|discriminate]. cbn in Hos. destruct (omap m r) as [r'|]; [|discriminate].
    cbn in Hos. injection Hos as <-. destruct i as [|i]; cbn in *; [congruence|]. eapply IH; eauto. }
  destruct Hp as [->| ->]; destruct o; cbn in Hn |- *; congruence.
Qed.

Lemma merge_same o : forall (a b a' b' : list bool) i, 
  length a = owned ByP0 os -> length b = owned ByP1 os -> length a' = owned ByP0 os -> length b' = owned ByP1 os ->
  nth_error os i = Some o -> (o = ByP0 -> a = a') -> (o = ByP1 -> b = b') ->
  nth_error (merge os a b) i = nth_error (merge os a' b') i.
Proof.
  clear. induction os as [|x r IH]; intros a b a' b' i La Lb La' Lb' Hi Ha Hb; [destruct i; discriminate|].
  rewrite owned_cons in *. destruct x; cbn [merge Nat.add] in *.
  - destruct a as [|u a]; [discriminate|]. destruct a' as [|u' a']; [discriminate|]. injection La as La. injection La' as La'.
    destruct i as [|i]; cbn in *.
    + injection Hi as <-. injection (Ha eq_refl) as <- _. auto.
    + apply IH; auto. intros E. injection (Ha E). auto.
  - destruct b as [|u b]; [discriminate|]. destruct b' as [|u' b']; [discriminate|]. injection Lb as Lb. injection Lb' as Lb'.
    destruct i as [|i]; cbn in *.
    + injection Hi as <-. injection (Hb eq_refl) as <- _. auto.
    + apply IH; auto. intros E. injection (Hb E). auto.
Qed.

(** The masks of the other party in the second session. *)
Lemma b_shift party v v' a0 a1 b0 b1 priv joint s t s1 gs t1 gt :
  party = 0 \/ party = 1 ->
  length a0 = owned ByP0 os -> length a1 = owned ByP1 os -> length b0 = owned ByP0 os -> length b1 = owned ByP1 os ->
  (party = 0 -> a1 = b1) -> (party = 1 -> a0 = b0) ->
  aby_plain c (merge os a0 a1) v -> aby_plain c (merge os b0 b1) v' ->
  ds_new party priv joint (by_map party m) = Some s ->
  ds_new party (fun i => xorb (priv i) (shift_of (by_map party m) v v' i)) joint (by_map party m) = Some t ->
  setup_gate_outputs ec s = Some (s1, gs) -> setup_gate_outputs ec t = Some (t1, gt) ->
  (forall g, ec_gate ec g <> None -> mask_at gt g = xf (mask_at gs) (fun g => xorb (v (snd g)) (v' (snd g))) g) /\
  (let n := if party =? 0 then owned ByP0 os else owned ByP1 os in
   let a := if party =? 0 then a0 else a1 in let b := if party =? 0 then b0 else b1 in
   draws (ds_priv t) n = zip_with xorb (draws (ds_priv s) n) (zip_with xorb a b)).
Proof.
  intros Hp La0 La1 Lb0 Lb1 H0 H1 Hv Hv' Es Et Fs Ft.
  pose proof (omap_length _ _ _ Hos) as Los.
  assert (LA : length (merge os a0 a1) = length (c_inputs c)) by (rewrite merge_length; auto).
  assert (LB : length (merge os b0 b1) = length (c_inputs c)) by (rewrite merge_length; auto).
  assert (Ps : ds_map s = by_map party m /\ ds_priv s = Rng priv 0).
  { destruct Hp as [->| ->]; cbn in Es; injection Es as <-; auto. }
  assert (Pt : ds_map t = by_map party m /\ ds_priv t = Rng (fun i => xorb (priv i) (shift_of (by_map party m) v v' i)) 0 /\
     ds_remote t = ds_remote s).
  { destruct Hp as [->| ->]; cbn in Es, Et; injection Es as <-; injection Et as <-; auto. }
  destruct Ps as (Ps1 & Ps2), Pt as (Pt1 & Pt2 & Pt3).
  set (d := fun g : gid => xorb (v (snd g)) (v' (snd g))).
  assert (Hd : aby_masks ec d).
  { apply (valuations_masks ec (merge os a0 a1) (merge os b0 b1) (fun g => v (snd g)) (fun g => v' (snd g)));
      apply aby_base_valuation; auto. }
  assert (MS : forall g, ec_gate ec g <> None -> mask_at gt g = xf (mask_at gs) d g).
  { apply (b_twin d (shift_of (by_map party m) v v') s t s1 gs t1 gt); auto; try congruence.
    - rewrite Pt2. reflexivity.
    - rewrite Ps2. reflexivity.
    - intros i. rewrite Pt2, Ps2. reflexivity.
    - intros i g Hg. rewrite Ps1 in Hg. unfold shift_of. rewrite Hg. reflexivity.
    - intros g Hg Dg Og. rewrite Ps1 in Og. destruct (not_own party g Hp Hg Dg Og) as (i & I1 & I2).
      unfold d. apply plain_inputs in Hv; auto. apply plain_inputs in Hv'; auto.
      assert (Q : nth_error (merge os a0 a1) i = nth_error (merge os b0 b1) i).
      { eapply merge_same; eauto; destruct Hp as [->| ->]; cbn; try discriminate; auto. }
      rewrite <- Hv, <- Hv', !(map_nth_error _ _ _ I1) in Q. injection Q as ->. apply xorb_nilpotent. }
  split; auto. cbv zeta.
  destruct (b_setup s) as (s1' & gs' & Fs' & _ & _ & _ & Is). rewrite Fs in Fs'. injection Fs' as <- <-.
  destruct (b_setup t) as (t1' & gt' & Ft' & _ & _ & _ & It). rewrite Ft in Ft'. injection Ft' as <- <-.
  rewrite Ps1, (input_draws_merge m (c_inputs c) os _ _ party Hos Hp) in Is.
  rewrite Pt1, Pt3, (input_draws_merge m (c_inputs c) os _ _ party Hos Hp) in It.
  assert (X : map (fun i => mask_at gt (0, i)) (c_inputs c) =
    zip_with xorb (map (fun i => mask_at gs (0, i)) (c_inputs c)) (zip_with xorb (merge os a0 a1) (merge os b0 b1))).
  { rewrite <- (plain_inputs _ _ LA Hv), <- (plain_inputs _ _ LB Hv'), <- zip_map_xor.
    rewrite <- (zip_map_xf (mask_at gs) d). apply map_ext_in. intros i Hi. apply MS. rewrite (b_input i Hi). discriminate. }
  rewrite Is, It in X.
  assert (LZ : length (zip_with xorb (merge os a0 a1) (merge os b0 b1)) = length os)
    by (rewrite zip_with_length, LA, LB, Nat.min_id; auto).
  destruct Hp as [->| ->]; cbn [Nat.eqb] in *.
  - apply (f_equal (pick ByP0 os)) in X.
    rewrite pick_zip in X by (rewrite LZ; apply merge_length; apply draws_length).
    rewrite pick_zip in X by congruence.
    rewrite (proj1 (pick_merge os _ _ La0 La1)), (proj1 (pick_merge os _ _ Lb0 Lb1)) in X.
    rewrite !(fun a b => proj1 (pick_merge os (draws a _) (draws b _) (draws_length _ _) (draws_length _ _))) in X. exact X.
  - apply (f_equal (pick ByP1 os)) in X.
    rewrite pick_zip in X by (rewrite LZ; apply merge_length; apply draws_length).
    rewrite pick_zip in X by congruence.
    rewrite (proj2 (pick_merge os _ _ La0 La1)), (proj2 (pick_merge os _ _ Lb0 Lb1)) in X.
    rewrite !(fun a b => proj2 (pick_merge os (draws a _) (draws b _) (draws_length _ _) (draws_length _ _))) in X. exact X.
Qed.
End Base.

(** *** The runs of one party against two others *)
Lemma twin_run ec p q ip iq iq' InvA InvB JA JB D gp gq gq' sp sq sq' (RA RB : list ashare -> list ashare -> Prop) :
  world_step ec p q ip iq InvA JA D -> world_step ec p q ip iq' InvB JB D ->
  InvA (ec_layers ec) gp gq -> InvB (ec_layers ec) gp gq' ->
  JA (int_layers (ec_layers ec)) sp sq -> JB (int_layers (ec_layers ec)) sp sq' ->
  istore_len (pr:=aby2) ip = length (ec_inputs ec) -> istore_len (pr:=aby2) iq = length (ec_inputs ec) ->
  istore_len (pr:=aby2) iq' = length (ec_inputs ec) ->
  (forall a b, InvA [] a b -> exists o0 o1, ex_outputs (pr:=aby2) ec a = Some (@IScalar aby2 o0) /\
      ex_outputs (pr:=aby2) ec b = Some (@IScalar aby2 o1) /\ RA o0 o1) ->
  (forall a b, InvB [] a b -> exists o0 o1, ex_outputs (pr:=aby2) ec a = Some (@IScalar aby2 o0) /\
      ex_outputs (pr:=aby2) ec b = Some (@IScalar aby2 o1) /\ RB o0 o1) ->
  exists mp mq op oq oq' gp1 gq1 gq2 r r1 r2,
    px_run (pr:=aby2) aby_request p ec ip mq gp sp = Some (mp, [], (@IScalar aby2 op, gp1, r)) /\
    px_run (pr:=aby2) aby_request q ec iq mp gq sq = Some (mq, [], (@IScalar aby2 oq, gq1, r1)) /\
    px_run (pr:=aby2) aby_request q ec iq' mp gq' sq' = Some (mq, [], (@IScalar aby2 oq', gq2, r2)) /\
    RA op oq /\ RB op oq'.
Proof.
  intros HA HB IA IB QA QB L1 L2 L3 OA OB.
  destruct (twin ec p q ip iq iq' InvA InvB JA JB D HA HB (ec_layers ec) gp gq gq' sp sq sq' IA IB QA QB)
    as (mp & mq & g & g1 & g2 & r & r1 & r2 & X1 & X2 & X3 & X4 & X5).
  destruct (OA _ _ X4) as (o0 & o1 & A1 & A2 & A3). destruct (OB _ _ X5) as (o0' & o1' & B1 & B2 & B3).
  rewrite A1 in B1. injection B1 as <-.
  exists mp, mq, o0, o1, o1', g, g1, g2, r, r1, r2. unfold px_run.
  change (@ec_inputs (p_gate aby2) ec) with (@ec_inputs aby_gate ec). rewrite L1, L2, L3, Nat.eqb_refl. cbn [oassert obind].
  change (@ec_layers (p_gate aby2) ec) with (@ec_layers aby_gate ec).
  rewrite X1, X2, X3. cbn [obind]. rewrite A1, A2, B2. cbn [obind]. auto.
Qed.

(** The messages and outputs of two parties running against each other are determined. *)
Lemma run_unique {P : protocol} {Sv} (req : Sv -> nat -> option (p_setup P * Sv)) p q ec ip iq gp gq sp sq mp mq rp rq mp' mq' rp' rq' :
  px_run req p ec ip mq gp sp = Some (mp, [], rp) ->
  px_run req q ec iq mp gq sq = Some (mq, [], rq) ->
  px_run req p ec ip mq' gp sp = Some (mp', [], rp') ->
  px_run req q ec iq mp' gq sq = Some (mq', [], rq') ->
  mp = mp' /\ mq = mq' /\ rp = rp' /\ rq = rq'.
Proof.
  unfold px_run. intros A B C D.
  destruct (oassert (istore_len ip =? _)); cbn [obind] in A, C; [|discriminate].
  destruct (oassert (istore_len iq =? _)); cbn [obind] in B, D; [|discriminate].
  destruct (px_layers req p ec ip (ec_layers ec) mq gp sp) as [[[[a1 a2] a3] a4]|] eqn:EA; cbn [obind] in A; [|discriminate].
  destruct (ex_outputs ec a3) as [a5|] eqn:FA; cbn [obind] in A; [|discriminate]. injection A as -> -> <-.
  destruct (px_layers req q ec iq (ec_layers ec) mp gq sq) as [[[[b1 b2] b3] b4]|] eqn:EB; cbn [obind] in B; [|discriminate].
  destruct (ex_outputs ec b3) as [b5|] eqn:FB; cbn [obind] in B; [|discriminate]. injection B as -> -> <-.
  destruct (px_layers req p ec ip (ec_layers ec) mq' gp sp) as [[[[c1 c2] c3] c4]|] eqn:EC; cbn [obind] in C; [|discriminate].
  destruct (ex_outputs ec c3) as [c5|] eqn:FC; cbn [obind] in C; [|discriminate]. injection C as -> -> <-.
  destruct (px_layers req q ec iq (ec_layers ec) mp' gq sq) as [[[[d1 d2] d3] d4]|] eqn:ED; cbn [obind] in D; [|discriminate].
  destruct (ex_outputs ec d3) as [d5|] eqn:FD; cbn [obind] in D; [|discriminate]. injection D as -> -> <-.
  destruct (together_unique req p q ec ip iq (ec_layers ec) gp gq sp sq mp mq mp' mq' (a3, a4) (b3, b4) (c3, c4) (d3, d4) EA EB EC ED)
    as (-> & -> & E1 & E2). injection E1 as -> ->. injection E2 as -> ->. rewrite FA in FC. rewrite FB in FD.
  injection FC as ->. injection FD as ->. auto.
Qed.

Lemma world_step_ext ec p q ip iq Inv J D D' : (forall g, D g = D' g) ->
  world_step ec p q ip iq Inv J D -> world_step ec p q ip iq Inv J D'.
Proof.
  intros HD H l ls gp gq HI. destruct (H l ls gp gq HI) as (a & b & A & B & C & F).
  exists a, b. split; auto. split; auto. split; auto. intros Hn sp sq HJ.
  destruct (F Hn sp sq HJ) as (x1 & x2 & x3 & x4 & x5 & x6 & x7 & x8 & x9 & x10 & x11 & x12 & P1 & P2 & P3 & P4 & P5 & P6 & P7 & P8 & (P9 & P10)).
  exists x1, x2, x3, x4, x5, x6, x7, x8, x9, x10, x11, x12. do 8 (split; [assumption|]). split; [|exact P10].
  eapply all3_impl; [|exact P9]. cbn. intros g x y _ E. rewrite <- HD. exact E.
Qed.
