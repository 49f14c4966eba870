(** Proofs about what a party sees in an execution of the ABY2.0 protocol. *)
From Coq Require Import List Bool Arith Lia Permutation.
Require Import Verif.Prelude Verif.PreludeProofs Verif.GateModel Verif.ProtocolModel Verif.CircuitModel
  Verif.ExecModel Verif.ExecSpec Verif.ExecProofs Verif.ExecLayerProofs Verif.PartyModel Verif.PrivacyProofs
  Verif.Aby2Model Verif.Aby2Spec Verif.Aby2Proofs Verif.Aby2ExecProofs Verif.Aby2PrivSpec.
Import ListNotations.
Open Scope nat_scope.

Notation pr := aby2.

(** Both messages of a layer add up to the public values [D]. *)
Definition adds_to (D : gid -> bool) (l : elayer) (m0 m1 : emsg pr) : Prop :=
  all3 (fun g x y => xorb x y = D g) (el_int l) (em_scalar (pr:=pr) m0 : list bool) (em_scalar (pr:=pr) m1 : list bool) /\
  em_simd (pr:=pr) m0 = None /\ em_simd (pr:=pr) m1 = None.

Lemma adds_to_sym D l m0 m1 : adds_to D l m0 m1 -> adds_to D l m1 m0.
Proof.
  intros (A & B & C). split; [|auto]. induction A as [|g x y gs l0 l1 H A IH]; constructor; auto.
  rewrite xorb_comm. auto.
Qed.

Lemma adds_to_unique D l m0 m1 m2 : adds_to D l m0 m1 -> adds_to D l m0 m2 -> m1 = m2.
Proof.
  intros (A & _ & B) (A' & _ & B').
  destruct m1 as [a x], m2 as [b y]. cbn in *. subst x y. f_equal.
  revert b A'. induction A as [|g u w gs l0 l1 H A IH]; intros b A'.
  - apply all3_nil_inv in A'. destruct A' as [_ ->]. auto.
  - destruct (all3_cons_inv _ _ _ _ _ A') as (b0 & b1 & rb & rc & E & -> & H' & A'').
    injection E as <- <-. f_equal; [|apply IH; exact A'']. rewrite <- H' in H.
    destruct u, w, b1; cbn in H; congruence.
Qed.

(** *** One party's view of one world *)
Definition world_step (ec : ecirc aby_gate) (p q : nat) (ip iq : istore pr)
  (Inv : list elayer -> gouts pr -> gouts pr -> Prop)
  (J : list elayer -> list (list bool) -> list (list bool) -> Prop) (D : gid -> bool) : Prop :=
  forall l ls gp gq, Inv (l :: ls) gp gq ->
  exists a b,
    ofold (ex_ni (pr:=pr) p ec (ec_main_simd (pr:=pr) ec) ip) gp (el_ni l) = Some a /\
    ofold (ex_ni (pr:=pr) q ec (ec_main_simd (pr:=pr) ec) iq) gq (el_ni l) = Some b /\
    (el_int_count l = 0 -> Inv ls a b) /\
    (el_int_count l <> 0 -> forall sp sq, J (int_layers (l :: ls)) sp sq ->
      exists stp stq sp' sq' mp mq stp' stq' a' b' a'' b'',
        aby_request sp (el_int_count l) = Some (stp, sp') /\
        aby_request sq (el_int_count l) = Some (stq, sq') /\
        J (int_layers ls) sp' sq' /\
        ex_send (pr:=pr) p ec l stp a = Some (mp, stp', a') /\ ex_send (pr:=pr) q ec l stq b = Some (mq, stq', b') /\
        ex_recv (pr:=pr) p ec l stp' mp mq a' = Some a'' /\ ex_recv (pr:=pr) q ec l stq' mq mp b' = Some b'' /\
        Inv ls a'' b'' /\ adds_to D l mp mq).

Lemma world_step_sym ec p q ip iq Inv J D : world_step ec p q ip iq Inv J D ->
  world_step ec q p iq ip (fun ls a b => Inv ls b a) (fun ls a b => J ls b a) D.
Proof.
  intros H l ls gp gq HI. destruct (H l ls gq gp HI) as (a & b & A & B & C & F).
  exists b, a. split; auto. split; auto. split; auto. intros Hn sp sq HJ.
  destruct (F Hn sq sp HJ) as (x1 & x2 & x3 & x4 & x5 & x6 & x7 & x8 & x9 & x10 & x11 & x12 & P1 & P2 & P3 & P4 & P5 & P6 & P7 & P8 & P9).
  exists x2, x1, x4, x3, x6, x5, x8, x7, x10, x9, x12, x11. auto 12 using adds_to_sym.
Qed.

(** *** Two worlds that differ in the other party only *)
Section Twin.
Variable ec : ecirc aby_gate.
Variables p q : nat.
Variables ip iq iq' : istore pr.
Variables InvA InvB : list elayer -> gouts pr -> gouts pr -> Prop.
Variables JA JB : list elayer -> list (list bool) -> list (list bool) -> Prop.
Variable D : gid -> bool.
Hypothesis HA : world_step ec p q ip iq InvA JA D.
Hypothesis HB : world_step ec p q ip iq' InvB JB D.

Lemma twin ls : forall gp gq gq' sp sq sq',
  InvA ls gp gq -> InvB ls gp gq' -> JA (int_layers ls) sp sq -> JB (int_layers ls) sp sq' ->
  exists mp mq gp' g1 g2 r r1 r2,
    px_layers (pr:=pr) aby_request p ec ip ls mq gp sp = Some (mp, [], gp', r) /\
    px_layers (pr:=pr) aby_request q ec iq ls mp gq sq = Some (mq, [], g1, r1) /\
    px_layers (pr:=pr) aby_request q ec iq' ls mp gq' sq' = Some (mq, [], g2, r2) /\
    InvA [] gp' g1 /\ InvB [] gp' g2.
Proof.
  induction ls as [|l ls IH]; intros gp gq gq' sp sq sq' IA IB QA QB.
  - exists [], [], gp, gq, gq', sp, sq, sq'. cbn [px_layers]. auto.
  - destruct (HA l ls gp gq IA) as (a & b & A1 & A2 & A3 & A4).
    destruct (HB l ls gp gq' IB) as (a2 & b' & B1 & B2 & B3 & B4).
    rewrite A1 in B1. injection B1 as <-.
    cbn [px_layers]. rewrite A1, A2, B2. cbn [obind]. cbv zeta.
    destruct (Nat.eqb_spec (el_int_count l) 0) as [Hz|Hz].
    + apply IH; auto; unfold int_layers in *; cbn [filter] in *; rewrite Hz in *; cbn [Nat.eqb negb] in *; auto.
    + destruct (A4 Hz sp sq QA) as (st & stq & sp1 & sq1 & mp & mq & st' & stq' & u & w & u' & w' & P1 & P2 & P3 & P4 & P5 & P6 & P7 & P8 & P9).
      destruct (B4 Hz sp sq' QB) as (st2 & stq2 & sp2 & sq2 & mp2 & mq2 & st2' & stq2' & u2 & w2 & u2' & w2' & R1 & R2 & R3 & R4 & R5 & R6 & R7 & R8 & R9).
      rewrite P1 in R1. injection R1 as <- <-. rewrite P4 in R4. injection R4 as <- <- <-.
      pose proof (adds_to_unique _ _ _ _ _ P9 R9) as <-. rewrite P6 in R6. injection R6 as <-.
      destruct (IH u' w' w2' sp1 sq1 sq2 P8 R8 P3 R3) as (ms & ns & g & g1 & g2 & r & r1 & r2 & X1 & X2 & X3 & X4 & X5).
      exists (mp :: ms), (mq :: ns), g, g1, g2, r, r1, r2.
      rewrite P1, P2, R2. cbn [obind]. rewrite P4, P5, R5. cbn [obind]. rewrite P6, P7, R7. cbn [obind].
      rewrite X1, X2, X3. cbn [obind]. auto.
Qed.
End Twin.

(** *** The layers of a world *)
Section World.
Variable ec : ecirc aby_gate.
Variables (v l0 l1 : gid -> bool) (ins : list bool).
Hypothesis Ht : aby_typed ec.
Hypothesis Hf : fan_in_two ec.
Hypothesis Hv : aby_valuation ec ins v.
Hypothesis Hm0 : aby_masks ec l0.
Hypothesis Hm1 : aby_masks ec l1.
Hypothesis Hnd : NoDup (ec_inputs ec).
Let D (g : gid) : bool := xorb (xorb (v g) (l0 g)) (l1 g).

Definition WInv (ls : list elayer) (a b : gouts pr) : Prop :=
  exists Live Todo, sched_ok aby_ops ec Live Todo ls /\
    EInv (pr:=pr) ec (AR v l0 l1) (AI ec l0 l1) Live Todo a b.

Lemma combine_pub (so : list ashare) : forall d0 d1 gs r,
  all3 (ARS v l0 l1) gs (zip_with (fun od o => AS (xorb (snd od) o) (as_priv (fst od))) (combine so d0) d1) r ->
  length d0 = length gs -> length d1 = length gs -> all3 (fun g x y => xorb x y = D g) gs d0 d1.
Proof.
  induction so as [|s so IH]; intros d0 d1 gs r H L0 L1.
  - cbn in H. inversion H; subst. destruct d0, d1; try discriminate. constructor.
  - destruct d0 as [|x d0], d1 as [|y d1]; cbn [combine zip_with] in H; inversion H; subst; try discriminate; [constructor|].
    constructor; [|eapply IH; eauto; cbn in *; lia].
    match goal with HH : ARS _ _ _ _ _ _ |- _ => destruct HH as ((_ & Q) & P0 & P1) end.
    cbn in Q, P0. unfold D. rewrite Q, <- P0, <- P1. cbn.
    destruct x, y, (as_priv s); cbn; destruct (as_priv c); reflexivity.
Qed.

Lemma compute_msg_length party gs : forall so si st d st',
  aby_compute_msg party gs so si st = Some (d, st') -> length d = Nat.min (length gs) (length so).
Proof.
  induction gs as [|g gs IH]; intros so si st d st' H; cbn in H; [injection H as <- _; auto|].
  destruct so as [|o so]; [injection H as <- _; auto|]. destruct g; try discriminate.
  destruct (compute_delta_share _ _ _ _ _) as [[x st1]|]; cbn [obind] in H; [|discriminate].
  destruct (aby_compute_msg party gs so _ st1) as [[ds st2]|] eqn:E; cbn [obind] in H; [|discriminate].
  injection H as <- _. cbn. f_equal. eauto.
Qed.

Lemma world_layers s0 s1 :
  inputs_ok ec l0 l1 ins s0 s1 ->
  world_step ec 0 1 (@IScalar aby2 s0) (@IScalar aby2 s1) WInv (aby_J ec l0 l1) D.
Proof.
  intros Hin l ls go0 go1 (Live & Todo & HS & HE).
  destruct (sched_layers ec Ht _ _ _ HS l (or_introl eq_refl)) as [Hl Hg].
  destruct HS as [HL HS]. destruct (el_scalar_all l Hl) as (Es & Ed & _).
  assert (HI : int_sound (pr:=pr) ec (AR v l0 l1) (AI ec l0 l1) (fun _ => aby_ok ec l0 l1 l) l)
    by (eapply aby_int_sound; eauto).
  assert (HK : parents_kind (pr:=pr) ec l).
  { split; intros g x G Hx; [apply (proj1 Ht)|]. rewrite Ed in G. destruct G. }
  destruct (layer_pieces (pr:=pr) aby_ops ec (AR v l0 l1) (AI ec l0 l1) (AR_kind ec v l0 l1 Ht)
    (fun _ => aby_ok ec l0 l1 l) (@IScalar aby2 s0) (@IScalar aby2 s1) l Live Todo go0 go1) as (a & b & A & B & EI & Z & N); auto.
  { eapply aby_ni_sound; eauto. }
  { intros _. rewrite Ed. reflexivity. }
  exists a, b. split; auto. split; auto. split; [intros Hz; eexists _, _; split; eauto|].
  intros Hn sp sq HJ.
  assert (Ei : int_layers (l :: ls) = l :: int_layers ls).
  { unfold int_layers. cbn [filter]. destruct (Nat.eqb_spec (el_int_count l) 0); [congruence|reflexivity]. }
  rewrite Ei in HJ. destruct (aby_serves ec l0 l1 l _ _ _ HJ) as (st0 & st1 & s0' & s1' & R0 & R1 & OK & HJ').
  destruct (N Hn st0 st1 OK) as (m0 & m1 & st0' & st1' & a' & b' & a'' & b'' & S0 & S1 & V0 & V1 & EE).
  exists st0, st1, s0', s1', m0, m1, st0', st1', a', b', a'', b''.
  do 7 (split; [assumption|]). split; [eexists _, _; split; eauto|].
  (* the messages *)
  destruct OK as (E0 & E1 & -> & -> & HEV).
  destruct (fetch_outs_scalar (pr:=pr) ec _ _ _ _ a b (el_int l) EI) as (so0 & so1 & F0 & F1 & FO).
  { intros g G. destruct (lo_int _ _ _ _ _ HL g G) as ((gate & G1 & G2) & G3 & G4 & _).
    split; [auto|]. split; [eauto|]. apply (proj1 Ht). }
  destruct (fetch_ins_scalar (pr:=pr) ec _ _ (AR_kind ec v l0 l1 Ht) _ _ a b (concat (map (@ec_parents (p_gate pr) ec) (el_int l))) EI) as (si0 & si1 & F2 & F3 & FI).
  { intros x Hx. apply in_concat in Hx. destruct Hx as (ps & Hps & Hx). apply in_map_iff in Hps. destruct Hps as (g & <- & G).
    destruct (lo_int _ _ _ _ _ HL g G) as (_ & _ & _ & G4). split; [apply G4; auto|apply (proj1 Ht)]. }
  unfold ex_send in S0, S1. cbv zeta in S0, S1. rewrite Es, Ed in S0, S1.
  destruct (@omap gid (p_gate pr) (@ec_gate (p_gate pr) ec) (el_int l)) as [sg|] eqn:Eg; [|discriminate].
  cbn [obind] in S0, S1. change (@omap gid aby_gate (@ec_gate aby_gate ec) (el_int l) = Some sg) in Eg.
  rewrite F0 in S0. rewrite F1 in S1. cbn [obind] in S0, S1. rewrite F2 in S0. rewrite F3 in S1. cbn [obind] in S0, S1.
  destruct (aby_and_layer ec v l0 l1 ins Ht Hf Hv (el_int l) sg so0 so1 si0 si1 E0 E1 Eg) as (d0 & d1 & M0 & M1 & HR); auto.
  - clear - Eg Hg. revert sg Eg. induction (el_int l) as [|g gs IH]; intros sg H; cbn in H.
    + injection H as <-. auto.
    + destruct (Hg g) as (gate & G1 & G2); [cbn; auto|]. rewrite G1 in H. cbn [obind] in H.
      destruct (omap (ec_gate ec) gs) as [r|] eqn:Er; [|discriminate]. cbn [obind] in H. injection H as <-.
      cbn. rewrite G2. apply IH; [|exact eq_refl]. intros; apply Hg; cbn; auto.
  - eapply all3_impl; [|exact FO]. intros g x y G Hx. apply Hx. destruct (Hg g G) as (gate & G1 & _).
    change (@ec_gate aby_gate ec g <> None). congruence.
  - change (p_compute_msg pr) with aby_compute_msg in S0, S1. rewrite M0 in S0. rewrite M1 in S1. cbn [obind] in S0, S1.
    change (p_simd_support pr) with false in S0, S1. cbn in S0, S1. injection S0 as <- _ _. injection S1 as <- _ _.
    split; [|split; reflexivity]. cbn [em_scalar].
    destruct (all3_length _ _ _ _ FO) as [LO0 LO1]. pose proof (omap_length _ _ _ Eg) as Lg.
    apply compute_msg_length in M0, M1.
    eapply combine_pub; [exact HR| |].
    + rewrite M0, Lg. etransitivity; [apply f_equal; exact LO0|apply Nat.min_id].
    + rewrite M1, Lg. etransitivity; [apply f_equal; exact LO1|apply Nat.min_id].
Qed.
End World.
