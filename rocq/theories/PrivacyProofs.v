(** Proofs about single-party runs and transcripts. *)
From Coq Require Import List Bool Arith Lia.
Require Import Verif.Prelude Verif.PreludeProofs Verif.GateModel Verif.ProtocolModel
  Verif.BoolGmwModel Verif.BoolGmwSpec Verif.CircuitModel
  Verif.ExecModel Verif.ExecSpec Verif.ExecProofs Verif.PartyModel Verif.PrivacySpec.
Import ListNotations.

(** *** Composition: [ex2_run] is two single-party runs exchanging messages *)
Section Compose.
Context {pr : protocol} {Sv : Type}.
Variable req : Sv -> nat -> option (p_setup pr * Sv).
Variable ec : ecirc (p_gate pr).
Variable i0 i1 : istore pr.

Lemma compose_layers ls : forall go0 go1 s0 s1 go0' go1' s0' s1',
  ofold (ex2_layer req ec i0 i1) ((go0, s0), (go1, s1)) ls = Some ((go0', s0'), (go1', s1')) <->
  exists ms0 ms1,
    px_layers req 0 ec i0 ls ms1 go0 s0 = Some (ms0, [], go0', s0') /\
    px_layers req 1 ec i1 ls ms0 go1 s1 = Some (ms1, [], go1', s1').
Proof.
  induction ls as [|l ls IH]; intros.
  - cbn [ofold px_layers]. split.
    + intros H. injection H as <- <- <- <-. exists [], []. auto.
    + intros (ms0 & ms1 & H0 & H1). injection H0 as <- -> <- <-. injection H1 as <- <-. auto.
  - cbn [ofold px_layers]. unfold ex2_layer at 1. cbv zeta.
    destruct (ofold (ex_ni 0 ec (ec_main_simd ec) i0) go0 (el_ni l)) as [a|]; cbn [obind];
      [|split; [discriminate|intros (? & ? & ? & ?); discriminate]].
    destruct (ofold (ex_ni 1 ec (ec_main_simd ec) i1) go1 (el_ni l)) as [b|]; cbn [obind];
      [|split; [discriminate|intros (? & ? & ? & ?); discriminate]].
    destruct (Nat.eqb_spec (el_int_count l) 0) as [Hz|Hz].
    + cbn [obind]. apply IH.
    + destruct (req s0 (el_int_count l)) as [[st0 t0]|]; cbn [obind];
        [|split; [discriminate|intros (? & ? & ? & ?); discriminate]].
      destruct (req s1 (el_int_count l)) as [[st1 t1]|]; cbn [obind];
        [|split; [discriminate|intros (? & ? & ? & ?); discriminate]].
      destruct (ex_send 0 ec l st0 a) as [[[m0 st0'] a']|]; cbn [obind];
        [|split; [discriminate|intros (? & ? & ? & ?); discriminate]].
      destruct (ex_send 1 ec l st1 b) as [[[m1 st1'] b']|]; cbn [obind];
        [|split; [discriminate|intros (? & ? & ? & ?); discriminate]].
      split.
      * destruct (ex_recv 0 ec l st0' m0 m1 a') as [a''|] eqn:R0; cbn [obind]; [|discriminate].
        destruct (ex_recv 1 ec l st1' m1 m0 b') as [b''|] eqn:R1; cbn [obind]; [|discriminate].
        intros H. apply IH in H. destruct H as (ms0 & ms1 & H0 & H1).
        exists (m0 :: ms0), (m1 :: ms1). rewrite R0, R1. cbn [obind]. rewrite H0, H1. auto.
      * intros (ms0 & ms1 & H0 & H1).
        destruct ms1 as [|x1 ms1]; [discriminate|]. destruct ms0 as [|x0 ms0]; [discriminate|].
        destruct (ex_recv 0 ec l st0' m0 x1 a') as [a''|] eqn:R0; cbn [obind] in H0; [|discriminate].
        destruct (px_layers req 0 ec i0 ls ms1 a'' t0) as [[[[x y] z] w]|] eqn:P0;
          cbn [obind] in H0; [|discriminate]. injection H0 as <- <- -> -> ->.
        destruct (ex_recv 1 ec l st1' m1 m0 b') as [b''|] eqn:R1; cbn [obind] in H1; [|discriminate].
        destruct (px_layers req 1 ec i1 ls x b'' t1) as [[[[x' y'] z'] w']|] eqn:P1;
          cbn [obind] in H1; [|discriminate]. injection H1 as <- <- -> -> ->.
        rewrite R0. cbn [obind]. try rewrite R1. cbn [obind]. apply IH. eauto.
Qed.

Lemma compose_run go0 go1 s0 s1 o0 o1 go0' go1' s0' s1' :
  ex2_run req ec i0 i1 ((go0, s0), (go1, s1)) = Some (o0, o1, ((go0', s0'), (go1', s1'))) <->
  exists ms0 ms1,
    px_run req 0 ec i0 ms1 go0 s0 = Some (ms0, [], (o0, go0', s0')) /\
    px_run req 1 ec i1 ms0 go1 s1 = Some (ms1, [], (o1, go1', s1')).
Proof.
  unfold ex2_run, px_run.
  destruct (istore_len i0 =? length (ec_inputs ec)); cbn [oassert obind];
    [|split; [discriminate|intros (? & ? & ? & ?); discriminate]].
  destruct (istore_len i1 =? length (ec_inputs ec)); cbn [oassert obind];
    [|split; [discriminate|intros (? & ? & ? & ?); discriminate]].
  split.
  - destruct (ofold (ex2_layer req ec i0 i1) _ _) as [[[a x] [b y]]|] eqn:E; cbn [obind]; [|discriminate].
    apply compose_layers in E. destruct E as (ms0 & ms1 & E0 & E1).
    destruct (ex_outputs ec a) as [q0|] eqn:Q0; cbn [obind]; [|discriminate].
    destruct (ex_outputs ec b) as [q1|] eqn:Q1; cbn [obind]; [|discriminate].
    intros H. injection H as -> -> -> -> -> ->.
    exists ms0, ms1. rewrite E0, E1. cbn [obind]. rewrite Q0, Q1. auto.
  - intros (ms0 & ms1 & H0 & H1).
    destruct (px_layers req 0 ec i0 (ec_layers ec) ms1 go0 s0) as [[[[a b] c] d]|] eqn:E0;
      cbn [obind] in H0; [|discriminate].
    destruct (ex_outputs ec c) as [q0|] eqn:Q0; cbn [obind] in H0; [|discriminate].
    injection H0 as -> -> -> -> ->.
    destruct (px_layers req 1 ec i1 (ec_layers ec) ms0 go1 s1) as [[[[a' b'] c'] d']|] eqn:E1;
      cbn [obind] in H1; [|discriminate].
    destruct (ex_outputs ec c') as [q1|] eqn:Q1; cbn [obind] in H1; [|discriminate].
    injection H1 as -> -> -> -> ->.
    assert (E : ofold (ex2_layer req ec i0 i1) ((go0, s0), (go1, s1)) (ec_layers ec)
                = Some ((go0', s0'), (go1', s1'))) by (apply compose_layers; eauto).
    rewrite E. cbn [obind]. rewrite Q0, Q1. auto.
Qed.
End Compose.

(** The messages are determined: causality. *)
Lemma together_unique {pr : protocol} {Sv} (req : Sv -> nat -> option (p_setup pr * Sv)) p q ec ip iq ls :
  forall gp gq sp sq mp mq mp' mq' rp rq rp' rq',
  px_layers req p ec ip ls mq gp sp = Some (mp, [], fst rp, snd rp) ->
  px_layers req q ec iq ls mp gq sq = Some (mq, [], fst rq, snd rq) ->
  px_layers req p ec ip ls mq' gp sp = Some (mp', [], fst rp', snd rp') ->
  px_layers req q ec iq ls mp' gq sq = Some (mq', [], fst rq', snd rq') ->
  mp = mp' /\ mq = mq' /\ rp = rp' /\ rq = rq'.
Proof.
  induction ls as [|l ls IH]; intros gp gq sp sq mp mq mp' mq' [] [] [] []; cbn [px_layers fst snd].
  - intros. repeat match goal with H : Some _ = Some _ |- _ => injection H as ?; subst end. auto.
  - destruct (ofold (ex_ni p ec (ec_main_simd ec) ip) gp (el_ni l)) as [a|]; cbn [obind]; [|discriminate].
    destruct (ofold (ex_ni q ec (ec_main_simd ec) iq) gq (el_ni l)) as [b|]; cbn [obind]; [|discriminate].
    destruct (Nat.eqb_spec (el_int_count l) 0) as [Hz|Hz].
    + intros A B C D.
      destruct (IH a b sp sq mp mq mp' mq' (_, _) (_, _) (_, _) (_, _) A B C D) as (? & ? & ? & ?). auto.
    + destruct (req sp (el_int_count l)) as [[st0 t0]|]; cbn [obind]; [|discriminate].
      destruct (req sq (el_int_count l)) as [[st1 t1]|]; cbn [obind]; [|discriminate].
      destruct (ex_send p ec l st0 a) as [[[m0 st0'] a']|]; cbn [obind]; [|discriminate].
      destruct (ex_send q ec l st1 b) as [[[m1 st1'] b']|]; cbn [obind]; [|discriminate].
      intros A B C D.
      destruct mq as [|x1 ms1]; [discriminate|]. destruct mp as [|x0 ms0]; [discriminate|].
      destruct mq' as [|y1 ns1]; [discriminate|]. destruct mp' as [|y0 ns0]; [discriminate|].
      destruct (ex_recv p ec l st0' m0 x1 a') as [a''|] eqn:R0; cbn [obind] in A; [|discriminate].
      destruct (px_layers req p ec ip ls ms1 a'' t0) as [[[[x y] z] w]|] eqn:P0;
        cbn [obind] in A; [|discriminate]. injection A as <- <- -> -> ->.
      destruct (ex_recv q ec l st1' m1 m0 b') as [b''|] eqn:R1; cbn [obind] in B; [|discriminate].
      destruct (px_layers req q ec iq ls x b'' t1) as [[[[x' y'] z'] w']|] eqn:P1;
        cbn [obind] in B; [|discriminate]. injection B as <- <- -> -> ->.
      destruct (ex_recv p ec l st0' m0 y1 a') as [c''|] eqn:R0'; cbn [obind] in C; [|discriminate].
      destruct (px_layers req p ec ip ls ns1 c'' t0) as [[[[u v] e] f]|] eqn:P0';
        cbn [obind] in C; [|discriminate]. injection C as <- <- -> -> ->.
      destruct (ex_recv q ec l st1' m1 m0 b') as [d''|] eqn:R1'; cbn [obind] in D; [|discriminate].
      destruct (px_layers req q ec iq ls u d'' t1) as [[[[u' v'] e'] f']|] eqn:P1';
        cbn [obind] in D; [|discriminate]. injection D as <- <- -> -> ->.
      rewrite R0 in R0'. injection R0' as <-. injection R1 as <-.
      destruct (IH _ _ _ _ _ _ _ _ (_, _) (_, _) (_, _) (_, _) P0 P1 P0' P1') as (-> & -> & ? & ?). auto.
Qed.

(** *** Masking: abstract induction over the layers *)
Section Mask.
Context {pr : protocol}.
Notation St := (p_setup pr).
Variable ec : ecirc (p_gate pr).
(** the party whose view is described, the other party, their inputs *)
Variable pc ph : nat.
Variable ic ih : istore pr.
(** invariant of the gate outputs before the layers [ls] *)
Variable Inv : list elayer -> gouts pr -> gouts pr -> Prop.
Variable ok : nat -> St -> St -> Prop.
Variable same : nat -> St -> St -> Prop.
Variable Msg : nat -> emsg pr -> Prop.

Definition mask_layer : Prop :=
  forall l ls gc gh, Inv (l :: ls) gc gh ->
  exists a b,
    ofold (ex_ni pc ec (ec_main_simd ec) ic) gc (el_ni l) = Some a /\
    ofold (ex_ni ph ec (ec_main_simd ec) ih) gh (el_ni l) = Some b /\
    (el_int_count l = 0 -> Inv ls a b) /\
    (el_int_count l <> 0 -> let n := el_int_count l in
     (* valid setup: the layer succeeds *)
     (forall sc sh, ok n sc sh ->
       exists mc mh sc' sh' a' b' a'' b'',
         ex_send pc ec l sc a = Some (mc, sc', a') /\ ex_send ph ec l sh b = Some (mh, sh', b') /\
         ex_recv pc ec l sc' mc mh a' = Some a'' /\ ex_recv ph ec l sh' mh mc b' = Some b'' /\
         Inv ls a'' b'') /\
     (* every message has a setup *)
     (forall sc t, (exists sh, ok n sc sh) -> Msg n t ->
       exists sh sh' b', ok n sc sh /\ ex_send ph ec l sh b = Some (t, sh', b')) /\
     (* nothing else is sent *)
     (forall sc sh t x y, ok n sc sh -> ex_send ph ec l sh b = Some (t, x, y) -> Msg n t) /\
     (* only one *)
     (forall sc sh1 sh2 t x1 x2 y1 y2, ok n sc sh1 -> ok n sc sh2 ->
       ex_send ph ec l sh1 b = Some (t, x1, y1) -> ex_send ph ec l sh2 b = Some (t, x2, y2) ->
       same n sh1 sh2) /\
     (* the rest of the setup has no influence *)
     (forall sc sh1 sh2 t x1 y1 mc g, ok n sc sh1 -> ok n sc sh2 -> same n sh1 sh2 ->
       ex_send ph ec l sh1 b = Some (t, x1, y1) ->
       ex_recv ph ec l x1 t mc y1 = Some g ->
       exists x2, ex_send ph ec l sh2 b = Some (t, x2, y1) /\ ex_recv ph ec l x2 t mc y1 = Some g)).

Hypothesis HM : mask_layer.

Lemma mask_success ls : forall gc gh Bc Bh, Inv ls gc gh -> each3 ok (reqs_of ls) Bc Bh ->
  exists mc mh gc' gh', px_layers batch_req pc ec ic ls mh gc Bc = Some (mc, [], gc', []) /\
    px_layers batch_req ph ec ih ls mc gh Bh = Some (mh, [], gh', []) /\ Inv [] gc' gh' /\
    Forall2 Msg (reqs_of ls) mh.
Proof.
  induction ls as [|l ls IH]; intros gc gh Bc Bh HI HB.
  - inversion HB; subst. exists [], [], gc, gh. cbn. repeat split; auto.
  - destruct (HM l ls gc gh HI) as (a & b & Ea & Eb & HZ & HNZ). cbn [px_layers].
    unfold reqs_of in HB. cbn [map filter] in HB. rewrite Ea, Eb. cbn [obind]. cbv zeta.
    destruct (Nat.eqb_spec (el_int_count l) 0) as [Hz|Hz].
    + cbn [negb] in HB. unfold reqs_of. cbn [map filter]. rewrite Hz. apply IH; auto.
    + cbn [negb] in HB. inversion HB as [|n sc sh la lb lc Hok HB']; subst.
      destruct (HNZ Hz) as (H1 & _ & H5 & _).
      destruct (H1 sc sh Hok) as (mc & mh & sc' & sh' & a' & b' & a'' & b'' & S0 & S1 & R0 & R1 & HI').
      destruct (IH a'' b'' lb lc HI' HB') as (ms0 & ms1 & g0 & g1 & P0 & P1 & HI'' & HF).
      exists (mc :: ms0), (mh :: ms1), g0, g1. cbn [batch_req obind].
      rewrite S0, S1. cbn [obind]. rewrite R0, R1. cbn [obind]. rewrite P0, P1. cbn [obind].
      split; auto. split; auto. split; auto. unfold reqs_of. cbn [map filter].
      destruct (Nat.eqb_spec (el_int_count l) 0); [contradiction|]. cbn [negb]. constructor; auto.
      exact (H5 sc sh mh _ _ Hok S1).
Qed.

Theorem mask_layers ls : forall gc gh Bc t,
  Inv ls gc gh -> (exists Bh, each3 ok (reqs_of ls) Bc Bh) -> Forall2 Msg (reqs_of ls) t ->
  exists Bh, each3 ok (reqs_of ls) Bc Bh /\
    forall Bh', each3 ok (reqs_of ls) Bc Bh' ->
      ((exists mc gc' gh', px_layers batch_req pc ec ic ls t gc Bc = Some (mc, [], gc', []) /\
         px_layers batch_req ph ec ih ls mc gh Bh' = Some (t, [], gh', [])) <->
       each3 same (reqs_of ls) Bh Bh').
Proof.
  induction ls as [|l ls IH]; intros gc gh Bc t HI HB HT.
  - cbn in *. inversion HT; subst. destruct HB as (Bh & HB). inversion HB; subst. exists [].
    split; [constructor|]. intros Bh' HB'. inversion HB'; subst. split; [constructor|].
    intros _. exists [], gc, gh. auto.
  - destruct (HM l ls gc gh HI) as (a & b & Ea & Eb & HZ & HNZ).
    cbn [px_layers]. unfold reqs_of in *. cbn [map filter] in *.
    rewrite Ea, Eb. cbn [obind]. cbv zeta.
    destruct (Nat.eqb_spec (el_int_count l) 0) as [Hz|Hz].
    + cbn [negb] in *. apply IH; auto.
    + cbn [negb] in *. destruct (HNZ Hz) as (H1 & H2 & _ & H3 & H4).
      inversion HT as [|n x la t' Hx HT']; subst.
      destruct HB as (Bh0 & HB). inversion HB as [|n sc sh0 lb Bc' lc Hok0 HB']; subst.
      destruct (H2 sc x (ex_intro _ sh0 Hok0) Hx) as (sh & sh' & b' & Hok & Sh).
      destruct (H1 sc sh Hok) as (mc & mh & sc' & sh2 & a' & b2 & a'' & b'' & S0 & S1 & R0 & R1 & HI').
      rewrite Sh in S1. injection S1 as <- <- <-.
      destruct (IH a'' b'' Bc' t' HI' (ex_intro _ _ HB') HT') as (Bh & HBh & Huniq).
      exists (sh :: Bh). split; [constructor; auto|].
      intros Bh' HBh'. inversion HBh' as [|n1 sc1 sh1 l1 l2 Bh1 Hok1 HBh1]; subst.
      cbn [batch_req obind]. split.
      * intros (mc1 & gc' & gh' & P0 & P1).
        rewrite S0 in P0. cbn [obind] in P0.
        destruct (ex_send ph ec l sh1 b) as [[[m1 x1] y1]|] eqn:S1; cbn [obind] in P1; [|discriminate].
        destruct mc1 as [|c0 mc1]; [discriminate|].
        destruct (ex_recv ph ec l x1 m1 c0 y1) as [b1|] eqn:R1'; cbn [obind] in P1; [|discriminate].
        destruct (px_layers batch_req ph ec ih ls mc1 b1 Bh1) as [[[[u v] w] z]|] eqn:Q1;
          cbn [obind] in P1; [|discriminate]. injection P1 as -> -> -> -> ->.
        rewrite R0 in P0. cbn [obind] in P0.
        destruct (px_layers batch_req pc ec ic ls t' a'' Bc') as [[[[u1 v1] w1] z1]|] eqn:Q0;
          cbn [obind] in P0; [|discriminate]. injection P0 as <- -> -> -> ->.
        pose proof (H3 sc sh sh1 x _ _ _ _ Hok Hok1 Sh S1) as Hsame.
        destruct (H4 sc sh sh1 x sh' b' mc b'' Hok Hok1 Hsame Sh R1) as (x2 & S1' & R2).
        rewrite S1 in S1'. injection S1' as -> ->. rewrite R1' in R2. injection R2 as ->.
        constructor; auto. apply (Huniq Bh1 HBh1). eauto.
      * intros Hs. inversion Hs as [|n2 s1 s2 l3 l4 l5 Hsame Hs']; subst.
        destruct (proj2 (Huniq Bh1 HBh1) Hs') as (ms & g0 & g1 & Q0 & Q1).
        destruct (H4 sc sh sh1 x sh' b' mc b'' Hok Hok1 Hsame Sh R1) as (x2 & S1' & R2).
        exists (mc :: ms), g0, g1. rewrite S0, S1'. cbn [obind]. rewrite R0, R2. cbn [obind].
        rewrite Q0, Q1. cbn [obind]. auto.
Qed.

(** Whole executions. *)
Hypothesis Lc : istore_len ic = length (ec_inputs ec).
Hypothesis Lh : istore_len ih = length (ec_inputs ec).
Hypothesis Hout : forall gc gh, Inv [] gc gh ->
  exists oc oh, ex_outputs ec gc = Some oc /\ ex_outputs ec gh = Some oh.

Lemma together_layers gc gh Bc Bh mc mh oc oh :
  together pc ph ec ic ih gc gh Bc Bh mc mh oc oh <->
  exists gc' gh', px_layers batch_req pc ec ic (ec_layers ec) mh gc Bc = Some (mc, [], gc', []) /\
    px_layers batch_req ph ec ih (ec_layers ec) mc gh Bh = Some (mh, [], gh', []) /\
    ex_outputs ec gc' = Some oc /\ ex_outputs ec gh' = Some oh.
Proof.
  unfold together, px_run. rewrite Lc, Lh, Nat.eqb_refl. cbn [oassert obind]. split.
  - intros (gc' & gh' & P0 & P1).
    destruct (px_layers batch_req pc ec ic (ec_layers ec) mh gc Bc) as [[[[a b] c] d]|]; cbn [obind] in P0; [|discriminate].
    destruct (ex_outputs ec c) eqn:O0; cbn [obind] in P0; [|discriminate]. injection P0 as -> -> -> -> ->.
    destruct (px_layers batch_req ph ec ih (ec_layers ec) mc gh Bh) as [[[[a' b'] c'] d']|]; cbn [obind] in P1; [|discriminate].
    destruct (ex_outputs ec c') eqn:O1; cbn [obind] in P1; [|discriminate]. injection P1 as -> -> -> -> ->.
    exists gc', gh'. auto.
  - intros (gc' & gh' & P0 & P1 & O0 & O1). exists gc', gh'. rewrite P0, P1. cbn [obind].
    rewrite O0, O1. auto.
Qed.

Lemma mask_together gc gh Bc Bh : Inv (ec_layers ec) gc gh -> each3 ok (requests ec) Bc Bh ->
  exists mc mh oc oh, together pc ph ec ic ih gc gh Bc Bh mc mh oc oh /\ Forall2 Msg (requests ec) mh.
Proof.
  intros HI HB. destruct (mask_success _ _ _ _ _ HI HB) as (mc & mh & gc' & gh' & P0 & P1 & HI' & HF).
  destruct (Hout _ _ HI') as (oc & oh & O0 & O1). exists mc, mh, oc, oh. split; [|exact HF].
  apply together_layers. exists gc', gh'. auto.
Qed.

Theorem mask_run gc gh Bc t :
  Inv (ec_layers ec) gc gh -> (exists Bh, each3 ok (requests ec) Bc Bh) -> Forall2 Msg (requests ec) t ->
  exists Bh, each3 ok (requests ec) Bc Bh /\
    forall Bh', each3 ok (requests ec) Bc Bh' ->
      ((exists mc oc oh, together pc ph ec ic ih gc gh Bc Bh' mc t oc oh) <->
       each3 same (requests ec) Bh Bh').
Proof.
  intros HI HB HT. destruct (mask_layers (ec_layers ec) gc gh Bc t HI HB HT) as (Bh & H1 & H2).
  exists Bh. split; [exact H1|]. intros Bh' HB'. rewrite <- (H2 Bh' HB'). split.
  - intros (mc & oc & oh & T). apply together_layers in T. destruct T as (gc' & gh' & P0 & P1 & _).
    eauto.
  - intros (mc & gc' & gh' & P0 & P1).
    destruct (mask_together gc gh Bc Bh' HI HB') as (mc1 & mh1 & oc & oh & T & _).
    pose proof T as T'. apply together_layers in T'. destruct T' as (gc1 & gh1 & Q0 & Q1 & _).
    destruct (together_unique batch_req pc ph ec ic ih (ec_layers ec) gc gh Bc Bh' mc t mc1 mh1
      (gc', []) (gh', []) (gc1, []) (gh1, []) P0 P1 Q0 Q1) as (-> & -> & _). eauto.
Qed.
End Mask.

(** *** One layer of two parties, in pieces *)
Section Pieces.
Context {pr : protocol}.
Variable ops : gate_ops (p_plain pr) (p_gate pr).
Variable ec : ecirc (p_gate pr).
Variable R I : gid -> cell pr -> cell pr -> Prop.
Hypothesis Rkind : forall g c0 c1, R g c0 c1 -> kind_ok ec g c0 /\ kind_ok ec g c1.
Variable ok : nat -> p_setup pr -> p_setup pr -> Prop.

Lemma batch_serves : serves batch_req ok (each3 ok).
Proof.
  intros n ns s0 s1 H. inversion H; subst. cbn [batch_req]. eauto 9.
Qed.

Lemma layer_pieces i0 i1 l Live Todo go0 go1 :
  ni_sound ops ec R I i0 i1 -> int_sound ec R I ok l -> parents_kind ec l ->
  (p_simd_support pr = false -> el_int (el_simd l) = []) ->
  layer_ok ops ec Live Todo l -> EInv ec R I Live Todo go0 go1 ->
  exists a b,
    ofold (ex_ni 0 ec (ec_main_simd ec) i0) go0 (el_ni l) = Some a /\
    ofold (ex_ni 1 ec (ec_main_simd ec) i1) go1 (el_ni l) = Some b /\
    EInv ec R I (fun h => Live h \/ In h (el_ni l)) (fun h => Todo h /\ ~ In h (el_ni l)) a b /\
    (el_int_count l = 0 -> EInv ec R I (live_after Live l) (todo_after Todo l) a b) /\
    (el_int_count l <> 0 -> forall st0 st1, ok (el_int_count l) st0 st1 ->
       exists m0 m1 st0' st1' a' b' a'' b'',
         ex_send 0 ec l st0 a = Some (m0, st0', a') /\ ex_send 1 ec l st1 b = Some (m1, st1', b') /\
         ex_recv 0 ec l st0' m0 m1 a' = Some a'' /\ ex_recv 1 ec l st1' m1 m0 b' = Some b'' /\
         EInv ec R I (live_after Live l) (todo_after Todo l) a'' b'').
Proof.
  intros HN HI HK HS HL E.
  destruct (ex_ni_all ops ec R I i0 i1 HN (el_ni l) Live Todo go0 go1 E (lo_ni _ _ _ _ _ HL))
    as (a & b & P0 & P1 & E1).
  exists a, b. split; auto. split; auto. split; auto.
  assert (X : forall s0 s1, (el_int_count l = 0 -> each3 ok [] s0 s1) ->
            (el_int_count l <> 0 -> each3 ok [el_int_count l] s0 s1) -> _)
    by (intros s0 s1 A B;
        exact (ex2_layer_sound ops ec R I Rkind batch_req ok (each3 ok) batch_serves i0 i1 l Live Todo
          go0 go1 s0 s1 [] HN HI HK HS HL E A B)).
  unfold ex2_layer in X. cbv zeta in X. rewrite P0, P1 in X. cbn [obind] in X.
  destruct (Nat.eqb_spec (el_int_count l) 0) as [Hz|Hz].
  - split; [|contradiction]. intros _. destruct (X [] []) as (u & v & s0' & s1' & Q & EE & _).
    + constructor.
    + contradiction.
    + injection Q as <- <- <- <-. auto.
  - split; [contradiction|]. intros _ st0 st1 Hok.
    destruct (X [st0] [st1]) as (u & v & s0' & s1' & Q & EE & _).
    + contradiction.
    + constructor; auto. constructor.
    + cbn [batch_req obind] in Q.
      destruct (ex_send 0 ec l st0 a) as [[[m0 st0'] a']|]; cbn [obind] in Q; [|discriminate].
      destruct (ex_send 1 ec l st1 b) as [[[m1 st1'] b']|]; cbn [obind] in Q; [|discriminate].
      destruct (ex_recv 0 ec l st0' m0 m1 a') as [a''|] eqn:R0; cbn [obind] in Q; [|discriminate].
      destruct (ex_recv 1 ec l st1' m1 m0 b') as [b''|] eqn:R1; cbn [obind] in Q; [|discriminate].
      injection Q as <- <- <- <-. exists m0, m1, st0', st1', a', b', a'', b''. auto.
Qed.
End Pieces.
