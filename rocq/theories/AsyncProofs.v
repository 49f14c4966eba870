(** Schedule independence and deadlock freedom of two executors. *)
From Coq Require Import List Bool Arith Lia.
Require Import Verif.Prelude Verif.PreludeProofs Verif.GateModel Verif.ProtocolModel
  Verif.CircuitModel Verif.ExecModel Verif.AsyncModel.
Import ListNotations.

(** ** Uniform confluence *)

Section Diamond.
Variable Y : Type.
Variable step : Y -> bool -> option Y.
Hypothesis diamond : forall y a b, step y false = Some a -> step y true = Some b ->
  exists z, step a true = Some z /\ step b false = Some z.

Definition stuck (y : Y) : Prop := forall w, step y w = None.

Lemma one_run n : forall y f sched, length sched = n -> ofold step y sched = Some f -> stuck f ->
  forall w y', step y w = Some y' ->
  exists sched', ofold step y' sched' = Some f /\ S (length sched') = n.
Proof.
  induction n as [|n IH]; intros y f sched HL HR HF w y' Hs.
  - destruct sched; [|discriminate]. simpl in HR. injection HR as <-. rewrite HF in Hs. discriminate.
  - destruct sched as [|w1 sched]; [discriminate|]. simpl in HL. injection HL as HL. simpl in HR.
    destruct (step y w1) as [y1|] eqn:E1; [|discriminate]. simpl in HR.
    destruct (Bool.bool_dec w w1) as [<-|Hne].
    + rewrite Hs in E1. injection E1 as <-. exists sched. auto.
    + assert (Hd : exists z, step y1 w = Some z /\ step y' w1 = Some z).
      { destruct w, w1; try congruence.
        - destruct (diamond _ _ _ E1 Hs) as (z & A & B). eauto.
        - destruct (diamond _ _ _ Hs E1) as (z & A & B). eauto. }
      destruct Hd as (z & A & B).
      destruct (IH y1 f sched HL HR HF w z A) as (sched' & C & D).
      exists (w1 :: sched'). simpl. rewrite B. simpl. split; auto.
Qed.

Theorem uniform f : forall n y sched, length sched = n -> ofold step y sched = Some f -> stuck f ->
  forall sched1 t, ofold step y sched1 = Some t ->
  exists sched2, ofold step t sched2 = Some f /\ length sched1 + length sched2 = n.
Proof.
  intros n y sched HL HR HF sched1. revert n y sched HL HR.
  induction sched1 as [|w sched1 IH]; intros n y sched HL HR t Ht.
  - simpl in Ht. injection Ht as <-. exists sched. auto.
  - simpl in Ht. destruct (step y w) as [y1|] eqn:E1; [|discriminate]. simpl in Ht.
    destruct (one_run n y f sched HL HR HF w y1 E1) as (sched' & A & B).
    destruct (IH (length sched') y1 sched' eq_refl A t Ht) as (sched2 & C & D).
    exists sched2. split; auto. simpl. lia.
Qed.
End Diamond.

Section AsyncP.
Context {pr : protocol} {S : Type}.
Variable req : S -> nat -> option (p_setup pr * S).
Variable ec : ecirc (p_gate pr).
Variables i0 i1 : istore pr.
Variable cap : nat.

Lemma a_diamond y a b :
  a_step req ec cap i0 i1 y false = Some a -> a_step req ec cap i0 i1 y true = Some b ->
  exists z, a_step req ec cap i0 i1 a true = Some z /\ a_step req ec cap i0 i1 b false = Some z.
Proof.
  destruct y as [p0 p1 q01 q10]. unfold a_step. cbn [y_0 y_1 y_q01 y_q10].
  unfold p_step.
  destruct p0 as [l0 g0 s0|l0 r0 st0 m0 g0 s0|l0 r0 st0 m0 g0 s0|]; [| | |discriminate];
  destruct p1 as [l1 g1 s1|l1 r1 st1 m1 g1 s1|l1 r1 st1 m1 g1 s1|]; try discriminate;
  intros HA HB.
  (* local / local *)
  - destruct (p_local req ec 0 i0 _) as [p0'|] eqn:E0; [|discriminate]. injection HA as <-.
    destruct (p_local req ec 1 i1 _) as [p1'|] eqn:E1; [|discriminate]. injection HB as <-.
    cbn [y_0 y_1 y_q01 y_q10]. rewrite ?E0, ?E1. cbn [obind]. eauto.
  - destruct (p_local req ec 0 i0 _) as [p0'|] eqn:E0; [|discriminate]. injection HA as <-.
    destruct (length q10 <? cap) eqn:Ec; [|discriminate]. injection HB as <-.
    cbn [y_0 y_1 y_q01 y_q10]. rewrite ?E0, ?Ec. cbn [obind]. eauto.
  - destruct (p_local req ec 0 i0 _) as [p0'|] eqn:E0; [|discriminate]. injection HA as <-.
    destruct q01 as [|r q01]; [discriminate|].
    destruct (ex_recv 1 ec l1 st1 m1 r g1) as [g1'|] eqn:E1; [|discriminate]. injection HB as <-.
    cbn [y_0 y_1 y_q01 y_q10]. rewrite ?E0, ?E1. cbn [obind]. eauto.
  - destruct (length q01 <? cap) eqn:Ec; [|discriminate]. injection HA as <-.
    destruct (p_local req ec 1 i1 _) as [p1'|] eqn:E1; [|discriminate]. injection HB as <-.
    cbn [y_0 y_1 y_q01 y_q10]. rewrite ?E1, ?Ec. cbn [obind]. eauto.
  - destruct (length q01 <? cap) eqn:Ec; [|discriminate]. injection HA as <-.
    destruct (length q10 <? cap) eqn:Ec'; [|discriminate]. injection HB as <-.
    cbn [y_0 y_1 y_q01 y_q10]. rewrite ?Ec, ?Ec'. cbn [obind]. eauto.
  - destruct (length q01 <? cap) eqn:Ec; [|discriminate]. injection HA as <-.
    destruct q01 as [|r q01]; [discriminate|].
    destruct (ex_recv 1 ec l1 st1 m1 r g1) as [g1'|] eqn:E1; [|discriminate]. injection HB as <-.
    cbn [y_0 y_1 y_q01 y_q10 app]. rewrite ?E1. cbn [obind].
    apply Nat.ltb_lt in Ec. simpl in Ec.
    destruct (Nat.ltb_spec (length q01) cap); [|lia]. cbn [obind]. rewrite ?E1. cbn [obind]. eauto.
  - destruct q10 as [|r q10]; [discriminate|].
    destruct (ex_recv 0 ec l0 st0 m0 r g0) as [g0'|] eqn:E0; [|discriminate]. injection HA as <-.
    destruct (p_local req ec 1 i1 _) as [p1'|] eqn:E1; [|discriminate]. injection HB as <-.
    cbn [y_0 y_1 y_q01 y_q10]. rewrite ?E0, ?E1. cbn [obind]. eauto.
  - destruct q10 as [|r q10]; [discriminate|].
    destruct (ex_recv 0 ec l0 st0 m0 r g0) as [g0'|] eqn:E0; [|discriminate]. injection HA as <-.
    destruct (length (r :: q10) <? cap) eqn:Ec; [|discriminate]. injection HB as <-.
    cbn [y_0 y_1 y_q01 y_q10 app]. rewrite ?E0. cbn [obind].
    apply Nat.ltb_lt in Ec. simpl in Ec.
    destruct (Nat.ltb_spec (length q10) cap); [|lia]. cbn [obind]. rewrite ?E0. cbn [obind]. eauto.
  - destruct q10 as [|r q10]; [discriminate|].
    destruct (ex_recv 0 ec l0 st0 m0 r g0) as [g0'|] eqn:E0; [|discriminate]. injection HA as <-.
    destruct q01 as [|r' q01]; [discriminate|].
    destruct (ex_recv 1 ec l1 st1 m1 r' g1) as [g1'|] eqn:E1; [|discriminate]. injection HB as <-.
    cbn [y_0 y_1 y_q01 y_q10]. rewrite ?E0, ?E1. cbn [obind]. eauto.
Qed.

Lemma step0 p0 p1 q01 p0' q01' q10' : forall q10,
  p_step req ec cap 0 i0 p0 q01 q10 = Some (p0', q01', q10') ->
  a_step req ec cap i0 i1 (Sys p0 p1 q01 q10) false = Some (Sys p0' p1 q01' q10').
Proof. intros q10 E. unfold a_step. cbn [y_0 y_1 y_q01 y_q10]. rewrite E. reflexivity. Qed.

Lemma step1 p0 p1 q01 p1' q01' q10' : forall q10,
  p_step req ec cap 1 i1 p1 q10 q01 = Some (p1', q10', q01') ->
  a_step req ec cap i0 i1 (Sys p0 p1 q01 q10) true = Some (Sys p0 p1' q01' q10').
Proof. intros q10 E. unfold a_step. cbn [y_0 y_1 y_q01 y_q10]. rewrite E. reflexivity. Qed.

(** The lock-step run is one of the schedules. *)
Lemma lockstep_layers ls : 1 <= cap -> forall go0 s0 go1 s1 go0' s0' go1' s1',
  ofold (ex2_layer req ec i0 i1) ((go0, s0), (go1, s1)) ls = Some ((go0', s0'), (go1', s1')) ->
  exists sched, a_run req ec cap i0 i1 (Sys (PRun ls go0 s0) (PRun ls go1 s1) [] []) sched
    = Some (Sys (PRun [] go0' s0') (PRun [] go1' s1') [] []).
Proof.
  intros Hcap. induction ls as [|l ls IH]; intros go0 s0 go1 s1 go0' s0' go1' s1' H.
  - simpl in H. injection H as <- <- <- <-. exists []. reflexivity.
  - cbn [ofold] in H.
    destruct (ex2_layer req ec i0 i1 ((go0, s0), (go1, s1)) l) as [[[a0 t0] [a1 t1]]|] eqn:E;
      [|discriminate]. cbn [obind] in H.
    destruct (IH _ _ _ _ _ _ _ _ H) as (sched & HR).
    unfold ex2_layer in E.
    destruct (ofold (ex_ni 0 ec (ec_main_simd ec) i0) go0 (el_ni l)) as [b0|] eqn:E0; [|discriminate].
    cbn [obind] in E.
    destruct (ofold (ex_ni 1 ec (ec_main_simd ec) i1) go1 (el_ni l)) as [b1|] eqn:E1; [|discriminate].
    cbn [obind] in E.
    destruct (el_int_count l =? 0) eqn:En.
    + injection E as <- <- <- <-. exists (false :: true :: sched).
      unfold a_run. cbn [ofold].
      rewrite (step0 _ _ _ (PRun ls b0 s0) [] []) by (cbn [p_step p_local]; rewrite E0; cbn [obind]; rewrite En; reflexivity).
      cbn [obind].
      rewrite (step1 _ _ _ (PRun ls b1 s1) [] []) by (cbn [p_step p_local]; rewrite E1; cbn [obind]; rewrite En; reflexivity).
      exact HR.
    + destruct (req s0 (el_int_count l)) as [[st0 u0]|] eqn:R0; [|discriminate]. cbn [obind] in E.
      destruct (req s1 (el_int_count l)) as [[st1 u1]|] eqn:R1; [|discriminate]. cbn [obind] in E.
      destruct (ex_send 0 ec l st0 b0) as [[[m0 st0'] c0]|] eqn:S0; [|discriminate]. cbn [obind] in E.
      destruct (ex_send 1 ec l st1 b1) as [[[m1 st1'] c1]|] eqn:S1; [|discriminate]. cbn [obind] in E.
      destruct (ex_recv 0 ec l st0' m0 m1 c0) as [d0|] eqn:V0; [|discriminate]. cbn [obind] in E.
      destruct (ex_recv 1 ec l st1' m1 m0 c1) as [d1|] eqn:V1; [|discriminate]. cbn [obind] in E.
      injection E as <- <- <- <-.
      exists (false :: true :: false :: true :: false :: true :: sched).
      assert (Hc : 0 <? cap = true) by (apply Nat.ltb_lt; lia).
      unfold a_run. cbn [ofold].
      rewrite (step0 _ _ _ (PSend l ls st0' m0 c0 u0) [] []) by
        (cbn [p_step p_local]; rewrite E0; cbn [obind]; rewrite En, R0; cbn [obind]; rewrite S0; reflexivity).
      cbn [obind].
      rewrite (step1 _ _ _ (PSend l ls st1' m1 c1 u1) [] []) by
        (cbn [p_step p_local]; rewrite E1; cbn [obind]; rewrite En, R1; cbn [obind]; rewrite S1; reflexivity).
      cbn [obind].
      rewrite (step0 _ _ _ (PWait l ls st0' m0 c0 u0) [m0] []) by (cbn [p_step length app]; rewrite Hc; reflexivity).
      cbn [obind].
      rewrite (step1 _ _ _ (PWait l ls st1' m1 c1 u1) [m0] [m1]) by (cbn [p_step length app]; rewrite Hc; reflexivity).
      cbn [obind].
      rewrite (step0 _ _ _ (PRun ls d0 u0) [m0] []) by (cbn [p_step]; rewrite V0; reflexivity).
      cbn [obind].
      rewrite (step1 _ _ _ (PRun ls d1 u1) [] []) by (cbn [p_step]; rewrite V1; reflexivity).
      exact HR.
Qed.

Lemma lockstep_run go0 s0 go1 s1 o0 o1 go0' s0' go1' s1' : 1 <= cap ->
  ex2_run req ec i0 i1 ((go0, s0), (go1, s1)) = Some (o0, o1, ((go0', s0'), (go1', s1'))) ->
  exists sched, a_run req ec cap i0 i1 (a_init ec go0 go1 s0 s1) sched
    = Some (Sys (PDone o0 go0' s0') (PDone o1 go1' s1') [] []).
Proof.
  intros Hcap H. unfold ex2_run in H.
  destruct (oassert _); [|discriminate]. cbn [obind] in H.
  destruct (oassert _); [|discriminate]. cbn [obind] in H.
  destruct (ofold _ _ _) as [[[a0 t0] [a1 t1]]|] eqn:E; [|discriminate]. cbn [obind] in H.
  destruct (ex_outputs ec a0) as [x0|] eqn:O0; [|discriminate]. cbn [obind] in H.
  destruct (ex_outputs ec a1) as [x1|] eqn:O1; [|discriminate]. cbn [obind] in H.
  injection H as <- <- <- <- <- <-.
  destruct (lockstep_layers _ Hcap _ _ _ _ _ _ _ _ E) as (sched & HR).
  exists (sched ++ [false; true]). unfold a_run, a_init in *. rewrite ofold_app, HR. cbn [obind ofold].
  rewrite (step0 _ _ _ (PDone x0 a0 t0) [] []) by (cbn [p_step p_local]; rewrite O0; reflexivity).
  cbn [obind].
  rewrite (step1 _ _ _ (PDone x1 a1 t1) [] []) by (cbn [p_step p_local]; rewrite O1; reflexivity).
  reflexivity.
Qed.

Theorem async_run go0 s0 go1 s1 o0 o1 go0' s0' go1' s1' : 1 <= cap ->
  ex2_run req ec i0 i1 ((go0, s0), (go1, s1)) = Some (o0, o1, ((go0', s0'), (go1', s1'))) ->
  let final := Sys (PDone o0 go0' s0') (PDone o1 go1' s1') [] [] in
  exists N, forall sched t,
    a_run req ec cap i0 i1 (a_init ec go0 go1 s0 s1) sched = Some t ->
    (exists sched', a_run req ec cap i0 i1 t sched' = Some final /\ length sched + length sched' = N) /\
    (t = final \/ exists w t', a_step req ec cap i0 i1 t w = Some t').
Proof.
  intros Hcap H final. destruct (lockstep_run _ _ _ _ _ _ _ _ _ _ Hcap H) as (sched0 & H0).
  exists (length sched0). intros sched t Ht.
  destruct (uniform _ _ a_diamond final (length sched0) _ sched0 eq_refl H0) with (sched1 := sched) (t := t)
    as (sched' & A & B); auto.
  - intros []; reflexivity.
  - split; [exists sched'; auto|]. destruct sched' as [|w sched'].
    + simpl in A. injection A as ->. auto.
    + right. simpl in A. destruct (a_step req ec cap i0 i1 t w) eqn:E; [|discriminate]. eauto.
Qed.
End AsyncP.
