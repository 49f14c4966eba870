(** Proofs about OT based triples. *)
From Coq Require Import ZArith List Bool Arith Lia Permutation.
Require Import Verif.Prelude Verif.PreludeProofs Verif.BitVecModel Verif.BitVecSpec Verif.BitVecProofs Verif.GateModel
  Verif.BoolGmwModel Verif.BoolGmwSpec Verif.BoolGmwProofs Verif.BoolGmwProofs2 Verif.ZMod
  Verif.ArithGmwModel Verif.ArithGmwSpec Verif.ArithGmwProofs Verif.OtModel Verif.OtSpec Verif.OtProofs
  Verif.TripleModel Verif.TripleSpec Verif.TripleProofs Verif.OtTripleModel Verif.OtTripleSpec.
Import ListNotations.
Open Scope nat_scope.

Lemma next8_spec n : n <= next8 n /\ next8 n mod 8 = 0.
Proof.
  unfold next8. split; [|apply Nat.mod_mul; lia].
  pose proof (Nat.div_mod (n + 7) 8 ltac:(lia)). pose proof (Nat.mod_upper_bound (n + 7) 8 ltac:(lia)). lia.
Qed.

(** The local computation of both parties from correct OTs. *)
Lemma ot_triples_ok W n a0 a1 s0 s1 r0 r1 : 0 < W ->
  bv_wf W a0 -> bv_head a0 = 0 -> bv_len a0 = n -> bv_wf W a1 -> bv_head a1 = 0 -> bv_len a1 = n ->
  ot_correct (bv_bits a1) s0 r1 -> ot_correct (bv_bits a0) s1 r0 ->
  exists t0 t1, ot_triples W a0 s0 r0 = Some t0 /\ ot_triples W a1 s1 r1 = Some t1 /\
    mts_wf W 0 n t0 /\ mts_wf W 0 n t1 /\ triples_ok (mts_iter t0) (mts_iter t1).
Proof.
  intros HW A1 A2 A3 B1 B2 B3 (L0 & E0) (L1 & E1).
  pose proof (bv_bits_length W a0 A1) as LA. pose proof (bv_bits_length W a1 B1) as LB.
  unfold ot_triples.
  set (b0 := map (fun m => xorb (lsb (fst m)) (lsb (snd m))) s0). set (b1 := map (fun m => xorb (lsb (fst m)) (lsb (snd m))) s1).
  set (v0 := map (fun m => lsb (fst m)) s0). set (v1 := map (fun m => lsb (fst m)) s1).
  assert (Lb0 : length b0 = n) by (unfold b0; rewrite map_length; lia).
  assert (Lb1 : length b1 = n) by (unfold b1; rewrite map_length; lia).
  assert (Lv0 : length v0 = n) by (unfold v0; rewrite map_length; lia).
  assert (Lv1 : length v1 = n) by (unfold v1; rewrite map_length; lia).
  assert (Lr0 : length (map lsb r0) = n) by (rewrite map_length, E1, zip_with_length; lia).
  assert (Lr1 : length (map lsb r1) = n) by (rewrite map_length, E0, zip_with_length; lia).
  set (c0 := zip_with xorb (zip_with xorb (zip_with andb (bv_bits a0) b0) (map lsb r0)) v0).
  set (c1 := zip_with xorb (zip_with xorb (zip_with andb (bv_bits a1) b1) (map lsb r1)) v1).
  assert (Lc0 : length c0 = n) by (unfold c0; rewrite !zip_with_length; lia).
  assert (Lc1 : length c1 = n) by (unfold c1; rewrite !zip_with_length; lia).
  assert (K : forall l, bv_wf W (bv_of_bits W l) /\ bv_head (bv_of_bits W l) = 0 /\ bv_len (bv_of_bits W l) = length l).
  { intros l. split; [apply bv_copy_wf; auto|]. split; reflexivity. }
  destruct (K b0) as (P1 & P2 & P3). destruct (K b1) as (Q1 & Q2 & Q3).
  destruct (K c0) as (R1 & R2 & R3). destruct (K c1) as (S1 & S2 & S3).
  unfold mts_from_raw. rewrite A3, B3, P3, Q3, R3, S3, Lb0, Lb1, Lc0, Lc1, Nat.eqb_refl. cbn [andb].
  eexists _, _. split; [reflexivity|]. split; [reflexivity|].
  split; [unfold mts_wf; cbn [ts_a ts_b ts_c]; repeat split; auto; try lia; try apply A1; try apply P1; try apply R1|].
  split; [unfold mts_wf; cbn [ts_a ts_b ts_c]; repeat split; auto; try lia; try apply B1; try apply Q1; try apply S1|].
  unfold mts_iter; cbn [ts_a ts_b ts_c]. rewrite !bv_of_bits_bits by auto.
  unfold c0, c1, b0, b1, v0, v1. rewrite E0, E1.
  assert (LL : length (bv_bits a1) = length (bv_bits a0) /\ length s0 = length (bv_bits a0) /\ length s1 = length (bv_bits a0)) by lia.
  clear - LL. revert LL. generalize (bv_bits a0) (bv_bits a1). intros l0 l1. revert l1 s0 s1.
  induction l0 as [|x l0 IH]; intros [|y l1] [|[p q] s0] [|[p' q'] s1]; simpl; intros (M1 & M2 & M3); try discriminate; constructor.
  - unfold triple_ok; cbn [mt_a mt_b mt_c]. destruct x, y; cbn [chosen fst snd];
      destruct (lsb p), (lsb q), (lsb p'), (lsb q'); reflexivity.
  - apply IH. lia.
Qed.

Section Bool.
Context {R S : Type} (k W : nat) (fill : R -> nat -> list bool * R) (H : list bool -> list bool) (dfill : S -> nat -> list bool * S).
Hypothesis Hk : 0 < k.
Hypothesis HW : 0 < W.
Hypothesis Hfill : fills fill.
Hypothesis Hdfill : forall s n, length (fst (dfill s n)) = n.

(** The rows sent do not depend on the events. *)
Lemma compute_rows st n evs evs' :
  snd (fst (ot_compute k W fill H dfill st n evs)) = snd (fst (ot_compute k W fill H dfill st n evs')).
Proof.
  unfold ot_compute. destruct (rand_bitvec dfill W (next8 n) (om_rng st)) as [a rng].
  destruct (ext_receive W fill H (om_r st) a) as [[rr msgs] r'].
  destruct (ext_send k fill H (om_s st) (next8 n) evs) as [sr s']. destruct (ext_send k fill H (om_s st) (next8 n) evs') as [sr2 s2].
  reflexivity.
Qed.

Lemma compute_pair st0 st1 n o0 o1 :
  base_ok k (om_s st0) (om_r st1) -> base_ok k (om_s st1) (om_r st0) ->
  Permutation o0 (seq 0 k) -> Permutation o1 (seq 0 k) ->
  let m0 := snd (fst (ot_compute k W fill H dfill st0 n [])) in
  let m1 := snd (fst (ot_compute k W fill H dfill st1 n [])) in
  exists t0 t1 st0' st1',
    ot_compute k W fill H dfill st0 n (deliver o1 m1) = (ROk t0, m0, st0') /\
    ot_compute k W fill H dfill st1 n (deliver o0 m0) = (ROk t1, m1, st1') /\
    mts_wf W 0 (next8 n) t0 /\ mts_wf W 0 (next8 n) t1 /\ triples_ok (mts_iter t0) (mts_iter t1) /\
    base_ok k (om_s st0') (om_r st1') /\ base_ok k (om_s st1') (om_r st0') /\
    om_pre st0' = om_pre st0 /\ om_pre st1' = om_pre st1.
Proof.
  intros B01 B10 P0 P1 m0 m1. destruct (next8_spec n) as (_ & N8).
  unfold ot_compute in *. set (N := next8 n) in *.
  pose proof (rand_bitvec_spec S dfill Hdfill W N) as RS.
  pose proof (RS (om_rng st0) HW) as (A1 & A2 & A3 & _). destruct (rand_bitvec dfill W N (om_rng st0)) as [a0 g0]; cbn [fst] in *.
  pose proof (RS (om_rng st1) HW) as (C1 & C2 & C3 & _). destruct (rand_bitvec dfill W N (om_rng st1)) as [a1 g1]; cbn [fst] in *.
  destruct (ext_correct k W fill H Hk HW Hfill (om_s st0) (om_r st1) a1 o1 [] B01 C1 C2 ltac:(rewrite C3; exact N8) P1)
    as (sots0 & routs1 & ms1 & ss0 & rs1 & E1 & E2 & Ok1 & Bn1).
  destruct (ext_correct k W fill H Hk HW Hfill (om_s st1) (om_r st0) a0 o0 [] B10 A1 A2 ltac:(rewrite A3; exact N8) P0)
    as (sots1 & routs0 & ms0 & ss1 & rs0 & E3 & E4 & Ok0 & Bn0).
  rewrite app_nil_r in E2, E4. rewrite C3 in E2. rewrite A3 in E4.
  subst m0 m1. rewrite E1, E3 in *.
  destruct (ext_send k fill H (om_s st0) N []) as [x0 x1]. destruct (ext_send k fill H (om_s st1) N []) as [x2 x3].
  cbn [fst snd]. rewrite E2, E4.
  destruct (ot_triples_ok W N a0 a1 sots0 sots1 routs0 routs1 HW A1 A2 A3 C1 C2 C3 Ok1 Ok0) as (t0 & t1 & -> & -> & W0 & W1 & T).
  exists t0, t1, (OtMt ss0 rs0 g0 (om_pre st0)), (OtMt ss1 rs1 g1 (om_pre st1)).
  split; [reflexivity|]. split; [reflexivity|]. cbn [om_s om_r om_pre]. auto 10.
Qed.

Lemma bool_batch_lens t u : bool_batch W t u -> mts_len t = mts_len u.
Proof.
  intros (A & B & C). rewrite (mts_len_iter W t A), (mts_len_iter W u B). eapply F2_length; eauto.
Qed.

(** One call of both parties. *)
Definition sent_ok (m : list (list (nat * list bool))) : Prop := length m <= 1.

Lemma deliveries_hd m l inbox : deliveries k (m :: l) inbox ->
  exists order rest, Permutation order (seq 0 k) /\ inbox = deliver order m :: rest /\ deliveries k l rest.
Proof.
  intros D. inversion D as [|? e ? rest (order & P & ->)]; subst. eauto.
Qed.

(** What a call needs: the rows of one extension for a computation of [n], or
    nothing. *)
Definition plan (st : otmt R S) (o : oop) : option nat :=
  match o with
  | OPre n => Some n
  | OReq n => match om_pre st with
              | Some m => if n <=? mts_len m then None else Some (n - mts_len m)
              | None => Some n
              end
  end.

Lemma step_sent st inbox o : snd (fst (fst (ot_step k W fill H dfill st inbox o))) =
  match plan st o with
  | Some n => [snd (fst (ot_compute k W fill H dfill (match o, om_pre st with OReq _, Some _ => set_pre st (Some (mts_default W)) | _, _ => st end) n []))]
  | None => []
  end.
Proof.
  unfold ot_step, plan. destruct o as [n|n].
  - rewrite (compute_rows st n [] (hd [] inbox)). destruct (ot_compute k W fill H dfill st n (hd [] inbox)) as [[r m] st'].
    destruct r; reflexivity.
  - destruct (om_pre st) as [m|] eqn:Ep.
    + destruct (n <=? mts_len m).
      * destruct (mts_split_off_last W m n) as [[? ?]|]; reflexivity.
      * rewrite (compute_rows _ (n - mts_len m) [] (hd [] inbox)).
        destruct (ot_compute k W fill H dfill (set_pre st (Some (mts_default W))) (n - mts_len m) (hd [] inbox)) as [[r ms] st'].
        destruct r; reflexivity.
    + rewrite (compute_rows st n [] (hd [] inbox)). destruct (ot_compute k W fill H dfill st n (hd [] inbox)) as [[r m] st'].
      reflexivity.
Qed.

Lemma step_inbox st inbox o : snd (fst (ot_step k W fill H dfill st inbox o)) =
  match plan st o with Some _ => tl inbox | None => inbox end.
Proof.
  unfold ot_step, plan. destruct o as [n|n].
  - destruct (ot_compute k W fill H dfill st n (hd [] inbox)) as [[r m] st']. destruct r; reflexivity.
  - destruct (om_pre st) as [m|].
    + destruct (n <=? mts_len m).
      * destruct (mts_split_off_last W m n) as [[? ?]|]; reflexivity.
      * destruct (ot_compute k W fill H dfill (set_pre st (Some (mts_default W))) (n - mts_len m) (hd [] inbox)) as [[r ms] st'].
        destruct r; reflexivity.
    + destruct (ot_compute k W fill H dfill st n (hd [] inbox)) as [[r m] st']. reflexivity.
Qed.

Lemma mts_default_ok : bool_batch W (mts_default W) (mts_default W).
Proof.
  pose proof (sl_default _ _ _ _ (bool_laws W HW)) as (D & E). unfold mts_default. split; auto. split; auto. rewrite E. constructor.
Qed.

Lemma step_pair st0 st1 i0 i1 o : otmt_ok k W st0 st1 ->
  (match plan st0 o with
   | Some n => forall m0 m1, m0 = snd (fst (fst (ot_step k W fill H dfill st0 i0 o))) -> m1 = snd (fst (fst (ot_step k W fill H dfill st1 i1 o))) ->
       (exists order rest, Permutation order (seq 0 k) /\ i0 = deliver order (hd [] m1) :: rest) /\
       (exists order rest, Permutation order (seq 0 k) /\ i1 = deliver order (hd [] m0) :: rest)
   | None => True
   end) ->
  exists r0 r1 s0 s1 j0 j1 st0' st1',
    ot_step k W fill H dfill st0 i0 o = (r0, s0, j0, st0') /\
    ot_step k W fill H dfill st1 i1 o = (r1, s1, j1, st1') /\
    otmt_ok k W st0' st1' /\ oout_rel W o r0 r1.
Proof.
  intros (B01 & B10 & HP) HI.
  assert (Hplan : plan st1 o = plan st0 o).
  { unfold plan. destruct o as [n|n]; auto. destruct (om_pre st0) as [m0|], (om_pre st1) as [m1|]; try contradiction; auto.
    rewrite (bool_batch_lens _ _ HP). auto. }
  pose proof (step_sent st0 i0 o) as S0. pose proof (step_sent st1 i1 o) as S1. rewrite Hplan in S1.
  destruct (plan st0 o) as [n|] eqn:Epl.
  - destruct (HI _ _ eq_refl eq_refl) as ((or1 & rest0 & P1 & E0) & (or0 & rest1 & P0 & E1)). clear HI.
    rewrite S1 in E0. rewrite S0 in E1. cbn [hd] in E0, E1.
    set (q0 := match o, om_pre st0 with OReq _, Some _ => set_pre st0 (Some (mts_default W)) | _, _ => st0 end) in *.
    set (q1 := match o, om_pre st1 with OReq _, Some _ => set_pre st1 (Some (mts_default W)) | _, _ => st1 end) in *.
    assert (Hq0 : om_s q0 = om_s st0 /\ om_r q0 = om_r st0) by (unfold q0; destruct o; auto; destruct (om_pre st0); auto).
    assert (Hq1 : om_s q1 = om_s st1 /\ om_r q1 = om_r st1) by (unfold q1; destruct o; auto; destruct (om_pre st1); auto).
    destruct (compute_pair q0 q1 n or0 or1) as (t0 & t1 & st0' & st1' & C0 & C1 & W0 & W1 & T & N01 & N10 & Pr0 & Pr1); auto.
    { destruct Hq0 as (-> & _), Hq1 as (_ & ->); auto. }
    { destruct Hq1 as (-> & _), Hq0 as (_ & ->); auto. }
    assert (Hb : bool_batch W t0 t1) by (split; [eexists _, _; eauto|]; split; [eexists _, _; eauto|]; auto).
    destruct (next8_spec n) as (Hn & _). rewrite <- (mts_iter_length _ _ _ _ W0) in Hn.
    clear S0 S1.
    unfold ot_step, plan in *. destruct o as [n'|n'].
    + inversion Epl; subst n'. subst q0 q1. rewrite E0, E1. cbn [hd]. rewrite C0, C1.
      eexists _, _, _, _, _, _, _, _. split; [reflexivity|]. split; [reflexivity|]. split; [|constructor].
      split; [exact N01|]. split; [exact N10|]. exact Hb.
    + destruct (om_pre st0) as [m0|] eqn:Em0; destruct (om_pre st1) as [m1|] eqn:Em1; try contradiction.
      * destruct (Nat.leb_spec n' (mts_len m0)) as [Hle|Hgt]; [discriminate|]. inversion Epl; subst n.
        rewrite <- (bool_batch_lens _ _ HP). destruct (Nat.leb_spec n' (mts_len m0)); [lia|].
        subst q0 q1. rewrite E0, E1. cbn [hd]. rewrite C0, C1.
        eexists _, _, _, _, _, _, _, _. split; [reflexivity|]. split; [reflexivity|].
        split.
        -- split; [exact N01|]. split; [exact N10|]. rewrite Pr0, Pr1. cbn [set_pre om_pre]. apply mts_default_ok.
        -- pose proof (bool_laws W HW) as LW.
           pose proof (brel_append (bool_setup W) (mts_ok W) mts_iter false triple_ok LW m0 m1 t0 t1 HP Hb) as HA.
           constructor; auto. destruct HP as (K0 & _). destruct Hb as (K1 & _).
           destruct (sl_append _ _ _ _ LW m0 t0 K0 K1) as (_ & EA). change (su_append (bool_setup W) m0 t0) with (mts_append W m0 t0) in EA.
           rewrite EA, app_length. rewrite <- (mts_len_iter W m0 K0). lia.
      * inversion Epl; subst n'. subst q0 q1. rewrite E0, E1. cbn [hd]. rewrite C0, C1.
        eexists _, _, _, _, _, _, _, _. split; [reflexivity|]. split; [reflexivity|]. split; [|constructor; auto].
        split; [exact N01|]. split; [exact N10|]. rewrite Pr0, Pr1, Em0, Em1. auto.
  - unfold plan in *. destruct o as [n'|n']; [discriminate|]. unfold ot_step.
    destruct (om_pre st0) as [m0|] eqn:Em0; destruct (om_pre st1) as [m1|] eqn:Em1; try discriminate; try contradiction.
    rewrite <- (bool_batch_lens _ _ HP). destruct (Nat.leb_spec n' (mts_len m0)) as [Hle|Hgt]; [|discriminate].
    destruct (remove_rel (bool_setup W) (mts_ok W) mts_iter false triple_ok (bool_laws W HW) m0 m1 n' HP) as (a & b & c & d & F0 & F1 & R1 & R2 & L1 & L2).
    { rewrite <- (mts_len_iter W m0); auto. apply HP. }
    change (su_remove_first (bool_setup W)) with (mts_split_off_last W) in F0, F1. rewrite F0, F1.
    eexists _, _, _, _, _, _, _, _. split; [reflexivity|]. split; [reflexivity|]. split; [|constructor; auto; lia].
    split; auto.
Qed.

Theorem ot_run_pair ops : forall st0 st1 i0 i1, otmt_ok k W st0 st1 ->
  let '(o0, s0, st0') := ot_run k W fill H dfill st0 i0 ops in
  let '(o1, s1, st1') := ot_run k W fill H dfill st1 i1 ops in
  deliveries k s1 i0 -> deliveries k s0 i1 ->
  length o0 = length ops /\ length o1 = length ops /\ otmt_ok k W st0' st1' /\
  forall i, i < length ops -> oout_rel W (nth i ops (OPre 0)) (nth i o0 (OoPre RPanic)) (nth i o1 (OoPre RPanic)).
Proof.
  induction ops as [|o ops IH]; intros st0 st1 i0 i1 Hok; cbn [ot_run].
  - intros _ _. repeat split; auto; try apply Hok. simpl. intros; lia.
  - pose proof (step_pair st0 st1 i0 i1 o Hok) as HS.
    pose proof (step_sent st0 i0 o) as S0. pose proof (step_sent st1 i1 o) as S1.
    pose proof (step_inbox st0 i0 o) as J0. pose proof (step_inbox st1 i1 o) as J1.
    destruct Hok as (B01 & B10 & HP).
    assert (Hplan : plan st1 o = plan st0 o).
    { unfold plan. destruct o as [n|n]; auto. destruct (om_pre st0) as [m0|], (om_pre st1) as [m1|]; try contradiction; auto.
      rewrite (bool_batch_lens _ _ HP). auto. }
    rewrite Hplan in S1, J1.
    destruct (ot_step k W fill H dfill st0 i0 o) as [[[r0 s0] j0] q0].
    destruct (ot_step k W fill H dfill st1 i1 o) as [[[r1 s1] j1] q1]. cbn [fst snd] in *.
    specialize (IH q0 q1 j0 j1).
    destruct (ot_run k W fill H dfill q0 j0 ops) as [[o0 t0] st0'].
    destruct (ot_run k W fill H dfill q1 j1 ops) as [[o1 t1] st1'].
    intros D0 D1.
    destruct (plan st0 o) as [n|] eqn:Epl.
    + rewrite S1 in D0. rewrite S0 in D1. cbn [app] in D0, D1.
      destruct (deliveries_hd _ _ _ D0) as (or1 & rest0 & P1 & E0 & D0').
      destruct (deliveries_hd _ _ _ D1) as (or0 & rest1 & P0 & E1 & D1').
      destruct HS as (r0' & r1' & s0' & s1' & j0' & j1' & q0' & q1' & F0 & F1 & Hok' & Hr).
      { intros m0 m1 -> ->. rewrite S0, S1. cbn [hd]. split; eauto. }
      inversion F0; inversion F1; subst. cbn [tl] in *.
      destruct (IH Hok' D0' D1') as (A & B & C & D). split; [simpl; lia|]. split; [simpl; lia|]. split; auto.
      intros [|i] Hi; cbn [nth]; auto. apply D. simpl in Hi. lia.
    + rewrite S1 in D0. rewrite S0 in D1. cbn [app] in D0, D1.
      destruct (HS Logic.I) as (r0' & r1' & s0' & s1' & j0' & j1' & q0' & q1' & F0 & F1 & Hok' & Hr).
      inversion F0; inversion F1; subst.
      destruct (IH Hok' D0 D1) as (A & B & C & D). split; [simpl; lia|]. split; [simpl; lia|]. split; auto.
      intros [|i] Hi; cbn [nth]; auto. apply D. simpl in Hi. lia.
Qed.
End Bool.

(** ** Arithmetic triples *)

Lemma ext_send_lengths {R} k (fill : R -> nat -> list bool * R) H ss count evs sots ss' :
  (forall x, length x = k -> length (H x) = k) ->
  length (os_rngs ss) = k -> length (os_choices ss) = k ->
  ext_send k fill H ss count evs = (ROk sots, ss') ->
  Forall (fun o => length (fst o) = k /\ length (snd o) = k) sots /\ length sots = count.
Proof.
  intros HH Hr Hc E. unfold ext_send in E. destruct (negb (count mod 8 =? 0)); [discriminate|].
  destruct (recv_rows _ _ _ _ _) as [v| |] eqn:Ev; try discriminate. injection E as <- _.
  assert (Hv : length v = k).
  { assert (Hm0 : length (map fst (map (fun r => fill r count) (os_rngs ss))) = k) by (rewrite !map_length; auto).
    revert Ev Hm0. generalize (map fst (map (fun r => fill r count) (os_rngs ss))) as m.
    generalize 0 as got. induction evs as [|[i u| |] evs IH]; intros got m Ev Hm; cbn [recv_rows] in Ev; try discriminate; [injection Ev as <-; auto|].
    destruct (nth_error (os_choices ss) i); [|discriminate]. destruct (nth_error m i); [|discriminate].
    destruct (S got =? k); [injection Ev as <-; rewrite upd_length; auto|]. eapply IH; eauto. rewrite upd_length. auto. }
  split; [|rewrite map_length, columns_length; auto].
  apply Forall_forall. intros o Ho. apply in_map_iff in Ho. destruct Ho as (q & <- & Hq). cbn [fst snd].
  unfold columns in Hq. apply in_map_iff in Hq. destruct Hq as (j & <- & _).
  split; apply HH; [rewrite map_length; auto|rewrite zip_with_length, map_length; lia].
Qed.

Lemma zip_combine_firstn {A B C D} (g : A * B -> C -> D) (l : list A) (cs : list B) (ch : list C) c : length cs = c ->
  zip_with g (combine l cs) ch = zip_with g (combine (firstn c l) cs) (firstn c ch).
Proof.
  revert l cs ch. induction c as [|c IH]; intros l [|x cs] ch E; simpl in E; try lia.
  - destruct l; reflexivity.
  - destruct l as [|y l]; [reflexivity|]. destruct ch as [|z ch]; [reflexivity|]. cbn [firstn combine zip_with].
    f_equal. apply IH. lia.
Qed.

Lemma corr_receive_firstn L f ots choices routs c : 0 < L ->
  Forall (fun o : list bool * list bool => L <= length (fst o) /\ L <= length (snd o)) ots ->
  (forall i x, length x = L -> length (f i x) = L) -> length ots = c ->
  let m := snd (corr_send L f ots) in
  corr_receive L choices routs (CvCorrelated m) = corr_receive L (firstn c choices) (firstn c routs) (CvCorrelated m).
Proof.
  intros HL HF Hf Hc. cbn [corr_send snd]. unfold corr_receive. rewrite cast_arrays_concat; auto.
  - f_equal. apply zip_combine_firstn. rewrite map_length, combine_length, seq_length. lia.
  - apply Forall_forall. intros x Hx. apply in_map_iff in Hx. destruct Hx as ([i o] & <- & Hin). cbn [fst snd].
    apply in_combine_r in Hin. rewrite Forall_forall in HF. destruct (HF o Hin).
    rewrite zip_with_length, Hf; rewrite ?firstn_length; lia.
Qed.

Open Scope Z_scope.

Lemma z_bits_length w z : length (z_bits w z) = w.
Proof. unfold z_bits. rewrite map_length, seq_length. auto. Qed.

Lemma bits_z_range l : 0 <= bits_z l < 2 ^ Z.of_nat (length l).
Proof.
  induction l as [|b l IH]; cbn [bits_z length]; [simpl; lia|].
  rewrite Nat2Z.inj_succ, Z.pow_succ_r by lia. destruct b; cbn [Z.b2z]; lia.
Qed.

Lemma z_bits_succ w z : z_bits (S w) z = Z.testbit z 0 :: z_bits w (z / 2).
Proof.
  unfold z_bits. cbn [seq map]. f_equal. rewrite <- seq_shift, map_map. apply map_ext. intros i.
  rewrite Nat2Z.inj_succ, Z.div2_bits by lia. auto.
Qed.

Lemma bits_z_bits w : forall z, bits_z (z_bits w z) = z mod 2 ^ Z.of_nat w.
Proof.
  induction w as [|w IH]; intros z.
  - simpl. rewrite Z.mod_1_r. auto.
  - rewrite z_bits_succ. cbn [bits_z]. rewrite IH. rewrite Nat2Z.inj_succ, Z.pow_succ_r by lia.
    assert (P : 0 < 2 ^ Z.of_nat w) by (apply Z.pow_pos_nonneg; lia).
    rewrite Z.rem_mul_r by lia. rewrite Z.bit0_mod. auto.
Qed.

Lemma from_to_block k w z : 0 <= z < 2 ^ Z.of_nat w -> from_block w (to_block k w z) = z.
Proof.
  intros Hz. unfold from_block, to_block. rewrite firstn_app_exact by (symmetry; apply z_bits_length). rewrite bits_z_bits. apply Z.mod_small. auto.
Qed.

Definition zsum (l : list Z) : Z := fold_right Z.add 0 l.

Lemma fold_wadd w l : forall acc, zeqm (2 ^ w) (fold_left (fun acc x => wadd w acc x) l acc) (acc + zsum l).
Proof.
  induction l as [|x l IH]; intros acc; cbn [fold_left zsum fold_right].
  - rewrite Z.add_0_r. reflexivity.
  - etransitivity; [apply IH|]. unfold wadd. etransitivity; [apply zeqm_add; [apply zeqm_mod|reflexivity]|].
    fold (zsum l). rewrite Z.add_assoc. reflexivity.
Qed.
Lemma fold_wsub w l : forall acc, zeqm (2 ^ w) (fold_left (fun acc x => wsub w acc x) l acc) (acc - zsum l).
Proof.
  induction l as [|x l IH]; intros acc; cbn [fold_left zsum fold_right].
  - rewrite Z.sub_0_r. reflexivity.
  - etransitivity; [apply IH|]. unfold wsub. etransitivity; [apply zeqm_sub; [apply zeqm_mod|reflexivity]|].
    fold (zsum l). rewrite Z.sub_add_distr. reflexivity.
Qed.

(** The correlated sums of one triple. *)
Lemma corr_sum M a : forall l xs ys j0, length xs = length l -> length ys = length l ->
  (forall j, (j < length l)%nat ->
     zeqm M (nth j ys 0) (nth j xs 0 + Z.b2z (nth j l false) * (a * 2 ^ Z.of_nat (j0 + j)))) ->
  zeqm M (zsum ys) (zsum xs + a * 2 ^ Z.of_nat j0 * bits_z l).
Proof.
  induction l as [|b l IH]; intros [|x xs] [|y ys] j0 Lx Ly Hj; simpl in Lx, Ly; try lia.
  - cbn. rewrite Z.mul_0_r. reflexivity.
  - cbn [zsum fold_right bits_z]. fold (zsum xs) (zsum ys).
    pose proof (Hj 0%nat ltac:(simpl; lia)) as H0. cbn [nth] in H0. rewrite Nat.add_0_r in H0.
    assert (H1 : zeqm M (zsum ys) (zsum xs + a * 2 ^ Z.of_nat (S j0) * bits_z l)).
    { apply IH; try lia. intros j Hlt. pose proof (Hj (S j) ltac:(simpl; lia)) as H1. cbn [nth] in H1.
      replace (S j0 + j)%nat with (j0 + S j)%nat by lia. exact H1. }
    etransitivity; [apply zeqm_add; [exact H0|exact H1]|].
    rewrite Nat2Z.inj_succ, Z.pow_succ_r by lia.
    match goal with |- zeqm M ?l ?r => replace l with r by (destruct b; cbn [Z.b2z]; ring) end. reflexivity.
Qed.

Lemma wadd_eqm w x y : zeqm (2 ^ w) (wadd w x y) (x + y).
Proof. unfold wadd. apply zeqm_mod. Qed.
Lemma wmul_eqm w x y : zeqm (2 ^ w) (wmul w x y) (x * y).
Proof. unfold wmul. apply zeqm_mod. Qed.

Lemma nth_concat_bits w (b : list Z) : forall i j, (i < length b)%nat -> (j < w)%nat ->
  nth (i * w + j) (flat_map (z_bits w) b) false = nth j (z_bits w (nth i b 0)) false.
Proof.
  induction b as [|z b IH]; intros i j Hi Hj; [simpl in Hi; lia|]. cbn [flat_map].
  destruct i as [|i].
  - cbn [Nat.mul Nat.add nth]. rewrite app_nth1; auto. rewrite z_bits_length. auto.
  - cbn [nth]. rewrite app_nth2; rewrite z_bits_length; [|lia].
    replace (S i * w + j - w)%nat with (i * w + j)%nat by lia. apply IH; auto. simpl in Hi. lia.
Qed.

Lemma flat_bits_length w (b : list Z) : length (flat_map (z_bits w) b) = (length b * w)%nat.
Proof. induction b as [|z b IH]; auto. cbn [flat_map length]. rewrite app_length, z_bits_length, IH. lia. Qed.

Lemma reduce_length w op l : length (reduce w op l) = (length l / w)%nat.
Proof. unfold reduce. rewrite map_length, seq_length. auto. Qed.
Lemma reduce_nth w op l i : (i < length l / w)%nat ->
  nth i (reduce w op l) 0 = fold_left (fun acc x => op acc x) (map (from_block w) (firstn w (skipn (i * w) l))) 0.
Proof.
  intros Hi. unfold reduce. rewrite (nth_map_any _ (seq 0 (length l / w)) i 0%nat 0) by (rewrite seq_length; auto).
  rewrite seq_nth by auto. cbn [Nat.add]. generalize (firstn w (skipn (i * w) l)) 0.
  intros c. induction c as [|x c IH]; intros acc; cbn [map fold_left]; auto.
Qed.

(** One direction: sender with [a], receiver with [b]. *)
Lemma direction k w (a b : list Z) (xs ys : list (list bool)) n choices :
  (0 < w)%nat -> (w <= k)%nat -> length xs = (n * w)%nat ->
  (n <= length b)%nat -> choices = firstn (n * w) (flat_map (z_bits w) b) -> (n <= length a)%nat ->
  ring_elems w b ->
  Forall (fun x => length x = k) xs ->
  ys = map (fun ix => let '(i, x) := ix in if nth i choices false then arith_corr k w a i x else x)
           (combine (seq 0 (length xs)) xs) ->
  forall i, (i < n)%nat ->
  zeqm (2 ^ Z.of_nat w) (nth i (reduce w (wsub (Z.of_nat w)) xs) 0 + nth i (reduce w (wadd (Z.of_nat w)) ys) 0)
       (nth i a 0 * nth i b 0).
Proof.
  intros Hw Hwk Lx Hnb Hch Hna Hring HF Hys i Hi.
  assert (Ly : length ys = (n * w)%nat) by (rewrite Hys, map_length, combine_length, seq_length; lia).
  assert (Hdiv : (n * w / w = n)%nat) by (apply Nat.div_mul; lia).
  assert (Hiw : (i * w + w <= n * w)%nat) by nia.
  rewrite !reduce_nth by (rewrite ?Lx, ?Ly, Hdiv; auto).
  set (M := 2 ^ Z.of_nat w).
  set (X := map (from_block w) (firstn w (skipn (i * w) xs))).
  set (Y := map (from_block w) (firstn w (skipn (i * w) ys))).
  assert (LX : length X = w) by (unfold X; rewrite map_length, firstn_length, skipn_length; lia).
  assert (LY : length Y = w) by (unfold Y; rewrite map_length, firstn_length, skipn_length; lia).
  assert (HS : zeqm M (zsum Y) (zsum X + nth i a 0 * 2 ^ Z.of_nat 0 * bits_z (z_bits w (nth i b 0)))).
  { apply corr_sum; rewrite ?z_bits_length; auto. intros j Hj. cbn [Nat.add].
    unfold X, Y. rewrite !(nth_map_any (from_block w) _ j [] 0) by (rewrite firstn_length, skipn_length; lia).
    rewrite !nth_firstn by auto. rewrite !nth_skipn.
    assert (Hidx : (i * w + j < length xs)%nat) by lia.
    assert (Ey : nth (i * w + j) ys [] = if nth (i * w + j) choices false then arith_corr k w a (i * w + j) (nth (i * w + j) xs []) else nth (i * w + j) xs []).
    { rewrite Hys.
      rewrite (nth_map_any (fun ix : nat * list bool => let '(i, x) := ix in if nth i choices false then arith_corr k w a i x else x) (combine (seq 0 (length xs)) xs) (i * w + j) (0%nat, []) []) by (rewrite combine_length, seq_length; lia).
      rewrite combine_nth by (rewrite seq_length; auto). rewrite seq_nth by auto. reflexivity. }
    rewrite Ey. rewrite Hch at 1. rewrite nth_firstn by lia. rewrite nth_concat_bits by lia.
    destruct (nth j (z_bits w (nth i b 0)) false) eqn:Eb; cbn [Z.b2z].
    - unfold arith_corr. rewrite (Nat.div_add_l i w j) by lia. rewrite (Nat.div_small j w) by auto. rewrite Nat.add_0_r.
      rewrite (Nat.add_comm (i * w) j), Nat.mod_add by lia. rewrite (Nat.mod_small j w) by auto. rewrite (Nat.add_comm j (i * w)).
      rewrite from_to_block by (unfold wadd; apply Z.mod_pos_bound; apply Z.pow_pos_nonneg; lia).
      unfold M. etransitivity; [apply wadd_eqm|]. etransitivity; [apply zeqm_add; [apply wmul_eqm|reflexivity]|].
      match goal with |- zeqm _ ?l ?r => replace l with r by ring end. reflexivity.
    - rewrite Z.mul_0_l, Z.add_0_r. reflexivity. }
  rewrite bits_z_bits in HS. rewrite Z.mod_small in HS.
  2:{ unfold ring_elems in Hring. rewrite Forall_forall in Hring. apply Hring. apply nth_In. lia. }
  etransitivity; [apply zeqm_add; [apply fold_wsub|apply fold_wadd]|].
  fold M. etransitivity; [apply zeqm_add; [reflexivity|apply zeqm_add; [reflexivity|exact HS]]|].
  match goal with |- zeqm _ ?l ?r => replace l with r by (cbn [Z.of_nat Z.pow]; ring) end. reflexivity.
Qed.

Section Arith.
Context {R : Type} (k w : nat) (fill : R -> nat -> list bool * R) (H : list bool -> list bool).
Hypothesis Hw : (0 < w)%nat.
Hypothesis Hw8 : (w mod 8 = 0)%nat.
Hypothesis Hwk : (w <= k)%nat.
Hypothesis Hfill : fills fill.
Hypothesis Hstream : stream_fill fill.
Hypothesis HH : forall x, length x = k -> length (H x) = k.

Lemma arith_corr_length a i x : length x = k -> length (arith_corr k w a i x) = k.
Proof. intros _. unfold arith_corr, to_block. rewrite app_length, z_bits_length, repeat_length. lia. Qed.

Lemma next8_w n : next8 (n * w) = (n * w)%nat.
Proof.
  unfold next8. assert (E : exists q, w = (q * 8)%nat).
  { exists (w / 8)%nat. pose proof (Nat.div_mod w 8 ltac:(lia)). lia. }
  destruct E as (q & ->). replace (n * (q * 8))%nat with (n * q * 8)%nat by lia.
  rewrite (Nat.div_add_l (n * q) 8 7) by lia. cbn [Nat.div Nat.divmod fst]. rewrite Nat.add_0_r. auto.
Qed.

Theorem arith_pair ss0 rs0 ss1 rs1 n a0 b0 a1 b1 o0 o1 :
  base_ok k ss0 rs1 -> base_ok k ss1 rs0 ->
  length a0 = (n * w)%nat -> length b0 = (n * w)%nat -> length a1 = (n * w)%nat -> length b1 = (n * w)%nat ->
  ring_elems w b0 -> ring_elems w b1 ->
  Permutation o0 (seq 0 k) -> Permutation o1 (seq 0 k) ->
  exists m0 m1 c0 c1 ss0' rs0' ss1' rs1',
    arith_ot_compute k w fill H ss0 rs0 n a0 b0 (deliver o1 (arith_rows w fill H rs1 b1)) (CvCorrelated m1)
      = (ROk (AMTS a0 b0 c0), arith_rows w fill H rs0 b0, m0, ss0', rs0') /\
    arith_ot_compute k w fill H ss1 rs1 n a1 b1 (deliver o0 (arith_rows w fill H rs0 b0)) (CvCorrelated m0)
      = (ROk (AMTS a1 b1 c1), arith_rows w fill H rs1 b1, m1, ss1', rs1') /\
    length c0 = n /\ length c1 = n /\
    Forall2 (atriple_ok (Z.of_nat w)) (amts_iter (AMTS a0 b0 c0)) (amts_iter (AMTS a1 b1 c1)).
Proof.
  intros B01 B10 La0 Lb0 La1 Lb1 Rb0 Rb1 P0 P1.
  assert (Hk : (0 < k)%nat) by lia.
  assert (Hn8 : (n * w mod 8 = 0)%nat).
  { rewrite <- Nat.mul_mod_idemp_r, Hw8, Nat.mul_0_r by lia. auto. }
  assert (Hch : forall b, length b = (n * w)%nat ->
    bv_wf 8 (arith_choices w b) /\ bv_head (arith_choices w b) = 0%nat /\ bv_len (arith_choices w b) = (n * w * w)%nat /\
    bv_bits (arith_choices w b) = flat_map (z_bits w) b).
  { intros b Lb. unfold arith_choices. split; [apply bv_copy_wf; lia|]. split; [reflexivity|].
    split; [cbn [bv_of_bits bv_copy bv_len]; rewrite flat_bits_length, Lb; auto|]. apply bv_of_bits_bits. lia. }
  assert (Hnww : (n * w * w mod 8 = 0)%nat).
  { rewrite <- Nat.mul_mod_idemp_r, Hw8, Nat.mul_0_r by lia. auto. }
  assert (Hle : (n * w <= n * w * w)%nat) by nia.
  destruct (Hch b0 Lb0) as (A1 & A2 & A3 & A4). destruct (Hch b1 Lb1) as (C1 & C2 & C3 & C4). clear Hch.
  destruct (ext_prefix k 8 fill H Hk ltac:(lia) Hfill ss0 rs1 (arith_choices w b1) (n * w) o1 [] B01 C1 C2
     ltac:(rewrite C3; auto) Hn8 ltac:(rewrite C3; auto) ltac:(intros r; apply Hstream; rewrite C3; auto) P1)
    as (sots0 & routs1 & ms1 & ss0' & rs1' & E1 & E2 & L1 & Ok1 & _).
  destruct (ext_prefix k 8 fill H Hk ltac:(lia) Hfill ss1 rs0 (arith_choices w b0) (n * w) o0 [] B10 A1 A2
     ltac:(rewrite A3; auto) Hn8 ltac:(rewrite A3; auto) ltac:(intros r; apply Hstream; rewrite A3; auto) P0)
    as (sots1 & routs0 & ms0 & ss1' & rs0' & E3 & E4 & L0 & Ok0 & _).
  rewrite app_nil_r in E2, E4. unfold arith_rows. rewrite E1, E3. cbn [fst snd].
  assert (Lss : forall (ss : ots_state R) rs, base_ok k ss rs -> length (os_rngs ss) = k /\ length (os_choices ss) = k).
  { intros ss rs (X1 & X2 & X3). rewrite X3, zip_with_length. lia. }
  destruct (Lss _ _ B01) as (G1 & G2). destruct (Lss _ _ B10) as (G3 & G4). clear Lss.
  destruct (ext_send_lengths k fill H ss0 _ _ _ _ HH G1 G2 E2) as (F0 & N0).
  destruct (ext_send_lengths k fill H ss1 _ _ _ _ HH G3 G4 E4) as (F1 & N1).
  rewrite C4 in Ok1. rewrite A4 in Ok0.
  pose proof (corr_correct k k (arith_corr k w a0) _ _ _ Hk (le_n k) Ok1 F0 (fun i x => arith_corr_length a0 i x)) as K0.
  pose proof (corr_correct k k (arith_corr k w a1) _ _ _ Hk (le_n k) Ok0 F1 (fun i x => arith_corr_length a1 i x)) as K1.
  pose proof (corr_receive_firstn k (arith_corr k w a0) sots0 (flat_map (z_bits w) b1) routs1 (n * w) Hk) as T0.
  pose proof (corr_receive_firstn k (arith_corr k w a1) sots1 (flat_map (z_bits w) b0) routs0 (n * w) Hk) as T1.
  specialize (T0 ltac:(eapply Forall_impl; [|exact F0]; intros ? (? & ?); lia) (fun i x => arith_corr_length a0 i x) N0).
  specialize (T1 ltac:(eapply Forall_impl; [|exact F1]; intros ? (? & ?); lia) (fun i x => arith_corr_length a1 i x) N1).
  cbv zeta in T0, T1.
  assert (X0 : Forall (fun x => length x = k) (fst (corr_send k (arith_corr k w a0) sots0)) /\ length (fst (corr_send k (arith_corr k w a0) sots0)) = (n * w)%nat).
  { cbn [corr_send fst]. rewrite map_length. split; auto. apply Forall_forall. intros x Hx. apply in_map_iff in Hx.
    destruct Hx as (o & <- & Hin). rewrite Forall_forall in F0. destruct (F0 o Hin). rewrite firstn_length. lia. }
  assert (X1 : Forall (fun x => length x = k) (fst (corr_send k (arith_corr k w a1) sots1)) /\ length (fst (corr_send k (arith_corr k w a1) sots1)) = (n * w)%nat).
  { cbn [corr_send fst]. rewrite map_length. split; auto. apply Forall_forall. intros x Hx. apply in_map_iff in Hx.
    destruct Hx as (o & <- & Hin). rewrite Forall_forall in F1. destruct (F1 o Hin). rewrite firstn_length. lia. }
  unfold arith_ot_compute. rewrite next8_w. rewrite E1, E3, E2, E4. rewrite A4, C4.
  destruct (corr_send k (arith_corr k w a0) sots0) as [xs0 m0]. destruct (corr_send k (arith_corr k w a1) sots1) as [xs1 m1].
  cbn [fst snd] in *. destruct K0 as (_ & K0). destruct K1 as (_ & K1). destruct X0 as (XF0 & XL0). destruct X1 as (XF1 & XL1).
  rewrite K0 in T0. rewrite K1 in T1.
  set (ys1 := map _ (combine (seq 0 (length xs0)) xs0)) in T0. set (ys0 := map _ (combine (seq 0 (length xs1)) xs1)) in T1.
  exists m0, m1. rewrite T0, T1.
  eexists _, _, _, _, _, _. split; [reflexivity|]. split; [reflexivity|].
  assert (LY1 : length ys1 = (n * w)%nat) by (unfold ys1; rewrite map_length, combine_length, seq_length; lia).
  assert (LY0 : length ys0 = (n * w)%nat) by (unfold ys0; rewrite map_length, combine_length, seq_length; lia).
  assert (Hdiv : (n * w / w = n)%nat) by (apply Nat.div_mul; lia).
  assert (Hnw : (n <= n * w)%nat) by nia.
  set (u0 := reduce w (wsub (Z.of_nat w)) xs0) in *. set (u1 := reduce w (wsub (Z.of_nat w)) xs1) in *.
  set (v0 := reduce w (wadd (Z.of_nat w)) ys0) in *. set (v1 := reduce w (wadd (Z.of_nat w)) ys1) in *.
  assert (Lu0 : length u0 = n) by (unfold u0; rewrite reduce_length, XL0; auto).
  assert (Lu1 : length u1 = n) by (unfold u1; rewrite reduce_length, XL1; auto).
  assert (Lv0 : length v0 = n) by (unfold v0; rewrite reduce_length, LY0; auto).
  assert (Lv1 : length v1 = n) by (unfold v1; rewrite reduce_length, LY1; auto).
  split; [rewrite !zip_with_length; lia|]. split; [rewrite !zip_with_length; lia|].
  assert (D01 : forall i, (i < n)%nat -> zeqm (2 ^ Z.of_nat w) (nth i u0 0 + nth i v1 0) (nth i a0 0 * nth i b1 0)).
  { eapply (direction k w a0 b1 xs0 ys1 n); eauto; lia. }
  assert (D10 : forall i, (i < n)%nat -> zeqm (2 ^ Z.of_nat w) (nth i u1 0 + nth i v0 0) (nth i a1 0 * nth i b0 0)).
  { eapply (direction k w a1 b0 xs1 ys0 n); eauto; lia. }
  set (c0 := zip_with _ (zip_with _ (zip_with _ a0 b0) u0) v0). set (c1 := zip_with _ (zip_with _ (zip_with _ a1 b1) u1) v1).
  assert (Hc : forall a b u v i, length a = (n * w)%nat -> length b = (n * w)%nat -> length u = n -> length v = n -> (i < n)%nat ->
    zeqm (2 ^ Z.of_nat w) (nth i (zip_with (wadd (Z.of_nat w)) (zip_with (wadd (Z.of_nat w)) (zip_with (wmul (Z.of_nat w)) a b) u) v) 0)
      (nth i a 0 * nth i b 0 + nth i u 0 + nth i v 0)).
  { intros a b u v i ? ? ? ? Hi. rewrite (zip_with_nth _ _ _ i 0 0) by (rewrite ?zip_with_length; lia).
    rewrite (zip_with_nth _ _ _ i 0 0) by (rewrite ?zip_with_length; lia).
    rewrite (zip_with_nth _ _ _ i 0 0) by lia.
    etransitivity; [apply wadd_eqm|]. apply zeqm_add; [|reflexivity]. etransitivity; [apply wadd_eqm|].
    apply zeqm_add; [apply wmul_eqm|reflexivity]. }
  assert (Hval : forall i, (i < n)%nat -> atriple_ok (Z.of_nat w) (AT (nth i a0 0) (nth i b0 0) (nth i c0 0)) (AT (nth i a1 0) (nth i b1 0) (nth i c1 0))).
  { intros i Hi. unfold atriple_ok. cbn [at_a at_b at_c].
    change (zeqm (2 ^ Z.of_nat w) (nth i c0 0 + nth i c1 0) ((nth i a0 0 + nth i a1 0) * (nth i b0 0 + nth i b1 0))).
    etransitivity; [apply zeqm_add; [apply (Hc a0 b0 u0 v0 i); auto|apply (Hc a1 b1 u1 v1 i); auto]|].
    pose proof (D01 i Hi) as E5. pose proof (D10 i Hi) as E6.
    transitivity (nth i a0 0 * nth i b0 0 + nth i a1 0 * nth i b1 0 + ((nth i u0 0 + nth i v1 0) + (nth i u1 0 + nth i v0 0))).
    { match goal with |- zeqm _ ?l ?r => replace l with r by ring end. reflexivity. }
    etransitivity; [apply zeqm_add; [reflexivity|apply zeqm_add; [exact E5|exact E6]]|].
    match goal with |- zeqm _ ?l ?r => replace l with r by ring end. reflexivity. }
  assert (Lc0 : length c0 = n) by (unfold c0; rewrite !zip_with_length; lia).
  assert (Lc1 : length c1 = n) by (unfold c1; rewrite !zip_with_length; lia).
  clearbody c0 c1. clear - Hval La0 Lb0 La1 Lb1 Lc0 Lc1 Hnw.
  unfold amts_iter; cbn [as_a as_b as_c].
  assert (LL : (n <= length a0 /\ n <= length b0 /\ n <= length a1 /\ n <= length b1)%nat) by lia.
  clear La0 Lb0 La1 Lb1 Hnw. revert a0 b0 a1 b1 c0 c1 Hval Lc0 Lc1 LL.
  induction n as [|n IH]; intros a0 b0 a1 b1 [|x0 c0] [|x1 c1] Hval L0 L1 LL; simpl in L0, L1; try lia.
  - assert (Z : forall (X : list (Z * Z)), zip_with (fun ab c => AT (fst ab) (snd ab) c) X [] = []) by (intros []; reflexivity). rewrite !Z. constructor.
  - destruct a0 as [|y0 a0], b0 as [|z0 b0], a1 as [|y1 a1], b1 as [|z1 b1]; simpl in LL; try lia.
    cbn [zip_with fst snd]. constructor.
    + apply (Hval 0%nat). lia.
    + apply IH; try lia. intros i Hi. apply (Hval (S i)). lia.
Qed.
End Arith.
