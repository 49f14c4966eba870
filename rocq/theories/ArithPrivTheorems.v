(** Property theorems C68: what the messages of arithmetic multiplication layers
    reveal. *)
From Coq Require Import List Bool Arith ZArith Lia.
Require Import Verif.Prelude Verif.PreludeProofs Verif.GateModel Verif.ArithGmwModel Verif.ArithGmwSpec
  Verif.ArithGmwProofs Verif.ArithPrivSpec Verif.ArithPrivProofs.
Import ListNotations.
Open Scope Z_scope.

(** The messages are not masked: for every ring there are operands of the sender and a
    message that no valid triple gives, so the receiver can exclude these operands. *)
Theorem C68_masked_refuted : forall w, 0 < w ->
  exists gs, Forall (sent_in_ring w) gs /\ Forall (fun g => triple_in_ring w (gv_t g) /\ in_ring w (gv_x g) /\ in_ring w (gv_y g)) gs
    /\ ~ exists us, sends w gs us.
Proof.
  intros w Hw. pose proof (M_pos w ltac:(lia)) as P.
  assert (P2 : 1 < 2 ^ w) by (apply Z.pow_gt_1; lia).
  exists [GV (AT 0 0 0) 0 1 0 0].
  assert (S : sent_in_ring w (GV (AT 0 0 0) 0 1 0 0)) by (split; unfold in_ring; cbn; lia).
  split; [repeat constructor; apply S|]. split; [repeat constructor; unfold in_ring; cbn; lia|].
  intros (us & H). apply sends_each in H. inversion H as [|g u gs us' S1 _]; subst.
  destruct (proj1 (sends1_exact w ltac:(lia) _ S) (ex_intro _ u S1)) as (k & K). unfold fixed_a in K. cbn [gv_t gv_x gv_d gv_y gv_e at_a at_c] in K.
  change (0 + 0 - 0) with 0 in K. change (0 + 1 - 0) with 1 in K.
  rewrite Z.gcd_0_l, (Z.abs_eq (2 ^ w) (Z.lt_le_incl _ _ P)) in K.
  clear - K P2. revert K P2. generalize (2 ^ w). intros m K P2. destruct (Z.le_gt_cases k 0); nia.
Qed.
Print Assumptions C68_masked_refuted.

(** What the receiver learns: if the shared first component of a triple is a multiple of [2^k], the
    second number sent, together with the receiver's own share of the triple, gives the last [k] bits of
    the sender's share of the second operand. *)
Theorem C68_leak : forall w k gs us, 0 <= k <= w ->
  sends w gs us ->
  forall i g u, nth_error gs i = Some g -> nth_error us i = Some u ->
  (2 ^ k | at_a (gv_t g) + at_a u) ->
  gv_y g mod 2 ^ k = (gv_e g - at_c (gv_t g)) mod 2 ^ k.
Proof.
  intros w k gs us Hk S i g u Hg Hu D. apply sends_each in S.
  assert (S1 : sends1 w g u).
  { revert i Hg Hu. induction S as [|g' u' gs us S1 _ IH]; intros [|i] Hg Hu; try discriminate; cbn in *; [congruence|eauto]. }
  destruct S1 as (_ & V & _ & E). unfold wsub in E. unfold atriple_ok in V.
  assert (PM : 0 < 2 ^ w) by (apply Z.pow_pos_nonneg; lia). assert (PK : 0 < 2 ^ k) by (apply Z.pow_pos_nonneg; lia).
  assert (DM : 2 ^ w = 2 ^ (w - k) * 2 ^ k) by (rewrite <- Z.pow_add_r by lia; f_equal; lia).
  apply (cong_eq w ltac:(lia)) in V. destruct V as (a & V).
  assert (E' : exists b, gv_e g = gv_y g - at_c u + b * 2 ^ w).
  { exists (- ((gv_y g - at_c u) / 2 ^ w)). pose proof (Z.div_mod (gv_y g - at_c u) (2 ^ w) ltac:(lia)). nia. }
  destruct E' as (b & E'), D as (c & D). rewrite D, DM in V. rewrite DM in E'.
  replace (gv_y g) with (gv_e g - at_c (gv_t g) + (c * (at_b (gv_t g) + at_b u) + a * 2 ^ (w - k) - b * 2 ^ (w - k)) * 2 ^ k) by nia.
  apply Z.mod_add. lia.
Qed.
Print Assumptions C68_leak.

(** Exactly the messages that occur: by gate, the greatest common divisor of the first component of
    the shared triple and the ring size divides the difference. *)
Theorem C68_messages_exact : forall w gs, 0 <= w -> Forall (sent_in_ring w) gs ->
  ((exists us, sends w gs us) <->
   Forall (fun g => (Z.gcd (fixed_a g) (2 ^ w) | at_c (gv_t g) + gv_y g - gv_e g)) gs).
Proof.
  intros w gs Hw R. split.
  - intros (us & S). apply sends_each in S. induction S as [|g u gs us S1 _ IH]; [constructor|].
    inversion R; subst. constructor; auto. apply (sends1_exact w Hw g); eauto.
  - intros F. assert (X : exists us, Forall2 (sends1 w) gs us).
    { induction F as [|g gs H _ IH]; [exists []; constructor|]. inversion R as [|? ? R1 R2]; subst.
      destruct (IH R2) as (us & Hus). destruct (proj2 (sends1_exact w Hw g R1) H) as (u & Hu). exists (u :: us). constructor; auto. }
    destruct X as (us & X). exists us. apply sends_each. exact X.
Qed.
Print Assumptions C68_messages_exact.

(** What remains of the masking: if the first component of the shared triple is odd in all gates, every
    message is sent for exactly one choice of the sender's triples. *)
Theorem C68_odd_partial : forall w gs, 0 < w -> Forall (sent_in_ring w) gs ->
  Forall (fun g => Z.odd (fixed_a g) = true) gs ->
  exists us, sends w gs us /\ forall us', sends w gs us' -> us' = us.
Proof.
  intros w gs Hw R O.
  assert (X : exists us, Forall2 (sends1 w) gs us /\ forall us', Forall2 (sends1 w) gs us' -> us' = us).
  { induction O as [|g gs H _ IH].
    - exists []. split; [constructor|]. intros us' H. inversion H. reflexivity.
    - inversion R as [|? ? R1 R2]; subst. destruct (IH R2) as (us & Hus & U). pose proof (odd_gcd w ltac:(lia) (fixed_a g) Hw H) as G.
      destruct (proj2 (sends1_exact w ltac:(lia) g R1)) as (u & Hu).
      { rewrite G. apply Z.divide_1_l. }
      exists (u :: us). split; [constructor; auto|]. intros us' H'. inversion H' as [|? u' ? us2 S1 S2]; subst.
      f_equal; [|auto]. apply (sends1_unique w ltac:(lia) g); auto. }
  destruct X as (us & X & U). exists us. split; [apply sends_each; exact X|]. intros us' H. apply U. apply sends_each. exact H.
Qed.
Print Assumptions C68_odd_partial.

(** The first operand alone is masked: every list of first numbers is sent for exactly one choice
    of the first components, whatever the other components are. *)
Theorem C68_first_operand : forall w gs us, 0 <= w ->
  Forall (sent_in_ring w) gs -> length us = length gs -> Forall (triple_in_ring w) us ->
  (forall party outs, exists e,
     arith_compute_msg w party (repeat AMul (length gs)) outs (flat_zpairs (map (fun g => (gv_x g, gv_y g)) gs)) (storage_of us)
     = Some (AMsg e (map gv_d gs), storage_of us))
  <-> map at_a us = map (fun g => (gv_x g - gv_d g) mod 2 ^ w) gs.
Proof.
  intros w gs us Hw R L T.
  assert (Q : zip_with (fun p mt => wsub w (fst p) (at_a mt)) (map (fun g => (gv_x g, gv_y g)) gs) us = map gv_d gs
              <-> map at_a us = map (fun g => (gv_x g - gv_d g) mod 2 ^ w) gs).
  { revert us L T. induction R as [|g gs (Hd & He) _ IH]; intros [|u us] L T; try discriminate; [cbn; tauto|].
    inversion T as [|? ? T1 T2]; subst. cbn in L. specialize (IH us ltac:(lia) T2). cbn [map zip_with fst].
    pose proof (wsub_solve w Hw (gv_x g) (at_a u) (gv_d g) (proj1 T1) Hd) as S. split.
    - intros E. injection E as E1 E2. f_equal; [apply S; auto|apply IH; auto].
    - intros E. injection E as E1 E2. f_equal; [apply S; auto|apply IH; auto]. }
  rewrite <- Q. clear Q.
  assert (EQ : forall party outs, arith_compute_msg w party (repeat AMul (length gs)) outs (flat_zpairs (map (fun g => (gv_x g, gv_y g)) gs)) (storage_of us)
     = Some (AMsg (zip_with (fun p mt => wsub w (snd p) (at_c mt)) (map (fun g => (gv_x g, gv_y g)) gs) us)
                  (zip_with (fun p mt => wsub w (fst p) (at_a mt)) (map (fun g => (gv_x g, gv_y g)) gs) us), storage_of us)).
  { intros party outs. unfold arith_compute_msg. rewrite storage_iter.
    rewrite <- (map_length (fun g => (gv_x g, gv_y g)) gs) at 1. rewrite arith_msg_loop_spec by (rewrite map_length; lia). reflexivity. }
  split.
  - intros H. destruct (H O []) as (e & E). rewrite EQ in E. injection E as _ E. exact E.
  - intros E party outs. rewrite EQ, E. eexists. reflexivity.
Qed.
Print Assumptions C68_first_operand.

(** Concrete cases (arithmetic_gmw.rs 88-101) in the ring of 8 bits: the receiver holds (4, 7, 9) of the triple; the first is
    odd and masked, the second is a multiple of 4 and reveals the last two bits of 35. *)
Definition c68_gs : list gate_view :=
  [GV (AT 4 7 9) 100 35 ((100 - 13) mod 256) ((35 - 161) mod 256); GV (AT 4 7 9) 100 35 ((100 - 12) mod 256) ((35 - 151) mod 256)].
Example C68_case :
  sends 8 c68_gs [AT 13 3 161; AT 12 3 151] /\ Z.odd (fixed_a (hd (GV (AT 0 0 0) 0 0 0 0) c68_gs)) = true /\
  (4 | 4 + 12) /\ 35 mod 2 ^ 2 = (((35 - 151) mod 256) - 9) mod 2 ^ 2.
Proof.
  split; [|split; [reflexivity|split; [exists 4; reflexivity|reflexivity]]].
  apply sends_each. repeat constructor; cbn; unfold in_ring; lia.
Qed.
