(** When a call returns an error: C67. *)
From Coq Require Import List Bool Arith Lia.
Require Import Verif.Prelude Verif.SubChanModel Verif.SubChanSpec Verif.SubChanProofs Verif.SubChanLive Verif.SubChanTheorems.
Import ListNotations.

Lemma step_facts cap s a s' : step cap s a = Some s' ->
  (forall j g, pt_status (sy_party s j) = SClosed g -> pt_status (sy_party s' j) = SClosed g)
  /\ (forall i j, exists l, sent (sy_party s' i) j = sent (sy_party s i) j ++ l)
  /\ (forall i, pt_status (sy_party s i) = SErr -> pt_status (sy_party s' i) = SErr -> sy_party s' i = sy_party s i).
Proof.
  intros E. destruct a as [i j|i j|i j|i|i g cuts]; cbn [step] in E.
  - apply send_views in E. destruct E as (r & rs & m & E1 & E2 & E3 & _ & _ & _ & _ & E8 & _). rewrite E8. unfold RUN in E2.
    split; [|split].
    + intros k g H. pid_cases k i; auto. congruence.
    + intros k l. pid_cases k i; [|exists []; symmetry; apply app_nil_r]. rewrite sent_cur_sent by auto. eexists. reflexivity.
    + intros k H H'. pid_cases k i; auto. congruence.
  - apply fail_views in E. destruct E as (_ & E2 & ->). cbn [sy_party]. unfold RUN in E2. split; [|split].
    + intros k g H. pid_cases k i; auto. congruence.
    + intros k l. exists []. rewrite app_nil_r. pid_cases k i; reflexivity.
    + intros k H H'. pid_cases k i; auto. congruence.
  - apply recv_views in E. destruct E as (r & rs & own & E1 & E2 & E3 & _ & [(m & q & _ & _ & E4)|(_ & _ & _ & g0 & E4)]);
      rewrite E4; unfold RUN in E2; (split; [|split]).
    + intros k g H. pid_cases k i; auto. congruence.
    + intros k l. exists []. rewrite app_nil_r. pid_cases k i; auto. destruct (accepts _ _); [apply sent_complete; auto|reflexivity].
    + intros k H H'. pid_cases k i; auto. congruence.
    + intros k g H. pid_cases k i; auto. congruence.
    + intros k l. exists []. rewrite app_nil_r. pid_cases k i; auto. destruct (ignores _ _); [apply sent_complete; auto|reflexivity].
    + intros k H H'. pid_cases k i; auto. congruence.
  - apply next_views in E. destruct E as (r & rs & E1 & E2 & E3 & _ & _ & E4). rewrite E4. unfold RUN in E2. split; [|split].
    + intros k g H. pid_cases k i; auto. congruence.
    + intros k l. exists []. rewrite app_nil_r. pid_cases k i; auto. apply sent_next. auto.
    + intros k H H'. pid_cases k i; auto. congruence.
  - unfold do_close in E. split; [|split].
    + intros k g' H. destruct (pt_status (sy_party s i)) eqn:ES; try discriminate; injection E as <-; cbn [sy_party]; pid_cases k i; auto; congruence.
    + intros k l. exists []. rewrite app_nil_r. destruct (pt_status (sy_party s i)) eqn:ES; try discriminate; injection E as <-; cbn [sy_party]; pid_cases k i; reflexivity.
    + intros k H H'. destruct (pt_status (sy_party s i)) eqn:ES; try discriminate; injection E as <-; cbn [sy_party] in *; pid_cases k i; auto; discriminate.
Qed.

Lemma accepts_false w m : accepts w m = false -> exists k, w = WSub k /\ forall t, m <> MSub k t.
Proof.
  destruct w as [k| |]; try discriminate. intros H. exists k. split; auto. intros t ->. cbn in H. rewrite Nat.eqb_refl in H. discriminate.
Qed.

Lemma excuse_step cap s a s' : step cap s a = Some s' -> safe s ->
  (forall i, pt_status (sy_party s i) = SErr -> excuse s i) -> forall i, pt_status (sy_party s' i) = SErr -> excuse s' i.
Proof.
  intros E [_ PR] H i Hi. destruct (step_facts _ _ _ _ E) as (F1 & F2 & F3).
  assert (Hn : forall l n (x : msg) l', nth_error l n = Some x -> nth_error (l ++ l') n = Some x).
  { intros l n x l' N. rewrite nth_error_app1; auto. apply nth_error_Some. congruence. }
  destruct (pt_status (sy_party s i)) eqn:ES.
  - (* the error is new *)
    destruct a as [i0 j|i0 j|i0 j|i0|i0 g cuts]; cbn [step] in E.
    + apply send_views in E. destruct E as (r & rs & m & E1 & E2 & E3 & _ & _ & _ & _ & E8 & _). rewrite E8 in Hi. pid_cases i i0; [discriminate|congruence].
    + unfold do_send_fails in E. destruct (pt_status (sy_party s i0)) eqn:E0; try discriminate.
      destruct (pt_rounds (sy_party s i0)) as [|r rs] eqn:ER; try discriminate.
      destruct (cur_get (pt_cur (sy_party s i0)) j) as [[]|] eqn:EC; try discriminate.
      destruct (pt_status (sy_party s j)) as [| |g] eqn:EJ; try discriminate. injection E as <-. cbn [sy_party] in *.
      pid_cases i i0; [|congruence]. assert (j <> i0) by congruence.
      exists r, rs, j, PStart. cbn [sy_party]. rewrite set_party_same, set_party_other by auto. cbn [fail pt_rounds pt_cur].
      split; auto. split; auto. left. eauto.
    + unfold do_recv in E. destruct (pt_status (sy_party s i0)) eqn:E0; try discriminate.
      destruct (pt_rounds (sy_party s i0)) as [|r rs] eqn:ER; try discriminate.
      destruct (cur_get (pt_cur (sy_party s i0)) j) as [[|own|]|] eqn:EC; try discriminate.
      destruct (sy_queue s j i0) as [|m q] eqn:EQ.
      * destruct (pt_status (sy_party s j)) as [| |g] eqn:EJ; try discriminate. injection E as <-. cbn [sy_party] in *.
        pid_cases i i0; [|congruence]. assert (j <> i0) by congruence.
        destruct (ignores (rd_what r) g) eqn:EI; [cbn in Hi; congruence|].
        exists r, rs, j, (PSent own). cbn [sy_party]. rewrite set_party_same, set_party_other by auto. cbn [fail pt_rounds pt_cur pt_log].
        split; auto. split; auto. right. destruct (rd_what r) as [k| |] eqn:EW.
        { left. exists own, k, g. auto. }
        { right. left. exists own. cbn in EI. subst g. auto. }
        { discriminate. }
      * injection E as <-. cbn [sy_party] in *. pid_cases i i0; [|congruence].
        destruct (accepts (rd_what r) m) eqn:EA; [cbn in Hi; congruence|].
        destruct (accepts_false _ _ EA) as (k & EW & Hk).
        exists r, rs, j, (PSent own). cbn [sy_party]. rewrite set_party_same. cbn [fail pt_rounds pt_cur pt_log].
        split; auto. split; auto. right. right. right. exists own, k, m. split; auto. split; auto. split; auto.
        destruct (PR i0 j) as (a & b & r0 & H1 & H2 & H3 & H4). destruct (H3 E0) as (r' & Er & _). rewrite EQ in Er.
        assert (b = 0) as -> by (destruct b; auto; destruct (H4 ltac:(discriminate)) as [_ Q]; rewrite (Q E0) in EQ; discriminate).
        unfold GOT in H1. cbn [repeat] in H1. rewrite app_nil_r in H1. apply (f_equal (@length _)) in H1. rewrite !map_length in H1.
        assert (Hs : sent (set_party (sy_party s) i0 (fail (sy_party s i0)) j) i0 = sent (sy_party s j) i0) by (pid_cases j i0; reflexivity).
        rewrite Hs. unfold SENT in H2. rewrite H2, Er, H1. rewrite nth_error_app2, Nat.sub_diag by auto. reflexivity.
    + apply next_views in E. destruct E as (r & rs & E1 & E2 & E3 & _ & _ & E4). rewrite E4 in Hi. pid_cases i i0; [discriminate|congruence].
    + unfold do_close in E. destruct (pt_status (sy_party s i0)) eqn:E0; try discriminate; injection E as <-; cbn [sy_party] in Hi; pid_cases i i0; try discriminate; congruence.
  - (* an old error *)
    destruct (H i ES) as (r & rs & j & x & R1 & R2 & R3). exists r, rs, j, x. rewrite (F3 i ES Hi). split; auto. split; auto.
    destruct R3 as [(-> & g & G)|[(own & k & g & -> & W & G)|[(own & -> & W & G)|(own & k & m & -> & W & N & K)]]].
    + left. split; auto. eauto.
    + right. left. exists own, k, g. auto.
    + right. right. left. exists own. auto.
    + right. right. right. exists own, k, m. split; auto. split; auto. split; auto. destruct (F2 j i) as (l & ->). auto.
  - rewrite (F1 i _ ES) in Hi. discriminate.
Qed.

(** A call returns an error only with such a reason; in particular the second
    receive of a [sync] never fails, and nobody fails while all peers stay and
    send what the round says. *)
Theorem C67_errors : forall progs cap l s i,
  peers_ok progs -> steps cap (start progs) l = Some s -> pt_status (sy_party s i) = SErr -> excuse s i.
Proof.
  intros progs cap l s i W E.
  assert (HE : forall k, pt_status (sy_party (start progs) k) = SErr -> excuse (start progs) k) by (intros k; discriminate).
  pose proof (safe_start progs W) as HS. revert i. revert E HS HE. generalize (start progs) as s0.
  induction l as [|a l IH]; intros s0 E HS HE i Hi.
  - injection E as <-. auto.
  - cbn [steps] in E. destruct (step cap s0 a) as [s1|] eqn:E1; [|discriminate]. cbn [obind] in E.
    apply (IH s1 E (safe_step _ _ _ _ E1 HS)); auto. intros k Hk. exact (excuse_step cap s0 a s1 E1 HS HE k Hk).
Qed.
Print Assumptions C67_errors.

(** A run that meets the hypotheses: the peer breaks off during a [sync], the
    first receive fails; had it broken off later, the [sync] would have returned. *)
Example C67_case_errors :
  (exists s, steps 1 (start (plays [([0; 1], WSync1); ([0; 1], WSync2)])) [ASend 0 1; AClose 1 false (fun _ => 0); ARecv 0 1] = Some s
     /\ pt_status (sy_party s 0) = SErr)
  /\ exists s, steps 1 (start (plays [([0; 1], WSync1); ([0; 1], WSync2)]))
       [ASend 0 1; ASend 1 0; ARecv 0 1; ANext 0; ARecv 1 0; ASend 0 1; AClose 1 false (fun _ => 0); ARecv 0 1; ANext 0] = Some s
     /\ pt_status (sy_party s 0) = SRun /\ pt_rounds (sy_party s 0) = [].
Proof.
  split; eexists; (split; [apply final_ok; vm_compute; reflexivity|]); vm_compute; auto.
Qed.
