(** Properties C47 and C48: local multi-party channels. *)
From Coq Require Import List Bool Arith Lia.
Require Import Verif.Prelude Verif.PreludeProofs Verif.ChannelModel Verif.ChannelSpec Verif.ChannelProofs.
Import ListNotations.

Lemma local_sys_inv {M} u32 (progs : list (list (call M))) : length progs <= u32 ->
  exists E k, wires (length progs) (list_prod (seq 0 (length progs)) (seq 0 (length progs))) E k /\
    sinv (length progs) E k progs (local_sys u32 progs) (fun _ => []).
Proof.
  intros Hu. destruct (@new_local_wires M u32 (length progs) Hu) as [HW HF]. unfold local_sys.
  destruct (new_local u32 (length progs)) as [qs E]. cbn [fst snd] in *. exists E, (length qs). split; auto.
  assert (HP : forall i p, nth_error (map (fun p : list (call M) => PS p None [] []) progs) i = Some p ->
    exists c, nth_error progs i = Some c /\ p = PS c None [] []).
  { intros i p H. rewrite nth_error_map in H. destruct (nth_error progs i) as [c|]; [|discriminate].
    exists c. injection H as <-. auto. }
  constructor; cbn [sy_qs sy_ends sy_ps]; auto.
  - apply map_length.
  - intros i p H. destruct (HP _ _ H) as (c & Hc & ->). auto.
  - intros i p chs m ch H. destruct (HP _ _ H) as (c & Hc & ->). discriminate.
  - intros j p x H. destruct (HP _ _ H) as (c & Hc & ->). intros [].
  - intros i j p pj ch Hi Hj Hc. destruct (HP _ _ Hi) as (c & _ & ->). destruct (HP _ _ Hj) as (c' & _ & ->).
    unfold got_from, pend_part. cbn. rewrite app_nil_r. unfold all_addressed. cbn.
    rewrite Forall_forall in HF. destruct (nth_in_or_default ch qs []) as [H|H]; auto.
Qed.

Lemma run_inv {M} n E k progs cap (s s' : sys M) D : wires n (list_prod (seq 0 n) (seq 0 n)) E k -> sinv n E k progs s D ->
  sys_run cap s s' -> exists D', sinv n E k progs s' D'.
Proof.
  intros HW HI HR. induction HR as [|s1 s2 s3 HR IH HS]; [eauto|].
  destruct (IH HI) as (D1 & H1). eapply step_inv; eauto.
Qed.

(** In every execution of any calls by [n] local parties, for every two different
    parties [i] and [j]: what [j] has received from [i] followed by messages still
    under way is exactly what the calls made so far by [i] address to [j], in this
    order.  Nobody receives a message under another sender. *)
Theorem C47_delivery :
  forall M u32 cap (progs : list (list (call M))) s, length progs <= u32 ->
  sys_run cap (local_sys u32 progs) s ->
  length (sy_ps s) = length progs /\
  forall j pj, nth_error (sy_ps s) j = Some pj ->
    (forall x, In x (ps_got pj) -> fst x < length progs /\ fst x <> j) /\
    forall i pi, i <> j -> nth_error (sy_ps s) i = Some pi ->
    exists made under_way, nth_error progs i = Some (made ++ ps_calls pi) /\
      got_from i pj ++ under_way = all_addressed (length progs) i j made.
Proof.
  intros M u32 cap progs s Hu HR. destruct (local_sys_inv u32 progs Hu) as (E & k & HW & HI).
  destruct (run_inv _ _ _ _ _ _ _ _ HW HI HR) as (D & [I1 I2 I3 I4 I5 I6 I7]). split; auto.
  intros j pj Hj. split.
  - intros x Hx. specialize (I6 _ _ _ Hj Hx). apply knows_iff in I6. auto.
  - intros i pi Hij Hi. exists (D i).
    assert (Li : i < length progs) by (rewrite <- I3; apply nth_error_Some; congruence).
    assert (Lj : j < length progs) by (rewrite <- I3; apply nth_error_Some; congruence).
    destruct (proj2 (chan_knows (length progs) E k HW i j Li)) as (ch & Hch); [apply knows_iff; auto|].
    exists (nth ch (sy_qs s) [] ++ pend_part pi ch). split; [apply I4; auto|]. apply I7; auto.
Qed.
Print Assumptions C47_delivery.

(** No message is lost: as long as a message addressed to [j] has not been
    received, [j] waiting for [i] implies that the receive call of [j] can complete
    or that a send of [i] can complete.  So the system cannot come to rest with an
    undelivered message that is waited for. *)
Theorem C47_no_loss :
  forall M u32 cap (progs : list (list (call M))) s, 0 < cap -> length progs <= u32 ->
  sys_run cap (local_sys u32 progs) s ->
  forall i j pi pj r made, i <> j -> nth_error (sy_ps s) i = Some pi -> nth_error (sy_ps s) j = Some pj ->
  nth_error progs i = Some (made ++ ps_calls pi) ->
  ps_calls pj = CRecv i :: r -> ps_pend pj = None ->
  got_from i pj <> all_addressed (length progs) i j made ->
  exists s', sys_step cap s s'.
Proof.
  intros M u32 cap progs s Hcap Hu HR i j pi pj r made Hij Hi Hj Hm Hr Hp Hne.
  destruct (local_sys_inv u32 progs Hu) as (E & k & HW & HI).
  destruct (run_inv _ _ _ _ _ _ _ _ HW HI HR) as (D & [I1 I2 I3 I4 I5 I6 I7]).
  assert (Li : i < length progs) by (rewrite <- I3; apply nth_error_Some; congruence).
  assert (Lj : j < length progs) by (rewrite <- I3; apply nth_error_Some; congruence).
  destruct (proj2 (chan_knows (length progs) E k HW i j Li)) as (ch & Hch); [apply knows_iff; auto|].
  assert (made = D i).
  { pose proof (I4 _ _ Hi) as H. rewrite Hm in H. injection H as H. apply app_inv_tail in H. auto. }
  subst made. pose proof (I7 _ _ _ _ _ Hi Hj Hch) as HF.
  destruct (chan_lt _ _ _ HW _ _ _ Hch) as (_ & _ & _ & Hk).
  assert (Hq : nth_error (sy_qs s) ch = Some (nth ch (sy_qs s) [])) by (apply nth_error_nth'; lia).
  destruct s as [qs ends ps]. cbn [sy_qs sy_ends sy_ps] in *. subst ends.
  destruct (nth_error E i) as [ei|] eqn:Ei; [|apply nth_error_None in Ei; rewrite (w_len _ _ _ _ HW) in Ei; lia].
  destruct (nth_error E j) as [ej|] eqn:Ej; [|apply nth_error_None in Ej; rewrite (w_len _ _ _ _ HW) in Ej; lia].
  destruct pj as [cj pdj gj uj]. cbn [ps_calls ps_pend] in *. subst cj pdj.
  destruct (nth ch qs []) as [|m q] eqn:Eq.
  - (* the queue is empty: a send of [i] is pending *)
    simpl in HF. destruct pi as [ci [[chs m]|] gi ui]; unfold pend_part in HF; cbn [ps_pend] in HF.
    2:{ rewrite app_nil_r in HF. congruence. }
    destruct (in_dec Nat.eq_dec ch chs) as [Hin|Hin].
    + apply in_split in Hin. destruct Hin as (l1 & l2 & ->).
      eexists. eapply sys_party; [exact Ei|exact Hi|]. eapply st_poll; [exact Hq|simpl; lia].
    + apply (count_occ_not_In Nat.eq_dec) in Hin. rewrite Hin in HF. simpl in HF. rewrite app_nil_r in HF. congruence.
  - eexists. eapply sys_party; [exact Ej|exact Hj|]. eapply st_recv; [|exact Hq].
    apply (w_both _ _ _ _ HW) in Hch. unfold rchan_of in Hch. rewrite Ej in Hch. exact Hch.
Qed.
Print Assumptions C47_no_loss.

(** A [send_to] with a recipient that is not another party (at any position of the
    list) can only return an error naming such a recipient; no queue changes and
    no send is started. *)
Theorem C48_unknown_sends_nothing :
  forall M u32 cap (progs : list (list (call M))) s, length progs <= u32 ->
  sys_run cap (local_sys u32 progs) s ->
  forall i p e to m r t, nth_error (sy_ps s) i = Some p -> nth_error (sy_ends s) i = Some e ->
  ps_calls p = CSend to m :: r -> ps_pend p = None ->
  In t to -> (t = i \/ length progs <= t) ->
  (exists next, party_step cap e (sy_qs s, p) next) /\
  forall qs' p', party_step cap e (sy_qs s, p) (qs', p') ->
    qs' = sy_qs s /\ exists u, p' = PS r None (ps_got p) (ps_unknown p ++ [u]) /\ In u to /\ (u = i \/ length progs <= u).
Proof.
  intros M u32 cap progs s Hu HR i p e to m r t Hi He Hc Hp Ht Hun.
  destruct (local_sys_inv u32 progs Hu) as (E & k & HW & HI).
  destruct (run_inv _ _ _ _ _ _ _ _ HW HI HR) as (D & [I1 I2 I3 I4 I5 I6 I7]). rewrite I1 in He.
  assert (Li : i < length progs) by (rewrite <- I3; apply nth_error_Some; congruence).
  pose proof (futs_ok (length progs) E k HW i e to He Li) as HF.
  assert (Hnk : knows (length progs) i t = false).
  { destruct (knows (length progs) i t) eqn:Ek; auto. apply knows_iff in Ek. lia. }
  destruct p as [cs pd got unk]. cbn [ps_calls ps_pend ps_got ps_unknown] in *. subst cs pd.
  destruct (send_futs (mc_senders e) to) as [u|chs] eqn:Ef.
  - destruct HF as (F1 & F2 & F3). split.
    + eexists. eapply st_send_unknown; [reflexivity|exact Ef].
    + intros qs' p' HS. inversion HS; subst.
      * cbn in *. match goal with H : Some _ = Some _ |- _ => injection H as <- <- end. congruence.
      * cbn in *. match goal with H : Some _ = Some _ |- _ => injection H as <- <- end.
        assert (u0 = u) by congruence. subst. split; auto. exists u. split; auto. split; auto.
        destruct (Nat.eq_dec u i); auto. right. destruct (le_lt_dec (length progs) u); auto.
        assert (knows (length progs) i u = true) by (apply knows_iff; auto). congruence.
  - destruct HF as (F1 & _). rewrite forallb_forall in F1. rewrite (F1 _ Ht) in Hnk. discriminate.
Qed.
Print Assumptions C48_unknown_sends_nothing.

(** Over whole executions: if every call of party [i] names some unknown recipient
    (or receives), nobody ever receives anything from [i]. *)
Theorem C48_nothing_received :
  forall M u32 cap (progs : list (list (call M))) s i calls, length progs <= u32 ->
  nth_error progs i = Some calls ->
  (forall c, In c calls -> match c with CSend to _ => exists t, In t to /\ (t = i \/ length progs <= t)
                                      | CSendAll _ => False | CRecv _ => True end) ->
  sys_run cap (local_sys u32 progs) s ->
  forall j pj, nth_error (sy_ps s) j = Some pj -> got_from i pj = [].
Proof.
  intros M u32 cap progs s i calls Hu Hcalls Hall HR j pj Hj.
  destruct (C47_delivery M u32 cap progs s Hu HR) as [HL HD]. destruct (HD _ _ Hj) as [HX HY].
  destruct (Nat.eq_dec i j) as [->|Hij].
  { unfold got_from. assert (HN : forall l : list (nat * M), (forall x, In x l -> fst x <> j) -> filter (fun x => fst x =? j) l = []).
    { induction l as [|x l IH]; simpl; auto. intros H. destruct (Nat.eqb_spec (fst x) j); [exfalso; apply (H x); auto|]. apply IH. auto. }
    rewrite HN; auto. intros x Hx. apply HX; auto. }
  destruct (nth_error (sy_ps s) i) as [pi|] eqn:Hi.
  2:{ apply nth_error_None in Hi. assert (i < length progs) by (apply nth_error_Some; congruence). lia. }
  destruct (HY i pi Hij Hi) as (made & uw & Hm & HE). rewrite Hcalls in Hm. injection Hm as Hm.
  assert (HZ : all_addressed (length progs) i j made = []).
  { assert (Hsub : forall c, In c made -> In c calls) by (intros c H; rewrite Hm; apply in_or_app; auto).
    clear - Hsub Hall. unfold all_addressed. induction made as [|c made IH]; auto. simpl. rewrite IH by (intros c' H; apply Hsub; simpl; auto).
    rewrite app_nil_r. specialize (Hall c (Hsub c (or_introl eq_refl))). destruct c as [to m|m|f]; simpl; [|tauto|auto].
    destruct Hall as (t & Ht & Hu). destruct (forallb (knows (length progs) i) to) eqn:Ef; auto.
    rewrite forallb_forall in Ef. specialize (Ef _ Ht). apply knows_iff in Ef. lia. }
  rewrite HZ in HE. apply app_eq_nil in HE. tauto.
Qed.
Print Assumptions C48_nothing_received.

(** Three parties: 0 sends 7 to 2 and 1 and then 8 to 2; 2 has received 7 from 0
    while 8 is under way.  A call of party 1 with an unknown recipient fails. *)
Definition ex_calls : list (list (call nat)) :=
  [[CSend [2; 1] 7; CSend [2] 8]; [CSend [0; 5; 2] 9; CRecv 0]; [CRecv 0; CRecv 0]].

Example C47_case : new_local (M:=nat) 100 3 =
  (repeat [] 6, [MC [(1, 0); (2, 1)] [(1, 2); (2, 4)]; MC [(0, 2); (2, 3)] [(0, 0); (2, 5)];
                 MC [(0, 4); (1, 5)] [(0, 1); (1, 3)]]) /\
  exists s p2, sys_run 128 (local_sys 100 ex_calls) s /\ nth_error (sy_ps s) 2 = Some p2 /\ got_from 0 p2 = [7] /\
    all_addressed 3 0 2 (nth 0 ex_calls []) = [7; 8].
Proof.
  split; [reflexivity|].
  set (ends := [MC [(1, 0); (2, 1)] [(1, 2); (2, 4)]; MC [(0, 2); (2, 3)] [(0, 0); (2, 5)]; MC [(0, 4); (1, 5)] [(0, 1); (1, 3)]]).
  set (qs := repeat (@nil nat) 6).
  set (s0 := Sys qs ends
    [PS [CSend [2; 1] 7; CSend [2] 8] None [] []; PS [CSend [0; 5; 2] 9; CRecv 0] None [] []; PS [CRecv 0; CRecv 0] None [] []]).
  assert (E0 : local_sys 100 ex_calls = s0) by reflexivity.
  set (s1 := Sys qs ends
    [PS [CSend [2] 8] (Some ([1; 0], 7)) [] []; PS [CSend [0; 5; 2] 9; CRecv 0] None [] []; PS [CRecv 0; CRecv 0] None [] []]).
  set (s2 := Sys [[]; [7]; []; []; []; []] ends
    [PS [CSend [2] 8] (Some ([0], 7)) [] []; PS [CSend [0; 5; 2] 9; CRecv 0] None [] []; PS [CRecv 0; CRecv 0] None [] []]).
  set (s3 := Sys [[]; [7]; []; []; []; []] ends
    [PS [CSend [2] 8] (Some ([0], 7)) [] []; PS [CRecv 0] None [] [5]; PS [CRecv 0; CRecv 0] None [] []]).
  set (s4 := Sys qs ends
    [PS [CSend [2] 8] (Some ([0], 7)) [] []; PS [CRecv 0] None [] [5]; PS [CRecv 0] None [(0, 7)] []]).
  exists s4, (PS [CRecv 0] None [(0, 7)] []). split; [|split; [reflexivity|split; reflexivity]].
  rewrite E0. apply (run_step _ _ s3); [apply (run_step _ _ s2); [apply (run_step _ _ s1); [apply (run_step _ _ _ _ (run_refl _ _))|]|]|].
  - apply (sys_party 128 qs ends (sy_ps s0) 0 _ _ qs (PS [CSend [2] 8] (Some ([1; 0], 7)) [] []) eq_refl eq_refl).
    apply (st_send _ _ _ _ _ _ _ [2; 1] 7 [1; 0]); reflexivity.
  - apply (sys_party 128 qs ends (sy_ps s1) 0 _ _ [[]; [7]; []; []; []; []] (PS [CSend [2] 8] (Some ([0], 7)) [] []) eq_refl eq_refl).
    apply (st_poll _ _ qs _ _ _ _ [] 1 [0] []); [reflexivity|simpl; lia].
  - apply (sys_party 128 [[]; [7]; []; []; []; []] ends (sy_ps s2) 1 _ _ [[]; [7]; []; []; []; []] (PS [CRecv 0] None [] [5]) eq_refl eq_refl).
    apply (st_send_unknown _ _ _ _ _ _ [] [0; 5; 2] 9 5); reflexivity.
  - apply (sys_party 128 [[]; [7]; []; []; []; []] ends (sy_ps s3) 2 _ _ qs (PS [CRecv 0] None [(0, 7)] []) eq_refl eq_refl).
    apply (st_recv 128 _ [[]; [7]; []; []; []; []] [CRecv 0] [] [] 0 1 7 []); reflexivity.
Qed.
Example C48_case : send_futs [(0, 2); (2, 3)] [0; 5; 2] = inl 5 /\ addressed 3 1 0 (CSend [0; 5; 2] 9) = [].
Proof. split; reflexivity. Qed.
