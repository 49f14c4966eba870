(** Theorems about sub-channels. *)
From Coq Require Import List Bool Arith Lia.
Require Import Verif.Prelude Verif.SubChanModel Verif.SubChanSpec Verif.SubChanProofs Verif.SubChanLive.
Import ListNotations.

(** ** Wiring, with any schedule, message loss by closing included *)

Lemma nth_map_some {A B} (f : A -> B) l n a : nth_error l n = Some a -> nth_error (map f l) n = Some (f a).
Proof. intros H. rewrite nth_error_map, H. reflexivity. Qed.

Lemma reach_got progs cap l s i j m e x : peers_ok progs -> steps cap (start progs) l = Some s ->
  nth_error (with_peer j (pt_log (sy_party s i))) m = Some e -> e_got e = Some x ->
  nth_error (sent (sy_party s j) i) m = Some x.
Proof.
  intros W E H G. pose proof (safe_steps _ _ _ _ E (safe_start progs W)) as [_ S].
  destruct (S i j) as (a & b & r & H1 & H2 & _ & _). unfold GOT in H1. pose proof (nth_map_some e_got _ _ _ H) as N. rewrite H1, G in N.
  unfold SENT in H2. rewrite H2. destruct (Nat.lt_ge_cases m (length a)) as [L|L].
  - rewrite nth_error_app1 in N by (rewrite map_length; auto). rewrite nth_error_map in N. rewrite nth_error_app1 by auto.
    destruct (nth_error a m); [|discriminate]. cbn in N. congruence.
  - rewrite nth_error_app2 in N by (rewrite map_length; auto). apply nth_error_In, repeat_spec in N. discriminate.
Qed.

Lemma reach_none progs cap l s i j m e : peers_ok progs -> steps cap (start progs) l = Some s ->
  nth_error (with_peer j (pt_log (sy_party s i))) m = Some e -> e_got e = None -> exists g, pt_status (sy_party s j) = SClosed g.
Proof.
  intros W E H G. pose proof (safe_steps _ _ _ _ E (safe_start progs W)) as [_ S].
  destruct (S i j) as (a & b & r & H1 & _ & _ & H4). destruct b as [|b]; [|apply H4; discriminate].
  unfold GOT in H1. pose proof (nth_map_some e_got _ _ _ H) as N. rewrite H1, G in N. cbn [repeat] in N. rewrite app_nil_r, nth_error_map in N.
  destruct (nth_error a m); discriminate.
Qed.

(** The [m]-th call between [i] and [j]: the end [i] received is that of the channel [j]
    made in its [m]-th call with [i], of the same type, and vice versa. *)
Theorem C67_wiring : forall progs cap l s i j m e k,
  peers_ok progs -> steps cap (start progs) l = Some s ->
  nth_error (with_peer j (pt_log (sy_party s i))) m = Some e -> e_what e = WSub k ->
  exists r t, e_own e = MSub k r /\ e_got e = Some (MSub k t)
    /\ nth_error (sent (sy_party s j) i) m = Some (MSub k t)
    /\ forall e', nth_error (with_peer i (pt_log (sy_party s j))) m = Some e' -> e_got e' <> None ->
         e_what e' = WSub k /\ e_own e' = MSub k t /\ e_got e' = Some (MSub k r).
Proof.
  intros progs cap l s i j m e k W E H HK. pose proof (safe_steps _ _ _ _ E (safe_start progs W)) as [PO _].
  assert (SG : sub_got s) by (apply (sub_got_steps _ _ _ _ E); intros a b []).
  pose proof (nth_error_In _ _ H) as HI. apply filter_In in HI. destruct HI as [HI _].
  destruct (po_log _ (PO i) e HI) as [[r HO] HA]. rewrite HK in HO. cbn in HO.
  destruct (e_got e) as [x|] eqn:EG; [|destruct (SG i e HI k HK EG)].
  specialize (HA x eq_refl). rewrite HK in HA. destruct x as [k' t|]; [|discriminate]. cbn in HA. apply Nat.eqb_eq in HA. subst k'.
  pose proof (reach_got _ _ _ _ _ _ _ _ _ W E H EG) as HS.
  exists r, t. split; [auto|]. split; [auto|]. split; [auto|]. intros e' H' G'.
  destruct (e_got e') as [x'|] eqn:EG'; [|congruence]. clear G'.
  pose proof (reach_got _ _ _ _ _ _ _ _ _ W E H' EG') as HS'.
  assert (O1 : e_own e' = MSub k t).
  { unfold sent in HS. rewrite nth_error_app1 in HS by (rewrite map_length; apply nth_error_Some; congruence).
    rewrite nth_error_map, H' in HS. cbn in HS. congruence. }
  assert (O2 : MSub k r = x').
  { unfold sent in HS'. rewrite nth_error_app1 in HS' by (rewrite map_length; apply nth_error_Some; congruence).
    rewrite nth_error_map, H in HS'. cbn in HS'. congruence. }
  pose proof (nth_error_In _ _ H') as HI'. apply filter_In in HI'. destruct HI' as [HI' _].
  destruct (po_log _ (PO j) e' HI') as [[id HO'] _]. rewrite O1 in HO'. destruct (e_what e'); cbn in HO'; try discriminate.
  split; [congruence|]. split; congruence.
Qed.

(** Every sub-channel is used in one call only. *)
Theorem C67_fresh : forall progs cap l s,
  peers_ok progs -> steps cap (start progs) l = Some s ->
  (forall i, NoDup (created (sy_party s i)))
  /\ forall i j id, In id (created (sy_party s i)) -> In id (created (sy_party s j)) -> i = j.
Proof.
  intros progs cap l s W E. destruct (fresh_steps _ _ _ _ E (safe_start progs W) (fresh_start progs)) as (F1 & _ & F3). auto.
Qed.

(** The results of a party follow its calls, peer by peer. *)
Theorem C67_calls : forall progs cap l s i j,
  steps cap (start progs) l = Some s ->
  (exists rest, rounds_with j (progs i) = map e_what (with_peer j (pt_log (sy_party s i))) ++ rest)
  /\ (pt_rounds (sy_party s i) = [] -> map e_what (with_peer j (pt_log (sy_party s i))) = rounds_with j (progs i)).
Proof.
  intros progs cap l s i j E. pose proof (follows_steps progs _ _ _ _ E (follows_start progs) i j) as F. split.
  - exists (left_with (sy_party s i) j). auto.
  - intros R. rewrite <- F. unfold left_with. rewrite R. now rewrite app_nil_r.
Qed.

(** A round that completes with a message: the peer has completed all earlier rounds with
    this party and has sent its message of this round (the barrier of [sync]).  A round
    that completes without: the peer has closed its channels. *)
Theorem C67_barrier : forall progs cap l s i j m e,
  peers_ok progs -> steps cap (start progs) l = Some s ->
  nth_error (with_peer j (pt_log (sy_party s i))) m = Some e ->
  match e_got e with
  | Some x => m <= length (with_peer i (pt_log (sy_party s j))) /\ nth_error (sent (sy_party s j) i) m = Some x
  | None => exists g, pt_status (sy_party s j) = SClosed g
  end.
Proof.
  intros progs cap l s i j m e W E H. destruct (e_got e) as [x|] eqn:EG.
  - pose proof (reach_got _ _ _ _ _ _ _ _ _ W E H EG) as N. split; [|auto].
    assert (L : m < length (sent (sy_party s j) i)) by (apply nth_error_Some; congruence).
    unfold sent in L. rewrite app_length, map_length in L. unfold pending in L.
    destruct (cur_get _ _) as [[]|]; cbn [length] in L; lia.
  - exact (reach_none _ _ _ _ _ _ _ _ W E H EG).
Qed.

(** ** Parties that make their calls in a common order *)

Lemma plays_ok sc : script_ok sc -> peers_ok (plays sc).
Proof.
  intros S i r H. apply in_flat_map in H. destruct H as (x & Hx & H). destruct (existsb _ _); [|destruct H].
  destruct H as [<-|[]]. apply NoDup_filter. apply S. auto.
Qed.

(** Nobody gets an error, and as long as somebody has calls to do, somebody can go on. *)
Theorem C67_progress : forall sc cap l s,
  script_ok sc -> 1 <= cap -> no_close l -> steps cap (start (plays sc)) l = Some s ->
  (forall i, pt_status (sy_party s i) = SRun)
  /\ forall i, pt_rounds (sy_party s i) <> [] ->
       exists a s', (forall i g cuts, a <> AClose i g cuts) /\ step cap s a = Some s'.
Proof.
  intros sc cap l s S C NC E. pose proof (live_steps sc cap l _ _ (live_start sc S) NC E) as L. split.
  - intros i. destruct (proj2 L i) as [g A]. exact (ar_run _ _ _ _ A).
  - intros i R. destruct (proj2 L i) as [g A]. exact (progress sc cap s L C g i g (le_n _) A (at_not_end _ _ _ _ A R)).
Qed.

(** At the end every pair has completed its common calls, and what one has received is
    what the other has sent. *)
Theorem C67_complete : forall sc cap l s,
  script_ok sc -> no_close l -> steps cap (start (plays sc)) l = Some s ->
  (forall i, pt_rounds (sy_party s i) = []) ->
  forall i j, i <> j ->
    map e_what (with_peer j (pt_log (sy_party s i))) = common sc i j
    /\ map e_got (with_peer j (pt_log (sy_party s i))) = map Some (map e_own (with_peer i (pt_log (sy_party s j))))
    /\ sy_queue s i j = [].
Proof.
  intros sc cap l s S NC E R.
  pose proof (live_steps sc cap l _ _ (live_start sc S) NC E) as L.
  assert (CUR : forall i, pt_cur (sy_party s i) = []) by (intros i; apply (po_empty _ (proj1 (proj1 L) i)); auto).
  assert (W : forall i j, i <> j -> map e_what (with_peer j (pt_log (sy_party s i))) = common sc i j).
  { intros i j N. destruct (proj2 L i) as [g A]. pose proof (at_end _ _ _ _ A (R i)) as ->.
    rewrite (ar_log _ _ _ _ A j (not_eq_sym N)), firstn_all, CUR. cbn. now rewrite app_nil_r. }
  assert (Q : forall i j, i <> j -> map e_got (with_peer j (pt_log (sy_party s i))) = map Some (map e_own (with_peer i (pt_log (sy_party s j)))) /\ sy_queue s j i = []).
  { intros i j N. destruct (live_pair sc s i j L) as [P1 P2].
    assert (SE : SENT s j i = map e_own (with_peer i (pt_log (sy_party s j)))).
    { unfold SENT, sent, pending. rewrite CUR. cbn. now rewrite app_nil_r. }
    assert (LEN : length (GOT s i j) = length (SENT s j i)).
    { rewrite SE, GOT_length, map_length, <- (map_length e_what), <- (map_length e_what (with_peer i _)), (W i j N), (W j i (not_eq_sym N)), common_sym. reflexivity. }
    rewrite LEN, firstn_all in P1. rewrite LEN, firstn_all in P2. rewrite <- SE. split; [exact P1|].
    apply (f_equal (@length msg)) in P2. rewrite app_length in P2. destruct (sy_queue s j i); [reflexivity|cbn in P2; lia]. }
  intros i j N. split; [auto|]. split; [apply Q; auto|]. apply (Q j i). auto.
Qed.

(** Every schedule is finite: the calls bound the number of steps of the first [n] parties, closes
    and errors included. *)
Theorem C67_bound : forall progs cap l s n,
  peers_ok progs -> steps cap (start progs) l = Some s -> (forall a, In a l -> actor a < n) ->
  length l <= sum_list (map (fun i : nat => work (progs i) + 2) (seq 0 n)).
Proof.
  intros progs cap l s n W E A. pose proof (total_steps n cap l _ _ E (safe_start progs W) A) as T. rewrite total_start in T. exact (Nat.le_trans _ _ _ (Nat.le_add_r _ _) T).
Qed.

(** So every run of a common script can be continued to its end. *)
Theorem C67_finishes : forall sc cap l s n,
  script_ok sc -> 1 <= cap -> no_close l -> steps cap (start (plays sc)) l = Some s ->
  (forall x i, In x sc -> In i (fst x) -> i < n) ->
  exists l' s', no_close l' /\ steps cap (start (plays sc)) (l ++ l') = Some s'
    /\ forall i, pt_rounds (sy_party s' i) = [] /\ pt_status (sy_party s' i) = SRun.
Proof.
  intros sc cap l s n S C NC E B. pose proof (live_steps sc cap l _ _ (live_start sc S) NC E) as L.
  assert (HN : forall i, n <= i -> forall x, In x sc -> mem i (fst x) = false).
  { intros i Hi x Hx. destruct (mem i (fst x)) eqn:M; [|reflexivity]. apply mem_In in M. specialize (B x i Hx M). destruct (Nat.lt_irrefl i (Nat.lt_le_trans _ _ _ B Hi)). }
  destruct (finish sc cap n C HN (total n s) s (le_n _) L) as (l' & s' & H1 & H2 & H3 & H4).
  exists l', s'. split; [auto|]. split; [rewrite steps_app, E; exact H2|]. intros i. split; [auto|].
  destruct (proj2 H3 i) as [g A]. exact (ar_run _ _ _ _ A).
Qed.

(** ** What does not hold *)

(** The final state of a schedule (seec-channel lib.rs 78-145). *)
Definition final (cap : nat) (progs : pid -> list round) (l : list act) : sys :=
  match steps cap (start progs) l with Some s => s | None => start progs end.

Lemma final_ok cap progs l : (match steps cap (start progs) l with Some _ => true | None => false end) = true ->
  steps cap (start progs) l = Some (final cap progs l).
Proof. unfold final. destruct (steps cap (start progs) l); [reflexivity|discriminate]. Qed.

(** [sync] is no barrier towards a party that leaves: it returns although the other
    party has never called it. *)
Theorem C67_sync_refuted : exists l s,
  steps 2 (start (fun i => if i =? 0 then call_sync 1 else [])) l = Some s
  /\ pt_rounds (sy_party s 0) = [] /\ pt_status (sy_party s 0) = SRun
  /\ map e_what (pt_log (sy_party s 0)) = [WSync1; WSync2] /\ sent (sy_party s 1) 0 = [].
Proof.
  exists [ASend 0 1; AClose 1 true (fun _ => 0); ARecv 0 1; ANext 0; ASend 0 1; ARecv 0 1; ANext 0].
  eexists. split; [apply final_ok; vm_compute; reflexivity|]. repeat split; vm_compute; reflexivity.
Qed.

(** Pairwise calls in a cyclic order block three parties for ever. *)
Theorem C67_cycle_refuted : exists progs l s,
  peers_ok progs /\ no_close l /\ steps 1 (start progs) l = Some s
  /\ rounds_with 1 (progs 0) = rounds_with 0 (progs 1) /\ rounds_with 2 (progs 1) = rounds_with 1 (progs 2)
  /\ rounds_with 0 (progs 2) = rounds_with 2 (progs 0)
  /\ (forall i, i < 3 -> pt_rounds (sy_party s i) <> [])
  /\ forall a, (forall i g cuts, a <> AClose i g cuts) -> step 1 s a = None.
Proof.
  exists (fun i => match i with 0 => call_sub 1 0 ++ call_sub 2 0 | 1 => call_sub 2 0 ++ call_sub 0 0 | 2 => call_sub 0 0 ++ call_sub 1 0 | _ => [] end).
  exists [ASend 0 1; ASend 1 2; ASend 2 0]. eexists. split.
  { intros i r H. assert (exists j, rd_peers r = [j]) as [j ->].
    { destruct i as [|[|[|i]]]; cbn in H; repeat (destruct H as [<-|H]; [eexists; reflexivity|]); destruct H. }
    repeat constructor. intros []. }
  split. { intros i g cuts H. repeat (destruct H as [H|H]; [discriminate|]). destruct H. }
  split; [apply final_ok; vm_compute; reflexivity|]. split; [reflexivity|]. split; [reflexivity|]. split; [reflexivity|]. split.
  - intros [|[|[|i]]] H; [vm_compute; discriminate..|lia].
  - intros a NC. destruct a as [i j|i j|i j|i|i g cuts]; [..|destruct (NC i g cuts eq_refl)].
    + destruct i as [|[|[|i]]]; destruct j as [|[|[|j]]]; vm_compute; reflexivity.
    + destruct i as [|[|[|i]]]; destruct j as [|[|[|j]]]; vm_compute; reflexivity.
    + destruct i as [|[|[|i]]]; destruct j as [|[|[|j]]]; vm_compute; reflexivity.
    + destruct i as [|[|[|i]]]; vm_compute; reflexivity.
Qed.

(** Calls of different types in different orders fail: the received end has the wrong type. *)
Theorem C67_order_refuted : exists progs l s,
  peers_ok progs /\ no_close l /\ steps 1 (start progs) l = Some s
  /\ (forall k, In k (rounds_with 1 (progs 0)) <-> In k (rounds_with 0 (progs 1)))
  /\ pt_status (sy_party s 0) = SErr /\ pt_status (sy_party s 1) = SErr.
Proof.
  exists (fun i => match i with 0 => call_sub 1 0 ++ call_sub 1 1 | 1 => call_sub 0 1 ++ call_sub 0 0 | _ => [] end).
  exists [ASend 0 1; ASend 1 0; ARecv 0 1; ARecv 1 0]. eexists. split.
  { intros i r H. assert (exists j, rd_peers r = [j]) as [j ->].
    { destruct i as [|[|i]]; cbn in H; repeat (destruct H as [<-|H]; [eexists; reflexivity|]); destruct H. }
    repeat constructor. intros []. }
  split. { intros i g cuts H. repeat (destruct H as [H|H]; [discriminate|]). destruct H. }
  split; [apply final_ok; vm_compute; reflexivity|]. split; [intros k; cbn; tauto|]. split; vm_compute; reflexivity.
Qed.

(** ** A case: three parties, a call of all, a call of two and a [sync] of two *)

(** The script (calls of lib.rs 78-145 and multi.rs 158-210). *)
Definition sc3 : script := [([0; 1; 2], WSub 4); ([2; 0], WSub 9); ([0; 1], WSync1); ([0; 1], WSync2)].
(** A schedule that runs it to the end with queues of length one (lib.rs 78-145). *)
Definition run3 : list act :=
  [ASend 0 2; ASend 1 0; ASend 2 1; ASend 0 1; ARecv 0 1; ASend 1 2; ARecv 1 2; ARecv 1 0; ANext 1; ASend 1 0;
   ASend 2 0; ARecv 0 2; ANext 0; ARecv 2 1; ARecv 2 0; ANext 2; ASend 0 2; ASend 2 0; ARecv 2 0; ARecv 0 2; ANext 2;
   ANext 0; ASend 0 1; ARecv 0 1; ANext 0; ARecv 1 0; ANext 1; ASend 0 1; ASend 1 0; ARecv 0 1; ARecv 1 0; ANext 0; ANext 1].

Lemma sc3_ok : script_ok sc3.
Proof.
  intros x H. repeat (destruct H as [<-|H]; [cbn; repeat constructor; cbn; intuition discriminate|]). destruct H.
Qed.

Lemma run3_no_close : no_close run3.
Proof. intros i g cuts H. unfold run3 in H. repeat (destruct H as [H|H]; [discriminate|]). destruct H. Qed.

Example C67_case : exists s,
  steps 1 (start (plays sc3)) run3 = Some s
  /\ map e_got (with_peer 0 (pt_log (sy_party s 2))) = [Some (MSub 4 0); Some (MSub 9 7)]
  /\ map e_got (with_peer 2 (pt_log (sy_party s 0))) = [Some (MSub 4 6); Some (MSub 9 8)]
  /\ map e_what (with_peer 1 (pt_log (sy_party s 0))) = [WSub 4; WSync1; WSync2]
  /\ created (sy_party s 0) = [3; 0; 7] /\ (forall i, pt_rounds (sy_party s i) = []).
Proof.
  eexists. split; [apply final_ok; vm_compute; reflexivity|].
  split; [vm_compute; reflexivity|]. split; [vm_compute; reflexivity|]. split; [vm_compute; reflexivity|]. split; [vm_compute; reflexivity|].
  intros [|[|[|i]]]; vm_compute; reflexivity.
Qed.

(** The script meets the hypotheses of the theorems above. *)
Example C67_case_theorems : exists s,
  steps 1 (start (plays sc3)) run3 = Some s
  /\ map e_what (with_peer 1 (pt_log (sy_party s 0))) = common sc3 0 1
  /\ map e_got (with_peer 1 (pt_log (sy_party s 0))) = map Some (map e_own (with_peer 0 (pt_log (sy_party s 1))))
  /\ length run3 <= sum_list (map (fun i : nat => work (plays sc3 i) + 2) (seq 0 3)).
Proof.
  destruct C67_case as (s & E & _ & _ & _ & _ & R). exists s. split; [exact E|].
  destruct (C67_complete sc3 1 run3 s sc3_ok run3_no_close E R 0 1 ltac:(discriminate)) as (A & B & _).
  split; [exact A|]. split; [exact B|].
  apply (C67_bound (plays sc3) 1 run3 s 3 (plays_ok sc3 sc3_ok) E).
  intros a H. unfold run3 in H. repeat (destruct H as [<-|H]; [cbn; lia|]). destruct H.
Qed.

Print Assumptions C67_wiring.
Print Assumptions C67_fresh.
Print Assumptions C67_calls.
Print Assumptions C67_barrier.
Print Assumptions C67_progress.
Print Assumptions C67_complete.
Print Assumptions C67_bound.
Print Assumptions C67_finishes.
Print Assumptions C67_sync_refuted.
Print Assumptions C67_cycle_refuted.
Print Assumptions C67_order_refuted.
