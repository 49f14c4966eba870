(** C62 and C63: establishing connections between parties over TCP. *)
From Coq Require Import List Bool Arith Lia.
Require Import Verif.Prelude Verif.PreludeProofs Verif.ChannelModel Verif.ChannelProofs
  Verif.ConnectModel Verif.ConnectSpec Verif.ConnectProofs.
Import ListNotations.

Definition senders_of (s : csys) (i : nat) : list (nat * nat) :=
  match nth_error (cs_parties s) i with Some p => cp_senders p | None => [] end.
Definition receivers_of (s : csys) (i : nat) : list (nat * nat) :=
  match nth_error (cs_parties s) i with Some p => cp_receivers p | None => [] end.

(** Parties that all use the same list of distinct addresses: no call panics; in
    every execution no listener reports a duplicate message, at most
    3·n·(n-1) steps happen, and as long as a call has not returned some step is
    possible; when no step is possible all calls have returned and the maps are
    wired completely. *)
Theorem C62_connect_complete : forall u32 addrs, NoDup addrs -> length addrs <= u32 ->
  exists s0, connect_all u32 (map (fun a => (a, addrs)) addrs) = Some s0 /\
  forall k s, c_steps u32 k s0 s ->
    length (cs_parties s) = length addrs /\
    k <= 3 * (length addrs * (length addrs - 1)) /\
    (forall p, In p (cs_parties s) -> cp_listen p <> LDup) /\
    ((exists s', c_step u32 s s') \/
     (k = 3 * (length addrs * (length addrs - 1)) /\
      (forall p, In p (cs_parties s) -> cp_finished p = true) /\
      wired (length addrs) (senders_of s) (receivers_of s))).
Proof.
  intros u32 addrs N Hu. pose proof (connect_all_ok u32 addrs N Hu) as E0.
  eexists. split; [exact E0|]. intros k s H.
  destruct (steps_ok addrs N u32 k _ s Hu H) as (M & C & S).
  { eexists _, _. eapply start_sys_ok; eauto. }
  pose proof (steps_rank _ _ _ _ H) as HR. rewrite (start_rank u32 addrs _ N Hu E0) in HR.
  split; [exact (so_len _ _ _ _ S)|]. split; [lia|]. split.
  { intros p Hp. apply In_nth_error in Hp. destruct Hp as (i & Ei).
    rewrite (po_listen _ _ _ _ _ (so_party _ _ _ _ S _ _ Ei)). discriminate. }
  destruct (all_done_or addrs M) as [D|(i & j & Hi & Hj & Hij & D)].
  2:{ left. exact (progress addrs u32 M C s i j S Hi Hj Hij D). }
  right.
  assert (Z : srank s = 0).
  { unfold srank. rewrite (sum_const _ 0); [lia|]. intros p Hp. apply In_nth_error in Hp. destruct Hp as (i & Ei).
    pose proof (so_party _ _ _ _ S _ _ Ei) as P. unfold prank. rewrite (po_conns _ _ _ _ _ P), map_map.
    rewrite (sum_const _ 0); [lia|]. intros j Hj. apply others_in in Hj. cbn [snd].
    assert (Hi : i < length addrs) by (rewrite <- (so_len _ _ _ _ S); apply nth_error_Some; congruence).
    specialize (D i j Hi (proj1 Hj) ltac:(intuition)). destruct (M i j); auto; discriminate. }
  split; [lia|]. split.
  - intros p Hp. apply In_nth_error in Hp. destruct Hp as (i & Ei).
    pose proof (so_party _ _ _ _ S _ _ Ei) as P. unfold cp_finished.
    assert (Hi : i < length addrs) by (rewrite <- (so_len _ _ _ _ S); apply nth_error_Some; congruence).
    rewrite (po_listen _ _ _ _ _ P), left_all by (intros; apply D; auto).
    rewrite (po_conns _ _ _ _ _ P). apply forallb_forall. intros [[a b] st] Hc. cbn [snd].
    apply in_map_iff in Hc. destruct Hc as (j & Ec & Hj). injection Ec as _ _ <-. apply others_in in Hj.
    specialize (D i j Hi (proj1 Hj) ltac:(intuition)). destruct (M i j); auto; discriminate.
  - exists C.
    assert (DC : forall i j, i < length addrs -> j < length addrs -> i <> j -> has_ch (M i j) = true).
    { intros i j Hi Hj Hij. specialize (D i j Hi Hj Hij). destruct (M i j); auto; discriminate. }
    split; [|split].
    + intros i j i' j' H1 H2 H3 H4 H5 H6 H7. apply (so_inj _ _ _ _ S); auto.
    + intros i j Hi Hj Hij. unfold receivers_of, senders_of.
      destruct (party_at addrs _ _ _ i S Hi) as (pi & Ei). destruct (party_at addrs _ _ _ j S Hj) as (pj & Ej).
      rewrite Ei, Ej, (po_recv _ _ _ _ _ (so_party _ _ _ _ S _ _ Ei)), (po_send _ _ _ _ _ (so_party _ _ _ _ S _ _ Ej)).
      rewrite DC, D by auto.
      replace (i <? length addrs) with true by (symmetry; apply Nat.ltb_lt; auto).
      replace (j <? length addrs) with true by (symmetry; apply Nat.ltb_lt; auto).
      replace (j =? i) with false by (symmetry; apply Nat.eqb_neq; auto).
      replace (i =? j) with false by (symmetry; apply Nat.eqb_neq; auto). auto.
    + intros i j Hi Hj. unfold receivers_of, senders_of.
      destruct (party_at addrs _ _ _ i S Hi) as (pi & Ei). rewrite Ei.
      rewrite (po_recv _ _ _ _ _ (so_party _ _ _ _ S _ _ Ei)), (po_send _ _ _ _ _ (so_party _ _ _ _ S _ _ Ei)).
      destruct Hj as [->|Hj].
      * rewrite Nat.eqb_refl. cbn [negb andb]. rewrite andb_false_r. auto.
      * replace (j <? length addrs) with false by (symmetry; apply Nat.ltb_ge; auto). auto.
Qed.

(** Already before the end: what a party that has returned got is complete, and a
    sender is always paired with the receiver of the other party. *)
Theorem C62_connect_early : forall u32 addrs s0 k s, NoDup addrs -> length addrs <= u32 ->
  connect_all u32 (map (fun a => (a, addrs)) addrs) = Some s0 -> c_steps u32 k s0 s ->
  (forall i p j, nth_error (cs_parties s) i = Some p -> cp_finished p = true ->
     (j < length addrs /\ j <> i <-> hm_get j (cp_receivers p) <> None) /\
     (j < length addrs /\ j <> i <-> hm_get j (cp_senders p) <> None)) /\
  (forall i j ch, hm_get i (senders_of s j) = Some ch -> hm_get j (receivers_of s i) = Some ch).
Proof.
  intros u32 addrs s0 k s N Hu E0 H.
  destruct (steps_ok addrs N u32 k _ s Hu H) as (M & C & S).
  { eexists _, _. eapply start_sys_ok; eauto. }
  split.
  - intros i p j Ei F. pose proof (so_party _ _ _ _ S _ _ Ei) as P.
    assert (Hi : i < length addrs) by (rewrite <- (so_len _ _ _ _ S); apply nth_error_Some; congruence).
    unfold cp_finished in F. rewrite (po_listen _ _ _ _ _ P) in F.
    destruct (left addrs M i) eqn:El; [|discriminate].
    rewrite (po_conns _ _ _ _ _ P), forallb_forall in F.
    assert (Hc : j < length addrs -> j <> i -> has_ch (M i j) = true).
    { intros Hj Hji. assert (Hin : In (j, nth j addrs 0, M i j) (map (fun j => (j, nth j addrs 0, M i j)) (others (length addrs) i))).
      { apply in_map_iff. exists j. split; auto. apply others_in. auto. }
      specialize (F _ Hin). cbn [snd] in F. destruct (M i j); auto. }
    pose proof (left_zero addrs M i El j) as Hd.
    rewrite (po_recv _ _ _ _ _ P), (po_send _ _ _ _ _ P).
    destruct (Nat.ltb_spec j (length addrs)); cbn [andb]; [|split; split; intros G; [lia|contradiction|lia|contradiction]].
    destruct (Nat.eqb_spec j i); cbn [negb andb]; [split; split; intros G; [lia|contradiction|lia|contradiction]|].
    rewrite Hc, Hd by auto. split; split; auto; intros _; discriminate.
  - intros i j ch. unfold senders_of, receivers_of.
    destruct (nth_error (cs_parties s) j) as [pj|] eqn:Ej; [|discriminate].
    rewrite (po_send _ _ _ _ _ (so_party _ _ _ _ S _ _ Ej)).
    assert (Hj : j < length addrs) by (rewrite <- (so_len _ _ _ _ S); apply nth_error_Some; congruence).
    destruct (Nat.ltb_spec i (length addrs)) as [Hi|]; cbn [andb]; [|discriminate].
    destruct (Nat.eqb_spec i j); cbn [negb andb]; [discriminate|].
    destruct (is_done (M i j)) eqn:D; [|discriminate]. intros [= <-].
    destruct (party_at addrs _ _ _ i S Hi) as (pi & Ei). rewrite Ei, (po_recv _ _ _ _ _ (so_party _ _ _ _ S _ _ Ei)).
    replace (j <? length addrs) with true by (symmetry; apply Nat.ltb_lt; auto).
    replace (j =? i) with false by (symmetry; apply Nat.eqb_neq; auto).
    destruct (M i j); try discriminate. reflexivity.
Qed.

(** For any lists and from any state: executions are finite. *)
Theorem C62_connect_terminates : forall u32 s0 k s, c_steps u32 k s0 s ->
  k <= 3 * sum_list (map (fun p => length (cp_conns p)) (cs_parties s0)).
Proof.
  intros u32 s0 k s H. pose proof (steps_rank _ _ _ _ H) as HR.
  assert (G : srank s0 <= 3 * sum_list (map (fun p => length (cp_conns p)) (cs_parties s0))).
  { unfold srank. induction (cs_parties s0) as [|p l IH]; [apply le_n|].
    change (prank p + sum_list (map prank l) <= 3 * (length (cp_conns p) + sum_list (map (fun p => length (cp_conns p)) l))).
    assert (prank p <= 3 * length (cp_conns p)); [|lia].
    unfold prank. induction (cp_conns p) as [|c cs IHc]; [apply le_n|].
    change (rank (snd c) + sum_list (map (fun c => rank (snd c)) cs) <= 3 * S (length cs)).
    assert (rank (snd c) <= 3) by (destruct (snd c); cbn; lia). lia. }
  lia.
Qed.

(** The listener's count only works out if the lists agree.  With the two parties
    listing the addresses in different orders both calls return, but the keys of
    the maps of one party do not agree: it can receive from party 1 but not send
    to it. *)
Theorem C62_connect_order_refuted : exists u32 calls s0 k s,
  (forall c, In c calls -> NoDup (snd c) /\ In (fst c) (snd c) /\ length (snd c) <= u32) /\
  NoDup (map fst calls) /\
  (forall c a, In c calls -> In a (snd c) <-> In a (map fst calls)) /\
  connect_all u32 calls = Some s0 /\ c_steps u32 k s0 s /\
  (forall p, In p (cs_parties s) -> cp_finished p = true) /\
  hm_get 1 (receivers_of s 0) <> None /\ hm_get 1 (senders_of s 0) = None /\
  ~ wired 2 (senders_of s) (receivers_of s).
Proof.
  exists 8, [(10, [10; 20]); (20, [20; 10])].
  eexists. eexists. eexists.
  split. { intros c [<-|[<-|[]]]; cbn; (split; [repeat constructor; cbn; intuition lia|split; [auto|lia]]). }
  split. { repeat constructor; cbn; intuition lia. }
  split. { intros c a [<-|[<-|[]]]; cbn; intuition. }
  split; [vm_compute; reflexivity|].
  split. { apply (run_sched_steps 8 [SA 0 1 0; SA 1 0 0; SJ 0 0; SJ 1 0; SR 0; SR 1]). vm_compute. reflexivity. }
  split. { intros p [<-|[<-|[]]]; reflexivity. }
  split; [cbn; discriminate|]. split; [reflexivity|].
  intros (chan & _ & W & _). specialize (W 1 0 ltac:(lia) ltac:(lia) ltac:(lia)). cbn in W. destruct W; discriminate.
Qed.

(** With three parties a listener can report a duplicate message. *)
Theorem C62_connect_duplicate_refuted : exists u32 calls s0 k s,
  (forall c, In c calls -> NoDup (snd c) /\ In (fst c) (snd c) /\ length (snd c) <= u32) /\
  NoDup (map fst calls) /\
  (forall c a, In c calls -> In a (snd c) <-> In a (map fst calls)) /\
  connect_all u32 calls = Some s0 /\ c_steps u32 k s0 s /\
  exists p, In p (cs_parties s) /\ cp_listen p = LDup.
Proof.
  exists 8, [(10, [10; 20; 30]); (20, [20; 10; 30]); (30, [10; 20; 30])].
  eexists. eexists. eexists.
  split. { intros c [<-|[<-|[<-|[]]]]; cbn; (split; [repeat constructor; cbn; intuition lia|split; [auto|lia]]). }
  split. { repeat constructor; cbn; intuition lia. }
  split. { intros c a [<-|[<-|[<-|[]]]]; cbn; intuition. }
  split; [vm_compute; reflexivity|].
  split. { apply (run_sched_steps 8 [SA 2 0 1; SJ 0 1; SR 2; SA 2 1 1; SJ 1 1; SR 2]). vm_compute. reflexivity. }
  eexists. split; [right; right; left; reflexivity|reflexivity].
Qed.

(** An address occurring twice in the common list: the execution comes to a state in
    which one call waits forever. *)
Theorem C62_connect_repeated_refuted : exists u32 addrs calls s0 k s,
  (forall c, In c calls -> snd c = addrs /\ In (fst c) addrs) /\ NoDup (map fst calls) /\
  (forall a, In a addrs -> In a (map fst calls)) /\
  connect_all u32 calls = Some s0 /\ c_steps u32 k s0 s /\
  (forall s', ~ c_step u32 s s') /\ exists p, In p (cs_parties s) /\ cp_finished p = false.
Proof.
  exists 8, [10; 10; 20], [(10, [10; 10; 20]); (20, [10; 10; 20])].
  eexists. eexists. eexists.
  split. { intros c [<-|[<-|[]]]; cbn; auto. }
  split. { repeat constructor; cbn; intuition lia. }
  split. { cbn; intuition. }
  split; [vm_compute; reflexivity|].
  split. { apply (run_sched_steps 8 [SA 0 1 0; SJ 1 0; SR 0; SA 1 0 0; SJ 0 0; SR 1]). vm_compute. reflexivity. }
  split.
  - intros s' [j i k E|i k E|j E].
    + destruct j as [|[|j]]; [discriminate| |destruct j; discriminate].
      unfold c_accept in E. cbn -[nth_error] in E. change (nth_error [10; 20] 1) with (Some 20) in E.
      destruct i as [|[|i]]; cbn in E; [| |destruct i; discriminate];
        destruct k as [|[|[|k]]]; try discriminate E; destruct k; discriminate E.
    + destruct i as [|[|i]]; cbn in E; [| |destruct i; discriminate];
        destruct k as [|[|[|k]]]; try discriminate E; destruct k; discriminate E.
    + destruct j as [|[|j]]; [discriminate|discriminate|destruct j; discriminate].
  - eexists. split; [right; left; reflexivity|reflexivity].
Qed.

(** Three parties: a complete execution and its channels. *)
Example C62_case :
  (s0 <- connect_all 8 (map (fun a => (a, [10; 20; 30])) [10; 20; 30]) ;;
   s <- run_sched 8 [SA 1 2 1; SA 0 1 0; SJ 2 1; SJ 1 0; SR 1; SR 0; SA 1 0 0; SA 2 0 1; SJ 0 1; SJ 0 0; SR 1; SR 2;
                     SA 0 2 0; SA 2 1 1; SJ 1 1; SR 2; SJ 2 0; SR 0] s0 ;;
   Some (forallb cp_finished (cs_parties s),
         map (fun p => (cp_senders p, cp_receivers p)) (cs_parties s))) =
  Some (true, [([(1, 1); (2, 5)], [(2, 2); (1, 3)]);
               ([(2, 0); (0, 3)], [(0, 1); (2, 4)]);
               ([(0, 2); (1, 4)], [(1, 0); (0, 5)])]).
Proof. vm_compute. reflexivity. Qed.

(** ** Retrying *)

(** Spec: the attempts made are those before the first one at which the time is up. *)
Fixpoint made (timeout : nat) (attempts : list (nat * option nat)) : list (option nat) :=
  match attempts with
  | (t, r) :: rest => if t <? timeout then r :: made timeout rest else []
  | [] => []
  end.

(** The connection is returned if and only if one of the attempts made succeeds; if
    all of at least one attempts fail, the error of the last one is returned. *)
Theorem C63_retry : forall timeout attempts,
  (connect_with_timeout timeout attempts None = CwtOk <-> In None (made timeout attempts)) /\
  (forall e, connect_with_timeout timeout attempts None = CwtErr e <->
     (exists es, made timeout attempts = map Some es /\ es <> [] /\ last es 0 = e)) /\
  (connect_with_timeout timeout attempts None = CwtPanic <-> made timeout attempts = []).
Proof.
  intros timeout attempts.
  assert (G : forall l e0, connect_with_timeout timeout l (Some e0) =
    if existsb (fun r => match r with None => true | _ => false end) (made timeout l) then CwtOk
    else CwtErr (last (map (fun r => match r with Some e => e | None => 0 end) (made timeout l)) e0)).
  { induction l as [|[t r] l IH]; intros e0; [reflexivity|]. cbn [connect_with_timeout made].
    destruct (t <? timeout); [|reflexivity]. destruct r as [e|]; [|reflexivity].
    rewrite IH. cbn [existsb map orb]. destruct (existsb _ (made timeout l)); [reflexivity|].
    f_equal. generalize (map (fun r => match r with Some e => e | None => 0 end) (made timeout l)). clear.
    intros l. destruct l as [|x l]; [reflexivity|]. cbn [last]. revert x.
    induction l as [|y l IH]; intros x; [reflexivity|]. exact (IH y). }
  assert (F : connect_with_timeout timeout attempts None =
    match made timeout attempts with
    | [] => CwtPanic
    | l => if existsb (fun r => match r with None => true | _ => false end) l then CwtOk
           else CwtErr (last (map (fun r => match r with Some e => e | None => 0 end) l) 0)
    end).
  { destruct attempts as [|[t r] l]; [reflexivity|]. cbn [connect_with_timeout made].
    destruct (t <? timeout); [|reflexivity]. destruct r as [e|]; [|reflexivity].
    rewrite G. cbn [existsb orb map]. destruct (existsb _ (made timeout l)); [reflexivity|].
    f_equal. generalize (map (fun r => match r with Some e => e | None => 0 end) (made timeout l)). clear.
    intros l. destruct l as [|x l]; [reflexivity|]. cbn [last]. revert x.
    induction l as [|y l IH]; intros x; [reflexivity|]. exact (IH y). }
  rewrite F. destruct (made timeout attempts) as [|r l] eqn:Em.
  { split; [split; [discriminate|intros []]|]. split; [|tauto]. intros e. split; [discriminate|].
    intros (es & E & Hn & _). destruct es; [congruence|discriminate]. }
  cbv iota zeta. set (ls := r :: l). assert (Hne : ls <> []) by discriminate. clearbody ls. clear Em r l F G.
  destruct (existsb (fun r => match r with None => true | _ => false end) ls) eqn:Ex.
  - apply existsb_exists in Ex. destruct Ex as (x & Hx & Ex). destruct x; [discriminate|].
    split; [split; auto|]. split; [|split; [discriminate|contradiction]].
    intros e. split; [discriminate|]. intros (es & -> & _). apply in_map_iff in Hx. destruct Hx as (? & ? & _). discriminate.
  - assert (Hs : exists es, ls = map Some es).
    { clear Hne. induction ls as [|[e|] ls IH]; [exists []; reflexivity| |discriminate].
      destruct (IH Ex) as (es & ->). exists (e :: es). reflexivity. }
    destruct Hs as (es & ->). rewrite map_map, map_id.
    split; [split; [discriminate|intros Hx; apply in_map_iff in Hx; destruct Hx as (? & ? & _); discriminate]|].
    split; [|split; [discriminate|contradiction]].
    intros e. split.
    + intros [= <-]. exists es. split; auto. split; auto. intros ->. apply Hne. reflexivity.
    + intros (es' & E & _ & <-). f_equal.
      assert (es = es'); [|congruence]. apply (f_equal (map (fun r => match r with Some e => e | None => 0 end))) in E.
      rewrite !map_map, !map_id in E. exact E.
Qed.

(** With a time limit of zero there is no attempt and the call panics, although the
    peer would accept. *)
Theorem C63_zero_timeout_refuted : exists timeout attempts,
  connect_with_timeout timeout attempts None = CwtPanic /\ In None (map snd attempts).
Proof. exists 0, [(0, None)]. split; [reflexivity|left; reflexivity]. Qed.

Example C63_case :
  connect_with_timeout 30 [(0, Some 1); (10, Some 2); (22, None); (40, Some 3)] None = CwtOk /\
  connect_with_timeout 30 [(0, Some 1); (10, Some 2); (32, None)] None = CwtErr 2.
Proof. split; reflexivity. Qed.

Print Assumptions C62_connect_complete.
Print Assumptions C62_connect_early.
Print Assumptions C62_connect_terminates.
Print Assumptions C62_connect_order_refuted.
Print Assumptions C62_connect_duplicate_refuted.
Print Assumptions C62_connect_repeated_refuted.
Print Assumptions C63_retry.
Print Assumptions C63_zero_timeout_refuted.
