(** Invariant of establishing connections: if all parties use the same list of
    distinct addresses then every execution ends with complete wiring. *)
From Coq Require Import List Bool Arith Lia.
Require Import Verif.Prelude Verif.PreludeProofs Verif.ChannelModel Verif.ChannelProofs
  Verif.ConnectModel Verif.ConnectSpec.
Import ListNotations.

Definition others (n i : nat) : list nat := filter (fun j => negb (j =? i)) (seq 0 n).

Lemma others_in n i j : In j (others n i) <-> j < n /\ j <> i.
Proof.
  unfold others. rewrite filter_In, in_seq, negb_true_iff, Nat.eqb_neq. intuition lia.
Qed.

Lemma others_nodup n i : NoDup (others n i).
Proof. apply NoDup_filter, seq_NoDup. Qed.

Lemma filter_seq_len i : forall n b, length (filter (fun j => negb (j =? i)) (seq b n)) =
  if (b <=? i) && (i <? b + n) then n - 1 else n.
Proof.
  induction n as [|n IH]; intros b; simpl.
  - destruct ((b <=? i) && (i <? b + 0)); reflexivity.
  - specialize (IH (S b)).
    destruct (Nat.eqb_spec b i); simpl; rewrite IH; subst.
    + replace (S i <=? i) with false by (symmetry; apply Nat.leb_gt; lia).
      replace (i <=? i) with true by (symmetry; apply Nat.leb_le; lia).
      replace (i <? i + S n) with true by (symmetry; apply Nat.ltb_lt; lia). simpl. lia.
    + destruct (Nat.leb_spec b i), (Nat.leb_spec (S b) i); try lia; simpl; auto.
      replace (i <? S (b + n)) with (i <? b + S n) by (f_equal; lia).
      destruct (Nat.ltb_spec i (b + S n)); auto. destruct n; lia.
Qed.

Lemma others_len n i : i < n -> length (others n i) = n - 1.
Proof.
  intros H. unfold others. rewrite filter_seq_len.
  replace (i <? 0 + n) with true by (symmetry; apply Nat.ltb_lt; lia). reflexivity.
Qed.

(** ** The plan *)

Lemma connect_plan_others : forall remotes d local b, NoDup remotes ->
  connect_plan local b remotes =
  ((fix find l k := match l with [] => None | a :: r => if a =? local then Some k else find r (S k) end) remotes b,
   map (fun j => (j, nth (j - b) remotes d))
       (filter (fun j => negb (nth (j - b) remotes d =? local)) (seq b (length remotes)))).
Proof.
  induction remotes as [|a r IH]; intros d local b N; [reflexivity|].
  inversion N as [|? ? Ha N']; subst.
  cbn [connect_plan length seq filter]. rewrite (IH d local (S b) N').
  replace (b - b) with 0 by lia. cbn [nth].
  assert (E : forall l, (forall j, In j l -> S b <= j) ->
    map (fun j => (j, nth (j - b) (a :: r) d)) (filter (fun j => negb (nth (j - b) (a :: r) d =? local)) l) =
    map (fun j => (j, nth (j - S b) r d)) (filter (fun j => negb (nth (j - S b) r d =? local)) l)).
  { induction l as [|x l IHl]; intros Hl; [reflexivity|].
    pose proof (Hl x (or_introl eq_refl)) as Hx. cbn [filter].
    replace (x - b) with (S (x - S b)) by lia. cbn [nth].
    destruct (negb (nth (x - S b) r d =? local)); cbn [map];
      [replace (x - b) with (S (x - S b)) by lia; cbn [nth]; f_equal|]; apply IHl; intros; apply Hl; right; auto. }
  specialize (E (seq (S b) (length r))).
  assert (Hs : forall j, In j (seq (S b) (length r)) -> S b <= j) by (intros j Hj; apply in_seq in Hj; lia).
  specialize (E Hs).
  destruct (Nat.eqb_spec a local) as [->|Hne]; cbn [negb map].
  - f_equal; [|symmetry; exact E].
    assert (G : forall l k, ~ In local l ->
      (fix find l k := match l with [] => None | a :: r => if a =? local then Some k else find r (S k) end) l k = None).
    { induction l as [|x l IHl]; intros k Hn; [reflexivity|]. simpl.
      destruct (Nat.eqb_spec x local); [exfalso; apply Hn; left; auto|]. apply IHl. intros H; apply Hn; right; auto. }
    rewrite G by auto. reflexivity.
  - f_equal. replace (b - b) with 0 by lia. cbn [nth]. f_equal. symmetry. exact E.
Qed.

Lemma find_nth : forall addrs i b a, NoDup addrs -> nth_error addrs i = Some a ->
  (fix find l k := match l with [] => None | x :: r => if x =? a then Some k else find r (S k) end) addrs b = Some (b + i).
Proof.
  induction addrs as [|x l IH]; intros i b a N E; [destruct i; discriminate|].
  inversion N as [|? ? Hx N']; subst. destruct i as [|i]; cbn [nth_error] in E.
  - injection E as ->. rewrite Nat.eqb_refl. f_equal. lia.
  - destruct (Nat.eqb_spec x a) as [->|_]; [exfalso; apply Hx; eapply nth_error_In; eauto|].
    rewrite (IH i (S b) a N' E). f_equal. lia.
Qed.

Lemma nodup_nth (addrs : list nat) i j d : NoDup addrs -> i < length addrs -> j < length addrs ->
  nth i addrs d = nth j addrs d -> i = j.
Proof. intros N Hi Hj E. exact (proj1 (NoDup_nth addrs d) N i j Hi Hj E). Qed.

Lemma connect_start_ok u32 addrs i a : NoDup addrs -> length addrs <= u32 -> nth_error addrs i = Some a ->
  connect_start u32 a addrs =
  Some (CP i (map (fun j => (j, nth j addrs 0, CWaiting)) (others (length addrs) i))
           (LWait (length addrs - 1)) None [] []).
Proof.
  intros N Hu E. unfold connect_start.
  assert (Hi : i < length addrs) by (apply nth_error_Some; congruence).
  rewrite (connect_plan_others addrs 0 a 0 N), (find_nth addrs i 0 a N E). cbn [obind Nat.add].
  rewrite (Nat.mod_small i u32) by lia. do 2 f_equal.
  - rewrite map_map. cbn [fst snd].
    assert (F : filter (fun j => negb (nth (j - 0) addrs 0 =? a)) (seq 0 (length addrs)) = others (length addrs) i).
    { unfold others. apply filter_ext_in. intros j Hj. apply in_seq in Hj. f_equal.
      rewrite Nat.sub_0_r. rewrite <- (nth_error_nth addrs i 0 E).
      destruct (Nat.eqb_spec j i) as [->|Hne]; [apply Nat.eqb_refl|]. apply Nat.eqb_neq.
      intros H. apply Hne. eapply nodup_nth; eauto; lia. }
    rewrite F. apply map_ext. intros j. rewrite Nat.sub_0_r. reflexivity.
  - f_equal. rewrite map_length.
    rewrite <- (others_len (length addrs) i Hi). unfold others. f_equal. apply filter_ext_in.
    intros j Hj. apply in_seq in Hj. f_equal. rewrite Nat.sub_0_r. rewrite <- (nth_error_nth addrs i 0 E).
    destruct (Nat.eqb_spec j i) as [->|Hne]; [apply Nat.eqb_refl|]. apply Nat.eqb_neq.
    intros H. apply Hne. eapply nodup_nth; eauto; lia.
Qed.

Lemma connect_all_ok u32 addrs : NoDup addrs -> length addrs <= u32 ->
  connect_all u32 (map (fun a => (a, addrs)) addrs) =
  Some (CS addrs (map (fun i => CP i (map (fun j => (j, nth j addrs 0, CWaiting)) (others (length addrs) i))
                                     (LWait (length addrs - 1)) None [] []) (seq 0 (length addrs))) 0).
Proof.
  intros N Hu. unfold connect_all.
  assert (E : omap (fun c => connect_start u32 (fst c) (snd c)) (map (fun a => (a, addrs)) addrs) =
    Some (map (fun i => CP i (map (fun j => (j, nth j addrs 0, CWaiting)) (others (length addrs) i))
                           (LWait (length addrs - 1)) None [] []) (seq 0 (length addrs)))).
  { assert (G : forall l b, (forall i, nth_error l i = nth_error addrs (b + i) \/ nth_error l i = None) ->
      omap (fun c => connect_start u32 (fst c) (snd c)) (map (fun a => (a, addrs)) l) =
      Some (map (fun i => CP i (map (fun j => (j, nth j addrs 0, CWaiting)) (others (length addrs) i))
                           (LWait (length addrs - 1)) None [] []) (seq b (length l)))).
    { induction l as [|a l IH]; intros b Hl; [reflexivity|].
      cbn [map omap length seq fst snd].
      rewrite (connect_start_ok u32 addrs b a N Hu).
      2:{ destruct (Hl 0) as [H|H]; cbn in H; [rewrite Nat.add_0_r in H; auto|discriminate]. }
      cbn [obind]. rewrite (IH (S b)); [reflexivity|].
      intros i. specialize (Hl (S i)). cbn [nth_error] in Hl. rewrite <- plus_n_Sm in Hl. exact Hl. }
    apply (G addrs 0). intros i. left. reflexivity. }
  rewrite E. cbn [obind]. rewrite map_map, map_id. reflexivity.
Qed.

(** ** The invariant *)

Definition is_done (s : cstage) : bool := match s with CDone => true | _ => false end.
Definition is_busy (s : cstage) : bool := match s with CAccepted | CSent _ => true | _ => false end.
Definition has_ch (s : cstage) : bool := match s with CSent _ | CDone => true | _ => false end.

Definition mset (i j : nat) {X} (v : X) (M : nat -> nat -> X) : nat -> nat -> X :=
  fun a b => if (a =? i) && (b =? j) then v else M a b.

Lemma mset_same i j X (v : X) M : mset i j v M i j = v.
Proof. unfold mset. rewrite !Nat.eqb_refl. reflexivity. Qed.

Lemma mset_other i j X (v : X) M a b : a <> i \/ b <> j -> mset i j v M a b = M a b.
Proof.
  unfold mset. intros H. destruct (Nat.eqb_spec a i), (Nat.eqb_spec b j); simpl; auto. lia.
Qed.

Lemma nth_error_eq {A} : forall l1 l2 : list A, (forall x, nth_error l1 x = nth_error l2 x) -> l1 = l2.
Proof.
  induction l1 as [|a l1 IH]; intros [|b l2] H; auto; try (specialize (H 0); discriminate).
  pose proof (H 0) as H0. cbn in H0. injection H0 as ->. f_equal. apply IH. intros x. exact (H (S x)).
Qed.

Section Inv.
Context (addrs : list nat) (Hnd : NoDup addrs).
Local Notation n := (length addrs).

Definition left (M : nat -> nat -> cstage) (j : nat) : nat :=
  length (filter (fun i => negb (is_done (M i j))) (others n j)).

Record party_ok (M : nat -> nat -> cstage) (C : nat -> nat -> nat) (i : nat) (p : cparty) : Prop := {
  po_id : cp_id p = i;
  po_conns : cp_conns p = map (fun j => (j, nth j addrs 0, M i j)) (others n i);
  po_listen : cp_listen p = LWait (left M i);
  po_cur : forall i' k, cp_cur p = Some (i', k) ->
     i' < n /\ nth_error (others n i') k = Some i /\ is_busy (M i' i) = true;
  po_busy : forall i', i' < n -> i' <> i -> is_busy (M i' i) = true -> exists k, cp_cur p = Some (i', k);
  po_send : forall i', hm_get i' (cp_senders p) =
     if (i' <? n) && negb (i' =? i) && is_done (M i' i) then Some (C i' i) else None;
  po_recv : forall j, hm_get j (cp_receivers p) =
     if (j <? n) && negb (j =? i) && has_ch (M i j) then Some (C i j) else None }.

Record sys_ok (M : nat -> nat -> cstage) (C : nat -> nat -> nat) (s : csys) : Prop := {
  so_addrs : cs_addrs s = addrs;
  so_len : length (cs_parties s) = n;
  so_party : forall i p, nth_error (cs_parties s) i = Some p -> party_ok M C i p;
  so_sent : forall i j ch, i < n -> j < n -> i <> j -> M i j = CSent ch -> ch = C i j;
  so_next : forall i j, i < n -> j < n -> i <> j -> has_ch (M i j) = true -> C i j < cs_next s;
  so_inj : forall i j i' j', i < n -> j < n -> i <> j -> i' < n -> j' < n -> i' <> j' ->
     has_ch (M i j) = true -> has_ch (M i' j') = true -> C i j = C i' j' -> i = i' /\ j = j' }.

Lemma conn_at M C i p k id a st : party_ok M C i p -> nth_error (cp_conns p) k = Some (id, a, st) ->
  nth_error (others n i) k = Some id /\ a = nth id addrs 0 /\ st = M i id /\ id < n /\ id <> i.
Proof.
  intros P E. rewrite (po_conns _ _ _ _ P), nth_error_map in E.
  destruct (nth_error (others n i) k) as [j|] eqn:Ej; [|discriminate]. cbn in E.
  injection E as -> <- <-. pose proof (nth_error_In _ _ Ej) as Hj. apply others_in in Hj. intuition.
Qed.

Lemma conns_set M i j k st p : nth_error (others n i) k = Some j ->
  cp_conns p = map (fun j => (j, nth j addrs 0, M i j)) (others n i) ->
  cp_conns (set_stage k st p) = map (fun b => (b, nth b addrs 0, mset i j st M i b)) (others n i).
Proof.
  intros Ek Ec. unfold set_stage. cbn [cp_conns]. rewrite Ec, nth_error_map, Ek. cbn [option_map].
  assert (Hk : k < length (others n i)) by (apply nth_error_Some; congruence).
  apply nth_error_eq. intros x. rewrite nth_error_upd, map_length, !nth_error_map.
  destruct (Nat.eqb_spec x k) as [->|Hx].
  - replace (k <? length (others n i)) with true by (symmetry; apply Nat.ltb_lt; auto).
    cbn [andb]. rewrite Ek. cbn. rewrite mset_same. reflexivity.
  - cbn [andb]. destruct (nth_error (others n i) x) as [b|] eqn:Eb; cbn; [|reflexivity].
    rewrite mset_other; auto. right. intros ->. apply Hx.
    refine (proj1 (NoDup_nth_error (others n i)) (others_nodup n i) x k _ _); [|congruence].
    apply nth_error_Some. congruence.
Qed.

Lemma left_same M i j st b : is_done st = is_done (M i j) -> left (mset i j st M) b = left M b.
Proof.
  intros H. unfold left. f_equal. apply filter_ext. intros a. f_equal.
  unfold mset. destruct (Nat.eqb_spec a i), (Nat.eqb_spec b j); simpl; subst; auto.
Qed.

Lemma left_done M i j st : i < n -> i <> j -> is_done (M i j) = false -> is_done st = true ->
  left M j = S (left (mset i j st M) j).
Proof.
  intros Hi Hij H0 H1. unfold left.
  assert (Hin : In i (others n j)) by (apply others_in; auto).
  assert (G : forall l, NoDup l -> In i l ->
    length (filter (fun a => negb (is_done (M a j))) l) =
    S (length (filter (fun a => negb (is_done (mset i j st M a j))) l))).
  { induction l as [|x l IH]; intros N Hl; [destruct Hl|]. inversion N as [|? ? Hx N']; subst. cbn [filter].
    destruct (Nat.eq_dec x i) as [->|Hne].
    - rewrite mset_same, H0, H1. cbn [negb length]. do 2 f_equal. apply filter_ext_in. intros a Ha.
      rewrite mset_other; auto. left. intros ->. contradiction.
    - rewrite mset_other by auto. destruct Hl as [->|Hl]; [congruence|].
      destruct (negb (is_done (M x j))); cbn [length]; rewrite (IH N' Hl); reflexivity. }
  apply G; auto. apply others_nodup.
Qed.

Lemma left_pos M i j : i < n -> i <> j -> is_done (M i j) = false -> 0 < left M j.
Proof. intros Hi Hij H. rewrite (left_done M i j CDone Hi Hij H eq_refl). lia. Qed.

Lemma addr_eq j j' aj : nth_error addrs j = Some aj -> j' < n -> nth j' addrs 0 = aj -> j' = j.
Proof.
  intros E Hj H. assert (j < n) by (apply nth_error_Some; congruence).
  apply (nodup_nth addrs j' j 0 Hnd); auto. rewrite H. symmetry. apply nth_error_nth. auto.
Qed.

Lemma accept_ok M C s j i k s' : sys_ok M C s -> c_accept j i k s = Some s' ->
  exists M', sys_ok M' C s'.
Proof.
  intros S E. unfold c_accept in E.
  destruct (nth_error (cs_parties s) j) as [pj|] eqn:Ej; cbn [obind] in E; [|discriminate].
  rewrite (so_addrs _ _ _ S) in E.
  destruct (nth_error addrs j) as [aj|] eqn:Ea; cbn [obind] in E; [|discriminate].
  destruct (match cp_listen pj with LWait (Datatypes.S _) => true | _ => false end) eqn:El; cbn [oassert obind] in E; [|discriminate].
  destruct (cp_cur pj) eqn:Ecur; cbn [oassert obind] in E; [discriminate|].
  destruct (nth_error (cs_parties s) i) as [pi|] eqn:Ei; cbn [obind] in E; [|discriminate].
  destruct (nth_error (cp_conns pi) k) as [[[id a] st]|] eqn:Ek; [|discriminate].
  destruct st; try discriminate.
  destruct (Nat.eqb_spec a aj) as [Hae|]; [|discriminate].
  pose proof (so_party _ _ _ S _ _ Ei) as Pi. pose proof (so_party _ _ _ S _ _ Ej) as Pj.
  destruct (conn_at _ _ _ _ _ _ _ _ Pi Ek) as (Ho & Ha & Hst & Hid & Hne).
  assert (id = j) by (apply (addr_eq j id aj Ea Hid); congruence). subst id.
  rewrite upd_nth_error_other in E by auto. rewrite Ei in E. cbn [obind] in E.
  injection E as <-.
  assert (Hi : i < n) by (rewrite <- (so_len _ _ _ S); apply nth_error_Some; congruence).
  set (M' := mset i j CAccepted M). exists M'.
  assert (HS : forall b, left M' b = left M b) by (intros b; apply left_same; rewrite <- Hst; reflexivity).
  assert (Hcase : forall x y, (x = i /\ y = j) \/ M' x y = M x y).
  { intros x y. destruct (Nat.eq_dec x i), (Nat.eq_dec y j); auto; right; apply mset_other; auto. }
  assert (Hd : forall x y, is_done (M' x y) = is_done (M x y)).
  { intros x y. destruct (Hcase x y) as [[-> ->]| ->]; auto. unfold M'. rewrite mset_same, <- Hst. reflexivity. }
  assert (Hc : forall x y, has_ch (M' x y) = has_ch (M x y)).
  { intros x y. destruct (Hcase x y) as [[-> ->]| ->]; auto. unfold M'. rewrite mset_same, <- Hst. reflexivity. }
  constructor; cbn [cs_addrs cs_parties cs_next].
  - reflexivity.
  - rewrite !upd_length. apply (so_len _ _ _ S).
  - intros x p Ex. rewrite !nth_error_upd, upd_length in Ex.
    destruct (Nat.eqb_spec x i) as [->|Hxi].
    + replace (i <? length (cs_parties s)) with true in Ex by (symmetry; apply Nat.ltb_lt; rewrite (so_len _ _ _ S); auto).
      cbn [andb] in Ex. injection Ex as <-. constructor; cbn [set_stage cp_id cp_listen cp_cur cp_senders cp_receivers].
      * apply (po_id _ _ _ _ Pi).
      * apply (conns_set M i j k CAccepted pi Ho (po_conns _ _ _ _ Pi)).
      * rewrite HS. apply (po_listen _ _ _ _ Pi).
      * intros x' k' Hcur. destruct (po_cur _ _ _ _ Pi _ _ Hcur) as (A & B & D).
        repeat split; auto. unfold M'. rewrite mset_other by auto. auto.
      * intros x' H1 H2 H3. unfold M' in H3. rewrite mset_other in H3 by auto. apply (po_busy _ _ _ _ Pi); auto.
      * intros x'. rewrite Hd. apply (po_send _ _ _ _ Pi).
      * intros y. rewrite Hc. apply (po_recv _ _ _ _ Pi).
    + cbn [andb] in Ex. destruct (Nat.eqb_spec x j) as [->|Hxj].
      * replace (j <? length (cs_parties s)) with true in Ex by (symmetry; apply Nat.ltb_lt; rewrite (so_len _ _ _ S); auto).
        cbn [andb] in Ex. injection Ex as <-. constructor; cbn [cp_id cp_conns cp_listen cp_cur cp_senders cp_receivers].
        -- apply (po_id _ _ _ _ Pj).
        -- rewrite (po_conns _ _ _ _ Pj). apply map_ext. intros b. f_equal. unfold M'. rewrite mset_other by auto. auto.
        -- rewrite HS. apply (po_listen _ _ _ _ Pj).
        -- intros x' k' Hcur. injection Hcur as <- <-. repeat split; auto. unfold M'. rewrite mset_same. reflexivity.
        -- intros x' H1 H2 H3. destruct (Nat.eq_dec x' i) as [->|Hx']; [eauto|].
           unfold M' in H3. rewrite mset_other in H3 by auto. destruct (po_busy _ _ _ _ Pj x' H1 H2 H3) as (k' & Hk'). congruence.
        -- intros x'. rewrite Hd. apply (po_send _ _ _ _ Pj).
        -- intros y. rewrite Hc. apply (po_recv _ _ _ _ Pj).
      * cbn [andb] in Ex. pose proof (so_party _ _ _ S _ _ Ex) as P. constructor.
        -- apply (po_id _ _ _ _ P).
        -- rewrite (po_conns _ _ _ _ P). apply map_ext. intros b. f_equal. unfold M'. rewrite mset_other by auto. auto.
        -- rewrite HS. apply (po_listen _ _ _ _ P).
        -- intros x' k' Hcur. unfold M'. rewrite mset_other by auto. apply (po_cur _ _ _ _ P); auto.
        -- intros x' H1 H2 H3. unfold M' in H3. rewrite mset_other in H3 by auto. apply (po_busy _ _ _ _ P); auto.
        -- intros x'. rewrite Hd. apply (po_send _ _ _ _ P).
        -- intros y. rewrite Hc. apply (po_recv _ _ _ _ P).
  - intros x y ch H1 H2 H3 H4. destruct (Hcase x y) as [[-> ->]|E]; [unfold M' in H4; rewrite mset_same in H4; discriminate|].
    rewrite E in H4. eapply so_sent; eauto.
  - intros x y H1 H2 H3 H4. rewrite Hc in H4. eapply so_next; eauto.
  - intros x y x' y' H1 H2 H3 H4 H5 H6 H7 H8. rewrite Hc in H7, H8. eapply so_inj; eauto.
Qed.

Lemma join_ok u32 M C s i k s' : n <= u32 -> sys_ok M C s -> c_join u32 i k s = Some s' ->
  exists M' C', sys_ok M' C' s'.
Proof.
  intros Hu S E. unfold c_join in E.
  destruct (nth_error (cs_parties s) i) as [pi|] eqn:Ei; cbn [obind] in E; [|discriminate].
  destruct (nth_error (cp_conns pi) k) as [[[j a] st]|] eqn:Ek; [|discriminate].
  destruct st; try discriminate.
  pose proof (so_party _ _ _ S _ _ Ei) as Pi.
  destruct (conn_at _ _ _ _ _ _ _ _ Pi Ek) as (Ho & Ha & Hst & Hid & Hne).
  rewrite (Nat.mod_small j u32) in E by lia. injection E as <-.
  assert (Hi : i < n) by (rewrite <- (so_len _ _ _ S); apply nth_error_Some; congruence).
  set (ch := cs_next s). set (M' := mset i j (CSent ch) M). set (C' := mset i j ch C).
  exists M', C'.
  assert (HS : forall b, left M' b = left M b) by (intros b; apply left_same; rewrite <- Hst; reflexivity).
  assert (Hcase : forall x y, (x = i /\ y = j) \/ (M' x y = M x y /\ C' x y = C x y /\ (x <> i \/ y <> j))).
  { intros x y. destruct (Nat.eq_dec x i), (Nat.eq_dec y j); auto; right; unfold M', C'; rewrite !mset_other; auto. }
  assert (HM : M' i j = CSent ch) by apply mset_same. assert (HC : C' i j = ch) by apply mset_same.
  assert (Hd : forall x y, is_done (M' x y) = is_done (M x y)).
  { intros x y. destruct (Hcase x y) as [[-> ->]|[-> _]]; auto. rewrite HM, <- Hst. reflexivity. }
  assert (Hb : forall x y, is_busy (M' x y) = is_busy (M x y)).
  { intros x y. destruct (Hcase x y) as [[-> ->]|[-> _]]; auto. rewrite HM, <- Hst. reflexivity. }
  assert (Hsend : forall x y, (if (x <? n) && negb (x =? y) && is_done (M' x y) then Some (C' x y) else None) =
    (if (x <? n) && negb (x =? y) && is_done (M x y) then Some (C x y) else None)).
  { intros x y. rewrite Hd. destruct (Hcase x y) as [[-> ->]|(_ & -> & _)]; auto.
    rewrite <- Hst. cbn [is_done]. rewrite !andb_false_r. reflexivity. }
  constructor; cbn [cs_addrs cs_parties cs_next].
  - apply (so_addrs _ _ _ S).
  - rewrite !upd_length. apply (so_len _ _ _ S).
  - intros x p Ex. rewrite !nth_error_upd in Ex.
    destruct (Nat.eqb_spec x i) as [->|Hxi].
    + replace (i <? length (cs_parties s)) with true in Ex by (symmetry; apply Nat.ltb_lt; rewrite (so_len _ _ _ S); auto).
      cbn [andb] in Ex. injection Ex as <-. constructor; cbn [cp_id cp_conns cp_listen cp_cur cp_senders cp_receivers].
      * apply (po_id _ _ _ _ Pi).
      * apply (conns_set M i j k (CSent ch) pi Ho (po_conns _ _ _ _ Pi)).
      * rewrite HS. apply (po_listen _ _ _ _ Pi).
      * intros x' k' Hcur. rewrite Hb. apply (po_cur _ _ _ _ Pi _ _ Hcur).
      * intros x' H1 H2 H3. rewrite Hb in H3. apply (po_busy _ _ _ _ Pi); auto.
      * intros x'. rewrite Hsend. apply (po_send _ _ _ _ Pi).
      * intros y. cbn [set_stage cp_receivers]. rewrite hm_get_insert, (po_recv _ _ _ _ Pi).
        destruct (Nat.eqb_spec y j) as [->|Hy].
        -- rewrite HM, HC. replace (j <? n) with true by (symmetry; apply Nat.ltb_lt; auto).
           replace (j =? i) with false by (symmetry; apply Nat.eqb_neq; auto). reflexivity.
        -- destruct (Hcase i y) as [[_ ?]|(-> & -> & _)]; [contradiction|reflexivity].
    + cbn [andb] in Ex. pose proof (so_party _ _ _ S _ _ Ex) as P. constructor.
      * apply (po_id _ _ _ _ P).
      * rewrite (po_conns _ _ _ _ P). apply map_ext. intros b. f_equal. unfold M'. rewrite mset_other by auto. auto.
      * rewrite HS. apply (po_listen _ _ _ _ P).
      * intros x' k' Hcur. rewrite Hb. apply (po_cur _ _ _ _ P); auto.
      * intros x' H1 H2 H3. rewrite Hb in H3. apply (po_busy _ _ _ _ P); auto.
      * intros x'. rewrite Hsend. apply (po_send _ _ _ _ P).
      * intros y. destruct (Hcase x y) as [[? _]|(-> & -> & _)]; [contradiction|]. apply (po_recv _ _ _ _ P).
  - intros x y c H1 H2 H3 H4. destruct (Hcase x y) as [[-> ->]|(E & -> & _)].
    + rewrite HM in H4. rewrite HC. congruence.
    + rewrite E in H4. eapply so_sent; eauto.
  - intros x y H1 H2 H3 H4. destruct (Hcase x y) as [[-> ->]|(E & -> & _)].
    + rewrite HC. unfold ch. lia.
    + rewrite E in H4. pose proof (so_next _ _ _ S x y H1 H2 H3 H4). unfold ch. lia.
  - intros x y x' y' H1 H2 H3 H4 H5 H6 H7 H8 H9.
    destruct (Hcase x y) as [[-> ->]|(E & E2 & _)], (Hcase x' y') as [[-> ->]|(E' & E2' & _)]; auto.
    + rewrite HC, E2' in H9. rewrite E' in H8. pose proof (so_next _ _ _ S x' y' H4 H5 H6 H8). unfold ch in H9. lia.
    + rewrite HC, E2 in H9. rewrite E in H7. pose proof (so_next _ _ _ S x y H1 H2 H3 H7). unfold ch in H9. lia.
    + rewrite E2, E2' in H9. rewrite E in H7. rewrite E' in H8. eapply so_inj; eauto.
Qed.

Lemma recv_ok M C s j s' : sys_ok M C s -> c_recv j s = Some s' -> exists M', sys_ok M' C s'.
Proof.
  intros S E. unfold c_recv in E.
  destruct (nth_error (cs_parties s) j) as [pj|] eqn:Ej; cbn [obind] in E; [|discriminate].
  destruct (cp_cur pj) as [[i k]|] eqn:Ecur; cbn [obind] in E; [|discriminate].
  pose proof (so_party _ _ _ S _ _ Ej) as Pj.
  rewrite (po_listen _ _ _ _ Pj) in E.
  destruct (left M j) as [|m] eqn:El; cbn [obind] in E; [discriminate|].
  destruct (nth_error (cs_parties s) i) as [pi|] eqn:Ei; cbn [obind] in E; [|discriminate].
  destruct (nth_error (cp_conns pi) k) as [[[id a] st]|] eqn:Ek; [|discriminate].
  destruct st as [| |ch|]; try discriminate.
  pose proof (so_party _ _ _ S _ _ Ei) as Pi.
  destruct (conn_at _ _ _ _ _ _ _ _ Pi Ek) as (Ho & Ha & Hst & Hid & Hne).
  destruct (po_cur _ _ _ _ Pj _ _ Ecur) as (Hi & Hoj & Hbusy).
  assert (id = j) by congruence. subst id.
  rewrite (po_id _ _ _ _ Pi) in E.
  rewrite (po_send _ _ _ _ Pj i) in E. rewrite <- Hst in E. cbn [is_done] in E. rewrite !andb_false_r in E.
  rewrite upd_nth_error_other in E by auto. rewrite Ei in E. cbn [obind] in E. injection E as <-.
  assert (Hch : ch = C i j) by (eapply so_sent; eauto).
  set (M' := mset i j CDone M). exists M'.
  assert (HM : M' i j = CDone) by apply mset_same.
  assert (Hcase : forall x y, (x = i /\ y = j) \/ (M' x y = M x y /\ (x <> i \/ y <> j))).
  { intros x y. destruct (Nat.eq_dec x i), (Nat.eq_dec y j); auto; right; unfold M'; rewrite !mset_other; auto. }
  assert (HS : left M' j = m).
  { assert (H : left M j = Datatypes.S (left M' j)) by (apply left_done; auto; rewrite <- Hst; reflexivity). congruence. }
  assert (HSo : forall b, b <> j -> left M' b = left M b).
  { intros b Hb. unfold left. f_equal. apply filter_ext. intros x. unfold M'. rewrite mset_other by auto. auto. }
  assert (Hc : forall x y, has_ch (M' x y) = has_ch (M x y)).
  { intros x y. destruct (Hcase x y) as [[-> ->]|[-> _]]; auto. rewrite HM, <- Hst. reflexivity. }
  constructor; cbn [cs_addrs cs_parties cs_next].
  - apply (so_addrs _ _ _ S).
  - rewrite !upd_length. apply (so_len _ _ _ S).
  - intros x p Ex. rewrite !nth_error_upd, upd_length in Ex.
    destruct (Nat.eqb_spec x i) as [->|Hxi].
    + replace (i <? length (cs_parties s)) with true in Ex by (symmetry; apply Nat.ltb_lt; rewrite (so_len _ _ _ S); auto).
      cbn [andb] in Ex. injection Ex as <-. constructor; cbn [set_stage cp_id cp_listen cp_cur cp_senders cp_receivers].
      * apply (po_id _ _ _ _ Pi).
      * apply (conns_set M i j k CDone pi Ho (po_conns _ _ _ _ Pi)).
      * rewrite HSo by auto. apply (po_listen _ _ _ _ Pi).
      * intros x' k' Hcur. unfold M'. rewrite mset_other by auto. apply (po_cur _ _ _ _ Pi _ _ Hcur).
      * intros x' H1 H2 H3. unfold M' in H3. rewrite mset_other in H3 by auto. apply (po_busy _ _ _ _ Pi); auto.
      * intros x'. unfold M'. rewrite mset_other by auto. apply (po_send _ _ _ _ Pi).
      * intros y. rewrite Hc. apply (po_recv _ _ _ _ Pi).
    + cbn [andb] in Ex. destruct (Nat.eqb_spec x j) as [->|Hxj].
      * replace (j <? length (cs_parties s)) with true in Ex by (symmetry; apply Nat.ltb_lt; rewrite (so_len _ _ _ S); auto).
        cbn [andb] in Ex. injection Ex as <-. constructor; cbn [cp_id cp_conns cp_listen cp_cur cp_senders cp_receivers].
        -- apply (po_id _ _ _ _ Pj).
        -- rewrite (po_conns _ _ _ _ Pj). apply map_ext. intros b. f_equal. unfold M'. rewrite mset_other by auto. auto.
        -- rewrite HS. reflexivity.
        -- intros x' k' Hcur. discriminate.
        -- intros x' H1 H2 H3. destruct (Hcase x' j) as [[-> _]|[E [Hx'|?]]]; [rewrite HM in H3; discriminate| |contradiction].
           rewrite E in H3. destruct (po_busy _ _ _ _ Pj x' H1 H2 H3) as (k' & Hk'). congruence.
        -- intros x'. rewrite hm_get_insert, (po_send _ _ _ _ Pj). destruct (Nat.eqb_spec x' i) as [->|Hx'].
           ++ rewrite HM. replace (i <? n) with true by (symmetry; apply Nat.ltb_lt; auto).
              replace (i =? j) with false by (symmetry; apply Nat.eqb_neq; auto). cbn. congruence.
           ++ destruct (Hcase x' j) as [[? _]|[-> _]]; [contradiction|reflexivity].
        -- intros y. rewrite Hc. apply (po_recv _ _ _ _ Pj).
      * cbn [andb] in Ex. pose proof (so_party _ _ _ S _ _ Ex) as P. constructor.
        -- apply (po_id _ _ _ _ P).
        -- rewrite (po_conns _ _ _ _ P). apply map_ext. intros b. f_equal. unfold M'. rewrite mset_other by auto. auto.
        -- rewrite HSo by auto. apply (po_listen _ _ _ _ P).
        -- intros x' k' Hcur. unfold M'. rewrite mset_other by auto. apply (po_cur _ _ _ _ P); auto.
        -- intros x' H1 H2 H3. unfold M' in H3. rewrite mset_other in H3 by auto. apply (po_busy _ _ _ _ P); auto.
        -- intros x'. unfold M'. rewrite mset_other by auto. apply (po_send _ _ _ _ P).
        -- intros y. rewrite Hc. apply (po_recv _ _ _ _ P).
  - intros x y c H1 H2 H3 H4. destruct (Hcase x y) as [[-> ->]|[E _]]; [rewrite HM in H4; discriminate|].
    rewrite E in H4. eapply so_sent; eauto.
  - intros x y H1 H2 H3 H4. rewrite Hc in H4. eapply so_next; eauto.
  - intros x y x' y' H1 H2 H3 H4 H5 H6 H7 H8. rewrite Hc in H7, H8. eapply so_inj; eauto.
Qed.

Lemma start_sys_ok u32 s0 : n <= u32 -> connect_all u32 (map (fun a => (a, addrs)) addrs) = Some s0 ->
  sys_ok (fun _ _ => CWaiting) (fun _ _ => 0) s0.
Proof.
  intros Hu E. rewrite (connect_all_ok u32 addrs Hnd Hu) in E. injection E as <-.
  constructor; cbn [cs_addrs cs_parties cs_next].
  - reflexivity.
  - rewrite map_length, seq_length. reflexivity.
  - intros i p Ei. rewrite nth_error_map in Ei.
    destruct (nth_error (seq 0 n) i) as [x|] eqn:Ex; [|discriminate]. cbn in Ei. injection Ei as <-.
    assert (Hi : i < n) by (rewrite <- (seq_length n 0); apply nth_error_Some; congruence).
    assert (x = i) by (apply nth_error_nth with (d := 0) in Ex; rewrite seq_nth in Ex by auto; lia). subst x.
    constructor; cbn [cp_id cp_conns cp_listen cp_cur cp_senders cp_receivers is_busy is_done has_ch];
      auto; try discriminate; try (intros; rewrite !andb_false_r; reflexivity).
    unfold left. cbn [is_done negb]. rewrite <- (others_len n i Hi). do 2 f_equal.
    induction (others n i) as [|y l IH]; cbn; congruence.
  - discriminate.
  - discriminate.
  - discriminate.
Qed.

Lemma steps_ok u32 k s s' : n <= u32 -> c_steps u32 k s s' ->
  (exists M C, sys_ok M C s) -> exists M C, sys_ok M C s'.
Proof.
  intros Hu H. induction H as [s|k s1 s2 s3 H1 H2 IH]; intros (M & C & S); [eauto|].
  apply IH. destruct H1 as [j i x E|i x E|j E].
  - destruct (accept_ok _ _ _ _ _ _ _ S E) as (M' & ?). eauto.
  - eapply join_ok; eauto.
  - destruct (recv_ok _ _ _ _ _ S E) as (M' & ?). eauto.
Qed.

Lemma party_at M C s i : sys_ok M C s -> i < n -> exists p, nth_error (cs_parties s) i = Some p.
Proof.
  intros S Hi. destruct (nth_error (cs_parties s) i) eqn:E; eauto.
  apply nth_error_None in E. rewrite (so_len _ _ _ S) in E. lia.
Qed.

Lemma others_nth i j : i < n -> j < n -> i <> j -> exists k, nth_error (others n i) k = Some j.
Proof. intros Hi Hj Hij. apply In_nth_error, others_in. auto. Qed.

Lemma progress_busy u32 M C s i j : sys_ok M C s -> i < n -> j < n -> i <> j ->
  is_busy (M i j) = true -> exists s', c_step u32 s s'.
Proof.
  intros S Hi Hj Hij Hb.
  destruct (party_at _ _ _ i S Hi) as (pi & Ei). destruct (party_at _ _ _ j S Hj) as (pj & Ej).
  pose proof (so_party _ _ _ S _ _ Ei) as Pi. pose proof (so_party _ _ _ S _ _ Ej) as Pj.
  destruct (po_busy _ _ _ _ Pj i Hi Hij Hb) as (k & Hcur).
  destruct (po_cur _ _ _ _ Pj _ _ Hcur) as (_ & Hk & _).
  assert (Ek : nth_error (cp_conns pi) k = Some (j, nth j addrs 0, M i j)).
  { rewrite (po_conns _ _ _ _ Pi), nth_error_map, Hk. reflexivity. }
  destruct (M i j) eqn:EM; try discriminate.
  - eexists. apply (cs_join _ _ _ i k). unfold c_join. rewrite Ei. cbn [obind]. rewrite Ek. reflexivity.
  - assert (Hp : 0 < left M j) by (apply (left_pos M i j); auto; rewrite EM; reflexivity).
    destruct (left M j) as [|m] eqn:El; [lia|].
    eexists. apply (cs_recv _ _ _ j). unfold c_recv. rewrite Ej. cbn [obind]. rewrite Hcur. cbn [obind].
    rewrite (po_listen _ _ _ _ Pj), El. cbn [obind]. rewrite Ei. cbn [obind]. rewrite Ek.
    rewrite upd_nth_error_other by auto. rewrite Ei. cbn [obind]. reflexivity.
Qed.

Lemma progress u32 M C s i j : sys_ok M C s -> i < n -> j < n -> i <> j -> is_done (M i j) = false ->
  exists s', c_step u32 s s'.
Proof.
  intros S Hi Hj Hij Hd.
  destruct (is_busy (M i j)) eqn:Hb; [exact (progress_busy u32 M C s i j S Hi Hj Hij Hb)|].
  assert (EM : M i j = CWaiting).
  { revert Hb Hd. destruct (M i j); cbn; congruence. }
  destruct (party_at _ _ _ i S Hi) as (pi & Ei). destruct (party_at _ _ _ j S Hj) as (pj & Ej).
  pose proof (so_party _ _ _ S _ _ Ei) as Pi. pose proof (so_party _ _ _ S _ _ Ej) as Pj.
  destruct (cp_cur pj) as [[i' k']|] eqn:Hcur.
  - destruct (po_cur _ _ _ _ Pj _ _ Hcur) as (Hi' & Hk & Hb').
    pose proof (nth_error_In _ _ Hk) as Hin. apply others_in in Hin.
    apply (progress_busy u32 M C s i' j); auto. intuition.
  - destruct (others_nth i j Hi Hj Hij) as (k & Hk).
    assert (Ek : nth_error (cp_conns pi) k = Some (j, nth j addrs 0, M i j)).
    { rewrite (po_conns _ _ _ _ Pi), nth_error_map, Hk. reflexivity. }
    assert (Hp : 0 < left M j) by (apply (left_pos M i j); auto).
    destruct (left M j) as [|m] eqn:El; [lia|].
    eexists. apply (cs_accept _ _ _ j i k). unfold c_accept. rewrite Ej. cbn [obind].
    rewrite (so_addrs _ _ _ S), (nth_error_nth' addrs 0 Hj). cbn [obind].
    rewrite (po_listen _ _ _ _ Pj), Hcur, El. cbn [oassert obind].
    rewrite Ei. cbn [obind]. rewrite Ek, EM, Nat.eqb_refl.
    rewrite upd_nth_error_other by auto. rewrite Ei. cbn [obind]. reflexivity.
Qed.

Lemma left_zero M j : left M j = 0 -> forall i, i < n -> i <> j -> is_done (M i j) = true.
Proof.
  intros H i Hi Hij. destruct (is_done (M i j)) eqn:E; auto.
  pose proof (left_pos M i j Hi Hij E). lia.
Qed.

Lemma left_all M j : (forall i, i < n -> i <> j -> is_done (M i j) = true) -> left M j = 0.
Proof.
  intros H. unfold left. assert (G : forall l, (forall i, In i l -> is_done (M i j) = true) ->
    filter (fun i => negb (is_done (M i j))) l = []).
  { induction l as [|x l IH]; intros Hl; [reflexivity|]. cbn. rewrite (Hl x) by (left; auto). cbn. apply IH.
    intros; apply Hl; right; auto. }
  rewrite G; [reflexivity|]. intros i Hi. apply others_in in Hi. apply H; tauto.
Qed.

Lemma all_done_or M : (forall i j, i < n -> j < n -> i <> j -> is_done (M i j) = true) \/
  (exists i j, i < n /\ j < n /\ i <> j /\ is_done (M i j) = false).
Proof.
  set (ok i j := (i =? j) || is_done (M i j)).
  destruct (forallb (fun i => forallb (ok i) (seq 0 n)) (seq 0 n)) eqn:E.
  - left. intros i j Hi Hj Hij. rewrite forallb_forall in E. specialize (E i ltac:(apply in_seq; lia)).
    rewrite forallb_forall in E. specialize (E j ltac:(apply in_seq; lia)). unfold ok in E.
    apply orb_true_iff in E. destruct E as [E|E]; auto. apply Nat.eqb_eq in E. contradiction.
  - right. destruct (existsb (fun i => existsb (fun j => negb (ok i j)) (seq 0 n)) (seq 0 n)) eqn:E'.
    + apply existsb_exists in E'. destruct E' as (i & Hi & E'). apply existsb_exists in E'. destruct E' as (j & Hj & E').
      apply in_seq in Hi, Hj. exists i, j. unfold ok in E'. apply negb_true_iff, orb_false_iff in E'.
      destruct E' as [A B]. apply Nat.eqb_neq in A. repeat split; auto; lia.
    + exfalso. assert (F : forallb (fun i => forallb (ok i) (seq 0 n)) (seq 0 n) = true); [|congruence].
      apply forallb_forall. intros i Hi. apply forallb_forall. intros j Hj.
      destruct (ok i j) eqn:F; auto. assert (G : existsb (fun i => existsb (fun j => negb (ok i j)) (seq 0 n)) (seq 0 n) = true); [|congruence].
      apply existsb_exists. exists i. split; auto. apply existsb_exists. exists j. rewrite F. auto.
Qed.

End Inv.

(** ** Length of executions *)

Definition rank (s : cstage) : nat := match s with CWaiting => 3 | CAccepted => 2 | CSent _ => 1 | CDone => 0 end.
Definition prank (p : cparty) : nat := sum_list (map (fun c => rank (snd c)) (cp_conns p)).
Definition srank (s : csys) : nat := sum_list (map prank (cs_parties s)).

Lemma sum_map_upd {A} (f : A -> nat) l i x y : nth_error l i = Some x ->
  sum_list (map f (upd i y l)) + f x = sum_list (map f l) + f y.
Proof.
  revert i. induction l as [|a l IH]; intros [|i] E; try discriminate; cbn [nth_error upd map] in *.
  - injection E as ->. change (f y + sum_list (map f l) + f x = f x + sum_list (map f l) + f y). lia.
  - specialize (IH i E). change (f a + sum_list (map f (upd i y l)) + f x = f a + sum_list (map f l) + f y). lia.
Qed.

Lemma prank_set k st p id a st0 : nth_error (cp_conns p) k = Some (id, a, st0) ->
  prank (set_stage k st p) + rank st0 = prank p + rank st.
Proof.
  intros E. unfold prank, set_stage. cbn [cp_conns]. rewrite E.
  apply (sum_map_upd (fun c => rank (snd c)) (cp_conns p) k (id, a, st0) (id, a, st) E).
Qed.

Lemma step_rank u32 s s' : c_step u32 s s' -> srank s = S (srank s').
Proof.
  intros [j i k E|i k E|j E].
  - unfold c_accept in E.
    destruct (nth_error (cs_parties s) j) as [pj|] eqn:Ej; cbn [obind] in E; [|discriminate].
    destruct (nth_error (cs_addrs s) j) as [aj|]; cbn [obind] in E; [|discriminate].
    destruct (match cp_listen pj with LWait (S _) => true | _ => false end); cbn [oassert obind] in E; [|discriminate].
    destruct (cp_cur pj); cbn [oassert obind] in E; [discriminate|].
    destruct (nth_error (cs_parties s) i) as [pi|] eqn:Ei; cbn [obind] in E; [|discriminate].
    destruct (nth_error (cp_conns pi) k) as [[[id a] st]|] eqn:Ek; [|discriminate].
    destruct st; try discriminate. destruct (a =? aj); [|discriminate].
    set (q := CP _ _ _ _ _ _) in E.
    destruct (nth_error (upd j q (cs_parties s)) i) as [pi'|] eqn:Ei'; cbn [obind] in E; [|discriminate].
    injection E as <-. unfold srank. cbn [cs_parties].
    assert (Hc : cp_conns pi' = cp_conns pi).
    { rewrite nth_error_upd in Ei'. destruct (Nat.eqb_spec i j) as [->|]; cbn [andb] in Ei'; [|congruence].
      destruct (j <? length (cs_parties s)); [|congruence]. injection Ei' as <-. unfold q. cbn. congruence. }
    pose proof (sum_map_upd prank _ _ _ q Ej) as H1.
    pose proof (sum_map_upd prank _ _ _ (set_stage k CAccepted pi') Ei') as H2.
    rewrite <- Hc in Ek. pose proof (prank_set k CAccepted pi' _ _ _ Ek) as H3. cbn [rank] in H3.
    assert (prank q = prank pj) by reflexivity. lia.
  - unfold c_join in E.
    destruct (nth_error (cs_parties s) i) as [pi|] eqn:Ei; cbn [obind] in E; [|discriminate].
    destruct (nth_error (cp_conns pi) k) as [[[id a] st]|] eqn:Ek; [|discriminate].
    destruct st; try discriminate. injection E as <-. unfold srank. cbn [cs_parties].
    set (q := CP _ _ _ _ _ _).
    pose proof (sum_map_upd prank _ _ _ q Ei) as H1.
    pose proof (prank_set k (CSent (cs_next s)) pi _ _ _ Ek) as H3. cbn [rank] in H3.
    assert (prank q = prank (set_stage k (CSent (cs_next s)) pi)) by reflexivity. lia.
  - unfold c_recv in E.
    destruct (nth_error (cs_parties s) j) as [pj|] eqn:Ej; cbn [obind] in E; [|discriminate].
    destruct (cp_cur pj) as [[i k]|]; cbn [obind] in E; [|discriminate].
    destruct (match cp_listen pj with LWait (S m) => Some m | _ => None end); cbn [obind] in E; [|discriminate].
    destruct (nth_error (cs_parties s) i) as [pi|] eqn:Ei; cbn [obind] in E; [|discriminate].
    destruct (nth_error (cp_conns pi) k) as [[[id a] st]|] eqn:Ek; [|discriminate].
    destruct st as [| |ch|]; try discriminate.
    set (q := CP _ _ _ _ _ _) in E.
    destruct (nth_error (upd j q (cs_parties s)) i) as [pi'|] eqn:Ei'; cbn [obind] in E; [|discriminate].
    injection E as <-. unfold srank. cbn [cs_parties].
    assert (Hc : cp_conns pi' = cp_conns pi).
    { rewrite nth_error_upd in Ei'. destruct (Nat.eqb_spec i j) as [->|]; cbn [andb] in Ei'; [|congruence].
      destruct (j <? length (cs_parties s)); [|congruence]. injection Ei' as <-. unfold q. cbn. congruence. }
    pose proof (sum_map_upd prank _ _ _ q Ej) as H1.
    pose proof (sum_map_upd prank _ _ _ (set_stage k CDone pi') Ei') as H2.
    rewrite <- Hc in Ek. pose proof (prank_set k CDone pi' _ _ _ Ek) as H3. cbn [rank] in H3.
    assert (prank q = prank pj) by reflexivity. lia.
Qed.

Lemma steps_rank u32 k s s' : c_steps u32 k s s' -> srank s = k + srank s'.
Proof.
  intros H. induction H as [|k s1 s2 s3 H1 H2 IH]; [reflexivity|].
  rewrite (step_rank _ _ _ H1), IH. lia.
Qed.

Lemma sum_const {A} (f : A -> nat) c l : (forall x, In x l -> f x = c) -> sum_list (map f l) = length l * c.
Proof.
  induction l as [|a l IH]; intros H; [reflexivity|].
  change (f a + sum_list (map f l) = c + length l * c). rewrite H, IH; auto; [|left; auto].
  intros; apply H; right; auto.
Qed.

Lemma start_rank u32 addrs s0 : NoDup addrs -> length addrs <= u32 ->
  connect_all u32 (map (fun a => (a, addrs)) addrs) = Some s0 ->
  srank s0 = 3 * (length addrs * (length addrs - 1)).
Proof.
  intros N Hu E. rewrite (connect_all_ok u32 addrs N Hu) in E. injection E as <-.
  unfold srank. cbn [cs_parties]. rewrite map_map.
  rewrite (sum_const _ (3 * (length addrs - 1))); [rewrite seq_length; lia|].
  intros i Hi. apply in_seq in Hi. unfold prank. cbn [cp_conns]. rewrite map_map.
  rewrite (sum_const _ 3); [rewrite others_len by lia; lia|]. reflexivity.
Qed.

(** ** Running a given schedule *)

Inductive csched := SA (j i k : nat) | SJ (i k : nat) | SR (j : nat).

Definition sched_step (u32 : nat) (c : csched) (s : csys) : option csys :=
  match c with SA j i k => c_accept j i k s | SJ i k => c_join u32 i k s | SR j => c_recv j s end.

Fixpoint run_sched (u32 : nat) (l : list csched) (s : csys) : option csys :=
  match l with [] => Some s | c :: r => s' <- sched_step u32 c s ;; run_sched u32 r s' end.

Lemma run_sched_steps u32 l : forall s s', run_sched u32 l s = Some s' -> c_steps u32 (length l) s s'.
Proof.
  induction l as [|c l IH]; intros s s' E; cbn [run_sched length] in *.
  - injection E as <-. constructor.
  - destruct (sched_step u32 c s) as [s1|] eqn:E1; cbn [obind] in E; [|discriminate].
    econstructor; [|apply IH; exact E].
    destruct c; cbn in E1; [eapply cs_accept|eapply cs_join|eapply cs_recv]; exact E1.
Qed.
