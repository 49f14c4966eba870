(** Lemmas for sub-channels. *)
From Coq Require Import List Bool Arith Lia Permutation.
Require Import Verif.Prelude Verif.SubChanModel Verif.SubChanSpec.
Import ListNotations.

(** ** Progress lists *)

Lemma cur_get_set c j x k : cur_get (cur_set c j x) k =
  if k =? j then match cur_get c k with Some _ => Some x | None => None end else cur_get c k.
Proof.
  induction c as [|[a y] c IH]; cbn [cur_set map cur_get fst]; [destruct (k =? j); reflexivity|].
  fold (cur_set c j x). destruct (Nat.eqb_spec a j) as [->|N]; cbn [cur_get].
  - destruct (Nat.eqb_spec j k) as [->|N']; [rewrite Nat.eqb_refl; reflexivity|]. rewrite IH. destruct (Nat.eqb_spec k j); congruence.
  - destruct (Nat.eqb_spec a k) as [->|N']; [destruct (Nat.eqb_spec k j); congruence|]. exact IH.
Qed.

Lemma cur_set_keys c j x : map fst (cur_set c j x) = map fst c.
Proof. unfold cur_set. rewrite map_map. apply map_ext. intros [a y]. cbn. destruct (a =? j); reflexivity. Qed.

Lemma cur_get_In c j x : cur_get c j = Some x -> In (j, x) c.
Proof.
  induction c as [|[a y] c IH]; cbn; [discriminate|]. destruct (Nat.eqb_spec a j) as [->|]; [intros [= ->]; auto|auto].
Qed.

Lemma cur_get_start rs j : cur_get (start_round rs) j =
  match rs with r :: _ => if existsb (Nat.eqb j) (rd_peers r) then Some PStart else None | [] => None end.
Proof.
  destruct rs as [|r rs]; [reflexivity|]. cbn. induction (rd_peers r) as [|a l IH]; [reflexivity|]. cbn.
  rewrite Nat.eqb_sym. destruct (j =? a); [reflexivity|]. exact IH.
Qed.

Lemma start_keys rs : map fst (start_round rs) = match rs with r :: _ => rd_peers r | [] => [] end.
Proof. destruct rs as [|r rs]; [reflexivity|]. cbn. rewrite map_map. apply map_id. Qed.

Lemma with_peer_app j a b : with_peer j (a ++ b) = with_peer j a ++ with_peer j b.
Proof. apply filter_app. Qed.

(** ** Views of a state *)

(** What [i] has sent to [j]. *)
Definition SENT (s : sys) (i j : pid) := sent (sy_party s i) j.
(** What [i] has got from [j]. *)
Definition GOT (s : sys) (i j : pid) := map e_got (with_peer j (pt_log (sy_party s i))).
Definition RUN (s : sys) (i : pid) := pt_status (sy_party s i) = SRun.
Definition CLOSED (s : sys) (i : pid) := exists g, pt_status (sy_party s i) = SClosed g.

(** [x] added at position [(i, j)] only. *)
Definition at2 {A} (i j a b : pid) (x : list A) : list A := if (a =? i) && (b =? j) then x else [].

Lemma send_views cap s i j s' : do_send cap s i j = Some s' ->
  exists r rs m, pt_rounds (sy_party s i) = r :: rs /\ RUN s i /\ cur_get (pt_cur (sy_party s i)) j = Some PStart
    /\ True /\ length (sy_queue s i j) < cap
    /\ m = msg_of (rd_what r) (sy_next s) /\ sy_next s' = sy_next s + 1
    /\ sy_party s' = set_party (sy_party s) i {| pt_rounds := pt_rounds (sy_party s i);
          pt_cur := cur_set (pt_cur (sy_party s i)) j (PSent m); pt_log := pt_log (sy_party s i); pt_status := SRun |}
    /\ sy_queue s' = set_queue (sy_queue s) i j (sy_queue s i j ++ [m]).
Proof.
  unfold do_send, RUN. intros E.
  destruct (pt_status (sy_party s i)) eqn:ES; try discriminate.
  destruct (pt_rounds (sy_party s i)) as [|r rs] eqn:ER; try discriminate.
  destruct (cur_get (pt_cur (sy_party s i)) j) as [[]|] eqn:EC; try discriminate.
  unfold oassert in E. destruct (Nat.ltb_spec (length (sy_queue s i j)) cap); [|discriminate].
  cbn [obind] in E. injection E as <-. exists r, rs, (msg_of (rd_what r) (sy_next s)). repeat split; auto.
Qed.

Lemma fail_views s i j s' : do_send_fails s i j = Some s' ->
  CLOSED s j /\ RUN s i /\ s' = {| sy_party := set_party (sy_party s) i (fail (sy_party s i)); sy_queue := sy_queue s; sy_next := sy_next s |}.
Proof.
  unfold do_send_fails, RUN, CLOSED. intros E.
  destruct (pt_status (sy_party s i)) eqn:ES; try discriminate.
  destruct (pt_rounds (sy_party s i)) as [|r rs] eqn:ER; try discriminate.
  destruct (cur_get (pt_cur (sy_party s i)) j) as [[]|] eqn:EC; try discriminate.
  destruct (pt_status (sy_party s j)) as [| |g] eqn:EJ; try discriminate.
  injection E as <-. repeat split; auto. exists g. reflexivity.
Qed.

Lemma recv_views s i j s' : do_recv s i j = Some s' ->
  exists r rs own, pt_rounds (sy_party s i) = r :: rs /\ RUN s i /\ cur_get (pt_cur (sy_party s i)) j = Some (PSent own)
    /\ sy_next s' = sy_next s
    /\ ((exists m q, sy_queue s j i = m :: q /\ sy_queue s' = set_queue (sy_queue s) j i q
          /\ sy_party s' = set_party (sy_party s) i
               (if accepts (rd_what r) m then complete (sy_party s i) j (rd_what r) own (Some m) else fail (sy_party s i)))
        \/ (sy_queue s j i = [] /\ CLOSED s j /\ sy_queue s' = sy_queue s
            /\ exists g, sy_party s' = set_party (sy_party s) i
               (if ignores (rd_what r) g then complete (sy_party s i) j (rd_what r) own None else fail (sy_party s i)))).
Proof.
  unfold do_recv, RUN, CLOSED. intros E.
  destruct (pt_status (sy_party s i)) eqn:ES; try discriminate.
  destruct (pt_rounds (sy_party s i)) as [|r rs] eqn:ER; try discriminate.
  destruct (cur_get (pt_cur (sy_party s i)) j) as [[]|] eqn:EC; try discriminate.
  exists r, rs, m. destruct (sy_queue s j i) as [|x q] eqn:EQ.
  - destruct (pt_status (sy_party s j)) as [| |g] eqn:EJ; try discriminate. injection E as <-.
    repeat split; auto. right. split; auto. split; [exists g; reflexivity|]. split; auto. exists g. reflexivity.
  - injection E as <-. repeat split; auto. left. exists x, q. auto.
Qed.

Lemma next_views s i s' : do_next s i = Some s' ->
  exists r rs, pt_rounds (sy_party s i) = r :: rs /\ RUN s i
    /\ forallb (fun e => is_done (snd e)) (pt_cur (sy_party s i)) = true
    /\ sy_next s' = sy_next s /\ sy_queue s' = sy_queue s
    /\ sy_party s' = set_party (sy_party s) i {| pt_rounds := rs; pt_cur := start_round rs; pt_log := pt_log (sy_party s i); pt_status := SRun |}.
Proof.
  unfold do_next, RUN, oassert. intros E.
  destruct (pt_status (sy_party s i)) eqn:ES; try discriminate.
  destruct (pt_rounds (sy_party s i)) as [|r rs] eqn:ER; try discriminate.
  destruct (forallb _ _) eqn:EF; try discriminate. cbn [obind] in E. injection E as <-. exists r, rs. auto 10.
Qed.

(** ** Safety *)

(** Facts about one party. *)
Record party_ok (p : party) : Prop := {
  po_keys : NoDup (map fst (pt_cur p));
  po_rounds : Forall (fun r => NoDup (rd_peers r)) (pt_rounds p);
  po_empty : pt_rounds p = [] -> pt_cur p = [];
  po_pend : forall r rs j m, pt_rounds p = r :: rs -> cur_get (pt_cur p) j = Some (PSent m) -> exists id, m = msg_of (rd_what r) id;
  po_log : forall e, In e (pt_log p) -> (exists id, e_own e = msg_of (e_what e) id) /\ (forall x, e_got e = Some x -> accepts (e_what e) x = true) }.

(** What [i] has from [j] is a prefix of what [j] has sent to [i]. *)
Definition pair_ok (s : sys) (i j : pid) : Prop :=
  exists a b r, GOT s i j = map Some a ++ repeat None b
    /\ SENT s j i = a ++ r
    /\ (RUN s i -> exists r', r = sy_queue s j i ++ r' /\ (CLOSED s j \/ r' = []))
    /\ (b <> 0 -> CLOSED s j /\ (RUN s i -> sy_queue s j i = [])).

Definition safe (s : sys) : Prop := (forall i, party_ok (sy_party s i)) /\ (forall i j, pair_ok s i j).

Lemma party_new rs : Forall (fun r => NoDup (rd_peers r)) rs -> forall log st,
  (forall e, In e log -> (exists id, e_own e = msg_of (e_what e) id) /\ (forall x, e_got e = Some x -> accepts (e_what e) x = true)) ->
  party_ok {| pt_rounds := rs; pt_cur := start_round rs; pt_log := log; pt_status := st |}.
Proof.
  intros F log st HL. split; cbn [pt_rounds pt_cur pt_log]; auto.
  - rewrite start_keys. destruct F; auto. constructor.
  - intros ->. reflexivity.
  - intros r rs' j m -> E. rewrite cur_get_start in E. destruct (existsb _ _); discriminate.
Qed.

Lemma safe_start progs : peers_ok progs -> safe (start progs).
Proof.
  intros W. split.
  - intros i. apply party_new; [|intros e []]. apply Forall_forall. intros r Hr. exact (W i r Hr).
  - intros i j. exists [], 0, []. unfold GOT, SENT, RUN. cbn. repeat split; auto; try congruence.
    + unfold sent, pending. cbn. rewrite cur_get_start. destruct (progs j); [reflexivity|]. destruct (existsb _ _); reflexivity.
    + exists []. auto.
Qed.

(** The views when one party changes. *)
Lemma set_party_same f i p : set_party f i p i = p.
Proof. unfold set_party. now rewrite Nat.eqb_refl. Qed.
Lemma set_party_other f i p j : j <> i -> set_party f i p j = f j.
Proof. unfold set_party. intros H. apply Nat.eqb_neq in H. now rewrite H. Qed.

Lemma sent_complete p j w own got k : cur_get (pt_cur p) j = Some (PSent own) ->
  sent (complete p j w own got) k = sent p k.
Proof.
  intros E. unfold sent, pending, complete. cbn [pt_log pt_cur]. rewrite with_peer_app, map_app, cur_get_set.
  cbn [with_peer filter e_peer]. rewrite (Nat.eqb_sym j k). destruct (Nat.eqb_spec k j) as [->|N].
  - rewrite E. cbn. now rewrite app_nil_r.
  - cbn. now rewrite app_nil_r.
Qed.

Lemma sent_cur_sent p j m k st : cur_get (pt_cur p) j = Some PStart ->
  sent {| pt_rounds := pt_rounds p; pt_cur := cur_set (pt_cur p) j (PSent m); pt_log := pt_log p; pt_status := st |} k
  = sent p k ++ (if k =? j then [m] else []).
Proof.
  intros E. unfold sent, pending. cbn [pt_log pt_cur]. rewrite cur_get_set.
  destruct (Nat.eqb_spec k j) as [->|N]; [rewrite E; now rewrite app_nil_r|]. now rewrite app_nil_r.
Qed.

Lemma sent_next p rs st k : forallb (fun e => is_done (snd e)) (pt_cur p) = true ->
  sent {| pt_rounds := rs; pt_cur := start_round rs; pt_log := pt_log p; pt_status := st |} k = sent p k.
Proof.
  intros F. unfold sent, pending. cbn [pt_log pt_cur]. f_equal. rewrite cur_get_start.
  transitivity (@nil msg).
  - destruct rs as [|r rs]; [reflexivity|]. destruct (existsb _ _); reflexivity.
  - destruct (cur_get (pt_cur p) k) as [[]|] eqn:E; auto. apply cur_get_In in E. rewrite forallb_forall in F. discriminate (F _ E).
Qed.

Lemma pair_mono s s' i j :
  GOT s' i j = GOT s i j -> SENT s' j i = SENT s j i -> sy_queue s' j i = sy_queue s j i ->
  (RUN s' i -> RUN s i) -> (CLOSED s j -> CLOSED s' j) -> pair_ok s i j -> pair_ok s' i j.
Proof.
  intros E1 E2 E3 HR HC (a & b & r & H1 & H2 & H3 & H4). exists a, b, r. rewrite E1, E2, E3.
  split; auto. split; auto. split.
  - intros R. destruct (H3 (HR R)) as (r' & Q & [C|C]); exists r'; auto.
  - intros B. destruct (H4 B) as [C Q]. auto.
Qed.

Ltac pid_cases a i := destruct (Nat.eq_dec a i) as [->|?];
  [rewrite ?set_party_same in *|rewrite ?set_party_other in * by auto].

Lemma step_party_ok cap s a s' : step cap s a = Some s' -> (forall i, party_ok (sy_party s i)) -> forall k, party_ok (sy_party s' k).
Proof.
  intros E H k. destruct a as [i j|i j|i j|i|i g cuts]; cbn [step] in E.
  - apply send_views in E. destruct E as (r & rs & m & E1 & E2 & E3 & E4 & E5 & E6 & E7 & E8 & E9).
    + rewrite E8. pid_cases k i; auto. destruct (H i) as [P1 P2 P3 P4 P5]. split; cbn [pt_cur pt_rounds pt_log]; auto.
      * rewrite cur_set_keys. auto.
      * intros F. rewrite F in E1. discriminate.
      * intros r0 rs0 j0 m0 F G. rewrite E1 in F. injection F as <- <-. rewrite cur_get_set in G.
        destruct (j0 =? j).
        -- destruct (cur_get (pt_cur (sy_party s i)) j0); [|discriminate]. injection G as <-. subst m. eexists. reflexivity.
        -- eapply P4; eauto.
  - apply fail_views in E. destruct E as (E1 & E2 & ->).
    + cbn [sy_party]. pid_cases k i; auto. destruct (H i) as [P1 P2 P3 P4 P5]. split; auto.
  - apply recv_views in E. destruct E as (r & rs & own & E1 & E2 & E3 & E4 & D).
    assert (G : forall got, (forall x, got = Some x -> accepts (rd_what r) x = true) -> party_ok (complete (sy_party s i) j (rd_what r) own got)).
    { intros got HG. destruct (H i) as [P1 P2 P3 P4 P5]. split; cbn [complete pt_cur pt_rounds pt_log]; auto.
      - rewrite cur_set_keys. auto.
      - intros F. rewrite F in E1. discriminate.
      - intros r0 rs0 j0 m0 F G. rewrite cur_get_set in G. destruct (j0 =? j).
        + destruct (cur_get (pt_cur (sy_party s i)) j0); discriminate.
        + eapply P4; eauto.
      - intros e He. apply in_app_or in He. destruct He as [He|[<-|[]]]; [auto|]. cbn [e_own e_what e_got]. split; auto.
        eapply P4; eauto. }
    assert (F : party_ok (fail (sy_party s i))) by (destruct (H i) as [P1 P2 P3 P4 P5]; split; auto).
    destruct D as [(m & q & D1 & D2 & D3)|(D1 & D2 & D3 & g & D4)].
    + rewrite D3. pid_cases k i; auto. destruct (accepts (rd_what r) m) eqn:EA; auto. apply G. intros x [= <-]. auto.
    + rewrite D4. pid_cases k i; auto. destruct (ignores (rd_what r) g); auto. apply G. discriminate.
  - apply next_views in E. destruct E as (r & rs & E1 & E2 & E3 & E4 & E5 & E6). rewrite E6. pid_cases k i; auto.
    destruct (H i) as [P1 P2 P3 P4 P5]. apply party_new; auto. rewrite E1 in P2. inversion P2; auto.
  - unfold do_close in E. assert (G : forall g, party_ok {| pt_rounds := pt_rounds (sy_party s i); pt_cur := pt_cur (sy_party s i); pt_log := pt_log (sy_party s i); pt_status := SClosed g |}).
    { intros g'. destruct (H i) as [P1 P2 P3 P4 P5]. split; auto. }
    destruct (pt_status (sy_party s i)); try discriminate; injection E as <-; cbn [sy_party]; pid_cases k i; auto.
Qed.

Lemma repeat_snoc {A} (x : A) n : repeat x n ++ [x] = repeat x (S n).
Proof. induction n; cbn; [reflexivity|]. now rewrite IHn. Qed.

Lemma step_pair_ok cap s a s' : step cap s a = Some s' -> (forall i, party_ok (sy_party s i)) ->
  (forall i j, pair_ok s i j) -> forall x y, pair_ok s' x y.
Proof.
  intros E PO H x y. destruct a as [i j|i j|i j|i|i g cuts]; cbn [step] in E.
  - apply send_views in E. destruct E as (r & rs & m & E1 & E2 & E3 & E4 & E5 & E6 & E7 & E8 & E9).
    + assert (VS : SENT s' y x = SENT s y x ++ (if (y =? i) && (x =? j) then [m] else [])).
      { unfold SENT. rewrite E8. pid_cases y i.
        - rewrite Nat.eqb_refl. cbn [andb]. apply (sent_cur_sent (sy_party s i)). auto.
        - destruct (Nat.eqb_spec y i); [contradiction|]. now rewrite app_nil_r. }
      assert (VG : GOT s' x y = GOT s x y) by (unfold GOT; rewrite E8; pid_cases x i; reflexivity).
      assert (VQ : sy_queue s' y x = sy_queue s y x ++ (if (y =? i) && (x =? j) then [m] else [])).
      { rewrite E9. unfold set_queue. destruct ((y =? i) && (x =? j)) eqn:EB; [|now rewrite app_nil_r].
        apply andb_true_iff in EB. destruct EB as [B1 B2]. apply Nat.eqb_eq in B1, B2. subst. reflexivity. }
      assert (VR : RUN s' x <-> RUN s x) by (unfold RUN in *; rewrite E8; pid_cases x i; [cbn; rewrite E2; tauto|tauto]).
      assert (VC : CLOSED s' y <-> CLOSED s y).
      { unfold CLOSED, RUN in *. rewrite E8. pid_cases y i; [|tauto]. cbn. rewrite E2. split; intros [? ?]; discriminate. }
      destruct (H x y) as (a0 & b0 & r0 & H1 & H2 & H3 & H4).
      exists a0, b0, (r0 ++ if (y =? i) && (x =? j) then [m] else []). rewrite VG, VS, VQ, H2, <- app_assoc.
      split; auto. split; auto. destruct ((y =? i) && (x =? j)) eqn:EB.
      * apply andb_true_iff in EB. destruct EB as [B1 B2]. apply Nat.eqb_eq in B1, B2. subst y x.
        assert (NC : ~ CLOSED s i) by (intros [g Hg]; unfold RUN in E2; congruence).
        split.
        -- intros R. apply VR in R. destruct (H3 R) as (r' & -> & [C|C]); [tauto|]. subst r'. exists []. rewrite !app_nil_r. auto.
        -- intros B. destruct (H4 B) as [C _]. tauto.
      * rewrite !app_nil_r. split.
        -- intros R. apply VR in R. destruct (H3 R) as (r' & -> & [C|C]); exists r'; split; auto. left. apply VC. auto.
        -- intros B. destruct (H4 B) as [C Q]. split; [apply VC; auto|]. intros R. apply Q, VR, R.
  - apply fail_views in E. destruct E as (E1 & E2 & ->).
    + eapply pair_mono; [..|apply (H x y)]; auto.
      * unfold GOT. cbn [sy_party]. pid_cases x i; reflexivity.
      * unfold SENT. cbn [sy_party]. pid_cases y i; reflexivity.
      * unfold RUN. cbn [sy_party]. pid_cases x i; [discriminate|auto].
      * unfold CLOSED, RUN in *. cbn [sy_party]. pid_cases y i; [intros [? ?]; congruence|auto].
  - apply recv_views in E. destruct E as (r & rs & own & E1 & E2 & E3 & E4 & D).
    destruct D as [(m & q & D1 & D2 & D3)|(D1 & D2 & D3 & g & D4)].
    + assert (VC : CLOSED s y -> CLOSED s' y).
      { unfold CLOSED, RUN in *. rewrite D3. pid_cases y i; [intros [? ?]; congruence|auto]. }
      assert (VS : SENT s' y x = SENT s y x).
      { unfold SENT. rewrite D3. pid_cases y i; [|reflexivity]. destruct (accepts (rd_what r) m); [apply sent_complete; auto|reflexivity]. }
      assert (VR : RUN s' x -> RUN s x) by (unfold RUN in *; rewrite D3; pid_cases x i; auto).
      destruct (Nat.eq_dec x i) as [->|NX]; [destruct (Nat.eq_dec y j) as [->|NY]|].
      * destruct (H i j) as (a0 & b0 & r0 & H1 & H2 & H3 & H4).
        assert (B0 : b0 = 0). { destruct b0; auto. destruct (H4 ltac:(discriminate)) as [_ Q]. rewrite (Q E2) in D1. discriminate. }
        destruct (H3 E2) as (r' & Hr & HC). rewrite D1 in Hr. subst r0 b0.
        destruct (accepts (rd_what r) m) eqn:EA.
        -- exists (a0 ++ [m]), 0, (q ++ r'). rewrite VS, H2, <- app_assoc. split; [|split; [reflexivity|split]].
           ++ unfold GOT in *. rewrite D3, set_party_same. cbn [complete pt_log]. rewrite with_peer_app, map_app, H1.
              cbn. rewrite Nat.eqb_refl. cbn. rewrite !app_nil_r, map_app. reflexivity.
           ++ intros _. exists r'. rewrite D2. unfold set_queue. rewrite !Nat.eqb_refl. cbn [andb]. split; auto.
              destruct HC; auto.
           ++ intros B. congruence.
        -- exists a0, 0, ((m :: q) ++ r'). rewrite VS, H2. split; [|split; [reflexivity|split]].
           ++ unfold GOT in *. rewrite D3, set_party_same. exact H1.
           ++ unfold RUN. rewrite D3, set_party_same. discriminate.
           ++ congruence.
      * eapply pair_mono; [..|apply (H i y)]; auto.
        -- unfold GOT. rewrite D3, set_party_same. destruct (accepts (rd_what r) m); [|reflexivity]. cbn [complete pt_log].
           rewrite with_peer_app. cbn. destruct (Nat.eqb_spec j y); [congruence|]. now rewrite app_nil_r.
        -- rewrite D2. unfold set_queue. destruct (Nat.eqb_spec y j); [congruence|]. reflexivity.
      * eapply pair_mono; [..|apply (H x y)]; auto.
        -- unfold GOT. rewrite D3, set_party_other by auto. reflexivity.
        -- rewrite D2. unfold set_queue. destruct (Nat.eqb_spec x i); [congruence|]. now rewrite andb_false_r.
    + assert (VC : CLOSED s y -> CLOSED s' y).
      { unfold CLOSED, RUN in *. rewrite D4. pid_cases y i; [intros [? ?]; congruence|auto]. }
      assert (VS : SENT s' y x = SENT s y x).
      { unfold SENT. rewrite D4. pid_cases y i; [|reflexivity]. destruct (ignores (rd_what r) g); [apply sent_complete; auto|reflexivity]. }
      assert (VR : RUN s' x -> RUN s x) by (unfold RUN in *; rewrite D4; pid_cases x i; auto).
      destruct (Nat.eq_dec x i) as [->|NX]; [destruct (Nat.eq_dec y j) as [->|NY]|].
      * destruct (ignores (rd_what r) g) eqn:EA.
        -- destruct (H i j) as (a0 & b0 & r0 & H1 & H2 & H3 & H4). exists a0, (S b0), r0. rewrite VS, D3, D1. split; [|split; [auto|split]].
           ++ unfold GOT in *. rewrite D4, set_party_same. cbn [complete pt_log]. rewrite with_peer_app, map_app, H1.
              cbn [with_peer filter e_peer]. rewrite Nat.eqb_refl. cbn [map e_got]. rewrite <- app_assoc, repeat_snoc. reflexivity.
           ++ intros _. exists r0. split; auto.
           ++ intros _. auto.
        -- eapply pair_mono; [..|apply (H i j)]; auto.
           ++ unfold GOT. rewrite D4, set_party_same. reflexivity.
           ++ rewrite D3. reflexivity.
      * eapply pair_mono; [..|apply (H i y)]; auto.
        -- unfold GOT. rewrite D4, set_party_same. destruct (ignores (rd_what r) g); [|reflexivity]. cbn [complete pt_log].
           rewrite with_peer_app. cbn. destruct (Nat.eqb_spec j y); [congruence|]. now rewrite app_nil_r.
        -- rewrite D3. reflexivity.
      * eapply pair_mono; [..|apply (H x y)]; auto.
        -- unfold GOT. rewrite D4, set_party_other by auto. reflexivity.
        -- rewrite D3. reflexivity.
  - apply next_views in E. destruct E as (r & rs & E1 & E2 & E3 & E4 & E5 & E6).
    eapply pair_mono; [..|apply (H x y)]; auto.
    + unfold GOT. rewrite E6. pid_cases x i; reflexivity.
    + unfold SENT. rewrite E6. pid_cases y i; [|reflexivity]. apply sent_next. auto.
    + rewrite E5. reflexivity.
    + unfold RUN in *. rewrite E6. pid_cases x i; auto.
    + unfold CLOSED, RUN in *. rewrite E6. pid_cases y i; [intros [? ?]; congruence|auto].
  - unfold do_close in E.
    assert (E' : s' = {| sy_party := set_party (sy_party s) i {| pt_rounds := pt_rounds (sy_party s i); pt_cur := pt_cur (sy_party s i); pt_log := pt_log (sy_party s i); pt_status := SClosed g |};
       sy_queue := fun a b => if a =? i then firstn (cuts b) (sy_queue s a b) else sy_queue s a b; sy_next := sy_next s |}).
    { destruct (pt_status (sy_party s i)); congruence. }
    clear E. subst s'.
    destruct (H x y) as (a0 & b0 & r0 & H1 & H2 & H3 & H4).
    set (s' := {| sy_party := _; sy_queue := _; sy_next := _ |}).
    assert (VG : GOT s' x y = GOT s x y) by (unfold GOT, s'; cbn [sy_party]; pid_cases x i; reflexivity).
    assert (VS : SENT s' y x = SENT s y x) by (unfold SENT, s'; cbn [sy_party]; pid_cases y i; reflexivity).
    assert (VR : RUN s' x -> RUN s x) by (unfold RUN, s'; cbn [sy_party]; pid_cases x i; [discriminate|auto]).
    assert (VC : CLOSED s y \/ y = i -> CLOSED s' y).
    { unfold CLOSED, s'. cbn [sy_party]. pid_cases y i; [intros _; exists g; reflexivity|]. intros [C|C]; [auto|congruence]. }
    exists a0, b0, r0. rewrite VG, VS. split; auto. split; auto.
    destruct (Nat.eqb_spec y i) as [->|NY].
    + split.
      * intros R. destruct (H3 (VR R)) as (r' & -> & C). exists (skipn (cuts x) (sy_queue s i x) ++ r').
        rewrite app_assoc. unfold s'. cbn [sy_queue]. rewrite Nat.eqb_refl, firstn_skipn. auto.
      * intros B. destruct (H4 B) as [C Q]. split; [apply VC; auto|]. intros R. unfold s'. cbn [sy_queue]. rewrite Nat.eqb_refl. rewrite (Q (VR R)). apply firstn_nil.
    + split.
      * intros R. destruct (H3 (VR R)) as (r' & -> & C). exists r'. unfold s'. cbn [sy_queue]. apply Nat.eqb_neq in NY. rewrite NY. split; [reflexivity|]. destruct C as [C|C]; [left; apply VC; auto|auto].
      * intros B. destruct (H4 B) as [C Q]. split; [apply VC; auto|]. intros R. unfold s'. cbn [sy_queue]. apply Nat.eqb_neq in NY. rewrite NY. auto.
Qed.

Lemma safe_step cap s a s' : step cap s a = Some s' -> safe s -> safe s'.
Proof. intros E [A B]. split; [eapply step_party_ok; eauto|eapply step_pair_ok; eauto]. Qed.

Lemma safe_steps cap l : forall s s', steps cap s l = Some s' -> safe s -> safe s'.
Proof.
  induction l as [|a l IH]; intros s s' E H; [injection E as <-; auto|].
  cbn [steps] in E. destruct (step cap s a) as [s1|] eqn:E1; [|discriminate]. cbn [obind] in E. eapply IH; eauto. eapply safe_step; eauto.
Qed.

(** ** Fresh channels *)

Definition pend_ids (c : list (pid * pc)) : list nat :=
  flat_map (fun e => match snd e with PSent m => chan_id m | _ => [] end) c.
Definition pc_ids (x : pc) : list nat := match x with PSent m => chan_id m | _ => [] end.

Lemma pend_set c j x y : NoDup (map fst c) -> cur_get c j = Some x ->
  Permutation (pc_ids x ++ pend_ids (cur_set c j y)) (pc_ids y ++ pend_ids c).
Proof.
  induction c as [|[a z] c IH]; intros N E; [discriminate|]. cbn [map fst] in N. inversion N as [|? ? N1 N2]; subst.
  cbn [cur_get] in E. destruct (Nat.eqb_spec a j) as [->|NE].
  - injection E as ->. assert (S : cur_set c j y = c).
    { unfold cur_set. rewrite <- (map_id c) at 2. apply map_ext_in. intros [b w] Hb. cbn. destruct (Nat.eqb_spec b j) as [->|]; [|reflexivity].
      exfalso. apply N1. apply (in_map fst) in Hb. exact Hb. }
    cbn [cur_set map fst]. rewrite Nat.eqb_refl. fold (cur_set c j y). rewrite S.
    change (pend_ids ((j, y) :: c)) with (pc_ids y ++ pend_ids c). change (pend_ids ((j, x) :: c)) with (pc_ids x ++ pend_ids c).
    rewrite !app_assoc. apply Permutation_app_tail, Permutation_app_comm.
  - cbn [cur_set map fst]. destruct (Nat.eqb_spec a j); [congruence|]. fold (cur_set c j y).
    change (pend_ids ((a, z) :: cur_set c j y)) with (pc_ids z ++ pend_ids (cur_set c j y)).
    change (pend_ids ((a, z) :: c)) with (pc_ids z ++ pend_ids c).
    rewrite (Permutation_app_swap_app (pc_ids x)), (Permutation_app_swap_app (pc_ids y)). apply Permutation_app_head. auto.
Qed.

Lemma created_eq p : created p = flat_map chan_id (map e_own (pt_log p)) ++ pend_ids (pt_cur p).
Proof. reflexivity. Qed.

Lemma pend_start rs : pend_ids (start_round rs) = [].
Proof. destruct rs as [|r rs]; [reflexivity|]. cbn. unfold pend_ids. induction (rd_peers r); auto. Qed.

Lemma pend_done c : forallb (fun e => is_done (snd e)) c = true -> pend_ids c = [].
Proof.
  induction c as [|[a x] c IH]; intros H; [reflexivity|]. cbn in H. apply andb_true_iff in H. destruct H as [H1 H2].
  change (pend_ids ((a, x) :: c)) with (pc_ids x ++ pend_ids c). rewrite IH by auto. destruct x; cbn in *; congruence.
Qed.

Lemma created_step cap s a s' : step cap s a = Some s' -> (forall i, party_ok (sy_party s i)) ->
  (exists i new, Permutation (created (sy_party s' i)) (new ++ created (sy_party s i))
     /\ (new = [] /\ sy_next s' = sy_next s \/ (new = [] \/ new = [sy_next s]) /\ sy_next s' = sy_next s + 1)
     /\ forall k, k <> i -> sy_party s' k = sy_party s k).
Proof.
  intros E PO. destruct a as [i j|i j|i j|i|i g cuts]; cbn [step] in E.
  - apply send_views in E. destruct E as (r & rs & m & E1 & E2 & E3 & E4 & E5 & E6 & E7 & E8 & E9).
    + exists i, (chan_id m). rewrite E8, set_party_same. split; [|split].
      * rewrite !created_eq. cbn [pt_log pt_cur]. pose proof (pend_set _ _ _ (PSent m) (po_keys _ (PO i)) E3) as P. cbn [pc_ids app] in P.
        rewrite P. apply Permutation_app_swap_app.
      * right. split; [|auto]. subst m. destruct (rd_what r); cbn; auto.
      * intros k Hk. apply set_party_other. auto.
  - apply fail_views in E. destruct E as (E1 & E2 & ->).
    + exists i, []. cbn [sy_party sy_next]. rewrite set_party_same. split; [reflexivity|split; [auto|]]. intros k Hk. apply set_party_other. auto.
  - apply recv_views in E. destruct E as (r & rs & own & E1 & E2 & E3 & E4 & D). exists i, [].
    assert (G : forall got, Permutation (created (complete (sy_party s i) j (rd_what r) own got)) (created (sy_party s i))).
    { intros got. rewrite !created_eq. cbn [complete pt_log pt_cur]. rewrite map_app, flat_map_app. cbn [map flat_map e_own]. rewrite app_nil_r.
      rewrite <- app_assoc. apply Permutation_app_head. pose proof (pend_set _ _ _ PDone (po_keys _ (PO i)) E3) as P. exact P. }
    assert (F : created (fail (sy_party s i)) = created (sy_party s i)) by reflexivity.
    destruct D as [(m & q & D1 & D2 & D3)|(D1 & D2 & D3 & g & D4)].
    + rewrite D3, set_party_same. split; [|split; [auto|intros k Hk; apply set_party_other; auto]].
      destruct (accepts (rd_what r) m); [apply G|rewrite F; reflexivity].
    + rewrite D4, set_party_same. split; [|split; [auto|intros k Hk; apply set_party_other; auto]].
      destruct (ignores (rd_what r) g); [apply G|rewrite F; reflexivity].
  - apply next_views in E. destruct E as (r & rs & E1 & E2 & E3 & E4 & E5 & E6). exists i, []. rewrite E6, set_party_same.
    split; [|split; [auto|intros k Hk; apply set_party_other; auto]]. rewrite !created_eq. cbn [pt_log pt_cur app].
    rewrite pend_start, (pend_done _ E3). reflexivity.
  - exists i, []. unfold do_close in E. destruct (pt_status (sy_party s i)); try discriminate; injection E as <-; cbn [sy_party sy_next]; rewrite set_party_same;
      (split; [reflexivity|split; [auto|intros k Hk; apply set_party_other; auto]]).
Qed.

(** All sub-channels are different. *)
Definition fresh (s : sys) : Prop :=
  (forall i, NoDup (created (sy_party s i)))
  /\ (forall i id, In id (created (sy_party s i)) -> id < sy_next s)
  /\ (forall i j id, In id (created (sy_party s i)) -> In id (created (sy_party s j)) -> i = j).

Lemma fresh_step cap s a s' : step cap s a = Some s' -> (forall i, party_ok (sy_party s i)) -> fresh s -> fresh s'.
Proof.
  intros E PO (F1 & F2 & F3). destruct (created_step cap s a s' E PO) as (i & new & P & HN & O).
  assert (LN : sy_next s <= sy_next s') by lia.
  assert (IN : forall id, In id (created (sy_party s' i)) -> (In id new /\ id = sy_next s /\ sy_next s' = sy_next s + 1) \/ In id (created (sy_party s i))).
  { intros id H. apply (Permutation_in _ P) in H. apply in_app_or in H. destruct H as [H|H]; auto. left.
    destruct HN as [[-> _]|[[->| ->] HN]]; [destruct H|destruct H|]. destruct H as [<-|[]]. split; [left; reflexivity|auto]. }
  assert (LT : forall k id, In id (created (sy_party s' k)) -> id < sy_next s').
  { intros k id H. destruct (Nat.eq_dec k i) as [->|NK].
    - apply IN in H. destruct H as [(_ & -> & ->)|H]; [lia|]. apply F2 in H. lia.
    - rewrite O in H by auto. apply F2 in H. lia. }
  split; [|split; [exact LT|]].
  - intros k. destruct (Nat.eq_dec k i) as [->|NK]; [|rewrite O by auto; auto].
    apply (Permutation_NoDup (Permutation_sym P)).
    destruct HN as [[-> _]|[[->| ->] HN]]; cbn; auto. constructor; auto. intros H. apply F2 in H. lia.
  - intros a0 b0 id Ha Hb.
    destruct (Nat.eq_dec a0 i) as [->|NA]; destruct (Nat.eq_dec b0 i) as [->|NB]; auto.
    + rewrite O in Hb by auto. apply IN in Ha. destruct Ha as [(_ & -> & _)|Ha]; [apply F2 in Hb; lia|eapply F3; eauto].
    + rewrite O in Ha by auto. apply IN in Hb. destruct Hb as [(_ & -> & _)|Hb]; [apply F2 in Ha; lia|eapply F3; eauto].
    + rewrite O in Ha, Hb by auto. eapply F3; eauto.
Qed.

Lemma fresh_start progs : fresh (start progs).
Proof.
  assert (C : forall i, created (sy_party (start progs) i) = []) by (intros i; rewrite created_eq; cbn; apply pend_start).
  split; [|split]; intros; rewrite C in *; try contradiction. constructor.
Qed.

Lemma fresh_steps cap l : forall s s', steps cap s l = Some s' -> safe s -> fresh s -> fresh s'.
Proof.
  induction l as [|a l IH]; intros s s' E S H; [injection E as <-; auto|].
  cbn [steps] in E. destruct (step cap s a) as [s1|] eqn:E1; [|discriminate]. cbn [obind] in E.
  eapply IH; [exact E|eapply safe_step; eauto|eapply fresh_step; eauto]. apply S.
Qed.
