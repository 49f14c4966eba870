(** Progress of parties that follow a common script. *)
From Coq Require Import List Bool Arith Lia Permutation.
Require Import Verif.Prelude Verif.PreludeProofs Verif.SubChanModel Verif.SubChanSpec Verif.SubChanProofs.
Import ListNotations.

Definition mem (i : pid) (l : list pid) : bool := existsb (Nat.eqb i) l.

Lemma mem_In i l : mem i l = true <-> In i l.
Proof.
  unfold mem. rewrite existsb_exists. split.
  - intros (x & Hx & E). apply Nat.eqb_eq in E. subst. auto.
  - intros H. exists i. split; auto. apply Nat.eqb_refl.
Qed.

Lemma common_app a b i j : common (a ++ b) i j = common a i j ++ common b i j.
Proof. unfold common. rewrite filter_app, map_app. reflexivity. Qed.

Lemma common_sym sc i j : common sc i j = common sc j i.
Proof. unfold common. f_equal. apply filter_ext. intros x. apply andb_comm. Qed.

Lemma common_snoc sc g x i j : nth_error sc g = Some x ->
  common (firstn (S g) sc) i j = common (firstn g sc) i j ++ (if mem i (fst x) && mem j (fst x) then [snd x] else []).
Proof.
  intros E. assert (F : firstn (S g) sc = firstn g sc ++ [x]).
  { revert g E. induction sc as [|y sc IH]; intros [|g] E; try discriminate; [injection E as ->; reflexivity|].
    cbn [firstn app]. f_equal. apply IH. exact E. }
  rewrite F, common_app. f_equal. unfold common. cbn [filter]. change (existsb (Nat.eqb i) (fst x)) with (mem i (fst x)). change (existsb (Nat.eqb j) (fst x)) with (mem j (fst x)).
  destruct (mem i (fst x) && mem j (fst x)); reflexivity.
Qed.

Lemma common_prefix sc g g' i j : g <= g' -> exists r, common (firstn g' sc) i j = common (firstn g sc) i j ++ r.
Proof.
  intros L. exists (common (skipn g (firstn g' sc)) i j). rewrite <- common_app.
  rewrite <- (firstn_skipn g (firstn g' sc)) at 1. rewrite firstn_firstn. rewrite Nat.min_l by auto. reflexivity.
Qed.

Lemma plays_skip sc g x i : nth_error sc g = Some x -> mem i (fst x) = true ->
  plays (skipn g sc) i = {| rd_peers := filter (fun j => negb (j =? i)) (fst x); rd_what := snd x |} :: plays (skipn (S g) sc) i.
Proof.
  intros E M. assert (F : skipn g sc = x :: skipn (S g) sc).
  { revert g E. induction sc as [|y sc IH]; intros [|g] E; try discriminate; [injection E as ->; reflexivity|]. exact (IH g E). }
  rewrite F. unfold plays at 1. cbn [flat_map]. change (existsb (Nat.eqb i) (fst x)) with (mem i (fst x)). rewrite M. reflexivity.
Qed.

(** The next round of [i] from the start of a script. *)
Lemma next_round i : forall sc, exists h, h <= length sc /\ plays sc i = plays (skipn h sc) i
  /\ (forall j, common (firstn h sc) i j = [])
  /\ (h = length sc \/ exists x, nth_error sc h = Some x /\ mem i (fst x) = true).
Proof.
  induction sc as [|x sc IH]; [exists 0; auto|]. destruct (mem i (fst x)) eqn:M.
  - exists 0. repeat split; cbn; try lia. right. exists x. auto.
  - destruct IH as (h & H1 & H2 & H3 & H4). exists (S h). cbn [length skipn firstn]. repeat split; try lia.
    + rewrite <- H2. unfold plays at 1. cbn [flat_map]. change (existsb (Nat.eqb i) (fst x)) with (mem i (fst x)). rewrite M. reflexivity.
    + intros j. unfold common in *. cbn [filter]. change (existsb (Nat.eqb i) (fst x)) with (mem i (fst x)). rewrite M. cbn [andb]. apply H3.
    + destruct H4 as [H4|H4]; [left; lia|right; exact H4].
Qed.

(** Party [i] stands at round [g] of the script. *)
Record at_round (sc : script) (s : sys) (i : pid) (g : nat) : Prop := {
  ar_run : RUN s i;
  ar_le : g <= length sc;
  ar_rounds : pt_rounds (sy_party s i) = plays (skipn g sc) i;
  ar_here : g = length sc \/ exists x, nth_error sc g = Some x /\ mem i (fst x) = true;
  ar_keys : map fst (pt_cur (sy_party s i)) = match pt_rounds (sy_party s i) with r :: _ => rd_peers r | [] => [] end;
  ar_log : forall j, j <> i -> map e_what (with_peer j (pt_log (sy_party s i)))
    = common (firstn g sc) i j ++ match cur_get (pt_cur (sy_party s i)) j, pt_rounds (sy_party s i) with
                                  | Some PDone, r :: _ => [rd_what r] | _, _ => [] end }.

Definition live (sc : script) (s : sys) : Prop :=
  safe s /\ forall i, exists g, at_round sc s i g.

Lemma live_not_closed sc s i : live sc s -> ~ CLOSED s i.
Proof. intros (_ & H) [g Hg]. destruct (H i) as [gi Hi]. pose proof (ar_run _ _ _ _ Hi) as R. unfold RUN in R. congruence. Qed.

Lemma live_pair sc s i j : live sc s -> GOT s i j = map Some (firstn (length (GOT s i j)) (SENT s j i))
  /\ SENT s j i = firstn (length (GOT s i j)) (SENT s j i) ++ sy_queue s j i.
Proof.
  intros H. pose proof (live_not_closed sc s j H) as NC. destruct H as ((_ & S) & L). destruct (L i) as [gi Li].
  destruct (S i j) as (a & b & r & H1 & H2 & H3 & H4).
  assert (b = 0) by (destruct b; auto; destruct (H4 ltac:(discriminate)); contradiction). subst b.
  cbn [repeat] in H1. rewrite app_nil_r in H1. destruct (H3 (ar_run _ _ _ _ Li)) as (r' & -> & [C|C]); [contradiction|]. subst r'.
  rewrite app_nil_r in H2. rewrite H1, map_length, H2, firstn_app, Nat.sub_diag, firstn_O, app_nil_r, firstn_all. auto.
Qed.

Lemma GOT_length s i j : length (GOT s i j) = length (with_peer j (pt_log (sy_party s i))).
Proof. unfold GOT. now rewrite map_length. Qed.

(** The rounds in which [i] has sent something to [j]. *)
Definition sent_what (s : sys) (i j : pid) : list what :=
  map e_what (with_peer j (pt_log (sy_party s i)))
  ++ match cur_get (pt_cur (sy_party s i)) j, pt_rounds (sy_party s i) with Some (PSent _), r :: _ => [rd_what r] | _, _ => [] end.

Lemma sent_what_ok s i j : party_ok (sy_party s i) ->
  Forall2 (fun m w => exists id, m = msg_of w id) (SENT s i j) (sent_what s i j).
Proof.
  intros [P1 P2 P3 P4 P5]. unfold SENT, sent, sent_what. apply Forall2_app.
  - assert (F : forall e, In e (with_peer j (pt_log (sy_party s i))) -> exists id, e_own e = msg_of (e_what e) id).
    { intros e He. apply filter_In in He. apply P5. tauto. }
    induction (with_peer j (pt_log (sy_party s i))) as [|e l IH]; constructor.
    + apply F. left. reflexivity.
    + apply IH. intros e' He'. apply F. right. auto.
  - unfold pending. destruct (cur_get (pt_cur (sy_party s i)) j) as [[|m|]|] eqn:E; try constructor.
    destruct (pt_rounds (sy_party s i)) as [|r rs] eqn:ER.
    + rewrite (P3 eq_refl) in E. discriminate.
    + constructor; [|constructor]. eapply P4; eauto.
Qed.

Lemma cur_get_key c j : cur_get c j <> None <-> In j (map fst c).
Proof.
  induction c as [|[a x] c IH]; cbn; [tauto|]. destruct (Nat.eqb_spec a j) as [->|N]; [split; [auto|discriminate]|].
  rewrite IH. split; [auto|intros [?|?]; [contradiction|auto]].
Qed.

(** The current peers of a party are the other participants of its round. *)
Lemma cur_peer sc s i g j : at_round sc s i g -> cur_get (pt_cur (sy_party s i)) j <> None ->
  exists x, nth_error sc g = Some x /\ mem i (fst x) = true /\ mem j (fst x) = true /\ j <> i
    /\ exists rs, pt_rounds (sy_party s i) = {| rd_peers := filter (fun j => negb (j =? i)) (fst x); rd_what := snd x |} :: rs.
Proof.
  intros [A1 A2 A3 A4 A5 A6] E. apply cur_get_key in E. rewrite A5 in E.
  destruct A4 as [->|(x & X1 & X2)].
  - rewrite A3, skipn_all in E. destruct E.
  - rewrite A3, (plays_skip _ _ _ _ X1 X2) in E. cbn [rd_peers] in E. apply filter_In in E. destruct E as [E1 E2].
    apply negb_true_iff, Nat.eqb_neq in E2. exists x. repeat split; auto; [apply mem_In; auto|].
    eexists. rewrite A3. apply plays_skip; auto.
Qed.

Lemma cur_peer_conv sc s i g j x : at_round sc s i g -> nth_error sc g = Some x -> mem i (fst x) = true -> mem j (fst x) = true -> j <> i ->
  cur_get (pt_cur (sy_party s i)) j <> None.
Proof.
  intros [A1 A2 A3 A4 A5 A6] X1 X2 M N. apply cur_get_key. rewrite A5, A3, (plays_skip _ _ _ _ X1 X2). cbn [rd_peers].
  apply filter_In. split; [apply mem_In; auto|]. apply negb_true_iff, Nat.eqb_neq. auto.
Qed.

(** What was sent follows the script. *)
Lemma sent_what_prefix sc s i g j : at_round sc s i g -> j <> i -> exists r, common sc i j = sent_what s i j ++ r.
Proof.
  intros A N. unfold sent_what. rewrite (ar_log _ _ _ _ A j N).
  destruct (cur_get (pt_cur (sy_party s i)) j) as [y|] eqn:E.
  - destruct (cur_peer sc s i g j A ltac:(congruence)) as (x & X1 & X2 & X3 & X4 & rs & X5). rewrite X5. cbn [rd_what].
    destruct (common_prefix sc (S g) (length sc) i j) as (r & R).
    { assert (g < length sc) by (apply nth_error_Some; congruence). lia. }
    rewrite firstn_all, (common_snoc sc g x) in R by auto. rewrite X2, X3 in R. cbn [andb] in R.
    destruct y; [exists ([snd x] ++ r)|exists r|exists r]; rewrite R, <- ?app_assoc; reflexivity.
  - destruct (common_prefix sc g (length sc) i j) as (r & R); [apply (ar_le _ _ _ _ A)|]. rewrite firstn_all in R.
    exists r. rewrite R, !app_nil_r. reflexivity.
Qed.

Lemma forall2_len' {A B} (R : A -> B -> Prop) l l' : Forall2 R l l' -> length l = length l'.
Proof. induction 1; cbn; auto. Qed.

Lemma forall2_nth' {A B} (R : A -> B -> Prop) l l' n a : Forall2 R l l' -> nth_error l n = Some a -> exists b, nth_error l' n = Some b /\ R a b.
Proof. intros F. revert n. induction F; intros [|n] E; try discriminate; [injection E as <-; cbn; eauto|]. cbn in *. eauto. Qed.

Lemma SENT_length s i j : party_ok (sy_party s i) -> length (SENT s i j) = length (sent_what s i j).
Proof. intros P. exact (forall2_len' _ _ _ (sent_what_ok s i j P)). Qed.

(** Received messages are of the right kind. *)
Lemma live_accepts sc s i j r rs own m q : live sc s -> i <> j ->
  pt_rounds (sy_party s i) = r :: rs -> cur_get (pt_cur (sy_party s i)) j = Some (PSent own) ->
  sy_queue s j i = m :: q -> accepts (rd_what r) m = true.
Proof.
  intros L N ER EC EQ. destruct (live_pair sc s i j L) as [_ P2]. destruct L as (S & H).
  destruct (H i) as [gi Ai]. destruct (H j) as [gj Aj].
  set (n := length (GOT s i j)) in *.
  assert (LN : length (firstn n (SENT s j i)) = n).
  { destruct S as [_ S]. destruct (S i j) as (a & b & r0 & S1 & S2 & S3 & S4). 
    assert (b = 0). { destruct b; auto. destruct (S4 ltac:(discriminate)) as [[g0 C] _]. pose proof (ar_run _ _ _ _ Aj) as RJ. unfold RUN in RJ. congruence. }
    subst b. rewrite S2, firstn_length, app_length. unfold n. rewrite S1. cbn [repeat]. rewrite app_nil_r, map_length. lia. }
  assert (NM : nth_error (SENT s j i) n = Some m).
  { rewrite P2, EQ, nth_error_app2 by lia. rewrite LN, Nat.sub_diag. reflexivity. }
  destruct (forall2_nth' _ _ _ _ _ (sent_what_ok s j i (proj1 S j)) NM) as (w & W1 & id & ->).
  destruct (sent_what_prefix sc s j gj i Aj N) as (rj & Rj).
  destruct (sent_what_prefix sc s i gi j Ai (not_eq_sym N)) as (ri & Ri).
  assert (C1 : nth_error (common sc j i) n = Some w).
  { rewrite Rj, nth_error_app1; [auto|]. apply nth_error_Some. congruence. }
  assert (C2 : nth_error (common sc i j) n = Some (rd_what r)).
  { rewrite Ri. unfold sent_what. rewrite EC, ER. unfold n. rewrite GOT_length.
    rewrite <- app_assoc, nth_error_app2 by (rewrite map_length; auto). rewrite map_length, Nat.sub_diag. reflexivity. }
  rewrite common_sym in C1. rewrite C1 in C2. injection C2 as ->.
  destruct (rd_what r); cbn; auto. apply Nat.eqb_refl.
Qed.

Lemma at_other sc s s' i k g : (forall a, a <> k -> sy_party s' a = sy_party s a) -> i <> k -> at_round sc s i g -> at_round sc s' i g.
Proof. intros O N [A1 A2 A3 A4 A5 A6]. unfold RUN in *. split; unfold RUN; rewrite ?(O i N); auto. Qed.

Lemma live_start sc : script_ok sc -> live sc (start (plays sc)).
Proof.
  intros W. split.
  - apply safe_start. intros i r Hr. unfold plays in Hr. apply in_flat_map in Hr. destruct Hr as (x & Hx & Hr).
    destruct (existsb _ _); [|destruct Hr]. destruct Hr as [<-|[]]. cbn. apply NoDup_filter. auto.
  - intros i. destruct (next_round i sc) as (h & H1 & H2 & H3 & H4). exists h. split; cbn; auto.
    + reflexivity.
    + apply start_keys.
    + intros j N. rewrite H3. rewrite cur_get_start. destruct (plays sc i); [reflexivity|]. destruct (existsb _ _); reflexivity.
Qed.

Lemma live_step sc cap s a s' : live sc s -> (forall i g cuts, a <> AClose i g cuts) -> step cap s a = Some s' -> live sc s'.
Proof.
  intros L NCL E. pose proof (safe_step _ _ _ _ E (proj1 L)) as S'. split; auto. intros k.
  destruct a as [i j|i j|i j|i|i g cuts]; cbn [step] in E.
  2:{ apply fail_views in E. exfalso. exact (live_not_closed _ _ _ L (proj1 E)). }
  - apply send_views in E. destruct E as (r & rs & m & E1 & E2 & E3 & E4 & E5 & E6 & E7 & E8 & E9).
    destruct (proj2 L k) as [g A]. exists g. destruct (Nat.eq_dec k i) as [->|NK].
    2:{ apply (at_other sc s s' k i g); auto. intros a Ha. rewrite E8. apply set_party_other. auto. }
    destruct A as [A1 A2 A3 A4 A5 A6]. split; unfold RUN; rewrite ?E8, ?set_party_same; cbn [pt_status pt_rounds pt_cur pt_log]; auto.
    + rewrite cur_set_keys. auto.
    + intros j0 N. rewrite (A6 j0 N), cur_get_set. f_equal. destruct (Nat.eqb_spec j0 j) as [->|]; [|reflexivity]. rewrite E3. reflexivity.
  - apply recv_views in E. destruct E as (r & rs & own & E1 & E2 & E3 & E4 & [(m & q & D1 & D2 & D3)|(D1 & D2 & _)]).
    2:{ exfalso. exact (live_not_closed _ _ _ L D2). }
    destruct (proj2 L k) as [g A]. exists g. destruct (Nat.eq_dec k i) as [->|NK].
    2:{ apply (at_other sc s s' k i g); auto. intros a Ha. rewrite D3. apply set_party_other. auto. }
    destruct (cur_peer sc s i g j A ltac:(congruence)) as (x & X1 & X2 & X3 & X4 & rs' & X5).
    rewrite (live_accepts sc s i j r rs own m q L (not_eq_sym X4) E1 E3 D1) in D3.
    destruct A as [A1 A2 A3 A4 A5 A6]. split; unfold RUN; rewrite ?D3, ?set_party_same; cbn [complete pt_status pt_rounds pt_cur pt_log]; auto.
    + rewrite cur_set_keys. auto.
    + intros j0 N. rewrite with_peer_app, map_app, (A6 j0 N), cur_get_set. cbn [with_peer filter e_peer].
      rewrite (Nat.eqb_sym j j0). destruct (Nat.eqb_spec j0 j) as [->|NJ].
      * rewrite E3, E1. cbn. now rewrite app_nil_r.
      * cbn. now rewrite app_nil_r.
  - apply next_views in E. destruct E as (r & rs & E1 & E2 & E3 & E4 & E5 & E6).
    destruct (Nat.eq_dec k i) as [->|NK].
    2:{ destruct (proj2 L k) as [g A]. exists g. apply (at_other sc s s' k i g); auto. intros a Ha. rewrite E6. apply set_party_other. auto. }
    destruct (proj2 L i) as [g A]. pose proof A as A0. destruct A as [A1 A2 A3 A4 A5 A6].
    destruct A4 as [->|(x & X1 & X2)]; [rewrite A3, skipn_all in E1; discriminate|].
    pose proof (plays_skip _ _ _ _ X1 X2) as PS. rewrite A3, PS in E1. apply (f_equal (@tl round)) in E1. cbn [tl] in E1. subst rs.
    destruct (next_round i (skipn (S g) sc)) as (h & H1 & H2 & H3 & H4).
    assert (LG : g < length sc) by (apply nth_error_Some; congruence).
    rewrite skipn_length in *. exists (S g + h).
    assert (SK : skipn (S g + h) sc = skipn h (skipn (S g) sc)).
    { clear. revert sc. induction (S g) as [|n IH]; intros sc; [reflexivity|]. destruct sc; [destruct h; reflexivity|]. exact (IH sc). }
    assert (NE : forall a b (l : script), nth_error l (a + b) = nth_error (skipn a l) b).
    { clear. induction a as [|a IH]; intros b l; [reflexivity|]. destruct l; [destruct b; reflexivity|]. exact (IH b l). }
    split; unfold RUN; rewrite ?E6, ?set_party_same; cbn [pt_status pt_rounds pt_cur pt_log]; auto.
    + lia.
    + rewrite SK, <- H2. reflexivity.
    + destruct H4 as [H4|(y & Y1 & Y2)]; [left; lia|right]. exists y. split; auto. rewrite NE. auto.
    + apply start_keys.
    + intros j N. rewrite (A6 j N). rewrite A3, PS. cbn [rd_what].
      assert (FS : firstn (S g + h) sc = firstn (S g) sc ++ firstn h (skipn (S g) sc)).
      { clear. revert sc. induction (S g) as [|n IH]; intros sc; [reflexivity|]. destruct sc; [destruct h; reflexivity|]. cbn. f_equal. exact (IH sc). }
      rewrite FS, common_app, H3, app_nil_r, (common_snoc sc g x) by auto. rewrite X2. cbn [andb].
      match goal with |- _ = (_ ++ _) ++ ?C => assert (T : C = []) end.
      { rewrite cur_get_start. destruct (plays (skipn (S g) sc) i); [reflexivity|]. destruct (existsb _ _); reflexivity. }
      rewrite T, app_nil_r. f_equal.
      destruct (mem j (fst x)) eqn:MJ.
      * pose proof (cur_peer_conv sc s i g j x A0 X1 X2 MJ N) as CP. destruct (cur_get (pt_cur (sy_party s i)) j) as [y|] eqn:EY; [|congruence].
        apply cur_get_In in EY. rewrite forallb_forall in E3. specialize (E3 _ EY). cbn in E3. destruct y; try discriminate. reflexivity.
      * destruct (cur_get (pt_cur (sy_party s i)) j) as [y|] eqn:EY; [|reflexivity].
        destruct (cur_peer sc s i g j A0 ltac:(congruence)) as (x' & X1' & _ & X3' & _). rewrite X1 in X1'. injection X1' as <-. congruence.
  - exfalso. exact (NCL i g cuts eq_refl).
Qed.

Lemma live_steps sc cap l : forall s s', live sc s -> no_close l -> steps cap s l = Some s' -> live sc s'.
Proof.
  induction l as [|a l IH]; intros s s' L NC E; [injection E as <-; auto|].
  cbn [steps] in E. destruct (step cap s a) as [s1|] eqn:E1; [|discriminate]. cbn [obind] in E.
  eapply IH; [eapply live_step; [exact L| |exact E1]| |exact E].
  - intros i g cuts ->. exact (NC i g cuts (or_introl eq_refl)).
  - intros i g cuts H. exact (NC i g cuts (or_intror H)).
Qed.

(** ** Progress *)

(** A party can act. *)
Definition can_act (cap : nat) (s : sys) : Prop := exists a s', (forall i g cuts, a <> AClose i g cuts) /\ step cap s a = Some s'.

Lemma log_bound sc s i g j : at_round sc s i g -> j <> i ->
  length (common (firstn g sc) i j) <= length (with_peer j (pt_log (sy_party s i))).
Proof. intros A N. rewrite <- (map_length e_what (with_peer _ _)), (ar_log _ _ _ _ A j N), app_length. lia. Qed.

Lemma send_enabled sc cap s i g j gj : live sc s -> 1 <= cap -> at_round sc s i g -> at_round sc s j gj -> g <= gj ->
  cur_get (pt_cur (sy_party s i)) j = Some PStart -> can_act cap s.
Proof.
  intros L HC Ai Aj LE EC. destruct (cur_peer sc s i g j Ai ltac:(congruence)) as (x & X1 & X2 & X3 & X4 & rs & X5).
  assert (Q : sy_queue s i j = []).
  { destruct (live_pair sc s j i L) as [P1 P2]. apply (f_equal (@length msg)) in P2. apply (f_equal (@length _)) in P1.
    rewrite map_length in P1. rewrite app_length, <- P1 in P2. rewrite (SENT_length s i j (proj1 (proj1 L) i)) in P2.
    rewrite GOT_length in P2. unfold sent_what in P2. rewrite EC, app_nil_r, (ar_log _ _ _ _ Ai j X4), EC, app_nil_r in P2.
    pose proof (log_bound sc s j gj i Aj (not_eq_sym X4)) as B.
    destruct (common_prefix sc g gj i j LE) as (r & R). rewrite common_sym, R, app_length in B.
    destruct (sy_queue s i j); [reflexivity|]. cbn [length] in P2. lia. }
  exists (ASend i j). cbn [step]. unfold do_send. pose proof (ar_run _ _ _ _ Ai) as Ri. pose proof (ar_run _ _ _ _ Aj) as Rj. unfold RUN in *.
  rewrite Ri, X5, EC, Q. unfold oassert. destruct (Nat.ltb_spec (length (@nil msg)) cap) as [H|H]; [|cbn in H; lia]. cbn [obind].
  eexists. split; [discriminate|reflexivity].
Qed.

Lemma search sc s g : live sc s -> forall l, (exists j gj, In j l /\ at_round sc s j gj /\ gj < g) \/ (forall j, In j l -> exists gj, at_round sc s j gj /\ g <= gj).
Proof.
  intros [_ H]. induction l as [|j l IH]; [right; intros j []|]. destruct IH as [(j' & gj & A & B & C)|IH].
  - left. exists j', gj. split; [right; auto|auto].
  - destruct (H j) as [gj Aj]. destruct (Nat.lt_ge_cases gj g).
    + left. exists j, gj. split; [left; reflexivity|auto].
    + right. intros j' [<-|Hj]; [exists gj; auto|auto].
Qed.

Lemma forallb_false {A} (f : A -> bool) l : forallb f l = false -> exists x, In x l /\ f x = false.
Proof.
  induction l as [|x l IH]; cbn; [discriminate|]. destruct (f x) eqn:E; cbn; intros H; [|exists x; auto].
  destruct (IH H) as (y & Hy & Ey). exists y. auto.
Qed.

Lemma In_cur_get c j y : NoDup (map fst c) -> In (j, y) c -> cur_get c j = Some y.
Proof.
  induction c as [|[a x] c IH]; intros N H; [destruct H|]. cbn in *. inversion N as [|? ? N1 N2]; subst.
  destruct H as [H|H]; [injection H as -> ->; now rewrite Nat.eqb_refl|].
  destruct (Nat.eqb_spec a j) as [->|]; [exfalso; apply N1; apply (in_map fst) in H; exact H|auto].
Qed.

Lemma progress sc cap s : live sc s -> 1 <= cap -> forall n i g, g <= n -> at_round sc s i g -> g < length sc -> can_act cap s.
Proof.
  intros L HC. induction n as [n IH] using lt_wf_ind. intros i g Hn Ai LG.
  destruct (ar_here _ _ _ _ Ai) as [->|(x & X1 & X2)]; [lia|].
  destruct (search sc s g L (fst x)) as [(j & gj & J1 & J2 & J3)|ALL].
  { apply (IH gj ltac:(lia) j gj); auto. lia. }
  pose proof (ar_rounds _ _ _ _ Ai) as AR. rewrite (plays_skip _ _ _ _ X1 X2) in AR.
  pose proof (ar_run _ _ _ _ Ai) as Ri. unfold RUN in Ri.
  destruct (forallb (fun e => is_done (snd e)) (pt_cur (sy_party s i))) eqn:FD.
  { exists (ANext i). cbn [step]. unfold do_next. rewrite Ri, AR, FD. unfold oassert. cbn [obind]. eexists. split; [discriminate|reflexivity]. }
  apply forallb_false in FD. destruct FD as ([j y] & Hin & Hy). cbn [snd] in Hy.
  apply In_cur_get in Hin; [|apply (proj1 (proj1 L) i)].
  destruct (cur_peer sc s i g j Ai ltac:(congruence)) as (x' & X1' & _ & X3 & X4 & _). rewrite X1 in X1'. injection X1' as <-.
  destruct (ALL j) as (gj & Aj & LE); [apply mem_In; auto|].
  destruct y as [|own|]; [|clear Hy|discriminate].
  - exact (send_enabled sc cap s i g j gj L HC Ai Aj LE Hin).
  - destruct (cur_get (pt_cur (sy_party s j)) i) as [[| |]|] eqn:EJ.
    + destruct (Nat.eq_dec g gj) as [<-|NE]; [apply (send_enabled sc cap s j g i g); auto|].
      assert (Q : sy_queue s j i <> []).
      { intros Q. destruct (live_pair sc s i j L) as [P1 P2]. apply (f_equal (@length msg)) in P2. apply (f_equal (@length _)) in P1.
        rewrite map_length in P1. rewrite app_length, <- P1, Q in P2. rewrite (SENT_length s j i (proj1 (proj1 L) j)) in P2.
        unfold sent_what in P2. rewrite app_length, map_length in P2. rewrite GOT_length, <- (map_length e_what (with_peer j _)), (ar_log _ _ _ _ Ai j X4), Hin, app_nil_r in P2.
        pose proof (log_bound sc s j gj i Aj (not_eq_sym X4)) as B.
        destruct (common_prefix sc (S g) gj i j ltac:(lia)) as (r & R). rewrite common_sym, R, (common_snoc sc g x) in B by auto.
        rewrite X2, X3 in B. cbn [andb] in B. rewrite !app_length in B. cbn [length] in *. lia. }
      exists (ARecv i j). cbn [step]. unfold do_recv. rewrite Ri, AR, Hin. destruct (sy_queue s j i) as [|m q]; [congruence|].
      eexists. split; [discriminate|reflexivity].
    + assert (Q : sy_queue s j i <> []).
      { intros Q. destruct (live_pair sc s i j L) as [P1 P2]. apply (f_equal (@length msg)) in P2. apply (f_equal (@length _)) in P1.
        rewrite map_length in P1. rewrite app_length, <- P1, Q in P2. rewrite (SENT_length s j i (proj1 (proj1 L) j)) in P2.
        destruct (cur_peer sc s j gj i Aj ltac:(congruence)) as (z & Z1 & Z2 & Z3 & Z4 & rs & Z5).
        unfold sent_what in P2. rewrite EJ, Z5, app_length, map_length in P2. rewrite GOT_length, <- (map_length e_what (with_peer j _)), (ar_log _ _ _ _ Ai j X4), Hin, app_nil_r in P2.
        pose proof (log_bound sc s j gj i Aj (not_eq_sym X4)) as B.
        destruct (common_prefix sc g gj i j LE) as (r & R). rewrite common_sym, R in B. rewrite !app_length in B. cbn [length] in *. lia. }
      exists (ARecv i j). cbn [step]. unfold do_recv. rewrite Ri, AR, Hin. destruct (sy_queue s j i) as [|m0 q]; [congruence|].
      eexists. split; [discriminate|reflexivity].
    + assert (Q : sy_queue s j i <> []).
      { intros Q. destruct (live_pair sc s i j L) as [P1 P2]. apply (f_equal (@length msg)) in P2. apply (f_equal (@length _)) in P1.
        rewrite map_length in P1. rewrite app_length, <- P1, Q in P2. rewrite (SENT_length s j i (proj1 (proj1 L) j)) in P2.
        destruct (cur_peer sc s j gj i Aj ltac:(congruence)) as (z & Z1 & Z2 & Z3 & Z4 & rs & Z5).
        unfold sent_what in P2. rewrite EJ, app_nil_r, (ar_log _ _ _ _ Aj i (not_eq_sym X4)), EJ, Z5 in P2.
        rewrite GOT_length, <- (map_length e_what (with_peer j _)), (ar_log _ _ _ _ Ai j X4), Hin, app_nil_r in P2.
        destruct (common_prefix sc g gj i j LE) as (r & R). rewrite (common_sym _ j i), R in P2. rewrite !app_length in P2. cbn [length] in *. lia. }
      exists (ARecv i j). cbn [step]. unfold do_recv. rewrite Ri, AR, Hin. destruct (sy_queue s j i) as [|m0 q]; [congruence|].
      eexists. split; [discriminate|reflexivity].
    + assert (NE : g <> gj).
      { intros <-. apply (cur_peer_conv sc s j g i x Aj X1 X3 X2 (not_eq_sym X4)). exact EJ. }
      assert (Q : sy_queue s j i <> []).
      { intros Q. destruct (live_pair sc s i j L) as [P1 P2]. apply (f_equal (@length msg)) in P2. apply (f_equal (@length _)) in P1.
        rewrite map_length in P1. rewrite app_length, <- P1, Q in P2. rewrite (SENT_length s j i (proj1 (proj1 L) j)) in P2.
        unfold sent_what in P2. rewrite app_length, map_length in P2. rewrite GOT_length, <- (map_length e_what (with_peer j _)), (ar_log _ _ _ _ Ai j X4), Hin, app_nil_r in P2.
        pose proof (log_bound sc s j gj i Aj (not_eq_sym X4)) as B.
        destruct (common_prefix sc (S g) gj i j ltac:(lia)) as (r & R). rewrite common_sym, R, (common_snoc sc g x) in B by auto.
        rewrite X2, X3 in B. cbn [andb] in B. rewrite !app_length in B. cbn [length] in *. lia. }
      exists (ARecv i j). cbn [step]. unfold do_recv. rewrite Ri, AR, Hin. destruct (sy_queue s j i) as [|m q]; [congruence|].
      eexists. split; [discriminate|reflexivity].
Qed.

(** ** Termination *)

Definition pc_todo (x : pc) : nat := match x with PStart => 2 | PSent _ => 1 | PDone => 0 end.
Definition st_todo (x : status) : nat := match x with SRun => 2 | SErr => 1 | SClosed _ => 0 end.
Fixpoint cur_todo (c : list (pid * pc)) : nat := match c with [] => 0 | (_, x) :: c => pc_todo x + cur_todo c end.
Definition todo (p : party) : nat :=
  work (tl (pt_rounds p)) + (match pt_rounds p with [] => 0 | _ => cur_todo (pt_cur p) + 1 end) + st_todo (pt_status p).

(** With distinct keys. *)
Lemma cur_set_absent c j y : ~ In j (map fst c) -> cur_set c j y = c.
Proof.
  induction c as [|[a x] c IH]; intros H; [reflexivity|]. cbn in *. destruct (Nat.eqb_spec a j); [tauto|]. f_equal. apply IH. tauto.
Qed.

Lemma cur_todo_set c j x y : NoDup (map fst c) -> cur_get c j = Some x -> cur_todo (cur_set c j y) + pc_todo x = cur_todo c + pc_todo y.
Proof.
  induction c as [|[a z] c IH]; intros N E; [discriminate|]. cbn [cur_get] in E. cbn [map fst] in N. inversion N as [|? ? N1 N2]; subst.
  cbn [cur_set map fst]. fold (cur_set c j y). destruct (Nat.eqb_spec a j) as [->|NE].
  - injection E as ->. rewrite cur_set_absent by auto. cbn [cur_todo]. lia.
  - cbn [cur_todo]. specialize (IH N2 E). lia.
Qed.

Lemma cur_todo_start rs : cur_todo (start_round rs) = match rs with [] => 0 | r :: _ => 2 * length (rd_peers r) end.
Proof. destruct rs as [|r rs]; [reflexivity|]. cbn. induction (rd_peers r) as [|a l IH]; [reflexivity|]. cbn in *. lia. Qed.

Lemma todo_step cap s a s' : step cap s a = Some s' -> (forall i, party_ok (sy_party s i)) ->
  todo (sy_party s' (actor a)) < todo (sy_party s (actor a)) /\ forall k, k <> actor a -> sy_party s' k = sy_party s k.
Proof.
  intros E PO. destruct a as [i j|i j|i j|i|i g cuts]; cbn [step actor] in *.
  - apply send_views in E. destruct E as (r & rs & m & E1 & E2 & E3 & E4 & E5 & E6 & E7 & E8 & E9).
    + rewrite E8, set_party_same. split; [|intros k Hk; apply set_party_other; auto]. unfold todo, RUN in *. cbn [pt_rounds pt_cur pt_status].
      rewrite E1, E2. pose proof (cur_todo_set _ _ _ (PSent m) (po_keys _ (PO i)) E3) as T. cbn [pc_todo] in T. lia.
  - apply fail_views in E. destruct E as (E1 & E2 & ->).
    + cbn [sy_party]. rewrite set_party_same. split; [|intros k Hk; apply set_party_other; auto]. unfold todo, RUN in *. cbn [fail pt_rounds pt_cur pt_status].
      rewrite E2. cbn [st_todo]. lia.
  - apply recv_views in E. destruct E as (r & rs & own & E1 & E2 & E3 & E4 & D).
    assert (C : forall got, todo (complete (sy_party s i) j (rd_what r) own got) < todo (sy_party s i)).
    { intros got. unfold todo, RUN in *. cbn [complete pt_rounds pt_cur pt_status]. rewrite E1.
      pose proof (cur_todo_set _ _ _ PDone (po_keys _ (PO i)) E3) as T. cbn [pc_todo] in T. lia. }
    assert (F : todo (fail (sy_party s i)) < todo (sy_party s i)).
    { unfold todo, RUN in *. cbn [fail pt_rounds pt_cur pt_status]. rewrite E2. cbn [st_todo]. lia. }
    destruct D as [(m & q & D1 & D2 & D3)|(D1 & D2 & D3 & g & D4)].
    + rewrite D3, set_party_same. split; [|intros k Hk; apply set_party_other; auto]. destruct (accepts (rd_what r) m); auto.
    + rewrite D4, set_party_same. split; [|intros k Hk; apply set_party_other; auto]. destruct (ignores (rd_what r) g); auto.
  - apply next_views in E. destruct E as (r & rs & E1 & E2 & E3 & E4 & E5 & E6). rewrite E6, set_party_same.
    split; [|intros k Hk; apply set_party_other; auto]. unfold todo, RUN in *. cbn [pt_rounds pt_cur pt_status]. rewrite E1, E2. cbn [tl].
    rewrite cur_todo_start. destruct rs as [|r' rs]; cbn [tl work]; lia.
  - unfold do_close in E. destruct (pt_status (sy_party s i)) eqn:ES; try discriminate; injection E as <-; cbn [sy_party]; rewrite set_party_same;
      (split; [|intros k Hk; apply set_party_other; auto]); unfold todo; cbn [pt_rounds pt_cur pt_status]; rewrite ES; cbn [st_todo]; lia.
Qed.

Definition total (n : nat) (s : sys) : nat := sum_list (map (fun i : nat => todo (sy_party s i)) (seq 0 n)).

Lemma sum_lt (f g : nat -> nat) n i : i < n -> f i < g i -> (forall k, k <> i -> f k = g k) ->
  sum_list (map f (seq 0 n)) < sum_list (map g (seq 0 n)).
Proof.
  intros Hi L O. replace n with (i + S (n - i - 1)) by lia. rewrite seq_app, !map_app, !sum_list_app. cbn [seq map].
  assert (A : map f (seq 0 i) = map g (seq 0 i)) by (apply map_ext_in; intros a Ha; apply in_seq in Ha; apply O; lia).
  assert (B : map f (seq (S (0 + i)) (n - i - 1)) = map g (seq (S (0 + i)) (n - i - 1))) by (apply map_ext_in; intros a Ha; apply in_seq in Ha; apply O; lia).
  rewrite A, B. unfold sum_list at 2 4. cbn [fold_right]. change (fold_right Nat.add 0) with sum_list. cbn [Nat.add] in *. lia.
Qed.

Lemma total_step n s s' i : i < n -> todo (sy_party s' i) < todo (sy_party s i) -> (forall k, k <> i -> sy_party s' k = sy_party s k) -> total n s' < total n s.
Proof. intros Hi L O. unfold total. apply (sum_lt _ _ n i Hi L). intros k Hk. rewrite (O k Hk). reflexivity. Qed.

Lemma total_steps n cap l : forall s s', steps cap s l = Some s' -> safe s -> (forall a, In a l -> actor a < n) -> length l + total n s' <= total n s.
Proof.
  induction l as [|a l IH]; intros s s' E S A; [injection E as <-; auto|].
  cbn [steps] in E. destruct (step cap s a) as [s1|] eqn:E1; [|discriminate]. cbn [obind] in E.
  destruct (todo_step _ _ _ _ E1 (proj1 S)) as [D O].
  pose proof (total_step n s s1 (actor a) (A a (or_introl eq_refl)) D O) as T.
  pose proof (IH s1 s' E (safe_step _ _ _ _ E1 S) (fun b Hb => A b (or_intror Hb))) as T2. cbn [length]. lia.
Qed.

Lemma total_start n progs : total n (start progs) = sum_list (map (fun i : nat => work (progs i) + 2) (seq 0 n)).
Proof.
  unfold total. f_equal. apply map_ext. intros i. cbn [start sy_party]. unfold todo, new_party. cbn [pt_rounds pt_cur pt_status st_todo].
  rewrite cur_todo_start. destruct (progs i) as [|r rs]; cbn [tl work]; lia.
Qed.

Lemma steps_app cap l l' : forall s, steps cap s (l ++ l') = obind (steps cap s l) (fun s => steps cap s l').
Proof. induction l as [|a l IH]; intros s; [reflexivity|]. cbn [app steps]. destruct (step cap s a); [cbn [obind]; apply IH|reflexivity]. Qed.

(** A step needs rounds left, unless it closes. *)
Lemma step_active cap s a s' : step cap s a = Some s' -> (forall i g cuts, a <> AClose i g cuts) -> pt_rounds (sy_party s (actor a)) <> [].
Proof.
  intros E N. destruct a as [i j|i j|i j|i|i g cuts]; cbn [step actor] in *.
  - unfold do_send in E. intros F. rewrite F in E. destruct (pt_status (sy_party s i)); discriminate.
  - unfold do_send_fails in E. intros F. rewrite F in E. destruct (pt_status (sy_party s i)); discriminate.
  - unfold do_recv in E. intros F. rewrite F in E. destruct (pt_status (sy_party s i)); discriminate.
  - unfold do_next in E. intros F. rewrite F in E. destruct (pt_status (sy_party s i)); discriminate.
  - destruct (N i g cuts eq_refl).
Qed.

Lemma at_end sc s i g : at_round sc s i g -> pt_rounds (sy_party s i) = [] -> g = length sc.
Proof.
  intros A R. destruct (ar_here _ _ _ _ A) as [H|(x & H & M)]; [exact H|].
  pose proof (ar_rounds _ _ _ _ A) as P. rewrite R, (plays_skip _ _ _ _ H M) in P. discriminate.
Qed.

Lemma at_not_end sc s i g : at_round sc s i g -> pt_rounds (sy_party s i) <> [] -> g < length sc.
Proof.
  intros A R. pose proof (ar_le _ _ _ _ A). destruct (Nat.eq_dec g (length sc)) as [->|]; [|lia].
  destruct R. rewrite (ar_rounds _ _ _ _ A), skipn_all. reflexivity.
Qed.

(** Running on until everybody has finished. *)
Lemma finish sc cap n : 1 <= cap -> (forall i, n <= i -> forall x, In x sc -> mem i (fst x) = false) ->
  forall t s, total n s <= t -> live sc s ->
  exists l s', no_close l /\ steps cap s l = Some s' /\ live sc s' /\ forall i, pt_rounds (sy_party s' i) = [].
Proof.
  intros HC HN. induction t as [t IH] using lt_wf_ind. intros s T L.
  assert (OUT : forall i, n <= i -> pt_rounds (sy_party s i) = []).
  { intros i Hi. destruct L as [_ L]. destruct (L i) as [g A]. destruct (ar_here _ _ _ _ A) as [->|(x & H & M)].
    - rewrite (ar_rounds _ _ _ _ A), skipn_all. reflexivity.
    - rewrite (HN i Hi x (nth_error_In _ _ H)) in M. discriminate. }
  assert (D : (forall i, i < n -> pt_rounds (sy_party s i) = []) \/ exists i, pt_rounds (sy_party s i) <> []).
  { clear -n. induction n as [|n [IH|IH]]; [left; lia| |right; auto].
    destruct (pt_rounds (sy_party s n)) eqn:E; [|right; exists n; congruence].
    left. intros i Hi. destruct (Nat.eq_dec i n) as [->|]; [auto|]. apply IH. lia. }
  destruct D as [D|[i D]].
  - exists [], s. split; [intros ? ? ? []|]. split; [reflexivity|]. split; [auto|]. intros i. destruct (Nat.lt_ge_cases i n); auto.
  - destruct (proj2 L i) as [g A]. destruct (progress sc cap s L HC g i g (le_n _) A (at_not_end _ _ _ _ A D)) as (a & s1 & NC & E).
    assert (AN : actor a < n).
    { destruct (Nat.lt_ge_cases (actor a) n) as [|G]; [auto|]. destruct (step_active _ _ _ _ E NC (OUT _ G)). }
    destruct (todo_step _ _ _ _ E (proj1 (proj1 L))) as [Q O]. pose proof (total_step n s s1 (actor a) AN Q O) as TT.
    destruct (IH (total n s1) ltac:(lia) s1 (le_n _) (live_step _ _ _ _ _ L NC E)) as (l & s' & H1 & H2 & H3 & H4).
    exists (a :: l), s'. split; [|split; [|auto]].
    + intros k gr cuts [F|F]; [exact (NC _ _ _ F)|exact (H1 _ _ _ F)].
    + cbn [steps]. rewrite E. exact H2.
Qed.

(** Rounds that open a sub-channel complete only with a received end. *)
Definition sub_got (s : sys) : Prop := forall i e, In e (pt_log (sy_party s i)) -> forall k, e_what e = WSub k -> e_got e <> None.

Lemma sub_got_steps cap l : forall s s', steps cap s l = Some s' -> sub_got s -> sub_got s'.
Proof.
  induction l as [|a l IH]; intros s s' E S; [injection E as <-; auto|].
  cbn [steps] in E. destruct (step cap s a) as [s1|] eqn:E1; [|discriminate]. cbn [obind] in E. apply (IH s1 s' E). clear IH E.
  intros k. destruct a as [i j|i j|i j|i|i g cuts]; cbn [step] in E1.
  - apply send_views in E1. destruct E1 as (r & rs & m & _ & _ & _ & _ & _ & _ & _ & E8 & _).
    + rewrite E8. pid_cases k i; apply S.
  - apply fail_views in E1. destruct E1 as (_ & _ & ->).
    + cbn [sy_party]. pid_cases k i; apply S.
  - apply recv_views in E1. destruct E1 as (r & rs & own & _ & _ & _ & _ & D).
    destruct D as [(m & q & _ & _ & D3)|(_ & _ & _ & g & D4)].
    + rewrite D3. pid_cases k i; [|apply S]. destruct (accepts (rd_what r) m); [|apply S]. cbn [complete pt_log].
      intros e He. apply in_app_or in He. destruct He as [He|[<-|[]]]; [apply (S i e He)|]. cbn. discriminate.
    + rewrite D4. pid_cases k i; [|apply S]. destruct (ignores (rd_what r) g) eqn:EI; [|apply S]. cbn [complete pt_log].
      intros e He. apply in_app_or in He. destruct He as [He|[<-|[]]]; [apply (S i e He)|]. cbn [e_what]. intros k' Hk. rewrite Hk in EI. discriminate.
  - apply next_views in E1. destruct E1 as (r & rs & _ & _ & _ & _ & _ & E6). rewrite E6. pid_cases k i; apply S.
  - unfold do_close in E1. destruct (pt_status (sy_party s i)); try discriminate; injection E1 as <-; cbn [sy_party]; pid_cases k i; apply S.
Qed.

(** ** The results follow the program *)

Definition left_with (p : party) (j : pid) : list what :=
  match pt_rounds p with
  | [] => []
  | r :: rs => match cur_get (pt_cur p) j with Some PStart | Some (PSent _) => [rd_what r] | _ => [] end ++ rounds_with j rs
  end.

Definition follows (progs : pid -> list round) (s : sys) : Prop :=
  forall i j, map e_what (with_peer j (pt_log (sy_party s i))) ++ left_with (sy_party s i) j = rounds_with j (progs i).

Lemma left_new rs j log st : left_with {| pt_rounds := rs; pt_cur := start_round rs; pt_log := log; pt_status := st |} j = rounds_with j rs.
Proof.
  unfold left_with. cbn [pt_rounds pt_cur]. destruct rs as [|r rs]; [reflexivity|]. rewrite cur_get_start. unfold rounds_with at 2. cbn [flat_map].
  destruct (existsb _ _); reflexivity.
Qed.

Lemma follows_start progs : follows progs (start progs).
Proof. intros i j. cbn [start sy_party]. unfold new_party. rewrite left_new. reflexivity. Qed.

Lemma follows_step progs cap s a s' : step cap s a = Some s' -> follows progs s -> follows progs s'.
Proof.
  intros E H k j0. destruct a as [i j|i j|i j|i|i g cuts]; cbn [step] in E.
  - apply send_views in E. destruct E as (r & rs & m & E1 & E2 & E3 & _ & _ & _ & _ & E8 & _). rewrite E8. pid_cases k i; [|apply H].
    rewrite <- (H i j0). cbn [pt_log]. f_equal. unfold left_with. cbn [pt_rounds pt_cur]. rewrite E1, cur_get_set.
    destruct (Nat.eqb_spec j0 j) as [->|]; [|reflexivity]. rewrite E3. reflexivity.
  - apply fail_views in E. destruct E as (E1 & E2 & ->). cbn [sy_party]. pid_cases k i; apply H.
  - apply recv_views in E. destruct E as (r & rs & own & E1 & E2 & E3 & E4 & D).
    assert (C : forall got, map e_what (with_peer j0 (pt_log (complete (sy_party s i) j (rd_what r) own got)))
       ++ left_with (complete (sy_party s i) j (rd_what r) own got) j0 = rounds_with j0 (progs i)).
    { intros got. rewrite <- (H i j0). cbn [complete pt_log]. rewrite with_peer_app, map_app, <- app_assoc. f_equal.
      unfold left_with. cbn [complete pt_rounds pt_cur]. rewrite E1, cur_get_set. cbn [with_peer filter e_peer]. rewrite (Nat.eqb_sym j j0).
      destruct (Nat.eqb_spec j0 j) as [->|]; [|reflexivity]. rewrite E3. reflexivity. }
    destruct D as [(m & q & _ & _ & D3)|(_ & _ & _ & g & D4)].
    + rewrite D3. pid_cases k i; [|apply H]. destruct (accepts (rd_what r) m); [apply C|apply H].
    + rewrite D4. pid_cases k i; [|apply H]. destruct (ignores (rd_what r) g); [apply C|apply H].
  - apply next_views in E. destruct E as (r & rs & E1 & E2 & E3 & E4 & E5 & E6). rewrite E6. pid_cases k i; [|apply H].
    rewrite left_new, <- (H i j0). cbn [pt_log]. f_equal. unfold left_with. rewrite E1.
    destruct (cur_get (pt_cur (sy_party s i)) j0) as [x|] eqn:EC; [|reflexivity].
    apply cur_get_In in EC. rewrite forallb_forall in E3. specialize (E3 _ EC). cbn in E3. destruct x; try discriminate. reflexivity.
  - unfold do_close in E. destruct (pt_status (sy_party s i)); try discriminate; injection E as <-; cbn [sy_party]; pid_cases k i; apply H.
Qed.

Lemma follows_steps progs cap l : forall s s', steps cap s l = Some s' -> follows progs s -> follows progs s'.
Proof.
  induction l as [|a l IH]; intros s s' E H; [injection E as <-; auto|].
  cbn [steps] in E. destruct (step cap s a) as [s1|] eqn:E1; [|discriminate]. cbn [obind] in E.
  exact (IH s1 s' E (follows_step _ _ _ _ _ E1 H)).
Qed.
