(** Property C49: communication statistics. *)
From Coq Require Import List Bool Arith Lia.
Require Import Verif.Prelude Verif.PreludeProofs Verif.StatModel.
Import ListNotations.

(** ** Specification *)

(** Which counters count sent bytes; the others count received bytes. *)
Definition direction := nat -> bool.

(** Bytes transferred in an execution, per direction. *)
Definition moved (d : direction) (dir : bool) (es : list sevent) : nat :=
  sum_list (map (fun e => match e with EvTraffic c n => if Bool.eqb (d c) dir then n else 0 | _ => 0 end) es).

(** Bytes in the counters, per direction. *)
Definition in_counters (d : direction) (dir : bool) (cnt : list nat) : nat :=
  sum_list (map (fun i => if Bool.eqb (d i) dir then nth i cnt 0 else 0) (seq 0 (length cnt))).

(** All counters exist and helper counters have the right direction. *)
Definition events_ok (d : direction) (counters : nat) (es : list sevent) : Prop :=
  forall e, In e es -> match e with
    | EvTraffic c _ => c < counters
    | EvCall (SSetHelper a b) => a < counters /\ b < counters /\ d a = true /\ d b = false
    | _ => True end.

(** ** Proofs *)

Lemma rec_add_total f ph n m : (f = fst \/ f = snd) ->
  sum_list (map (fun e : phase * (nat * nat) => f (snd e)) (rec_add ph n m)) =
  sum_list (map (fun e => f (snd e)) m) + f n.
Proof.
  intros Hf. induction m as [|[p x] m IH]; simpl.
  - destruct Hf; subst; simpl; lia.
  - destruct (phase_eqb ph p); simpl; rewrite ?IH; destruct Hf; subst; simpl; lia.
Qed.

Lemma sum_upd (g : nat -> nat -> nat) c v : forall cnt k, c < length cnt ->
  sum_list (map (fun i => g (k + i) (nth i (upd c v cnt) 0)) (seq 0 (length cnt))) + g (k + c) (nth c cnt 0) =
  sum_list (map (fun i => g (k + i) (nth i cnt 0)) (seq 0 (length cnt))) + g (k + c) v.
Proof.
  induction c as [|c IH]; intros [|x cnt] k H; simpl in H; try lia.
  - cbn [length seq map upd nth sum_list fold_right]. rewrite <- seq_shift, !map_map.
    cbn [nth]. fold (sum_list). lia.
  - cbn [length seq map upd nth sum_list fold_right]. rewrite <- seq_shift, !map_map.
    specialize (IH cnt (S k) ltac:(lia)). rewrite (map_ext _ (fun i => g (S k + i) (nth i (upd c v cnt) 0))).
    2:{ intros i. cbn [nth]. f_equal. lia. }
    rewrite (map_ext (fun x0 => g (k + S x0) (nth (S x0) (x :: cnt) 0)) (fun i => g (S k + i) (nth i cnt 0))).
    2:{ intros i. cbn [nth]. f_equal. lia. }
    replace (k + S c) with (S k + c) by lia. unfold sum_list in *. lia.
Qed.

Lemma counters_upd d dir c v cnt : c < length cnt ->
  in_counters d dir (upd c v cnt) + (if Bool.eqb (d c) dir then nth c cnt 0 else 0) =
  in_counters d dir cnt + (if Bool.eqb (d c) dir then v else 0).
Proof.
  intros H. unfold in_counters. rewrite upd_length.
  exact (sum_upd (fun i y => if Bool.eqb (d i) dir then y else 0) c v cnt 0 H).
Qed.

Definition pair_ok (d : direction) (k : nat) (p : nat * nat) : Prop :=
  fst p < k /\ snd p < k /\ d (fst p) = true /\ d (snd p) = false.
Definition micro_ok (d : direction) (k : nat) (m : micro) : Prop :=
  match m with MResetSend c => c < k /\ d c = true | MResetRecv c => c < k /\ d c = false | _ => True end.
(** Sums can be left in the local pair only while a call runs, and the last step
    of a call records them. *)
Definition ends_ok (acc : nat * nat) (l : list micro) : Prop :=
  match l with
  | [] => acc = (0, 0)
  | _ => match last l MUnaccounted with MUnaccounted | MRecord _ => True | _ => False end
  end.

Record sinv (d : direction) (k : nat) (x : sstate) (sent rcvd : nat) : Prop := {
  sv_len : length (ss_cnt x) = k;
  sv_main : pair_ok d k (st_main (ss_st x));
  sv_helper : forall h, st_helper (ss_st x) = Some h -> pair_ok d k h;
  sv_prev : st_prev (ss_st x) = None;
  sv_todo : Forall (micro_ok d k) (ss_todo x);
  sv_end : ends_ok (ss_acc x) (ss_todo x);
  sv_sent : total_sent (ss_st x) + fst (ss_acc x) + in_counters d true (ss_cnt x) = sent;
  sv_rcvd : total_recv (ss_st x) + snd (ss_acc x) + in_counters d false (ss_cnt x) = rcvd }.

Lemma ends_tail acc acc' m l : ends_ok acc (m :: l) ->
  (match m with MUnaccounted | MRecord _ => acc' = (0, 0) | _ => True end) -> ends_ok acc' l.
Proof.
  destruct l as [|m' l]; simpl; auto.
  - destruct m; simpl; try tauto.
Qed.

Lemma pair_reset_ok d k p : pair_ok d k p -> Forall (micro_ok d k) (pair_reset p).
Proof. intros (A & B & C & D). repeat constructor; simpl; auto. Qed.

Lemma last_app_one (l : list micro) x dft : last (l ++ [x]) dft = x.
Proof. apply last_last. Qed.

Lemma event_inv d k x e x' sent rcvd : sinv d k x sent rcvd -> events_ok d k [e] -> s_event x e = Some x' ->
  sinv d k x' (sent + moved d true [e]) (rcvd + moved d false [e]).
Proof.
  intros HI HE HS. specialize (HE e (or_introl eq_refl)).
  assert (Q : forall l, Forall (micro_ok d k) l -> Forall (micro_ok d k) (l ++ [MUnaccounted])).
  { intros l H. apply Forall_app. split; auto. repeat constructor. }
  assert (QU : forall s, pair_ok d k (st_main s) -> (forall h, st_helper s = Some h -> pair_ok d k h) ->
     Forall (micro_ok d k) (m_unaccounted s)).
  { intros s A B. unfold m_unaccounted. rewrite app_assoc. apply Q. apply Forall_app. split; [apply pair_reset_ok; auto|].
    destruct (st_helper s) as [h|]; [apply pair_reset_ok; auto|constructor]. }
  destruct e as [c n|c|]; cbn [s_event] in HS.
  - injection HS as <-. destruct HI as [I1 I2 I3 I4 I5 I6 I7 I8].
    assert (Hc : c < length (ss_cnt x)) by lia.
    constructor; cbn [ss_cnt ss_st ss_acc ss_todo]; auto; [rewrite upd_length; auto| |];
      unfold moved; cbn [map sum_list fold_right].
    + pose proof (counters_upd d true c (nth c (ss_cnt x) 0 + n) (ss_cnt x) Hc). destruct (Bool.eqb (d c) true); lia.
    + pose proof (counters_upd d false c (nth c (ss_cnt x) 0 + n) (ss_cnt x) Hc). destruct (Bool.eqb (d c) false); lia.
  - unfold moved; cbn [map sum_list fold_right]. rewrite !Nat.add_0_r.
    destruct HI as [I1 I2 I3 I4 I5 I6 I7 I8]. destruct x as [cnt s acc todo]. cbn [ss_cnt ss_st ss_acc ss_todo] in *.
    destruct todo; [|discriminate]. cbn [ends_ok] in I6. subst acc. cbn [fst snd] in *.
    assert (HE' : forall ms, ms <> [] -> match last ms MUnaccounted with MUnaccounted | MRecord _ => True | _ => False end ->
       ends_ok (0, 0) ms).
    { intros [|m ms]; [reflexivity|]. auto. }
    destruct c as [ph|ph|a b|b|]; cbn [s_start] in HS.
    + cbn [obind] in HS. injection HS as <-. constructor; cbn [ss_cnt ss_st ss_acc ss_todo fst snd]; auto.
      * unfold m_record_for. apply Forall_app. split; [apply QU; auto|]. apply Forall_app. split; [apply pair_reset_ok; auto|repeat constructor].
      * apply HE'; unfold m_record_for; rewrite app_assoc; [destruct (m_unaccounted s ++ _); discriminate|]. rewrite last_app_one. auto.
    + destruct (st_helper s) as [h|] eqn:Eh; [|discriminate]. cbn [obind] in HS. injection HS as <-.
      constructor; cbn [ss_cnt ss_st ss_acc ss_todo fst snd]; auto.
      * intros h' H'. rewrite Eh in H'. injection H' as <-. auto.
      * unfold m_record_for. apply Forall_app. split; [apply QU; auto; intros h' H'; rewrite Eh in H'; injection H' as <-; auto|].
        apply Forall_app. split; [apply pair_reset_ok; auto|repeat constructor].
      * apply HE'; unfold m_record_for; rewrite app_assoc; [destruct (m_unaccounted s ++ _); discriminate|]. rewrite last_app_one. auto.
    + cbn [obind] in HS. injection HS as <-. constructor; cbn [ss_cnt ss_st ss_acc ss_todo fst snd st_main st_helper st_prev]; auto.
      * intros h H. injection H as <-. unfold pair_ok. cbn [fst snd]. tauto.
      * reflexivity.
    + cbn [obind] in HS. injection HS as <-. constructor; cbn [ss_cnt ss_st ss_acc ss_todo fst snd st_main st_helper st_prev]; auto.
      reflexivity.
    + cbn [obind] in HS. injection HS as <-. constructor; cbn [ss_cnt ss_st ss_acc ss_todo fst snd]; auto.
      apply HE'; unfold m_unaccounted; rewrite app_assoc; [destruct (pair_reset _ ++ _); discriminate|]. rewrite last_app_one. auto.
  - unfold moved; cbn [map sum_list fold_right]. rewrite !Nat.add_0_r.
    destruct HI as [I1 I2 I3 I4 I5 I6 I7 I8]. destruct x as [cnt s acc todo]. cbn [ss_cnt ss_st ss_acc ss_todo] in *.
    destruct todo as [|m todo]; [discriminate|]. inversion I5 as [|? ? Hm Htodo]; subst.
    destruct m as [c|c| |ph]; cbn [s_micro] in HS; injection HS as <-.
    + cbn [micro_ok] in Hm. destruct Hm as [Hc Hd].
      pose proof (counters_upd d true c 0 cnt ltac:(lia)) as U1. pose proof (counters_upd d false c 0 cnt ltac:(lia)) as U2.
      rewrite Hd in *. cbn [Bool.eqb] in *.
      constructor; cbn [ss_cnt ss_st ss_acc ss_todo fst snd]; auto; try lia; [rewrite upd_length; auto|].
      eapply ends_tail; [exact I6|exact I].
    + cbn [micro_ok] in Hm. destruct Hm as [Hc Hd].
      pose proof (counters_upd d true c 0 cnt ltac:(lia)) as U1. pose proof (counters_upd d false c 0 cnt ltac:(lia)) as U2.
      rewrite Hd in *. cbn [Bool.eqb] in *.
      constructor; cbn [ss_cnt ss_st ss_acc ss_todo fst snd]; auto; try lia; [rewrite upd_length; auto|].
      eapply ends_tail; [exact I6|exact I].
    + constructor; cbn [ss_cnt ss_st ss_acc ss_todo fst snd st_main st_helper st_prev]; auto.
      * eapply ends_tail; [exact I6|reflexivity].
      * unfold total_sent. cbn [st_recorded]. rewrite (rec_add_total fst) by auto. unfold total_sent in *. lia.
      * unfold total_recv. cbn [st_recorded]. rewrite (rec_add_total snd) by auto. unfold total_recv in *. lia.
    + constructor; cbn [ss_cnt ss_st ss_acc ss_todo fst snd st_main st_helper st_prev]; auto.
      * eapply ends_tail; [exact I6|reflexivity].
      * unfold total_sent. cbn [st_recorded]. rewrite (rec_add_total fst) by auto. unfold total_sent in *. lia.
      * unfold total_recv. cbn [st_recorded]. rewrite (rec_add_total snd) by auto. unfold total_recv in *. lia.
Qed.

Lemma moved_app d dir a b : moved d dir (a ++ b) = moved d dir a + moved d dir b.
Proof. unfold moved. rewrite map_app. unfold sum_list. induction (map _ a) as [|x l IH]; simpl; auto. rewrite IH. lia. Qed.

Lemma run_inv d k es : forall x x' sent rcvd, sinv d k x sent rcvd -> events_ok d k es -> s_run x es = Some x' ->
  sinv d k x' (sent + moved d true es) (rcvd + moved d false es).
Proof.
  induction es as [|e es IH]; intros x x' sent rcvd HI HE HR; unfold s_run in HR; cbn [ofold] in HR.
  - injection HR as <-. unfold moved. simpl. rewrite !Nat.add_0_r. auto.
  - destruct (s_event x e) as [x1|] eqn:E1; [|discriminate]. cbn [obind] in HR.
    assert (H1 : sinv d k x1 (sent + moved d true [e]) (rcvd + moved d false [e])).
    { eapply event_inv; eauto. intros e' [<-|[]]. apply HE. simpl; auto. }
    specialize (IH x1 x' _ _ H1 ltac:(intros e' H; apply HE; simpl; auto) HR).
    change (e :: es) with ([e] ++ es). rewrite !moved_app, !Nat.add_assoc. auto.
Qed.

Lemma init_inv d k a b : a < k -> b < k -> d a = true -> d b = false -> sinv d k (s_init k a b) 0 0.
Proof.
  intros Ha Hb Da Db. assert (Z : forall dir, in_counters d dir (repeat 0 k) = 0).
  { intros dir. unfold in_counters. induction (seq 0 (length (repeat 0 k))) as [|i l IH]; simpl; auto.
    rewrite nth_repeat, IH. destruct (Bool.eqb (d i) dir); auto. }
  constructor; cbn; auto.
  - apply repeat_length.
  - repeat split; auto.
  - discriminate.
  - apply Z.
  - apply Z.
Qed.

(** ** C49 *)

(** For every interleaving of traffic with the steps of any calls: the bytes
    recorded over all phases, plus the bytes in the local variables of a running
    call, plus the bytes in the counters are exactly the bytes transferred, in both
    directions; between calls nothing is in local variables. *)
Theorem C49_accounting :
  forall d k a b es x, a < k -> b < k -> d a = true -> d b = false -> events_ok d k es ->
  s_run (s_init k a b) es = Some x ->
  total_sent (ss_st x) + fst (ss_acc x) + in_counters d true (ss_cnt x) = moved d true es /\
  total_recv (ss_st x) + snd (ss_acc x) + in_counters d false (ss_cnt x) = moved d false es /\
  (ss_todo x = [] -> ss_acc x = (0, 0)).
Proof.
  intros d k a b es x Ha Hb Da Db HE HR.
  destruct (run_inv d k es _ _ 0 0 (init_inv d k a b Ha Hb Da Db) HE HR) as [I1 I2 I3 I4 I5 I6 I7 I8].
  split; auto. split; auto. intros E. rewrite E in I6. exact I6.
Qed.
Print Assumptions C49_accounting.


(** Traffic alone changes only the counters. *)
Definition only_traffic (es : list sevent) : Prop := forall e, In e es -> exists c n, e = EvTraffic c n.
(** Bytes transferred on one counter. *)
Definition moved_on (c : nat) (es : list sevent) : nat :=
  sum_list (map (fun e => match e with EvTraffic i n => if i =? c then n else 0 | _ => 0 end) es).

Lemma traffic_run es : only_traffic es -> forall cnt s acc todo x,
  s_run (SS cnt s acc todo) es = Some x ->
  exists cnt', x = SS cnt' s acc todo /\ length cnt' = length cnt /\
    forall c, c < length cnt -> nth c cnt' 0 = nth c cnt 0 + moved_on c es.
Proof.
  induction es as [|e es IH]; intros HT cnt s acc todo x HR.
  - injection HR as <-. exists cnt. split; [reflexivity|]. split; [reflexivity|]. intros c _. unfold moved_on. simpl. lia.
  - destruct (HT e (or_introl eq_refl)) as (i & n & ->). unfold s_run in HR. cbn [ofold s_event obind ss_cnt ss_st ss_acc ss_todo] in HR.
    destruct (IH ltac:(intros e' H; apply HT; simpl; auto) _ _ _ _ _ HR) as (cnt' & -> & L & N).
    rewrite upd_length in *. exists cnt'. split; [reflexivity|]. split; [lia|]. intros c Hc. rewrite N by auto.
    unfold moved_on, sum_list. cbn [map fold_right]. rewrite upd_nth.
    destruct (Nat.eqb_spec i c) as [->|Hn]; cbn [andb]; [|lia].
    rewrite (proj2 (Nat.ltb_lt c (length cnt)) Hc). lia.
Qed.

Lemma phase_eqb_eq a b : phase_eqb a b = true <-> a = b.
Proof. destruct a, b; simpl; split; intros H; try discriminate; auto; try (apply Nat.eqb_eq in H; subst; auto). injection H as ->. apply Nat.eqb_refl. Qed.

Definition rec_val (ph : phase) (m : list (phase * (nat * nat))) : nat * nat := match rec_get ph m with Some x => x | None => (0, 0) end.

Lemma rec_get_add ph q n m : rec_val ph (rec_add q n m) = if phase_eqb ph q then pair_add (rec_val ph m) n else rec_val ph m.
Proof.
  unfold rec_val. induction m as [|[p x] m IH]; cbn [rec_add rec_get].
  - destruct (phase_eqb ph q); reflexivity.
  - destruct (phase_eqb q p) eqn:Eq; cbn [rec_get].
    + apply phase_eqb_eq in Eq. subst p. destruct (phase_eqb ph q) eqn:E; reflexivity.
    + destruct (phase_eqb ph p) eqn:E; auto. apply phase_eqb_eq in E. subst p.
      destruct (phase_eqb ph q) eqn:E2; auto. apply phase_eqb_eq in E2. subst q.
      rewrite (proj2 (phase_eqb_eq ph ph) eq_refl) in Eq. discriminate.
Qed.

Lemma s_run_app x a b : s_run x (a ++ b) = (y <- s_run x a ;; s_run y b).
Proof. unfold s_run. revert x. induction a as [|e a IH]; intros x; auto. cbn [app ofold]. destruct (s_event x e); auto. apply IH. Qed.

(** The steps of [record_unaccounted] without traffic in between empty the
    counters of the struct and credit one phase. *)
Lemma unaccounted_steps cnt s todo :
  let cnt1 := upd (snd (st_main s)) 0 (upd (fst (st_main s)) 0 cnt) in
  exists acc, s_run (SS cnt s (0, 0) (m_unaccounted s ++ todo)) (repeat EvStep (length (m_unaccounted s))) =
  Some (SS (match st_helper s with Some h => upd (snd h) 0 (upd (fst h) 0 cnt1) | None => cnt1 end)
     (Stats (st_main s) (st_helper s)
        (rec_add (match st_as_prev s, st_prev s with true, Some p => p | _, _ => PhUnaccounted end) acc (st_recorded s))
        (st_prev s) (st_as_prev s)) (0, 0) todo).
Proof.
  destruct s as [[a b] [[h1 h2]|] r p f]; cbn -[rec_add]; eexists; reflexivity.
Qed.

Lemma upd0_nth c i cnt : nth c cnt 0 = 0 -> nth c (upd i 0 cnt) 0 = 0.
Proof. revert c i. induction cnt as [|y l IH]; intros [|c] [|i]; simpl; auto. Qed.
Lemma upd0_same c cnt : nth c (upd c 0 cnt) 0 = 0.
Proof. revert c. induction cnt as [|y l IH]; intros [|c]; simpl; auto. Qed.

Lemma idle_state d k x sent rcvd : sinv d k x sent rcvd -> ss_todo x = [] -> exists cnt s, x = SS cnt s (0, 0) [].
Proof. intros [_ _ _ _ _ I6 _ _] E. destruct x as [cnt s acc todo]. cbn in *. subst todo. cbn in I6. subst acc. eauto. Qed.

(** When [into_run_result] (or [get]) runs and the struct knows all counters, the
    totals of the run result are all bytes transferred in the whole execution. *)
Theorem C49_final_totals :
  forall d k a b es x x', a < k -> b < k -> d a = true -> d b = false -> events_ok d k es ->
  s_run (s_init k a b) es = Some x -> ss_todo x = [] ->
  (forall c, c < k -> c = fst (st_main (ss_st x)) \/ c = snd (st_main (ss_st x)) \/
     (exists h, st_helper (ss_st x) = Some h /\ (c = fst h \/ c = snd h))) ->
  s_run x (EvCall SFinish :: repeat EvStep (length (m_unaccounted (ss_st x)))) = Some x' ->
  ss_todo x' = [] /\ total_sent (ss_st x') = moved d true es /\ total_recv (ss_st x') = moved d false es.
Proof.
  intros d k a b es x x' Ha Hb Da Db HE HR Ht Hall HF.
  pose proof (run_inv d k es _ _ 0 0 (init_inv d k a b Ha Hb Da Db) HE HR) as HI. cbn [Nat.add] in HI.
  assert (Hev : events_ok d k (EvCall SFinish :: repeat EvStep (length (m_unaccounted (ss_st x))))).
  { intros e [<-|H]; [exact I|]. apply repeat_spec in H. subst. exact I. }
  pose proof (run_inv d k _ _ _ _ _ HI Hev HF) as HI'.
  assert (Hm : forall dir n, moved d dir (EvCall SFinish :: repeat EvStep n) = 0).
  { intros dir n. unfold moved. cbn [map sum_list fold_right]. induction n as [|n IH]; auto. }
  rewrite !Hm, !Nat.add_0_r in HI'.
  destruct (idle_state d k x _ _ HI Ht) as (cnt & s & ->). cbn [ss_st ss_cnt] in *.
  unfold s_run in HF. cbn [ofold s_event ss_todo ss_st ss_cnt ss_acc s_start obind] in HF.
  destruct (unaccounted_steps cnt s []) as (acc & HU). cbv zeta in HU. rewrite app_nil_r in HU.
  unfold s_run in HU. rewrite HU in HF. injection HF as <-. cbn [ss_todo ss_st]. split; auto.
  destruct HI' as [J1 _ _ _ _ _ J7 J8]. cbn [ss_cnt ss_st ss_acc fst snd] in J1, J7, J8.
  match type of J7 with context [in_counters d true ?c] => set (cnt' := c) in * end.
  assert (HZ : forall dir, in_counters d dir cnt' = 0).
  { intros dir. unfold in_counters.
    assert (A : forall c, c < k -> nth c cnt' 0 = 0).
    { intros c Hc. unfold cnt'. destruct (Hall c Hc) as [->|[->|(h & Eh & Hh)]].
      - assert (B : nth (fst (st_main s)) (upd (snd (st_main s)) 0 (upd (fst (st_main s)) 0 cnt)) 0 = 0) by (apply upd0_nth, upd0_same).
        destruct (st_helper s); auto. apply upd0_nth, upd0_nth. exact B.
      - assert (B : nth (snd (st_main s)) (upd (snd (st_main s)) 0 (upd (fst (st_main s)) 0 cnt)) 0 = 0) by apply upd0_same.
        destruct (st_helper s); auto. apply upd0_nth, upd0_nth. exact B.
      - rewrite Eh. destruct Hh as [->| ->]; [apply upd0_nth|]; apply upd0_same. }
    rewrite J1. clear -A. assert (G : forall l, (forall i, In i l -> i < k) -> sum_list (map (fun i => if Bool.eqb (d i) dir then nth i cnt' 0 else 0) l) = 0).
    { induction l as [|i l IH]; intros Hl; auto. unfold sum_list in *. cbn [map fold_right].
      rewrite (A i) by (apply Hl; simpl; auto). rewrite IH by (intros; apply Hl; simpl; auto).
      destruct (Bool.eqb (d i) dir); auto. }
    apply G. intros i Hi. apply in_seq in Hi. lia. }
  rewrite !HZ in *. lia.
Qed.
Print Assumptions C49_final_totals.

(** A [record] call without traffic during its own steps credits exactly the
    traffic of the body on the main channel to its phase, and no other traffic. *)
Theorem C49_phase_gets_body :
  forall d k a b es x body x' ph, a < k -> b < k -> d a = true -> d b = false -> events_ok d k es ->
  s_run (s_init k a b) es = Some x -> ss_todo x = [] -> ph <> PhUnaccounted -> only_traffic body ->
  s_run x (EvCall (SRecord ph) :: repeat EvStep (length (m_unaccounted (ss_st x))) ++ body ++ [EvStep; EvStep; EvStep]) = Some x' ->
  let main := st_main (ss_st x) in
  rec_val ph (st_recorded (ss_st x')) =
  pair_add (rec_val ph (st_recorded (ss_st x))) (moved_on (fst main) body, moved_on (snd main) body) /\
  forall q, q <> ph -> q <> PhUnaccounted ->
  rec_val q (st_recorded (ss_st x')) = rec_val q (st_recorded (ss_st x)).
Proof.
  intros d k a b es x body x' ph Ha Hb Da Db HE HR Ht Hph HB HF main.
  pose proof (run_inv d k es _ _ 0 0 (init_inv d k a b Ha Hb Da Db) HE HR) as HI. cbn [Nat.add] in HI.
  destruct (idle_state d k x _ _ HI Ht) as (cnt & s & ->). cbn [ss_st ss_cnt] in *.
  destruct HI as [I1 I2 I3 I4 _ _ _ _]. cbn [ss_st ss_cnt ss_acc] in *.
  unfold s_run in HF. cbn [ofold s_event ss_todo ss_st ss_cnt ss_acc s_start obind] in HF.
  match type of HF with ofold s_event ?y ?l = _ => change (s_run y l = Some x') in HF end. rewrite s_run_app in HF.
  unfold m_record_for in HF. destruct (unaccounted_steps cnt s (pair_reset (st_main s) ++ [MRecord ph])) as (acc & HU). cbv zeta in HU.
  rewrite HU in HF. cbn [obind] in HF. clear HU. rewrite s_run_app in HF.
  match type of HF with obind (s_run ?y body) _ = _ => destruct (s_run y body) as [y2|] eqn:EB; [|discriminate] end. cbn [obind] in HF.
  match type of EB with s_run (SS ?c ?st _ _) _ = _ => set (cnt1 := c) in *; set (s1 := st) in * end.
  destruct (traffic_run body HB _ _ _ _ _ EB) as (cnt2 & -> & L2 & N2).
  assert (L1 : length cnt1 = k). { unfold cnt1. destruct (st_helper s); rewrite !upd_length; auto. }
  destruct I2 as (M1 & M2 & M3 & M4).
  assert (Z1 : nth (fst main) cnt1 0 = 0).
  { unfold cnt1, main. assert (B : nth (fst (st_main s)) (upd (snd (st_main s)) 0 (upd (fst (st_main s)) 0 cnt)) 0 = 0) by (apply upd0_nth, upd0_same).
    destruct (st_helper s); auto. apply upd0_nth, upd0_nth. exact B. }
  assert (Z2 : nth (snd main) cnt1 0 = 0).
  { unfold cnt1, main. assert (B : nth (snd (st_main s)) (upd (snd (st_main s)) 0 (upd (fst (st_main s)) 0 cnt)) 0 = 0) by apply upd0_same.
    destruct (st_helper s); auto. apply upd0_nth, upd0_nth. exact B. }
  assert (Hne : fst (st_main s) <> snd (st_main s)) by (intros E; rewrite E in M3; congruence).
  unfold s_run in HF. cbn [ofold s_event s_micro pair_reset app obind] in HF. injection HF as <-. cbn [ss_st st_recorded].
  assert (PU : (match st_as_prev s with true => match st_prev s with Some p => p | None => PhUnaccounted end | false => PhUnaccounted end) = PhUnaccounted).
  { rewrite I4. destruct (st_as_prev s); reflexivity. }
  assert (NU : forall q, q <> PhUnaccounted -> phase_eqb q PhUnaccounted = false).
  { intros q Hq. destruct (phase_eqb q PhUnaccounted) eqn:E; auto. apply phase_eqb_eq in E. contradiction. }
  split.
  - rewrite rec_get_add, (proj2 (phase_eqb_eq ph ph) eq_refl). unfold s1. cbn [st_recorded]. rewrite PU, rec_get_add, (NU ph Hph).
    f_equal. cbn [fst snd Nat.add]. rewrite N2 by (rewrite L1; exact M1). fold main. rewrite Z1. cbn [Nat.add]. f_equal.
    assert (X : nth (snd (st_main s)) (upd (fst (st_main s)) 0 cnt2) 0 = nth (snd (st_main s)) cnt2 0).
    { rewrite upd_nth, (proj2 (Nat.eqb_neq _ _)) by auto. reflexivity. }
    unfold main in *. rewrite X, N2 by (rewrite L1; exact M2). rewrite Z2. reflexivity.
  - intros q Hq Hu. rewrite rec_get_add. destruct (phase_eqb q ph) eqn:E; [apply phase_eqb_eq in E; contradiction|].
    unfold s1. cbn [st_recorded]. rewrite PU, rec_get_add, (NU q Hu). reflexivity.
Qed.
Print Assumptions C49_phase_gets_body.

(** An execution with helper counters, traffic inside calls, between calls and
    between the steps of a call. *)
Definition d4 : direction := Nat.even.
Definition ex_events : list sevent :=
  [EvCall (SSetHelper 2 3); EvTraffic 0 5; EvCall (SRecord PhOnline); EvStep; EvTraffic 0 7; EvStep; EvStep; EvStep; EvStep;
   EvTraffic 1 11; EvStep; EvTraffic 2 13; EvStep; EvStep; EvTraffic 0 17; EvCall (SRecordHelper PhMts); EvStep].
Example C49_case :
  events_ok d4 4 ex_events /\
  match s_run (s_init 4 0 1) ex_events with
  | Some x => st_recorded (ss_st x) = [(PhUnaccounted, (5, 0)); (PhOnline, (7, 11))] /\ ss_acc x = (17, 0) /\ ss_cnt x = [0; 0; 13; 0]
  | None => False
  end /\ moved d4 true ex_events = 42.
Proof.
  split; [|vm_compute; auto].
  intros e H. repeat (destruct H as [<-|H]; [cbn; repeat split; auto; lia|]). destruct H.
Qed.

(** The switch never has an effect: [prev_phase] is never assigned, so removing
    every call that sets the switch does not change what is recorded. *)
Definition drop_switch (es : list sevent) : list sevent :=
  filter (fun e => match e with EvCall (SSetAsPrev _) => false | _ => true end) es.

Definition same_but_switch (x y : sstate) : Prop :=
  ss_cnt x = ss_cnt y /\ ss_acc x = ss_acc y /\ ss_todo x = ss_todo y /\
  st_main (ss_st x) = st_main (ss_st y) /\ st_helper (ss_st x) = st_helper (ss_st y) /\
  st_recorded (ss_st x) = st_recorded (ss_st y) /\ st_prev (ss_st x) = None /\ st_prev (ss_st y) = None.

Theorem C49_switch_has_no_effect :
  forall k a b es x, s_run (s_init k a b) es = Some x ->
  exists y, s_run (s_init k a b) (drop_switch es) = Some y /\ ss_cnt x = ss_cnt y /\ st_recorded (ss_st x) = st_recorded (ss_st y).
Proof.
  intros k a b es x HR.
  assert (G : forall es x y x', same_but_switch x y -> s_run x es = Some x' ->
    exists y', s_run y (drop_switch es) = Some y' /\ same_but_switch x' y').
  { clear. induction es as [|e es IH]; intros x y x' HS HR.
    - injection HR as <-. exists y. auto.
    - unfold s_run in HR. cbn [ofold] in HR. destruct (s_event x e) as [x1|] eqn:E1; [|discriminate]. cbn [obind] in HR.
      assert (S : (exists v, e = EvCall (SSetAsPrev v)) /\ same_but_switch x1 y \/
                  drop_switch (e :: es) = e :: drop_switch es /\ exists y1, s_event y e = Some y1 /\ same_but_switch x1 y1).
      { destruct x as [cnt [m h r p f] acc todo], y as [cnt' [m' h' r' p' f'] acc' todo'].
        destruct HS as (A1 & A2 & A3 & A4 & A5 & A6 & A7 & A8). cbn in A1, A2, A3, A4, A5, A6, A7, A8. subst.
        destruct e as [c n|c|].
        - right. split; [reflexivity|]. injection E1 as <-. eexists. split; [reflexivity|]. repeat split.
        - destruct todo'; [|discriminate]. destruct c as [ph|ph|u v|v|]; cbn in E1.
          + right. split; [reflexivity|]. injection E1 as <-. eexists. split; [reflexivity|]. repeat split.
          + right. split; [reflexivity|]. destruct h' as [h'|]; [|discriminate]. injection E1 as <-. eexists. split; [reflexivity|]. repeat split.
          + right. split; [reflexivity|]. injection E1 as <-. eexists. split; [reflexivity|]. repeat split.
          + left. injection E1 as <-. split; [eauto|]. repeat split.
          + right. split; [reflexivity|]. injection E1 as <-. eexists. split; [reflexivity|]. repeat split.
        - right. split; [reflexivity|]. destruct todo' as [|[c|c| |ph] todo']; [discriminate| | | |]; cbn in E1; injection E1 as <-;
            eexists; (split; [reflexivity|]); repeat split. cbn. destruct f, f'; reflexivity. }
      destruct S as [[(v & ->) S]|[Hd (y1 & Ey & S)]].
      + exact (IH _ _ _ S HR).
      + rewrite Hd. unfold s_run. cbn [ofold]. rewrite Ey. cbn [obind]. exact (IH _ _ _ S HR). }
  destruct (G es (s_init k a b) (s_init k a b) x) as (y & Hy & S); auto; [repeat split|].
  exists y. destruct S as (A1 & _ & _ & _ & _ & A6 & _). auto.
Qed.
Print Assumptions C49_switch_has_no_effect.

(** With the switch on, traffic after a phase is not credited to that phase. *)
Theorem C49_previous_refuted : exists x,
  s_run (s_init 2 0 1)
    ([EvCall (SSetAsPrev true); EvCall (SRecord PhOnline); EvStep; EvStep; EvStep; EvTraffic 0 10; EvStep; EvStep; EvStep] ++
     [EvTraffic 0 7; EvCall (SRecord PhMts); EvStep; EvStep; EvStep; EvStep; EvStep; EvStep]) = Some x /\ ss_todo x = [] /\
  rec_get PhOnline (st_recorded (ss_st x)) = Some (10, 0) /\ rec_get PhUnaccounted (st_recorded (ss_st x)) = Some (7, 0).
Proof.
  exists (SS [0; 0] (Stats (0, 1) None [(PhUnaccounted, (7, 0)); (PhOnline, (10, 0)); (PhMts, (0, 0))] None true) (0, 0) []).
  split; [vm_compute; reflexivity|]. repeat split.
Qed.
Print Assumptions C49_previous_refuted.
