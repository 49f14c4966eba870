(** Proofs about the multi-party channels. *)
From Coq Require Import List Bool Arith Lia.
Require Import Verif.Prelude Verif.PreludeProofs Verif.CircuitProofs Verif.ChannelModel Verif.ChannelSpec.
Import ListNotations.

(** ** Maps *)

Lemma hm_get_insert {V} k k' (v : V) m : hm_get k (hm_insert k' v m) = if k =? k' then Some v else hm_get k m.
Proof.
  induction m as [|[a b] m IH]; simpl; [reflexivity|].
  destruct (Nat.eqb_spec k' a); simpl.
  - subst. destruct (Nat.eqb_spec k a); auto.
  - rewrite IH. destruct (Nat.eqb_spec k a), (Nat.eqb_spec k k'); auto; congruence.
Qed.

Lemma hm_get_In {V} k (m : list (nat * V)) : hm_get k m <> None <-> In k (map fst m).
Proof.
  induction m as [|[a b] m IH]; simpl; [tauto|]. destruct (Nat.eqb_spec k a).
  - subst. split; auto; discriminate.
  - rewrite IH. intuition congruence.
Qed.

Lemma hm_insert_keys {V} k (v : V) m : NoDup (map fst m) -> NoDup (map fst (hm_insert k v m)).
Proof.
  induction m as [|[a b] m IH]; simpl; intros H; [repeat constructor; auto|].
  inversion H; subst. destruct (Nat.eqb_spec k a); simpl; [subst; constructor; auto|].
  constructor; auto. intros Hin. apply hm_get_In in Hin. rewrite hm_get_insert in Hin.
  destruct (Nat.eqb_spec a k); [congruence|]. apply hm_get_In in Hin. tauto.
Qed.

(** ** The wiring of [new_local] *)

Definition chan_of (ends : list mchan) (i j : nat) : option nat :=
  match nth_error ends i with Some e => hm_get j (mc_senders e) | None => None end.
Definition rchan_of (ends : list mchan) (j i : nat) : option nat :=
  match nth_error ends j with Some e => hm_get i (mc_receivers e) | None => None end.

Record wires (n : nat) (L : list (nat * nat)) (ends : list mchan) (k : nat) : Prop := {
  w_len : length ends = n;
  w_send : forall i j ch, chan_of ends i j = Some ch -> In (i, j) L /\ i <> j /\ ch < k;
  w_both : forall i j ch, chan_of ends i j = Some ch <-> rchan_of ends j i = Some ch;
  w_all : forall i j, In (i, j) L -> i <> j -> exists ch, chan_of ends i j = Some ch;
  w_inj : forall i j i' j' ch, chan_of ends i j = Some ch -> chan_of ends i' j' = Some ch -> i = i' /\ j = j';
  w_keys : forall i e, nth_error ends i = Some e -> NoDup (map fst (mc_senders e)) }.

Lemma nth_error_upd {A} i (v : A) l j : nth_error (upd i v l) j = if (j =? i) && (j <? length l) then Some v else nth_error l j.
Proof.
  revert i j. induction l as [|x l IH]; intros [|i] [|j]; simpl; auto.
  - rewrite andb_false_r. auto.
  - rewrite IH. reflexivity.
Qed.

Lemma local_step_wires {M} u32 n L ends (qs : list (list M)) p o :
  n <= u32 -> p < n -> o < n -> wires n L ends (length qs) -> ~ In (p, o) L ->
  wires n (L ++ [(p, o)]) (snd (local_step u32 (qs, ends) (p, o))) (length (fst (local_step u32 (qs, ends) (p, o)))).
Proof.
  intros Hu Hp Ho HW Hni. unfold local_step. destruct (Nat.eqb_spec p o) as [<-|Hne].
  { simpl. constructor; try apply HW.
    - intros i j ch H. destruct (w_send _ _ _ _ HW _ _ _ H) as (A & B & C). rewrite in_app_iff. auto.
    - intros i j H1 H2. apply in_app_iff in H1. destruct H1 as [H1|[H1|[]]].
      + apply (w_all _ _ _ _ HW); auto.
      + injection H1 as <- <-. congruence. }
  rewrite !Nat.mod_small by lia. cbn [fst snd].
  set (ch := length qs).
  set (r1 := upd p (MC (hm_insert o ch (mc_senders (nth p ends mc_default))) (mc_receivers (nth p ends mc_default))) ends).
  set (r2 := upd o (MC (mc_senders (nth o r1 mc_default)) (hm_insert p ch (mc_receivers (nth o r1 mc_default)))) r1).
  pose proof (w_len _ _ _ _ HW) as HL.
  assert (L1 : length r1 = n) by (unfold r1; rewrite upd_length; auto).
  assert (E1 : nth_error r1 o = Some (nth o ends mc_default)).
  { unfold r1. rewrite nth_error_upd. destruct (Nat.eqb_spec o p); [congruence|]. simpl. apply nth_error_nth'. lia. }
  assert (N1 : nth o r1 mc_default = nth o ends mc_default) by (apply (nth_error_nth _ _ mc_default) in E1; auto).
  assert (HS : forall i e, nth_error r2 i = Some e ->
     (exists e0, nth_error ends i = Some e0 /\
       mc_senders e = (if i =? p then hm_insert o ch (mc_senders e0) else mc_senders e0) /\
       mc_receivers e = (if i =? o then hm_insert p ch (mc_receivers e0) else mc_receivers e0))).
  { intros i e He. unfold r2 in He. rewrite nth_error_upd, L1, N1 in He.
    destruct (Nat.eqb_spec i o) as [->|Hio].
    - simpl in He. destruct (Nat.ltb_spec o n); [|lia]. injection He as <-. exists (nth o ends mc_default).
      split; [apply nth_error_nth'; lia|]. destruct (Nat.eqb_spec o p); [congruence|]. auto.
    - simpl in He. unfold r1 in He. rewrite nth_error_upd, HL in He. destruct (Nat.eqb_spec i p) as [->|Hip].
      + simpl in He. destruct (Nat.ltb_spec p n); [|lia]. injection He as <-. exists (nth p ends mc_default).
        split; [apply nth_error_nth'; lia|auto].
      + simpl in He. exists e. auto. }
  assert (L2 : length r2 = n) by (unfold r2; rewrite upd_length; auto).
  assert (HC : forall i j, chan_of r2 i j = if (i =? p) && (j =? o) then Some ch else chan_of ends i j).
  { intros i j. unfold chan_of. destruct (nth_error r2 i) as [e|] eqn:Ee.
    - destruct (HS i e Ee) as (e0 & -> & -> & _). destruct (Nat.eqb_spec i p); simpl; auto.
      rewrite hm_get_insert. destruct (j =? o); auto.
    - apply nth_error_None in Ee. destruct (Nat.eqb_spec i p); [lia|]. simpl.
      rewrite (proj2 (nth_error_None ends i)) by lia. auto. }
  assert (HR : forall i j, rchan_of r2 j i = if (i =? p) && (j =? o) then Some ch else rchan_of ends j i).
  { intros i j. unfold rchan_of. destruct (nth_error r2 j) as [e|] eqn:Ee.
    - destruct (HS j e Ee) as (e0 & -> & _ & ->). destruct (Nat.eqb_spec j o); simpl; rewrite ?andb_false_r; auto.
      rewrite hm_get_insert. destruct (i =? p); auto.
    - apply nth_error_None in Ee. destruct (Nat.eqb_spec j o); [lia|]. rewrite andb_false_r.
      rewrite (proj2 (nth_error_None ends j)) by lia. auto. }
  rewrite app_length. simpl. fold ch.
  constructor; auto.
  - intros i j c. rewrite HC. destruct (Nat.eqb_spec i p), (Nat.eqb_spec j o); simpl; intros H;
      try (destruct (w_send _ _ _ _ HW _ _ _ H) as (A & B & C); rewrite in_app_iff; repeat split; auto; unfold ch; lia).
    injection H as <-. subst. rewrite in_app_iff. simpl. repeat split; auto. lia.
  - intros i j c. rewrite HC, HR. destruct ((i =? p) && (j =? o)); [tauto|]. apply (w_both _ _ _ _ HW).
  - intros i j H1 H2. rewrite HC. destruct ((i =? p) && (j =? o)) eqn:E; [eauto|].
    apply in_app_iff in H1. destruct H1 as [H1|[H1|[]]]; [apply (w_all _ _ _ _ HW); auto|].
    injection H1 as <- <-. rewrite !Nat.eqb_refl in E. discriminate.
  - intros i j i' j' c. rewrite !HC.
    assert (HB : forall a b x, chan_of ends a b = Some x -> x < ch) by (intros a b x H; apply (w_send _ _ _ _ HW) in H; tauto).
    destruct (Nat.eqb_spec i p), (Nat.eqb_spec j o), (Nat.eqb_spec i' p), (Nat.eqb_spec j' o); simpl; intros H1 H2; subst;
      repeat match goal with H : Some ch = Some _ |- _ => injection H as <- end; auto;
      repeat match goal with H : chan_of _ _ _ = Some ch |- _ => apply HB in H; lia end;
      apply (w_inj _ _ _ _ HW _ _ _ _ _ H1 H2).
  - intros i e He. destruct (HS i e He) as (e0 & H0 & -> & _). pose proof (w_keys _ _ _ _ HW _ _ H0).
    destruct (i =? p); auto. apply hm_insert_keys; auto.
Qed.

Lemma list_prod_NoDup {A B} (l1 : list A) (l2 : list B) : NoDup l1 -> NoDup l2 -> NoDup (list_prod l1 l2).
Proof.
  intros N1 N2. induction N1 as [|a l1 Ha N1 IH]; simpl; [constructor|].
  apply NoDup_app_intro; auto.
  - apply FinFun.Injective_map_NoDup; auto. intros x y E. congruence.
  - intros x Hx Hy. apply in_map_iff in Hx. destruct Hx as (y & <- & _). apply in_prod_iff in Hy. tauto.
Qed.

Lemma new_local_wires {M} u32 n : n <= u32 ->
  wires n (list_prod (seq 0 n) (seq 0 n)) (snd (@new_local M u32 n)) (length (fst (@new_local M u32 n))) /\
  Forall (fun q => q = []) (fst (@new_local M u32 n)).
Proof.
  intros Hu. unfold new_local.
  assert (HN : NoDup (list_prod (seq 0 n) (seq 0 n))) by (apply list_prod_NoDup; apply seq_NoDup).
  assert (HB : forall x, In x (list_prod (seq 0 n) (seq 0 n)) -> fst x < n /\ snd x < n).
  { intros [a b] H. apply in_prod_iff in H. rewrite !in_seq in H. simpl. lia. }
  assert (H0 : wires n [] (repeat mc_default n) (length (@nil (list M)))).
  { assert (HE : forall i e, nth_error (repeat mc_default n) i = Some e -> e = mc_default).
    { intros i e H. apply nth_error_In in H. apply repeat_spec in H. auto. }
    constructor.
    - apply repeat_length.
    - intros i j ch. unfold chan_of. destruct (nth_error _ i) as [e|] eqn:E; [|discriminate]. rewrite (HE _ _ E). discriminate.
    - intros i j ch. unfold chan_of, rchan_of. destruct (nth_error _ i) as [e|] eqn:E; [rewrite (HE _ _ E)|];
        (destruct (nth_error (repeat mc_default n) j) as [e'|] eqn:E'; [rewrite (HE _ _ E')|]); split; discriminate.
    - intros i j [].
    - intros i j i' j' ch. unfold chan_of. destruct (nth_error _ i) as [e|] eqn:E; [|discriminate]. rewrite (HE _ _ E). discriminate.
    - intros i e E. rewrite (HE _ _ E). constructor. }
  assert (Q : forall L1 L0 (qs : list (list M)) ends, NoDup (L0 ++ L1) -> (forall x, In x L1 -> fst x < n /\ snd x < n) ->
    wires n L0 ends (length qs) -> Forall (fun q => q = []) qs ->
    let r := fold_left (local_step u32) L1 (qs, ends) in wires n (L0 ++ L1) (snd r) (length (fst r)) /\ Forall (fun q => q = []) (fst r)).
  { clear HN HB H0. induction L1 as [|[p o] L1 IH]; intros L0 qs ends HN HB HW HF; simpl.
    - rewrite app_nil_r. auto.
    - destruct (HB (p, o)) as [Hp Ho]; [simpl; auto|]. simpl in Hp, Ho.
      assert (Hni : ~ In (p, o) L0).
      { intros Hin. apply NoDup_remove_2 in HN. apply HN. rewrite in_app_iff. auto. }
      pose proof (local_step_wires u32 n L0 ends qs p o Hu Hp Ho HW Hni) as HS.
      assert (HF' : Forall (fun q => q = []) (fst (local_step u32 (qs, ends) (p, o)))).
      { unfold local_step. destruct (p =? o); simpl; auto. apply Forall_app. auto. }
      change (if p =? o then (qs, ends) else _) with (local_step u32 (qs, ends) (p, o)).
      destruct (local_step u32 (qs, ends) (p, o)) as [qs' ends'] eqn:E. cbn [fst snd] in HS, HF'.
      specialize (IH (L0 ++ [(p, o)]) qs' ends'). rewrite <- app_assoc in IH. simpl in IH. apply IH; auto. intros x Hx. apply HB. simpl; auto. }
  apply (Q (list_prod (seq 0 n) (seq 0 n)) [] [] (repeat mc_default n)); auto.
Qed.

(** ** The system *)

Lemma knows_iff n i t : knows n i t = true <-> t < n /\ t <> i.
Proof. unfold knows. rewrite andb_true_iff, Nat.ltb_lt, negb_true_iff, Nat.eqb_neq. tauto. Qed.

Section Sys.
Context {M : Type}.
Variables (n : nat) (E : list mchan) (k : nat).
Hypothesis HW : wires n (list_prod (seq 0 n) (seq 0 n)) E k.

Lemma chan_knows i j : i < n -> (exists ch, chan_of E i j = Some ch) <-> knows n i j = true.
Proof.
  intros Hi. rewrite knows_iff. split.
  - intros (ch & H). apply (w_send _ _ _ _ HW) in H. destruct H as (A & B & C). apply in_prod_iff in A.
    rewrite !in_seq in A. split; [lia|congruence].
  - intros [A B]. apply (w_all _ _ _ _ HW); auto. apply in_prod_iff. rewrite !in_seq. lia.
Qed.

Lemma chan_lt i j ch : chan_of E i j = Some ch -> i < n /\ j < n /\ i <> j /\ ch < k.
Proof.
  intros H. apply (w_send _ _ _ _ HW) in H. destruct H as (A & B & C). apply in_prod_iff in A.
  rewrite !in_seq in A. lia.
Qed.

Lemma futs_ok i e to : nth_error E i = Some e -> i < n ->
  match send_futs (mc_senders e) to with
  | inl u => In u to /\ forallb (knows n i) to = false /\ knows n i u = false
  | inr chs => forallb (knows n i) to = true /\
      (forall ch, In ch chs -> exists j, chan_of E i j = Some ch) /\
      (forall j ch, chan_of E i j = Some ch -> count_occ Nat.eq_dec chs ch = count_occ Nat.eq_dec to j)
  end.
Proof.
  intros He Hi. assert (HC : forall j, chan_of E i j = hm_get j (mc_senders e)) by (intros j; unfold chan_of; rewrite He; auto).
  induction to as [|t to IH]; simpl.
  - split; auto. split; [intros ch []|auto].
  - rewrite <- HC. destruct (chan_of E i t) as [ct|] eqn:Et.
    + assert (Kt : knows n i t = true) by (apply chan_knows; eauto). rewrite Kt. simpl.
      destruct (send_futs (mc_senders e) to) as [u|chs].
      * destruct IH as (A & B & C). auto.
      * destruct IH as (A & B & C). split; auto. split.
        -- intros ch [<-|H]; eauto.
        -- intros j ch Hj. simpl. rewrite (C j ch Hj).
           destruct (Nat.eq_dec ct ch) as [->|], (Nat.eq_dec t j) as [->|]; auto.
           ++ exfalso. destruct (w_inj _ _ _ _ HW _ _ _ _ _ Et Hj). auto.
           ++ congruence.
    + assert (Kt : knows n i t = false).
      { destruct (knows n i t) eqn:Ek; auto. apply chan_knows in Ek; auto. destruct Ek as (ch & Ek). congruence. }
      rewrite Kt. simpl. auto.
Qed.

Lemma call_addressed i e (c : call M) to m j : nth_error E i = Some e -> i < n -> call_to e c = Some (to, m) ->
  addressed n i j c = if forallb (knows n i) to then repeat m (count_occ Nat.eq_dec to j) else [].
Proof.
  intros He Hi. destruct c as [to' m'|m'|f]; simpl; intros H; try discriminate; injection H as <- <-; auto.
  assert (HC : forall j, chan_of E i j = hm_get j (mc_senders e)) by (intros x; unfold chan_of; rewrite He; auto).
  assert (HK : forall t, In t (map fst (mc_senders e)) <-> knows n i t = true).
  { intros t. rewrite <- hm_get_In, <- HC, <- chan_knows by auto. destruct (chan_of E i t); split; try congruence.
    - eauto.
    - intros (? & ?); discriminate. }
  rewrite (proj2 (forallb_forall _ _)) by (intros x Hx; apply HK; auto).
  pose proof (w_keys _ _ _ _ HW _ _ He) as HN. destruct (knows n i j) eqn:Ek.
  - rewrite (proj1 (NoDup_count_occ' Nat.eq_dec _) HN) by (apply HK; auto). reflexivity.
  - rewrite (proj1 (count_occ_not_In Nat.eq_dec _ _)); [reflexivity|]. rewrite HK. congruence.
Qed.

Definition pend_part (p : pst M) (ch : nat) : list M :=
  match ps_pend p with Some (chs, m) => repeat m (count_occ Nat.eq_dec chs ch) | None => [] end.

Variable progs : list (list (call M)).

Record sinv (s : sys M) (D : nat -> list (call M)) : Prop := {
  si_ends : sy_ends s = E;
  si_qs : length (sy_qs s) = k;
  si_ps : length (sy_ps s) = n;
  si_prog : forall i p, nth_error (sy_ps s) i = Some p -> nth_error progs i = Some (D i ++ ps_calls p);
  si_pend : forall i p chs m ch, nth_error (sy_ps s) i = Some p -> ps_pend p = Some (chs, m) -> In ch chs ->
    exists j, chan_of E i j = Some ch;
  si_got : forall j p x, nth_error (sy_ps s) j = Some p -> In x (ps_got p) -> knows n j (fst x) = true;
  si_flow : forall i j p pj ch, nth_error (sy_ps s) i = Some p -> nth_error (sy_ps s) j = Some pj ->
    chan_of E i j = Some ch ->
    got_from i pj ++ nth ch (sy_qs s) [] ++ pend_part p ch = all_addressed n i j (D i) }.

Lemma all_addressed_snoc i j cs (c : call M) : all_addressed n i j (cs ++ [c]) = all_addressed n i j cs ++ addressed n i j c.
Proof. unfold all_addressed. rewrite map_app, concat_app. simpl. rewrite app_nil_r. auto. Qed.

Lemma repeat_snoc (m : M) x : repeat m x ++ [m] = m :: repeat m x.
Proof. induction x; simpl; auto. rewrite IHx. auto. Qed.

Lemma count_occ_mid l1 (ch : nat) l2 x : count_occ Nat.eq_dec (l1 ++ ch :: l2) x =
  (if Nat.eq_dec ch x then 1 else 0) + count_occ Nat.eq_dec (l1 ++ l2) x.
Proof. rewrite !count_occ_app. simpl. destruct (Nat.eq_dec ch x); lia. Qed.

Lemma step_inv cap s s' D : sinv s D -> sys_step cap s s' -> exists D', sinv s' D'.
Proof.
  intros HI HS. destruct HS as [qs ends ps i e p qs' p' He Hp HS].
  destruct HI as [I1 I2 I3 I4 I5 I6 I7]. cbn [sy_qs sy_ends sy_ps] in *. subst ends.
  assert (Hi : i < n) by (rewrite <- I3; apply nth_error_Some; congruence).
  assert (U : forall p1 a, nth_error (upd i p1 ps) a = if a =? i then Some p1 else nth_error ps a).
  { intros p1 a. rewrite nth_error_upd, I3. destruct (Nat.eqb_spec a i); simpl; auto.
    destruct (Nat.ltb_spec a n); auto; lia. }
  assert (I2' : S (length qs) = S k) by lia. assert (I3' : S (length ps) = S n) by lia. clear I2 I3.
  inversion HS; subst;
    try match goal with H : call_to _ _ = _ |- _ => rename H into Hcall end;
    try match goal with H : send_futs _ _ = _ |- _ => rename H into Hfut end;
    try match goal with H : nth_error qs _ = Some _ |- _ => rename H into Hq end;
    try match goal with H : hm_get _ (mc_receivers _) = _ |- _ => rename H into Hrc end.
  - (* st_send *)
    pose proof (futs_ok i e to He Hi) as HF. rewrite Hfut in HF. destruct HF as (F1 & F2 & F3).
    exists (fun a => if a =? i then D i ++ [c] else D a). constructor; cbn [sy_qs sy_ends sy_ps]; auto; try lia.
    + rewrite upd_length. lia.
    + intros a q. rewrite U. destruct (Nat.eqb_spec a i).
      * subst. intros Q; injection Q as <-. rewrite (I4 _ _ Hp). cbn [ps_calls]. rewrite <- app_assoc. reflexivity.
      * apply I4.
    + intros a q chs' m' ch. rewrite U. destruct (Nat.eqb_spec a i).
      * subst. intros Q; injection Q as <-. cbn [ps_pend]. intros Q; injection Q as <- <-. auto.
      * apply I5.
    + intros a q x. rewrite U. destruct (Nat.eqb_spec a i); [|apply I6]. subst. intros Q; injection Q as <-.
      apply (I6 _ _ _ Hp).
    + intros a b pa pb ch. rewrite !U. intros Ha Hb Hc.
      assert (G : got_from a pb = got_from a (match (b =? i) with true => PS (c :: r) None got unk | false => pb end)).
      { destruct (b =? i); auto. injection Hb as <-. reflexivity. }
      rewrite G. assert (Hb' : nth_error ps b = Some (if b =? i then PS (c :: r) None got unk else pb)).
      { destruct (Nat.eqb_spec b i); subst; auto. }
      destruct (Nat.eqb_spec a i).
      * subst. injection Ha as <-. rewrite all_addressed_snoc, (call_addressed i e c to m b He Hi Hcall), F1.
        rewrite <- (I7 i b _ _ ch Hp Hb' Hc). unfold pend_part. cbn [ps_pend]. rewrite (F3 _ _ Hc), app_nil_r, <- app_assoc. auto.
      * apply (I7 a b _ _ ch Ha Hb' Hc).
  - (* st_send_unknown *)
    pose proof (futs_ok i e to He Hi) as HF. rewrite Hfut in HF. destruct HF as (F0 & F1 & F2).
    exists (fun a => if a =? i then D i ++ [c] else D a). constructor; cbn [sy_qs sy_ends sy_ps]; auto; try lia.
    + rewrite upd_length. lia.
    + intros a q. rewrite U. destruct (Nat.eqb_spec a i).
      * subst. intros Q; injection Q as <-. rewrite (I4 _ _ Hp). cbn [ps_calls]. rewrite <- app_assoc. reflexivity.
      * apply I4.
    + intros a q chs' m' ch. rewrite U. destruct (Nat.eqb_spec a i); [|apply I5].
      subst. intros Q; injection Q as <-. discriminate.
    + intros a q x. rewrite U. destruct (Nat.eqb_spec a i); [|apply I6]. subst. intros Q; injection Q as <-.
      apply (I6 _ _ _ Hp).
    + intros a b pa pb ch. rewrite !U. intros Ha Hb Hc.
      assert (G : got_from a pb = got_from a (match (b =? i) with true => PS (c :: r) None got unk | false => pb end)).
      { destruct (b =? i); auto. injection Hb as <-. reflexivity. }
      rewrite G. assert (Hb' : nth_error ps b = Some (if b =? i then PS (c :: r) None got unk else pb)).
      { destruct (Nat.eqb_spec b i); subst; auto. }
      destruct (Nat.eqb_spec a i).
      * subst. injection Ha as <-. rewrite all_addressed_snoc, (call_addressed i e c to m b He Hi Hcall), F1.
        rewrite <- (I7 i b _ _ ch Hp Hb' Hc). unfold pend_part. cbn [ps_pend]. rewrite !app_nil_r. reflexivity.
      * apply (I7 a b _ _ ch Ha Hb' Hc).
  - (* st_poll *)
    assert (Hch : ch < length qs) by (apply nth_error_Some; congruence).
    destruct (I5 _ _ _ _ ch Hp eq_refl ltac:(apply in_or_app; simpl; auto)) as (j0 & Hj0).
    exists D. constructor; cbn [sy_qs sy_ends sy_ps]; auto; try lia.
    + rewrite upd_length. lia.
    + rewrite upd_length. lia.
    + intros a x. rewrite U. destruct (Nat.eqb_spec a i); [|apply I4]. subst. intros Q; injection Q as <-. apply (I4 _ _ Hp).
    + intros a x chs' m' c. rewrite U. destruct (Nat.eqb_spec a i); [|apply I5].
      subst. intros Q; injection Q as <-. cbn [ps_pend]. intros Q; injection Q as <- <-. intros Hc.
      apply (I5 _ _ _ _ c Hp eq_refl). rewrite in_app_iff in *. simpl. tauto.
    + intros a x y. rewrite U. destruct (Nat.eqb_spec a i); [|apply I6]. subst. intros Q; injection Q as <-.
      apply (I6 _ _ _ Hp).
    + intros a b pa pb c. rewrite !U. intros Ha Hb Hc.
      set (p0 := PS r (Some (l1 ++ ch :: l2, m)) got unk) in *.
      assert (G : got_from a pb = got_from a (if b =? i then p0 else pb)).
      { destruct (b =? i); auto. injection Hb as <-. reflexivity. }
      rewrite G. assert (Hb' : nth_error ps b = Some (if b =? i then p0 else pb)).
      { destruct (Nat.eqb_spec b i); subst; auto. }
      rewrite upd_nth. apply Nat.ltb_lt in Hch. rewrite Hch, andb_true_r.
      destruct (Nat.eqb_spec a i).
      * subst. injection Ha as <-. rewrite <- (I7 i b _ _ c Hp Hb' Hc). f_equal.
        unfold pend_part, p0. cbn [ps_pend]. rewrite count_occ_mid.
        destruct (Nat.eqb_spec ch c), (Nat.eq_dec ch c); try congruence; simpl; auto. subst.
        rewrite (nth_error_nth _ _ [] Hq), <- app_assoc. reflexivity.
      * destruct (Nat.eqb_spec ch c); [|apply (I7 a b _ _ c Ha Hb' Hc)].
        subst. destruct (w_inj _ _ _ _ HW _ _ _ _ _ Hj0 Hc). congruence.
  - (* st_sent *)
    exists D. constructor; cbn [sy_qs sy_ends sy_ps]; auto; try lia.
    + rewrite upd_length. lia.
    + intros a x. rewrite U. destruct (Nat.eqb_spec a i); [|apply I4]. subst. intros Q; injection Q as <-. apply (I4 _ _ Hp).
    + intros a x chs' m' c. rewrite U. destruct (Nat.eqb_spec a i); [|apply I5].
      subst. intros Q; injection Q as <-. discriminate.
    + intros a x y. rewrite U. destruct (Nat.eqb_spec a i); [|apply I6]. subst. intros Q; injection Q as <-.
      apply (I6 _ _ _ Hp).
    + intros a b pa pb c. rewrite !U. intros Ha Hb Hc.
      set (p0 := PS r (Some ([], m)) got unk) in *.
      assert (G : got_from a pb = got_from a (if b =? i then p0 else pb)).
      { destruct (b =? i); auto. injection Hb as <-. reflexivity. }
      rewrite G. assert (Hb' : nth_error ps b = Some (if b =? i then p0 else pb)).
      { destruct (Nat.eqb_spec b i); subst; auto. }
      destruct (Nat.eqb_spec a i).
      * subst. injection Ha as <-. rewrite <- (I7 i b _ _ c Hp Hb' Hc). reflexivity.
      * apply (I7 a b _ _ c Ha Hb' Hc).
  - (* st_recv *)
    assert (Hch : ch < length qs) by (apply nth_error_Some; congruence).
    assert (HR : chan_of E from i = Some ch).
    { apply (w_both _ _ _ _ HW). unfold rchan_of. rewrite He. auto. }
    destruct (chan_lt _ _ _ HR) as (Hf & _ & Hfi & _).
    exists (fun a => if a =? i then D i ++ [CRecv from] else D a). constructor; cbn [sy_qs sy_ends sy_ps]; auto; try lia.
    + rewrite upd_length. lia.
    + rewrite upd_length. lia.
    + intros a x. rewrite U. destruct (Nat.eqb_spec a i).
      * subst. intros Q; injection Q as <-. rewrite (I4 _ _ Hp). cbn [ps_calls]. rewrite <- app_assoc. reflexivity.
      * apply I4.
    + intros a x chs' m' c. rewrite U. destruct (Nat.eqb_spec a i); [|apply I5].
      subst. intros Q; injection Q as <-. discriminate.
    + intros a x y. rewrite U. destruct (Nat.eqb_spec a i); [|apply I6]. subst. intros Q; injection Q as <-.
      cbn [ps_got]. rewrite in_app_iff. intros [Hy|[<-|[]]]; [apply (I6 _ _ _ Hp); auto|]. simpl. apply knows_iff. auto.
    + intros a b pa pb c. rewrite !U. intros Ha Hb Hc.
      assert (HD : all_addressed n a b (if a =? i then D i ++ [CRecv from] else D a) = all_addressed n a b (D a)).
      { destruct (Nat.eqb_spec a i); auto. subst. rewrite all_addressed_snoc. simpl. apply app_nil_r. }
      rewrite HD. set (p0 := PS (CRecv from :: r) None got unk) in *.
      assert (HP : pend_part pa c = pend_part (if a =? i then p0 else pa) c).
      { destruct (a =? i); auto. injection Ha as <-. reflexivity. }
      assert (Ha' : nth_error ps a = Some (if a =? i then p0 else pa)).
      { destruct (Nat.eqb_spec a i); subst; auto. }
      rewrite HP, upd_nth. apply Nat.ltb_lt in Hch. rewrite Hch, andb_true_r.
      destruct (Nat.eqb_spec b i).
      * subst. injection Hb as <-. rewrite <- (I7 a i _ _ c Ha' Hp Hc). unfold got_from. cbn [ps_got].
        rewrite filter_app, map_app. simpl. unfold p0. cbn [ps_got].
        destruct (Nat.eqb_spec ch c).
        -- subst. destruct (w_inj _ _ _ _ HW _ _ _ _ _ HR Hc) as [-> _]. rewrite Nat.eqb_refl. simpl.
           rewrite (nth_error_nth _ _ [] Hq), <- app_assoc. reflexivity.
        -- destruct (Nat.eqb_spec from a); [subst; congruence|]. simpl. rewrite app_nil_r. auto.
      * destruct (Nat.eqb_spec ch c); [|apply (I7 a b _ _ c Ha' Hb Hc)].
        subst. destruct (w_inj _ _ _ _ HW _ _ _ _ _ HR Hc). congruence.
  - (* st_recv_unknown *)
    exists (fun a => if a =? i then D i ++ [CRecv from] else D a). constructor; cbn [sy_qs sy_ends sy_ps]; auto; try lia.
    + rewrite upd_length. lia.
    + intros a x. rewrite U. destruct (Nat.eqb_spec a i).
      * subst. intros Q; injection Q as <-. rewrite (I4 _ _ Hp). cbn [ps_calls]. rewrite <- app_assoc. reflexivity.
      * apply I4.
    + intros a x chs' m' c. rewrite U. destruct (Nat.eqb_spec a i); [|apply I5].
      subst. intros Q; injection Q as <-. discriminate.
    + intros a x y. rewrite U. destruct (Nat.eqb_spec a i); [|apply I6]. subst. intros Q; injection Q as <-.
      apply (I6 _ _ _ Hp).
    + intros a b pa pb c. rewrite !U. intros Ha Hb Hc.
      assert (HD : all_addressed n a b (if a =? i then D i ++ [CRecv from] else D a) = all_addressed n a b (D a)).
      { destruct (Nat.eqb_spec a i); auto. subst. rewrite all_addressed_snoc. simpl. apply app_nil_r. }
      rewrite HD. set (p0 := PS (CRecv from :: r) None got unk) in *.
      assert (HP : pend_part pa c = pend_part (if a =? i then p0 else pa) c).
      { destruct (a =? i); auto. injection Ha as <-. reflexivity. }
      assert (Ha' : nth_error ps a = Some (if a =? i then p0 else pa)).
      { destruct (Nat.eqb_spec a i); subst; auto. }
      assert (G : got_from a pb = got_from a (if b =? i then p0 else pb)).
      { destruct (b =? i); auto. injection Hb as <-. reflexivity. }
      assert (Hb' : nth_error ps b = Some (if b =? i then p0 else pb)).
      { destruct (Nat.eqb_spec b i); subst; auto. }
      rewrite HP, G. apply (I7 a b _ _ c Ha' Hb' Hc).
Qed.
End Sys.
