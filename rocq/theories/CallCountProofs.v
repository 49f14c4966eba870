(** Counting the interactive gates of a program with calls. *)
From Coq Require Import List Bool Arith Lia Permutation.
Require Import Verif.Prelude Verif.PreludeProofs Verif.GateModel Verif.CircuitModel
  Verif.CircuitSpec Verif.CircuitProofs Verif.CircuitProofs2 Verif.CircuitProofs3
  Verif.BoolGmwModel Verif.ExecModel Verif.ExecSpec Verif.ExecCircuitProofs Verif.ConnModel
  Verif.MultiModel Verif.MultiSpec Verif.MultiProofs Verif.MultiTheorems Verif.MultiExecProofs2.
Import ListNotations.

Lemma sum_app a b : sum_list (a ++ b) = sum_list a + sum_list b.
Proof. unfold sum_list. induction a; simpl; lia. Qed.
Lemma sum_perm a b : Permutation a b -> sum_list a = sum_list b.
Proof. unfold sum_list. induction 1; simpl; lia. Qed.
Lemma sum_nonzero l : sum_list (filter (fun n => negb (n =? 0)) l) = sum_list l.
Proof.
  unfold sum_list. induction l as [|x l IH]; auto. cbn [filter]. destruct (Nat.eqb_spec x 0); cbn [negb fold_right]; lia.
Qed.
Lemma sum_const {A} (f : A -> nat) n l : (forall x, In x l -> f x = n) -> sum_list (map f l) = n * length l.
Proof.
  induction l as [|x l IH]; intros H; [cbn; lia|]. cbn [map length sum_list fold_right]. unfold sum_list in IH.
  rewrite IH by (intros; apply H; simpl; auto). rewrite (H x) by (simpl; auto). lia.
Qed.

Lemma perm_sub {A} (l : list A) : forall b, NoDup l -> incl l b -> exists r, Permutation b (l ++ r).
Proof.
  induction l as [|a l IH]; intros b HN HI; [exists b; auto|].
  inversion HN as [|? ? Ha HN']; subst. destruct (in_split a b) as (b1 & b2 & ->); [apply HI; simpl; auto|].
  destruct (IH (b1 ++ b2) HN') as (r & Hr).
  { intros x Hx. assert (Hb : In x (b1 ++ a :: b2)) by (apply HI; simpl; auto). apply in_app_iff in Hb. apply in_app_iff.
    destruct Hb as [Hb|[->|Hb]]; auto. contradiction. }
  exists r. rewrite <- Permutation_middle. simpl. apply perm_skip. exact Hr.
Qed.

Lemma NoDup_right {A} (a b : list A) : NoDup (a ++ b) -> NoDup b.
Proof. induction a; auto. intros H. inversion H; auto. Qed.

Section Count.
Context {P G : Type}.
Variables (ops : gate_ops P G) (m : mcirc G) (imax : nat) (h : list (gid * gid)).
Hypothesis HC : circuits_ok ops (mc_get m).

(** Lanes of circuit [k]. *)
Definition lanes_at (k : nat) : nat :=
  match mc_get m k with Some c => match c_simd c with Some n => n | None => 1 end | None => 0 end.
Definition ints_of (k : nat) : list gid :=
  match mc_get m k with Some c => map (pair k) (filter (is_int ops c) (seq 0 (c_count c))) | None => [] end.
Definition all_ints : list gid := concat (map ints_of (seq 0 (length (mc_map m)))).
Definition weigh (l : list gid) : nat := sum_list (map (fun g => lanes_at (fst g)) l).

Lemma weigh_app a b : weigh (a ++ b) = weigh a + weigh b.
Proof. unfold weigh. rewrite map_app. apply sum_app. Qed.
Lemma weigh_perm a b : Permutation a b -> weigh a = weigh b.
Proof. intros H. apply sum_perm, Permutation_map, H. Qed.
Lemma weigh_one k l : weigh (map (pair k) l) = lanes_at k * length l.
Proof.
  unfold weigh. rewrite map_map. rewrite (sum_const _ (lanes_at k)); auto.
Qed.

Lemma all_ints_weigh : weigh all_ints = mc_int_count m.
Proof.
  unfold all_ints, mc_int_count. generalize (seq 0 (length (mc_map m))) as ks. induction ks as [|k ks IH]; auto.
  cbn [map concat]. rewrite weigh_app, IH. change (sum_list (?x :: ?l)) with (x + sum_list l). f_equal.
  unfold ints_of. destruct (mc_get m k) as [c|] eqn:E; [|reflexivity]. rewrite weigh_one, filter_int_seq.
  unfold lanes_at. rewrite E. destruct HC as [_ H]. destruct (H k c E) as [Ha _]. apply api_api_wf in Ha.
  rewrite (aw_icount _ _ Ha). lia.
Qed.

Lemma get_bound k c : mc_get m k = Some c -> k < length (mc_map m).
Proof.
  unfold mc_get. destruct (nth_error (mc_map m) k) eqn:E; [|discriminate]. intros _. apply nth_error_Some. congruence.
Qed.

Lemma in_all_ints k x : In (k, x) all_ints <-> exists c, mc_get m k = Some c /\ x < c_count c /\ is_int ops c x = true.
Proof.
  unfold all_ints. rewrite in_concat. split.
  - intros (l & Hl & Hx). apply in_map_iff in Hl. destruct Hl as (q & <- & _). unfold ints_of in Hx.
    destruct (mc_get m q) as [c|] eqn:E; [|destruct Hx]. apply in_map_iff in Hx. destruct Hx as (y & Ey & Hy).
    injection Ey as -> ->. apply filter_In in Hy. rewrite in_seq in Hy. exists c. split; auto. split; [lia|tauto].
  - intros (c & E & Hx & Hi). exists (ints_of k). split.
    + apply in_map. apply in_seq. pose proof (get_bound k c E). lia.
    + unfold ints_of. rewrite E. apply in_map. apply filter_In. rewrite in_seq. split; auto. lia.
Qed.

Lemma all_ints_nodup : NoDup all_ints.
Proof.
  apply NoDup_proj. intros k. unfold all_ints. assert (HN : NoDup (seq 0 (length (mc_map m)))) by apply seq_NoDup. revert HN.
  generalize (seq 0 (length (mc_map m))) as ks. induction ks as [|q ks IH]; intros HN; [constructor|].
  inversion HN as [|? ? Hq HN']; subst. cbn [map concat]. rewrite proj_app. unfold ints_of at 1.
  assert (Hout : q = k -> proj k (concat (map ints_of ks)) = []).
  { intros ->. destruct (proj k (concat (map ints_of ks))) as [|y r] eqn:E; auto. exfalso.
    assert (Hy : In y (proj k (concat (map ints_of ks)))) by (rewrite E; simpl; auto). apply in_proj in Hy.
    apply in_concat in Hy. destruct Hy as (l & Hl & Hy). apply in_map_iff in Hl. destruct Hl as (q & <- & Hq').
    unfold ints_of in Hy. destruct (mc_get m q); [|destruct Hy]. apply in_map_iff in Hy. destruct Hy as (z & Ez & _).
    injection Ez as -> _. contradiction. }
  destruct (mc_get m q) as [c|]; [|apply IH; auto]. rewrite proj_pair. destruct (Nat.eqb_spec q k) as [E|E]; [|apply IH; auto].
  rewrite (Hout E), app_nil_r. apply NoDup_filter, seq_NoDup.
Qed.

Lemma flat_split ls : Permutation (flat ls) (concat (map el_ni ls) ++ concat (map el_int ls)).
Proof.
  induction ls as [|L ls IH]; [constructor|]. unfold flat in *. cbn [map concat]. rewrite IH, (el_ids_split L).
  rewrite <- !app_assoc. apply Permutation_app_head. rewrite !app_assoc. apply Permutation_app_tail. apply Permutation_app_comm.
Qed.

(** The layers of a run ask for as many triples as their interactive gates weigh. *)
Lemma layers_weigh ls :
  (forall L k s b, In L ls -> In (k, s, b) L -> exists c, mc_get m k = Some c /\ s = c_simd c) ->
  sum_list (map el_int_count ls) = weigh (concat (map el_int ls)).
Proof.
  induction ls as [|L ls IH]; intros H; auto. cbn [map concat]. rewrite weigh_app.
  change (sum_list (?x :: ?l)) with (x + sum_list l). rewrite IH by (intros; eapply H; simpl; eauto). f_equal.
  assert (HL : forall k s b, In (k, s, b) L -> exists c, mc_get m k = Some c /\ s = c_simd c) by (intros; eapply H; simpl; eauto).
  clear - HL. unfold el_int_count, el_int. induction L as [|[[k s] b] L IH]; auto. cbn [map concat]. rewrite weigh_app.
  change (sum_list (?x :: ?l)) with (x + sum_list l). rewrite IH by (intros; eapply HL; simpl; eauto). f_equal.
  rewrite weigh_one. destruct (HL k s b) as (c & E & ->); [simpl; auto|]. unfold lanes_at. rewrite E. reflexivity.
Qed.

Hypothesis HW : wires_ok ops (mc_get m) h.
Hypothesis HA : wired_as imax m h.
Variables (perm : nat -> miter -> miter) (ls : list elayer).
Hypothesis HP : rearranges perm.
Hypothesis HL : mc_layers ops imax m perm = Some ls.

Lemma ls_kinds L k s b : In L ls -> In (k, s, b) L -> exists c, mc_get m k = Some c /\ s = c_simd c /\
  (forall g, In g (bl_ni b) -> is_int ops c g = false) /\ (forall g, In g (bl_int b) -> is_int ops c g = true).
Proof.
  intros H1 H2. exact (proj2 (C22_kinds_partial P G ops m imax h perm ls HC HW HA HP HL L H1) k s b H2).
Qed.

Lemma ls_ints_nodup : NoDup (concat (map el_int ls)).
Proof.
  destruct (C22_once_partial P G ops m imax h perm HC HW HA HP) as (ls' & E & HN & _). rewrite HL in E. injection E as <-.
  change (NoDup (flat ls)) in HN. apply (Permutation_NoDup (flat_split ls)) in HN. apply NoDup_right in HN. exact HN.
Qed.

Lemma in_ls_ints k x : In (k, x) (concat (map el_int ls)) <-> In (k, x) (flat ls) /\ In (k, x) all_ints.
Proof.
  assert (HF : In (k, x) (flat ls) <-> exists L s b, In L ls /\ In (k, s, b) L /\ In x (bl_ids b)).
  { unfold flat. rewrite in_concat. split.
    - intros (l & Hl & Hx). apply in_map_iff in Hl. destruct Hl as (L & <- & HLs). apply in_el_ids in Hx.
      destruct Hx as (s & b & A & B). exists L, s, b. auto.
    - intros (L & s & b & A & B & C). exists (el_ids L). split; [apply in_map; auto|]. apply in_el_ids. eauto. }
  rewrite HF, in_all_ints, in_concat. split.
  - intros (l & Hl & Hx). apply in_map_iff in Hl. destruct Hl as (L & <- & HLs). apply in_el_int in Hx.
    destruct Hx as (s & b & A & B). split.
    + exists L, s, b. split; auto. split; auto. unfold bl_ids. apply in_app_iff. auto.
    + destruct (ls_kinds L k s b HLs A) as (c & E & _ & _ & K). exists c. split; auto. split; [|auto].
      specialize (K x B). unfold is_int in K. unfold c_count.
      destruct (nth_error (c_gates c) x) eqn:Ex; [|discriminate]. apply nth_error_Some. congruence.
  - intros ((L & s & b & A & B & C) & c & E & _ & Hi). exists (el_int L). split; [apply in_map; auto|].
    apply in_el_int. exists s, b. split; auto. unfold bl_ids in C. apply in_app_iff in C.
    destruct (ls_kinds L k s b A B) as (c' & E' & _ & K1 & _). rewrite E in E'. injection E' as <-.
    destruct C as [C|C]; auto. rewrite (K1 x C) in Hi. discriminate.
Qed.

Lemma layers_count : sum_list (map el_int_count ls) = weigh (concat (map el_int ls)).
Proof.
  apply layers_weigh. intros L k s b H1 H2. destruct (ls_kinds L k s b H1 H2) as (c & A & B & _). exists c. auto.
Qed.

Lemma count_le : sum_list (map el_int_count ls) <= mc_int_count m.
Proof.
  rewrite layers_count, <- all_ints_weigh.
  destruct (perm_sub (concat (map el_int ls)) all_ints) as (r & Hr); [apply ls_ints_nodup| |].
  { intros [k x] Hx. apply in_ls_ints in Hx. tauto. }
  rewrite (weigh_perm _ _ Hr), weigh_app. lia.
Qed.

Lemma count_eq : all_callable ops (mc_get m) h -> sum_list (map el_int_count ls) = mc_int_count m.
Proof.
  intros HR. rewrite layers_count, <- all_ints_weigh. apply weigh_perm. apply NoDup_Permutation.
  - apply ls_ints_nodup.
  - apply all_ints_nodup.
  - intros [k x]. rewrite in_ls_ints. split; [tauto|]. intros Hx. split; auto.
    destruct (C22_all_gates_partial P G ops m imax h perm HC HW HA HP HR) as (ls' & E & _ & HX). rewrite HL in E. injection E as <-.
    apply (HX (k, x)). apply in_all_ints in Hx. destruct Hx as (c & E & Hc & _). exists c. auto.
Qed.
End Count.
