(** Calling a sub-circuit through the builder: the connections. *)
From Coq Require Import List Bool Arith Lia Permutation Sorting.Sorted.
Require Import Verif.Prelude Verif.PreludeProofs Verif.ExecModel Verif.CircuitModel Verif.ConnModel Verif.ConnSpec Verif.ConnProofs Verif.ConnProofs2
  Verif.ConnTheorems.
Import ListNotations.

(** ** Inserting ranges succeeds *)

Lemma flatten_in t e : In e t -> forall v, In v (snd e) -> In (fst e, v) (flatten t).
Proof.
  intros He v Hv. unfold flatten. apply in_flat_map. exists e. split; auto. apply in_map_iff. eauto.
Qed.

(** No range of the history starts before [from] and reaches to its end. *)
Definition insertable (hist : list (grange * grange)) (from : grange) : Prop :=
  gid_leb (fst from) (snd from) = true /\
  forall ft, In ft hist -> fst (fst (fst ft)) = fst (fst from) -> gid_ltb (fst (fst ft)) (fst from) && gid_leb (snd from) (snd (fst ft)) = false.

Lemma rc_insert_ok m hist from to : rc_inv m hist -> insertable hist from -> exists m', rc_insert m from to = Some m'.
Proof.
  intros [HS HC] [H1 H2]. unfold rc_insert. rewrite H1. cbn [oassert obind].
  set (bm := match rm_get m (fst (fst from)) with Some t => t | None => [] end).
  assert (Hn : Forall (fun e => snd e <> []) bm) by (unfold bm; destruct (rm_get m (fst (fst from))) eqn:E; [apply (HS _ _ E)|constructor]).
  destruct (rev (bt_upto bm from)) as [|[pc l] r] eqn:Er; cbn [obind]; [eauto|].
  assert (Hin : In (pc, l) bm).
  { assert (Hr : In (pc, l) (rev (bt_upto bm from))) by (rewrite Er; simpl; auto). apply in_rev in Hr. unfold bt_upto in Hr.
    apply filter_In in Hr. tauto. }
  assert (Hl : exists v, In v l).
  { rewrite Forall_forall in Hn. specialize (Hn _ Hin). cbn [snd] in Hn. destruct l as [|v l]; [congruence|]. exists v. simpl. auto. }
  destruct Hl as (v & Hv). pose proof (flatten_in bm (pc, l) Hin v Hv) as Hf. cbn [fst] in Hf.
  apply (Permutation_in _ (HC (fst (fst from)))) in Hf. apply filter_In in Hf. destruct Hf as [Hf Ef]. apply Nat.eqb_eq in Ef.
  pose proof (H2 _ Hf Ef) as H3. cbn [fst snd] in H3. rewrite H3. cbn [negb oassert obind]. eauto.
Qed.

Fixpoint insertables (hist l : list (grange * grange)) : Prop :=
  match l with [] => True | x :: r => insertable hist (fst x) /\ insertables (hist ++ [x]) r end.

Lemma rc_inserts_ok l : forall m hist, rc_inv m hist -> insertables hist l -> exists m', rc_inserts m l = Some m'.
Proof.
  induction l as [|[f t] l IH]; intros m hist HI HL; [exists m; reflexivity|].
  destruct HL as [H1 H2]. destruct (rc_insert_ok m hist f t HI H1) as (m1 & E1).
  destruct (IH m1 (hist ++ [(f, t)]) (rc_insert_inv _ _ _ _ _ HI E1) H2) as (m' & E'). exists m'.
  unfold rc_inserts in *. cbn [ofold fst snd]. rewrite E1. exact E'.
Qed.

(** ** Connecting runs to consecutive gates *)

Lemma connect_ranges_ok rs to_c t : forall ic len cn ro ri,
  Forall (fun r : gid * nat => 0 < snd r) rs -> ic + sum_list (map snd rs) <= len ->
  rc_inserts (cn_rout cn) (run_ranges rs to_c (t + ic)) = Some ro ->
  rc_inserts (cn_rin cn) (map swap (run_ranges rs to_c (t + ic))) = Some ri ->
  connect_ranges (map (fun r => (fst r, run_from (fst r) (snd r))) rs) to_c (seq t len) ic cn =
    Some (CN (cn_oout cn) (cn_oin cn) ro ri).
Proof.
  induction rs as [|[g n] rs IH]; intros ic len cn ro ri HF HL H1 H2.
  - cbn [run_ranges map] in H1, H2. unfold rc_inserts in H1, H2. cbn [ofold] in H1, H2. injection H1 as <-. injection H2 as <-.
    cbn [map connect_ranges]. destruct cn; reflexivity.
  - pose proof (Forall_inv HF) as Hn. apply Forall_inv_tail in HF. cbn [snd] in Hn.
    cbn [map snd] in HL. change (sum_list (n :: map snd rs)) with (n + sum_list (map snd rs)) in HL.
    cbn [map fst snd connect_ranges]. rewrite run_from_length.
    rewrite run_from_nth by lia. cbn [obind]. rewrite seq_length.
    destruct (Nat.leb_spec (ic + n) len); [|lia]. cbn [oassert obind].
    assert (Hseq : forall i, i < len -> nth_error (seq t len) i = Some (t + i)).
    { intros i Hi. rewrite (nth_error_nth' _ 0) by (rewrite seq_length; auto). f_equal. apply seq_nth. auto. }
    rewrite !Hseq by lia. cbn [obind]. unfold csub. cbn [snd fst].
    destruct (Nat.leb_spec (snd g) (snd g + (n - 1))); [|lia]. cbn [obind].
    destruct (Nat.leb_spec (t + ic) (t + (ic + n - 1))); [|lia]. cbn [obind].
    replace (snd g + (n - 1) - snd g =? t + (ic + n - 1) - (t + ic)) with true by (symmetry; apply Nat.eqb_eq; lia).
    cbn [oassert obind]. replace (t + (ic + n - 1)) with (t + ic + (n - 1)) by lia.
    cbn [run_ranges map swap] in H1, H2. unfold rc_inserts in H1, H2. cbn [ofold fst snd] in H1, H2.
    unfold swap at 1 2 in H2. cbn [fst snd] in H2.
    match type of H1 with obind ?x _ = _ => destruct x as [ro1|] eqn:E1; [|discriminate H1] end.
    match type of H2 with obind ?x _ = _ => destruct x as [ri1|] eqn:E2; [|discriminate H2] end.
    match goal with |- obind ?x _ = _ => replace x with (Some ro1) by (symmetry; exact E1) end. cbn [obind].
    match goal with |- obind ?x _ = _ => replace x with (Some ri1) by (symmetry; exact E2) end.
    cbn [obind] in *.
    refine (IH (ic + n) len (CN (cn_oout cn) (cn_oin cn) ro1 ri1) ro ri HF _ _ _); cbn [cn_rout cn_rin]; [lia| |];
      replace (t + (ic + n)) with (t + ic + n) by lia; auto.
Qed.

Lemma runs_sum l rs : maximal_runs l rs -> sum_list (map snd rs) = length l.
Proof.
  intros H. rewrite <- (maximal_concat _ _ H). clear. induction rs as [|[a m] l IH]; auto.
  cbn [map concat]. rewrite app_length, run_from_length, <- IH. auto.
Qed.

(** A call whose from-gates fall into runs with different starts is stored as the
    ranges of these runs. *)
Lemma connect_call_ok {G} (isz : G -> nat) circ from rs to_c t m cn hr h1 :
  cn_rep cn hr h1 -> from <> [] -> maximal_runs from rs -> adjacent_differ (map fst rs) -> length from <= S m ->
  insertables hr (run_ranges rs to_c t) -> insertables (map swap hr) (map swap (run_ranges rs to_c t)) ->
  exists cn', connect_sc_gates isz cn from circ to_c (seq t (S m)) = Some cn' /\ cn_rep cn' (hr ++ run_ranges rs to_c t) h1.
Proof.
  intros [R1 R2 R3 R4] HN HM HA HL H1 H2.
  destruct (rc_inserts_ok _ _ _ R1 H1) as (ro & E1). destruct (rc_inserts_ok _ _ _ R2 H2) as (ri & E2).
  pose proof (proj2 (C21_exact from rs HN HM) HA) as EG.
  exists (CN (cn_oout cn) (cn_oin cn) ro ri). split.
  - unfold connect_sc_gates. rewrite EG.
    assert (Ec : consecutive (seq t (S m)) = true) by (apply consecutive_seq; exists t; rewrite seq_length; auto).
    rewrite Ec. cbn [seq negb andb]. change (t :: seq (S t) m) with (seq t (S m)).
    apply connect_ranges_ok; rewrite ?Nat.add_0_r; auto.
    + pose proof (maximal_pos _ _ HM) as HP. exact HP.
    + rewrite (runs_sum _ _ HM). lia.
  - constructor; cbn [cn_rout cn_rin cn_oout cn_oin]; auto.
    + eapply rc_inserts_inv; eauto.
    + rewrite map_app. eapply rc_inserts_inv; eauto.
Qed.
