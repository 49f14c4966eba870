(** The connections of the CBC circuit with sub-circuit calls: [n] is the block
    size, [B] the number of inputs, [o] the first output gate of the called
    circuit. *)
From Coq Require Import List Bool Arith Lia Permutation Sorting.Sorted.
Require Import Verif.Prelude Verif.PreludeProofs Verif.ExecModel Verif.CircuitModel Verif.ConnModel Verif.ConnSpec Verif.ConnProofs Verif.ConnProofs2
  Verif.ConnTheorems Verif.MultiModel Verif.MultiTheorems Verif.CbcScProofs.
Import ListNotations.

Section Layout.
Variables (n B o : nat).
Hypothesis Hn : 0 < n.
Hypothesis HB : n <= B.

(** The first XOR gate of the [i]-th block.  It is followed by [n] inputs from the
    called circuit and [n] outputs. *)
Definition xat (i : nat) : nat := B + (n + n + n) * i.

Lemma xat_S i : xat (S i) = xat i + (n + n + n).
Proof. unfold xat. lia. Qed.
Lemma xat_lt i j : i < j -> xat i + (n + n + n) <= xat j.
Proof. intros H. unfold xat. assert ((n + n + n) * S i <= (n + n + n) * j) by (apply Nat.mul_le_mono_l; lia). lia. Qed.
Lemma xat_B i : B <= xat i.
Proof. unfold xat. lia. Qed.

Definition rs_in (i : nat) : list (gid * nat) := [((0, xat i), n); ((0, 0), n)].
Definition rs_out (i : nat) : list (gid * nat) := [((S i, o), n)].
Definition ranges (i : nat) : list (grange * grange) := run_ranges (rs_in i) (S i) 0 ++ run_ranges (rs_out i) 0 (xat i + n).
Definition hist (i : nat) : list (grange * grange) := concat (map ranges (seq 0 i)).
Definition wires (i : nat) : list (gid * gid) :=
  combine (map (pair 0) (seq (xat i) n ++ seq 0 n)) (map (pair (S i)) (seq 0 (n + n))) ++
  combine (map (pair (S i)) (seq o n)) (map (pair 0) (seq (xat i + n) n)).
Definition all_wires (i : nat) : list (gid * gid) := concat (map wires (seq 0 i)).

Lemma hist_S i : hist (S i) = hist i ++ ranges i.
Proof. unfold hist. rewrite seq_S, map_app, concat_app. cbn [map concat Nat.add]. rewrite app_nil_r. reflexivity. Qed.
Lemma all_wires_S i : all_wires (S i) = all_wires i ++ wires i.
Proof. unfold all_wires. rewrite seq_S, map_app, concat_app. cbn [map concat Nat.add]. rewrite app_nil_r. reflexivity. Qed.

Inductive is_range (i : nat) : grange -> grange -> Prop :=
| ir_block : is_range i ((0, xat i), (0, xat i + (n - 1))) ((S i, 0), (S i, n - 1))
| ir_key : is_range i ((0, 0), (0, n - 1)) ((S i, n), (S i, n + (n - 1)))
| ir_out : is_range i ((S i, o), (S i, o + (n - 1))) ((0, xat i + n), (0, xat i + n + (n - 1))).

Lemma in_ranges i ft : In ft (ranges i) <-> is_range i (fst ft) (snd ft).
Proof.
  unfold ranges, rs_in, rs_out. cbn [run_ranges app fst snd Nat.add]. split.
  - intros [<-|[<-|[<-|[]]]]; constructor.
  - destruct ft as [f t]. cbn [fst snd]. intros H. inversion H; subst; simpl; auto.
Qed.
Lemma in_hist k ft : In ft (hist k) <-> exists i, i < k /\ is_range i (fst ft) (snd ft).
Proof.
  unfold hist. split.
  - intros H. apply in_concat in H. destruct H as (l & Hl & H). apply in_map_iff in Hl. destruct Hl as (i & <- & Hi). apply in_seq in Hi.
    apply in_ranges in H. exists i. split; [lia|auto].
  - intros (i & Hi & H). apply in_concat. exists (ranges i). split; [apply in_map; apply in_seq; lia|apply in_ranges; auto].
Qed.

Lemma insertable_intro hs c a b : a <= b ->
  (forall ft, In ft hs -> fst (fst (fst ft)) = c ->
     fst (snd (fst ft)) = c /\ ~ (snd (fst (fst ft)) < a /\ b <= snd (snd (fst ft)))) -> insertable hs ((c, a), (c, b)).
Proof.
  intros Hab H. split.
  - unfold gid_leb, gid_ltb, gid_eqb. cbn [fst snd]. rewrite Nat.eqb_refl. cbn [andb].
    destruct (Nat.ltb_spec c c), (Nat.ltb_spec a b), (Nat.eqb_spec a b); cbn; auto; lia.
  - intros ft Hft E. cbn [fst] in E. destruct (H ft Hft E) as [E2 N].
    destruct ft as [[[c1 a1] [c2 b2]] t]. cbn [fst snd] in *. subst c1 c2. unfold gid_leb, gid_ltb, gid_eqb. cbn [fst snd].
    rewrite Nat.eqb_refl. cbn [andb].
    destruct (Nat.ltb_spec c c), (Nat.ltb_spec a1 a), (Nat.ltb_spec b b2), (Nat.eqb_spec b b2); cbn; auto; lia.
Qed.

Ltac xs := repeat match goal with
  | H : ?i < ?j |- _ => match goal with _ : xat i + _ <= xat j |- _ => fail 1 | _ => pose proof (xat_lt i j H) end
  end.

Lemma step_in i : insertables (hist i) (run_ranges (rs_in i) (S i) 0).
Proof.
  unfold rs_in. cbn [run_ranges insertables fst snd Nat.add]. pose proof (xat_B i) as HX. split; [|split; [|exact I]].
  - apply insertable_intro; [lia|]. intros ft Hft E. apply in_hist in Hft. destruct Hft as (j & Hj & H). pose proof (xat_lt _ _ Hj) as HJ.
    destruct ft as [f t]. cbn [fst snd] in *. inversion H; subst; cbn [fst snd] in *; split; auto; try lia.
  - apply insertable_intro; [lia|]. intros ft Hft E. apply in_app_or in Hft. destruct Hft as [Hft|[<-|[]]].
    + apply in_hist in Hft. destruct Hft as (j & Hj & H).
      destruct ft as [f t]. cbn [fst snd] in *. inversion H; subst; cbn [fst snd] in *; split; auto; try lia.
    + cbn [fst snd]. split; auto. lia.
Qed.
Lemma step_in_swap i : insertables (map swap (hist i)) (map swap (run_ranges (rs_in i) (S i) 0)).
Proof.
  unfold rs_in. cbn [run_ranges map insertables swap fst snd Nat.add].
  assert (HH : forall ft, In ft (map swap (hist i)) -> fst (fst (fst ft)) = S i -> False).
  { intros ft Hft E. apply in_map_iff in Hft. destruct Hft as (tf & <- & Hft). apply in_hist in Hft. destruct Hft as (j & Hj & H).
    destruct tf as [f t]. cbn [fst snd swap] in *. inversion H; subst; cbn [fst snd] in *; lia. }
  split; [|split; [|exact I]].
  - apply insertable_intro; [lia|]. intros ft Hft E. destruct (HH _ Hft E).
  - apply insertable_intro; [lia|]. intros ft Hft E. apply in_app_or in Hft. destruct Hft as [Hft|[<-|[]]]; [destruct (HH _ Hft E)|].
    unfold swap. cbn [fst snd]. split; auto. lia.
Qed.

Lemma step_out i : insertables (hist i ++ run_ranges (rs_in i) (S i) 0) (run_ranges (rs_out i) 0 (xat i + n)).
Proof.
  unfold rs_out. cbn [run_ranges insertables fst snd]. split; [|exact I].
  apply insertable_intro; [lia|]. intros ft Hft E. exfalso. apply in_app_or in Hft. destruct Hft as [Hft|Hft].
  - apply in_hist in Hft. destruct Hft as (j & Hj & H). destruct ft as [f t]. cbn [fst snd] in *. inversion H; subst; cbn [fst snd] in *; lia.
  - destruct Hft as [<-|[<-|[]]]; discriminate E.
Qed.
Lemma step_out_swap i : insertables (map swap (hist i ++ run_ranges (rs_in i) (S i) 0)) (map swap (run_ranges (rs_out i) 0 (xat i + n))).
Proof.
  unfold rs_out. cbn [run_ranges map insertables swap fst snd]. split; [|exact I].
  apply insertable_intro; [lia|]. intros ft Hft E. apply in_map_iff in Hft. destruct Hft as (tf & <- & Hft). apply in_app_or in Hft. destruct Hft as [Hft|Hft].
  - apply in_hist in Hft. destruct Hft as (j & Hj & H). pose proof (xat_lt _ _ Hj) as HJ.
    destruct tf as [f t]. cbn [fst snd swap] in *. inversion H; subst; cbn [fst snd] in *; try lia; split; auto; try lia.
  - destruct Hft as [<-|[<-|[]]]; discriminate E.
Qed.

Lemma one_run g m : 0 < m -> maximal_runs (run_from g m) [(g, m)].
Proof.
  clear. intros H. destruct m as [|m]; [lia|]. rewrite <- (app_nil_r (run_from g (S m))). apply mr_cons; [constructor|exact I].
Qed.
Lemma two_runs g g' m : 0 < m -> g' <> (fst g, snd g + m) -> maximal_runs (run_from g m ++ run_from g' m) [(g, m); (g', m)].
Proof.
  clear. intros H D. pose proof (one_run g' m H) as H1. destruct m as [|m]; [lia|].
  apply mr_cons; [exact H1|]. cbn [run_from]. exact D.
Qed.
Lemma runs_of_in i : maximal_runs (map (pair 0) (seq (xat i) n ++ seq 0 n)) (rs_in i).
Proof.
  rewrite map_app, !seq_run. apply two_runs; auto. cbn [fst snd]. pose proof (xat_B i). intros E. injection E. lia.
Qed.
Lemma runs_of_out i : maximal_runs (map (pair (S i)) (seq o n)) (rs_out i).
Proof. rewrite seq_run. apply one_run. auto. Qed.
Lemma run_nonempty g m : 0 < m -> run_from g m <> [].
Proof. destruct m; [lia|discriminate]. Qed.

(** The two connect calls of a block. *)
Lemma connect_in {G} (isz : G -> nat) circ cn i : cn_rep cn (hist i) [] ->
  exists cn', connect_sc_gates isz cn (map (pair 0) (seq (xat i) n ++ seq 0 n)) circ (S i) (seq 0 (n + n)) = Some cn' /\
    cn_rep cn' (hist i ++ run_ranges (rs_in i) (S i) 0) [].
Proof.
  intros R. replace (n + n) with (S (n + n - 1)) by lia.
  apply (connect_call_ok isz circ _ (rs_in i) (S i) 0 (n + n - 1) cn (hist i) [] R).
  - rewrite map_app, !seq_run. intros E. apply app_eq_nil in E. exact (run_nonempty _ _ Hn (proj1 E)).
  - apply runs_of_in.
  - cbn [rs_in map fst adjacent_differ]. split; auto. intros E. injection E as E. pose proof (xat_B i). lia.
  - rewrite map_length, app_length, !seq_length. lia.
  - apply step_in.
  - apply step_in_swap.
Qed.
Lemma connect_out {G} (isz : G -> nat) circ cn i : cn_rep cn (hist i ++ run_ranges (rs_in i) (S i) 0) [] ->
  exists cn', connect_sc_gates isz cn (map (pair (S i)) (seq o n)) circ 0 (seq (xat i + n) n) = Some cn' /\
    cn_rep cn' (hist (S i)) [].
Proof.
  intros R. rewrite hist_S. unfold ranges. rewrite app_assoc.
  assert (H := connect_call_ok isz circ (map (pair (S i)) (seq o n)) (rs_out i) 0 (xat i + n) (n - 1) cn _ [] R).
  replace (S (n - 1)) with n in H by lia. apply H; clear H.
  - rewrite seq_run. apply run_nonempty. auto.
  - apply runs_of_out.
  - exact I.
  - rewrite map_length, !seq_length. lia.
  - apply step_out.
  - apply step_out_swap.
Qed.

(** ** Lookups *)

Lemma nest_out k : no_nesting (map fst (hist k)).
Proof.
  intros r1 r2 H1 H2 E L. apply in_map_iff in H1. destruct H1 as ([f1 t1] & <- & H1). apply in_map_iff in H2. destruct H2 as ([f2 t2] & <- & H2).
  apply in_hist in H1. destruct H1 as (i & Hi & R1). apply in_hist in H2. destruct H2 as (j & Hj & R2). cbn [fst snd] in *.
  pose proof (xat_lt i j) as X1. pose proof (xat_lt j i) as X2. pose proof (xat_B i). pose proof (xat_B j).
  destruct (lt_eq_lt_dec i j) as [[D|D]|D]; [specialize (X1 D)|subst j|specialize (X2 D)];
  inversion R1; subst; inversion R2; subst; cbn [fst snd] in *; try lia.
Qed.
Lemma nest_in k : no_nesting (map fst (map swap (hist k))).
Proof.
  intros r1 r2 H1 H2 E L. rewrite map_map in H1, H2. apply in_map_iff in H1. destruct H1 as ([f1 t1] & <- & H1). apply in_map_iff in H2. destruct H2 as ([f2 t2] & <- & H2).
  apply in_hist in H1. destruct H1 as (i & Hi & R1). apply in_hist in H2. destruct H2 as (j & Hj & R2). cbn [fst snd swap] in *.
  pose proof (xat_lt i j) as X1. pose proof (xat_lt j i) as X2. pose proof (xat_B i). pose proof (xat_B j).
  destruct (lt_eq_lt_dec i j) as [[D|D]|D]; [specialize (X1 D)|subst j|specialize (X2 D)];
  inversion R1; subst; inversion R2; subst; cbn [fst snd] in *; try lia.
Qed.

Lemma ranges_ok imax k : xat k <= imax -> o + n <= imax -> n + n <= imax -> Forall (fun ft => range_ok imax (fst ft) /\ range_ok imax (snd ft)) (hist k).
Proof.
  intros H1 H2 H3. apply Forall_forall. intros [f t] Hft. apply in_hist in Hft. destruct Hft as (i & Hi & H). pose proof (xat_lt _ _ Hi) as HI.
  cbn [fst snd] in *. inversion H; subst; unfold range_ok; cbn [fst snd]; repeat split; lia.
Qed.

Lemma related_step k g : related (ranges k) g = targets_of (wires k) g /\
  related (map swap (ranges k)) g = targets_of (map swap (wires k)) g.
Proof.
  destruct (run_ranges_targets _ _ (S k) g (runs_of_in k) 0 (n + n)) as [A1 A2]; [rewrite map_length, app_length, !seq_length; lia|].
  destruct (run_ranges_targets _ _ 0 g (runs_of_out k) (xat k + n) n) as [B1 B2]; [rewrite map_length, !seq_length; lia|].
  unfold ranges, wires. rewrite (map_app (@swap grange grange)), (map_app (@swap gid gid)), !related_app, !targets_of_app, !map_swap_combine.
  rewrite (seq_run (S k) 0 (n + n)), (seq_run 0 (xat k + n) n).
  split; [exact (f_equal2 (@app gid) (eq_sym A1) (eq_sym B1))|exact (f_equal2 (@app gid) (eq_sym A2) (eq_sym B2))].
Qed.
Lemma related_wires k g : related (hist k) g = targets_of (all_wires k) g /\ related (map swap (hist k)) g = sources_of (all_wires k) g.
Proof.
  rewrite sources_swap. induction k as [|k [IH1 IH2]]; [split; reflexivity|]. destruct (related_step k g) as [S1 S2].
  rewrite hist_S, all_wires_S, !map_app, !related_app, !targets_of_app, IH1, IH2, S1, S2. auto.
Qed.

Lemma wired_cbc {G} imax k (cs : list (circuit G)) mp cn : xat k <= imax -> o + n <= imax -> n + n <= imax -> cn_rep cn (hist k) [] ->
  wired_as imax (MC cs mp cn) (all_wires k).
Proof.
  intros H1 H2 H3 [R1 R2 R3 R4] g. cbn [mc_conns]. pose proof (ranges_ok imax k H1 H2 H3) as HO.
  destruct (related_wires k g) as [W1 W2]. unfold cn_outgoing, cn_parents. rewrite R3, R4. cbn [map]. change (targets_of [] g) with (@nil gid).
  cbn [app]. rewrite <- W1, <- W2. split.
  - apply lookup_complete; auto; [|apply nest_out]. eapply Forall_impl; [|exact HO]. cbn beta. tauto.
  - apply lookup_complete; auto; [|apply nest_in]. apply Forall_map. eapply Forall_impl; [|exact HO]. cbn beta. cbn [swap fst]. tauto.
Qed.
End Layout.
