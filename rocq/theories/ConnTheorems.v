(** Property theorems C20 (connections between circuits) and C21 (grouping gates
    into ranges). *)
From Coq Require Import List Bool Arith Lia Permutation.
Require Import Verif.Prelude Verif.PreludeProofs Verif.GateModel Verif.CircuitModel Verif.ExecModel
  Verif.ConnModel Verif.ConnSpec Verif.ConnProofs Verif.ConnProofs2.
Import ListNotations.

(** ** C20 *)

(** Every successful history of insertions answers all lookups exactly (as a
    multiset) if and only if no inserted from-range starts before and ends after
    another one. *)
Theorem C20_lookup_exact : forall imax hist m,
  rc_inserts [] hist = Some m -> Forall (fun ft => range_ok imax (fst ft)) hist ->
  (no_nesting (map fst hist) <-> forall g, Permutation (rc_gates imax m g) (related hist g)).
Proof.
  intros imax hist m H Hok. pose proof (rc_inserts_inv hist [] [] m rc_inv_nil H) as HI. simpl in HI. split.
  - intros HN g. apply lookup_complete; auto.
  - intros HP.
    assert (Hdec : no_nesting (map fst hist) \/ ~ no_nesting (map fst hist)).
    { set (bad := fun r1 r2 : grange => (fst (fst r1) =? fst (fst r2)) && (snd (fst r1) <? snd (fst r2)) &&
                             (snd (snd r2) <? snd (snd r1))).
      destruct (existsb (fun r1 => existsb (bad r1) (map fst hist)) (map fst hist)) eqn:E.
      - right. intros HN. apply existsb_exists in E. destruct E as (r1 & H1 & E). apply existsb_exists in E.
        destruct E as (r2 & H2 & E). unfold bad in E. rewrite !andb_true_iff, Nat.eqb_eq, !Nat.ltb_lt in E.
        specialize (HN r1 r2 H1 H2). lia.
      - left. intros r1 r2 H1 H2 E1 E2. destruct (le_lt_dec (snd (snd r1)) (snd (snd r2))); auto.
        assert (F : existsb (fun r1 => existsb (bad r1) (map fst hist)) (map fst hist) = true); [|congruence].
        apply existsb_exists. exists r1. split; auto. apply existsb_exists. exists r2. split; auto.
        unfold bad. rewrite !andb_true_iff, Nat.eqb_eq, !Nat.ltb_lt. auto. }
    destruct Hdec as [|HN]; auto. destruct (lookup_incomplete imax m hist HI Hok HN) as (g & Hg).
    rewrite (Permutation_length (HP g)) in Hg. lia.
Qed.

(** Whatever the nesting, a lookup never returns a gate that was not connected. *)
Theorem C20_lookup_sound : forall imax hist m g t,
  rc_inserts [] hist = Some m -> Forall (fun ft => range_ok imax (fst ft)) hist ->
  In t (rc_gates imax m g) -> In t (related hist g).
Proof.
  intros imax hist m g t H Hok. pose proof (rc_inserts_inv hist [] [] m rc_inv_nil H) as HI. simpl in HI.
  apply lookup_sound; auto.
Qed.

(** A legal history in which a lookup misses a connection (circuit_connections.rs
    153-154 documents the opposite insertion order as the only illegal one). *)
Theorem C20_nested_refuted : exists hist m g,
  rc_inserts [] hist = Some m /\ Forall (fun ft => range_ok 100 (fst ft)) hist /\
  related hist g = [(2, 5)] /\ rc_gates 100 m g = [].
Proof.
  exists [(((0, 4), (0, 6)), ((1, 0), (1, 2))); (((0, 3), (0, 9)), ((2, 0), (2, 6)))]. eexists. exists (0, 8).
  split; [vm_compute; reflexivity|]. split; [|split; vm_compute; reflexivity].
  repeat constructor; unfold range_ok; simpl; lia.
Qed.

(** Whole programs: after any sequence of connect calls, the outgoing gates and the
    parents of every gate are the intended ones. *)
Theorem C20_connections_partial : forall {G} (isz : G -> nat) imax (calls : list (call * circuit G)) cn rss,
  connect_calls isz cn_empty calls = Some cn ->
  Forall (unit_inputs isz) calls ->
  Forall2 call_ranges (map fst calls) rss ->
  Forall (fun c => Forall (fun x => snd x <= imax) (ca_from (fst c)) /\
                   Forall (fun t => t <= imax) (ca_ids (fst c)) /\
                   length (ca_from (fst c)) <= length (ca_ids (fst c))) calls ->
  no_nesting (map fst (concat rss)) -> no_nesting (map snd (concat rss)) ->
  let h := concat (map intended (map fst calls)) in
  forall g, Permutation (cn_outgoing imax cn g) (targets_of h g) /\
            Permutation (cn_parents imax cn g) (sources_of h g).
Proof.
  intros G isz imax calls cn rss H HU HC HB N1 N2 h g.
  destruct (calls_rep isz calls cn_empty cn [] [] rss [] cn_rep_empty) as (h1 & HR & HP); auto.
  cbn [app] in HP, HR. fold h in HP. destruct HR as [R1 R2 R3 R4]. destruct (HP g) as [P1 P2].
  assert (Hok : Forall (fun ft => range_ok imax (fst ft) /\ range_ok imax (snd ft)) (concat rss)).
  { clear - HC HB. revert rss HC. induction calls as [|[c circ] calls IH]; intros rss HC; cbn [map fst] in HC;
      inversion HC as [|? r ? rss' C1 C2]; subst; [constructor|].
    inversion HB as [|? ? (B1 & B2 & B3) B4]; subst. cbn [concat]. apply Forall_app. split; auto.
    eapply call_ranges_ok; eauto. }
  unfold cn_outgoing, cn_parents. rewrite R3, R4. split.
  - rewrite (lookup_complete imax _ _ R1); auto. eapply Forall_impl; [|exact Hok]. simpl. tauto.
  - rewrite (lookup_complete imax _ _ R2).
    + rewrite sources_swap. exact P2.
    + apply Forall_map. eapply Forall_impl; [|exact Hok]. simpl. tauto.
    + rewrite map_map. exact N2.
Qed.

(** A second call on some of the gates of the first panics. *)
Theorem C20_subrange_refuted : exists calls : list (call * circuit nat),
  Forall (unit_inputs (fun _ => 1)) calls /\
  Forall (fun c => NoDup (ca_from (fst c)) /\ length (ca_from (fst c)) = length (ca_ids (fst c))) calls /\
  connect_calls (fun _ => 1) cn_empty calls = None.
Proof.
  exists [(Call (run_from (0, 0) 4) 1 (seq 0 4), c_new); (Call (run_from (0, 2) 2) 2 (seq 0 2), c_new)].
  split; [|split]; [| |vm_compute; reflexivity].
  - repeat constructor; intros t g _ _; auto.
  - assert (ND : forall n a, NoDup (run_from a n)).
    { intros n a. apply NoDup_nth_error. intros i j Hi E. rewrite run_from_length in Hi.
      destruct (lt_dec j n) as [Hj|Hj].
      - rewrite !run_from_nth in E by auto. injection E. lia.
      - rewrite run_from_nth in E by auto. 
        assert (nth_error (run_from a n) j <> None) by congruence. apply nth_error_Some in H.
        rewrite run_from_length in H. lia. }
    constructor; [|constructor; [|constructor]]; cbn [fst ca_from ca_ids];
      (split; [apply ND|rewrite run_from_length, seq_length; auto]).
Qed.

(** Two overlapping calls; gate (0,5) is used by both, gate (0,2) only by the
    first. *)
Example C20_case :
  let calls := [(Call (run_from (0, 2) 6) 1 (seq 0 6), @c_new nat); (Call (run_from (0, 5) 5) 2 (seq 0 5), c_new)] in
  exists cn, connect_calls (fun _ => 1) cn_empty calls = Some cn /\
    cn_outgoing 100 cn (0, 5) = [(2, 0); (1, 3)] /\ cn_outgoing 100 cn (0, 2) = [(1, 0)] /\
    cn_parents 100 cn (1, 3) = [(0, 5)] /\
    no_nesting [((0, 2), (0, 7)); ((0, 5), (0, 9))].
Proof.
  eexists. split; [vm_compute; reflexivity|]. split; [vm_compute; reflexivity|]. split; [vm_compute; reflexivity|].
  split; [vm_compute; reflexivity|]. intros r1 r2 [<-|[<-|[]]] [<-|[<-|[]]]; simpl; lia.
Qed.

(** ** C21 *)

(** The groups, concatenated, are the gates; each group has its key as first
    element. *)
Theorem C21_concat : forall l gs, group_gates l = Some gs ->
  concat (map snd gs) = l /\ Forall (fun kg => hd_error (snd kg) = Some (fst kg)) gs.
Proof.
  intros l gs H. destruct (runs_exist l) as (rs & HM). destruct l as [|x l]; [discriminate|]. injection H as H.
  pose proof (gg_keys_runs _ _ HM) as HK. cbv beta iota in HK. change (group_adj (gg_keys x (x :: l)) = gs) in H.
  rewrite HK in H. destruct (group_structure rs (maximal_pos _ _ HM)) as (p & E & -> & A & F). rewrite E in H. subst gs.
  split.
  - rewrite <- (maximal_concat _ _ HM). unfold blocks_runs. clear. induction p as [|[k ns] p IH]; auto.
    cbn [map concat fst snd block_group]. rewrite map_app, concat_app, <- IH. f_equal.
    clear. unfold block_group. cbn [fst snd]. rewrite map_map. auto.
  - clear - F. apply Forall_map. eapply Forall_impl; [|exact F]. intros [k ns] [N P]. cbn [fst snd block_group] in *.
    destruct ns as [|n ns]; [congruence|]. inversion P; subst. destruct n; [lia|]. unfold block_group. cbn [fst snd map concat run_from app]. auto.
Qed.

(** The groups are exactly the maximal runs of consecutive gates iff no two
    adjacent runs start with the same gate. *)
Theorem C21_exact : forall l rs, l <> [] -> maximal_runs l rs ->
  (group_gates l = Some (map (fun r => (fst r, run_from (fst r) (snd r))) rs) <-> adjacent_differ (map fst rs)).
Proof.
  intros l rs HN HM. destruct l as [|x l]; [congruence|].
  pose proof (gg_keys_runs _ _ HM) as HK. cbv beta iota in HK.
  change (group_gates (x :: l)) with (Some (group_adj (gg_keys x (x :: l)))). rewrite HK.
  destruct (group_structure rs (maximal_pos _ _ HM)) as (p & E & -> & A & F). rewrite E.
  rewrite (blocks_single p F A). split.
  - intros H. injection H as H. apply (f_equal (@length _)) in H. rewrite !map_length in H.
    clear E HK HM A HN. assert (G : forall p, Forall (fun b : gid * list nat => snd b <> [] /\ Forall (lt 0) (snd b)) p ->
       length p <= length (blocks_runs p) /\ (length p = length (blocks_runs p) -> Forall (fun b => length (snd b) = 1) p)).
    { clear. induction p as [|[k ns] p IH]; intros F; [split; auto|]. inversion F as [|? ? [N _] F2]; subst.
      destruct (IH F2) as [I1 I2]. unfold blocks_runs in *. cbn [map concat fst snd length] in *.
      rewrite app_length, map_length. assert (1 <= length ns) by (destruct ns; [simpl in N; congruence|simpl; lia]).
      split; [lia|]. intros E. constructor; [simpl; lia|]. apply I2. lia. }
    apply G; auto.
  - intros H. f_equal. clear - H. induction H as [|[k ns] p H1 H2 IH]; auto. simpl in H1.
    destruct ns as [|n [|? ?]]; try discriminate. unfold blocks_runs in *. cbn [map concat app fst snd]. rewrite IH.
    unfold block_group. cbn [fst snd map concat]. rewrite app_nil_r. auto.
Qed.

(** If two adjacent runs start with the same gate, connecting them to consecutive
    input gates panics. *)
Theorem C21_merged_panics : forall l rs to_c t n cn, l <> [] -> maximal_runs l rs ->
  ~ adjacent_differ (map fst rs) ->
  exists gs, group_gates l = Some gs /\ connect_ranges gs to_c (seq t n) 0 cn = None.
Proof.
  intros l rs to_c t n cn HN HM HA. destruct l as [|x l]; [congruence|].
  pose proof (gg_keys_runs _ _ HM) as HK. cbv beta iota in HK.
  change (group_gates (x :: l)) with (Some (group_adj (gg_keys x (x :: l)))). rewrite HK.
  destruct (group_structure rs (maximal_pos _ _ HM)) as (p & E & -> & A & F). rewrite E.
  eexists. split; [reflexivity|]. destruct (connect_ranges _ _ _ _ _) as [cn'|] eqn:EC; auto. exfalso.
  apply HA. apply (blocks_single p F A). apply connect_ranges_spec in EC; auto. tauto.
Qed.

(** Passing the same secret twice: one group of two equal gates, and the call
    panics although both connections are legal on their own. *)
Theorem C21_refuted : exists l, group_gates l = Some [((0, 5), [(0, 5); (0, 5)])] /\
  connect_sc_gates (fun _ : nat => 1) cn_empty l c_new 1 [0; 1] = None /\
  connect_sc_gates (fun _ : nat => 1) cn_empty (firstn 1 l) c_new 1 [0] <> None /\
  connect_sc_gates (fun _ : nat => 1) cn_empty (skipn 1 l) c_new 1 [1] <> None.
Proof. exists [(0, 5); (0, 5)]. split; [|split; [|split]]; vm_compute; try discriminate; reflexivity. Qed.

Example C21_case : group_gates [(0, 3); (0, 4); (0, 9); (0, 5); (0, 6); (0, 7); (1, 8)] =
   Some [((0, 3), [(0, 3); (0, 4)]); ((0, 9), [(0, 9)]); ((0, 5), [(0, 5); (0, 6); (0, 7)]); ((1, 8), [(1, 8)])] /\
  exists rs, maximal_runs [(0, 3); (0, 4); (0, 9)] rs /\ adjacent_differ (map fst rs).
Proof.
  split; [vm_compute; reflexivity|]. exists [((0, 3), 2); ((0, 9), 1)]. split.
  - change [(0, 3); (0, 4); (0, 9)] with (run_from (0, 3) 2 ++ run_from (0, 9) 1 ++ []).
    constructor; [constructor; [constructor|auto]|]. simpl. discriminate.
  - simpl. split; auto. discriminate.
Qed.

Print Assumptions C20_lookup_exact.
Print Assumptions C20_lookup_sound.
Print Assumptions C20_nested_refuted.
Print Assumptions C20_connections_partial.
Print Assumptions C20_subrange_refuted.
Print Assumptions C21_concat.
Print Assumptions C21_exact.
Print Assumptions C21_merged_panics.
Print Assumptions C21_refuted.
