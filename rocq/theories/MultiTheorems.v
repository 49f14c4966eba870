(** Property theorems C22 (layers of circuits made of several circuits) and C56
    (the layers do not depend on the iteration order of a hash map). *)
From Coq Require Import List Bool Arith Lia Permutation.
Require Import Verif.Prelude Verif.PreludeProofs Verif.GateModel Verif.CircuitModel
  Verif.CircuitSpec Verif.CircuitProofs Verif.CircuitProofs2 Verif.CircuitProofs3
  Verif.BoolGmwModel Verif.ExecModel Verif.ConnModel Verif.ConnSpec Verif.ConnProofs Verif.ConnProofs2
  Verif.ConnTheorems Verif.CircuitCheck
  Verif.MultiModel Verif.MultiSpec Verif.MultiProofs Verif.MultiProofs2.
Import ListNotations.

(** [perm] only rearranges. *)
Definition rearranges (perm : nat -> miter -> miter) : Prop := forall i st, Permutation st (perm i st).

(** The stored connections are the wires [h]. *)
Definition wired_as {G} (imax : nat) (m : mcirc G) (h : list (gid * gid)) : Prop :=
  forall g, Permutation (cn_outgoing imax (mc_conns m) g) (targets_of h g) /\
            Permutation (cn_parents imax (mc_conns m) g) (sources_of h g).

(** ** C22 *)

(** Iteration terminates without a panic and emits exactly the executed gates,
    each once.  Missing: several wires into one sub-circuit input. *)
Theorem C22_once_partial :
  forall (P G : Type) (ops : gate_ops P G) (m : mcirc G) imax h perm,
  circuits_ok ops (mc_get m) -> wires_ok ops (mc_get m) h -> wired_as imax m h -> rearranges perm ->
  exists ls, mc_layers ops imax m perm = Some ls /\ NoDup (emitted ls) /\
    forall g, In g (emitted ls) <-> runs ops (mc_get m) h g.
Proof.
  intros P G ops m imax h perm HC HW HA HP.
  destruct (mc_layers_spec ops m imax h HC HW (fun g => proj1 (HA g)) perm HP) as (ls & A & B & C & _ & D).
  exists ls. split; auto. split; auto. intros g. split; auto.
  intros Hg. eapply (MSched_runs ops m h HC ls B (flat ls) []); auto. rewrite app_nil_r. auto.
Qed.
Print Assumptions C22_once_partial.

(** Every gate is emitted after all its operands, in its own and in other
    circuits; in a strictly later layer if the operand is in another circuit or
    is interactive. *)
Theorem C22_order_partial :
  forall (P G : Type) (ops : gate_ops P G) (m : mcirc G) imax h perm ls,
  circuits_ok ops (mc_get m) -> wires_ok ops (mc_get m) h -> wired_as imax m h -> rearranges perm ->
  mc_layers ops imax m perm = Some ls ->
  forall p g, In g (emitted ls) -> operand (mc_get m) h p g ->
    before (emitted ls) p g /\
    exists j i, in_mlayer ls j p /\ in_mlayer ls i g /\ j <= i /\
      (fst p <> fst g \/ In (p, g) h -> j < i) /\
      (forall c, mc_get m (fst p) = Some c -> is_int ops c (snd p) = true -> j < i).
Proof.
  intros P G ops m imax h perm ls HC HW HA HP HL p g Hg Hop.
  destruct (mc_layers_spec ops m imax h HC HW (fun g => proj1 (HA g)) perm HP) as (ls' & A & B & C & _ & D).
  rewrite HL in A. injection A as <-. split.
  - apply in_split in Hg. destruct Hg as (l1 & l2 & E). destruct g as [k x].
    destruct (MSched_prefix ops m h ls [] l1 k x l2 B E) as (c & A & _ & Hp & Hw & _).
    assert (Hin : In p l1).
    { destruct Hop as [Hop|(c' & A' & Ek & Hop)]; [apply Hw; auto|].
      simpl in *. rewrite A in A'. injection A' as <-. destruct p as [kp p]. simpl in *. subst kp.
      apply Hp; auto. }
    apply in_split in Hin. destruct Hin as (a & b & ->). exists a, b, l2. rewrite E, <- app_assoc. auto.
  - apply flat_in_layer in Hg. destruct Hg as (i & Hi).
    destruct (MSched_layers ops m h HC HW ls i g p B Hi Hop) as (j & J). exists j, i. tauto.
Qed.
Print Assumptions C22_order_partial.

(** All layers are non-empty, and gates are filed under their kind. *)
Theorem C22_kinds_partial :
  forall (P G : Type) (ops : gate_ops P G) (m : mcirc G) imax h perm ls,
  circuits_ok ops (mc_get m) -> wires_ok ops (mc_get m) h -> wired_as imax m h -> rearranges perm ->
  mc_layers ops imax m perm = Some ls ->
  forall l, In l ls -> l <> [] /\
    forall sc s b, In (sc, s, b) l -> exists c, mc_get m sc = Some c /\ s = c_simd c /\
      (forall g, In g (bl_ni b) -> is_int ops c g = false) /\
      (forall g, In g (bl_int b) -> is_int ops c g = true).
Proof.
  intros P G ops m imax h perm ls HC HW HA HP HL l Hl.
  destruct (mc_layers_spec ops m imax h HC HW (fun g => proj1 (HA g)) perm HP) as (ls' & A & B & _).
  rewrite HL in A. injection A as <-. split.
  - clear - Hl B. revert B. generalize (@nil gid). induction ls as [|x r IH]; intros E B; [destruct Hl|].
    destruct B as (B1 & B2 & B3). destruct Hl as [<-|Hl]; eauto.
  - intros sc s b Hb. apply In_nth_error in Hl. destruct Hl as (i & Hi).
    destruct (MSched_nth ops m h ls [] i l B Hi) as [_ H]. destruct (H _ _ _ Hb) as (c & A & Es & _ & LR & _).
    exists c. split; auto. split; auto. split; [exact (lr_kni _ _ _ _ _ LR)|exact (lr_kit _ _ _ _ _ LR)].
Qed.
Print Assumptions C22_kinds_partial.

Lemma parents_In {G} (c : circuit G) p g : In p (parents c g) -> In (p, g) (c_edges c).
Proof.
  unfold parents. rewrite in_map_iff. intros ([a b] & <- & H). apply filter_In in H. destruct H as [H E].
  apply Nat.eqb_eq in E. simpl in *. subst. auto.
Qed.

Lemma callable_runs {P G} (ops : gate_ops P G) circ h : circuits_ok ops circ -> all_callable ops circ h ->
  forall g, gate_exists circ g -> runs ops circ h g.
Proof.
  intros HC (rank & R1 & R2).
  assert (IH : forall n g, rank g < n -> gate_exists circ g -> runs ops circ h g).
  { induction n as [|n IH]; intros [k g] Hr (c & Hk & Hg); [lia|]. simpl in Hk, Hg.
    destruct (parents c g) as [|p0 ps] eqn:Ep.
    - destruct (nth_error (c_gates c) g) as [x|] eqn:Ex; [|apply nth_error_None in Ex; unfold c_count in Hg; lia].
      destruct (R2 k c g x Hk Ex Ep) as [[-> Hx]|[(p & Hp & He)|(Hx & p & t & Hp & He & Hlt)]].
      + eapply runs_main; eauto.
      + eapply runs_wire; [|exact Hp]. apply IH; auto. specialize (R1 p (k, g) (or_introl Hp)). lia.
      + eapply runs_const; eauto. apply IH; auto. lia.
    - eapply runs_gate; eauto; [congruence|]. intros p Hp.
      assert (Ho : operand circ h (k, p) (k, g)) by (right; exists c; simpl; auto).
      apply IH; [specialize (R1 _ _ Ho); lia|]. exists c. simpl. split; auto.
      destruct HC as [_ HC]. destruct (HC k c Hk) as [HA _]. apply api_api_wf in HA.
      apply parents_In in Hp. apply (aw_range _ _ HA p g Hp). }
  intros g. apply (IH (S (rank g))). lia.
Qed.

(** No gate is left out: when no gate depends on itself and every called circuit
    has its inputs connected, all gates of all circuits are emitted, each once. *)
Theorem C22_all_gates_partial :
  forall (P G : Type) (ops : gate_ops P G) (m : mcirc G) imax h perm,
  circuits_ok ops (mc_get m) -> wires_ok ops (mc_get m) h -> wired_as imax m h -> rearranges perm ->
  all_callable ops (mc_get m) h ->
  exists ls, mc_layers ops imax m perm = Some ls /\ NoDup (emitted ls) /\
    forall g, In g (emitted ls) <-> gate_exists (mc_get m) g.
Proof.
  intros P G ops m imax h perm HC HW HA HP HR.
  destruct (mc_layers_spec ops m imax h HC HW (fun g => proj1 (HA g)) perm HP) as (ls & A & B & C & X & D).
  exists ls. split; auto. split; auto. intros g. split; [apply X|]. intros Hg. apply D.
  apply callable_runs; auto.
Qed.
Print Assumptions C22_all_gates_partial.

(** The hypothesis on the stored connections holds for every sequence of connect
    calls within the conditions of C20. *)
Theorem C22_built_partial :
  forall (P G : Type) (ops : gate_ops P G) (isz : G -> nat) imax (calls : list (call * circuit G)) cn rss cs mp perm,
  connect_calls isz cn_empty calls = Some cn ->
  Forall (unit_inputs isz) calls ->
  Forall2 call_ranges (map fst calls) rss ->
  Forall (fun c => Forall (fun x => snd x <= imax) (ca_from (fst c)) /\
                   Forall (fun t => t <= imax) (ca_ids (fst c)) /\
                   length (ca_from (fst c)) <= length (ca_ids (fst c))) calls ->
  no_nesting (map fst (concat rss)) -> no_nesting (map snd (concat rss)) ->
  let h := concat (map intended (map fst calls)) in
  let m := MC cs mp cn in
  circuits_ok ops (mc_get m) -> wires_ok ops (mc_get m) h -> rearranges perm ->
  exists ls, mc_layers ops imax m perm = Some ls /\ NoDup (emitted ls) /\
    forall g, In g (emitted ls) <-> runs ops (mc_get m) h g.
Proof.
  intros P G ops isz imax calls cn rss cs mp perm H1 H2 H3 H4 H5 H6 h m HC HW HP.
  apply C22_once_partial; auto. intros g.
  apply (C20_connections_partial isz imax calls cn rss H1 H2 H3 H4 H5 H6 g).
Qed.
Print Assumptions C22_built_partial.

(** Two gates of the main circuit connected to one input of a sub-circuit (how the
    lanes of a SIMD sub-circuit are filled, builder.rs 132-215): the input is
    queued once per wire. *)
Definition rep_sub : circuit bool_gate :=
  c_build bool_ops (c_set_simd c_new 2)
    [(BBase GScInput, []); (BBase GIdentity, [0]); (BBase GScOutput, [1])].
Definition rep_main : circuit bool_gate :=
  c_build bool_ops c_new_main
    [(BBase GInput, []); (BBase GInput, []); (BBase (GConnectToMainFromSimd 0), []);
     (BBase (GConnectToMainFromSimd 1), []); (BBase GOutput, [2]); (BBase GOutput, [3])].
Definition rep_calls : list (call * circuit bool_gate) :=
  [(Call [(0, 0)] 1 [0], rep_sub); (Call [(0, 1)] 1 [0], rep_sub);
   (Call [(1, 2)] 0 [2], rep_main); (Call [(1, 2)] 0 [3], rep_main)].

Definition bc_check {P G} (ops : gate_ops P G) (c : circuit G) : bool :=
  forallb (fun g => match nth_error (c_gates c) g with
    | Some x => negb (is_input_gate ops x || is_const_gate ops x || is_scin_gate ops x) ||
                match parents c g with [] => true | _ => false end
    | None => true end) (seq 0 (c_count c)).

Lemma bc_check_ok {P G} (ops : gate_ops P G) c : bc_check ops c = true ->
  forall g x, nth_error (c_gates c) g = Some x ->
    is_input_gate ops x || is_const_gate ops x || is_scin_gate ops x = true -> parents c g = [].
Proof.
  unfold bc_check. rewrite forallb_forall. intros H g x Hx Hk.
  assert (Hg : g < c_count c) by (apply nth_error_Some; congruence).
  specialize (H g). rewrite Hx, Hk in H. simpl in H. destruct (parents c g); auto.
  discriminate H. apply in_seq. lia.
Qed.

Lemma circuits_ok_list {P G} (ops : gate_ops P G) (m : mcirc G) :
  (exists c, mc_get m 0 = Some c) ->
  Forall (fun c => api ops c /\ bc_check ops c = true) (mc_circuits m) ->
  circuits_ok ops (mc_get m).
Proof.
  intros H0 H. split; auto. intros k c Hk.
  assert (Hin : In c (mc_circuits m)).
  { unfold mc_get in Hk. destruct (nth_error (mc_map m) k); [|discriminate]. eapply nth_error_In; eauto. }
  rewrite Forall_forall in H. destruct (H c Hin). split; auto. apply bc_check_ok; auto.
Qed.

(** Boolean checks of the ranking and the wires, for concrete circuits. *)
Definition exists_check {G} (m : mcirc G) (p : gid) : bool :=
  match mc_get m (fst p) with Some c => snd p <? c_count c | None => false end.

Definition rank_check {P G} (ops : gate_ops P G) (m : mcirc G) (h : list (gid * gid))
  (rank : gid -> nat) : bool :=
  forallb (fun w => rank (fst w) <? rank (snd w)) h &&
  forallb (fun k => match mc_get m k with None => true | Some c =>
    forallb (fun e => rank (k, fst e) <? rank (k, snd e)) (c_edges c) &&
    forallb (fun g => match nth_error (c_gates c) g with
      | None => true
      | Some x => match parents c g with
        | _ :: _ => true
        | [] =>
           ((k =? 0) && (is_input_gate ops x || is_const_gate ops x)) ||
           existsb (fun w => (fst (snd w) =? k) && (snd (snd w) =? g) && exists_check m (fst w)) h ||
           (is_const_gate ops x && existsb (fun w => (fst (snd w) =? k) && exists_check m (fst w) &&
              (rank (fst w) <? rank (k, g))) h)
        end end) (seq 0 (c_count c)) end)
    (seq 0 (length (mc_map m))).

Definition wires_check {P G} (ops : gate_ops P G) (m : mcirc G) (h : list (gid * gid)) : bool :=
  forallb (fun w => match mc_gate m (snd w) with Some x => is_scin_gate ops x | None => false end) h.

Lemma mc_get_range {G} (m : mcirc G) k c : mc_get m k = Some c -> In k (seq 0 (length (mc_map m))).
Proof.
  unfold mc_get. intros H. apply in_seq. split; [lia|]. simpl. apply nth_error_Some.
  destruct (nth_error (mc_map m) k); [congruence|discriminate].
Qed.

Lemma rank_check_ok {P G} (ops : gate_ops P G) m h rank : rank_check ops m h rank = true ->
  all_callable ops (mc_get m) h.
Proof.
  unfold rank_check. rewrite andb_true_iff, !forallb_forall. intros [H1 H2]. exists rank.
  assert (Hex : forall p, exists_check m p = true -> gate_exists (mc_get m) p).
  { intros p H. unfold exists_check in H. unfold gate_exists. destruct (mc_get m (fst p)) as [c|]; [|discriminate].
    exists c. split; auto. apply Nat.ltb_lt; auto. }
  split.
  - intros p g [Hw|(c & Hc & Ek & Hp)].
    + apply Nat.ltb_lt. apply (H1 (p, g) Hw).
    + specialize (H2 (fst g) (mc_get_range _ _ _ Hc)). rewrite Hc in H2.
      apply andb_true_iff in H2. destruct H2 as [H2 _]. rewrite forallb_forall in H2.
      apply parents_In in Hp. specialize (H2 _ Hp). cbn [fst snd] in H2.
      apply Nat.ltb_lt in H2. destruct p, g. simpl in *. subst. auto.
  - intros k c g x Hc Hx Hp. specialize (H2 k (mc_get_range _ _ _ Hc)). rewrite Hc in H2.
    apply andb_true_iff in H2. destruct H2 as [_ H2]. rewrite forallb_forall in H2.
    specialize (H2 g). rewrite Hx, Hp in H2.
    assert (Hg : g < c_count c) by (apply nth_error_Some; congruence).
    assert (Hs : In g (seq 0 (c_count c))) by (apply in_seq; lia). specialize (H2 Hs).
    apply orb_true_iff in H2. destruct H2 as [H2|H2]; [apply orb_true_iff in H2; destruct H2 as [H2|H2]|].
    + apply andb_true_iff in H2. destruct H2 as [E1 E2]. apply Nat.eqb_eq in E1. auto.
    + right. left. apply existsb_exists in H2. destruct H2 as ((p & t) & Hin & E). cbn [fst snd] in E.
      rewrite !andb_true_iff, !Nat.eqb_eq in E. destruct E as [[E1 E2] E3]. exists p. split; auto.
      destruct t. simpl in *. subst. auto.
    + right. right. apply andb_true_iff in H2. destruct H2 as [E1 H2]. split; auto.
      apply existsb_exists in H2. destruct H2 as ((p & t) & Hin & E). cbn [fst snd] in E.
      rewrite !andb_true_iff, Nat.eqb_eq, Nat.ltb_lt in E. destruct E as [[E2 E3] E4].
      exists p, (snd t). split; [destruct t; simpl in *; subst; auto|]. auto.
Qed.

Lemma wires_check_ok {P G} (ops : gate_ops P G) m h : NoDup (map snd h) -> wires_check ops m h = true ->
  wires_ok ops (mc_get m) h.
Proof.
  intros Hn H. split; auto. intros p t Hin. unfold wires_check in H. rewrite forallb_forall in H.
  specialize (H _ Hin). cbn [snd] in H. unfold mc_gate in H.
  destruct (mc_get m (fst t)) as [c|]; [|discriminate]. cbn [obind] in H.
  destruct (nth_error (c_gates c) (snd t)) as [x|] eqn:E; [|discriminate]. eauto.
Qed.

Lemma wired_as_ranges {G} (isz : G -> nat) imax (calls : list (call * circuit G)) cn rss (cs : list (circuit G)) mp :
  connect_calls isz cn_empty calls = Some cn ->
  Forall (unit_inputs isz) calls ->
  Forall2 call_ranges (map fst calls) rss ->
  Forall (fun c => Forall (fun x => snd x <= imax) (ca_from (fst c)) /\
                   Forall (fun t => t <= imax) (ca_ids (fst c)) /\
                   length (ca_from (fst c)) <= length (ca_ids (fst c))) calls ->
  no_nesting (map fst (concat rss)) -> no_nesting (map snd (concat rss)) ->
  wired_as imax (MC cs mp cn) (concat (map intended (map fst calls))).
Proof. intros H1 H2 H3 H4 H5 H6 g. exact (C20_connections_partial isz imax calls cn rss H1 H2 H3 H4 H5 H6 g). Qed.

Lemma call_single g k t : call_ranges (Call [g] k [t]) [((g, g), ((k, t), (k, t)))].
Proof.
  assert (E : run_ranges [(g, 1)] k t = [((g, g), ((k, t), (k, t)))]).
  { simpl. rewrite !Nat.add_0_r. destruct g; reflexivity. }
  rewrite <- E. refine (cr_range [g] k t 0 [(g, 1)] _).
  refine (mr_cons g 0 [] [] mr_nil I).
Qed.

Definition rep_conns : conns :=
  match connect_calls (fun _ : bool_gate => 1) cn_empty rep_calls with Some cn => cn | None => cn_empty end.

Theorem C22_repeated_input_refuted : exists calls cs cn,
  Forall (unit_inputs (fun _ : bool_gate => 1)) calls /\
  connect_calls (fun _ => 1) cn_empty calls = Some cn /\
  let m := MC cs (seq 0 (length cs)) cn in
  circuits_ok bool_ops (mc_get m) /\
  wired_as 100 m (concat (map intended (map fst calls))) /\
  all_callable bool_ops (mc_get m) (concat (map intended (map fst calls))) /\
  (forall perm, rearranges perm -> mc_layers bool_ops 100 m perm = None).
Proof.
  exists rep_calls, [rep_main; rep_sub], rep_conns.
  assert (HU : Forall (unit_inputs (fun _ : bool_gate => 1)) rep_calls) by (repeat constructor; intros ? ? _ _; auto).
  split; [exact HU|]. split; [vm_compute; reflexivity|]. cbv zeta.
  split; [|split; [|split]].
  - apply circuits_ok_list; [eexists; vm_compute; reflexivity|].
    constructor; [|constructor; [|constructor]]; (split; [apply c_build_api|vm_compute; reflexivity]);
      repeat constructor.
  - refine (wired_as_ranges (fun _ => 1) 100 rep_calls rep_conns
      [[(((0, 0), (0, 0)), ((1, 0), (1, 0)))]; [(((0, 1), (0, 1)), ((1, 0), (1, 0)))];
       [(((1, 2), (1, 2)), ((0, 2), (0, 2)))]; [(((1, 2), (1, 2)), ((0, 3), (0, 3)))]] _ _ _ HU _ _ _ _).
    + vm_compute; reflexivity.
    + repeat constructor; apply call_single.
    + repeat constructor; simpl; lia.
    + simpl. intros r1 r2 H1 H2. simpl in *. intuition subst; simpl in *; lia.
    + simpl. intros r1 r2 H1 H2. simpl in *. intuition subst; simpl in *; lia.
  - apply rank_check_ok with (rank := fun g => if fst g =? 1 then 2 + snd g else if snd g <? 2 then snd g else 10 + snd g).
    vm_compute. reflexivity.
  - intros perm HP. rewrite (mc_layers_det _ _ _ perm (fun _ st => st) HP (fun _ st => Permutation_refl st)).
    vm_compute. reflexivity.
Qed.
Print Assumptions C22_repeated_input_refuted.


(** A sub-circuit (AND of its two inputs, with a constant) called twice; the
    second call takes the result of the first.  Circuit ids 1 and 2 are the same
    circuit. *)
Definition two_sub : circuit bool_gate :=
  c_build bool_ops c_new
    [(BBase GScInput, []); (BBase GScInput, []); (BBase (GConstant true), []);
     (BAnd, [0; 1]); (BXor, [3; 2]); (BBase GScOutput, [4])].
Definition two_main : circuit bool_gate :=
  c_build bool_ops c_new_main
    [(BBase GInput, []); (BBase GInput, []); (BBase GScInput, []); (BXor, [0; 2]);
     (BBase GScInput, []); (BBase GOutput, [4])].
Definition two_calls : list (call * circuit bool_gate) :=
  [(Call [(0, 0); (0, 1)] 1 [0; 1], two_sub); (Call [(1, 5)] 0 [2], two_main);
   (Call [(0, 2); (0, 3)] 2 [0; 1], two_sub); (Call [(2, 5)] 0 [4], two_main)].
Definition two_wires : list (gid * gid) := concat (map intended (map fst two_calls)).
Definition two_conns : conns :=
  match connect_calls (fun _ : bool_gate => 1) cn_empty two_calls with Some cn => cn | None => cn_empty end.
Definition two_circuit : mcirc bool_gate := MC [two_main; two_sub] [0; 1; 1] two_conns.
Definition two_rank (g : gid) : nat :=
  nth (fst g) [nth (snd g) [0; 1; 20; 21; 50; 51] 0; 5 + snd g; 30 + snd g] 0.

Lemma call_pair k g l t : call_ranges (Call [(k, g); (k, S g)] l [t; S t])
  [(((k, g), (k, S g)), ((l, t), (l, S t)))].
Proof.
  assert (E : run_ranges [((k, g), 2)] l t = [(((k, g), (k, S g)), ((l, t), (l, S t)))]).
  { simpl. rewrite !Nat.add_1_r. reflexivity. }
  rewrite <- E. refine (cr_range [(k, g); (k, S g)] l t 1 [((k, g), 2)] _).
  pose proof (mr_cons (k, g) 1 [] [] mr_nil I) as H. exact H.
Qed.

Lemma two_ok : circuits_ok bool_ops (mc_get two_circuit) /\ wires_ok bool_ops (mc_get two_circuit) two_wires /\
  wired_as 100 two_circuit two_wires /\ all_callable bool_ops (mc_get two_circuit) two_wires.
Proof.
  split; [|split; [|split]].
  - apply circuits_ok_list; [eexists; vm_compute; reflexivity|].
    constructor; [|constructor; [|constructor]]; (split; [apply c_build_api|vm_compute; reflexivity]);
      repeat constructor.
  - apply wires_check_ok; [|vm_compute; reflexivity].
    vm_compute. repeat (constructor; [simpl; intuition congruence|]). constructor.
  - refine (wired_as_ranges (fun _ => 1) 100 two_calls two_conns
      [[(((0, 0), (0, 1)), ((1, 0), (1, 1)))]; [(((1, 5), (1, 5)), ((0, 2), (0, 2)))];
       [(((0, 2), (0, 3)), ((2, 0), (2, 1)))]; [(((2, 5), (2, 5)), ((0, 4), (0, 4)))]] _ _ _ _ _ _ _ _).
    + vm_compute; reflexivity.
    + repeat constructor; intros ? ? _ _; auto.
    + repeat constructor; try apply call_single; apply call_pair.
    + repeat constructor; simpl; lia.
    + simpl. intros r1 r2 H1 H2. simpl in *. intuition subst; simpl in *; lia.
    + simpl. intros r1 r2 H1 H2. simpl in *. intuition subst; simpl in *; lia.
  - apply rank_check_ok with (rank := two_rank). vm_compute. reflexivity.
Qed.

Example C22_case :
  circuits_ok bool_ops (mc_get two_circuit) /\ wires_ok bool_ops (mc_get two_circuit) two_wires /\
  wired_as 100 two_circuit two_wires /\ all_callable bool_ops (mc_get two_circuit) two_wires /\
  option_map (map el_ids) (mc_layers bool_ops 100 two_circuit (fun _ st => st)) =
   Some [[(0, 0); (0, 1)]; [(1, 2); (1, 0); (1, 1); (1, 3)]; [(1, 4); (1, 5)]; [(0, 2); (0, 3)];
         [(2, 2); (2, 0); (2, 1); (2, 3)]; [(2, 4); (2, 5)]; [(0, 4); (0, 5)]].
Proof.
  destruct two_ok as (A & B & C & D). repeat (split; [assumption|]). vm_compute. reflexivity.
Qed.

(** ** C56 *)

(** Two iterations, each with its own order of the hash map of iterators in every
    call of [next], give the same layers with the gates in the same order (or
    both panic). *)
Theorem C56_same_layers :
  forall (P G : Type) (ops : gate_ops P G) imax (m : mcirc G) perm perm',
  rearranges perm -> rearranges perm' ->
  mc_layers ops imax m perm = mc_layers ops imax m perm'.
Proof. intros. apply mc_layers_det; auto. Qed.
Print Assumptions C56_same_layers.

(** So do the executors of both parties. *)
Theorem C56_same_circuit :
  forall (P G : Type) (ops : gate_ops P G) imax (m : mcirc G) perm perm',
  rearranges perm -> rearranges perm' ->
  ec_of_mc ops imax m perm = ec_of_mc ops imax m perm'.
Proof.
  intros P G ops imax m perm perm' H H'. unfold ec_of_mc.
  rewrite (C56_same_layers _ _ ops imax m perm perm' H H'). reflexivity.
Qed.
Print Assumptions C56_same_circuit.

(** Two sub-circuits active at once, with the map reversed before every call. *)
Definition par_main : circuit bool_gate :=
  c_build bool_ops c_new_main
    [(BBase GInput, []); (BBase GInput, []); (BBase GScInput, []); (BBase GScInput, []); (BBase GOutput, [2]);
     (BBase GOutput, [3])].
Definition par_calls : list (call * circuit bool_gate) :=
  [(Call [(0, 0); (0, 1)] 1 [0; 1], two_sub); (Call [(0, 0); (0, 1)] 2 [0; 1], two_sub);
   (Call [(1, 5)] 0 [2], par_main); (Call [(2, 5)] 0 [3], par_main)].
Definition par_conns : conns :=
  match connect_calls (fun _ : bool_gate => 1) cn_empty par_calls with Some cn => cn | None => cn_empty end.
Definition par_circuit : mcirc bool_gate := MC [par_main; two_sub] [0; 1; 1] par_conns.

Example C56_case :
  rearranges (fun _ st => st) /\ rearranges (fun _ st => rev st) /\
  option_map (map el_ids) (mc_layers bool_ops 100 par_circuit (fun _ st => rev st)) =
  Some [[(0, 0); (0, 1)];
        [(1, 2); (1, 0); (1, 1); (1, 3); (2, 2); (2, 0); (2, 1); (2, 3)];
        [(1, 4); (1, 5); (2, 4); (2, 5)]; [(0, 2); (0, 3); (0, 4); (0, 5)]].
Proof.
  split; [intros i st; auto|]. split; [intros i st; apply Permutation_rev|]. vm_compute. reflexivity.
Qed.
