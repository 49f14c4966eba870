(** Property theorems C51 for programs made of several circuits: what the
    executor releases and who still reads it. *)
From Coq Require Import List Bool Arith Lia Permutation.
Require Import Verif.Prelude Verif.PreludeProofs Verif.BitVecModel Verif.BitVecSpec Verif.GateModel
  Verif.ProtocolModel Verif.BoolGmwModel
  Verif.BoolGmwSpec Verif.BoolGmwTheorems Verif.CircuitModel Verif.CircuitSpec Verif.CircuitProofs Verif.CircuitProofs2
  Verif.ExecModel Verif.ExecSpec Verif.ExecProofs Verif.ExecBoolSpec
  Verif.ExecCircuitSpec Verif.ExecCircuitProofs Verif.ExecTheorems Verif.ConnModel Verif.ConnSpec
  Verif.ConnProofs Verif.ConnProofs2 Verif.ConnTheorems Verif.CircuitCheck
  Verif.MultiModel Verif.MultiSpec
  Verif.MultiProofs Verif.MultiProofs2 Verif.MultiTheorems Verif.MultiExecSpec Verif.MultiExecProofs Verif.MultiExecProofs2
  Verif.MultiExecTheorems.
Import ListNotations.

Lemma in_mlayer_ids ls i g : in_mlayer ls i g <-> exists L, nth_error ls i = Some L /\ In g (el_ids L).
Proof.
  destruct g as [k x]. split.
  - intros (L & sc & s & b & Hi & Hb & Hk & Hx). simpl in *. subst sc. exists L. split; auto. apply in_el_ids. eauto.
  - intros (L & Hi & Hx). apply in_el_ids in Hx. destruct Hx as (s & b & Hb & Hx). exists L, k, s, b. auto.
Qed.

Lemma mlayer_unique : forall ls i j g, NoDup (flat ls) -> in_mlayer ls i g -> in_mlayer ls j g -> i = j.
Proof.
  intros ls i j g HN Hi Hj. apply in_mlayer_ids in Hi. apply in_mlayer_ids in Hj.
  destruct Hi as (L & Hi & Hg). destruct Hj as (L' & Hj & Hg').
  revert i j HN Hi Hj. induction ls as [|A ls IH]; intros i j HN Hi Hj; [destruct i; discriminate|].
  change (flat (A :: ls)) with (el_ids A ++ flat ls) in HN.
  assert (D : forall i L, nth_error ls i = Some L -> In g (el_ids L) -> In g (el_ids A) -> False).
  { intros i0 L0 E H1 H2. refine (NoDup_app_disj (el_ids A) (flat ls) g HN H2 _).
    unfold flat. rewrite in_concat. exists (el_ids L0). split; auto. apply in_map. eapply nth_error_In; eauto. }
  destruct i as [|i], j as [|j]; simpl in *; auto.
  - injection Hi as <-. exfalso. eauto.
  - injection Hj as <-. exfalso. eauto.
  - f_equal. apply IH; auto. eapply NoDup_app_r; eauto.
Qed.

(** If gates of SIMD circuits that are read by other circuits are not read in
    their own circuit, a gate that a layer releases has been computed, and
    whoever reads it -- in any circuit -- runs in that layer or an earlier one.
    Missing: gates with readers of both kinds, see the next theorem. *)
Theorem C51_several_circuits_partial :
  forall (P G : Type) (ops : gate_ops P G) (m : mcirc G) imax h perm ls,
  circuits_ok ops (mc_get m) -> wires_ok ops (mc_get m) h -> wired_as imax m h -> rearranges perm ->
  (forall p t c, In (p, t) h -> mc_get m (fst p) = Some c -> c_simd c = None \/ children c (snd p) = []) ->
  mc_layers ops imax m perm = Some ls ->
  forall i L f, nth_error ls i = Some L -> In f (freed L) ->
    (exists j, j <= i /\ in_mlayer ls j f) /\
    forall g, operand (mc_get m) h f g -> exists j, j <= i /\ in_mlayer ls j g /\
      forall j', in_mlayer ls j' g -> j' = j.
Proof.
  intros P G ops m imax h perm ls HC HW HA HP Hsrc HL i L f Hi Hf.
  destruct (mc_layers_spec ops m imax h HC HW (fun g => proj1 (HA g)) perm HP) as (ls' & A & B & C & _ & _).
  rewrite HL in A. injection A as <-.
  destruct (in_freed _ _ Hf) as (k & n & b & x & -> & Hb & Hx).
  destruct (MSched_nth ops m h ls [] i L B Hi) as [_ HLo].
  destruct (HLo _ _ _ Hb) as (c & Hc & Hs & _ & _ & FR & _). cbn [app] in FR.
  destruct (FR x Hx) as (F1 & F2 & y & F3 & F4).
  assert (Hlay : forall u, In u (proj k (flat (firstn i ls)) ++ bl_ids b) -> exists j, j <= i /\ in_mlayer ls j (k, u)).
  { intros u Hu. apply in_app_or in Hu. destruct Hu as [Hu|Hu].
    - apply in_proj in Hu. apply firstn_in_layer in Hu. destruct Hu as (j & Hj & Hl). exists j. split; auto. lia.
    - exists i. split; auto. apply in_mlayer_ids. exists L. split; auto. apply in_el_ids. eauto. }
  split.
  - apply Hlay. apply in_app_or in F1. apply in_or_app. destruct F1 as [F1|F1]; auto. right. apply in_or_app; auto.
  - intros g [Hw|(c' & Hc' & Ek & Hp)].
    + exfalso. destruct (Hsrc _ _ _ Hw Hc) as [E|E]; simpl in E; [congruence|]. rewrite E in F3. destruct F3.
    + destruct g as [kg g]. simpl in *. subst kg. rewrite Hc in Hc'. injection Hc' as <-.
      destruct (Hlay g) as (j & Hj & Hl); [apply F2; apply parents_children; auto|].
      exists j. split; auto. split; auto. intros j' Hj'. eapply mlayer_unique; eauto.
Qed.
Print Assumptions C51_several_circuits_partial.

(** Without that condition the claim is false, and the values of the circuit too:
    gate 0 of the SIMD main circuit is read by the AND gate 2 of the same circuit
    and by the called circuit.  It is released with the layer of gate 2, the
    called circuit then reads an empty share, and the program outputs x AND y
    instead of (x AND y) XOR x. *)
Definition uf_sub : circuit bool_gate := c_set_simd (
  c_build bool_ops c_new [(BBase GScInput, []); (BBase GScOutput, [0])]) 8.
Definition uf_main : circuit bool_gate := c_set_simd (
  c_build bool_ops c_new_main
    [(BBase GInput, []); (BBase GInput, []); (BAnd, [0; 1]); (BBase GScInput, []); (BXor, [2; 3]);
     (BBase GOutput, [4])]) 8.
Definition uf_calls : list (call * circuit bool_gate) :=
  [(Call [(0, 0)] 1 [0], uf_sub); (Call [(1, 1)] 0 [3], uf_main)].
Definition uf_wires : list (gid * gid) := concat (map intended (map fst uf_calls)).
Definition uf_conns : conns :=
  match connect_calls (fun _ : bool_gate => 1) cn_empty uf_calls with Some cn => cn | None => cn_empty end.
Definition uf_circuit : mcirc bool_gate := MC [uf_main; uf_sub] [0; 1] uf_conns.
Definition uf_rank (g : gid) : nat := nth (fst g) [nth (snd g) [0; 1; 2; 20; 21; 22] 0; 5 + snd g] 0.

Definition uf_in0 : istore (bool_gmw 8) := @ISimd (bool_gmw 8) [ex_vec true; ex_vec true].
Definition uf_in1 : istore (bool_gmw 8) := @ISimd (bool_gmw 8) [ex_vec false; ex_vec false].
Definition uf_run (ec : ecirc bool_gate) :=
  ex2_run (pr:=bool_gmw 8) (pool_req 8) ec uf_in0 uf_in1
    ((go_init (pr:=bool_gmw 8) ec, ex_pool8), (go_init (pr:=bool_gmw 8) ec, ex_pool8)).
Definition uf_outs {S} (r : option (istore (bool_gmw 8) * istore (bool_gmw 8) * S)) : option (list (list bool)) :=
  match r with
  | Some (ISimd a, ISimd b, _) => Some (map (fun q => bits_xor (bv_bits (fst q)) (bv_bits (snd q))) (combine a b))
  | _ => None
  end.

Lemma uf_ok : circuits_ok bool_ops (mc_get uf_circuit) /\ wires_ok bool_ops (mc_get uf_circuit) uf_wires /\
  wired_as 100 uf_circuit uf_wires /\ all_callable bool_ops (mc_get uf_circuit) uf_wires.
Proof.
  split; [|split; [|split]].
  - apply circuits_ok_list; [eexists; vm_compute; reflexivity|].
    constructor; [|constructor; [|constructor]]; (split; [apply api_simd, c_build_api|vm_compute; reflexivity]);
      repeat constructor.
  - apply wires_check_ok; [|vm_compute; reflexivity].
    vm_compute. repeat (constructor; [simpl; intuition congruence|]). constructor.
  - refine (wired_as_ranges (fun _ => 1) 100 uf_calls uf_conns
      [[(((0, 0), (0, 0)), ((1, 0), (1, 0)))]; [(((1, 1), (1, 1)), ((0, 3), (0, 3)))]] _ _ _ _ _ _ _ _).
    + vm_compute; reflexivity.
    + repeat constructor; intros ? ? _ _; auto.
    + repeat constructor; apply call_single.
    + repeat constructor; simpl; lia.
    + simpl. intros r1 r2 H1 H2. simpl in *. intuition subst; simpl in *; lia.
    + simpl. intros r1 r2 H1 H2. simpl in *. intuition subst; simpl in *; lia.
  - apply rank_check_ok with (rank := uf_rank). vm_compute. reflexivity.
Qed.

Definition uf_cl : list (circuit bool_gate) := [uf_main; uf_sub].
Definition uf_val (g : nat) : list bool :=
  repeat (nth g [true; true; true; true; false; false; true; true] false) 8.

(** A decision procedure for the values of a concrete circuit. *)
Definition plain_value_check (c : circuit bool_gate) (ins : list (list bool)) (v : nat -> list bool) : bool :=
  forallb (fun g =>
    (length (v g) =? c_lanes c) &&
    match nth_error (c_gates c) g with
    | None => true
    | Some (BBase GInput) =>
        existsb (fun i => match nth_error (c_inputs c) i, nth_error ins i with
                          | Some g', Some x => (g' =? g) && if list_eq_dec bool_dec x (v g) then true else false
                          | _, _ => false end) (seq 0 (length ins))
    | Some gate =>
        forallb (fun i => match bool_gate_sem gate (map (fun p => nth i (v p) false) (parents c g)) with
                          | Some b => Bool.eqb b (nth i (v g) false)
                          | None => false end) (seq 0 (c_lanes c))
    end) (seq 0 (length (c_gates c))).

Lemma plain_value_check_ok c ins v : plain_value_check c ins v = true -> plain_value c ins v.
Proof.
  unfold plain_value_check. rewrite forallb_forall. intros H g gate Hg.
  assert (Hlt : g < length (c_gates c)) by (apply nth_error_Some; congruence).
  specialize (H g). rewrite in_seq in H. specialize (H ltac:(lia)).
  apply andb_true_iff in H. destruct H as [HL H]. apply Nat.eqb_eq in HL. split; auto. rewrite Hg in H.
  assert (Hin : existsb (fun i => match nth_error (c_inputs c) i, nth_error ins i with
                          | Some g', Some x => (g' =? g) && if list_eq_dec bool_dec x (v g) then true else false
                          | _, _ => false end) (seq 0 (length ins)) = true ->
    exists i, nth_error (c_inputs c) i = Some g /\ nth_error ins i = Some (v g)).
  { rewrite existsb_exists. intros (i & _ & Hi). exists i.
    destruct (nth_error (c_inputs c) i); [|discriminate]. destruct (nth_error ins i); [|discriminate].
    apply andb_true_iff in Hi. destruct Hi as [A B]. apply Nat.eqb_eq in A. subst.
    destruct (list_eq_dec bool_dec l (v g)); [subst; auto|discriminate]. }
  assert (Hsem : forallb (fun i => match bool_gate_sem gate (map (fun p => nth i (v p) false) (parents c g)) with
                          | Some b => Bool.eqb b (nth i (v g) false)
                          | None => false end) (seq 0 (c_lanes c)) = true ->
    forall i, i < c_lanes c ->
      bool_gate_sem gate (map (fun p => nth i (v p) false) (parents c g)) = Some (nth i (v g) false)).
  { rewrite forallb_forall. intros HF i Hi. specialize (HF i). rewrite in_seq in HF. specialize (HF ltac:(lia)).
    destruct (bool_gate_sem gate _); [|discriminate]. apply Bool.eqb_prop in HF. congruence. }
  destruct gate as [[]| | |]; auto.
Qed.

Theorem C51_read_after_release_refuted :
  exists m cl h,
    (forall k, mc_get m k = nth_error cl k) /\
    circuits_ok bool_ops (mc_get m) /\ wires_ok bool_ops (mc_get m) h /\ wired_as 100 m h /\
    all_callable bool_ops (mc_get m) h /\
    (forall k c g gate, nth_error cl k = Some c -> nth_error (c_gates c) g = Some gate -> program_gate k c g gate) /\
    (forall k c, nth_error cl k = Some c -> c_simd c = Some 8) /\
    forall perm, rearranges perm ->
    (** a gate is released in a layer before the one of its reader *)
    (exists ls L i j f g, mc_layers bool_ops 100 m perm = Some ls /\ nth_error ls i = Some L /\ In f (freed L) /\
       operand (mc_get m) h f g /\ in_mlayer ls j g /\ i < j) /\
    (** and the program does not compute its values *)
    exists ec (i0 i1 o0 o1 : istore (bool_gmw 8)) T s v,
      ec_of_mc bool_ops 100 m perm = Some ec /\
      mts_wf 8 0 8 T /\ triples_ok (mts_iter T) (mts_iter T) /\
      shares_of 8 (Some 8) i0 i1 [repeat true 8; repeat true 8] /\
      plain_value (inline_all bool_ops cl h) [repeat true 8; repeat true 8] v /\
      ex2_run (pr:=bool_gmw 8) (pool_req 8) ec i0 i1
        ((go_init (pr:=bool_gmw 8) ec, T), (go_init (pr:=bool_gmw 8) ec, T)) = Some (o0, o1, s) /\
      ~ shares_of 8 (Some 8) o0 o1 (map v (c_outputs (inline_all bool_ops cl h))).
Proof.
  exists uf_circuit, uf_cl, uf_wires. destruct uf_ok as (A & B & C & D).
  split; [intros [|[|[|k]]]; reflexivity|]. split; [exact A|]. split; [exact B|]. split; [exact C|]. split; [exact D|].
  split; [apply program_gates_ok; vm_compute; reflexivity|].
  split.
  { intros [|[|[|k]]] c E; unfold uf_cl in E; cbn [nth_error] in E;
      first [apply some_eq in E; subst c; vm_compute; reflexivity|discriminate E]. }
  intros perm HP. split.
  - rewrite (mc_layers_det _ _ _ perm (fun _ st => st) HP (fun _ st => Permutation_refl st)).
    assert (E : option_map (map (fun l => (el_ids l, freed l))) (mc_layers bool_ops 100 uf_circuit (fun _ st => st)) =
      Some [([(0, 0); (0, 1); (0, 2)], [(0, 0); (0, 1)]);
          ([(1, 0); (1, 1)], []); ([(0, 3); (0, 4); (0, 5)], [])]) by (vm_compute; reflexivity).
    destruct (mc_layers bool_ops 100 uf_circuit (fun _ st => st)) as [ls|] eqn:El; [|discriminate]. cbn [option_map] in E.
    destruct ls as [|L0 [|L1 r]]; [discriminate|discriminate|]. cbn [map] in E.
    assert (F0 : freed L0 = [(0, 0); (0, 1)]) by congruence.
    assert (F1 : el_ids L1 = [(1, 0); (1, 1)]) by congruence.
    exists (L0 :: L1 :: r), L0, 0, 1, (0, 0), (1, 0). split; [exact El|]. split; [reflexivity|].
    split; [rewrite F0; simpl; auto|]. split; [left; vm_compute; auto|].
    split; [|auto]. apply in_mlayer_ids. exists L1. split; [reflexivity|]. rewrite F1. simpl; auto.
  - assert (HE : ec_of_mc bool_ops 100 uf_circuit perm = ec_of_mc bool_ops 100 uf_circuit (fun _ st => st)).
    { unfold ec_of_mc. rewrite (mc_layers_det _ _ _ perm (fun _ st => st) HP (fun _ st => Permutation_refl st)).
      reflexivity. }
    rewrite HE.
    assert (Hrun : option_map (fun e => uf_outs (uf_run e)) (ec_of_mc bool_ops 100 uf_circuit (fun _ st => st)) =
      Some (Some [repeat true 8])) by (vm_compute; reflexivity).
    destruct (ec_of_mc bool_ops 100 uf_circuit (fun _ st => st)) as [ec|] eqn:Eec; [|discriminate].
    cbn [option_map] in Hrun. destruct (uf_run ec) as [[[o0 o1] s]|] eqn:E; [|discriminate].
    exists ec, uf_in0, uf_in1, o0, o1, ex_pool8, s, uf_val.
    split; [reflexivity|]. split; [ex_wf|]. split; [vm_compute; repeat constructor|].
    split; [split; [reflexivity|]; split; [repeat constructor; ex_wf|];
            split; [repeat constructor; ex_wf|reflexivity]|].
    split; [apply plain_value_check_ok; vm_compute; reflexivity|]. split; [exact E|].
    assert (Ho : map uf_val (c_outputs (inline_all bool_ops uf_cl uf_wires)) = [repeat false 8])
      by (vm_compute; reflexivity).
    rewrite Ho. unfold shares_of. destruct o0 as [l0|l0]; [auto|]. destruct o1 as [l1|l1]; [auto|].
    cbn [uf_outs] in Hrun. intros (_ & _ & _ & F).
    destruct l0 as [|x l0]; [discriminate|]. destruct l1 as [|y l1]; [discriminate|].
    cbn [combine map fst snd] in Hrun. cbn [zip_with] in F.
    apply some_eq in Hrun. apply some_eq in Hrun.
    apply (f_equal (hd [])) in F. apply (f_equal (hd [])) in Hrun. cbn [hd] in F, Hrun.
    rewrite <- F in Hrun. discriminate Hrun.
Qed.
Print Assumptions C51_read_after_release_refuted.

(** A program meeting the hypotheses of the positive theorem that does release
    gates: the program of C55_case. *)
Example C51_case :
  (forall p t c, In (p, t) lanes_wires -> mc_get lanes_circuit (fst p) = Some c ->
     c_simd c = None \/ children c (snd p) = []) /\
  option_map (map (fun l => (el_ids l, freed l))) (mc_layers bool_ops 100 lanes_circuit (fun _ st => st)) =
    Some [([(0, 0); (0, 1)], []); ([(1, 2); (1, 0); (1, 1); (1, 3)], [(1, 0); (1, 1)]);
          ([(1, 4); (1, 5)], []); ([(0, 2); (0, 3); (0, 4)], [])].
Proof.
  split.
  - intros p t c Hw E. right. vm_compute in Hw.
    destruct Hw as [H|[H|[H|[]]]]; injection H as <- <-; cbn [fst snd] in *; vm_compute in E; apply some_eq in E; subst c;
      vm_compute; reflexivity.
  - vm_compute. reflexivity.
Qed.
