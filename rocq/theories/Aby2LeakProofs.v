(** A circuit with a sub-circuit whose session of the ABY2.0 protocol reveals more than its output:
    lemmas for the refutation in Aby2PrivTheorems. *)
From Coq Require Import List Bool Arith Lia Permutation Btauto.
Require Import Verif.Prelude Verif.PreludeProofs Verif.GateModel Verif.ProtocolModel Verif.CircuitModel
  Verif.CircuitSpec Verif.CircuitProofs Verif.CircuitProofs2 Verif.CircuitProofs3 Verif.CircuitCheck
  Verif.ConnModel Verif.ConnSpec Verif.ConnProofs2 Verif.MultiModel Verif.MultiSpec Verif.MultiTheorems
  Verif.ExecModel Verif.ExecSpec Verif.ExecProofs Verif.ExecCircuitProofs Verif.PartyModel
  Verif.PrivacySpec Verif.PrivacyProofs
  Verif.Aby2Model Verif.Aby2Spec Verif.Aby2Proofs Verif.Aby2ExecProofs
  Verif.Aby2PrivSpec Verif.Aby2PrivProofs Verif.Aby2TwinProofs.
Import ListNotations.
Open Scope nat_scope.

(** A sub-circuit with the AND of its two inputs.  Its AND gate has the id 2 in its circuit. *)
Definition leak_sub : circuit aby_gate :=
  c_build aby_ops c_new [(ABase GScInput, []); (ABase GScInput, []); (AAnd 2, [0; 1]); (ABase GScOutput, [2])].
(** The main circuit calls it with the two inputs of party 1 and outputs the AND of the result and the
    input of party 0, which is gate 2 of the main circuit. *)
Definition leak_main : circuit aby_gate :=
  c_build aby_ops c_new_main
    [(ABase GInput, []); (ABase GInput, []); (ABase GInput, []); (ABase GScInput, []); (AAnd 2, [2; 3]); (ABase GOutput, [4])].
(** The calls, and the circuit they make. *)
Definition leak_calls : list (call * circuit aby_gate) :=
  [(Call [(0, 0); (0, 1)] 1 [0; 1], leak_sub); (Call [(1, 3)] 0 [3], leak_main)].
Definition leak_conns : conns :=
  match connect_calls (fun _ : aby_gate => 1) cn_empty leak_calls with Some cn => cn | None => cn_empty end.
Definition leak_wires : list (gid * gid) := concat (map intended (map fst leak_calls)).
Definition leak_rank (g : gid) : nat :=
  nth (fst g) [nth (snd g) [0; 1; 2; 20; 21; 22] 0; 5 + snd g] 0.
Definition leak_circuit : mcirc aby_gate := MC [leak_main; leak_sub] [0; 1] leak_conns.
(** Who provides which input of the main circuit. *)
Definition leak_map (i : nat) : option input_by :=
  match i with 0 | 1 => Some ByP1 | 2 => Some ByP0 | _ => None end.
Definition leak_ec : ecirc aby_gate :=
  match ec_of_mc aby_ops 100 leak_circuit (fun _ st => st) with Some ec => ec | None => EC (fun _ => None) (fun _ => []) [] (fun _ => None) [] [] [] end.

Definition leak_os := [ByP1; ByP1; ByP0].
Lemma one_bit (e0 e1 : list bool) b : length e0 = length e1 -> zip_with xorb e0 e1 = [b] ->
  exists x y, e0 = [x] /\ e1 = [y] /\ xorb x y = b.
Proof.
  destruct e0 as [|x [|x2 e0]], e1 as [|y [|y2 e1]]; cbn; try discriminate.
  intros _ H. injection H as <-. eauto.
Qed.
Lemma leak_int : ec_int_iter leak_ec = [(1, 2); (0, 4)]. Proof. vm_compute. reflexivity. Qed.
Lemma leak_p1 : ec_parents leak_ec (1, 2) = [(1, 0); (1, 1)]. Proof. vm_compute. reflexivity. Qed.
Lemma leak_p2 : ec_parents leak_ec (0, 4) = [(0, 2); (0, 3)]. Proof. vm_compute. reflexivity. Qed.
(** The product of the masks of [g] and [h]. *)
Definition both (l0 l1 : gid -> bool) (g h : gid) : bool := xorb (l0 g) (l1 g) && xorb (l0 h) (l1 h).
Lemma leak_eval l0 l1 E0 E1 : all3 (eval_ok leak_ec l0 l1) (ec_int_iter leak_ec) E0 E1 <->
  exists a0 a1 b0 b1, E0 = [[a0]; [b0]] /\ E1 = [[a1]; [b1]] /\
     xorb a0 a1 = both l0 l1 (1, 0) (1, 1) /\ xorb b0 b1 = both l0 l1 (0, 2) (0, 3).
Proof.
  rewrite leak_int. split.
  - intros HE.
    assert (K : forall x y g h ps, Permutation ps [g; h] -> length x = length y ->
      zip_with xorb x y = map (forallb (fun p => xorb (l0 p) (l1 p))) (big_subsets ps) ->
      exists a b, x = [a] /\ y = [b] /\ xorb a b = both l0 l1 g h).
    { intros x y g h ps HP L Z. apply (one_bit _ _ _ L). rewrite Z. unfold both.
      apply Permutation_sym, Permutation_length_2_inv in HP.
      destruct HP as [-> | ->]; cbn; destruct (l0 g), (l1 g), (l0 h), (l1 h); reflexivity. }
    destruct (all3_cons_inv _ _ _ _ _ HE) as (x & y & xs0 & ys0 & -> & -> & (ps & PE & L & Z) & HE').
    destruct (all3_cons_inv _ _ _ _ _ HE') as (x' & y' & xs1 & ys1 & -> & -> & (ps' & PE' & L' & Z') & HE2).
    apply all3_nil_inv in HE2. destruct HE2 as [-> ->].
    rewrite leak_p1 in PE. rewrite leak_p2 in PE'.
    destruct (K _ _ _ _ _ PE L Z) as (a0 & a1 & -> & -> & Ha). destruct (K _ _ _ _ _ PE' L' Z') as (b0 & b1 & -> & -> & Hb).
    exists a0, a1, b0, b1. auto.
  - intros (a0 & a1 & b0 & b1 & -> & -> & Ha & Hb). unfold both in *.
    constructor; [|constructor; [|constructor]].
    + exists [(1, 0); (1, 1)]. rewrite leak_p1. split; [apply Permutation_refl|]. split; [reflexivity|]. cbn. rewrite Ha, andb_true_r. reflexivity.
    + exists [(0, 2); (0, 3)]. rewrite leak_p2. split; [apply Permutation_refl|]. split; [reflexivity|]. cbn. rewrite Hb, andb_true_r. reflexivity.
Qed.
(** What is visible of the run of one party: the messages, whether all arrived messages are read,
    the output shares. *)
Definition observed (r : option (list (emsg aby2) * list (emsg aby2) * (istore aby2 * gouts aby2 * list (list bool))))
  : option (list (list bool * bool) * nat * list ashare) :=
  match r with
  | Some (ms, rest, (IScalar o, _, _)) =>
      Some (map (fun e => (em_scalar e, match em_simd e with None => true | _ => false end)) ms, length rest, o)
  | _ => None
  end.
(** The messages of layers with one AND gate each. *)
Definition bits (l : list bool) : list (emsg aby2) := map (fun x => @EM aby2 [x] None) l.
Lemma observed_bits r l o : observed r = Some (map (fun x => ([x], true)) l, 0, o) ->
  exists go s, r = Some (bits l, [], (@IScalar aby2 o, go, s)).
Proof.
  destruct r as [[[ms rest] [[io go] s]]|]; [|discriminate]. cbn. destruct io as [io|]; [|discriminate].
  intros H. injection H as H R ->. destruct rest; [|discriminate]. exists go, s.
  assert (ms = bits l) as ->; [|reflexivity]. revert l H. induction ms as [|[sc si] ms IH]; intros [|x l] H; try discriminate; auto.
  cbn in H. injection H as -> K H. cbn. rewrite (IH _ H). destruct si; [discriminate|]. reflexivity.
Qed.
(** [k] of the storage after the setup. *)
Definition after_setup {A} (ds : delta_sharing) (d : A) (k : gouts aby2 -> A) : A :=
  match setup_gate_outputs leak_ec ds with Some (_, go) => k go | None => d end.
Lemma after_setup_eq {A} ds s1 go (d : A) k : setup_gate_outputs leak_ec ds = Some (s1, go) -> after_setup ds d k = k go.
Proof. unfold after_setup. intros ->. reflexivity. Qed.
(** The bits that the parties send for an AND gate with public parts [d1], [d2] and own masks
    [l1], [l2] of the operands, setup bit [a] and own mask [l] of the result. *)
Definition and0 (d1 d2 l1 l2 a l : bool) : bool := xorb (xorb (xorb (xorb false (d1 && l2)) (d2 && l1)) a) l.
Definition and1 (d1 d2 l1 l2 a l : bool) : bool := xorb (xorb (xorb (xorb (d1 && d2) (d1 && l2)) (d2 && l1)) a) l.
(** Both bits of a party, given the first bit [x] of the other. *)
Definition two0 (d1 d2 d3 l1 l2 l3 r1 r2 a b x : bool) : list bool :=
  let m := and0 d1 d2 l1 l2 a r1 in [m; and0 d3 (xorb m x) l3 r1 b r2].
Definition two1 (d1 d2 d3 l1 l2 l3 r1 r2 a b x : bool) : list bool :=
  let m := and1 d1 d2 l1 l2 a r1 in [m; and1 d3 (xorb m x) l3 r1 b r2].
(** A party that sends [ms], receives [x2] at the end and has mask [l] of the output. *)
Definition seen (ms : list bool) (x2 l : bool) : option (list (list bool * bool) * nat * list ashare) :=
  Some (map (fun x => ([x], true)) ms, 0, [AS (xorb (nth 1 ms false) x2) l]).
Lemma leak_setup0 (f g h : nat -> bool) :
  exists s1 go, setup_gate_outputs leak_ec (DS (Rng f 0) (Rng g 0) (Rng h 0) (by_map 0 leak_map)) = Some (s1, go) /\
  mask_at go (1, 0) = h 0 /\ mask_at go (1, 1) = h 1 /\ mask_at go (0, 2) = f 0 /\ mask_at go (0, 3) = f 1 /\
  forall d1 d2 d3 x1 x2 a b, observed (px_run (pr:=aby2) aby_request 0 leak_ec (@IScalar aby2 [AS d1 (h 0); AS d2 (h 1); AS d3 (f 0)]) (bits [x1; x2]) go (from_raw [[a]; [b]])) = seen (two0 d1 d2 d3 (h 0) (h 1) (f 0) (f 1) (f 2) a b x1) x2 (f 2).
Proof.
  destruct (setup_gate_outputs leak_ec (DS (Rng f 0) (Rng g 0) (Rng h 0) (by_map 0 leak_map))) as [[s1 go]|] eqn:E.
  2:{ exfalso. assert (K : (if setup_gate_outputs leak_ec (DS (Rng f 0) (Rng g 0) (Rng h 0) (by_map 0 leak_map)) then true else false) = true)
        by (vm_compute; reflexivity). rewrite E in K. discriminate. }
  exists s1, go. split; [reflexivity|].
  pose proof (fun A d k => @after_setup_eq A _ _ _ d k E) as Q.
  split. { rewrite <- (Q bool true (fun go => mask_at go (1, 0))). vm_compute. reflexivity. }
  split. { rewrite <- (Q bool true (fun go => mask_at go (1, 1))). vm_compute. reflexivity. }
  split. { rewrite <- (Q bool true (fun go => mask_at go (0, 2))). vm_compute. reflexivity. }
  split. { rewrite <- (Q bool true (fun go => mask_at go (0, 3))). vm_compute. reflexivity. }
  intros. rewrite <- (Q _ None (fun go => observed (px_run (pr:=aby2) aby_request 0 leak_ec (@IScalar aby2 [AS d1 (h 0); AS d2 (h 1); AS d3 (f 0)]) (bits [x1; x2]) go (from_raw [[a]; [b]])))).
  clear. vm_compute. reflexivity.
Qed.
Lemma leak_setup1 (f g h : nat -> bool) :
  exists s1 go, setup_gate_outputs leak_ec (DS (Rng f 0) (Rng g 0) (Rng h 0) (by_map 1 leak_map)) = Some (s1, go) /\
  mask_at go (1, 0) = f 0 /\ mask_at go (1, 1) = f 1 /\ mask_at go (0, 2) = h 0 /\ mask_at go (0, 3) = h 1 /\
  forall d1 d2 d3 x1 x2 a b, observed (px_run (pr:=aby2) aby_request 1 leak_ec (@IScalar aby2 [AS d1 (f 0); AS d2 (f 1); AS d3 (h 0)]) (bits [x1; x2]) go (from_raw [[a]; [b]])) = seen (two1 d1 d2 d3 (f 0) (f 1) (h 0) (h 1) (f 2) a b x1) x2 (f 2).
Proof.
  destruct (setup_gate_outputs leak_ec (DS (Rng f 0) (Rng g 0) (Rng h 0) (by_map 1 leak_map))) as [[s1 go]|] eqn:E.
  2:{ exfalso. assert (K : (if setup_gate_outputs leak_ec (DS (Rng f 0) (Rng g 0) (Rng h 0) (by_map 1 leak_map)) then true else false) = true)
        by (vm_compute; reflexivity). rewrite E in K. discriminate. }
  exists s1, go. split; [reflexivity|].
  pose proof (fun A d k => @after_setup_eq A _ _ _ d k E) as Q.
  split. { rewrite <- (Q bool true (fun go => mask_at go (1, 0))). vm_compute. reflexivity. }
  split. { rewrite <- (Q bool true (fun go => mask_at go (1, 1))). vm_compute. reflexivity. }
  split. { rewrite <- (Q bool true (fun go => mask_at go (0, 2))). vm_compute. reflexivity. }
  split. { rewrite <- (Q bool true (fun go => mask_at go (0, 3))). vm_compute. reflexivity. }
  intros. rewrite <- (Q _ None (fun go => observed (px_run (pr:=aby2) aby_request 1 leak_ec (@IScalar aby2 [AS d1 (f 0); AS d2 (f 1); AS d3 (h 0)]) (bits [x1; x2]) go (from_raw [[a]; [b]])))).
  clear. vm_compute. reflexivity.
Qed.

(** What party 0 computes from the joint stream, its own and the messages. *)
Definition first_bit (ms : list (emsg aby2)) : bool :=
  match ms with EM (x :: _) _ :: _ => x | _ => false end.
Definition leak_guess (joint : nat -> nat -> bool) (priv0 : nat -> bool) (sent received : list (emsg aby2)) : bool :=
  xorb (xorb (xorb (first_bit sent) (first_bit received)) (priv0 1)) (joint 0 1).

Lemma leak_inputs_ok : omap leak_map (ec_inputs leak_ec) = Some leak_os /\ (forall g, leak_map g <> None -> In g (ec_inputs leak_ec)).
Proof.
  split; [vm_compute; reflexivity|]. assert (ec_inputs leak_ec = [0; 1; 2]) as -> by (vm_compute; reflexivity).
  intros [|[|[|g]]] H; cbn; auto.
Qed.

(** A run of both parties against each other. *)
Lemma leak_run f0 f1 g0 g1 s1 t1 go0 go1 d1 d2 d3 a0 b0 a1 b1 :
  let M0 := two0 d1 d2 d3 (g1 0) (g1 1) (f0 0) (f0 1) (f0 2) a0 b0 (and1 d1 d2 (f1 0) (f1 1) a1 (g0 1)) in
  let M1 := two1 d1 d2 d3 (f1 0) (f1 1) (g0 0) (g0 1) (f1 2) a1 b1 (and0 d1 d2 (g1 0) (g1 1) a0 (f0 1)) in
  setup_gate_outputs leak_ec (DS (Rng f0 0) (Rng g0 0) (Rng g1 0) (by_map 0 leak_map)) = Some (s1, go0) ->
  setup_gate_outputs leak_ec (DS (Rng f1 0) (Rng g1 0) (Rng g0 0) (by_map 1 leak_map)) = Some (t1, go1) ->
  exists go0' r0 go1' r1,
    px_run (pr:=aby2) aby_request 0 leak_ec (@IScalar aby2 [AS d1 (g1 0); AS d2 (g1 1); AS d3 (f0 0)]) (bits M1) go0 (from_raw [[a0]; [b0]]) =
      Some (bits M0, [], (@IScalar aby2 [AS (xorb (nth 1 M0 false) (nth 1 M1 false)) (f0 2)], go0', r0)) /\
    px_run (pr:=aby2) aby_request 1 leak_ec (@IScalar aby2 [AS d1 (f1 0); AS d2 (f1 1); AS d3 (g0 0)]) (bits M0) go1 (from_raw [[a1]; [b1]]) =
      Some (bits M1, [], (@IScalar aby2 [AS (xorb (nth 1 M1 false) (nth 1 M0 false)) (f1 2)], go1', r1)).
Proof.
  intros M0 M1 S0 S1.
  destruct (leak_setup0 f0 g0 g1) as (s1' & go0a & S0' & _ & _ & _ & _ & R0). rewrite S0 in S0'. injection S0' as <- <-.
  destruct (leak_setup1 f1 g1 g0) as (t1' & go1a & S1' & _ & _ & _ & _ & R1). rewrite S1 in S1'. injection S1' as <- <-.
  specialize (R0 d1 d2 d3 (nth 0 M1 false) (nth 1 M1 false) a0 b0).
  specialize (R1 d1 d2 d3 (nth 0 M0 false) (nth 1 M0 false) a1 b1).
  destruct (observed_bits _ _ _ R0) as (go0' & r0 & Y0). destruct (observed_bits _ _ _ R1) as (go1' & r1 & Y1).
  exists go0', r0, go1', r1. split; [exact Y0|exact Y1].
Qed.

Lemma leak_sessions joint priv z y1 y2 :
  let xs := fun r => if r =? 0 then [z] else [y1; y2] in
  (exists E w, session leak_ec leak_map leak_os joint priv xs E w) /\
  forall E w, session leak_ec leak_map leak_os joint priv xs E w ->
    leak_guess joint (priv 0) (sd_msgs (w 0)) (sd_msgs (w 1)) = y1 && y2 /\
    all3 carries [z && (y1 && y2)] (sd_outs (w 0)) (sd_outs (w 1)).
Proof.
  intros xs.
  destruct (leak_setup0 (priv 0) (joint 0) (joint 1)) as (s1 & go0 & S0 & A1 & A2 & A3 & A4 & _).
  destruct (leak_setup1 (priv 1) (joint 1) (joint 0)) as (t1 & go1 & S1 & B1 & B2 & B3 & B4 & _).
  set (D1 := xorb (xorb y1 (priv 1 0)) (joint 1 0)). set (D2 := xorb (xorb y2 (priv 1 1)) (joint 1 1)).
  set (D3 := xorb (xorb z (priv 0 0)) (joint 0 0)).
  split.
  - set (a := both (mask_at go0) (mask_at go1) (1, 0) (1, 1)). set (b := both (mask_at go0) (mask_at go1) (0, 2) (0, 3)).
    destruct (leak_run _ _ _ _ _ _ _ _ D1 D2 D3 false false a b S0 S1) as (go0' & r0 & go1' & r1 & Y0 & Y1).
    cbv zeta in Y0, Y1.
    match type of Y0 with px_run _ _ _ _ ?m1 _ _ = Some (?m0, _, (IScalar ?o0, _, _)) =>
    match type of Y1 with px_run _ _ _ _ _ _ _ = Some (_, _, (IScalar ?o1, _, _)) =>
      exists (fun r => if r =? 0 then [[false]; [false]] else [[a]; [b]]),
        (fun r => if r =? 0 then Side [D3] m0 o0 else Side [D1; D2] m1 o1) end end.
    eexists _, _, s1, t1, go0, go1, _, _, _, _, go0', go1', r0, r1. cbn [Nat.eqb sd_deltas sd_msgs sd_outs].
    split; [reflexivity|]. split; [reflexivity|]. split; [exact S0|]. split; [exact S1|].
    split; [apply leak_eval; exists false, a, false, b; split; [reflexivity|]; split; [reflexivity|]; rewrite !xorb_false_l; split; reflexivity|].
    split; [exact (ds_share_spec [z] _)|]. split; [exact (ds_share_spec [y1; y2] _)|].
    split; [exact Y0|exact Y1].
  - intros E w (s & t & s1' & t1' & go0a & go1a & sh0 & sh1 & s' & t' & go0' & go1' & r0 & r1 & Es & Et & Fs & Ft & HE & X0 & X1 & P0 & P1).
    cbn in Es, Et. injection Es as <-. injection Et as <-.
    rewrite S0 in Fs. injection Fs as <- <-. rewrite S1 in Ft. injection Ft as <- <-.
    apply leak_eval in HE. destruct HE as (a0 & a1 & b0 & b1 & E0 & E1 & Ha & Hb).
    unfold both in Ha, Hb. rewrite A1, A2, B1, B2 in Ha. rewrite A3, A4, B3, B4 in Hb.
    cbn [xs Nat.eqb] in X0, X1. rewrite ds_share_spec in X0, X1. 
    cbn in X0, X1. fold D3 in X0. fold D1 D2 in X1. injection X0 as <- Q0 <-. injection X1 as <- Q1 <-.
    rewrite E0, <- Q1 in P0. rewrite E1, <- Q0 in P1.
    destruct (leak_run _ _ _ _ _ _ _ _ D1 D2 D3 a0 b0 a1 b1 S0 S1) as (? & ? & ? & ? & Y0 & Y1).
    destruct (run_unique (P:=aby2) aby_request 0 1 leak_ec _ _ go0 go1 _ _ _ _ _ _ _ _ _ _ P0 P1 Y0 Y1) as (U0 & U1 & U2 & U3).
    injection U2 as U2 _ _. injection U3 as U3 _ _. rewrite U0, U1, U2, U3.
    assert (a1 = xorb a0 (xorb (joint 1 0) (priv 1 0) && xorb (joint 1 1) (priv 1 1))) as -> by (rewrite <- Ha; destruct a0, a1; reflexivity).
    assert (b1 = xorb b0 (xorb (priv 0 0) (joint 0 0) && xorb (priv 0 1) (joint 0 1))) as -> by (rewrite <- Hb; destruct b0, b1; reflexivity).
    unfold leak_guess, first_bit, bits, two0, two1, and0, and1, D1, D2, D3. clear. cbn [map nth].
    split; [btauto|]. constructor; [|constructor]. unfold carries. cbn [as_pub as_priv]. split; btauto.
Qed.

Lemma leak_ok : circuits_ok aby_ops (mc_get leak_circuit) /\ wires_ok aby_ops (mc_get leak_circuit) leak_wires /\
  wired_as 100 leak_circuit leak_wires /\ all_callable aby_ops (mc_get leak_circuit) leak_wires.
Proof.
  split; [|split; [|split]].
  - apply circuits_ok_list; [eexists; vm_compute; reflexivity|].
    constructor; [|constructor; [|constructor]]; (split; [apply c_build_api|vm_compute; reflexivity]);
      repeat constructor.
  - apply wires_check_ok; [|vm_compute; reflexivity].
    vm_compute. repeat (constructor; [simpl; intuition congruence|]). constructor.
  - refine (wired_as_ranges (fun _ => 1) 100 leak_calls leak_conns
      [[(((0, 0), (0, 1)), ((1, 0), (1, 1)))]; [(((1, 3), (1, 3)), ((0, 3), (0, 3)))]] _ _ _ _ _ _ _ _).
    + vm_compute; reflexivity.
    + repeat constructor; intros ? ? _ _; auto.
    + repeat constructor; try apply call_single; apply call_pair.
    + repeat constructor; simpl; lia.
    + simpl. intros r1 r2 H1 H2. simpl in *. intuition subst; simpl in *; lia.
    + simpl. intros r1 r2 H1 H2. simpl in *. intuition subst; simpl in *; lia.
  - apply rank_check_ok with (rank := leak_rank). vm_compute. reflexivity.
Qed.
Lemma leak_ec_eq : ec_of_mc aby_ops 100 leak_circuit (fun _ st => st) = Some leak_ec.
Proof.
  unfold leak_ec. destruct (ec_of_mc aby_ops 100 leak_circuit (fun _ st => st)) eqn:E; [reflexivity|].
  exfalso. assert (K : (if ec_of_mc aby_ops 100 leak_circuit (fun _ st => st) then true else false) = true) by (vm_compute; reflexivity).
  rewrite E in K. discriminate.
Qed.
