(** Property theorems about arithmetic GMW: C02, C07, C08 (arithmetic part), C24
    (arithmetic storage). *)
From Coq Require Import List Bool Arith ZArith Lia Permutation.
Require Import Verif.Prelude Verif.GateModel Verif.ArithGmwModel Verif.ArithGmwSpec Verif.ArithGmwProofs.
Import ListNotations.
Open Scope Z_scope.

(** ** C02 *)

Theorem C02_additive_sharing_roundtrip :
  forall (S : Type) (sample : S -> nat -> list Z * S),
  (forall s n, length (fst (sample s n)) = n) ->
  forall w s x, 0 <= w -> Forall (in_ring w) x ->
  let '(s0, s1, _) := additive_share sample w s x in
  additive_reconstruct w s0 s1 = x /\ length s0 = length x /\ length s1 = length x.
Proof. exact additive_roundtrip. Qed.
Print Assumptions C02_additive_sharing_roundtrip.

(** Party 0's share does not depend on the input; party 1's share of [x] is also
    a share of any [y] of the same length, for exactly one choice of the
    randomness. *)
Theorem C02_additive_sharing_hiding :
  forall w x y raw, 0 <= w -> length x = length y ->
  length raw = length x -> Forall (in_ring w) raw ->
  let sh v r := additive_share (const_sample r) w tt v in
  fst (fst (sh x raw)) = fst (fst (sh y raw)) /\
  (exists raw', length raw' = length raw /\ Forall (in_ring w) raw' /\
     snd (fst (sh y raw')) = snd (fst (sh x raw))) /\
  (forall r1 r2, length r1 = length raw -> length r2 = length raw ->
     Forall (in_ring w) r1 -> Forall (in_ring w) r2 ->
     snd (fst (sh y r1)) = snd (fst (sh y r2)) -> r1 = r2).
Proof. exact additive_hiding. Qed.
Print Assumptions C02_additive_sharing_hiding.

Example C02_case :
  Forall (in_ring 8) [5; 250] /\ Forall (in_ring 8) [200; 3] /\
  additive_share (const_sample [200; 3]) 8 tt [5; 250] = ([200; 3], [61; 247], tt) /\
  additive_reconstruct 8 [200; 3] [61; 247] = [5; 250].
Proof. repeat split; repeat constructor; unfold in_ring; lia. Qed.

(** ** C07 *)

(** False: a valid triple (2 * 3 = 6) and operands 1 and 1. *)
Theorem C07_mul_layer_refuted :
  exists w t u o0 o1 R, 0 < w /\ atriple_ok w t u /\
    arith_layer w 1 [1; 1] [0; 0] (AMTS [at_a t] [at_b t] [at_c t]) (AMTS [at_a u] [at_b u] [at_c u])
      = Some ((o0, o1), R) /\
    shared_list w o0 o1 <> mul_of_pairs w [(1, 1)] [(0, 0)].
Proof.
  exists 8, (AT 2 3 6), (AT 0 0 0). eexists _, _, _. split; [lia|]. split; [reflexivity|].
  split; [vm_compute; reflexivity|]. vm_compute. discriminate.
Qed.
Print Assumptions C07_mul_layer_refuted.

(** The exact extent: a triple gives right products for all operands if and only
    if it reconstructs to (0,0,0) or (1,1,1). *)
Theorem C07_mul_exact_condition :
  forall w t u, 0 < w ->
  (forall x y, in_ring w x -> in_ring w y ->
    exists o0 o1 R,
     arith_layer w 1 [x; y] [0; 0] (AMTS [at_a t] [at_b t] [at_c t]) (AMTS [at_a u] [at_b u] [at_c u])
       = Some ((o0, o1), R) /\
     shared_list w o0 o1 = [(x * y) mod 2 ^ w])
  <-> trivial_triple w t u.
Proof. exact arith_mul_exact. Qed.
Print Assumptions C07_mul_exact_condition.

(** What holds: whole layers with such triples (the insecure provider's zero
    triples are of this kind).  Missing: all other valid triples. *)
Theorem C07_mul_layer_partial :
  forall w ps0 ps1 n m T0 T1,
  length ps0 = n -> length ps1 = n -> (n <= m)%nat -> amts_wf m T0 -> amts_wf m T1 ->
  Forall2 (trivial_triple w) (firstn n (amts_iter T0)) (firstn n (amts_iter T1)) ->
  exists o0 o1 R0 R1,
    arith_layer w n (flat_zpairs ps0) (flat_zpairs ps1) T0 T1 = Some ((o0, o1), (R0, R1)) /\
    length o0 = n /\ length o1 = n /\
    shared_list w o0 o1 = mul_of_pairs w ps0 ps1 /\
    amts_iter R0 = skipn n (amts_iter T0) /\ amts_iter R1 = skipn n (amts_iter T1) /\
    amts_wf (m - n) R0 /\ amts_wf (m - n) R1.
Proof. exact arith_mul_layer. Qed.
Print Assumptions C07_mul_layer_partial.

Example C07_case :
  amts_wf 3 (amts_zeros 3) /\
  Forall2 (trivial_triple 8) (firstn 2 (amts_iter (amts_zeros 3))) (firstn 2 (amts_iter (amts_zeros 3))) /\
  (exists o0 o1 R, arith_layer 8 2 [7; 9; 100; 3] [250; 2; 1; 1] (amts_zeros 3) (amts_zeros 3) = Some ((o0, o1), R) /\
     shared_list 8 o0 o1 = [11; 148]).
Proof.
  split; [repeat split|]. split.
  - repeat constructor; exists 0; repeat split; auto.
  - eexists _, _, _. split; [vm_compute; reflexivity|]. reflexivity.
Qed.

(** ** C08, arithmetic gates *)

Theorem C08_arith_local_gate :
  forall w g in0 in1, 0 <= w ->
  arith_local_gate g -> length in0 = length in1 -> (arith_input_size g <= length in0)%nat ->
  exists r0 r1, arith_eval_ni w 0 g in0 = Some r0 /\ arith_eval_ni w 1 g in1 = Some r1 /\
    arith_gate_sem w g (shared_list w in0 in1) = Some (shared w r0 r1).
Proof. exact arith_local_ok. Qed.
Print Assumptions C08_arith_local_gate.

Theorem C08_arith_constant :
  forall w o0 o1 c, in_ring w c ->
  shared w (arith_share_constant 0 o0 c) (arith_share_constant 1 o1 c) = c.
Proof. exact arith_constant_ok. Qed.
Print Assumptions C08_arith_constant.

Example C08_arith_case :
  arith_local_gate ASub /\ arith_eval_ni 8 0 ASub [3; 10] = Some 249 /\ arith_eval_ni 8 1 ASub [4; 250] = Some 10 /\
  arith_gate_sem 8 ASub (shared_list 8 [3; 10] [4; 250]) = Some 3 /\ in_ring 8 77.
Proof. repeat split; unfold in_ring; lia. Qed.

(** ** C24, arithmetic storage *)

Theorem C24_arith_storage_history :
  forall ops t out, amts_ok t ->
  (forall u, In (ASAppend u) ops -> amts_ok u) ->
  forall t' out', ofold asop_step (t, out) ops = Some (t', out') ->
  amts_ok t' /\
  exists given, out' = out ++ given /\
    Permutation (concat (map amts_iter given) ++ amts_iter t')
                (amts_iter t ++ flat_map asop_put ops).
Proof. exact asop_run_ok. Qed.
Print Assumptions C24_arith_storage_history.

(** [split_off_last] hands out the last and [remove_first] the first triples, in
    order, and both succeed when enough are stored. *)
Theorem C24_arith_split_off_last :
  forall m t n, amts_wf m t -> (n <= m)%nat ->
  exists r u, amts_split_off_last t n = Some (r, u) /\ amts_wf (m - n) r /\ amts_wf n u /\
    amts_iter r = firstn (m - n) (amts_iter t) /\ amts_iter u = skipn (m - n) (amts_iter t).
Proof. exact amts_split_spec. Qed.
Print Assumptions C24_arith_split_off_last.

Theorem C24_arith_remove_first :
  forall m t n, amts_wf m t -> (n <= m)%nat ->
  exists r u, amts_remove_first t n = Some (r, u) /\ amts_wf (m - n) r /\ amts_wf n u /\
    amts_iter u = firstn n (amts_iter t) /\ amts_iter r = skipn n (amts_iter t).
Proof. exact amts_remove_spec. Qed.
Print Assumptions C24_arith_remove_first.

Example C24_arith_case :
  let t := AMTS [1; 2; 3] [4; 5; 6] [7; 8; 9] in
  amts_ok t /\
  ofold asop_step (t, []) [ASRemoveFirst 1; ASAppend (AMTS [10] [11] [12]); ASSplitLast 2]
  = Some (AMTS [2] [5] [8], [AMTS [1] [4] [7]; AMTS [3; 10] [6; 11] [9; 12]]).
Proof. split; [exists 3%nat; repeat split|reflexivity]. Qed.
