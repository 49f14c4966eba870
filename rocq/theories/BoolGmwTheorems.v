(** Property theorems about boolean GMW: C01, C03, C04, C05, C06, C08 (boolean
    part), C24 (boolean storage), C53, C54. *)
From Coq Require Import List Bool Arith Lia Permutation.
Require Import Verif.Prelude Verif.BitVecModel Verif.BitVecSpec Verif.GateModel Verif.BoolGmwModel
  Verif.BoolGmwSpec Verif.BoolGmwProofs Verif.BoolGmwProofs2.
Import ListNotations.

(** Concrete data for the examples: word size 8. *)
Definition ex_mk (l : list triple) : mul_triples :=
  MTS (bv_of_bits 8 (map mt_a l)) (bv_of_bits 8 (map mt_b l)) (bv_of_bits 8 (map mt_c l)).
Definition ex_t0 : list triple := [MT true true true; MT false true false; MT true false true].
Definition ex_t1 : list triple := [MT false true true; MT true true false; MT false true false].
Definition ex_T0 : mul_triples := ex_mk ex_t0.
Definition ex_T1 : mul_triples := ex_mk ex_t1.
Ltac ex_wf := repeat split; try (vm_compute; (reflexivity || lia)); try (unfold bv_wf; vm_compute; lia).

(** ** C01 *)

(** Round trip, for every generator that delivers as many bits as asked. *)
Theorem C01_xor_sharing_roundtrip :
  forall (S : Type) (fill : S -> nat -> list bool * S),
  (forall s n, length (fst (fill s n)) = n) ->
  forall W s x, 0 < W -> bv_wf W x ->
  let '(s0, s1, _) := xor_share fill W s x in
  bv_bits (xor_reconstruct W s0 s1) = bv_bits x /\ bv_len s0 = bv_len x /\ bv_len s1 = bv_len x.
Proof. exact xor_sharing_roundtrip. Qed.
Print Assumptions C01_xor_sharing_roundtrip.

(** Hiding.  [raw] is what the generator delivers.  Party 0's share does not
    depend on the input; party 1's share of [x] under [raw] is a share of any
    other [y] under some randomness, and that randomness is unique on the bits
    that are used. *)
Theorem C01_xor_sharing_hiding :
  forall W x y raw, 0 < W -> bv_wf W x -> bv_wf W y -> bv_len x = bv_len y ->
  length raw = W * bv_words W 0 (bv_len x) ->
  let sh v r := xor_share (const_fill r) W tt v in
  fst (fst (sh x raw)) = fst (fst (sh y raw)) /\
  (exists raw', length raw' = length raw /\
     bv_bits (snd (fst (sh y raw'))) = bv_bits (snd (fst (sh x raw)))) /\
  (forall r1 r2, length r1 = length raw -> length r2 = length raw ->
     bv_bits (snd (fst (sh y r1))) = bv_bits (snd (fst (sh y r2))) ->
     firstn (bv_len y) r1 = firstn (bv_len y) r2).
Proof. exact xor_sharing_hiding. Qed.
Print Assumptions C01_xor_sharing_hiding.

(** Three bits, randomness 1 0 1 (rest of the word arbitrary). *)
Example C01_case :
  let x := bv_of_bits 8 [true; true; false] in
  let raw := [true; false; true; true; true; false; true; false] in
  bv_wf 8 x /\
  bv_bits (fst (fst (xor_share (const_fill raw) 8 tt x))) = [true; false; true] /\
  bv_bits (snd (fst (xor_share (const_fill raw) 8 tt x))) = [false; true; true].
Proof. ex_wf. Qed.

(** ** C03 *)

(** [ps0], [ps1] are the operand shares of the parties, gate by gate; [T0], [T1]
    hold [m >= n] triples with [triples_ok]; nothing else is assumed of them
    (any head offsets [h0], [h1]). *)
Theorem C03_scalar_and_layer :
  forall W ps0 ps1 n m h0 h1 T0 T1 outs0 outs1,
  0 < W -> length ps0 = n -> length ps1 = n -> n <= m ->
  mts_wf W h0 m T0 -> mts_wf W h1 m T1 ->
  triples_ok (mts_iter T0) (mts_iter T1) ->
  exists m0 m1 o0 o1 R0 R1,
    bool_compute_msg W 0 (repeat BAnd n) outs0 (flat_pairs ps0) T0 = Some (m0, T0) /\
    bool_compute_msg W 1 (repeat BAnd n) outs1 (flat_pairs ps1) T1 = Some (m1, T1) /\
    bool_eval_int W 0 (repeat BAnd n) outs0 m0 m1 T0 = Some (o0, R0) /\
    bool_eval_int W 1 (repeat BAnd n) outs1 m1 m0 T1 = Some (o1, R1) /\
    length o0 = n /\ length o1 = n /\
    bits_xor o0 o1 = and_of_pairs ps0 ps1 /\
    mts_wf W h0 (m - n) R0 /\ mts_wf W h1 (m - n) R1 /\
    mts_iter R0 = firstn (m - n) (mts_iter T0) /\
    mts_iter R1 = firstn (m - n) (mts_iter T1).
Proof. exact bool_scalar_layer. Qed.
Print Assumptions C03_scalar_and_layer.

(** Two gates, three triples: 1 AND 1 = 1 and 1 AND 0 = 0. *)
Example C03_case :
  mts_wf 8 0 3 ex_T0 /\ mts_wf 8 0 3 ex_T1 /\
  triples_ok (mts_iter ex_T0) (mts_iter ex_T1) /\
  (exists o0 o1 R0 R1,
    bool_layer 8 2 [true; false; false; true] [false; true; true; true] 0 [] [] ex_T0 ex_T1
      = Some ((o0, o1), ([], []), (R0, R1)) /\
    bits_xor o0 o1 = [true; false] /\ mts_len R0 = 1).
Proof.
  split; [ex_wf|]. split; [ex_wf|]. split.
  - vm_compute. repeat constructor.
  - eexists _, _, _, _. split; [vm_compute; reflexivity|]. split; reflexivity.
Qed.

(** ** C04 *)

(** As C03 for any list of SIMD gates with any lane counts; the storages of the
    parties have the same head offset (both parties cut their batches in the
    same way). *)
Theorem C04_simd_and_layer :
  forall W ps0 ps1 m h T0 T1 g0 g1 outs0 outs1,
  0 < W -> simd_pairs_ok W ps0 -> simd_pairs_ok W ps1 ->
  simd_sizes ps0 = simd_sizes ps1 ->
  let N := sum_list (simd_sizes ps0) in
  N <= m -> mts_wf W h m T0 -> mts_wf W h m T1 ->
  triples_ok (mts_iter T0) (mts_iter T1) ->
  exists m0 m1 o0 o1 R0 R1,
    bool_compute_msg_simd W 0 g0 outs0 (flat_pairs ps0) T0 = Some (m0, T0) /\
    bool_compute_msg_simd W 1 g1 outs1 (flat_pairs ps1) T1 = Some (m1, T1) /\
    bool_eval_int_simd W 0 g0 outs0 m0 m1 T0 = Some (o0, R0) /\
    bool_eval_int_simd W 1 g1 outs1 m1 m0 T1 = Some (o1, R1) /\
    length o0 = length ps0 /\ length o1 = length ps0 /\
    (forall j, j < length ps0 ->
      let q0 := nth j o0 bv0 in let q1 := nth j o1 bv0 in
      bv_wf W q0 /\ bv_wf W q1 /\
      bv_len q0 = nth j (simd_sizes ps0) 0 /\ bv_len q1 = nth j (simd_sizes ps0) 0 /\
      bv_head q0 = sum_list (firstn j (simd_sizes ps0)) mod W /\
      bv_head q1 = sum_list (firstn j (simd_sizes ps0)) mod W /\
      bits_xor (bv_bits q0) (bv_bits q1) = simd_and (nth j ps0 (bv0, bv0)) (nth j ps1 (bv0, bv0))) /\
    mts_wf W h (m - N) R0 /\ mts_wf W h (m - N) R1 /\
    mts_iter R0 = firstn (m - N) (mts_iter T0) /\
    mts_iter R1 = firstn (m - N) (mts_iter T1).
Proof. exact bool_simd_layer. Qed.
Print Assumptions C04_simd_and_layer.

(** Two SIMD gates of 1 and 2 lanes. *)
Definition ex_simd0 : list (bitvec * bitvec) :=
  [(bv_of_bits 8 [true], bv_of_bits 8 [false]);
   (bv_of_bits 8 [true; false], bv_of_bits 8 [true; true])].
Definition ex_simd1 : list (bitvec * bitvec) :=
  [(bv_of_bits 8 [false], bv_of_bits 8 [true]);
   (bv_of_bits 8 [false; false], bv_of_bits 8 [false; false])].
Example C04_case :
  simd_pairs_ok 8 ex_simd0 /\ simd_pairs_ok 8 ex_simd1 /\ simd_sizes ex_simd0 = simd_sizes ex_simd1 /\
  sum_list (simd_sizes ex_simd0) = 3 /\
  (exists p0 p1 R0 R1,
    bool_layer 8 0 [] [] 2 (flat_pairs ex_simd0) (flat_pairs ex_simd1) ex_T0 ex_T1
      = Some (([], []), (p0, p1), (R0, R1)) /\
    bits_xor (bv_bits (nth 0 p0 bv0)) (bv_bits (nth 0 p1 bv0)) = [true] /\
    bits_xor (bv_bits (nth 1 p0 bv0)) (bv_bits (nth 1 p1 bv0)) = [true; false]).
Proof.
  split; [repeat constructor; ex_wf|]. split; [repeat constructor; ex_wf|].
  split; [reflexivity|]. split; [reflexivity|].
  eexists _, _, _, _. split; [vm_compute; reflexivity|]. split; reflexivity.
Qed.

(** ** C05 *)

(** The property is false of the code: one scalar and one one-lane SIMD AND gate
    with two valid triples; the SIMD result is wrong, because both kinds of
    message are masked with triples from the end of the same storage. *)
Theorem C05_mixed_layer_refuted :
  exists T0 T1 in0 in1 v0 v1 w0 w1 o p0 p1 R,
    mts_wf 8 0 2 T0 /\ mts_wf 8 0 2 T1 /\ triples_ok (mts_iter T0) (mts_iter T1) /\
    bv_wf 8 v0 /\ bv_wf 8 v1 /\ bv_wf 8 w0 /\ bv_wf 8 w1 /\
    bv_len v0 = 1 /\ bv_len v1 = 1 /\ bv_len w0 = 1 /\ bv_len w1 = 1 /\
    length in0 = 2 /\ length in1 = 2 /\
    bool_layer 8 1 in0 in1 1 [v0; w0] [v1; w1] T0 T1 = Some (o, ([p0], [p1]), R) /\
    bits_xor (bv_bits p0) (bv_bits p1) <> simd_and (v0, w0) (v1, w1).
Proof.
  exists (ex_mk [MT true true true; MT false false false]),
         (ex_mk [MT false false false; MT false false false]),
         [false; false], [false; false],
         (bv_of_bits 8 [false]), (bv_of_bits 8 [false]), (bv_of_bits 8 [false]), (bv_of_bits 8 [false]).
  eexists _, _, _, _.
  split; [ex_wf|]. split; [ex_wf|]. split; [vm_compute; repeat constructor|].
  split; [ex_wf|]. split; [ex_wf|]. split; [ex_wf|]. split; [ex_wf|].
  split; [reflexivity|]. split; [reflexivity|]. split; [reflexivity|]. split; [reflexivity|].
  split; [reflexivity|]. split; [reflexivity|].
  split; [vm_compute; reflexivity|]. vm_compute. discriminate.
Qed.
Print Assumptions C05_mixed_layer_refuted.

(** What holds: layers with only scalar gates, and layers with only SIMD gates,
    through the executor's call sequence.  Missing: layers with both kinds. *)
Theorem C05_pure_scalar_layer_partial :
  forall W ps0 ps1 n m h0 h1 T0 T1,
  0 < W -> length ps0 = n -> length ps1 = n -> n <= m ->
  mts_wf W h0 m T0 -> mts_wf W h1 m T1 ->
  triples_ok (mts_iter T0) (mts_iter T1) ->
  exists o0 o1 R0 R1,
    bool_layer W n (flat_pairs ps0) (flat_pairs ps1) 0 [] [] T0 T1
      = Some ((o0, o1), ([], []), (R0, R1)) /\
    bits_xor o0 o1 = and_of_pairs ps0 ps1 /\ length o0 = n /\ length o1 = n /\
    mts_iter R0 = firstn (m - n) (mts_iter T0) /\
    mts_iter R1 = firstn (m - n) (mts_iter T1).
Proof. exact bool_pure_scalar_layer. Qed.
Print Assumptions C05_pure_scalar_layer_partial.

Theorem C05_pure_simd_layer_partial :
  forall W ps0 ps1 m h T0 T1,
  0 < W -> simd_pairs_ok W ps0 -> simd_pairs_ok W ps1 ->
  simd_sizes ps0 = simd_sizes ps1 ->
  let N := sum_list (simd_sizes ps0) in
  N <= m -> mts_wf W h m T0 -> mts_wf W h m T1 ->
  triples_ok (mts_iter T0) (mts_iter T1) ->
  exists p0 p1 R0 R1,
    bool_layer W 0 [] [] (length ps0) (flat_pairs ps0) (flat_pairs ps1) T0 T1
      = Some (([], []), (p0, p1), (R0, R1)) /\
    length p0 = length ps0 /\ length p1 = length ps0 /\
    (forall j, j < length ps0 ->
      bv_wf W (nth j p0 bv0) /\ bv_wf W (nth j p1 bv0) /\
      bits_xor (bv_bits (nth j p0 bv0)) (bv_bits (nth j p1 bv0))
      = simd_and (nth j ps0 (bv0, bv0)) (nth j ps1 (bv0, bv0))) /\
    mts_iter R0 = firstn (m - N) (mts_iter T0) /\
    mts_iter R1 = firstn (m - N) (mts_iter T1).
Proof. exact bool_pure_simd_layer. Qed.
Print Assumptions C05_pure_simd_layer_partial.
(** Concrete cases: [C03_case] and [C04_case] run [bool_layer]. *)

(** ** C06 *)

(** For given operands and a given message there is exactly one choice of the
    masks (the a- and b-components of the last [n] triples) that produces it. *)
Theorem C06_scalar_message_masked :
  forall W ps d e,
  0 < W -> length d = length ps -> length e = length ps ->
  exists masks, length masks = length ps /\
    forall party h m T outs, mts_wf W h m T -> length ps <= m ->
      (bool_compute_msg W party (repeat BAnd (length ps)) outs (flat_pairs ps) T
       = Some (BMsg (length ps) (words_of W e) (words_of W d), T)
       <-> map (fun t => (mt_a t, mt_b t)) (lastn (length ps) (mts_iter T)) = masks).
Proof. exact bool_scalar_masking. Qed.
Print Assumptions C06_scalar_message_masked.

Example C06_case :
  option_map (fun r => (firstn 2 (bm_d (fst r)), firstn 2 (bm_e (fst r))))
   (bool_compute_msg 8 0 [BAnd; BAnd] [] [true; false; false; true] ex_T0)
  = Some ([false; false], [false; false]) /\
  option_map (fun r => (firstn 2 (bm_d (fst r)), firstn 2 (bm_e (fst r))))
   (bool_compute_msg 8 0 [BAnd; BAnd] [] [true; false; false; true] ex_T1)
  = Some ([true; true], [true; false]).
Proof. split; vm_compute; reflexivity. Qed.

(** ** C08, boolean gates *)

Theorem C08_bool_local_gate :
  forall g in0 in1,
  local_gate g -> length in0 = length in1 -> bool_input_size g <= length in0 ->
  exists r0 r1, bool_eval_ni 0 g in0 = Some r0 /\ bool_eval_ni 1 g in1 = Some r1 /\
    bool_gate_sem g (bits_xor in0 in1) = Some (xorb r0 r1).
Proof. exact bool_local_ok. Qed.
Print Assumptions C08_bool_local_gate.

Theorem C08_bool_constant :
  forall o0 o1 c, xorb (bool_share_constant 0 o0 c) (bool_share_constant 1 o1 c) = c.
Proof. exact bool_constant_ok. Qed.
Print Assumptions C08_bool_constant.

(** SIMD: for operands with the same head offset (see C53 for the others). *)
Theorem C08_bool_local_gate_simd :
  forall W g h n in0 in1,
  0 < W -> local_gate g -> length in0 = length in1 -> bool_input_size g <= length in0 ->
  Forall (fun v => bv_wf W v /\ bv_head v = h /\ bv_len v = n) in0 ->
  Forall (fun v => bv_wf W v /\ bv_head v = h /\ bv_len v = n) in1 ->
  exists r0 r1, bool_eval_ni_simd W 0 g in0 = Some r0 /\ bool_eval_ni_simd W 1 g in1 = Some r1 /\
    bv_wf W r0 /\ bv_wf W r1 /\ bv_head r0 = h /\ bv_head r1 = h /\
    bv_len r0 = n /\ bv_len r1 = n /\
    forall i, i < n ->
      bool_gate_sem g (zip_with (fun v0 v1 => xorb (nth i (bv_bits v0) false) (nth i (bv_bits v1) false)) in0 in1)
      = Some (xorb (nth i (bv_bits r0) false) (nth i (bv_bits r1) false)).
Proof. exact bool_local_simd_ok. Qed.
Print Assumptions C08_bool_local_gate_simd.

Example C08_bool_case :
  local_gate BInv /\ bool_eval_ni 0 BInv [true] = Some false /\ bool_eval_ni 1 BInv [true] = Some true /\
  option_map bv_bits (bool_eval_ni_simd 8 0 BXor [bv_of_bits 8 [true; false]; bv_of_bits 8 [true; true]])
  = Some [false; true].
Proof. repeat split. Qed.

(** ** C24, boolean storage *)

(** Over any history of appends and removals starting from any storage, what was
    handed out together with what is left is a permutation of what was there
    and what was appended. *)
Theorem C24_bool_storage_history :
  forall W ops t out, 0 < W -> mts_ok W t ->
  (forall u, In (SAppend u) ops -> mts_ok W u) ->
  forall t' out', ofold (sop_step W) (t, out) ops = Some (t', out') ->
  mts_ok W t' /\
  exists given, out' = out ++ given /\
    Permutation (concat (map mts_iter given) ++ mts_iter t')
                (mts_iter t ++ flat_map sop_put ops).
Proof. exact sop_run_ok. Qed.
Print Assumptions C24_bool_storage_history.

(** A removal succeeds whenever the storage holds enough triples. *)
Theorem C24_bool_storage_total :
  forall W t n, 0 < W -> mts_ok W t -> n <= length (mts_iter t) ->
  exists r u, mts_split_off_last W t n = Some (r, u) /\ mts_ok W r /\ length (mts_iter u) = n.
Proof. exact mts_split_total. Qed.
Print Assumptions C24_bool_storage_total.

Example C24_bool_case :
  mts_ok 8 ex_T0 /\
  option_map (fun r => (mts_iter (fst r), map mts_iter (snd r)))
    (ofold (sop_step 8) (ex_T0, []) [SSplitLast 2; SAppend ex_T1; SRemoveFirst 1])
  = Some (firstn 1 ex_t0 ++ firstn 2 ex_t1, [skipn 1 ex_t0; skipn 2 ex_t1]).
Proof. split; [exists 0, 3; ex_wf | vm_compute; reflexivity]. Qed.

(** ** C53 *)

(** False: two SIMD AND gates of two lanes in one layer; the XOR of their
    outputs is not the lane-wise XOR. *)
Theorem C53_simd_xor_refuted :
  exists T0 T1 ps0 ps1 p0 p1 q0 q1 R r0 r1,
    mts_wf 8 0 4 T0 /\ mts_wf 8 0 4 T1 /\ triples_ok (mts_iter T0) (mts_iter T1) /\
    simd_pairs_ok 8 ps0 /\ simd_pairs_ok 8 ps1 /\ simd_sizes ps0 = [2; 2] /\ simd_sizes ps1 = [2; 2] /\
    bool_layer 8 0 [] [] 2 (flat_pairs ps0) (flat_pairs ps1) T0 T1
      = Some (([], []), ([p0; q0], [p1; q1]), R) /\
    bool_eval_ni_simd 8 0 BXor [p0; q0] = Some r0 /\
    bool_eval_ni_simd 8 1 BXor [p1; q1] = Some r1 /\
    bits_xor (bv_bits r0) (bv_bits r1) <>
      bits_xor (bits_xor (bv_bits p0) (bv_bits p1)) (bits_xor (bv_bits q0) (bv_bits q1)).
Proof.
  pose (z := bv_of_bits 8 [false; false]).
  exists (ex_mk (repeat (MT false false false) 4)), (ex_mk (repeat (MT false false false) 4)),
    [(bv_of_bits 8 [true; true], bv_of_bits 8 [true; false]); (bv_of_bits 8 [true; true], bv_of_bits 8 [true; true])],
    [(z, z); (z, z)].
  eexists _, _, _, _, _, _, _.
  split; [ex_wf|]. split; [ex_wf|]. split; [vm_compute; repeat constructor|].
  split; [repeat constructor; ex_wf|]. split; [repeat constructor; ex_wf|].
  split; [reflexivity|]. split; [reflexivity|].
  split; [vm_compute; reflexivity|]. split; [vm_compute; reflexivity|].
  split; [vm_compute; reflexivity|]. vm_compute. discriminate.
Qed.
Print Assumptions C53_simd_xor_refuted.

(** What holds: outputs whose position in the layer agrees modulo the word size
    (in particular all outputs when every lane count is a multiple of the word
    size).  Missing: outputs at different bit offsets. *)
Theorem C53_simd_xor_partial :
  forall W ps0 ps1 m h T0 T1 j k,
  0 < W -> simd_pairs_ok W ps0 -> simd_pairs_ok W ps1 ->
  simd_sizes ps0 = simd_sizes ps1 ->
  sum_list (simd_sizes ps0) <= m -> mts_wf W h m T0 -> mts_wf W h m T1 ->
  triples_ok (mts_iter T0) (mts_iter T1) ->
  j < length ps0 -> k < length ps0 ->
  nth j (simd_sizes ps0) 0 = nth k (simd_sizes ps0) 0 ->
  sum_list (firstn j (simd_sizes ps0)) mod W = sum_list (firstn k (simd_sizes ps0)) mod W ->
  exists p0 p1 R0 R1 r0 r1,
    bool_layer W 0 [] [] (length ps0) (flat_pairs ps0) (flat_pairs ps1) T0 T1
      = Some (([], []), (p0, p1), (R0, R1)) /\
    bool_eval_ni_simd W 0 BXor [nth j p0 bv0; nth k p0 bv0] = Some r0 /\
    bool_eval_ni_simd W 1 BXor [nth j p1 bv0; nth k p1 bv0] = Some r1 /\
    bits_xor (bv_bits r0) (bv_bits r1) =
      bits_xor (simd_and (nth j ps0 (bv0, bv0)) (nth j ps1 (bv0, bv0)))
               (simd_and (nth k ps0 (bv0, bv0)) (nth k ps1 (bv0, bv0))).
Proof. exact bool_simd_outputs_xor. Qed.
Print Assumptions C53_simd_xor_partial.

(** With word size 2 the two gates of the refutation are aligned. *)
Example C53_case :
  let mk l := bv_of_bits 2 l in
  let T := MTS (mk (repeat false 4)) (mk (repeat false 4)) (mk (repeat false 4)) in
  let ps0 := [(mk [true; true], mk [true; false]); (mk [true; true], mk [true; true])] in
  let ps1 := [(mk [false; false], mk [false; false]); (mk [false; false], mk [false; false])] in
  mts_wf 2 0 4 T /\ simd_pairs_ok 2 ps0 /\ simd_sizes ps0 = [2; 2] /\
  sum_list (firstn 0 (simd_sizes ps0)) mod 2 = sum_list (firstn 1 (simd_sizes ps0)) mod 2 /\
  bits_xor (simd_and (nth 0 ps0 (bv0, bv0)) (nth 0 ps1 (bv0, bv0)))
           (simd_and (nth 1 ps0 (bv0, bv0)) (nth 1 ps1 (bv0, bv0))) = [false; true].
Proof.
  cbv zeta. split; [ex_wf|]. split; [repeat constructor; ex_wf|]. repeat split.
Qed.

(** ** C54 *)

(** False: five triples cut from the end of a batch of 64 (64 bit words) leave
    the whole message of a five lane layer in the clear, for every batch and
    all operands. *)
Theorem C54_simd_mask_refuted :
  exists m n, n <= m /\
  forall T party g outs ps, mts_wf 64 0 m T -> simd_pairs_ok 64 ps -> sum_list (simd_sizes ps) = n ->
  exists rest cut msg,
    mts_split_off_last 64 T n = Some (rest, cut) /\
    bool_compute_msg_simd 64 party g outs (flat_pairs ps) cut = Some (msg, cut) /\
    forall i, i < n ->
      nth i (bm_e (bs_data msg)) false = nth i (flat_map (fun p => bv_bits (fst p)) ps) false /\
      nth i (bm_d (bs_data msg)) false = nth i (flat_map (fun p => bv_bits (snd p)) ps) false.
Proof.
  exists 64, 5. split; [lia|]. intros T party g outs ps Hwf Hps HS.
  destruct (bool_cut_batch_unmasked 64 64 5 T party g outs ps ltac:(lia) ltac:(lia) Hwf Hps HS)
    as (r & c & msg & A & B & C).
  exists r, c, msg. split; [exact A|]. split; [exact B|]. intros i Hi. apply C; [exact Hi|].
  replace ((64 - 5) mod 64) with 59 by reflexivity. lia.
Qed.
Print Assumptions C54_simd_mask_refuted.

(** The exact extent of the leak, for every batch and request size. *)
Theorem C54_cut_batch_unmasked_bits :
  forall W m n T party g outs ps,
  0 < W -> n <= m -> mts_wf W 0 m T -> simd_pairs_ok W ps ->
  sum_list (simd_sizes ps) = n ->
  exists rest cut msg,
    mts_split_off_last W T n = Some (rest, cut) /\
    bool_compute_msg_simd W party g outs (flat_pairs ps) cut = Some (msg, cut) /\
    forall i, i < n -> i < (m - n) mod W ->
      nth i (bm_e (bs_data msg)) false = nth i (flat_map (fun p => bv_bits (fst p)) ps) false /\
      nth i (bm_d (bs_data msg)) false = nth i (flat_map (fun p => bv_bits (snd p)) ps) false.
Proof. exact bool_cut_batch_unmasked. Qed.
Print Assumptions C54_cut_batch_unmasked_bits.

(** What holds: when the cut falls on a word boundary, every message is produced
    by exactly one choice of masks.  Missing: other cuts. *)
Theorem C54_simd_mask_partial :
  forall W m n ps d e,
  0 < W -> simd_pairs_ok W ps -> sum_list (simd_sizes ps) = n -> n <= m -> (m - n) mod W = 0 ->
  length d = n -> length e = n ->
  exists ma mb, length ma = n /\ length mb = n /\
    forall party g T outs, mts_wf W 0 m T ->
      exists rest cut msg,
        mts_split_off_last W T n = Some (rest, cut) /\
        bool_compute_msg_simd W party g outs (flat_pairs ps) cut = Some (msg, cut) /\
        (firstn n (bm_d (bs_data msg)) = d /\ firstn n (bm_e (bs_data msg)) = e
         <-> map mt_a (lastn n (mts_iter T)) = ma /\ map mt_b (lastn n (mts_iter T)) = mb).
Proof. exact bool_cut_aligned_masked. Qed.
Print Assumptions C54_simd_mask_partial.

(** Three lanes cut from a batch of 3 (masked) and of 5 (first two bits open). *)
Example C54_case :
  let T5 := ex_mk [MT true true true; MT true true true; MT true true true; MT true true true; MT true true true] in
  let ps := [(bv_of_bits 8 [true; false; true], bv_of_bits 8 [true; true; false])] in
  mts_wf 8 0 5 T5 /\ simd_pairs_ok 8 ps /\
  (exists r c msg, mts_split_off_last 8 T5 3 = Some (r, c) /\
    bool_compute_msg_simd 8 0 [] [] (flat_pairs ps) c = Some (msg, c) /\
    firstn 3 (bm_e (bs_data msg)) = [true; false; false]) /\
  (exists msg, bool_compute_msg_simd 8 0 [] [] (flat_pairs ps) ex_T0 = Some (msg, ex_T0) /\
    firstn 3 (bm_e (bs_data msg)) = [false; true; true]).
Proof.
  cbv zeta. split; [ex_wf|]. split; [repeat constructor; ex_wf|]. split.
  - eexists _, _, _. split; [vm_compute; reflexivity|]. split; [vm_compute; reflexivity|]. reflexivity.
  - eexists. split; [vm_compute; reflexivity|]. reflexivity.
Qed.

(** ** Generated triple pairs satisfy the hypotheses used above *)
Theorem C27_random_pair_valid :
  forall (S : Type) (fill : S -> nat -> list bool * S),
  (forall s n, length (fst (fill s n)) = n) ->
  forall W size s, 0 < W ->
    exists t0 t1 s', mts_random_pair fill W size s = Some (t0, t1, s') /\
      mts_wf W 0 size t0 /\ mts_wf W 0 size t1 /\ triples_ok (mts_iter t0) (mts_iter t1).
Proof. exact mts_random_pair_ok. Qed.
Print Assumptions C27_random_pair_valid.
