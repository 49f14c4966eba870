(** C28, C29: multiplication triples from OT extension. *)
From Coq Require Import ZArith List Bool Arith Lia Permutation.
Require Import Verif.Prelude Verif.PreludeProofs Verif.BitVecModel Verif.BitVecSpec Verif.BitVecProofs Verif.GateModel
  Verif.BoolGmwModel Verif.BoolGmwSpec Verif.BoolGmwProofs
  Verif.ArithGmwModel Verif.ArithGmwSpec Verif.ArithGmwProofs Verif.OtModel Verif.OtSpec Verif.OtProofs
  Verif.TripleModel Verif.TripleSpec Verif.TripleProofs Verif.OtTripleModel Verif.OtTripleSpec Verif.OtTripleProofs.
Import ListNotations.
Open Scope nat_scope.

(** ** C28 *)

(** For every common history of precompute and request calls, every arrival order of
    the rows, all generators and hash functions: every request delivers matching
    triples, at least as many as requested, and no call fails. *)
Theorem C28_history :
  forall (R S : Type) k W (fill : R -> nat -> list bool * R) (H : list bool -> list bool) (dfill : S -> nat -> list bool * S),
  0 < k -> 0 < W -> fills fill -> (forall s n, length (fst (dfill s n)) = n) ->
  forall ops st0 st1 i0 i1, otmt_ok k W st0 st1 ->
  let '(o0, s0, st0') := ot_run k W fill H dfill st0 i0 ops in
  let '(o1, s1, st1') := ot_run k W fill H dfill st1 i1 ops in
  deliveries k s1 i0 -> deliveries k s0 i1 ->
  length o0 = length ops /\ length o1 = length ops /\ otmt_ok k W st0' st1' /\
  forall i, i < length ops -> oout_rel W (nth i ops (OPre 0)) (nth i o0 (OoPre RPanic)) (nth i o1 (OoPre RPanic)).
Proof. intros R S k W fill H dfill Hk HW Hf Hd ops. exact (ot_run_pair k W fill H dfill Hk HW Hf Hd ops). Qed.
Print Assumptions C28_history.

(** One computation delivers the amount rounded up to whole bytes. *)
Theorem C28_amount :
  forall (R S : Type) k W (fill : R -> nat -> list bool * R) (H : list bool -> list bool) (dfill : S -> nat -> list bool * S),
  0 < k -> 0 < W -> fills fill -> (forall s n, length (fst (dfill s n)) = n) ->
  forall st0 st1 n o0 o1,
  base_ok k (om_s st0) (om_r st1) -> base_ok k (om_s st1) (om_r st0) ->
  Permutation o0 (seq 0 k) -> Permutation o1 (seq 0 k) ->
  exists t0 t1 m0 m1 st0' st1',
    ot_compute k W fill H dfill st0 n (deliver o1 m1) = (ROk t0, m0, st0') /\
    ot_compute k W fill H dfill st1 n (deliver o0 m0) = (ROk t1, m1, st1') /\
    triples_ok (mts_iter t0) (mts_iter t1) /\
    exists q, length (mts_iter t0) = 8 * q /\ n <= 8 * q < n + 8.
Proof.
  intros R S k W fill H dfill Hk HW Hf Hd st0 st1 n o0 o1 B0 B1 P0 P1.
  destruct (compute_pair k W fill H dfill Hk HW Hf Hd st0 st1 n o0 o1 B0 B1 P0 P1)
    as (t0 & t1 & st0' & st1' & E0 & E1 & W0 & W1 & T & _).
  eexists t0, t1, _, _, st0', st1'. split; [exact E0|]. split; [exact E1|]. split; auto.
  exists ((n + 7) / 8). rewrite (mts_iter_length _ _ _ _ W0). unfold next8.
  pose proof (Nat.div_mod (n + 7) 8 ltac:(lia)). pose proof (Nat.mod_upper_bound (n + 7) 8 ltac:(lia)). lia.
Qed.
Print Assumptions C28_amount.

(** A streaming generator: the bits of a pattern from a position. *)
Definition strm (r n : nat) : list bool * nat :=
  (map (fun i => nth (((r + i) mod 11 + (r + i) mod 7) mod 11) [true; false; false; true; true; true; false; true; false; false; true] false) (seq 0 n),
   r + n).

Lemma strm_fills : fills strm.
Proof. intros r n. unfold strm. cbn [fst]. rewrite map_length, seq_length. auto. Qed.
Lemma strm_stream : stream_fill strm.
Proof.
  intros r n m Hnm. unfold strm. cbn [fst]. rewrite firstn_map. f_equal.
  assert (E : forall m n s, n <= m -> firstn n (seq s m) = seq s n).
  { clear. induction m as [|m IH]; intros [|n] s Hn; try lia; auto. cbn [seq firstn]. rewrite IH by lia. auto. }
  rewrite E by auto. auto.
Qed.

(** Two base OTs; precompute 5, then request 3, 9 (more than is left) and 1. *)
Definition c28_st0 : otmt nat nat := OtMt (Ots [12; 3] [true; false]) (Otr [(20, 31); (42, 53)]) 7 None.
Definition c28_st1 : otmt nat nat := OtMt (Ots [20; 53] [false; true]) (Otr [(1, 12); (3, 4)]) 99 None.
Definition c28_ops : list oop := [OPre 5; OReq 3; OReq 9; OReq 1].
Definition c28_box (st : otmt nat nat) : list (list ext_event) :=
  map (deliver [1; 0]) (snd (fst (ot_run 2 8 strm (fun x => x) strm st [] c28_ops))).

Example C28_case :
  otmt_ok 2 8 c28_st0 c28_st1 /\
  let '(o0, s0, _) := ot_run 2 8 strm (fun x => x) strm c28_st0 (c28_box c28_st1) c28_ops in
  let '(o1, s1, _) := ot_run 2 8 strm (fun x => x) strm c28_st1 (c28_box c28_st0) c28_ops in
  deliveries 2 s1 (c28_box c28_st1) /\ deliveries 2 s0 (c28_box c28_st0) /\
  map (fun o => match o with OoReq (ROk t) => length (mts_iter t) | _ => 0 end) o0 = [0; 3; 13; 8] /\
  existsb (fun t => mt_c t) (flat_map (fun o => match o with OoReq (ROk t) => mts_iter t | _ => [] end) o1) = true.
Proof.
  split; [repeat split|].
  destruct (ot_run 2 8 strm (fun x => x) strm c28_st0 (c28_box c28_st1) c28_ops) as [[o0 s0] q0] eqn:E0.
  destruct (ot_run 2 8 strm (fun x => x) strm c28_st1 (c28_box c28_st0) c28_ops) as [[o1 s1] q1] eqn:E1.
  vm_compute in E0, E1. inversion E0; inversion E1; subst.
  let b := eval vm_compute in (c28_box c28_st0) in replace (c28_box c28_st0) with b by (vm_compute; reflexivity).
  let b := eval vm_compute in (c28_box c28_st1) in replace (c28_box c28_st1) with b by (vm_compute; reflexivity).
  assert (P : Permutation [1; 0] (seq 0 2)) by (cbn [seq]; apply perm_swap).
  split; [repeat (apply Forall2_cons; [exists [1; 0]; split; [exact P | vm_compute; reflexivity]|]); apply Forall2_nil|].
  split; [repeat (apply Forall2_cons; [exists [1; 0]; split; [exact P | vm_compute; reflexivity]|]); apply Forall2_nil|].
  split; vm_compute; reflexivity.
Qed.

(** ** C29 *)

(** The first batch of a provider, when it is requested directly: the two parties'
    results contain [n] matching triples, for every ring of a whole number of bytes, all
    elements, generators and arrival orders.  Missing from the full statement (and
    refuted below): later batches and precomputed batches. *)
Theorem C29_first_batch_partial :
  forall (R : Type) k w (fill : R -> nat -> list bool * R) (H : list bool -> list bool),
  0 < w -> w mod 8 = 0 -> w <= k -> fills fill -> stream_fill fill ->
  (forall x, length x = k -> length (H x) = k) ->
  forall ss0 rs0 ss1 rs1 n a0 b0 a1 b1 o0 o1,
  base_ok k ss0 rs1 -> base_ok k ss1 rs0 ->
  length a0 = n * w -> length b0 = n * w -> length a1 = n * w -> length b1 = n * w ->
  ring_elems w b0 -> ring_elems w b1 ->
  Permutation o0 (seq 0 k) -> Permutation o1 (seq 0 k) ->
  exists m0 m1 t0 t1 ss0' rs0' ss1' rs1',
    arith_ot_compute k w fill H ss0 rs0 n a0 b0 (deliver o1 (arith_rows w fill H rs1 b1)) (CvCorrelated m1)
      = (ROk t0, arith_rows w fill H rs0 b0, m0, ss0', rs0') /\
    arith_ot_compute k w fill H ss1 rs1 n a1 b1 (deliver o0 (arith_rows w fill H rs0 b0)) (CvCorrelated m0)
      = (ROk t1, arith_rows w fill H rs1 b1, m1, ss1', rs1') /\
    length (amts_iter t0) = n /\ length (amts_iter t1) = n /\
    Forall2 (atriple_ok (Z.of_nat w)) (amts_iter t0) (amts_iter t1).
Proof.
  intros R k w fill H Hw Hw8 Hwk Hf Hs HH ss0 rs0 ss1 rs1 n a0 b0 a1 b1 o0 o1 B0 B1 La0 Lb0 La1 Lb1 R0 R1 P0 P1.
  destruct (arith_pair k w fill H Hw Hw8 Hwk Hf Hs HH ss0 rs0 ss1 rs1 n a0 b0 a1 b1 o0 o1 B0 B1 La0 Lb0 La1 Lb1 R0 R1 P0 P1)
    as (m0 & m1 & c0 & c1 & x0 & x1 & x2 & x3 & E0 & E1 & L0 & L1 & T).
  exists m0, m1, (AMTS a0 b0 c0), (AMTS a1 b1 c1), x0, x1, x2, x3. split; auto. split; auto.
  assert (n <= n * w) by nia.
  split; [unfold amts_iter; cbn [as_a as_b as_c]; rewrite !zip_with_length; lia|].
  split; [unfold amts_iter; cbn [as_a as_b as_c]; rewrite !zip_with_length; lia|]. auto.
Qed.
Print Assumptions C29_first_batch_partial.

(** Precomputed triples can not be used: the result has [n*w] a and b elements but
    only [n] c elements, and taking any [count] triples of it with
    [n + count < n*w] panics ([request_mts] calls [split_off_last] since the
    reported length is [n*w]). *)
Theorem C29_precomputed_refuted :
  forall a b c n w count, length a = n * w -> length b = n * w -> length c = n -> n + count < n * w ->
  amts_len (AMTS a b c) = n * w /\ amts_split_off_last (AMTS a b c) count = None.
Proof.
  intros a b c n w count La Lb Lc Hlt. unfold amts_split_off_last, amts_len, vec_split_off; cbn [as_a as_b as_c].
  rewrite La, Lb, Lc. split; auto. destruct (Nat.leb_spec count (n * w)); auto.
  destruct (Nat.leb_spec (n * w - count) (n * w)); auto. cbn [obind].
  destruct (Nat.leb_spec (n * w - count) n); [lia|]. reflexivity.
Qed.
Print Assumptions C29_precomputed_refuted.

(** A concrete pair of parties with 8 base OTs and the ring of 8 bits. *)
Definition c29_pairs0 : list (nat * nat) := map (fun i => (i * 3 + 1, i * 5 + 2)) (seq 0 8).
Definition c29_pairs1 : list (nat * nat) := map (fun i => (i * 7 + 3, i * 2 + 11)) (seq 0 8).
Definition c29_ch0 := [true; false; true; true; false; false; true; false].
Definition c29_ch1 := [false; true; true; false; true; false; true; true].
Definition c29_ss0 := Ots (zip_with chosen c29_ch0 c29_pairs1) c29_ch0.
Definition c29_ss1 := Ots (zip_with chosen c29_ch1 c29_pairs0) c29_ch1.
Definition c29_rs0 := Otr c29_pairs0.
Definition c29_rs1 := Otr c29_pairs1.
Definition c29_a0 : list Z := [200; 3; 77; 13; 5; 6; 7; 8]%Z.
Definition c29_b0 : list Z := [31; 250; 1; 0; 9; 8; 7; 6]%Z.
Definition c29_a1 : list Z := [99; 98; 97; 96; 95; 94; 93; 92]%Z.
Definition c29_b1 : list Z := [171; 18; 19; 20; 21; 22; 23; 24]%Z.

(** Both parties with honest delivery of all messages: (results, next states). *)
Definition c29_batch ss0 rs0 ss1 rs1 :=
  let e0 := deliver (seq 0 8) (arith_rows 8 strm (fun x => x) rs1 c29_b1) in
  let e1 := deliver (seq 0 8) (arith_rows 8 strm (fun x => x) rs0 c29_b0) in
  let run0 cev := arith_ot_compute 8 8 strm (fun x => x) ss0 rs0 1 c29_a0 c29_b0 e0 cev in
  let run1 cev := arith_ot_compute 8 8 strm (fun x => x) ss1 rs1 1 c29_a1 c29_b1 e1 cev in
  let m0 := snd (fst (fst (run0 CvClosed))) in
  let m1 := snd (fst (fst (run1 CvClosed))) in
  (run0 (CvCorrelated m1), run1 (CvCorrelated m0)).

(** The triples of a finished batch and the states after it. *)
Definition c29_view {R} (r : (result amts * list (nat * list bool) * list bool * ots_state R * otr_state R)
                           * (result amts * list (nat * list bool) * list bool * ots_state R * otr_state R)) :=
  match r with
  | ((ROk t0, _, _, ss0, rs0), (ROk t1, _, _, ss1, rs1)) => Some (amts_iter t0, amts_iter t1, (ss0, rs0, ss1, rs1))
  | _ => None
  end.

(** Two batches one after the other. *)
Definition c29_twice ss0 rs0 ss1 rs1 :=
  match c29_view (c29_batch ss0 rs0 ss1 rs1) with
  | Some (t0, t1, (ss0', rs0', ss1', rs1')) =>
      match c29_view (c29_batch ss0' rs0' ss1' rs1') with Some (u0, u1, _) => Some (t0, t1, u0, u1) | None => None end
  | None => None
  end.

Lemma c29_runs : c29_twice c29_ss0 c29_rs0 c29_ss1 c29_rs1
  = Some ([{| at_a := 200; at_b := 31; at_c := 214 |}], [{| at_a := 99; at_b := 171; at_c := 24 |}],
          [{| at_a := 200; at_b := 31; at_c := 64 |}], [{| at_a := 99; at_b := 171; at_c := 167 |}])%Z.
Proof. vm_compute. reflexivity. Qed.

Local Open Scope Z_scope.
Example C29_case :
  base_ok 8 c29_ss0 c29_rs1 /\ base_ok 8 c29_ss1 c29_rs0 /\ ring_elems 8 c29_b0 /\ ring_elems 8 c29_b1 /\
  (200 + 99) * (31 + 171) mod 256 = (214 + 24) mod 256 /\
  exists u0 u1, c29_twice c29_ss0 c29_rs0 c29_ss1 c29_rs1
    = Some ([{| at_a := 200; at_b := 31; at_c := 214 |}], [{| at_a := 99; at_b := 171; at_c := 24 |}], u0, u1).
Proof.
  split; [repeat split|]. split; [repeat split|].
  split; [repeat constructor; cbn; lia|]. split; [repeat constructor; cbn; lia|]. split; [reflexivity|].
  do 2 eexists. exact c29_runs.
Qed.

(** The second batch of the same providers is wrong: the generators of the receiver
    advanced further than the sender's. *)
Theorem C29_second_batch_refuted :
  exists ss0 rs0 ss1 rs1 t0 t1 u0 u1,
    base_ok 8 ss0 rs1 /\ base_ok 8 ss1 rs0 /\
    c29_twice ss0 rs0 ss1 rs1 = Some (t0, t1, u0, u1) /\
    Forall2 (atriple_ok 8) t0 t1 /\ ~ Forall2 (atriple_ok 8) u0 u1.
Proof.
  destruct C29_case as (B0 & B1 & _).
  do 8 eexists. split; [exact B0|]. split; [exact B1|]. split; [exact c29_runs|].
  split; [constructor; [vm_compute; reflexivity|constructor]|].
  intros F. inversion F as [|? ? ? ? F1]; subst. vm_compute in F1. discriminate.
Qed.
Print Assumptions C29_second_batch_refuted.
