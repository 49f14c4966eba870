(** Proofs about the arithmetic GMW model. *)
From Coq Require Import List Bool Arith ZArith Lia Permutation Znumtheory Zpow_facts.
Require Import Verif.Prelude Verif.PreludeProofs Verif.ZMod Verif.GateModel Verif.ArithGmwModel Verif.ArithGmwSpec.
Import ListNotations.
Open Scope Z_scope.

(** *** Sharing *)

Section Sharing.
  Variable S : Type.
  Variable sample : S -> nat -> list Z * S.
  Hypothesis sample_length : forall s n, length (fst (sample s n)) = n.

  Theorem additive_roundtrip w s x : 0 <= w -> Forall (in_ring w) x ->
    let '(s0, s1, _) := additive_share sample w s x in
    additive_reconstruct w s0 s1 = x /\ length s0 = length x /\ length s1 = length x.
  Proof.
    intros Hw Hx. unfold additive_share.
    pose proof (sample_length s (length x)) as HL. destruct (sample s (length x)) as [r s']; cbn [fst] in HL.
    split; [|split; [auto|rewrite zip_with_length; lia]].
    unfold additive_reconstruct, wadd, wsub. revert r HL. induction Hx as [|a x Ha Hx IH]; intros [|b r] HL; simpl in *; try lia; auto.
    apply (f_equal2 cons); [|apply IH; lia].
    assert (E : (b + (a - b) mod 2 ^ w) mod 2 ^ w = a mod 2 ^ w).
    { zmod (2 ^ w). }
    rewrite E. apply Z.mod_small. auto.
  Qed.
End Sharing.

Lemma wsub_inj_rand w y r1 r2 : 0 <= w -> in_ring w r1 -> in_ring w r2 ->
  wsub w y r1 = wsub w y r2 -> r1 = r2.
Proof.
  intros Hw H1 H2 E. unfold wsub in E. apply mod_eq_iff in E; [|apply pow2_nz; auto].
  destruct E as (k & E). unfold in_ring in *. assert (k = 0) by nia. nia.
Qed.

Theorem additive_hiding w x y raw : 0 <= w -> length x = length y ->
  length raw = length x -> Forall (in_ring w) raw ->
  let sh v r := additive_share (const_sample r) w tt v in
  fst (fst (sh x raw)) = fst (fst (sh y raw)) /\
  (exists raw', length raw' = length raw /\ Forall (in_ring w) raw' /\
     snd (fst (sh y raw')) = snd (fst (sh x raw))) /\
  (forall r1 r2, length r1 = length raw -> length r2 = length raw ->
     Forall (in_ring w) r1 -> Forall (in_ring w) r2 ->
     snd (fst (sh y r1)) = snd (fst (sh y r2)) -> r1 = r2).
Proof.
  intros Hw HL HR HF sh. unfold sh, additive_share, const_sample. cbn [fst snd].
  split; [rewrite HL; auto|]. split.
  - exists (zip_with (fun r xy => wsub w (snd xy) (wsub w (fst xy) r)) raw (zip_with pair x y)).
    assert (LL : length (zip_with (fun r xy => wsub w (snd xy) (wsub w (fst xy) r)) raw (zip_with pair x y)) = length raw)
      by (rewrite !zip_with_length; lia).
    split; [auto|]. split.
    + clear - Hw. generalize (zip_with pair x y). induction raw; intros [|p l]; simpl; constructor; auto.
      unfold wsub, in_ring. apply Z.mod_pos_bound. apply Z.pow_pos_nonneg; lia.
    + rewrite !firstn_all2 by lia. clear LL HF. revert x y HL HR.
      induction raw as [|r raw IH]; intros [|a x] [|b y] HL HR; simpl in *; try lia; auto.
      apply (f_equal2 cons); [|apply IH; lia].
      unfold wsub. zmod (2 ^ w).
  - intros r1 r2 L1 L2 F1 F2. rewrite !firstn_all2 by lia.
    assert (LY : length r1 = length y) by lia. assert (LZ : length r2 = length y) by lia.
    clear - Hw LY LZ F1 F2. revert r2 y LY LZ F2.
    induction F1 as [|p r1 Hp F1 IH]; intros [|q r2] [|b y] L1 L2 F2 E; simpl in *; try lia; auto.
    inversion F2; subst. injection E as E1 E2. apply (f_equal2 cons); [eapply wsub_inj_rand; eauto|].
    apply (IH r2 y); auto.
Qed.

(** *** Linear gates *)

Theorem arith_local_ok w g in0 in1 : 0 <= w ->
  arith_local_gate g -> length in0 = length in1 -> (arith_input_size g <= length in0)%nat ->
  exists r0 r1, arith_eval_ni w 0 g in0 = Some r0 /\ arith_eval_ni w 1 g in1 = Some r1 /\
    arith_gate_sem w g (shared_list w in0 in1) = Some (shared w r0 r1).
Proof.
  intros Hw Hg HL HS. unfold shared_list.
  destruct g as [b| | |]; cbn [arith_input_size] in HS; try contradiction.
  - destruct in0 as [|x0 in0], in1 as [|x1 in1]; simpl in *; try lia; try discriminate.
    destruct b; try contradiction; eexists _, _; repeat split; reflexivity.
  - destruct in0 as [|x0 [|y0 in0]], in1 as [|x1 [|y1 in1]]; simpl in *; try lia; try discriminate.
    eexists _, _; split; [reflexivity|]. split; [reflexivity|]. f_equal. unfold shared, wadd. zmod (2 ^ w).
  - destruct in0 as [|x0 [|y0 in0]], in1 as [|x1 [|y1 in1]]; simpl in *; try lia; try discriminate.
    eexists _, _; split; [reflexivity|]. split; [reflexivity|]. f_equal. unfold shared, wsub. zmod (2 ^ w).
Qed.

Theorem arith_constant_ok w o0 o1 c : in_ring w c ->
  shared w (arith_share_constant 0 o0 c) (arith_share_constant 1 o1 c) = c.
Proof. intros H. unfold shared; simpl. rewrite Z.add_0_r. apply Z.mod_small; auto. Qed.

(** *** Storage *)

Lemma amts_iter_length n t : amts_wf n t -> length (amts_iter t) = n.
Proof. intros (A & B & C). unfold amts_iter. rewrite !zip_with_length. lia. Qed.

Lemma amts_split_spec m t n : amts_wf m t -> (n <= m)%nat ->
  exists r u, amts_split_off_last t n = Some (r, u) /\ amts_wf (m - n) r /\ amts_wf n u /\
    amts_iter r = firstn (m - n) (amts_iter t) /\ amts_iter u = skipn (m - n) (amts_iter t).
Proof.
  intros (A & B & C) Hn. unfold amts_split_off_last, amts_len, vec_split_off. rewrite A, B, C.
  destruct (Nat.leb_spec n m); [|lia]. destruct (Nat.leb_spec (m - n) m); [|lia]. cbn [obind].
  eexists _, _; split; [reflexivity|].
  split; [repeat split; simpl; rewrite firstn_length; lia|].
  split; [repeat split; simpl; rewrite skipn_length; lia|].
  unfold amts_iter; cbn [as_a as_b as_c].
  rewrite !zip_with_firstn, !zip_with_skipn. auto.
Qed.

Lemma amts_remove_spec m t n : amts_wf m t -> (n <= m)%nat ->
  exists r u, amts_remove_first t n = Some (r, u) /\ amts_wf (m - n) r /\ amts_wf n u /\
    amts_iter u = firstn n (amts_iter t) /\ amts_iter r = skipn n (amts_iter t).
Proof.
  intros W Hn. destruct (amts_split_spec m t (m - n) W ltac:(lia)) as (r & u & E & Wr & Wu & Ir & Iu).
  replace (m - (m - n))%nat with n in * by lia.
  unfold amts_remove_first. destruct W as (A & _). unfold amts_len at 1 2. rewrite A.
  destruct (Nat.leb_spec n m); [|lia]. rewrite E. cbn [obind].
  exists u, r. auto.
Qed.

Lemma amts_append_spec n n' t u : amts_wf n t -> amts_wf n' u ->
  amts_wf (n + n') (amts_append t u) /\ amts_iter (amts_append t u) = amts_iter t ++ amts_iter u.
Proof.
  intros (A & B & C) (A' & B' & C'). split.
  - repeat split; simpl; rewrite app_length; lia.
  - unfold amts_iter, amts_append; cbn [as_a as_b as_c].
    rewrite (zip_with_app pair) by lia. apply zip_with_app. rewrite zip_with_length. lia.
Qed.

Lemma amts_split_none m t n : amts_wf m t -> (m < n)%nat -> amts_split_off_last t n = None.
Proof.
  intros (A & _) H. unfold amts_split_off_last, amts_len. rewrite A.
  destruct (Nat.leb_spec n m); [lia|auto].
Qed.

Lemma amts_remove_none m t n : amts_wf m t -> (m < n)%nat -> amts_remove_first t n = None.
Proof.
  intros (A & _) H. unfold amts_remove_first, amts_len. rewrite A.
  destruct (Nat.leb_spec n m); [lia|auto].
Qed.

Theorem asop_run_ok ops : forall t out, amts_ok t ->
  (forall u, In (ASAppend u) ops -> amts_ok u) ->
  forall t' out', ofold asop_step (t, out) ops = Some (t', out') ->
  amts_ok t' /\
  exists given, out' = out ++ given /\
    Permutation (concat (map amts_iter given) ++ amts_iter t')
                (amts_iter t ++ flat_map asop_put ops).
Proof.
  induction ops as [|o ops IH]; intros t out Hok Hin t' out' H.
  - cbn in H. inversion H; subst. split; auto. exists []. rewrite app_nil_r. split; auto.
    simpl. rewrite app_nil_r. auto.
  - assert (Hin' : forall u, In (ASAppend u) ops -> amts_ok u) by (intros; apply Hin; right; auto).
    assert (STEP : forall r u, amts_ok r -> Permutation (amts_iter u ++ amts_iter r) (amts_iter t) ->
       ofold asop_step (r, out ++ [u]) ops = Some (t', out') -> asop_put o = [] ->
       amts_ok t' /\ exists given, out' = out ++ given /\
        Permutation (concat (map amts_iter given) ++ amts_iter t')
                (amts_iter t ++ flat_map asop_put (o :: ops))).
    { intros r u Hr Hp Hf Hput. destruct (IH r (out ++ [u]) Hr Hin' t' out' Hf) as (G1 & given & G2 & G3).
      split; auto. exists (u :: given). split; [rewrite G2, <- app_assoc; auto|].
      cbn [map concat flat_map]. rewrite Hput. cbn [app].
      rewrite <- app_assoc, G3, app_assoc, Hp. auto. }
    destruct Hok as (m & Hwf). destruct o as [u|k|k]; cbn [ofold] in H; unfold obind in H at 1; cbn [asop_step] in H.
    + destruct (Hin u ltac:(left; auto)) as (m' & Hu).
      destruct (amts_append_spec _ _ _ _ Hwf Hu) as (A1 & A2).
      destruct (IH (amts_append t u) out ltac:(eexists; eauto) Hin' t' out' H) as (G1 & given & G2 & G3).
      split; auto. exists given. split; auto. rewrite A2 in G3. simpl. rewrite app_assoc. exact G3.
    + destruct (le_lt_dec k m) as [Hk|Hk]; [|rewrite (amts_split_none m) in H by auto; discriminate].
      destruct (amts_split_spec m t k Hwf Hk) as (r & u & E & Wr & Wu & Ir & Iu). rewrite E in H. cbn in H.
      apply (STEP r u); auto; [eexists; eauto|].
      rewrite Ir, Iu, Permutation_app_comm, firstn_skipn. auto.
    + destruct (le_lt_dec k m) as [Hk|Hk]; [|rewrite (amts_remove_none m) in H by auto; discriminate].
      destruct (amts_remove_spec m t k Hwf Hk) as (r & u & E & Wr & Wu & Ir & Iu). rewrite E in H. cbn in H.
      apply (STEP r u); auto; [eexists; eauto|].
      rewrite Ir, Iu, firstn_skipn. auto.
Qed.

(** *** Multiplication layers *)

Lemma arith_msg_loop_spec w ps : forall mts, (length ps <= length mts)%nat ->
  arith_msg_loop w (repeat AMul (length ps)) mts (flat_zpairs ps)
  = Some (zip_with (fun p mt => wsub w (fst p) (at_a mt)) ps mts,
          zip_with (fun p mt => wsub w (snd p) (at_c mt)) ps mts).
Proof.
  induction ps as [|p ps IH]; intros [|mt mts] H; simpl in *; auto; try lia.
  fold (flat_zpairs ps). rewrite IH by lia. reflexivity.
Qed.

Lemma arith_gate_shared w x0 y0 x1 y1 t u :
  let d := wadd w (wsub w x0 (at_a t)) (wsub w x1 (at_a u)) in
  let e := wadd w (wsub w y0 (at_c t)) (wsub w y1 (at_c u)) in
  shared w (wadd w (wadd w (wadd w (wmul w d (at_a t)) (wmul w e (at_b t))) (at_c t)) (wmul w d e))
           (wadd w (wadd w (wmul w d (at_a u)) (wmul w e (at_b u))) (at_c u))
  = ((x0 + x1 - (at_a t + at_a u)) * (y0 + y1 - (at_c t + at_c u))
     + (x0 + x1 - (at_a t + at_a u)) * (at_a t + at_a u)
     + (y0 + y1 - (at_c t + at_c u)) * (at_b t + at_b u) + (at_c t + at_c u)) mod 2 ^ w.
Proof. cbv zeta. unfold shared, wadd, wsub, wmul. zmod (2 ^ w). Qed.

Lemma wadd_comm w x y : wadd w x y = wadd w y x.
Proof. unfold wadd. f_equal. ring. Qed.

(** What the layer actually computes, for arbitrary triples. *)
Definition mul_result (w : Z) (p q : Z * Z) (t u : atriple) : Z :=
  ((fst p + fst q - (at_a t + at_a u)) * (snd p + snd q - (at_c t + at_c u))
   + (fst p + fst q - (at_a t + at_a u)) * (at_a t + at_a u)
   + (snd p + snd q - (at_c t + at_c u)) * (at_b t + at_b u) + (at_c t + at_c u)) mod 2 ^ w.

Lemma arith_eval_loop_shared w : forall ps0 ps1 ms0 ms1,
  length ps1 = length ps0 -> length ms0 = length ps0 -> length ms1 = length ps0 ->
  let d ps ms := zip_with (fun p mt => wsub w (fst p) (at_a mt)) ps ms in
  let e ps ms := zip_with (fun p mt => wsub w (snd p) (at_c mt)) ps ms in
  shared_list w
    (arith_eval_loop w 0 (d ps0 ms0) (e ps0 ms0) (d ps1 ms1) (e ps1 ms1) ms0)
    (arith_eval_loop w 1 (d ps1 ms1) (e ps1 ms1) (d ps0 ms0) (e ps0 ms0) ms1)
  = zip_with (fun pq tu => mul_result w (fst pq) (snd pq) (fst tu) (snd tu))
      (zip_with pair ps0 ps1) (zip_with pair ms0 ms1).
Proof.
  unfold shared_list.
  induction ps0 as [|p ps0 IH]; intros [|q ps1] [|t ms0] [|u ms1] L1 L2 L3; simpl in *; try lia; auto.
  apply (f_equal2 cons); [|apply IH; lia].
  rewrite (wadd_comm w (wsub w (fst q) (at_a u))), (wadd_comm w (wsub w (snd q) (at_c u))).
  unfold mul_result. rewrite <- arith_gate_shared. reflexivity.
Qed.

Lemma arith_eval_loop_length w party : forall d e rd re ms n,
  length d = n -> length e = n -> length rd = n -> length re = n -> length ms = n ->
  length (arith_eval_loop w party d e rd re ms) = n.
Proof.
  induction d; intros [|] [|] [|] [|] [|n] H1 H2 H3 H4 H5; simpl in *; try lia; auto.
Qed.

Lemma zip_with_firstn_r {A B C} (f : A -> B -> C) xs : forall ys n, length xs = n ->
  zip_with f xs ys = zip_with f xs (firstn n ys).
Proof. induction xs; intros [|y ys] [|n] H; simpl in *; auto; try lia. f_equal. auto. Qed.

Theorem arith_layer_result w ps0 ps1 n m T0 T1 :
  length ps0 = n -> length ps1 = n -> (n <= m)%nat -> amts_wf m T0 -> amts_wf m T1 ->
  exists o0 o1 R0 R1,
    arith_layer w n (flat_zpairs ps0) (flat_zpairs ps1) T0 T1 = Some ((o0, o1), (R0, R1)) /\
    length o0 = n /\ length o1 = n /\
    shared_list w o0 o1 =
      zip_with (fun pq tu => mul_result w (fst pq) (snd pq) (fst tu) (snd tu))
        (zip_with pair ps0 ps1) (zip_with pair (firstn n (amts_iter T0)) (firstn n (amts_iter T1))) /\
    amts_iter R0 = skipn n (amts_iter T0) /\ amts_iter R1 = skipn n (amts_iter T1) /\
    amts_wf (m - n) R0 /\ amts_wf (m - n) R1.
Proof.
  intros L0 L1 Hn W0 W1.
  pose proof (amts_iter_length _ _ W0) as M0. pose proof (amts_iter_length _ _ W1) as M1.
  destruct (amts_remove_spec m T0 n W0 Hn) as (R0 & U0 & E0 & WR0 & WU0 & IU0 & IR0).
  destruct (amts_remove_spec m T1 n W1 Hn) as (R1 & U1 & E1 & WR1 & WU1 & IU1 & IR1).
  set (ms0 := firstn n (amts_iter T0)) in *. set (ms1 := firstn n (amts_iter T1)) in *.
  assert (K0 : length ms0 = n) by (unfold ms0; rewrite firstn_length; lia).
  assert (K1 : length ms1 = n) by (unfold ms1; rewrite firstn_length; lia).
  eexists _, _, R0, R1. split.
  { unfold arith_layer, arith_compute_msg.
    rewrite <- L0 at 1. rewrite arith_msg_loop_spec by lia. cbn [obind].
    rewrite <- L1 at 1. rewrite arith_msg_loop_spec by lia. cbn [obind].
    unfold arith_eval_int; cbn [am_e am_d].
    rewrite !zip_with_length, L0, L1, M0, M1, Nat.min_l by lia. rewrite E0. cbn [obind]. rewrite E1. cbn [obind].
    rewrite IU0, IU1.
    rewrite !(zip_with_firstn_r _ ps0 (amts_iter T0) n L0), !(zip_with_firstn_r _ ps1 (amts_iter T1) n L1).
    fold ms0 ms1. reflexivity. }
  split; [apply arith_eval_loop_length; rewrite ?zip_with_length; lia|].
  split; [apply arith_eval_loop_length; rewrite ?zip_with_length; lia|].
  split; [apply arith_eval_loop_shared; lia|]. auto.
Qed.

Lemma zip_map_ext {A B C} (f g : A -> B -> C) xs : forall ys,
  (forall i, (i < length xs)%nat -> (i < length ys)%nat ->
     forall dx dy, f (nth i xs dx) (nth i ys dy) = g (nth i xs dx) (nth i ys dy)) ->
  zip_with f xs ys = zip_with g xs ys.
Proof.
  induction xs; intros [|y ys] H; simpl in *; auto. apply (f_equal2 cons).
  - apply (H 0%nat ltac:(lia) ltac:(lia) a y).
  - apply IHxs. intros i Hi Hj dx dy. apply (H (S i) ltac:(lia) ltac:(lia)).
Qed.

(** *** Exactly which triples work *)

Lemma zeqm_0_div m a : m <> 0 -> zeqm m a 0 <-> (m | a).
Proof.
  intros Hm. unfold zeqm. rewrite Z.mod_0_l by auto. split; intros H; [apply Z.mod_divide; auto|].
  apply Z.mod_divide; auto.
Qed.

Lemma pow2_idempotent w c : 0 < w -> (2 ^ w | c * (c - 1)) -> (2 ^ w | c) \/ (2 ^ w | c - 1).
Proof.
  intros Hw H. destruct (Z.Even_or_Odd c) as [[k E]|[k E]].
  - left. apply (Z.gauss _ (c - 1)); [rewrite Z.mul_comm; auto|].
    apply Znumtheory.Zgcd_1_rel_prime. apply Znumtheory.rel_prime_sym.
    apply Zpow_facts.rel_prime_Zpower_r; [lia|].
    apply Znumtheory.rel_prime_sym. apply Znumtheory.prime_rel_prime; [apply Znumtheory.prime_2|].
    intros [q Q]. lia.
  - right. apply (Z.gauss _ c); [auto|].
    apply Znumtheory.Zgcd_1_rel_prime. apply Znumtheory.rel_prime_sym.
    apply Zpow_facts.rel_prime_Zpower_r; [lia|].
    apply Znumtheory.rel_prime_sym. apply Znumtheory.prime_rel_prime; [apply Znumtheory.prime_2|].
    intros [q Q]. lia.
Qed.

Lemma mul_result_shared w p q t u : mul_result w p q t u =
  let x := shared w (fst p) (fst q) in let y := shared w (snd p) (snd q) in
  let a := shared w (at_a t) (at_a u) in let b := shared w (at_b t) (at_b u) in
  let c := shared w (at_c t) (at_c u) in
  (x * y + x * (a - c) + y * (b - a) + (a * c - a * a - c * b + c)) mod 2 ^ w.
Proof. cbv zeta. unfold mul_result, shared. zmod (2 ^ w). Qed.

Lemma shared_range w a b : 0 <= w -> in_ring w (shared w a b).
Proof. intros. apply Z.mod_pos_bound. apply Z.pow_pos_nonneg; lia. Qed.

Lemma trivial_triple_ok w p q t u : trivial_triple w t u ->
  mul_result w p q t u = ((fst p + fst q) * (snd p + snd q)) mod 2 ^ w.
Proof.
  intros (k & Hk & A & B & C). rewrite mul_result_shared. cbv zeta. rewrite A, B, C.
  unfold shared. destruct Hk as [-> | ->]; zmod (2 ^ w).
Qed.

Lemma in_ring_eq w x y : in_ring w x -> in_ring w y -> 0 <= w -> (2 ^ w | x - y) -> x = y.
Proof. unfold in_ring. intros H1 H2 Hw (k & E). assert (k = 0) by nia. nia. Qed.

Lemma trivial_triple_iff w t u : 0 < w ->
  (forall x y, in_ring w x -> in_ring w y ->
     mul_result w (x, y) (0, 0) t u = (x * y) mod 2 ^ w) <-> trivial_triple w t u.
Proof.
  intros Hw. assert (P1 : 2 <= 2 ^ w) by (replace w with (1 + (w - 1)) by lia; rewrite Z.pow_add_r by lia;
     assert (0 < 2 ^ (w - 1)) by (apply Z.pow_pos_nonneg; lia); lia).
  assert (Hm : 2 ^ w <> 0) by lia. split.
  2:{ intros H x y _ _. rewrite trivial_triple_ok by auto. cbn [fst snd]. f_equal. ring. }
  intros H.
  set (a := shared w (at_a t) (at_a u)). set (b := shared w (at_b t) (at_b u)). set (c := shared w (at_c t) (at_c u)).
  assert (Ra : in_ring w a) by (apply shared_range; lia).
  assert (Rb : in_ring w b) by (apply shared_range; lia).
  assert (Rc : in_ring w c) by (apply shared_range; lia).
  assert (K : forall x y, in_ring w x -> in_ring w y ->
     (2 ^ w | x * (a - c) + y * (b - a) + (a * c - a * a - c * b + c))).
  { intros x y Rx Ry. specialize (H x y Rx Ry). rewrite mul_result_shared in H. cbv zeta in H.
    fold a b c in H. cbn [fst snd] in H. unfold shared in H. rewrite !Z.add_0_r in H.
    rewrite (Z.mod_small x), (Z.mod_small y) in H by auto.
    apply mod_eq_iff in H; auto. destruct H as (k & E). exists k. lia. }
  assert (R0 : in_ring w 0) by (unfold in_ring; lia). assert (R1 : in_ring w 1) by (unfold in_ring; lia).
  pose proof (K 0 0 R0 R0) as K00. pose proof (K 1 0 R1 R0) as K10. pose proof (K 0 1 R0 R1) as K01.
  assert (AC : a = c).
  { apply (in_ring_eq w); auto; [lia|]. destruct K00 as (k0 & E0), K10 as (k1 & E1). exists (k1 - k0). lia. }
  assert (BA : b = a).
  { apply (in_ring_eq w); auto; [lia|]. destruct K00 as (k0 & E0), K01 as (k1 & E1). exists (k1 - k0). lia. }
  assert (G : forall k, (k = 0 \/ k = 1) -> a = k -> trivial_triple w t u).
  { intros k Hk E. exists k. fold a b c. split; [exact Hk|]. rewrite BA, <- AC. auto. }
  clearbody a b c. rewrite BA, <- AC in K00.
  assert (D : (2 ^ w | a * (a - 1))).
  { destruct K00 as (k & E). exists (- k). lia. }
  destruct (pow2_idempotent w a Hw D) as [D0|D1].
  - apply (G 0); [auto|]. apply (in_ring_eq w); auto; [lia|rewrite Z.sub_0_r; auto].
  - apply (G 1); [auto|]. apply (in_ring_eq w); auto; lia.
Qed.

Lemma arith_one_gate w t u x y :
  exists o0 o1 R,
    arith_layer w 1 [x; y] [0; 0] (AMTS [at_a t] [at_b t] [at_c t]) (AMTS [at_a u] [at_b u] [at_c u])
     = Some ((o0, o1), R) /\
    shared_list w o0 o1 = [mul_result w (x, y) (0, 0) t u].
Proof.
  destruct (arith_layer_result w [(x, y)] [(0, 0)] 1 1 (AMTS [at_a t] [at_b t] [at_c t])
    (AMTS [at_a u] [at_b u] [at_c u])) as (o0 & o1 & R0 & R1 & E & _ & _ & S & _); auto; try (repeat split; fail).
  exists o0, o1, (R0, R1). split; [exact E|]. exact S.
Qed.

Theorem arith_mul_exact w t u : 0 < w ->
  (forall x y, in_ring w x -> in_ring w y ->
    exists o0 o1 R,
     arith_layer w 1 [x; y] [0; 0] (AMTS [at_a t] [at_b t] [at_c t]) (AMTS [at_a u] [at_b u] [at_c u])
       = Some ((o0, o1), R) /\
     shared_list w o0 o1 = [(x * y) mod 2 ^ w])
  <-> trivial_triple w t u.
Proof.
  intros Hw. rewrite <- trivial_triple_iff by auto. split; intros H x y Rx Ry.
  - destruct (H x y Rx Ry) as (o0 & o1 & R & E & S). destruct (arith_one_gate w t u x y) as (p0 & p1 & R' & E' & S').
    rewrite E in E'. inversion E'; subst. congruence.
  - destruct (arith_one_gate w t u x y) as (p0 & p1 & R' & E' & S'). eexists _, _, _. split; [exact E'|].
    rewrite S', H by auto. reflexivity.
Qed.

Theorem arith_mul_layer w ps0 ps1 n m T0 T1 :
  length ps0 = n -> length ps1 = n -> (n <= m)%nat -> amts_wf m T0 -> amts_wf m T1 ->
  Forall2 (trivial_triple w) (firstn n (amts_iter T0)) (firstn n (amts_iter T1)) ->
  exists o0 o1 R0 R1,
    arith_layer w n (flat_zpairs ps0) (flat_zpairs ps1) T0 T1 = Some ((o0, o1), (R0, R1)) /\
    length o0 = n /\ length o1 = n /\
    shared_list w o0 o1 = mul_of_pairs w ps0 ps1 /\
    amts_iter R0 = skipn n (amts_iter T0) /\ amts_iter R1 = skipn n (amts_iter T1) /\
    amts_wf (m - n) R0 /\ amts_wf (m - n) R1.
Proof.
  intros L0 L1 Hn W0 W1 HF.
  destruct (arith_layer_result w ps0 ps1 n m T0 T1 L0 L1 Hn W0 W1)
    as (o0 & o1 & R0 & R1 & E & K0 & K1 & S & I0 & I1 & X0 & X1).
  exists o0, o1, R0, R1. split; [auto|]. split; [auto|]. split; [auto|]. split; [|tauto].
  rewrite S. unfold mul_of_pairs.
  pose proof (amts_iter_length _ _ W0) as M0.
  assert (LF : length (firstn n (amts_iter T0)) = n) by (rewrite firstn_length; lia).
  clear - L0 L1 HF LF. revert HF LF.
  generalize (firstn n (amts_iter T0)) (firstn n (amts_iter T1)). intros l0 l1 HF LF.
  revert ps0 ps1 n L0 L1 LF.
  induction HF as [|t u ts us Ht HF IH]; intros [|p ps0] [|q ps1] [|n] L0 L1 LF; simpl in *; try lia; auto.
  apply (f_equal2 cons); [apply trivial_triple_ok; auto|]. apply (IH ps0 ps1 n); lia.
Qed.
