(** Proofs about tensor ABY2: values, sharing, gates, setup of the gate outputs. *)
From Coq Require Import List Bool Arith NArith Lia.
Require Import Verif.Prelude Verif.PreludeProofs Verif.GateModel Verif.ProtocolModel Verif.CircuitModel
  Verif.ExecModel Verif.ExecSpec Verif.ExecProofs Verif.ExecLayerProofs
  Verif.BitMatModel Verif.BitMatSpec Verif.BitMatTheorems
  Verif.Aby2Model Verif.Aby2Spec Verif.Aby2Proofs Verif.TensorModel Verif.TensorSpec.
Import ListNotations.
Open Scope nat_scope.

(** ** Values *)

Lemma tv_ext d a b : dim_ok d -> has_dim d a -> has_dim d b ->
  (forall i j, in_dim d i j -> tv_entry a i j = tv_entry b i j) -> a = b.
Proof.
  intros _ Ha Hb H. destruct d as [|r c], a as [x|?|m], b as [y|?|m']; try contradiction.
  - f_equal. apply (H 0 0). exact I.
  - destruct Ha as (A1 & A2 & A3), Hb as (B1 & B2 & B3). f_equal. apply matrix_ext; auto; try congruence.
    intros i j Hi Hj. apply (H i j). cbn. lia.
Qed.

Lemma bm_xor_ok r c a b : bm_rows a = r -> bm_cols a = c -> exact a -> bm_rows b = r -> bm_cols b = c -> exact b ->
  exists m, bm_xor a b = Some m /\ bm_rows m = r /\ bm_cols m = c /\ exact m /\
    forall i j, i < r -> j < c -> entry m i j = xorb (entry a i j) (entry b i j).
Proof.
  intros Ra Ca Xa Rb Cb Xb. unfold exact in *. unfold bm_xor. rewrite Ra, Ca, Rb, Cb, !Nat.eqb_refl. cbn [andb oassert obind].
  eexists. split; [reflexivity|]. cbn [bm_rows bm_cols bm_data]. split; auto. split; auto.
  assert (L : length (bm_data a) = length (bm_data b)) by congruence.
  rewrite <- L, skipn_all, app_nil_r. split.
  - rewrite zip_with_length, <- L, Nat.min_id. congruence.
  - intros i j Hi Hj. unfold entry. cbn [bm_cols bm_data]. rewrite Ca, Cb. apply zip_with_nth.
    + rewrite Xa, Ra, Ca. nia.
    + rewrite Xb, Rb, Cb. nia.
Qed.

Lemma tv_xor_ok d a b : has_dim d a -> has_dim d b ->
  exists x, tv_xor a b = Some x /\ has_dim d x /\
    forall i j, in_dim d i j -> tv_entry x i j = xorb (tv_entry a i j) (tv_entry b i j).
Proof.
  intros Ha Hb. destruct d as [|r c], a as [x|?|m], b as [y|?|m']; try contradiction.
  - eexists. split; [reflexivity|]. split; [exact I|]. reflexivity.
  - destruct Ha as (A1 & A2 & A3), Hb as (B1 & B2 & B3).
    destruct (bm_xor_ok r c m m') as (z & E & Z1 & Z2 & Z3 & Z4); auto.
    exists (TMatrix z). cbn [tv_xor]. rewrite E. split; [reflexivity|]. split; [cbn; auto|].
    intros i j [Hi Hj]. apply Z4; auto.
Qed.

Lemma mat_mul_ok junk r k c a b : bm_rows a = r -> bm_cols a = k -> exact a -> bm_rows b = k -> bm_cols b = c -> exact b ->
  1 <= k -> (r * c) mod 8 = 0 ->
  exists m, mat_mul 8 junk a b = Some m /\ bm_rows m = r /\ bm_cols m = c /\ exact m /\
    forall i j, i < r -> j < c -> entry m i j = xor_sum k (fun t => entry a i t && entry b t j).
Proof.
  intros Ra Ca Xa Rb Cb Xb Hk Hm.
  destruct (C39_product 8 junk a b) as (m & E & M1 & M2 & _ & M3); auto; try lia; try congruence.
  { unfold covers. rewrite Xa. lia. }
  exists m. split; auto. split; [congruence|]. split; [congruence|]. split.
  - apply (C39_exact 8 junk a b m); auto; try lia; try congruence.
  - intros i j Hi Hj. rewrite M3 by congruence. rewrite Ca. reflexivity.
Qed.

Lemma xor_sum_xor n f g : xor_sum n (fun k => xorb (f k) (g k)) = xorb (xor_sum n f) (xor_sum n g).
Proof.
  induction n as [|n IH]; auto. cbn [xor_sum]. rewrite IH.
  destruct (xor_sum n f), (xor_sum n g), (f n), (g n); reflexivity.
Qed.

Lemma bits_eqb_spec a : forall b, bits_eqb a b = true <-> a = b.
Proof.
  induction a as [|x a IH]; intros [|y b]; cbn; split; intros H; try discriminate; auto.
  - apply andb_true_iff in H. destruct H as [H1 H2]. apply eqb_prop in H1. apply IH in H2. congruence.
  - injection H as -> ->. rewrite eqb_reflx. apply IH. auto.
Qed.
Lemma tv_eqb_spec a b : tv_eqb a b = true <-> a = b.
Proof.
  destruct a as [x|l|m], b as [y|l'|m']; cbn [tv_eqb]; split; intros H; try discriminate.
  - apply eqb_prop in H. congruence.
  - injection H as ->. apply eqb_reflx.
  - apply bits_eqb_spec in H. congruence.
  - injection H as ->. apply bits_eqb_spec. auto.
  - apply andb_true_iff in H. destruct H as [H1 H3]. apply andb_true_iff in H1. destruct H1 as [H1 H2].
    apply Nat.eqb_eq in H1, H2. apply bits_eqb_spec in H3. destruct m, m'; cbn in *. congruence.
  - injection H as ->. rewrite !Nat.eqb_refl. cbn [andb]. apply bits_eqb_spec. auto.
Qed.

(** ** Drawing *)

(** The value of dimension [d] drawn next. *)
Definition tdraw (d : tdim) (r : wrng) : tval * wrng :=
  match d with
  | DBit => let '(b, r) := gen_bool r in (TScalar b, r)
  | DMat a b => match rand_matrix r a b with Some (m, r) => (TMatrix m, r) | None => (TScalar false, r) end
  end.

Lemma concat_bytes_length (f : nat -> N) n : length (concat (map (fun i => word_byte (f i) 0) (seq 0 n))) = n * 8.
Proof.
  induction n as [|n IH]; auto. rewrite seq_S, map_app, concat_app, app_length, IH. cbn [map concat].
  rewrite app_nil_r. unfold word_byte. rewrite map_length, seq_length. lia.
Qed.

Lemma rand_matrix_ok r a b : (a * b) mod 8 = 0 ->
  exists m r', rand_matrix r a b = Some (m, r') /\ bm_rows m = a /\ bm_cols m = b /\ exact m.
Proof.
  intros H. unfold rand_matrix. rewrite H. cbn [Nat.eqb oassert obind]. eexists _, _. split; [reflexivity|].
  cbn [bm_rows bm_cols]. split; auto. split; auto. unfold exact. cbn [bm_rows bm_cols bm_data].
  rewrite (concat_bytes_length (fun i => wr_words r (wr_pos r + i))).
  pose proof (Nat.div_mod (a * b) 8 ltac:(lia)). lia.
Qed.

Lemma tdraw_dim d r : dim_ok d -> has_dim d (fst (tdraw d r)).
Proof.
  intros H. destruct d as [|a b]; cbn [tdraw]; [exact I|]. destruct H as (_ & _ & H).
  destruct (rand_matrix_ok r a b H) as (m & r' & -> & A & B & C). cbn. auto.
Qed.

Lemma tdraw_mat a b r : dim_ok (DMat a b) -> exists m,
  rand_matrix r a b = Some (m, snd (tdraw (DMat a b) r)) /\ fst (tdraw (DMat a b) r) = TMatrix m /\
  bm_rows m = a /\ bm_cols m = b /\ exact m.
Proof.
  intros (_ & _ & H). cbn [tdraw]. destruct (rand_matrix_ok r a b H) as (m & r' & -> & A & B & C). exists m. auto.
Qed.

(** Successive draws. *)
Fixpoint tdraws (ds : list tdim) (r : wrng) : list tval :=
  match ds with [] => [] | d :: ds => fst (tdraw d r) :: tdraws ds (snd (tdraw d r)) end.
Fixpoint tadvance (ds : list tdim) (r : wrng) : wrng :=
  match ds with [] => r | d :: ds => tadvance ds (snd (tdraw d r)) end.

(** ** Sharing *)

Definition plain_ok (x : tval) : Prop := dim_ok (dim_of x) /\ has_dim (dim_of x) x.

Lemma has_dim_of d x : has_dim d x -> dim_of x = d.
Proof. destruct d, x; cbn; try contradiction; auto. intros (-> & -> & _). auto. Qed.

Lemma share1_ok s x t : plain_ok x -> td_remote t = td_local s ->
  exists a dlt s', td_share1 s x = Some (a, dlt, s') /\
    s' = TDS (snd (tdraw (dim_of x) (td_priv s))) (snd (tdraw (dim_of x) (td_local s))) (td_remote s) (td_map s) /\
    ts_priv a = fst (tdraw (dim_of x) (td_priv s)) /\
    exists b t', td_delta1 t dlt = Some (b, t') /\
      t' = TDS (td_priv t) (td_local t) (snd (tdraw (dim_of x) (td_remote t))) (td_map t) /\
      ts_priv b = fst (tdraw (dim_of x) (td_remote t)) /\ tcarries (dim_of x) x a b.
Proof.
  intros [Hd Hx] Ht. destruct x as [b|l|m]; cbn [dim_of] in *; [|contradiction|].
  - cbn [td_share1 tdraw]. unfold gen_bool. eexists _, _, _. split; [reflexivity|]. split; [reflexivity|]. split; [reflexivity|].
    cbn [td_delta1]. unfold gen_bool. eexists _, _. split; [reflexivity|]. split; [reflexivity|]. split; [reflexivity|].
    repeat split. intros i j _. cbn [tv_entry ts_pub ts_priv as_pub as_priv]. rewrite Ht.
    destruct b, (N.testbit (wr_words (td_priv s) _) 31), (N.testbit (wr_words (td_local s) _) 31); reflexivity.
  - destruct Hx as (_ & _ & Hx).
    destruct (tdraw_mat _ _ (td_priv s) Hd) as (my & M1 & M2 & M3 & M4 & M5).
    destruct (tdraw_mat _ _ (td_local s) Hd) as (ot & O1 & O2 & O3 & O4 & O5).
    destruct (tdraw_mat _ _ (td_remote t) Hd) as (rm & R1 & R2 & R3 & R4 & R5).
    cbn [td_share1]. rewrite M1. cbn [obind]. rewrite O1. cbn [obind].
    destruct (bm_xor_ok (bm_rows m) (bm_cols m) m my) as (z & Ez & Z1 & Z2 & Z3 & Z4); auto. rewrite Ez. cbn [obind].
    destruct (bm_xor_ok (bm_rows m) (bm_cols m) z ot) as (w & Ew & W1 & W2 & W3 & W4); auto. rewrite Ew. cbn [obind].
    eexists _, _, _. split; [reflexivity|]. split; [reflexivity|]. split; [cbn [ts_priv]; auto|].
    cbn [td_delta1]. rewrite W1, W2, R1. cbn [obind].
    eexists _, _. split; [reflexivity|]. split; [reflexivity|]. split; [cbn [ts_priv]; auto|].
    assert (rm = ot) by (rewrite Ht in R1; congruence). subst rm.
    repeat split; auto. intros i j [Hi Hj]. cbn [tv_entry ts_pub ts_priv]. rewrite W4, Z4 by auto.
    destruct (entry m i j), (entry my i j), (entry ot i j); reflexivity.
Qed.

Lemma share_ok xs : forall s, Forall plain_ok xs ->
  exists sh ds s', td_share s xs = Some (sh, ds, s') /\ length ds = length xs /\
    s' = TDS (tadvance (map dim_of xs) (td_priv s)) (tadvance (map dim_of xs) (td_local s)) (td_remote s) (td_map s) /\
    map ts_priv sh = tdraws (map dim_of xs) (td_priv s) /\
    forall t, td_remote t = td_local s ->
    exists sh' t', td_delta t ds = Some (sh', t') /\
      t' = TDS (td_priv t) (td_local t) (tadvance (map dim_of xs) (td_remote t)) (td_map t) /\
      map ts_priv sh' = tdraws (map dim_of xs) (td_remote t) /\
      all3 (fun x a b => tcarries (dim_of x) x a b) xs sh sh'.
Proof.
  induction xs as [|x xs IH]; intros s HF.
  - exists [], [], s. cbn. destruct s. repeat split; auto. intros t Ht. exists [], t. destruct t. repeat split; auto. constructor.
  - inversion HF as [|? ? Hx HF']; subst. clear HF.
    destruct (share1_ok s x (TDS (td_priv s) (td_local s) (td_local s) (td_map s)) Hx eq_refl) as (a & d & s1 & E & Es & Pa & _).
    destruct (IH s1 HF') as (sh & ds & s2 & E2 & L2 & Es2 & P2 & H2).
    exists (a :: sh), (d :: ds), s2. cbn [td_share]. rewrite E. cbn [obind]. rewrite E2. cbn [obind].
    split; [reflexivity|]. split; [cbn; lia|]. subst s1. cbn [map tadvance tdraws td_priv td_local td_remote td_map] in *.
    split; auto. split; [rewrite Pa, P2; reflexivity|].
    intros t Ht. destruct (share1_ok s x t Hx Ht) as (a' & d' & s' & E' & _ & _ & b & t1 & B1 & B2 & B3 & B4).
    rewrite E in E'. injection E' as <- <- <-.
    destruct (H2 t1) as (sh' & t2 & D1 & D2 & D3 & D4). { subst t1. cbn. rewrite Ht. reflexivity. }
    cbn [td_delta]. rewrite B1. cbn [obind]. rewrite D1. cbn [obind]. eexists _, _. split; [reflexivity|].
    subst t1. cbn [td_priv td_local td_remote td_map] in *. split; auto. cbn [map]. split; [rewrite B3, D3; reflexivity|].
    constructor; auto.
Qed.

Lemma reconstruct1 d x a b : dim_ok d -> tcarries d x a b ->
  exists v, (match a, b with
    | SScalar x, SScalar y => Some (TScalar (xorb (xorb (as_pub x) (as_priv x)) (as_priv y)))
    | SMatrix p q, SMatrix _ q' => m <- bm_xor p q ;; m <- bm_xor m q' ;; Some (TMatrix m)
    | _, _ => None end) = Some v /\ v = x.
Proof.
  intros Hd (H1 & H2 & H3 & H4 & H5 & H6). destruct d as [|r c].
  - destruct a as [a|?|?], b as [b|?|?]; try (cbn in *; contradiction); try discriminate.
    destruct x as [x|?|?]; try contradiction. eexists. split; [reflexivity|]. f_equal.
    specialize (H6 0 0 I). cbn in H6. rewrite H6. apply xorb_assoc.
  - destruct a as [?|?|p q]; try (cbn in *; contradiction). destruct b as [?|?|p' q']; try discriminate; try (cbn in *; contradiction).
    destruct x as [?|?|m]; try contradiction. cbn in H3. injection H3 as ->.
    cbn [has_dim ts_pub ts_priv] in *. destruct H1 as (A1 & A2 & A3), H2 as (B1 & B2 & B3), H4 as (C1 & C2 & C3), H5 as (D1 & D2 & D3).
    destruct (bm_xor_ok r c p q) as (z & Ez & Z1 & Z2 & Z3 & Z4); auto. rewrite Ez. cbn [obind].
    destruct (bm_xor_ok r c z q') as (w & Ew & W1 & W2 & W3 & W4); auto. rewrite Ew. cbn [obind].
    eexists. split; [reflexivity|]. apply (tv_ext (DMat r c)); auto; [cbn; auto|cbn; auto|].
    intros i j [Hi Hj]. rewrite (H6 i j) by (cbn; auto). cbn [tv_entry]. rewrite W4, Z4 by auto. apply xorb_assoc.
Qed.

Lemma reconstruct_all ds : forall xs a b, Forall dim_ok ds -> length ds = length xs ->
  (forall i d x s t, nth_error ds i = Some d -> nth_error xs i = Some x -> nth_error a i = Some s -> nth_error b i = Some t ->
     tcarries d x s t) -> length a = length xs -> length b = length xs ->
  td_reconstruct a b = Some xs.
Proof.
  induction ds as [|d ds IH]; intros xs a b HF L H La Lb; destruct xs as [|x xs]; try discriminate.
  - destruct a; [|discriminate]. destruct b; reflexivity || discriminate.
  - destruct a as [|s a]; [discriminate|]. destruct b as [|t b]; [discriminate|]. inversion HF; subst.
    pose proof (H 0 d x s t eq_refl eq_refl eq_refl eq_refl) as HC.
    cbn [td_reconstruct]. assert (HP : ts_pub s = ts_pub t) by (symmetry; apply HC).
    rewrite HP, (proj2 (tv_eqb_spec _ _) eq_refl). cbn [oassert obind].
    destruct (reconstruct1 d x s t) as (v & E & ->); auto. rewrite E. cbn [obind].
    rewrite (IH xs a b); auto. intros i. apply (H (S i)).
Qed.

(** ** Interactive gates *)

Section Gates.
Variable junk : nat -> bool.

Lemma and2_delta xa xb a0 a1 b0 b1 e0 e1 o0 o1 :
  tcarries DBit xa a0 a1 -> tcarries DBit xb b0 b1 ->
  has_dim DBit e0 -> has_dim DBit e1 -> has_dim DBit (ts_priv o0) -> has_dim DBit (ts_priv o1) ->
  xorb (tv_entry e0 0 0) (tv_entry e1 0 0) =
    xorb (tv_entry (ts_priv a0) 0 0) (tv_entry (ts_priv a1) 0 0) && xorb (tv_entry (ts_priv b0) 0 0) (tv_entry (ts_priv b1) 0 0) ->
  forall s0 s1, exists d0 d1 d r0 r1,
    t_delta_share junk 0 TAnd2 [a0; b0] (s0 ++ [e0]) o0 = Some (d0, s0) /\
    t_delta_share junk 1 TAnd2 [a1; b1] (s1 ++ [e1]) o1 = Some (d1, s1) /\
    tv_xor d0 d1 = Some d /\ tv_xor d1 d0 = Some d /\
    ts_set_public o0 d = Some r0 /\ ts_set_public o1 d = Some r1 /\
    ts_priv r0 = ts_priv o0 /\ ts_priv r1 = ts_priv o1 /\
    exists x, tcarries DBit x r0 r1 /\ tensor_sem TAnd2 [xa; xb] x.
Proof.
  intros (A1 & A2 & A3 & A4 & A5 & A6) (B1 & B2 & B3 & B4 & B5 & B6) E0 E1 O0 O1 HE s0 s1.
  destruct xa as [xa|?|?], xb as [xb|?|?]; try contradiction.
  destruct a0 as [a0|?|?], a1 as [a1|?|?], b0 as [b0|?|?], b1 as [b1|?|?], o0 as [o0|?|?], o1 as [o1|?|?], e0 as [e0|?|?], e1 as [e1|?|?];
    try (cbn in *; contradiction); try discriminate.
  cbn [t_delta_share Nat.eqb orb oassert obind]. rewrite !pop_app. cbn [obind].
  eexists _, _, _, _, _. split; [reflexivity|]. split; [reflexivity|]. split; [reflexivity|].
  split; [cbn [tv_xor]; do 2 f_equal; apply xorb_comm|]. split; [reflexivity|]. split; [reflexivity|].
  split; [reflexivity|]. split; [reflexivity|].
  specialize (A6 0 0 I). specialize (B6 0 0 I). cbn in A6, B6, HE. cbn in A3, B3. injection A3 as A3. injection B3 as B3.
  exists (TScalar (xa && xb)). split; [|cbn; eauto].
  repeat split. intros i j _. cbn [tv_entry ts_pub ts_priv as_pub as_priv]. rewrite A3, B3, A6, B6.
  destruct a0 as [p r], b0 as [q t], a1 as [p' r'], b1 as [q' t'], o0 as [o0p o0], o1 as [o1p o1]. cbn [as_pub as_priv] in *. clear - HE.
  destruct p, q, r, t, r', t', o0, o1, e0, e1; cbn in *; congruence.
Qed.

Lemma matmult_delta r k c xa xb a0 a1 b0 b1 e0 e1 o0 o1 : dim_ok (DMat r k) -> dim_ok (DMat k c) -> dim_ok (DMat r c) ->
  tcarries (DMat r k) xa a0 a1 -> tcarries (DMat k c) xb b0 b1 ->
  has_dim (DMat r c) e0 -> has_dim (DMat r c) e1 -> has_dim (DMat r c) (ts_priv o0) -> has_dim (DMat r c) (ts_priv o1) ->
  (forall i j, i < r -> j < c -> xorb (tv_entry e0 i j) (tv_entry e1 i j) =
     xor_sum k (fun t => xorb (tv_entry (ts_priv a0) i t) (tv_entry (ts_priv a1) i t) &&
                         xorb (tv_entry (ts_priv b0) t j) (tv_entry (ts_priv b1) t j))) ->
  forall s0 s1, exists d0 d1 d r0 r1,
    t_delta_share junk 0 (TMatMult r c) [a0; b0] (s0 ++ [e0]) o0 = Some (d0, s0) /\
    t_delta_share junk 1 (TMatMult r c) [a1; b1] (s1 ++ [e1]) o1 = Some (d1, s1) /\
    tv_xor d0 d1 = Some d /\ tv_xor d1 d0 = Some d /\
    ts_set_public o0 d = Some r0 /\ ts_set_public o1 d = Some r1 /\
    ts_priv r0 = ts_priv o0 /\ ts_priv r1 = ts_priv o1 /\
    exists x, tcarries (DMat r c) x r0 r1 /\ tensor_sem (TMatMult r c) [xa; xb] x.
Proof.
  intros (R1 & K1 & M1) (_ & C1 & M2) (_ & _ & M3) (A1 & A2 & A3 & A4 & A5 & A6) (B1 & B2 & B3 & B4 & B5 & B6) E0 E1 O0 O1 HE s0 s1.
  destruct xa as [?|?|xa], xb as [?|?|xb]; try contradiction.
  destruct a0 as [?|?|ap aq]; try (cbn in *; contradiction). destruct a1 as [?|?|ap' aq']; try discriminate; try (cbn in *; contradiction).
  destruct b0 as [?|?|bp bq]; try (cbn in *; contradiction). destruct b1 as [?|?|bp' bq']; try discriminate; try (cbn in *; contradiction).
  destruct o0 as [?|?|op oq]; try (cbn in *; contradiction). destruct o1 as [?|?|op' oq']; try (cbn in *; contradiction).
  destruct e0 as [?|?|e0]; try (cbn in *; contradiction). destruct e1 as [?|?|e1]; try (cbn in *; contradiction).
  cbn in A3, B3. injection A3 as ->. injection B3 as ->.
  cbn [has_dim ts_pub ts_priv] in *.
  destruct A1 as (A11 & A12 & A13), A2 as (A21 & A22 & A23), A4 as (A41 & A42 & A43), A5 as (A51 & A52 & A53).
  destruct B1 as (B11 & B12 & B13), B2 as (B21 & B22 & B23), B4 as (B41 & B42 & B43), B5 as (B51 & B52 & B53).
  destruct E0 as (E01 & E02 & E03), E1 as (E11 & E12 & E13), O0 as (O01 & O02 & O03), O1 as (O11 & O12 & O13).
  cbn [t_delta_share Nat.eqb orb oassert obind]. rewrite !pop_app. cbn [obind].
  destruct (mat_mul_ok junk r k c ap bq) as (u1 & -> & U11 & U12 & U13 & U14); auto. cbn [obind].
  destruct (mat_mul_ok junk r k c aq bp) as (u2 & -> & U21 & U22 & U23 & U24); auto. cbn [obind].
  destruct (mat_mul_ok junk r k c ap bp) as (u3 & -> & U31 & U32 & U33 & U34); auto. cbn [obind].
  destruct (mat_mul_ok junk r k c ap bq') as (w1 & -> & W11 & W12 & W13 & W14); auto. cbn [obind].
  destruct (mat_mul_ok junk r k c aq' bp) as (w2 & -> & W21 & W22 & W23 & W24); auto. cbn [obind].
  destruct (bm_xor_ok r c u1 u2) as (x1 & -> & X11 & X12 & X13 & X14); auto. cbn [obind].
  destruct (bm_xor_ok r c x1 e0) as (x2 & -> & X21 & X22 & X23 & X24); auto. cbn [obind].
  destruct (bm_xor_ok r c x2 oq) as (x3 & -> & X31 & X32 & X33 & X34); auto. cbn [obind].
  destruct (bm_xor_ok r c x3 u3) as (x4 & -> & X41 & X42 & X43 & X44); auto. cbn [obind].
  destruct (bm_xor_ok r c w1 w2) as (y1 & -> & Y11 & Y12 & Y13 & Y14); auto. cbn [obind].
  destruct (bm_xor_ok r c y1 e1) as (y2 & -> & Y21 & Y22 & Y23 & Y24); auto. cbn [obind].
  destruct (bm_xor_ok r c y2 oq') as (y3 & -> & Y31 & Y32 & Y33 & Y34); auto. cbn [obind].
  rewrite X41, X42, Y31, Y32, !Nat.eqb_refl. cbn [andb oassert obind].
  destruct (bm_xor_ok r c x4 y3) as (z & Ez & Z1 & Z2 & Z3 & Z4); auto.
  destruct (bm_xor_ok r c y3 x4) as (z' & Ez' & Z1' & Z2' & Z3' & Z4'); auto.
  assert (z' = z). { apply matrix_ext; auto; try congruence. intros i j Hi Hj. rewrite Z4, Z4' by congruence. apply xorb_comm. }
  subst z'.
  exists (TMatrix x4), (TMatrix y3), (TMatrix z), (SMatrix z oq), (SMatrix z oq').
  split; [reflexivity|]. split; [reflexivity|]. cbn [tv_xor]. rewrite Ez, Ez'. cbn [obind].
  split; [reflexivity|]. split; [reflexivity|]. split; [reflexivity|]. split; [reflexivity|]. split; [reflexivity|]. split; [reflexivity|].
  destruct (mat_mul_ok junk r k c xa xb) as (p & Ep & P1 & P2 & P3 & P4); auto.
  exists (TMatrix p). split.
  - cbn [ts_pub ts_priv has_dim tcarries]. unfold tcarries. cbn [ts_pub ts_priv has_dim].
    do 5 (split; [auto|]). intros i j [Hi Hj]. cbn [tv_entry].
    rewrite P4, Z4, X44, X34, X24, X14, Y34, Y24, Y14, U14, U24, U34, W14, W24 by auto.
    specialize (HE i j Hi Hj). cbn [tv_entry] in HE.
    assert (E : xor_sum k (fun t => entry xa i t && entry xb t j) =
      xorb (xorb (xorb (xor_sum k (fun t => entry ap i t && entry bq t j)) (xor_sum k (fun t => entry aq i t && entry bp t j)))
                 (xorb (xor_sum k (fun t => entry ap i t && entry bq' t j)) (xor_sum k (fun t => entry aq' i t && entry bp t j))))
           (xorb (xor_sum k (fun t => entry ap i t && entry bp t j))
                 (xor_sum k (fun t => xorb (entry aq i t) (entry aq' i t) && xorb (entry bq t j) (entry bq' t j))))).
    { rewrite <- !xor_sum_xor. apply xor_sum_ext. intros t Ht.
      pose proof (A6 i t (conj Hi Ht)) as QA. pose proof (B6 t j (conj Ht Hj)) as QB. cbn [tv_entry] in QA, QB. rewrite QA, QB.
      destruct (entry ap i t), (entry aq i t), (entry aq' i t), (entry bp t j), (entry bq t j), (entry bq' t j); reflexivity. }
    rewrite E, <- HE.
    generalize (xor_sum k (fun t => entry ap i t && entry bq t j)) as v1, (xor_sum k (fun t => entry aq i t && entry bp t j)) as v2,
      (xor_sum k (fun t => entry ap i t && entry bq' t j)) as v3, (xor_sum k (fun t => entry aq' i t && entry bp t j)) as v4,
      (xor_sum k (fun t => entry ap i t && entry bp t j)) as v5, (entry e0 i j) as v6, (entry e1 i j) as v7, (entry oq i j) as v8, (entry oq' i j) as v9.
    intros. destruct v1, v2, v3, v4, v5, v6, v7, v8, v9; reflexivity.
  - cbn. exists xa, xb, p. split; auto. split; auto. split; auto. split; auto. unfold is_product.
    split; [congruence|]. split; [congruence|]. split; [congruence|]. split; auto. intros i j Hi Hj. rewrite A12. apply P4; congruence.
Qed.
End Gates.

(** ** Setup of the gate outputs *)

Section Setup.
Variable junk : nat -> bool.
Notation pr := (tensor junk).

Lemma t_shape_scalar (ec : ecirc tensor_gate) (go : gouts pr) g gate :
  (forall sc, ec_simd ec sc = None) -> shape_ok (pr:=pr) ec go -> ec_gate ec g = Some gate ->
  exists s, go_cell (pr:=pr) go g = Some (@CS pr s).
Proof.
  intros Hs Sh Hg. destruct (Sh g gate Hg) as ([s|s] & A & B); [eauto|].
  unfold kind_ok in B. change (@ec_simd (p_gate pr) ec (fst g)) with (@ec_simd tensor_gate ec (fst g)) in B. rewrite Hs in B. destruct B.
Qed.

(** What the setup has established for the gates [V]. *)
Record TInv (ec : ecirc tensor_gate) (ty : gid -> tdim) (V : list gid) (go : gouts pr) (l : gid -> tval) : Prop := {
  ti_shape : shape_ok (pr:=pr) ec go;
  ti_get : forall g, In g V -> exists s, go_get (pr:=pr) go g = Some (@CS pr s) /\ ts_priv s = l g /\ has_dim (ty g) (l g);
  ti_mask : forall g gate, In g V -> ec_gate ec g = Some gate -> mask_rule gate (map l (ec_parents ec g)) (l g);
  ti_closed : forall g, In g V -> incl (ec_parents ec g) V }.

Definition tdrawing (ec : ecirc tensor_gate) (g : gid) : bool :=
  match ec_gate ec g with Some (TBase GInput _) | Some TAnd2 | Some (TMatMult _ _) => true | _ => false end.

(** The masks of the inputs in the order of the input gates. *)
Fixpoint t_input_draws (ty : gid -> tdim) (m : nat -> option share_type) (ids : list nat) (p r : wrng) : list tval :=
  match ids with
  | [] => []
  | i :: ids =>
      match m i with
      | Some STRemote => fst (tdraw (ty (0, i)) r) :: t_input_draws ty m ids p (snd (tdraw (ty (0, i)) r))
      | _ => fst (tdraw (ty (0, i)) p) :: t_input_draws ty m ids (snd (tdraw (ty (0, i)) p)) r
      end
  end.

Definition tupd_fun (l : gid -> tval) (g : gid) (b : tval) : gid -> tval :=
  fun h => if gid_eqb h g then b else l h.
Lemma tupd_fun_same l g b : tupd_fun l g b g = b.
Proof. unfold tupd_fun. destruct (gid_eqb_spec g g); congruence. Qed.
Lemma tupd_fun_other l g b h : h <> g -> tupd_fun l g b h = l h.
Proof. unfold tupd_fun. destruct (gid_eqb_spec h g); congruence. Qed.

Lemma priv_bit s l : ts_priv s = l -> has_dim DBit l -> exists a, s = SScalar a /\ l = TScalar (as_priv a).
Proof. intros <- H. destruct s; try contradiction. eauto. Qed.
Lemma priv_mat s l r c : ts_priv s = l -> has_dim (DMat r c) l -> exists p q, s = SMatrix p q /\ l = TMatrix q /\
  bm_rows q = r /\ bm_cols q = c /\ exact q.
Proof. intros <- H. destruct s as [?|?|p q]; try contradiction. exists p, q. auto. Qed.

Lemma t_setup_step ec ty V ds go l g gate :
  t_typed ec ty -> TInv ec ty V go l -> ec_gate ec g = Some gate -> ~ In g V ->
  incl (ec_parents ec g) V ->
  exists ds' go' b, t_setup_gate junk ec (ds, go) g = Some (ds', go') /\
    TInv ec ty (V ++ [g]) go' (tupd_fun l g b) /\ td_map ds' = td_map ds /\ td_local ds' = td_local ds /\
    (if tdrawing ec g then
       match td_map ds (snd g) with
       | Some STRemote => b = fst (tdraw (ty g) (td_remote ds)) /\ td_remote ds' = snd (tdraw (ty g) (td_remote ds)) /\ td_priv ds' = td_priv ds
       | _ => b = fst (tdraw (ty g) (td_priv ds)) /\ td_priv ds' = snd (tdraw (ty g) (td_priv ds)) /\ td_remote ds' = td_remote ds
       end
     else td_priv ds' = td_priv ds /\ td_remote ds' = td_remote ds).
Proof.
  intros [Hs HT] [Sh HG HM HC] Hg Hn Hp. destruct (HT g gate Hg) as (Hd & HK & Hpd & _).
  destruct (t_shape_scalar ec go g gate Hs Sh Hg) as (s0 & C0).
  (* reading the operands *)
  assert (RD : forall ps, incl ps V ->
    exists xs, omap (fun p => c <- go_get (pr:=pr) go p ;; cell_scalar c) ps = Some xs /\
      Forall2 (fun p x => ts_priv x = l p /\ has_dim (ty p) (l p)) ps xs).
  { induction ps as [|p ps IH]; intros Hi; [exists []; auto|].
    destruct (HG p) as (s & A & B); [apply Hi; cbn; auto|].
    destruct IH as (xs & E & F); [intros x Hx; apply Hi; cbn; auto|].
    exists (s :: xs). split; [apply omap_cons; auto; rewrite A; reflexivity|]. constructor; auto. }
  destruct (RD (firstn (t_setup_reads gate) (ec_parents ec g))) as (xs & Ex & Mx).
  { intros x Hx. apply Hp. rewrite <- (firstn_skipn (t_setup_reads gate)). apply in_or_app. auto. }
  (* the share *)
  assert (SO : forall r, exists o r', t_setup_output gate xs r = Some (o, r') /\
     (if tdrawing ec g then ts_priv o = fst (tdraw (ty g) r) /\ r' = snd (tdraw (ty g) r) else r' = r) /\
     has_dim (ty g) (ts_priv o) /\ mask_rule gate (map l (ec_parents ec g)) (ts_priv o)).
  { intros r. unfold tdrawing. rewrite Hg.
    assert (L1 : map ty (ec_parents ec g) = [ty g] -> t_setup_reads gate = 1 ->
       exists x, xs = [x] /\ map l (ec_parents ec g) = [ts_priv x] /\ has_dim (ty g) (ts_priv x)).
    { intros L1 L2. rewrite L2 in Mx. destruct (ec_parents ec g) as [|p [|? ?]]; try discriminate.
      cbn [map] in L1. injection L1 as L1. cbn [firstn] in Mx. inversion Mx as [|? x ? ? [P1 P2] M']; subst. inversion M'; subst.
      exists x. cbn [map]. rewrite P1, <- L1. auto. }
    assert (L2 : forall d d', map ty (ec_parents ec g) = [d; d'] -> t_setup_reads gate = 2 ->
       exists x y, xs = [x; y] /\ map l (ec_parents ec g) = [ts_priv x; ts_priv y] /\ has_dim d (ts_priv x) /\ has_dim d' (ts_priv y)).
    { intros d d' L1' L2. rewrite L2 in Mx. destruct (ec_parents ec g) as [|p [|q [|? ?]]]; try discriminate.
      cbn [map] in L1'. injection L1' as Q1 Q2. cbn [firstn] in Mx. inversion Mx as [|? x ? ? [P1 P2] M']; subst.
      inversion M' as [|? y ? ? [P3 P4] M'']; subst. inversion M''; subst.
      exists x, y. cbn [map]. rewrite P1, P3. auto. }
    destruct gate as [[] dim| | | | | |rows cols|]; cbn [gate_dims] in HK; try contradiction;
      try (destruct (L1 HK eq_refl) as (x & -> & El & Dx); cbn [t_setup_output]; rewrite El;
           eexists _, _; split; [reflexivity|]; split; [reflexivity|]; split; [exact Dx|reflexivity]).
    - (* Input *) subst dim. destruct (ty g) as [|a b] eqn:Et.
      + cbn [t_setup_output tdraw]. unfold gen_bool. eexists _, _. split; [reflexivity|]. split; [split; reflexivity|]. split; exact Logic.I.
      + destruct (tdraw_mat a b r Hd) as (m & M1 & M2 & M3 & M4 & M5). cbn [t_setup_output]. rewrite M1. cbn [obind].
        eexists _, _. split; [reflexivity|]. split; [split; [rewrite M2|]; reflexivity|]. split; [cbn; auto|exact Logic.I].
    - (* And2 *) destruct HK as [_ ->]. cbn [t_setup_output tdraw]. unfold gen_bool.
      eexists _, _. split; [reflexivity|]. split; [split; reflexivity|]. split; exact Logic.I.
    - (* Xor *) destruct HK as [HK ->]. destruct (L2 _ _ HK eq_refl) as (x & y & -> & El & Dx & Dy).
      destruct x as [x|?|?]; try contradiction. destruct y as [y|?|?]; try contradiction.
      cbn [t_setup_output]. eexists _, _. split; [reflexivity|]. split; [reflexivity|]. split; [exact Logic.I|].
      rewrite El. cbn [mask_rule ts_priv as_priv]. eauto.
    - (* MatMult *) destruct HK as (k & HK & Et). destruct (L2 _ _ HK eq_refl) as (x & y & -> & El & Dx & Dy).
      destruct x as [?|?|xp x]; try contradiction. destruct y as [?|?|yp y]; try contradiction.
      destruct Dx as (Dx1 & Dx2 & Dx3), Dy as (Dy1 & Dy2 & Dy3).
      cbn [t_setup_output]. rewrite Dx1, Dy2, !Nat.eqb_refl. cbn [oassert obind]. rewrite Et in *.
      destruct (tdraw_mat rows cols r Hd) as (m & M1 & M2 & M3 & M4 & M5). rewrite M1. cbn [obind].
      eexists _, _. split; [reflexivity|]. split; [split; [rewrite M2|]; reflexivity|]. split; [cbn; auto|exact Logic.I]. }
  assert (PUT : forall o, exists go', go_put (pr:=pr) go g (@CS pr o) = Some go' /\
     TInv ec ty V go' l /\ go_get (pr:=pr) go' g = Some (@CS pr o)).
  { intros o. destruct (go_put_spec (pr:=pr) go g _ (@CS pr o) C0 Logic.I) as (go' & A & B & C & D).
    exists go'. split; auto. split.
    - constructor.
      + intros h gt Hh. destruct (gid_dec h g).
        * subst. exists (@CS pr o). split; auto. unfold kind_ok. change (@ec_simd (p_gate pr) ec) with (@ec_simd tensor_gate ec). rewrite Hs. exact Logic.I.
        * rewrite C by auto. apply (Sh h gt Hh).
      + intros h Hh. assert (h <> g) by (intros ->; auto). destruct (HG h Hh) as (s & E & F).
        exists s. split; auto. apply go_get_cell in E. apply go_get_intro; [rewrite C; tauto|rewrite D; cbn; tauto].
      + auto.
      + auto.
    - apply go_get_intro; auto. rewrite D. cbn. auto. }
  assert (FIN : forall o go', TInv ec ty V go' l -> go_get (pr:=pr) go' g = Some (@CS pr o) ->
     has_dim (ty g) (ts_priv o) -> mask_rule gate (map l (ec_parents ec g)) (ts_priv o) ->
     TInv ec ty (V ++ [g]) go' (tupd_fun l g (ts_priv o))).
  { intros o go' [Sh' HG' HM' HC'] Hgo Ho1 Ho2.
    assert (Hpar : forall h, incl (ec_parents ec h) V ->
      map (tupd_fun l g (ts_priv o)) (ec_parents ec h) = map l (ec_parents ec h)).
    { intros h Hh. apply map_ext_in. intros p Hpp. apply tupd_fun_other. intros ->. auto. }
    constructor; auto.
    - intros h Hh. destruct (gid_dec h g) as [->|Hne].
      + exists o. rewrite tupd_fun_same. auto.
      + apply in_app_or in Hh. destruct Hh as [Hh|[Hh|[]]]; [|congruence].
        rewrite tupd_fun_other by auto. auto.
    - intros h gt Hh Hgt. destruct (gid_dec h g) as [->|Hne].
      + rewrite Hpar by auto. rewrite tupd_fun_same. rewrite Hg in Hgt. injection Hgt as <-. auto.
      + apply in_app_or in Hh. destruct Hh as [Hh|[Hh|[]]]; [|congruence].
        rewrite tupd_fun_other by auto. rewrite Hpar by auto. eauto.
    - intros h Hh p Hpp. apply in_or_app. left. apply in_app_or in Hh. destruct Hh as [Hh|[Hh|[]]].
      + eapply HC; eauto.
      + subst h. auto. }
  unfold t_setup_gate. rewrite Hg. cbn [obind].
  change (omap (fun p : gid => c <- go_get (pr:=pr) go p;; cell_scalar c) (firstn (t_setup_reads gate) (ec_parents ec g))) with
    (omap (fun p => c <- go_get (pr:=pr) go p ;; cell_scalar c) (firstn (t_setup_reads gate) (ec_parents ec g))).
  rewrite Ex. cbn [obind].
  destruct (td_map ds (snd g)) as [[|]|] eqn:Em.
  - destruct (SO (td_priv ds)) as (o & r & E1 & E2 & E3 & E4). destruct (PUT o) as (go' & P1 & P2 & P3).
    rewrite E1. cbn [obind]. rewrite P1. cbn [obind]. eexists _, go', (ts_priv o). split; [reflexivity|].
    split; [apply FIN; auto|]. cbn [td_map td_local td_priv td_remote]. split; auto. split; auto. destruct (tdrawing ec g); tauto.
  - destruct (SO (td_remote ds)) as (o & r & E1 & E2 & E3 & E4). destruct (PUT o) as (go' & P1 & P2 & P3).
    rewrite E1. cbn [obind]. rewrite P1. cbn [obind]. eexists _, go', (ts_priv o). split; [reflexivity|].
    split; [apply FIN; auto|]. cbn [td_map td_local td_priv td_remote]. split; auto. split; auto. destruct (tdrawing ec g); tauto.
  - destruct (SO (td_priv ds)) as (o & r & E1 & E2 & E3 & E4). destruct (PUT o) as (go' & P1 & P2 & P3).
    rewrite E1. cbn [obind]. rewrite P1. cbn [obind]. eexists _, go', (ts_priv o). split; [reflexivity|].
    split; [apply FIN; auto|]. cbn [td_map td_local td_priv td_remote]. split; auto. split; auto. destruct (tdrawing ec g); tauto.
Qed.

(** The whole loop.  [ids]: the input gates not visited yet; they come before all other gates
    that draw. *)
Lemma t_setup_fold ec ty : t_typed ec ty -> forall gs V ds go l ids rest,
  TInv ec ty V go l ->
  (forall l1 g l2, gs = l1 ++ g :: l2 ->
     (exists gate, ec_gate ec g = Some gate) /\ ~ In g (V ++ l1) /\ incl (ec_parents ec g) (V ++ l1)) ->
  filter (tdrawing ec) gs = map (pair 0) ids ++ rest ->
  exists ds' go' l', ofold (t_setup_gate junk ec) (ds, go) gs = Some (ds', go') /\
    TInv ec ty (V ++ gs) go' l' /\ (forall g, In g V -> l' g = l g) /\
    map (fun i => l' (0, i)) ids = t_input_draws ty (td_map ds) ids (td_priv ds) (td_remote ds).
Proof.
  intros Ht. induction gs as [|g gs IH]; intros V ds go l ids rest HI HO HF.
  - exists ds, go, l. cbn [ofold]. rewrite app_nil_r. split; auto. split; auto. split; auto.
    destruct ids; [reflexivity|discriminate].
  - destruct (HO [] g gs eq_refl) as ((gate & Hg) & Hn & Hp). rewrite app_nil_r in Hn, Hp.
    destruct (t_setup_step ec ty V ds go l g gate Ht HI Hg Hn Hp) as (ds1 & go1 & b & E1 & HI1 & Em & El & Ed).
    assert (HO1 : forall l1 h l2, gs = l1 ++ h :: l2 ->
       (exists gt, ec_gate ec h = Some gt) /\ ~ In h ((V ++ [g]) ++ l1) /\ incl (ec_parents ec h) ((V ++ [g]) ++ l1)).
    { intros l1 h l2 ->. destruct (HO (g :: l1) h l2 eq_refl) as (A & B & C).
      rewrite <- app_assoc. auto. }
    cbn [ofold]. rewrite E1. cbn [obind]. cbn [filter] in HF.
    destruct (tdrawing ec g).
    + destruct ids as [|i ids].
      * destruct (IH _ ds1 go1 _ [] _ HI1 HO1 eq_refl) as (ds' & go' & l' & F1 & F2 & F3 & F4).
        exists ds', go', l'. rewrite <- app_assoc in F2. split; auto. split; auto. split; [|reflexivity].
        intros h Hh. rewrite F3 by (apply in_or_app; auto). apply tupd_fun_other. intros ->. auto.
      * cbn [map app] in HF. injection HF as -> HF.
        destruct (IH _ ds1 go1 _ ids rest HI1 HO1 HF) as (ds' & go' & l' & F1 & F2 & F3 & F4).
        exists ds', go', l'. rewrite <- app_assoc in F2. split; auto. split; auto. split.
        -- intros h Hh. rewrite F3 by (apply in_or_app; auto). apply tupd_fun_other. intros ->. auto.
        -- cbn [map t_input_draws]. rewrite F4, Em, F3 by (apply in_or_app; cbn; auto). rewrite tupd_fun_same.
           cbn [snd] in Ed. destruct (td_map ds i) as [[|]|]; destruct Ed as (-> & -> & ->); reflexivity.
    + destruct (IH _ ds1 go1 _ ids rest HI1 HO1 HF) as (ds' & go' & l' & F1 & F2 & F3 & F4).
      exists ds', go', l'. rewrite <- app_assoc in F2. split; auto. split; auto. split.
      * intros h Hh. rewrite F3 by (apply in_or_app; auto). apply tupd_fun_other. intros ->. auto.
      * rewrite F4, Em. destruct Ed as (-> & ->). reflexivity.
Qed.
End Setup.
