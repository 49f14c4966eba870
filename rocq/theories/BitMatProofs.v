(** Lemmas about the bit matrix model. *)
From Coq Require Import ZArith List Bool Arith NArith Lia.
From Coq Require Import ZifyBool ZifyNat ZifyN.
Require Import Verif.Prelude Verif.PreludeProofs Verif.ZapUtilModel Verif.ZapUtilProofs Verif.BitMatModel Verif.BitMatSpec.
Import ListNotations.
Open Scope nat_scope.

(** ** Vectors *)

Lemma num_testbit l : forall b, N.testbit (num_of_bits l) (N.of_nat b) = nth b l false.
Proof.
  induction l as [|x l IH]; intros b; cbn [num_of_bits]; [rewrite N.bits_0; destruct b; auto|].
  destruct b as [|b]; cbn [nth].
  - change (N.of_nat 0) with 0%N. rewrite N.add_comm. replace (2 * num_of_bits l + N.b2n x)%N with (2 * num_of_bits l + N.b2n x)%N by auto.
    rewrite N.testbit_0_r. auto.
  - rewrite Nat2N.inj_succ, N.add_comm, N.testbit_succ_r. apply IH.
Qed.

Lemma num_lt l n : length l <= n -> (num_of_bits l < 2 ^ N.of_nat n)%N.
Proof.
  revert n; induction l as [|x l IH]; intros n L; cbn [num_of_bits].
  - apply N.neq_0_lt_0. apply N.pow_nonzero. lia.
  - destruct n as [|n]; [cbn [length] in L; lia|]. cbn [length] in L. specialize (IH n ltac:(lia)).
    rewrite Nat2N.inj_succ, N.pow_succ_r'. destruct x; cbn [N.b2n]; lia.
Qed.

Definition vec_ok (v : list N) : Prop := length v = 16 /\ Forall (fun b => (b < 256)%N) v.

Lemma lane_bit l j b : length l = 8 -> Forall (fun x => (x < 256)%N) l -> j < 8 -> 1 <= b -> b < 8 ->
  N.testbit (nth j (lane_shl l) 0%N) (N.of_nat b) = N.testbit (nth j l 0%N) (N.of_nat (b - 1)).
Proof.
  intros L F Hj H1 Hb. unfold lane_shl.
  rewrite (nth_indep _ _ ((fun i => (N.shiftr (2 * blk_of_bytes l mod 2 ^ 64) (N.of_nat (8 * i)) mod 256)%N) 0)) by (rewrite map_length, seq_length; auto).
  rewrite (map_nth (fun i => (N.shiftr (2 * blk_of_bytes l mod 2 ^ 64) (N.of_nat (8 * i)) mod 256)%N)). rewrite seq_nth by auto. cbn [Nat.add].
  change 256%N with (2 ^ 8)%N. rewrite N.mod_pow2_bits_low by lia. rewrite N.shiftr_spec by lia.
  rewrite N.mod_pow2_bits_low by lia.
  replace (N.of_nat b + N.of_nat (8 * j))%N with (N.succ (N.of_nat (8 * j + (b - 1)))) by lia.
  rewrite N.double_bits_succ.
  rewrite blk_of_bytes_bit by auto. unfold bbit.
  replace ((8 * j + (b - 1)) / 8) with j by (apply (Nat.div_unique _ 8 j (b - 1)); lia).
  replace ((8 * j + (b - 1)) mod 8) with (b - 1) by (apply (Nat.mod_unique _ 8 j (b - 1)); lia). auto.
Qed.

Lemma lane_ok l : length (lane_shl l) = 8 /\ Forall (fun x => (x < 256)%N) (lane_shl l).
Proof.
  unfold lane_shl. split; [rewrite map_length, seq_length; auto|]. apply Forall_map. apply Forall_forall. intros i _. apply N.mod_lt. discriminate.
Qed.

Lemma slli_ok v : vec_ok v -> vec_ok (slli1 v).
Proof.
  intros [L F]. unfold slli1, vec_ok. destruct (lane_ok (firstn 8 v)) as [A B]. destruct (lane_ok (skipn 8 v)) as [C D].
  rewrite app_length. split; [lia|]. apply Forall_app; auto.
Qed.

Lemma slli_bit v j b : vec_ok v -> j < 16 -> 1 <= b -> b < 8 ->
  N.testbit (nth j (slli1 v) 0%N) (N.of_nat b) = N.testbit (nth j v 0%N) (N.of_nat (b - 1)).
Proof.
  intros [L F] Hj H1 Hb. unfold slli1. destruct (lane_ok (firstn 8 v)) as [A B]. destruct (lane_ok (skipn 8 v)) as [C D].
  destruct (Nat.ltb_spec j 8).
  - rewrite app_nth1 by lia. rewrite lane_bit; auto; [rewrite nth_firstn by auto; auto|rewrite firstn_length; lia|].
    apply bytes_ok_firstn. auto.
  - rewrite app_nth2 by lia. rewrite A, lane_bit; auto; [rewrite nth_skipn; f_equal; f_equal; lia|rewrite skipn_length; lia| |lia].
    apply bytes_ok_skipn. auto.
Qed.

Fixpoint shl_n (k : nat) (v : list N) : list N := match k with 0 => v | S k => slli1 (shl_n k v) end.

Lemma shl_n_ok k v : vec_ok v -> vec_ok (shl_n k v).
Proof. intros H. induction k; cbn [shl_n]; auto using slli_ok. Qed.

Lemma shl_n_bit k v j b : vec_ok v -> j < 16 -> k <= b -> b < 8 ->
  N.testbit (nth j (shl_n k v) 0%N) (N.of_nat b) = N.testbit (nth j v 0%N) (N.of_nat (b - k)).
Proof.
  intros Hv Hj. revert b. induction k as [|k IH]; intros b H1 H2; cbn [shl_n].
  - rewrite Nat.sub_0_r. auto.
  - rewrite slli_bit by (auto using shl_n_ok; lia). rewrite IH by lia. do 2 f_equal. lia.
Qed.

(** The two bytes of the mask after [k] shifts: bit [7 - k] of the bytes of the vector. *)
Definition col_byte (v : list N) (i : nat) : N := num_of_bits (map (fun j => N.testbit (nth j v 0%N) (N.of_nat i)) (seq 0 8)).
Definition col_byte_hi (v : list N) (i : nat) : N := num_of_bits (map (fun j => N.testbit (nth (8 + j) v 0%N) (N.of_nat i)) (seq 0 8)).

Lemma nth_mapseq {A} (h : nat -> A) n i d : i < n -> nth i (map h (seq 0 n)) d = h i.
Proof.
  intros H. rewrite (nth_indep _ _ (h 0)) by (rewrite map_length, seq_length; auto). rewrite map_nth, seq_nth by auto. auto.
Qed.

Lemma byte_eq a b : (a < 256)%N -> (b < 256)%N -> (forall i, i < 8 -> N.testbit a (N.of_nat i) = N.testbit b (N.of_nat i)) -> a = b.
Proof.
  intros Ha Hb H. apply N.bits_inj. intros n. destruct (N.ltb_spec n 8).
  - specialize (H (N.to_nat n) ltac:(lia)). rewrite N2Nat.id in H. auto.
  - rewrite <- (N.mod_small a (2 ^ 8)) by auto. rewrite <- (N.mod_small b (2 ^ 8)) by auto. rewrite !N.mod_pow2_bits_high by auto. auto.
Qed.

Lemma col_byte_lt v i : (col_byte v i < 256)%N.
Proof. apply (num_lt _ 8). rewrite map_length, seq_length. auto. Qed.
Lemma col_byte_hi_lt v i : (col_byte_hi v i < 256)%N.
Proof. apply (num_lt _ 8). rewrite map_length, seq_length. auto. Qed.

Lemma mask_bytes v k : vec_ok v -> k < 8 ->
  le_bytes (movemask (shl_n k v)) = (col_byte v (7 - k), col_byte_hi v (7 - k)).
Proof.
  intros Hv Hk. pose proof (shl_n_ok k v Hv) as [L F]. unfold le_bytes, movemask.
  assert (G : forall j, j < 16 -> nth j (map (fun b => N.testbit b 7) (shl_n k v)) false = N.testbit (nth j v 0%N) (N.of_nat (7 - k))).
  { intros j Hj. change 7%N with (N.of_nat 7). rewrite (nth_indep _ _ (N.testbit 0%N (N.of_nat 7))) by (rewrite map_length; lia).
    rewrite (map_nth (fun b => N.testbit b (N.of_nat 7))). rewrite shl_n_bit by (auto; lia). auto. }
  f_equal; apply byte_eq; auto using col_byte_lt, col_byte_hi_lt; try (apply N.mod_lt; discriminate); intros i Hi;
    change 256%N with (2 ^ 8)%N; rewrite N.mod_pow2_bits_low by lia.
  - unfold col_byte. rewrite !num_testbit. rewrite G by lia. rewrite nth_mapseq by auto. auto.
  - rewrite N.shiftr_spec by lia. replace (N.of_nat i + 8)%N with (N.of_nat (8 + i)) by lia.
    unfold col_byte_hi. rewrite !num_testbit. rewrite G by lia. rewrite nth_mapseq by auto. auto.
Qed.

(** ** Writes *)

Lemma ofold_cover {St A} (f : St -> A -> option St) (ok : (nat -> Prop) -> St -> Prop) (S : A -> nat -> Prop) :
  (forall (D D' : nat -> Prop) s, (forall i, D' i -> D i) -> ok D s -> ok D' s) ->
  forall l, (forall D s x, In x l -> ok D s -> exists s', f s x = Some s' /\ ok (fun i => D i \/ S x i) s') ->
  forall D s, ok D s -> exists s', ofold f s l = Some s' /\ ok (fun i => D i \/ exists x, In x l /\ S x i) s'.
Proof.
  intros Mono l. induction l as [|x l IH]; intros Step D s H; cbn [ofold].
  - exists s. split; auto. eapply Mono; [|apply H]. intros i [Hi|(x & [] & _)]; auto.
  - destruct (Step D s x ltac:(left; auto) H) as (s1 & E1 & H1). rewrite E1. cbn [obind].
    destruct (IH ltac:(intros; apply Step; auto; right; auto) _ _ H1) as (s2 & E2 & H2). exists s2. split; auto.
    eapply Mono; [|apply H2]. intros i [Hi|(y & [->|Hy] & Hs)]; auto. right. exists y. auto.
Qed.

Section Fast.
Variables (R C : nat) (input : list N).
Hypothesis HR : 2 <= R.
Hypothesis HC : 2 <= C.
Hypothesis Hlen : length input = 8 * C * R.
Hypothesis Hin : Forall (fun b => (b < 256)%N) input.

Let nrows := 8 * R.
Let ncols := 8 * C.

(** The byte expected at index [c * R + q]: column [c] of the rows [8*q .. 8*q+7]. *)
Definition want (idx : nat) : N :=
  num_of_bits (map (fun j => N.testbit (nth ((8 * (idx mod R) + j) * C + idx / R / 8) input 0%N) (N.of_nat (idx / R mod 8))) (seq 0 8)).

Definition okp (D : nat -> Prop) (o : list N) : Prop :=
  length o = 8 * C * R /\ forall i, D i -> nth i o 0%N = want i.

Lemma okp_mono (D D' : nat -> Prop) o : (forall i, D' i -> D i) -> okp D o -> okp D' o.
Proof. intros H [L K]. split; auto. Qed.

Lemma set_ok D o i x : okp D o -> i < 8 * C * R -> x = want i -> exists o', set_u o i x = Some o' /\ okp (fun k => D k \/ k = i) o'.
Proof.
  intros [L K] Hi E. unfold set_u. rewrite L. destruct (Nat.ltb_spec i (8 * C * R)); [|lia]. cbn [oassert obind].
  eexists. split; [reflexivity|]. split; [rewrite upd_length; auto|]. intros k Hk. rewrite nth_upd by lia.
  destruct (Nat.eqb_spec k i) as [->|Hne]; auto. destruct Hk as [Hk|Hk]; [auto|lia].
Qed.

Lemma want_at c q : q < R -> want (c * R + q)
  = num_of_bits (map (fun j => N.testbit (nth ((8 * q + j) * C + c / 8) input 0%N) (N.of_nat (c mod 8))) (seq 0 8)).
Proof.
  intros Hq. unfold want. replace ((c * R + q) / R) with c by (apply (Nat.div_unique _ R c q); lia).
  replace ((c * R + q) mod R) with q by (apply (Nat.mod_unique _ R c q); lia). auto.
Qed.

Lemma inp_eq x y : inp ncols x y = x * C + y / 8.
Proof. unfold inp, ncols. replace (x * (8 * C)) with (x * C * 8) by lia. rewrite Nat.div_mul by lia. auto. Qed.
Lemma out_eq x y : out nrows x y = y * R + x / 8.
Proof. unfold out, nrows. replace (y * (8 * R)) with (y * R * 8) by lia. rewrite Nat.div_mul by lia. auto. Qed.

Lemma read_ok x y : x < 8 * R -> y < 8 * C -> get_u input (inp ncols x y) = Some (nth (x * C + y / 8) input 0%N).
Proof.
  intros Hx Hy. rewrite inp_eq. unfold get_u. apply nth_error_nth'. rewrite Hlen.
  assert (y / 8 < C) by (apply Nat.div_lt_upper_bound; lia). nia.
Qed.

Lemma omap_read f g n : (forall k, k < n -> f k = Some (g k)) -> omap f (seq 0 n) = Some (map g (seq 0 n) : list N).
Proof. intros H. apply omap_some. intros x Hx. apply in_seq in Hx. apply H. lia. Qed.

Lemma input_lt i : (nth i input 0%N < 256)%N.
Proof.
  destruct (Nat.ltb_spec i (length input)).
  - rewrite Forall_forall in Hin. apply Hin. apply nth_In. auto.
  - rewrite nth_overflow by auto. reflexivity.
Qed.

(** Writes of a vector: the two masks go to the positions [a i] and [b i]. *)
Lemma write_vec (wr : list N * list N -> nat -> option (list N * list N)) (a b : nat -> nat) v :
  (forall v o i, wr (v, o) i = (o <- set_u o (a i) (fst (le_bytes (movemask v))) ;; o <- set_u o (b i) (snd (le_bytes (movemask v))) ;; Some (slli1 v, o))) ->
  vec_ok v ->
  (forall i, i < 8 -> a i < 8 * C * R /\ b i < 8 * C * R /\ want (a i) = col_byte v i /\ want (b i) = col_byte_hi v i) ->
  forall n D o, n <= 8 -> okp D o -> exists o', ofold wr (shl_n (8 - n) v, o) (rev (seq 0 n)) = Some (shl_n 8 v, o') /\
    okp (fun k => D k \/ exists i, i < n /\ (k = a i \/ k = b i)) o'.
Proof.
  intros Hwr Hv Hab n. induction n as [|n IH]; intros D o Hn H.
  - exists o. split; [reflexivity|]. eapply okp_mono; [|apply H]. intros k [Hk|(i & Hi & _)]; [auto|lia].
  - rewrite seq_S, rev_app_distr. cbn [rev app Nat.add ofold]. rewrite Hwr. rewrite mask_bytes by (auto; lia). cbn [fst snd].
    replace (7 - (8 - S n)) with n by lia. destruct (Hab n ltac:(lia)) as (A & B & EA & EB).
    destruct (set_ok D o (a n) _ H A (eq_sym EA)) as (o1 & E1 & H1). rewrite E1. cbn [obind].
    destruct (set_ok _ o1 (b n) _ H1 B (eq_sym EB)) as (o2 & E2 & H2). rewrite E2. cbn [obind].
    change (slli1 (shl_n (8 - S n) v)) with (shl_n (S (8 - S n)) v). replace (S (8 - S n)) with (8 - n) by lia.
    destruct (IH _ o2 ltac:(lia) H2) as (o3 & E3 & H3). exists o3. split; auto.
    eapply okp_mono; [|apply H3]. intros k [Hk|(i & Hi & Hk)]; [auto|].
    destruct (Nat.eq_dec i n) as [->|]; [left; tauto|]. right. exists i. split; [lia|auto].
Qed.

Lemma write_vec1 (a : nat -> nat) v rr cc : vec_ok v ->
  (forall i, i < 8 -> out nrows rr (cc + i) = a i /\ a i < 8 * C * R /\ want (a i) = col_byte v i) ->
  forall n D o, n <= 8 -> okp D o -> exists o', ofold (write8 nrows rr cc) (shl_n (8 - n) v, o) (rev (seq 0 n)) = Some (shl_n 8 v, o') /\
    okp (fun k => D k \/ exists i, i < n /\ k = a i) o'.
Proof.
  intros Hv Hab n. induction n as [|n IH]; intros D o Hn H.
  - exists o. split; [reflexivity|]. eapply okp_mono; [|apply H]. intros k [Hk|(i & Hi & _)]; [auto|lia].
  - rewrite seq_S, rev_app_distr. cbn [rev app Nat.add ofold]. unfold write8 at 1. rewrite mask_bytes by (auto; lia). cbn [fst snd].
    replace (7 - (8 - S n)) with n by lia. destruct (Hab n ltac:(lia)) as (Ea & A & EA). rewrite Ea.
    destruct (set_ok D o (a n) _ H A (eq_sym EA)) as (o1 & E1 & H1). rewrite E1. cbn [obind].
    change (slli1 (shl_n (8 - S n) v)) with (shl_n (S (8 - S n)) v). replace (S (8 - S n)) with (8 - n) by lia.
    destruct (IH _ o1 ltac:(lia) H1) as (o3 & E3 & H3). exists o3. split; auto.
    eapply okp_mono; [|apply H3]. intros k [Hk|(i & Hi & Hk)]; [auto|].
    destruct (Nat.eq_dec i n) as [->|]; [left; tauto|]. right. exists i. split; [lia|auto].
Qed.

Lemma idx_bound c q : c < 8 * C -> q < R -> c * R + q < 8 * C * R.
Proof. intros Hc Hq. assert (c * R + R <= 8 * C * R) by (replace (c * R + R) with ((c + 1) * R) by lia; apply Nat.mul_le_mono_r; lia). lia. Qed.

Lemma div8 p i : i < 8 -> (8 * p + i) / 8 = p /\ (8 * p + i) mod 8 = i.
Proof. intros H. split; [symmetry; apply (Nat.div_unique _ 8 p i)|symmetry; apply (Nat.mod_unique _ 8 p i)]; lia. Qed.

(** One block of sixteen rows ([2 * q] and [2 * q + 1] in eights) and eight columns. *)
Lemma block16_ok q p D o : 2 * q + 1 < R -> p < C -> okp D o -> exists o', block16 nrows ncols input (16 * q) o (8 * p) = Some o' /\
  okp (fun k => D k \/ exists i, i < 8 /\ (k = (8 * p + i) * R + 2 * q \/ k = (8 * p + i) * R + (2 * q + 1))) o'.
Proof.
  intros Hq Hp H. unfold block16.
  rewrite (omap_read _ (fun k => nth ((16 * q + k) * C + p) input 0%N)).
  2:{ intros k Hk. rewrite read_ok by lia. replace (8 * p / 8) with p by (rewrite Nat.mul_comm, Nat.div_mul; lia). auto. }
  cbn [obind]. set (v := map _ _).
  assert (Hv : vec_ok v).
  { split; [unfold v; rewrite map_length, seq_length; auto|]. apply Forall_map, Forall_forall. intros k _. apply input_lt. }
  destruct (write_vec (write16 nrows (16 * q) (8 * p)) (fun i => (8 * p + i) * R + 2 * q) (fun i => (8 * p + i) * R + (2 * q + 1)) v) with (n := 8) (D := D) (o := o)
    as (o' & E & K); auto.
  - intros w o1 i. unfold write16. destruct (le_bytes (movemask w)) as [h0 h1]. cbn [fst snd]. rewrite !out_eq.
    replace (16 * q / 8) with (2 * q) by (replace (16 * q) with (2 * q * 8) by lia; rewrite Nat.div_mul; lia).
    replace ((8 * p + i) * R + 2 * q + 1) with ((8 * p + i) * R + (2 * q + 1)) by lia. auto.
  - intros i Hi. split; [apply idx_bound; lia|]. split; [apply idx_bound; lia|]. destruct (div8 p i Hi) as [E1 E2].
    rewrite !want_at by lia. rewrite E1, E2. unfold col_byte, col_byte_hi. split; apply (f_equal num_of_bits), map_ext_in; intros j Hj; apply in_seq in Hj;
      unfold v; rewrite nth_mapseq by lia; do 2 f_equal; lia.
  - cbn [Nat.sub shl_n] in E. rewrite E. cbn [obind]. exists o'. split; auto.
Qed.

Lemma rows16_ok q D o : 2 * q + 1 < R -> okp D o -> exists o', rows16 nrows ncols input o (16 * q) = Some o' /\
  okp (fun k => D k \/ exists c, c < 8 * C /\ (k = c * R + 2 * q \/ k = c * R + (2 * q + 1))) o'.
Proof.
  intros Hq H. unfold rows16.
  replace ((ncols + 7) / 8) with C by (unfold ncols; apply (Nat.div_unique _ 8 C 7); lia).
  destruct (ofold_cover (block16 nrows ncols input (16 * q)) okp
    (fun cc k => exists i, i < 8 /\ (k = (cc + i) * R + 2 * q \/ k = (cc + i) * R + (2 * q + 1))) okp_mono (map (fun k => 8 * k) (seq 0 C))) with (D := D) (s := o)
    as (o' & E & K); auto.
  - intros D1 o1 x Hx H1. apply in_map_iff in Hx. destruct Hx as (p & <- & Hp). apply in_seq in Hp. apply block16_ok; auto. lia.
  - exists o'. split; auto. eapply okp_mono; [|apply K]. intros k [Hk|(c & Hc & Hk)]; auto. right. exists (8 * (c / 8)). split.
    + apply in_map_iff. exists (c / 8). split; auto. apply in_seq. split; [lia|]. apply Nat.div_lt_upper_bound; lia.
    + exists (c mod 8). split; [apply Nat.mod_upper_bound; lia|]. rewrite <- (Nat.div_mod c 8) by lia. auto.
Qed.

Lemma main_ok n D o : 2 * n <= R -> okp D o -> exists o', ofold (rows16 nrows ncols input) o (map (fun k => 16 * k) (seq 0 n)) = Some o' /\
  okp (fun k => D k \/ exists c q, c < 8 * C /\ q < 2 * n /\ k = c * R + q) o'.
Proof.
  intros Hn H.
  destruct (ofold_cover (rows16 nrows ncols input) okp
    (fun rr k => exists c, c < 8 * C /\ (k = c * R + 2 * (rr / 16) \/ k = c * R + (2 * (rr / 16) + 1))) okp_mono (map (fun k => 16 * k) (seq 0 n))) with (D := D) (s := o)
    as (o' & E & K); auto.
  - intros D1 o1 x Hx H1. apply in_map_iff in Hx. destruct Hx as (q & <- & Hq). apply in_seq in Hq.
    replace (16 * q / 16) with q by (rewrite Nat.mul_comm, Nat.div_mul; lia). apply rows16_ok; auto. lia.
  - exists o'. split; auto. eapply okp_mono; [|apply K]. intros k [Hk|(c & q & Hc & Hq & Hk)]; auto. right. exists (16 * (q / 2)). split.
    + apply in_map_iff. exists (q / 2). split; auto. apply in_seq. split; [lia|]. apply Nat.div_lt_upper_bound; lia.
    + replace (16 * (q / 2) / 16) with (q / 2) by (rewrite (Nat.mul_comm 16), Nat.div_mul; lia). exists c. split; auto.
      pose proof (Nat.div_mod q 2 ltac:(lia)). pose proof (Nat.mod_upper_bound q 2 ltac:(lia)). lia.
Qed.

Definition okps (D : nat -> Prop) (s : list N * list N) : Prop := vec_ok (fst s) /\ okp D (snd s).

(** The remaining eight rows. *)
Lemma pair8_ok q p D s : 2 * p + 1 < C -> q < R -> okps D s -> exists s', pair8 nrows ncols input (8 * q) s (16 * p) = Some s' /\
  okps (fun k => D k \/ exists i, i < 16 /\ k = (16 * p + i) * R + q) s'.
Proof.
  intros Hp Hq [Hv0 H]. destruct s as [t o]. cbn [fst snd] in *. unfold pair8.
  rewrite (omap_read _ (fun k => nth ((8 * q + k) * C + 2 * p) input 0%N)).
  2:{ intros k Hk. rewrite read_ok by lia. replace (16 * p / 8) with (2 * p) by (replace (16 * p) with (2 * p * 8) by lia; rewrite Nat.div_mul; lia). auto. }
  cbn [obind]. rewrite (omap_read _ (fun k => nth ((8 * q + k) * C + (2 * p + 1)) input 0%N)).
  2:{ intros k Hk. rewrite inp_eq. replace (16 * p / 8) with (2 * p) by (replace (16 * p) with (2 * p * 8) by lia; rewrite Nat.div_mul; lia).
      unfold get_u. replace ((8 * q + k) * C + 2 * p + 1) with ((8 * q + k) * C + (2 * p + 1)) by lia. apply nth_error_nth'. rewrite Hlen. nia. }
  cbn [obind]. set (lo := map _ (seq 0 8)). set (hi := map _ (seq 0 8)).
  assert (Ll : length lo = 8) by (unfold lo; rewrite map_length, seq_length; auto).
  assert (Hv : vec_ok (lo ++ hi)).
  { split; [unfold lo, hi; rewrite app_length, !map_length, !seq_length; auto|]. apply Forall_app. split; apply Forall_map, Forall_forall; intros k _; apply input_lt. }
  destruct (write_vec (write8x2 nrows (8 * q) (16 * p)) (fun i => (16 * p + i) * R + q) (fun i => (16 * p + i + 8) * R + q) (lo ++ hi)) with (n := 8) (D := D) (o := o)
    as (o' & E & K); auto.
  - intros w o1 i. unfold write8x2. destruct (le_bytes (movemask w)) as [h0 h1]. cbn [fst snd]. rewrite !out_eq.
    replace (8 * q / 8) with q by (rewrite Nat.mul_comm, Nat.div_mul; lia). auto.
  - intros i Hi. split; [apply idx_bound; lia|]. split; [apply idx_bound; lia|].
    destruct (div8 (2 * p) i Hi) as [E1 E2]. destruct (div8 (2 * p + 1) i Hi) as [E3 E4].
    replace (16 * p + i + 8) with (8 * (2 * p + 1) + i) by lia. replace (16 * p + i) with (8 * (2 * p) + i) by lia.
    rewrite !want_at by lia. rewrite E1, E2, E3, E4. unfold col_byte, col_byte_hi. split; apply (f_equal num_of_bits), map_ext_in; intros j Hj; apply in_seq in Hj.
    + rewrite app_nth1 by lia. unfold lo. rewrite nth_mapseq by lia. auto.
    + rewrite app_nth2 by lia. rewrite Ll. replace (8 + j - 8) with j by lia. unfold hi. rewrite nth_mapseq by lia. auto.
  - change (8 - 8) with 0 in E. cbn [shl_n] in E. exists (shl_n 8 (lo ++ hi), o'). split; [exact E|]. split; cbn [fst snd].
    + apply (shl_n_ok 8). auto.
    + eapply okp_mono; [|apply K]. intros k [Hk|(i & Hi & Hk)]; auto. right. destruct (Nat.ltb_spec i 8).
      * exists i. auto.
      * exists (i - 8). split; [lia|]. right. replace (16 * p + (i - 8) + 8) with (16 * p + i) by lia. auto.
Qed.

Lemma pairs_ok q m D s : 2 * m <= C -> q < R -> okps D s ->
  exists s', ofold (pair8 nrows ncols input (8 * q)) s (map (fun k => 16 * k) (seq 0 m)) = Some s' /\
  okps (fun k => D k \/ exists c, c < 16 * m /\ k = c * R + q) s'.
Proof.
  intros Hm Hq H.
  destruct (ofold_cover (pair8 nrows ncols input (8 * q)) okps (fun cc k => exists i, i < 16 /\ k = (cc + i) * R + q)
    ltac:(intros D1 D2 s1 HD [A B]; split; auto; eapply okp_mono; eauto) (map (fun k => 16 * k) (seq 0 m))) with (D := D) (s := s)
    as (s' & E & [K1 K2]); auto.
  - intros D1 s1 x Hx H1. apply in_map_iff in Hx. destruct Hx as (p & <- & Hp). apply in_seq in Hp. apply pair8_ok; auto. lia.
  - exists s'. split; auto. split; auto. eapply okp_mono; [|apply K2]. intros k [Hk|(c & Hc & Hk)]; auto. right. exists (16 * (c / 16)). split.
    + apply in_map_iff. exists (c / 16). split; auto. apply in_seq. split; [lia|]. apply Nat.div_lt_upper_bound; lia.
    + exists (c mod 16). split; [apply Nat.mod_upper_bound; lia|]. rewrite <- (Nat.div_mod c 16) by lia. auto.
Qed.

Lemma last8_ok q p tmp D o : p < C -> q < R -> vec_ok tmp -> okp D o -> exists o', last8 nrows ncols input (8 * q) (8 * p) tmp o = Some o' /\
  okp (fun k => D k \/ exists i, i < 8 /\ k = (8 * p + i) * R + q) o'.
Proof.
  intros Hp Hq Hv0 H. unfold last8.
  rewrite (omap_read _ (fun k => nth ((8 * q + k) * C + p) input 0%N)).
  2:{ intros k Hk. rewrite read_ok by lia. replace (8 * p / 8) with p by (rewrite Nat.mul_comm, Nat.div_mul; lia). auto. }
  cbn [obind]. set (lo := map _ (seq 0 8)).
  assert (Ll : length lo = 8) by (unfold lo; rewrite map_length, seq_length; auto).
  assert (Hv : vec_ok (lo ++ skipn 8 tmp)).
  { destruct Hv0 as [L0 F0]. split; [rewrite app_length, skipn_length; lia|]. apply Forall_app. split; [apply Forall_map, Forall_forall; intros k _; apply input_lt|].
    apply bytes_ok_skipn. auto. }
  destruct (write_vec1 (fun i => (8 * p + i) * R + q) (lo ++ skipn 8 tmp) (8 * q) (8 * p) Hv) with (n := 8) (D := D) (o := o)
    as (o' & E & K); auto.
  - intros i Hi. split; [|split; [apply idx_bound; lia|]].
    + rewrite out_eq. replace (8 * q / 8) with q by (rewrite Nat.mul_comm, Nat.div_mul; lia). auto.
    + destruct (div8 p i Hi) as [E1 E2]. rewrite want_at by lia. rewrite E1, E2. unfold col_byte. apply (f_equal num_of_bits), map_ext_in. intros j Hj. apply in_seq in Hj.
      rewrite app_nth1 by lia. unfold lo. rewrite nth_mapseq by lia. auto.
  - change (8 - 8) with 0 in E. cbn [shl_n] in E. rewrite E. cbn [obind]. exists o'. auto.
Qed.

Lemma fast_ok : exists o, fast_transpose nrows ncols input = Some o /\ okp (fun k => k < 8 * C * R) o.
Proof.
  unfold fast_transpose.
  replace (nrows mod 8 =? 0) with true by (symmetry; apply Nat.eqb_eq; unfold nrows; rewrite Nat.mul_comm; apply Nat.mod_mul; lia).
  replace (ncols mod 8 =? 0) with true by (symmetry; apply Nat.eqb_eq; unfold ncols; rewrite Nat.mul_comm; apply Nat.mod_mul; lia).
  replace (16 <=? ncols) with true by (symmetry; apply Nat.leb_le; unfold ncols; lia).
  replace (16 <=? nrows) with true by (symmetry; apply Nat.leb_le; unfold nrows; lia).
  replace (ncols * nrows =? length input * 8) with true by (symmetry; apply Nat.eqb_eq; unfold nrows, ncols; lia).
  cbn [oassert obind].
  assert (EN : (nrows - 16) / 16 + 1 = R / 2).
  { unfold nrows. pose proof (Nat.div_mod R 2 ltac:(lia)). pose proof (Nat.mod_upper_bound R 2 ltac:(lia)).
    assert (1 <= R / 2) by (apply Nat.div_le_lower_bound; lia).
    assert ((8 * R - 16) / 16 = R / 2 - 1); [|lia]. symmetry. apply (Nat.div_unique _ 16 _ (8 * (R mod 2))); lia. }
  assert (EM : (ncols - 16) / 16 + 1 = C / 2).
  { unfold ncols. pose proof (Nat.div_mod C 2 ltac:(lia)). pose proof (Nat.mod_upper_bound C 2 ltac:(lia)).
    assert (1 <= C / 2) by (apply Nat.div_le_lower_bound; lia).
    assert ((8 * C - 16) / 16 = C / 2 - 1); [|lia]. symmetry. apply (Nat.div_unique _ 16 _ (8 * (C mod 2))); lia. }
  rewrite EN, EM.
  pose proof (Nat.div_mod R 2 ltac:(lia)) as DR. pose proof (Nat.mod_upper_bound R 2 ltac:(lia)) as MR.
  pose proof (Nat.div_mod C 2 ltac:(lia)) as DC. pose proof (Nat.mod_upper_bound C 2 ltac:(lia)) as MC.
  destruct (main_ok (R / 2) (fun _ => False) (repeat 0%N (length input)) ltac:(lia)) as (o1 & E1 & H1).
  { split; [rewrite repeat_length; auto|tauto]. }
  rewrite E1. cbn [obind].
  assert (Split : forall k, k < 8 * C * R -> exists c q, c < 8 * C /\ q < R /\ k = c * R + q).
  { intros k Hk. exists (k / R), (k mod R). split; [apply Nat.div_lt_upper_bound; lia|]. split; [apply Nat.mod_upper_bound; lia|].
    rewrite Nat.mul_comm. apply Nat.div_mod. lia. }
  destruct (Nat.eqb_spec (16 * (R / 2)) nrows) as [Ev|Od].
  - exists o1. split; auto. eapply okp_mono; [|apply H1]. intros k Hk. right. destruct (Split k Hk) as (c & q & ? & ? & ?).
    exists c, q. split; auto. split; auto. unfold nrows in Ev. lia.
  - assert (ER : R = 2 * (R / 2) + 1) by (unfold nrows in Od; lia).
    replace (negb (nrows mod 16 =? 0)) with true.
    2:{ symmetry. apply negb_true_iff, Nat.eqb_neq. replace (nrows mod 16) with 8; [lia|]. apply (Nat.mod_unique _ 16 (R / 2) 8); [lia|]. unfold nrows. lia. }
    rewrite orb_true_r.
    replace (16 * (R / 2)) with (8 * (2 * (R / 2))) by lia.
    assert (V0 : vec_ok (repeat 0%N 16)) by (split; [reflexivity|repeat constructor]).
    destruct (pairs_ok (2 * (R / 2)) (C / 2) _ (repeat 0%N 16, o1) ltac:(lia) ltac:(lia) (conj V0 H1)) as ([t o2] & E2 & [Hv H2]).
    rewrite E2. cbn [obind fst snd] in *.
    destruct (Nat.eqb_spec (16 * (C / 2)) ncols) as [Ec|Oc].
    + exists o2. split; auto. eapply okp_mono; [|apply H2]. intros k Hk. destruct (Split k Hk) as (c & q & ? & ? & ?).
      destruct (Nat.eq_dec q (2 * (R / 2))) as [->|].
      * right. exists c. split; auto. unfold ncols in Ec. lia.
      * left. right. exists c, q. split; auto. split; auto. lia.
    + assert (EC : C = 2 * (C / 2) + 1) by (unfold ncols in Oc; lia).
      replace (16 * (C / 2)) with (8 * (2 * (C / 2))) by lia.
      destruct (last8_ok (2 * (R / 2)) (2 * (C / 2)) t _ o2 ltac:(lia) ltac:(lia) Hv H2) as (o3 & E3 & H3).
      exists o3. split; auto. eapply okp_mono; [|apply H3]. intros k Hk. destruct (Split k Hk) as (c & q & ? & ? & ?).
      destruct (Nat.eq_dec q (2 * (R / 2))) as [->|].
      * destruct (Nat.ltb_spec c (16 * (C / 2))).
        -- left. right. exists c. auto.
        -- right. exists (c - 8 * (2 * (C / 2))). split; [lia|]. replace (8 * (2 * (C / 2)) + (c - 8 * (2 * (C / 2)))) with c by lia. auto.
      * left. left. right. exists c, q. split; auto. split; auto. lia.
Qed.

Lemma want_bit idx j : j < 8 -> N.testbit (want idx) (N.of_nat j) = byte_bit input ((8 * (idx mod R) + j) * ncols + idx / R).
Proof.
  intros Hj. unfold want. rewrite num_testbit, nth_mapseq by auto. unfold byte_bit, ncols.
  set (r := 8 * (idx mod R) + j). set (c := idx / R). pose proof (Nat.div_mod c 8 ltac:(lia)). pose proof (Nat.mod_upper_bound c 8 ltac:(lia)).
  replace ((r * (8 * C) + c) / 8) with (r * C + c / 8) by (apply (Nat.div_unique _ 8 _ (c mod 8)); lia).
  replace ((r * (8 * C) + c) mod 8) with (c mod 8) by (apply (Nat.mod_unique _ 8 (r * C + c / 8)); lia). auto.
Qed.
End Fast.
