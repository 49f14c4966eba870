(** The outputs of all trees. *)
From Coq Require Import ZArith List Bool Arith NArith Lia Permutation Btauto.
From Coq Require Import ZifyBool ZifyNat ZifyN.
Require Import Verif.Prelude Verif.PreludeProofs Verif.ZapUtilModel Verif.PprfModel Verif.PprfSpec Verif.PprfProofs.
Import ListNotations.
Open Scope nat_scope.

Lemma omap_seq {A} (g : nat -> option A) (h : nat -> A) n : forall s, (forall j, s <= j < s + n -> g j = Some (h j)) ->
  omap g (seq s n) = Some (map h (seq s n)).
Proof.
  induction n as [|n IH]; intros s Hs; cbn [seq omap map]; auto.
  rewrite (Hs s) by lia. cbn [obind]. rewrite IH by (intros; apply Hs; lia). reflexivity.
Qed.

Lemma nth_map_seq {A} (h : nat -> A) n i d : i < n -> nth i (map h (seq 0 n)) d = h i.
Proof.
  intros Hi. rewrite (nth_indep _ d (h 0)) by (rewrite map_length, seq_length; auto).
  rewrite map_nth, seq_nth by auto. auto.
Qed.

Lemma blk_testbit l : forall b, N.testbit (blk_of_bits l) (N.of_nat b) = nth b l false.
Proof.
  induction l as [|x l IH]; intros b; cbn [blk_of_bits].
  - destruct b; apply N.bits_0.
  - rewrite N.add_comm. destruct b as [|b].
    + cbn [nth]. change (N.of_nat 0) with 0%N. apply N.testbit_0_r.
    + cbn [nth]. rewrite Nat2N.inj_succ, N.testbit_succ_r. apply IH.
Qed.

(** ** Decoding of positions *)

Definition pgrp (c : pprf_conf) (f : pprf_format) (p : nat) : nat :=
  match f with Interleaved => p / 8 / pc_domain c | InterleavedTransposed => p / 128 mod (pc_count c / 8) end.
Definition pleaf (c : pprf_conf) (f : pprf_format) (p : nat) : nat :=
  match f with
  | Interleaved => p / 8 mod pc_domain c
  | InterleavedTransposed => 16 * (p / 128 / (pc_count c / 8)) + p mod 128 / 8
  end.
Definition ptree c f p := 8 * pgrp c f p + p mod 8.

Lemma div_intro a b q r : r < b -> a = b * q + r -> a / b = q /\ a mod b = r.
Proof. intros Hr E. split; [symmetry; apply (Nat.div_unique a b q r)|symmetry; apply (Nat.mod_unique a b q r)]; auto. Qed.

Ltac dm a b := pose proof (Nat.div_mod a b ltac:(lia)); pose proof (Nat.mod_upper_bound a b ltac:(lia)).

Lemma pos_bound c f p : pc_count c mod 8 = 0 -> p < out_positions (pc_count c) (pc_domain c) f ->
  pgrp c f p < pc_count c / 8 /\ (f = Interleaved -> pleaf c f p < pc_domain c).
Proof.
  intros H8 Hp. dm (pc_count c) 8. rewrite H8, Nat.add_0_r in *. set (G := pc_count c / 8) in *.
  destruct f; cbn [pgrp pleaf out_positions] in *.
  - split; [|discriminate]. apply Nat.mod_upper_bound. intros E. fold G in E. rewrite E in *. cbn in H. rewrite H in Hp. cbn in Hp. lia.
  - assert (pc_domain c <> 0) by (intros E; rewrite E, Nat.mul_0_r in Hp; lia).
    split; [|intros _; apply Nat.mod_upper_bound; auto].
    apply Nat.div_lt_upper_bound; auto. apply Nat.div_lt_upper_bound; [lia|]. nia.
Qed.

Lemma decode_encode c f umax t a : pc_count c mod 8 = 0 -> t < pc_count c -> (f = Interleaved -> a < pc_domain c) ->
  let p := interleave_point umax a t (pc_count c) (pc_domain c) f in
  ptree c f p = t /\ pleaf c f p = a.
Proof.
  intros H8 Ht Ha. unfold ptree. dm (pc_count c) 8. dm t 8. set (G := pc_count c / 8) in *.
  assert (HG : t / 8 < G) by (apply Nat.div_lt_upper_bound; lia).
  destruct f; cbn [interleave_point pgrp pleaf]; cbv zeta; fold G.
  - dm a 16.
    set (p := t / 8 * 128 + (t mod 8 + 8 * (a mod 16)) + a / 16 * G * 128).
    destruct (div_intro p 128 (t / 8 + a / 16 * G) (t mod 8 + 8 * (a mod 16))) as [P1 P2]; [lia|unfold p; lia|].
    destruct (div_intro (t / 8 + a / 16 * G) G (a / 16) (t / 8)) as [P3 P4]; [lia|lia|].
    destruct (div_intro (t mod 8 + 8 * (a mod 16)) 8 (a mod 16) (t mod 8)) as [P5 P6]; [lia|lia|].
    destruct (div_intro p 8 (t / 8 * 16 + a mod 16 + a / 16 * G * 16) (t mod 8)) as [P7 P8]; [lia|unfold p; lia|].
    rewrite P1, P2, P3, P4, P5, P8. lia.
  - specialize (Ha eq_refl). replace (pc_domain c <=? a) with false by (symmetry; apply Nat.leb_gt; auto).
    set (p := (t / 8 * pc_domain c + a) * 8 + t mod 8).
    destruct (div_intro p 8 (t / 8 * pc_domain c + a) (t mod 8)) as [P1 P2]; [lia|unfold p; lia|].
    destruct (div_intro (t / 8 * pc_domain c + a) (pc_domain c) (t / 8) a) as [P3 P4]; [lia|lia|].
    rewrite P1, P2, P3, P4. lia.
Qed.

Lemma encode_decode c f umax p : pc_count c mod 8 = 0 -> p < out_positions (pc_count c) (pc_domain c) f ->
  interleave_point umax (pleaf c f p) (ptree c f p) (pc_count c) (pc_domain c) f = p.
Proof.
  intros H8 Hp. destruct (pos_bound c f p H8 Hp) as [Hg Hl]. unfold ptree.
  dm p 8. destruct (div_intro (8 * pgrp c f p + p mod 8) 8 (pgrp c f p) (p mod 8)) as [T1 T2]; [lia|lia|].
  destruct f; cbn [interleave_point]; cbv zeta; rewrite T1, T2.
  - cbn [pgrp pleaf] in *. set (G := pc_count c / 8) in *.
    dm p 128. dm (p / 128) G. dm (p mod 128) 8.
    assert (E8 : p mod 8 = (p mod 128) mod 8).
    { apply (Nat.mod_unique _ 8 (p / 8 - 16 * (p / 128))); [lia|].
      assert (p / 128 * 16 <= p / 8) by (apply Nat.div_le_lower_bound; lia). lia. }
    destruct (div_intro (16 * (p / 128 / G) + p mod 128 / 8) 16 (p / 128 / G) (p mod 128 / 8)) as [U1 U2].
    { apply Nat.div_lt_upper_bound; lia. } { lia. }
    rewrite U1, U2, E8. nia.
  - specialize (Hl eq_refl). replace (pc_domain c <=? pleaf c Interleaved p) with false by (symmetry; apply Nat.leb_gt; auto).
    cbn [pgrp pleaf] in *. dm (p / 8) (pc_domain c). lia.
Qed.

(** ** Writing one group *)

Lemma copy_cols_spec trees step fin n fuel : 0 < step -> fin <= n -> forall i k out,
  length out = 128 -> (forall r, r < 128 -> length (nth r out []) = n) ->
  let out' := copy_cols trees step fin fuel i k out in
  length out' = 128 /\ (forall r, r < 128 -> length (nth r out' []) = n) /\
  forall r x, r < 128 ->
    (forall j, j < fuel -> x = i + j * step -> x < fin -> nth x (nth r out' []) 0%N = transposed_block trees (k + j) r) /\
    ((x < i \/ (forall j, x <> i + j * step)) -> nth x (nth r out' []) 0%N = nth x (nth r out []) 0%N).
Proof.
  intros Hst Hfin. induction fuel as [|fuel IH]; intros i k out L Lr; cbv zeta; cbn [copy_cols].
  { split; auto. split; auto. intros r x Hr. split; [intros; lia|auto]. }
  destruct (Nat.ltb_spec i fin) as [Hi|Hi].
  2:{ split; auto. split; auto. intros r x Hr. split; [intros; nia|auto]. }
  set (out1 := map (fun rr => upd i (transposed_block trees k (fst rr)) (snd rr)) (combine (seq 0 (length out)) out)).
  assert (L1 : length out1 = 128) by (unfold out1; rewrite map_length, combine_length, seq_length; lia).
  assert (N1 : forall r, r < 128 -> nth r out1 [] = upd i (transposed_block trees k r) (nth r out [])).
  { intros r Hr. unfold out1. set (g := fun rr : nat * list N => upd i (transposed_block trees k (fst rr)) (snd rr)).
    rewrite (nth_indep _ [] (g (0, []))) by (rewrite map_length, combine_length, seq_length; lia).
    rewrite map_nth, combine_nth by (rewrite seq_length; auto). rewrite seq_nth by lia. reflexivity. }
  assert (Lr1 : forall r, r < 128 -> length (nth r out1 []) = n) by (intros; rewrite N1, upd_length; auto).
  destruct (IH (i + step) (k + 1) out1 L1 Lr1) as (A & B & C). cbv zeta in *.
  split; auto. split; auto. intros r x Hr. destruct (C r x Hr) as [C1 C2]. split.
  - intros [|j] Hj Hx Hf.
    + rewrite C2 by (left; lia). rewrite N1, upd_nth by auto. rewrite Lr by auto.
      replace (i =? x) with true by (symmetry; apply Nat.eqb_eq; lia).
      replace (i <? n) with true by (symmetry; apply Nat.ltb_lt; lia). cbn [andb]. f_equal. lia.
    + rewrite (C1 j) by lia. f_equal. lia.
  - intros Hx. rewrite C2.
    + rewrite N1, upd_nth by auto. replace (i =? x) with false; auto.
      symmetry. apply Nat.eqb_neq. intros ->. destruct Hx as [Hx|Hx]; [lia|]. apply (Hx 0). lia.
    + destruct Hx as [Hx|Hx]; [left; lia|]. right. intros j E. apply (Hx (S j)). lia.
Qed.

Definition leaf_len (c : pprf_conf) (f : pprf_format) : nat := level_width c f (pc_depth c - 1).

Lemma write_group_ok c f q trees out : sizes_ok c f -> shape c f out -> q < pc_count c / 8 ->
  length trees = 8 -> (forall j, j < 8 -> length (nth j trees []) = leaf_len c f) ->
  exists out', write_group c (8 * q) trees out = Some out' /\ shape c f out' /\
    forall p r, p < out_positions (pc_count c) (pc_domain c) f -> r < 128 ->
      out_bit out' p r = if pgrp c f p =? q then N.testbit (nth (pleaf c f p) (nth (p mod 8) trees []) 0%N) (N.of_nat r)
                         else out_bit out p r.
Proof.
  intros (H8 & Hdom & Hf) Hsh Hq Lt Ll. dm (pc_count c) 8. rewrite H8, Nat.add_0_r in H. clear H0.
  set (G := pc_count c / 8) in *.
  destruct f, out as [l|n rows]; cbn [shape] in Hsh; try contradiction.
  - destruct Hsh as (En & Lr & Lrr). cbn [write_group]. unfold copy_out.
    rewrite H8. cbn [Nat.eqb oassert obind]. rewrite (Ll 0) by lia. unfold leaf_len, level_width.
    replace (pc_depth c - 1 + 1) with (pc_depth c) by lia.
    assert (Hpow : exists e, 2 ^ pc_depth c = 16 * e /\ 1 <= e).
    { exists (2 ^ (pc_depth c - 4)). split; [|apply Nat.neq_0_lt_0, Nat.pow_nonzero; lia].
      change 16 with (2 ^ 4). rewrite <- Nat.pow_add_r. f_equal. lia. }
    destruct Hpow as (e & Ee & He). rewrite Ee in *.
    replace (16 * e mod 16) with 0 by (rewrite Nat.mul_comm; symmetry; apply Nat.mod_mul; lia).
    cbn [Nat.eqb oassert obind]. replace (16 <=? 16 * e) with true by (symmetry; apply Nat.leb_le; lia).
    cbn [oassert obind]. fold G.
    replace (8 * q / 8) with q by (rewrite Nat.mul_comm; symmetry; apply Nat.div_mul; lia).
    replace (16 * e * 8 / 128) with e.
    2:{ replace (16 * e * 8) with (e * 128) by lia. symmetry. apply Nat.div_mul. lia. }
    destruct (copy_cols_spec trees G (Nat.min (q + G * e) n) n e ltac:(lia) ltac:(lia) q 0 rows Lr Lrr) as (A & B & C).
    eexists. split; [reflexivity|]. split; [split; auto|].
    intros p r Hp Hr. cbn [out_bit pgrp pleaf out_positions] in *. fold G.
    assert (Hcol : p / 128 < n).
    { apply Nat.div_lt_upper_bound; [lia|]. rewrite En. lia. }
    dm (p / 128) G. dm p 128. dm (p mod 128) 8.
    assert (HnE : n <= G * e).
    { rewrite En. assert (pc_count c * pc_domain c <= G * e * 128) by nia.
      transitivity ((G * e * 128 + 127) / 128); [apply Nat.div_le_mono; lia|].
      assert ((G * e * 128 + 127) / 128 < G * e + 1) by (apply Nat.div_lt_upper_bound; lia). lia. }
    set (col := p / 128) in *.
    destruct (C r col Hr) as [C1 C2].
    destruct (Nat.eqb_spec (col mod G) q) as [Eq|Eq].
    + assert (Hk : col / G < e) by (apply Nat.div_lt_upper_bound; lia).
      rewrite (C1 (col / G)) by lia. unfold transposed_block. rewrite blk_testbit, nth_map_seq by lia.
      rewrite Nat.add_0_l. f_equal.
      replace (p mod 8) with ((p mod 128) mod 8); auto.
      apply (Nat.mod_unique _ 8 (16 * col + p mod 128 / 8)); lia.
    + rewrite C2; auto. right. intros j Hj. apply Eq. symmetry. apply (Nat.mod_unique _ G j); lia.
  - cbn [write_group]. unfold write_interleaved. set (dom := pc_domain c) in *.
    replace (8 * q mod 8) with 0 by (rewrite Nat.mul_comm; symmetry; apply Nat.mod_mul; lia).
    cbn [Nat.eqb oassert obind].
    replace (8 * q / 8) with q by (rewrite Nat.mul_comm; symmetry; apply Nat.div_mul; lia).
    assert (Hb : q * dom * 8 + dom * 8 <= length l) by nia.
    replace (q * dom * 8 + dom * 8 <=? length l) with true by (symmetry; apply Nat.leb_le; auto).
    cbn [oassert obind]. eexists. split; [reflexivity|].
    split.
    { cbn [shape]. rewrite !app_length, map_length, seq_length, firstn_length, skipn_length. fold dom. lia. }
    intros p r Hp Hr. cbn [out_bit pgrp pleaf out_positions] in *. fold dom. fold dom in Hp.
    assert (Hd : dom <> 0) by (intros E; rewrite E, Nat.mul_0_r in Hp; lia).
    dm p 8. dm (p / 8) dom. f_equal.
    assert (Lf : length (firstn (q * dom * 8) l) = q * dom * 8) by (rewrite firstn_length; lia).
    destruct (Nat.lt_ge_cases p (q * dom * 8)) as [Hlo|Hlo].
    + rewrite app_nth1 by lia. rewrite nth_firstn by auto.
      replace (p / 8 / dom =? q) with false; auto. symmetry. apply Nat.eqb_neq. intros E. rewrite E in *. nia.
    + rewrite app_nth2 by lia. rewrite Lf.
      destruct (Nat.lt_ge_cases (p - q * dom * 8) (dom * 8)) as [Hm|Hm].
      * rewrite app_nth1 by (rewrite map_length, seq_length; auto). rewrite nth_map_seq by auto.
        destruct (div_intro (p - q * dom * 8) 8 (p / 8 - q * dom) (p mod 8)) as [U1 U2]; [lia| |].
        { assert (q * dom <= p / 8) by (apply Nat.div_le_lower_bound; lia). nia. }
        rewrite U1, U2.
        assert (Hq1 : q * dom <= p / 8) by (apply Nat.div_le_lower_bound; lia).
        assert (Hq2 : p / 8 < q * dom + dom) by (apply Nat.div_lt_upper_bound; lia).
        destruct (div_intro (p / 8) dom q (p / 8 - q * dom)) as [V1 V2]; [lia|lia|].
        rewrite V1, V2, Nat.eqb_refl. auto.
      * rewrite app_nth2 by (rewrite map_length, seq_length; auto). rewrite map_length, seq_length.
        rewrite nth_skipn. replace (p / 8 / dom =? q) with false.
        2:{ symmetry. apply Nat.eqb_neq. intros E. rewrite E in *. nia. }
        do 1 f_equal. clear - Hm Hlo. replace (q * dom * 8 + dom * 8 + (p - q * dom * 8 - dom * 8)) with p by lia. auto.
Qed.

Lemma out_zeros_shape c f : shape c f (out_zeros c f).
Proof.
  destruct f; cbn [out_zeros shape].
  - split; auto. split; [apply repeat_length|]. intros r Hr.
    rewrite (nth_indep _ [] (repeat 0%N ((pc_count c * pc_domain c + 127) / 128))) by (rewrite repeat_length; auto).
    rewrite nth_repeat. apply repeat_length.
  - apply repeat_length.
Qed.

(** ** All groups *)

Section Groups.
Variables (enc : bool -> N -> N) (H : N -> N) (c : pprf_conf) (f : pprf_format) (value : N).
Variables (roots : list N) (sots : list (list (N * N))) (choices : list (list bool)) (rots : list (list N)).
Variables (Mt : nat -> tree_msg) (SL RL : nat -> list N).
Hypothesis Hsz : sizes_ok c f.
Hypothesis Hlr : length roots = pc_count c.
Hypothesis Hls : length sots = pc_count c.
Hypothesis Hlc : length choices = pc_count c.
Hypothesis Hlro : length rots = pc_count c.
Hypothesis Hsend : forall t, t < pc_count c -> send_tree enc H c f value (nth t roots 0%N) (nth t sots []) = Some (Mt t, SL t).
Hypothesis Hrecv : forall t, t < pc_count c -> recv_tree enc H c f (nth t choices []) (nth t rots []) (Mt t) = Some (RL t).
Hypothesis HlS : forall t, t < pc_count c -> length (SL t) = leaf_len c f.
Hypothesis HlR : forall t, t < pc_count c -> length (RL t) = leaf_len c f.

Let G := pc_count c / 8.
Definition gmsg (q : nat) : grp_msg := GrpMsg (8 * q) (map (fun j => Mt (8 * q + j)) (seq 0 8)).

Lemma count_eq : pc_count c = 8 * G.
Proof. destruct Hsz as (H8 & _). unfold G. dm (pc_count c) 8. lia. Qed.

Lemma send_group_ok q : q < G ->
  send_group enc H c f value roots sots (8 * q) = Some (gmsg q, map (fun j => SL (8 * q + j)) (seq 0 8)).
Proof.
  intros Hq. pose proof count_eq as Hc. unfold send_group.
  rewrite (omap_seq _ (fun j => (Mt (8 * q + j), SL (8 * q + j)))).
  - cbn [obind]. rewrite !map_map. reflexivity.
  - intros j Hj. rewrite (nth_error_nth' roots 0%N) by lia. cbn [obind].
    rewrite (nth_error_nth' sots []) by lia. cbn [obind]. apply Hsend. lia.
Qed.

Lemma recv_group_ok q : q < G ->
  recv_group enc H c f choices rots (gmsg q) = Some (map (fun j => RL (8 * q + j)) (seq 0 8)).
Proof.
  intros Hq. pose proof count_eq as Hc. unfold recv_group. cbn [gm_g gm_trees gmsg].
  apply omap_seq. intros j Hj. rewrite (nth_error_nth' choices []) by lia. cbn [obind].
  rewrite (nth_error_nth' rots []) by lia. cbn [obind].
  rewrite (nth_error_nth' _ (Mt 0)) by (rewrite map_length, seq_length; lia). cbn [obind].
  rewrite nth_map_seq by lia. apply Hrecv. lia.
Qed.

Definition bits_from (L : nat -> list N) (order : list nat) (out out' : pprf_out) : Prop :=
  forall p r, p < out_positions (pc_count c) (pc_domain c) f -> r < 128 ->
    out_bit out' p r = if existsb (Nat.eqb (pgrp c f p)) order
                       then N.testbit (nth (pleaf c f p) (L (ptree c f p)) 0%N) (N.of_nat r) else out_bit out p r.

Lemma write_step L q out : q < G -> shape c f out -> (forall t, t < pc_count c -> length (L t) = leaf_len c f) ->
  exists out', write_group c (8 * q) (map (fun j => L (8 * q + j)) (seq 0 8)) out = Some out' /\ shape c f out' /\
    bits_from L [q] out out'.
Proof.
  intros Hq Hs HL. pose proof count_eq as Hc.
  destruct (write_group_ok c f q (map (fun j => L (8 * q + j)) (seq 0 8)) out Hsz Hs Hq) as (out' & E & S' & B).
  { rewrite map_length, seq_length. auto. }
  { intros j Hj. rewrite nth_map_seq by auto. apply HL. lia. }
  exists out'. split; auto. split; auto. intros p r Hp Hr. rewrite B by auto. cbn [existsb]. rewrite orb_false_r.
  destruct (Nat.eqb_spec (pgrp c f p) q) as [Eq|Eq]; auto. unfold ptree. rewrite nth_map_seq, Eq; auto.
  apply Nat.mod_upper_bound. lia.
Qed.

Lemma bits_trans L a b o1 o2 o3 : bits_from L a o1 o2 -> bits_from L b o2 o3 -> bits_from L (a ++ b) o1 o3.
Proof.
  intros A B p r Hp Hr. rewrite (B p r Hp Hr), (A p r Hp Hr), existsb_app.
  destruct (existsb (Nat.eqb (pgrp c f p)) a), (existsb (Nat.eqb (pgrp c f p)) b); auto.
Qed.

Lemma send_groups_ok order : forall out, shape c f out -> Forall (fun q => q < G) order ->
  exists out', send_groups enc H c f value roots sots order out = Some (map gmsg order, out') /\
    shape c f out' /\ bits_from SL order out out'.
Proof.
  induction order as [|q order IH]; intros out Hs Hq.
  - exists out. split; [reflexivity|]. split; auto. intros p r _ _. reflexivity.
  - inversion Hq as [|? ? Hq1 Hq2]; subst. cbn [send_groups]. rewrite send_group_ok by auto. cbn [obind].
    destruct (write_step SL q out Hq1 Hs HlS) as (o1 & E1 & S1 & B1). rewrite E1. cbn [obind].
    destruct (IH o1 S1 Hq2) as (o2 & E2 & S2 & B2). rewrite E2. cbn [obind map].
    exists o2. split; auto. split; auto. exact (bits_trans SL [q] order _ _ _ B1 B2).
Qed.

Lemma recv_groups_ok order : forall out, shape c f out -> Forall (fun q => q < G) order ->
  exists out', recv_groups enc H c f choices rots (map gmsg order) out = Some out' /\
    shape c f out' /\ bits_from RL order out out'.
Proof.
  induction order as [|q order IH]; intros out Hs Hq.
  - exists out. split; [reflexivity|]. split; auto. intros p r _ _. reflexivity.
  - inversion Hq as [|? ? Hq1 Hq2]; subst. cbn [recv_groups map]. rewrite recv_group_ok by auto. cbn [obind].
    destruct (write_step RL q out Hq1 Hs HlR) as (o1 & E1 & S1 & B1). cbn [gm_g gmsg]. rewrite E1. cbn [obind].
    destruct (IH o1 S1 Hq2) as (o2 & E2 & S2 & B2). rewrite E2.
    exists o2. split; auto. split; auto. exact (bits_trans RL [q] order _ _ _ B1 B2).
Qed.

Lemma perm_covers order q : Permutation order (seq 0 G) -> q < G -> existsb (Nat.eqb q) order = true.
Proof.
  intros P Hq. apply existsb_exists. exists q. split; [|apply Nat.eqb_refl].
  apply (Permutation_in _ (Permutation_sym P)). apply in_seq. lia.
Qed.

Lemma perm_lt order : Permutation order (seq 0 G) -> Forall (fun q => q < G) order.
Proof. intros P. apply Forall_forall. intros q Hq. apply (Permutation_in _ P), in_seq in Hq. lia. Qed.

Lemma expand_ok order : Permutation order (seq 0 G) ->
  exists ms outS, sender_expand enc H c f value roots sots order = Some (ms, outS) /\ shape c f outS /\
    forall ms', Permutation ms ms' -> exists outR, receiver_expand enc H c f choices rots ms' = Some outR /\ shape c f outR /\
    forall p r, p < out_positions (pc_count c) (pc_domain c) f -> r < 128 ->
      out_bit outS p r = N.testbit (nth (pleaf c f p) (SL (ptree c f p)) 0%N) (N.of_nat r) /\
      out_bit outR p r = N.testbit (nth (pleaf c f p) (RL (ptree c f p)) 0%N) (N.of_nat r).
Proof.
  intros P. pose proof count_eq as Hc.
  destruct (send_groups_ok order (out_zeros c f) (out_zeros_shape c f) (perm_lt _ P)) as (outS & ES & SS & BS).
  exists (map gmsg order), outS. split; auto. split; auto. intros ms' Pm.
  destruct (Permutation_map_inv _ _ (Permutation_sym Pm)) as (order' & Em & Po). subst ms'.
  assert (P' : Permutation order' (seq 0 G)) by (eapply Permutation_trans; [apply Permutation_sym; exact Po|exact P]).
  unfold receiver_expand. fold G.
  assert (Lo : length order' = G) by (rewrite (Permutation_length P'), seq_length; auto).
  rewrite firstn_all2 by (rewrite map_length; lia). rewrite map_length, Lo.
  replace ((pc_count c + 7) / 8) with G.
  2:{ apply (Nat.div_unique _ 8 G 7); lia. }
  rewrite Nat.leb_refl. cbn [oassert obind].
  destruct (recv_groups_ok order' (out_zeros c f) (out_zeros_shape c f) (perm_lt _ P')) as (outR & ER & SR & BR).
  exists outR. split; auto. split; auto. intros p r Hp Hr.
  destruct (pos_bound c f p (proj1 Hsz) Hp) as [Hg _].
  rewrite (BS p r Hp Hr), (BR p r Hp Hr), !perm_covers by auto. auto.
Qed.
End Groups.

Lemma choose_list {A} (d : A) n (P : nat -> A -> Prop) : (forall t, t < n -> exists x, P t x) ->
  exists g : nat -> A, forall t, t < n -> P t (g t).
Proof.
  induction n as [|n IH]; intros Hx.
  - exists (fun _ => d). intros; lia.
  - destruct IH as [g Hg]; [intros; apply Hx; lia|]. destruct (Hx n ltac:(lia)) as [x Px].
    exists (fun t => if t =? n then x else g t). intros t Ht. destruct (Nat.eqb_spec t n); [subst; auto|apply Hg; lia].
Qed.
