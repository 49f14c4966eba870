(** C71: the circuit of the AES-CBC example. *)
From Coq Require Import List Bool Arith NArith Ndigits Lia.
Require Import Verif.Prelude Verif.PreludeProofs Verif.GateModel Verif.CircuitModel Verif.CircuitSpec Verif.CircuitProofs Verif.CircuitProofs2 Verif.CircuitProofs3
  Verif.BoolGmwModel Verif.BoolGmwSpec Verif.InlineModel Verif.BristolSpec Verif.BristolProofs
  Verif.ProtocolModel Verif.ExecCircuitSpec Verif.ExecModel Verif.ExecSpec Verif.ExecBoolSpec Verif.ExecTheorems
  Verif.BristolTheorems Verif.ConnModel Verif.BuilderModel Verif.BuilderSpec Verif.BuilderProofs Verif.BuilderProofs2
  Verif.CbcModel Verif.CbcSpec Verif.CbcProofs.
Import ListNotations.

(** ** Executing the circuit *)

Lemma concat_chunks {A} n : 0 < n -> forall (ls : list (list A)), Forall (fun l => length l = n) ls ->
  chunks_exact n (concat ls) = ls.
Proof.
  intros Hn ls H. unfold chunks_exact.
  assert (HL : length (concat ls) = length ls * n).
  { induction H as [|l ls Hl H IH]; auto. cbn [concat]. rewrite app_length, IH, Hl. cbn. lia. }
  rewrite HL, Nat.div_mul by lia. clear HL.
  induction H as [|l ls Hl H IH]; auto. cbn [length seq map]. f_equal.
  - cbn [Nat.mul skipn concat]. rewrite firstn_app, Hl, Nat.sub_diag, firstn_O, app_nil_r. apply firstn_all2. lia.
  - rewrite <- seq_shift, map_map. rewrite <- IH at 2. apply map_ext. intros i. f_equal.
    cbn [Nat.mul concat]. rewrite skipn_app, skipn_all2 by lia. rewrite Hl. cbn [app]. f_equal. lia.
Qed.

Section Run.
Variables (n : nat) (b : br_circuit) (E : list bool -> list bool -> list bool).
Hypothesis Hn : 0 < n.
Hypothesis H1 : br_header_ok b.
Hypothesis H2 : br_wires_ok b.
Hypothesis H3 : br_no_self b.
Hypothesis Hin : br_total_in b = n + n.
Hypothesis Hout : br_total_out b = n.
Hypothesis HE : forall x k, length x = n -> length k = n -> br_eval b (x ++ k) = Some (E x k).

Lemma load_cipher : exists sub, from_bristol bool_ops bool_from_br b LoadSub = Some (Some sub) /\
  br_shape LoadSub (n + n) sub /\ length (c_scouts sub) = n /\
  forall x k, length x = n -> length k = n -> forall w, bval sub w -> map w (c_scins sub) = x ++ k -> map w (c_scouts sub) = E x k.
Proof.
  destruct (from_bristol_spec b LoadSub (repeat false n ++ repeat false n) _ H1 H2 H3 ltac:(rewrite app_length, !repeat_length; auto)
    (HE _ _ (repeat_length _ _) (repeat_length _ _))) as (sub & E0 & S & L & _).
  exists sub. split; auto. rewrite Hin in S. rewrite Hout in L. split; auto. split; [exact L|].
  intros x k Lx Lk w Hw Hi.
  destruct (from_bristol_spec b LoadSub (x ++ k) (E x k) H1 H2 H3) as (sub' & E' & _ & _ & V); [rewrite app_length; lia|auto|].
  rewrite E0 in E'. injection E' as <-. exact (V w Hw Hi).
Qed.

Lemma run_cbc W : 0 < W ->
  exists sub, from_bristol bool_ops bool_from_br b LoadSub = Some (Some sub) /\
  forall k, exists c os ec, cbc_build_n n sub (n * k) = Some (BD [c] [0] cn_empty, os) /\ c_outputs c = os /\
    ec_of_base bool_ops c = Some ec /\
    forall key iv blocks, length key = n -> length iv = n -> length blocks = k -> Forall (fun l => length l = n) blocks ->
    forall (Sv : Type) (req : Sv -> nat -> option (mul_triples * Sv)) J,
    serves req (bool_setup_ok W) J ->
    forall (i0 i1 : istore (bool_gmw W)), shares_of W None i0 i1 (lane1 (cbc_input key iv (concat blocks))) ->
    forall s0 s1 rest, J (requests ec ++ rest) s0 s1 ->
    exists o0 o1 st',
      ex2_run (pr:=bool_gmw W) req ec i0 i1
        ((go_init (pr:=bool_gmw W) ec, s0), (go_init (pr:=bool_gmw W) ec, s1)) = Some (o0, o1, st') /\
      shares_of W None o0 o1 (lane1 (concat (cbc_blocks E key iv blocks))).
Proof.
  intros HW. destruct load_cipher as (sub & Es & Hsh & Hso & HV). exists sub. split; auto. intros k.
  destruct (build_spec n sub E Hsh Hso HV k Hn) as (c & os & Eb & B & Sc & Ho & Hi & Hg & Hc & V).
  destruct (built_main c B Sc) as [Mok Ook].
  assert (Hs : simd_ok W c) by (unfold simd_ok; rewrite (bt_simd _ B); exact I).
  destruct (C11_execution_computes_circuit W c HW Mok Ook Hs) as (ec & Eec & Hshp & HX).
  exists c, os, ec. split; auto. split; auto. split; auto.
  intros key iv blocks Lk Li Lb HF Sv req J HJ i0 i1 Hs01 s0 s1 rest Hj. rewrite (bt_simd _ B) in HX.
  assert (Lc : length (concat blocks) = n * k).
  { rewrite <- Lb. clear -HF. induction HF as [|l ls Hl HF IH]; [cbn; lia|]. cbn [concat length]. rewrite app_length, IH, Hl. lia. }
  assert (Ll : length (cbc_input key iv (concat blocks)) = n + n + n * k) by (unfold cbc_input; rewrite !app_length; lia).
  assert (Hlen1 : length (lane1 (cbc_input key iv (concat blocks))) = length (c_inputs c)) by (unfold lane1; rewrite map_length, Hi, seq_length; auto).
  destruct (HX Sv req J HJ i0 i1 _ Hs01 Hlen1 _ _ s0 s1 rest Hshp Hshp Hj)
    as (v & o0 & o1 & go0' & go1' & s0' & s1' & Hv & Hrun & Hres & _).
  exists o0, o1, ((go0', s0'), (go1', s1')). split; auto.
  assert (Eo : map v (c_outputs c) = lane1 (concat (cbc_blocks E key iv blocks))); [|rewrite <- Eo; auto].
  set (w := fun g => nth 0 (v g) false).
  pose proof (plain_inputs c _ _ v (bt_simd _ B) Hi Hc Hg Ll Hv) as Hins. fold w in Hins. rewrite Hi in Hins.
  pose proof (plain_valued c _ v (bt_simd _ B) Hv) as Hw. fold w in Hw.
  rewrite !seq_app, !map_app in Hins. cbn [Nat.add] in Hins. unfold cbc_input in Hins. rewrite <- app_assoc in Hins.
  assert (Hsp : forall (A : Type) (a a' r r' : list A), length a = length a' -> a ++ r = a' ++ r' -> a = a' /\ r = r').
  { clear. intros A a. induction a as [|x a IH]; intros [|y a'] r r' HL EQ; try discriminate; auto.
    injection HL as HL. injection EQ as <- EQ. destruct (IH a' r r' HL EQ) as [-> ->]. auto. }
  apply Hsp in Hins; [|rewrite map_length, seq_length; auto]. destruct Hins as [Hk Hins].
  apply Hsp in Hins; [|rewrite map_length, seq_length; auto]. destruct Hins as [Hiv Hd].
  pose proof (V w Hw) as Hos. rewrite Hk, Hiv, Hd, (concat_chunks n Hn blocks HF) in Hos.
  rewrite Ho. unfold lane1. rewrite <- Hos, map_map. apply map_ext_in. intros o Hoin.
  assert (Hog : exists x, nth_error (c_gates c) o = Some x).
  { rewrite <- Ho, (aw_outputs _ _ (api_api_wf _ _ (bt_api _ B))) in Hoin. apply ids_where_In in Hoin. destruct Hoin as (x & Ex & _). eauto. }
  destruct Hog as (x & Ex). destruct (Hv o x Ex) as [HL _]. unfold c_lanes in HL. rewrite (bt_simd _ B) in HL.
  unfold w. destruct (v o) as [|y [|]]; try discriminate. auto.
Qed.
End Run.

(** Whatever block cipher [E] the Bristol file computes (from the block followed
    by the key), the circuit built for [k] blocks encrypts every [k] blocks under
    every key and IV in CBC mode. *)
Theorem C71_cbc :
  forall W b E, 0 < W -> br_header_ok b -> br_wires_ok b -> br_no_self b ->
  br_total_in b = 256 -> br_total_out b = 128 ->
  (forall x k, length x = 128 -> length k = 128 -> br_eval b (x ++ k) = Some (E x k)) ->
  exists sub, from_bristol bool_ops bool_from_br b LoadSub = Some (Some sub) /\
  forall k, exists c os ec, build_enc_circuit sub (128 * k) = Some (BD [c] [0] cn_empty, os) /\ c_outputs c = os /\
    ec_of_base bool_ops c = Some ec /\
    forall key iv blocks, length key = 128 -> length iv = 128 -> length blocks = k -> Forall (fun l => length l = 128) blocks ->
    forall (Sv : Type) (req : Sv -> nat -> option (mul_triples * Sv)) J,
    serves req (bool_setup_ok W) J ->
    forall (i0 i1 : istore (bool_gmw W)), shares_of W None i0 i1 (lane1 (cbc_input key iv (concat blocks))) ->
    forall s0 s1 rest, J (requests ec ++ rest) s0 s1 ->
    exists o0 o1 st',
      ex2_run (pr:=bool_gmw W) req ec i0 i1
        ((go_init (pr:=bool_gmw W) ec, s0), (go_init (pr:=bool_gmw W) ec, s1)) = Some (o0, o1, st') /\
      shares_of W None o0 o1 (lane1 (concat (cbc_blocks E key iv blocks))).
Proof.
  intros W b E HW H1 H2 H3 Hi Ho HE.
  exact (run_cbc 128 b E (Nat.lt_0_succ 127) H1 H2 H3 Hi Ho HE W HW).
Qed.
Print Assumptions C71_cbc.

(** ** The inputs *)

Definition bytes (l : list N) : Prop := Forall (fun x => (x < 256)%N) l.

Lemma tb_lor x y i : N.testbit_nat (N.lor x y) i = N.testbit_nat x i || N.testbit_nat y i.
Proof. rewrite <- !Ntestbit_Nbit. apply N.lor_spec. Qed.
Lemma tb_one m i : N.testbit_nat (N.shiftl 1 (N.of_nat m)) i = (i =? m).
Proof.
  rewrite <- Ntestbit_Nbit, N.shiftl_1_l, N.pow2_bits_eqb. destruct (Nat.eqb_spec i m) as [->|H]; [apply N.eqb_refl|].
  apply N.eqb_neq. lia.
Qed.
Lemma tb_high x i : (x < 256)%N -> 8 <= i -> N.testbit_nat x i = false.
Proof.
  intros Hx Hi. rewrite <- Ntestbit_Nbit. destruct x as [|p]; [reflexivity|].
  apply N.bits_above_log2. apply (proj1 (N.log2_lt_pow2 (N.pos p) 8 eq_refl)) in Hx.
  eapply N.lt_le_trans; [exact Hx|]. lia.
Qed.
Lemma tb_shift x i : N.testbit_nat (N.shiftl x 8) i = if i <? 8 then false else N.testbit_nat x (i - 8).
Proof.
  rewrite <- Ntestbit_Nbit. destruct (Nat.ltb_spec i 8) as [H|H].
  - apply N.shiftl_spec_low. lia.
  - rewrite N.shiftl_spec_high' by lia. rewrite <- Ntestbit_Nbit. f_equal. lia.
Qed.

Lemma reverse_tb w x j : j < w -> N.testbit_nat (reverse_bits w x) j = N.testbit_nat x (w - 1 - j).
Proof.
  intros Hj. unfold reverse_bits.
  assert (H : forall l, N.testbit_nat (fold_right (fun i acc => N.lor acc (if N.testbit_nat x i then N.shiftl 1 (N.of_nat (w - 1 - i)) else 0%N)) 0%N l) j
     = existsb (fun i => N.testbit_nat x i && (j =? w - 1 - i)) l).
  { induction l as [|i l IH]; [reflexivity|]. cbn [fold_right existsb]. rewrite tb_lor, IH, orb_comm. f_equal.
    destruct (N.testbit_nat x i); [rewrite tb_one; reflexivity|reflexivity]. }
  rewrite H. clear H. destruct (N.testbit_nat x (w - 1 - j)) eqn:Et.
  - apply existsb_exists. exists (w - 1 - j). split; [apply in_seq; lia|]. rewrite Et. apply Nat.eqb_eq. lia.
  - destruct (existsb _ _) eqn:Ex; auto. apply existsb_exists in Ex. destruct Ex as (i & Hi & Hx). apply in_seq in Hi.
    apply andb_true_iff in Hx. destruct Hx as [Hx Hj']. apply Nat.eqb_eq in Hj'. replace (w - 1 - j) with i in Et by lia. congruence.
Qed.

Lemma word_reverse w x : word_bits w (reverse_bits w x) = rev (word_bits w x).
Proof.
  unfold word_bits. apply (list_ext false); [rewrite rev_length, !map_length; auto|].
  intros i Hi. rewrite map_length, seq_length in Hi.
  rewrite rev_nth by (rewrite map_length, seq_length; auto). rewrite map_length, seq_length.
  assert (H : forall y k, k < w -> nth k (map (N.testbit_nat y) (seq 0 w)) false = N.testbit_nat y k).
  { intros y k Hk. rewrite (nth_indep _ false (N.testbit_nat y 0)) by (rewrite map_length, seq_length; auto).
    rewrite map_nth, seq_nth by auto. reflexivity. }
  rewrite !H by lia. rewrite reverse_tb by auto. f_equal. lia.
Qed.

Lemma word_le l : bytes l -> word_bits (8 * length l) (le_word l) = flat_map (word_bits 8) l.
Proof.
  induction 1 as [|x l Hx Hl IH]; [reflexivity|]. cbn [length le_word flat_map]. replace (8 * S (length l)) with (8 + 8 * length l) by lia.
  unfold word_bits at 1. rewrite seq_app, map_app. f_equal.
  - unfold word_bits. apply map_ext_in. intros i Hi. apply in_seq in Hi. rewrite tb_lor, tb_shift.
    destruct (Nat.ltb_spec i 8); [apply orb_false_r|lia].
  - rewrite <- IH. unfold word_bits. cbn [Nat.add]. change (seq 8 (8 * length l)) with (seq (8 + 0) (8 * length l)).
    assert (Hs : forall a m, seq (8 + a) m = map (fun i => 8 + i) (seq a m)).
    { intros a m. revert a. induction m as [|m IHm]; intros a; auto. cbn [seq map]. f_equal. rewrite <- IHm. reflexivity. }
    rewrite Hs, map_map. apply map_ext. intros i. rewrite tb_lor, tb_shift, tb_high by (auto; lia).
    destruct (Nat.ltb_spec (8 + i) 8); [lia|]. cbn [orb]. f_equal. lia.
Qed.

Lemma word_msb x : word_bits 8 (reverse_bits 8 x) = msb_byte x.
Proof. rewrite word_reverse. reflexivity. Qed.

Lemma reverse_byte x : (reverse_bits 8 x < 256)%N.
Proof.
  unfold reverse_bits. cbn [seq fold_right Nat.sub].
  destruct (N.testbit_nat x 0), (N.testbit_nat x 1), (N.testbit_nat x 2), (N.testbit_nat x 3), (N.testbit_nat x 4),
    (N.testbit_nat x 5), (N.testbit_nat x 6), (N.testbit_nat x 7); reflexivity.
Qed.

Lemma split8 {A} k : forall l : list A, length l = 8 * k -> exists ws, l = concat ws /\ Forall (fun w => length w = 8) ws.
Proof.
  induction k as [|k IH]; intros l HL.
  - exists []. destruct l; [auto|cbn in HL; lia].
  - destruct (IH (skipn 8 l)) as (ws & Ew & Hw); [rewrite skipn_length; lia|].
    exists (firstn 8 l :: ws). split; [cbn [concat]; rewrite <- Ew; symmetry; apply firstn_skipn|].
    constructor; auto. rewrite firstn_length. lia.
Qed.

(** The data that the circuit encrypts are the padded data (PKCS#7), the bits of
    each byte with the most significant first. *)
Theorem C71_padding :
  forall data, exists out, padded data out /\ cbc_data_bits data = msb_bits out.
Proof.
  intros data. unfold cbc_data_bits, cbc_pad. set (p := 16 - length data mod 16).
  pose proof (Nat.mod_upper_bound (length data) 16 ltac:(lia)) as Hm.
  pose proof (Nat.div_mod (length data) 16 ltac:(lia)) as Hd.
  exists (data ++ repeat (N.of_nat p) p). split.
  - exists p. split; [unfold p; lia|]. split; auto. exists (S (length data / 16)). rewrite app_length, repeat_length. unfold p. lia.
  - set (out := data ++ repeat (N.of_nat p) p).
    assert (HL : length (map (reverse_bits 8) out) = 8 * (2 * S (length data / 16))).
    { rewrite map_length. unfold out. rewrite app_length, repeat_length. unfold p. lia. }
    destruct (split8 _ _ HL) as (ws & Ew & Hw). rewrite Ew, concat_chunks by (auto; lia).
    assert (Hb : bytes (concat ws)).
    { rewrite <- Ew. apply Forall_forall. intros y Hy. apply in_map_iff in Hy. destruct Hy as (x & <- & _). apply reverse_byte. }
    transitivity (flat_map (word_bits 8) (concat ws)).
    + clear Ew HL. induction Hw as [|w ws Hl Hw IH]; auto. cbn [concat flat_map] in *. apply Forall_app in Hb. destruct Hb as [Hb1 Hb2].
      rewrite flat_map_app, IH by auto. f_equal. rewrite <- (word_le w Hb1), Hl. reflexivity.
    + rewrite <- Ew. unfold msb_bits. rewrite !flat_map_concat_map, map_map. f_equal. apply map_ext. intros x. apply word_msb.
Qed.
Print Assumptions C71_padding.

(** The key (and the IV) reach the circuit with the bytes of each half in reverse
    order. *)
Theorem C71_key_bits :
  forall a b, length a = 8 -> length b = 8 -> bytes a -> bytes b ->
  cbc_key_bits (a ++ b) = msb_bits (rev a ++ rev b).
Proof.
  intros a b La Lb Ha Hb. unfold cbc_key_bits.
  assert (Hc : chunks_exact 8 (a ++ b) = [a; b]).
  { rewrite <- (concat_chunks 8 (Nat.lt_0_succ 7) [a; b]) by (constructor; auto). cbn [concat]. rewrite app_nil_r. reflexivity. }
  rewrite Hc. cbn [flat_map]. rewrite app_nil_r, !word_reverse.
  assert (H : forall l, length l = 8 -> bytes l -> rev (word_bits 64 (le_word l)) = msb_bits (rev l)).
  { intros l Hl Hby. assert (H64 : 64 = 8 * length l) by (rewrite Hl; reflexivity). rewrite H64, (word_le l Hby). clear. unfold msb_bits.
    induction l as [|x l IH]; [reflexivity|]. cbn [flat_map rev]. rewrite rev_app_distr, IH, map_app, concat_app. cbn [map concat].
    rewrite app_nil_r. reflexivity. }
  rewrite !H by auto. unfold msb_bits. rewrite map_app, concat_app. reflexivity.
Qed.
Print Assumptions C71_key_bits.

Lemma msb_byte_inj x y : (x < 256)%N -> (y < 256)%N -> msb_byte x = msb_byte y -> x = y.
Proof.
  intros Hx Hy H. apply N.bits_inj. intros i. rewrite <- (N2Nat.id i), !Ntestbit_Nbit.
  set (k := N.to_nat i). destruct (Nat.lt_ge_cases k 8) as [Hk|Hk]; [|rewrite !tb_high; auto].
  unfold msb_byte in H. cbn [map] in H. injection H as Q7 Q6 Q5 Q4 Q3 Q2 Q1 Q0.
  do 8 (destruct k as [|k]; [assumption|]). lia.
Qed.
Lemma msb_bits_inj l : forall m, bytes l -> bytes m -> length l = length m -> msb_bits l = msb_bits m -> l = m.
Proof.
  induction l as [|x l IH]; intros [|y m] Hl Hm HL H; try discriminate; auto.
  inversion Hl; subst. inversion Hm; subst. injection HL as HL. unfold msb_bits in H. cbn [map concat] in H.
  assert (Hs : forall (a a' r r' : list bool), length a = length a' -> a ++ r = a' ++ r' -> a = a' /\ r = r').
  { clear. intros a. induction a as [|z a IH]; intros [|z' a'] r r' HL E; try discriminate; auto.
    injection HL as HL. injection E as <- E. destruct (IH a' r r' HL E) as [-> ->]. auto. }
  destruct (Hs _ _ _ _ (eq_refl : length (msb_byte x) = length (msb_byte y)) H) as [A B].
  f_equal; [apply msb_byte_inj; auto|apply IH; auto].
Qed.

(** So the circuit sees the bits of the key in the order in which it sees the
    data only if both halves are palindromes. *)
Theorem C71_key_order :
  forall a b, length a = 8 -> length b = 8 -> bytes a -> bytes b ->
  (cbc_key_bits (a ++ b) = msb_bits (a ++ b) <-> rev a = a /\ rev b = b).
Proof.
  intros a b La Lb Ha Hb. rewrite C71_key_bits by auto. split; [|intros [-> ->]; auto]. intros H.
  assert (Hr : forall l, bytes l -> bytes (rev l)) by (intros l Hl; apply Forall_forall; intros x Hx; apply in_rev in Hx; unfold bytes in Hl; rewrite Forall_forall in Hl; auto).
  assert (HA : bytes (rev a ++ rev b)) by (apply Forall_app; split; apply Hr; auto).
  assert (HB : bytes (a ++ b)) by (apply Forall_app; auto).
  apply (msb_bits_inj _ _ HA HB) in H; [|rewrite !app_length, !rev_length; auto].
  assert (Hs : forall (a a' r r' : list N), length a = length a' -> a ++ r = a' ++ r' -> a = a' /\ r = r').
  { clear. intros a. induction a as [|z a IH]; intros [|z' a'] r r' HL E; try discriminate; auto.
    injection HL as HL. injection E as <- E. destruct (IH a' r r' HL E) as [-> ->]. auto. }
  exact (Hs _ _ _ _ (rev_length a) H).
Qed.
Print Assumptions C71_key_order.

(** The claim that the key reaches the circuit most significant bit first, as the
    comment in the code intends and as [validate] assumes, is false for the
    default key 00112233445566778899aabbccddeeff. *)
Theorem C71_key_msb_refuted :
  exists key, length key = 16 /\ bytes key /\ cbc_key_bits key <> msb_bits key.
Proof.
  exists (map (fun i => 17 * N.of_nat i)%N (seq 0 16)). split; [reflexivity|]. split; [repeat constructor|].
  intros H. assert (K : forallb (fun p : bool * bool => Bool.eqb (fst p) (snd p))
    (combine (cbc_key_bits (map (fun i => 17 * N.of_nat i)%N (seq 0 16))) (msb_bits (map (fun i => 17 * N.of_nat i)%N (seq 0 16)))) = false)
    by (vm_compute; reflexivity).
  rewrite <- H in K. revert K. vm_compute. discriminate.
Qed.
Print Assumptions C71_key_msb_refuted.

(** ** The whole example *)

(** A run on shares of a key, an IV and data as the example prepares them.  Missing
    for the full property: key and IV in the order in which they are given, which
    is refuted above. *)
Theorem C71_example_partial :
  forall W b E, 0 < W -> br_header_ok b -> br_wires_ok b -> br_no_self b ->
  br_total_in b = 256 -> br_total_out b = 128 ->
  (forall x k, length x = 128 -> length k = 128 -> br_eval b (x ++ k) = Some (E x k)) ->
  forall k1 k2 v1 v2 data, length k1 = 8 -> length k2 = 8 -> length v1 = 8 -> length v2 = 8 ->
  bytes k1 -> bytes k2 -> bytes v1 -> bytes v2 ->
  exists sub c os ec blocks, from_bristol bool_ops bool_from_br b LoadSub = Some (Some sub) /\
    build_enc_circuit sub (length (cbc_data_bits data)) = Some (BD [c] [0] cn_empty, os) /\
    ec_of_base bool_ops c = Some ec /\
    (exists out, padded data out /\ msb_bits out = concat blocks) /\ Forall (fun l => length l = 128) blocks /\
    forall (Sv : Type) (req : Sv -> nat -> option (mul_triples * Sv)) J,
    serves req (bool_setup_ok W) J ->
    forall (i0 i1 : istore (bool_gmw W)),
    shares_of W None i0 i1 (lane1 (cbc_input (cbc_key_bits (k1 ++ k2)) (cbc_key_bits (v1 ++ v2)) (cbc_data_bits data))) ->
    forall s0 s1 rest, J (requests ec ++ rest) s0 s1 ->
    exists o0 o1 st',
      ex2_run (pr:=bool_gmw W) req ec i0 i1
        ((go_init (pr:=bool_gmw W) ec, s0), (go_init (pr:=bool_gmw W) ec, s1)) = Some (o0, o1, st') /\
      shares_of W None o0 o1 (lane1 (concat (cbc_blocks E (msb_bits (rev k1 ++ rev k2)) (msb_bits (rev v1 ++ rev v2)) blocks))).
Proof.
  intros W b E HW H1 H2 H3 Hi Ho HE k1 k2 v1 v2 data L1 L2 L3 L4 B1 B2 B3 B4.
  destruct (C71_cbc W b E HW H1 H2 H3 Hi Ho HE) as (sub & Es & HR).
  destruct (C71_padding data) as (out & Hp & Eb).
  assert (Hml : forall l, length (msb_bits l) = 8 * length l).
  { clear. induction l as [|x l IH]; auto. unfold msb_bits in *. cbn [map concat length]. rewrite app_length, IH. cbn [msb_byte map length]. lia. }
  assert (Hblk : exists k blocks, msb_bits out = concat blocks /\ length blocks = k /\ Forall (fun l => length l = 128) blocks).
  { destruct Hp as (p & _ & _ & k & Hk). assert (HL : length (msb_bits out) = k * 128) by (rewrite Hml, Hk; lia). exists k. clear -HL.
    revert HL. generalize (msb_bits out) as l. induction k as [|k IH]; intros l HL.
    - exists []. destruct l; [auto|discriminate].
    - destruct (IH (skipn 128 l)) as (bs & E & Lb & F); [rewrite skipn_length; lia|].
      exists (firstn 128 l :: bs). split; [cbn [concat]; rewrite <- E; symmetry; apply firstn_skipn|].
      split; [cbn; auto|]. constructor; auto. rewrite firstn_length. lia. }
  destruct Hblk as (k & blocks & Ebl & Lbl & Fbl).
  destruct (HR k) as (c & os & ec & Ebld & _ & Eec & HX).
  assert (Hlen : length (cbc_data_bits data) = 128 * k).
  { rewrite Eb, Ebl, <- Lbl. clear -Fbl. induction Fbl as [|l ls Hl F IH]; [reflexivity|]. cbn [concat length]. rewrite app_length, IH, Hl. lia. }
  exists sub, c, os, ec, blocks. split; auto. split; [rewrite Hlen; auto|]. split; auto. split; [eauto|]. split; auto.
  rewrite !C71_key_bits by auto. rewrite Eb, Ebl. apply HX; auto; rewrite Hml, app_length, !rev_length, ?L1, ?L2, ?L3, ?L4; reflexivity.
Qed.
Print Assumptions C71_example_partial.

(** The circuit is built exactly for whole blocks. *)
Theorem C71_whole_blocks :
  forall b E, br_header_ok b -> br_wires_ok b -> br_no_self b ->
  br_total_in b = 256 -> br_total_out b = 128 ->
  (forall x k, length x = 128 -> length k = 128 -> br_eval b (x ++ k) = Some (E x k)) ->
  forall sub, from_bristol bool_ops bool_from_br b LoadSub = Some (Some sub) ->
  forall bits, build_enc_circuit sub bits <> None <-> exists k, bits = 128 * k.
Proof.
  intros b E H1 H2 H3 Hi Ho HE sub Es bits. split.
  - intros H. exists (bits / 128). unfold build_enc_circuit, cbc_build_n in H.
    destruct (bits mod 128 =? 0) eqn:Em; [|contradiction H; reflexivity]. apply Nat.eqb_eq in Em.
    pose proof (Nat.div_mod bits 128 ltac:(discriminate)) as Hd. lia.
  - intros (k & ->). destruct (C71_cbc 64 b E ltac:(lia) H1 H2 H3 Hi Ho HE) as (sub' & Es' & HR).
    rewrite Es in Es'. injection Es' as <-. destruct (HR k) as (c & os & ec & Eb & _). rewrite Eb. discriminate.
Qed.
Print Assumptions C71_whole_blocks.

(** ** A cipher *)

(** A Bristol circuit meeting the hypotheses: the block XORed with the key. *)
Definition xor_cipher (n : nat) : br_circuit :=
  BrCircuit (BrHeader n (n + n + n) [n; n] [n])
    (map (fun i => BrGate BrXor [i; n + i] [n + n + i]) (seq 0 n)).

Lemma xor_run n x k : length x = n -> length k = n -> forall m a s, a + m = n ->
  (forall w, w < n + n -> s w = nth_error (x ++ k) w) ->
  exists s', br_run (map (fun i => BrGate BrXor [i; n + i] [n + n + i]) (seq a m)) s = Some s' /\
    (forall w, w < n + n + a -> s' w = s w) /\
    (forall i, a <= i < n -> s' (n + n + i) = Some (xorb (nth i x false) (nth i k false))).
Proof.
  intros Lx Lk. induction m as [|m IH]; intros a s Ha Hs.
  - exists s. split; [reflexivity|]. split; auto. intros i Hi. lia.
  - cbn [seq map br_run br_in br_op br_out omap].
    rewrite (Hs a) by lia. rewrite (Hs (n + a)) by lia. rewrite nth_error_app1 by lia. rewrite nth_error_app2 by lia.
    replace (n + a - length x) with a by lia.
    rewrite (nth_error_nth' x false) by lia. rewrite (nth_error_nth' k false) by lia. cbn [obind br_sem].
    set (s1 := br_write [n + n + a] (xorb (nth a x false) (nth a k false)) s).
    assert (H1 : forall w, w <> n + n + a -> s1 w = s w).
    { intros w Hw. unfold s1, br_write. cbn [existsb]. rewrite (proj2 (Nat.eqb_neq w (n + n + a))) by auto. reflexivity. }
    assert (H2 : s1 (n + n + a) = Some (xorb (nth a x false) (nth a k false))).
    { unfold s1, br_write. cbn [existsb]. rewrite Nat.eqb_refl. reflexivity. }
    destruct (IH (S a) s1) as (s' & E & A & B); [lia| |].
    { intros w Hw. rewrite H1 by lia. auto. }
    exists s'. split; [exact E|]. split.
    + intros w Hw. rewrite A by lia. apply H1. lia.
    + intros i Hi. destruct (Nat.eq_dec i a) as [->|Hne]; [rewrite A by lia; exact H2|apply B; lia].
Qed.

Lemma xor_eval n x k : length x = n -> length k = n -> br_eval (xor_cipher n) (x ++ k) = Some (bits_xor x k).
Proof.
  intros Lx Lk. unfold br_eval, xor_cipher, br_total_out. cbn [bc_gates bc_header bh_wires bh_outs].
  destruct (xor_run n x k Lx Lk n 0 (fun w => nth_error (x ++ k) w)) as (s & E & _ & B); auto. rewrite E. cbn [obind].
  replace (sum_list [n]) with n by (cbn; lia). replace (n + n + n - n) with (n + n) by lia.
  assert (H : forall m a, a + m = n -> omap s (seq (n + n + a) m) = Some (zip_with xorb (skipn a x) (skipn a k))).
  { induction m as [|m IH]; intros a Ha.
    - rewrite !skipn_all2 by lia. reflexivity.
    - cbn [seq omap]. rewrite B by lia. cbn [obind]. replace (S (n + n + a)) with (n + n + S a) by lia. rewrite IH by lia. cbn [obind].
      assert (Hn : forall l : list bool, a < length l -> skipn a l = nth a l false :: skipn (S a) l).
      { clear. revert a. intros a l. revert a. induction l as [|y l IH]; intros [|a] H; cbn in *; try lia; auto. apply IH. lia. }
      rewrite (Hn x), (Hn k) by lia. reflexivity. }
  specialize (H n 0 eq_refl). rewrite Nat.add_0_r in H. exact H.
Qed.

Example C71_case :
  br_header_ok (xor_cipher 128) /\ br_wires_ok (xor_cipher 128) /\ br_no_self (xor_cipher 128) /\
  br_total_in (xor_cipher 128) = 256 /\ br_total_out (xor_cipher 128) = 128 /\
  (forall x k, length x = 128 -> length k = 128 -> br_eval (xor_cipher 128) (x ++ k) = Some (bits_xor x k)) /\
  match from_bristol bool_ops bool_from_br (xor_cipher 4) LoadSub with
  | Some (Some sub) =>
      match cbc_build_n 4 sub 8 with
      | Some (BD [c] _ _, os) => c_inputs c = seq 0 16 /\ length os = 8 /\ c_count c = 64
      | _ => False
      end
  | _ => False
  end /\
  cbc_data_bits [1; 2; 3]%N = msb_bits ([1; 2; 3] ++ repeat 13 13)%N.
Proof.
  assert (Hg : forall g, In g (bc_gates (xor_cipher 128)) -> exists i, i < 128 /\ g = BrGate BrXor [i; 128 + i] [128 + 128 + i]).
  { intros g Hg. apply in_map_iff in Hg. destruct Hg as (i & <- & Hi). exists i. apply in_seq in Hi. split; [apply Hi|reflexivity]. }
  split; [split; vm_compute; lia|]. split.
  { apply Forall_forall. intros g H. destruct (Hg g H) as (i & Hi & ->). change (bh_wires (bc_header (xor_cipher 128))) with 384.
    cbn [br_in br_out]. split; repeat (apply Forall_cons; [lia|]); apply Forall_nil. }
  split.
  { apply Forall_forall. intros g H. destruct (Hg g H) as (i & Hi & ->). cbn [br_in br_out]. intros w Hw [<-|[]].
    destruct Hw as [Hw|[Hw|[]]]; lia. }
  split; [reflexivity|]. split; [reflexivity|]. split; [intros x k; apply xor_eval|].
  split; [vm_compute; repeat split|]. vm_compute. reflexivity.
Qed.
