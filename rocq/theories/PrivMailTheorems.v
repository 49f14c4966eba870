(** Property theorems about the private mail search: C70. *)
From Coq Require Import List Bool Arith Lia NArith.
Require Import Verif.Prelude Verif.PreludeProofs Verif.GateModel Verif.CircuitModel Verif.CircuitSpec Verif.CircuitProofs3
  Verif.ProtocolModel Verif.BoolGmwModel Verif.BoolGmwSpec Verif.InlineSpec Verif.BristolProofs
  Verif.ExecCircuitSpec Verif.ExecModel Verif.ExecSpec Verif.ExecBoolSpec Verif.ExecTheorems Verif.BristolTheorems
  Verif.ConnModel Verif.BuilderModel Verif.BuilderSpec Verif.ReduceProofs Verif.BuilderProofs Verif.BuilderProofs2
  Verif.PrivMailModel Verif.PrivMailSpec Verif.PrivMailProofs Verif.PrivMailBits.
Import ListNotations.

(** ** Inputs *)

Definition inputs_added (n : nat) (c c' : circuit bool_gate) : Prop :=
  built c' /\ c_gates c' = c_gates c ++ repeat (BBase GInput) n /\ c_inputs c' = c_inputs c ++ seq (c_count c) n /\
  c_outputs c' = c_outputs c /\ c_scins c' = c_scins c.

Lemma added_count n c c' : inputs_added n c c' -> c_count c' = c_count c + n.
Proof. intros (_ & G & _). unfold c_count. rewrite G, app_length, repeat_length. reflexivity. Qed.

Lemma added_trans n m a b c : inputs_added n a b -> inputs_added m b c -> inputs_added (n + m) a c.
Proof.
  intros H1 H2. pose proof (added_count _ _ _ H1) as HC. destruct H1 as (B1 & G1 & I1 & O1 & S1), H2 as (B2 & G2 & I2 & O2 & S2).
  split; auto. rewrite repeat_app, seq_app. rewrite G2, G1, I2, I1, HC, <- !app_assoc. repeat (split; [reflexivity|]). split; congruence.
Qed.

Lemma added_refl c : built c -> inputs_added 0 c c.
Proof. intros B. split; auto. cbn. rewrite !app_nil_r. auto. Qed.

Definition one (c : circuit bool_gate) : builder := BD [c] [0] cn_empty.

Definition eight (c : list secret) : Prop := length c = 8.

Lemma pm_chars_spec n : forall c, built c ->
  exists c' cs, pm_chars (one c) n = Some (one c', cs) /\ inputs_added (8 * n) c c' /\
    concat cs = map (pair 0) (seq (c_count c) (8 * n)) /\ Forall eight cs /\ length cs = n.
Proof.
  induction n as [|n IH]; intros c HB.
  - exists c, []. split; [reflexivity|]. split; [apply added_refl; auto|]. repeat (split; auto).
  - cbn [pm_chars]. destruct (sec_inputs_spec 8 c cn_empty HB) as (c1 & E1 & B1 & G1 & I1 & O1 & S1).
    fold (one c) in E1. fold (one c1) in E1. rewrite E1. cbn [obind].
    assert (A1 : inputs_added 8 c c1) by (repeat (split; auto)).
    destruct (IH c1 B1) as (c2 & cs & E2 & A2 & EC & EF & EL). rewrite E2. cbn [obind].
    exists c2, (map (pair 0) (seq (c_count c) 8) :: cs). split; [reflexivity|].
    replace (8 * S n) with (8 + 8 * n) by lia. split; [eapply added_trans; eauto|].
    split; [|split; [constructor; auto; unfold eight; rewrite map_length, seq_length; reflexivity|cbn; congruence]].
    rewrite seq_app, map_app. cbn [concat]. rewrite EC, (added_count _ _ _ A1). reflexivity.
Qed.

Definition as_chars (bytes : list N) (cs : list (list secret)) : Prop := length cs = length bytes /\ Forall eight cs.

Lemma pm_to_input_spec d dup c : built c ->
  exists c' cs, pm_to_input (one c) d dup = Some (one c', (bits_of (times dup d), cs)) /\
    inputs_added (8 * length (times dup d)) c c' /\
    concat cs = map (pair 0) (seq (c_count c) (8 * length (times dup d))) /\ as_chars (times dup d) cs.
Proof.
  intros HB. unfold pm_to_input. rewrite pm_repeat_times. destruct (pm_chars_spec (length (times dup d)) c HB) as (c' & cs & E & A & EC & EF & EL).
  rewrite E. cbn [obind]. exists c', cs. rewrite bits_of_flat. repeat (split; auto).
Qed.

(** All bytes of a list of texts, repeated. *)
Definition all_bytes (dup : nat) (l : list (list N)) : list N := concat (map (times dup) l).

Lemma pm_decode_spec dup : forall l input c, built c ->
  exists c' css, pm_decode_all (one c) input l dup = Some (one c', (input ++ bits_of (all_bytes dup l), css)) /\
    inputs_added (8 * length (all_bytes dup l)) c c' /\
    concat (concat css) = map (pair 0) (seq (c_count c) (8 * length (all_bytes dup l))) /\ Forall2 as_chars (map (times dup) l) css.
Proof.
  induction l as [|x l IH]; intros input c HB.
  - exists c, []. cbn [pm_decode_all]. unfold all_bytes. cbn [map concat length Nat.mul seq]. rewrite app_nil_r. split; [reflexivity|].
    split; [apply added_refl; auto|]. split; auto.
  - cbn [pm_decode_all]. destruct (pm_to_input_spec x dup c HB) as (c1 & cs & E1 & A1 & EC & HC). rewrite E1. cbn [obind].
    destruct (IH (input ++ bits_of (times dup x)) c1 (proj1 A1)) as (c2 & css & E2 & A2 & EC2 & HC2). rewrite E2. cbn [obind].
    exists c2, (cs :: css). unfold all_bytes in *. cbn [map concat]. rewrite app_length.
    replace (8 * (length (times dup x) + length (concat (map (times dup) l))))
      with (8 * length (times dup x) + 8 * length (concat (map (times dup) l))) by lia.
    split; [|split; [eapply added_trans; eauto|split; [|constructor; auto]]].
    + rewrite <- app_assoc. do 4 f_equal. rewrite !bits_of_flat, flat_map_app. reflexivity.
    + rewrite seq_app, map_app, concat_app, EC, EC2, (added_count _ _ _ A1). reflexivity.
Qed.

(** The circuit depends on the lengths only. *)
Lemma pm_to_input_len b d0 d1 dup : length d0 = length d1 ->
  match pm_to_input b d0 dup, pm_to_input b d1 dup with
  | Some (b0, (_, s0)), Some (b1, (_, s1)) => b0 = b1 /\ s0 = s1
  | None, None => True
  | _, _ => False
  end.
Proof.
  intros HL. unfold pm_to_input. rewrite !pm_repeat_times, !times_length, HL.
  destruct (pm_chars b (dup * length d1)) as [[b' cs]|]; cbn [obind]; auto.
Qed.

Lemma pm_decode_len dup : forall l0 l1, Forall2 (fun x y : list N => length x = length y) l0 l1 -> forall b i0 i1,
  match pm_decode_all b i0 l0 dup, pm_decode_all b i1 l1 dup with
  | Some (b0, (_, s0)), Some (b1, (_, s1)) => b0 = b1 /\ s0 = s1
  | None, None => True
  | _, _ => False
  end.
Proof.
  induction 1 as [|x y l0 l1 H HF IH]; intros b i0 i1; cbn [pm_decode_all]; auto.
  pose proof (pm_to_input_len b x y dup H) as HX.
  destruct (pm_to_input b x dup) as [[b0 [t0 s0]]|]; destruct (pm_to_input b y dup) as [[b1 [t1 s1]]|]; cbn [obind]; try tauto.
  destruct HX as [-> ->]. specialize (IH b1 (i0 ++ t0) (i1 ++ t1)).
  destruct (pm_decode_all b1 (i0 ++ t0) l0 dup) as [[b2 [u0 r0]]|]; destruct (pm_decode_all b1 (i1 ++ t1) l1 dup) as [[b3 [u1 r1]]|];
    cbn [obind]; try tauto. destruct IH as [-> ->]. auto.
Qed.
Lemma F2_len {A B} (R : A -> B -> Prop) l m : Forall2 R l m -> length l = length m.
Proof. induction 1; cbn; congruence. Qed.

(** ** Values of the inputs *)

Lemma chunk_eq {A} : forall (l m : list (list A)), Forall2 (fun x y : list A => length x = length y) l m -> concat l = concat m -> l = m.
Proof.
  induction 1 as [|x y l m H HF IH]; intros E; auto. cbn [concat] in E.
  assert (x = y /\ concat l = concat m) as [-> E2]; [|f_equal; auto].
  clear -H E. revert y H E. induction x as [|a x IH]; intros [|b y] H E; try discriminate; auto.
  injection H as H. injection E as <- E. destruct (IH y H E) as [-> ->]. auto.
Qed.

Lemma as_chars_vals v bytes cs : as_chars bytes cs -> map (sv v) (concat cs) = flat_map byte_bits bytes -> vals v cs = map byte_bits bytes.
Proof.
  intros [HL HF] E. unfold vals. apply chunk_eq.
  - clear E. revert cs HL HF. induction bytes as [|x bytes IH]; intros [|c cs] HL HF; try discriminate; [constructor|].
    inversion HF as [|? ? Hc HF']; subst. injection HL as HL. cbn [map]. constructor; [|apply IH; auto].
    rewrite map_length. exact Hc.
  - rewrite <- concat_map, E. symmetry. rewrite flat_map_concat_map. reflexivity.
Qed.

Lemma as_chars_all v : forall l css, Forall2 as_chars l css ->
  map (sv v) (concat (concat css)) = flat_map byte_bits (concat l) -> map (vals v) css = map (map byte_bits) l.
Proof.
  induction 1 as [|x cs l css H HF IH]; intros E; auto. cbn [concat map] in *. rewrite concat_app, map_app, flat_map_app in E.
  assert (EL : length (map (sv v) (concat cs)) = length (flat_map byte_bits x)).
  { rewrite map_length, flat_bits_length. destruct H as [HL H8]. rewrite <- HL. clear -H8. induction H8 as [|c cs H H8 IH]; auto.
    cbn [concat length]. rewrite app_length, IH, H. lia. }
  assert (E' : map (sv v) (concat cs) = flat_map byte_bits x /\ map (sv v) (concat (concat css)) = flat_map byte_bits (concat l)).
  { revert EL E. generalize (map (sv v) (concat cs)) (flat_map byte_bits x) (map (sv v) (concat (concat css))) (flat_map byte_bits (concat l)).
    clear. induction l as [|a l IH]; intros [|b m] r s H E; try discriminate; auto.
    injection H as H. injection E as <- E. destruct (IH m r s H E) as [-> ->]. auto. }
  destruct E' as [Ea Eb]. f_equal; auto. apply as_chars_vals; auto.
Qed.

(** ** Executing what was built *)

Lemma run_built W n c1 b2 l : 0 < W -> built c1 -> c_gates c1 = repeat (BBase GInput) n -> c_inputs c1 = seq 0 n ->
  c_outputs c1 = [] -> c_scins c1 = [] -> grows (one c1) b2 -> Inv b2 -> Forall (ins b2) l ->
  exists c3 os' ec, sec_outputs b2 l = Some (one c3, os') /\ ec_of_base bool_ops c3 = Some ec /\ main_ok bool_ops c3 /\ c_simd c3 = None /\
    c_inputs c3 = seq 0 n /\ c_outputs c3 = os' /\
    forall inp outs, length inp = n ->
    (forall v, bvalued b2 v -> map (v 0) (seq 0 n) = inp -> map (sv v) l = outs) ->
    forall (Sv : Type) (req : Sv -> nat -> option (mul_triples * Sv)) J,
    serves req (bool_setup_ok W) J ->
    forall (i0 i1 : istore (bool_gmw W)), shares_of W None i0 i1 (lane1 inp) ->
    forall s0 s1 rest, J (requests ec ++ rest) s0 s1 ->
    exists o0 o1 st',
      ex2_run (pr:=bool_gmw W) req ec i0 i1
        ((go_init (pr:=bool_gmw W) ec, s0), (go_init (pr:=bool_gmw W) ec, s1)) = Some (o0, o1, st') /\
      shares_of W None o0 o1 (lane1 outs).
Proof.
  intros HW B1 G1 I1 O1 S1 Gr HI K2.
  assert (Hb2 : exists c2, b2 = one c2 /\ grows_c c1 c2 /\ built c2).
  { pose proof (gr_ids _ _ Gr) as A1. pose proof (gr_cn _ _ Gr) as A2. pose proof (gr_cells _ _ Gr) as A3.
    assert (A4 : Forall built (b_cells b2)) by (apply (gr_built _ _ Gr); constructor; auto).
    destruct b2 as [cl il cn]. cbn in A1, A2, A3, A4. subst il cn.
    inversion A3 as [|x c2 y z Q1 Q2]; subst. inversion Q2; subst. exists c2. inversion A4; auto. }
  destruct Hb2 as (c2 & -> & Hg & B2). destruct Hg as ((gs & G2 & L2) & P2 & I2 & O2 & S2 & _ & M2 & _).
  assert (Kl : Forall (fun s : secret => fst s = 0 /\ snd s < c_count c2) l).
  { eapply Forall_impl; [|exact K2]. intros s [(k & c & Hk & Hlt) Hf]. rewrite Hf in Hk. injection Hk as <- <-. auto. }
  destruct (sec_outputs_spec l c2 cn_empty B2 Kl) as (c3 & os' & E3 & B3 & Eos & G3 & I3 & O3 & S3 & V3).
  assert (Sc : c_scins c3 = []) by congruence.
  destruct (built_main c3 B3 Sc) as [Mok Ook].
  assert (Hs : simd_ok W c3) by (unfold simd_ok; rewrite (bt_simd _ B3); exact I).
  destruct (C11_execution_computes_circuit W c3 HW Mok Ook Hs) as (ec & Eec & Hsh & HX).
  assert (Hin : c_inputs c3 = seq 0 n) by congruence.
  exists c3, os', ec. split; [exact E3|]. split; [exact Eec|]. split; [exact Mok|]. split; [apply B3|]. split; [exact Hin|].
  split; [rewrite O3, O2, O1; auto|].
  intros inp outs Hn HO Sv req J HJ i0 i1 Hsh01 s0 s1 rest Hj. rewrite (bt_simd _ B3) in HX.
  assert (Hlen1 : length (lane1 inp) = length (c_inputs c3)) by (unfold lane1; rewrite map_length, Hin, seq_length; auto).
  destruct (HX Sv req J HJ i0 i1 (lane1 inp) Hsh01 Hlen1 _ _ s0 s1 rest Hsh Hsh Hj)
    as (v & o0 & o1 & go0' & go1' & s0' & s1' & Hv & Hrun & Hout & _).
  exists o0, o1, ((go0', s0'), (go1', s1')). split; auto.
  assert (Eo : map v (c_outputs c3) = lane1 outs); [|rewrite <- Eo; auto].
  set (w := fun g => nth 0 (v g) false).
  assert (Hg3 : forall g, g < n -> nth_error (c_gates c3) g = Some (BBase GInput)).
  { intros g Hgn. rewrite G3, G2, G1, <- app_assoc, nth_error_app1 by (rewrite repeat_length; auto).
    rewrite (nth_error_nth' _ (BBase GInput)) by (rewrite repeat_length; auto). f_equal. apply nth_repeat. }
  assert (Hn3 : n <= c_count c3).
  { unfold c_count. rewrite G3, G2, G1, !app_length, repeat_length. lia. }
  pose proof (plain_inputs c3 n inp v (bt_simd _ B3) Hin Hn3 Hg3 Hn Hv) as Hins. fold w in Hins. rewrite Hin in Hins.
  pose proof (plain_valued c3 _ v (bt_simd _ B3) Hv) as Hw3. fold w in Hw3.
  destruct (V3 w Hw3) as [Hw2 Hos].
  assert (Hbv : bvalued (one c2) (fun _ => w)).
  { intros k c Hk. destruct k as [|[|k]]; try discriminate. injection Hk as <-. auto. }
  assert (Hwo : map w os' = outs). { rewrite Hos. exact (HO (fun _ => w) Hbv Hins). }
  rewrite O3, O2, O1. cbn [app]. unfold lane1. rewrite <- Hwo, map_map. apply map_ext_in. intros o Hoin.
  assert (Hog : exists x, nth_error (c_gates c3) o = Some x).
  { assert (Hin' : In o (c_outputs c3)) by (rewrite O3; apply in_or_app; auto).
    rewrite (aw_outputs _ _ (api_api_wf _ _ (bt_api _ B3))) in Hin'. apply ids_where_In in Hin'. destruct Hin' as (x & Ex & _). eauto. }
  destruct Hog as (x & Ex). destruct (Hv o x Ex) as [HL _]. unfold c_lanes in HL. rewrite (bt_simd _ B3) in HL.
  unfold w. destruct (v o) as [|y [|]]; try discriminate. auto.
Qed.

(** ** The whole search *)

Lemma concat_in {A} (P : A -> Prop) (l : list (list A)) : Forall P (concat l) -> Forall (Forall P) l.
Proof. induction l as [|x l IH]; intros H; constructor; cbn [concat] in H; apply Forall_app in H; destruct H; auto. Qed.

Lemma all_chars b l css : Forall2 as_chars l css -> Forall (ins b) (concat (concat css)) -> Forall (chars b) css.
Proof.
  induction 1 as [|x cs l css [H8 HE] HF IH]; intros HI; constructor; cbn [concat] in HI; rewrite concat_app in HI; apply Forall_app in HI;
    destruct HI as [A B]; auto. split; auto. apply concat_in. auto.
Qed.

Lemma fresh_ins n c b : built c -> c_count c = n -> b = one c -> forall k m, k + m <= n -> Forall (ins b) (map (pair 0) (seq k m)).
Proof.
  intros HB HC -> k m HL. apply Forall_forall. intros s Hs. apply in_map_iff in Hs. destruct Hs as (g & <- & Hg). apply in_seq in Hg.
  split; auto. exists 0, c. split; auto. cbn [snd]. unfold gid in *. lia.
Qed.

Lemma one_inv c : built c -> Inv (one c).
Proof. intros B. split; auto. split; [constructor; [apply B|constructor]|constructor; [cbn; lia|constructor]]. Qed.

Lemma loops_empty m ks b : pm_loops m ks [] b = Some (b, []).
Proof. unfold pm_loops. generalize (b, @nil secret). generalize (enumerate ks). induction l as [|x l IH]; intros st; cbn; auto. Qed.

(** What the two parties prepare.  [pm_ok]: the calls that do not panic. *)
Definition pm_ok (ks : list (list N)) (md : list N) (ms : list (list N)) : Prop :=
  ks <> [] /\ 2 * length ks - 1 <= 8 * length md /\ (ms = [] \/ Forall (fun k => k <> []) ks).

Lemma search_spec W ks md ms dup : 0 < W -> pm_ok ks md ms ->
  exists c os ec, let all := md ++ concat ks ++ all_bytes dup ms in
    priv_mail_search b_new ks md ms dup = Some (one c, (bits_of all, os)) /\
    ec_of_base bool_ops c = Some ec /\ main_ok bool_ops c /\ c_simd c = None /\
    c_inputs c = seq 0 (8 * length all) /\ c_outputs c = os /\
    forall md' ks' ms', length md' = length md -> Forall2 (fun x y : list N => length x = length y) ks' ks ->
    Forall2 (fun x y : list N => length x = length y) ms' ms ->
    exists outs, Forall2 (fun m a => answer (times dup m) ks' (bits_of md') a) ms' outs /\
    forall (Sv : Type) (req : Sv -> nat -> option (mul_triples * Sv)) J,
    serves req (bool_setup_ok W) J ->
    forall (i0 i1 : istore (bool_gmw W)), shares_of W None i0 i1 (lane1 (bits_of (md' ++ concat ks' ++ all_bytes dup ms'))) ->
    forall s0 s1 rest, J (requests ec ++ rest) s0 s1 ->
    exists o0 o1 st',
      ex2_run (pr:=bool_gmw W) req ec i0 i1
        ((go_init (pr:=bool_gmw W) ec, s0), (go_init (pr:=bool_gmw W) ec, s1)) = Some (o0, o1, st') /\
      shares_of W None o0 o1 (lane1 outs).
Proof.
  intros HW (Hks & Hmd & Hemp). unfold priv_mail_search.
  assert (T1 : forall l, times 1 l = l) by (intros l; unfold times; cbn; apply app_nil_r).
  assert (A1l : forall l, all_bytes 1 l = concat l) by (intros l; unfold all_bytes; rewrite (map_ext _ (fun x => x)), map_id by auto; auto).
  change b_new with (one c_new).
  destruct (pm_to_input_spec md 1 c_new built_new) as (c1 & mc & E1 & A1 & C1 & H1). rewrite T1 in *. rewrite E1. cbn [obind].
  destruct (pm_decode_spec 1 ks (bits_of md) c1 (proj1 A1)) as (c2 & kc & E2 & A2 & C2 & H2). rewrite A1l in *. rewrite E2. cbn [obind].
  assert (M1 : map (times 1) ks = ks) by (rewrite (map_ext _ (fun x => x)), map_id by auto; auto). rewrite M1 in H2.
  pose proof (F2_len _ _ _ H2) as LK.
  assert (LM : length (concat mc) = 8 * length md) by (rewrite C1, map_length, seq_length; auto).
  assert (LKp : 1 <= length ks) by (destruct ks; [congruence|cbn; lia]).
  rewrite <- LK. rewrite (proj2 (Nat.leb_le 1 _)) by lia. cbn [oassert obind].
  change (@length (prod nat nat) (concat mc)) with (@length secret (concat mc)). rewrite (proj2 (Nat.leb_le (2 * length ks - 1) _)) by lia. cbn [oassert obind].
  destruct (pm_decode_spec dup ms (bits_of md ++ bits_of (concat ks)) c2 (proj1 A2)) as (c3 & tc & E3 & A3 & C3 & H3). rewrite E3. cbn [obind].
  set (all := md ++ concat ks ++ all_bytes dup ms).
  assert (A13 : inputs_added (8 * length all) c_new c3).
  { unfold all. rewrite !app_length, !Nat.mul_add_distr_l, Nat.add_assoc. eapply added_trans; [eapply added_trans; eauto|auto]. }
  pose proof (added_count _ _ _ A1) as N1. pose proof (added_count _ _ _ A2) as N2. pose proof (added_count _ _ _ A3) as N3.
  change (c_count (@c_new bool_gate)) with 0 in *. cbn [Nat.add] in N1.
  assert (HF := fun k m H => fresh_ins (c_count c3) c3 (one c3) (proj1 A3) eq_refl eq_refl k m H).
  assert (IM : Forall (ins (one c3)) (concat mc)) by (rewrite C1; apply HF; lia).
  assert (IK : Forall (chars (one c3)) kc) by (eapply all_chars; [exact H2|]; rewrite C2; apply HF; lia).
  assert (IT : Forall (chars (one c3)) tc) by (eapply all_chars; [exact H3|]; rewrite C3; apply HF; lia).
  assert (Hkc : kc <> []) by (destruct kc; [cbn in LK; lia|discriminate]).
  (* the loops *)
  assert (HLoop : mk (one c3) (pm_loops (concat mc) kc tc (one c3)) (fun b' l => Forall (ins b') l /\ length l = length tc)
    (fun v l => map (sv v) l = map (fun t => bchain (map (sv v) (concat mc)) (enumerate (map (vals v) kc)) (vals v t) false) tc)).
  { destruct Hemp as [Hms|Hne].
    - subst ms. inversion H3; subst. rewrite loops_empty. apply mk_ret; auto. apply one_inv. apply A3.
    - apply mk_loops; auto.
      + apply one_inv. apply A3.
      + clear -H2 Hne. induction H2 as [|x cs l css [HL _] HF IH]; constructor; inversion Hne; subst; auto.
        destruct cs; [destruct x; [congruence|discriminate]|discriminate].
      + lia. }
  destruct HLoop as (b4 & l & E4 & G4 & I4 & (K4 & L4) & V4). rewrite E4. cbn [obind].
  destruct A13 as (B3 & GG & GI & GO & GS). cbn [c_new c_gates c_inputs c_outputs c_scins app] in GG, GI, GO, GS.
  destruct (run_built W (8 * length all) c3 b4 l HW B3 GG GI GO GS G4 I4 K4) as (c5 & os & ec & E5 & Eec & Mok & Hsimd & Hin & Hout & HX).
  rewrite E5. cbn [obind]. exists c5, os, ec. cbv zeta. split.
  { unfold all. do 4 f_equal. rewrite !bits_of_flat, !flat_map_app, app_assoc. reflexivity. }
  split; auto. split; auto. split; auto. split; auto. split; auto.
  intros md' ks' ms' Lmd Lks Lms.
  exists (map (fun m => bchain (bits_of md') (enumerate (map (map byte_bits) ks')) (map byte_bits (times dup m)) false) ms').
  pose proof (F2_len _ _ _ Lks) as Lks'.
  split.
  { clear -Hks Hmd Lmd Lks'. induction ms' as [|m ms' IH]; constructor; auto. apply bchain_answer.
    - destruct ks'; [destruct ks; [congruence|discriminate]|discriminate].
    - rewrite bits_of_flat, flat_bits_length. rewrite Lks', Lmd. exact Hmd. }
  assert (LC : length (concat ks') = length (concat ks)).
  { clear -Lks. induction Lks; cbn [concat]; auto. rewrite !app_length. congruence. }
  assert (LT : length (all_bytes dup ms') = length (all_bytes dup ms)).
  { clear -Lms. unfold all_bytes. induction Lms; cbn [concat map]; auto. rewrite !app_length, !times_length. congruence. }
  apply HX.
  { rewrite bits_of_flat, flat_bits_length. unfold all. rewrite !app_length, Lmd, LC, LT. reflexivity. }
  intros v Hv Hv0. rewrite (V4 v Hv).
  assert (Hmap : forall k m, map (sv v) (map (pair 0) (seq k m)) = map (v 0) (seq k m)) by (intros k m; rewrite map_map; reflexivity).
  rewrite bits_of_flat, !flat_map_app in Hv0. unfold all in Hv0. rewrite !app_length, !Nat.mul_add_distr_l in Hv0.
  rewrite !seq_app, !map_app in Hv0. cbn [Nat.add] in Hv0.
  assert (Happ : forall (a b c d : list bool), length a = length c -> a ++ b = c ++ d -> a = c /\ b = d).
  { clear. induction a as [|x a IH]; intros b [|y c] d H E; try discriminate; auto.
    injection H as H. injection E as <- E. destruct (IH b c d H E) as [-> ->]. auto. }
  apply Happ in Hv0; [|rewrite map_length, seq_length, flat_bits_length; congruence]. destruct Hv0 as [V0 Hv0].
  apply Happ in Hv0; [|rewrite map_length, seq_length, flat_bits_length; congruence]. destruct Hv0 as [V1 V2].
  assert (EM : map (sv v) (concat mc) = bits_of md') by (rewrite C1, Hmap, bits_of_flat; exact V0).
  assert (EK : map (vals v) kc = map (map byte_bits) ks').
  { apply as_chars_all.
    - clear -H2 Lks. revert kc H2. induction Lks as [|x y ks' ks HL Lks IH]; intros kc H2; inversion H2 as [|? cs ? ? Hc Hr]; subst; constructor; auto.
      destruct Hc. split; auto. unfold as_chars in *. congruence.
    - rewrite C2, Hmap, N1. exact V1. }
  assert (ET : map (vals v) tc = map (map byte_bits) (map (times dup) ms')).
  { apply as_chars_all.
    - clear -H3 Lms. revert tc H3. induction Lms as [|x y ms' ms HL Lms IH]; intros tc H3; inversion H3 as [|? cs ? ? Hc Hr]; subst; constructor; auto.
      destruct Hc as [Hc1 Hc2]. split; auto. rewrite !times_length in *. congruence.
    - rewrite C3, Hmap, N2, N1. exact V2. }
  rewrite EM, EK. rewrite map_map in ET. rewrite <- (map_map (vals v) (fun t => bchain (bits_of md') (enumerate (map (map byte_bits) ks')) t false)), ET, map_map.
  reflexivity.
Qed.

(** Lists of shared texts. *)
Definition unshares (l0 l1 : list (list N)) : list (list N) := zip_with unshare l0 l1.

Lemma unshares_len l0 l1 : Forall2 (fun x y : list N => length x = length y) l0 l1 ->
  Forall2 (fun x y : list N => length x = length y) (unshares l0 l1) l0.
Proof. unfold unshares. induction 1 as [|x y l0 l1 H HF IH]; constructor; auto. apply unshare_length. auto. Qed.

Lemma unshares_concat l0 l1 : Forall2 (fun x y : list N => length x = length y) l0 l1 -> concat (unshares l0 l1) = unshare (concat l0) (concat l1).
Proof. unfold unshares. induction 1 as [|x y l0 l1 H HF IH]; cbn [zip_with concat]; auto. rewrite unshare_app, IH; auto. Qed.

Lemma unshares_all dup l0 l1 : Forall2 (fun x y : list N => length x = length y) l0 l1 ->
  all_bytes dup (unshares l0 l1) = unshare (all_bytes dup l0) (all_bytes dup l1).
Proof.
  unfold unshares, all_bytes. induction 1 as [|x y l0 l1 H HF IH]; cbn [zip_with map concat]; auto.
  rewrite unshare_app, IH, unshare_times; auto. rewrite !times_length. congruence.
Qed.

Lemma concat_len (l0 l1 : list (list N)) : Forall2 (fun x y : list N => length x = length y) l0 l1 -> length (concat l0) = length (concat l1).
Proof. induction 1; cbn [concat]; auto. rewrite !app_length. congruence. Qed.
Lemma all_len dup l0 l1 : Forall2 (fun x y : list N => length x = length y) l0 l1 -> length (all_bytes dup l0) = length (all_bytes dup l1).
Proof. unfold all_bytes. induction 1; cbn [concat map]; auto. rewrite !app_length, !times_length. congruence. Qed.

(** Two parties hold XOR shares of a query, a modifier chain and mails; the files
    of both have the same lengths.  Both build the same circuit, and executing it
    on the inputs they prepared gives shares of the answers, one per mail. *)
Theorem C70_search :
  forall W dup ks0 ks1 md0 md1 ms0 ms1, 0 < W ->
  Forall2 (fun x y : list N => length x = length y) ks0 ks1 -> length md0 = length md1 ->
  Forall2 (fun x y : list N => length x = length y) ms0 ms1 ->
  ks0 <> [] -> 2 * length ks0 - 1 <= 8 * length md0 -> (ms0 = [] \/ Forall (fun k => k <> []) ks0) ->
  exists b in0 in1 os c ec,
    priv_mail_search b_new ks0 md0 ms0 dup = Some (b, (in0, os)) /\
    priv_mail_search b_new ks1 md1 ms1 dup = Some (b, (in1, os)) /\
    b_cell b 0 = Some (0, c) /\ ec_of_base bool_ops c = Some ec /\ c_outputs c = os /\
    length in0 = length (c_inputs c) /\ length in1 = length (c_inputs c) /\
    exists answers,
    Forall2 (fun m a => answer (times dup m) (zip_with unshare ks0 ks1) (bits_of (unshare md0 md1)) a)
      (zip_with unshare ms0 ms1) answers /\
    forall (Sv : Type) (req : Sv -> nat -> option (mul_triples * Sv)) J,
    serves req (bool_setup_ok W) J ->
    forall s0 s1 rest, J (requests ec ++ rest) s0 s1 ->
    exists o0 o1 st',
      ex2_run (pr:=bool_gmw W) req ec (IScalar (pr:=bool_gmw W) in0) (IScalar (pr:=bool_gmw W) in1)
        ((go_init (pr:=bool_gmw W) ec, s0), (go_init (pr:=bool_gmw W) ec, s1)) = Some (o0, o1, st') /\
      shares_of W None o0 o1 (lane1 answers).
Proof.
  intros W dup ks0 ks1 md0 md1 ms0 ms1 HW Hks Hmd Hms K1 K2 K3.
  pose proof (F2_len _ _ _ Hks) as LK. pose proof (F2_len _ _ _ Hms) as LMs.
  assert (P0 : pm_ok ks0 md0 ms0) by (repeat (split; auto)).
  assert (P1 : pm_ok ks1 md1 ms1).
  { split; [destruct ks1; [destruct ks0; [congruence|discriminate]|discriminate]|]. split; [rewrite <- LK, <- Hmd; auto|].
    destruct K3 as [->|K3]; [left; inversion Hms; auto|right]. clear -K3 Hks. induction Hks as [|x y l m H HF IH]; constructor; inversion K3; subst; auto.
    destruct y; [destruct x; [congruence|discriminate]|discriminate]. }
  destruct (search_spec W ks0 md0 ms0 dup HW P0) as (c & os & ec & E0 & Eec & Mok & Hsimd & Hin & Hout & HX).
  destruct (search_spec W ks1 md1 ms1 dup HW P1) as (c' & os' & _ & E1 & _).
  set (in0 := bits_of (md0 ++ concat ks0 ++ all_bytes dup ms0)) in *.
  set (in1 := bits_of (md1 ++ concat ks1 ++ all_bytes dup ms1)) in *.
  assert (Esame : one c' = one c /\ os' = os).
  { revert E0 E1. clearbody in0 in1. unfold priv_mail_search. pose proof (pm_to_input_len b_new md0 md1 1 Hmd) as D1.
    destruct (pm_to_input b_new md0 1) as [[x0 [x1 x2]]|]; destruct (pm_to_input b_new md1 1) as [[y0 [y1 y2]]|]; cbn [obind]; try tauto; [|discriminate].
    destruct D1 as [-> ->]. pose proof (pm_decode_len 1 ks0 ks1 Hks y0 x1 y1) as D2.
    destruct (pm_decode_all y0 x1 ks0 1) as [[z0 [z1 z2]]|]; destruct (pm_decode_all y0 y1 ks1 1) as [[w0 [w1 w2]]|]; cbn [obind]; try tauto; [|discriminate].
    destruct D2 as [-> ->]. destruct (oassert (1 <=? 2 * length w2)); cbn [obind]; [|discriminate].
    match goal with |- context[oassert ?x] => destruct (oassert x) end; cbn [obind]; [|discriminate].
    pose proof (pm_decode_len dup ms0 ms1 Hms w0 z1 w1) as D3.
    destruct (pm_decode_all w0 z1 ms0 dup) as [[p0 [p1 p2]]|]; destruct (pm_decode_all w0 w1 ms1 dup) as [[q0 [q1 q2]]|]; cbn [obind]; try tauto; [|discriminate].
    destruct D3 as [-> ->]. destruct (pm_loops (concat y2) w2 q2 q0) as [[r0 r1]|]; cbn [obind]; [|discriminate].
    destruct (sec_outputs r0 r1) as [[t0 t1]|]; cbn [obind]; [|discriminate].
    intros X Y. assert (X1 : t0 = one c) by congruence. assert (X2 : t0 = one c') by congruence.
    assert (X3 : t1 = os) by congruence. assert (X4 : t1 = os') by congruence. split; congruence. }
  destruct Esame as [Ec Eo]. rewrite Ec, Eo in E1.
  assert (L01 : length (md0 ++ concat ks0 ++ all_bytes dup ms0) = length (md1 ++ concat ks1 ++ all_bytes dup ms1)).
  { rewrite !app_length, Hmd, (concat_len _ _ Hks), (all_len dup _ _ Hms). reflexivity. }
  exists (one c), in0, in1, os, c, ec. split; auto. split; auto. split; auto. split; auto. split; auto.
  split; [rewrite Hin, seq_length; unfold in0; rewrite bits_of_flat, flat_bits_length; reflexivity|].
  split; [rewrite Hin, seq_length; unfold in1; rewrite bits_of_flat, flat_bits_length, L01; reflexivity|].
  destruct (HX (unshare md0 md1) (unshares ks0 ks1) (unshares ms0 ms1)) as (outs & HA & HE).
  { apply unshare_length. auto. }
  { apply unshares_len. auto. }
  { apply unshares_len. auto. }
  exists outs. split; [exact HA|]. intros Sv req J HJ s0 s1 rest Hj. eapply HE; eauto.
  unfold shares_of. cbn [p_share bool_gmw]. unfold in0, in1. rewrite !bits_of_flat, !flat_bits_length. split; [rewrite L01; auto|].
  unfold lane1, bits_xor. f_equal. rewrite <- flat_bits_unshare by auto. f_equal.
  rewrite !unshare_app by (auto using concat_len). rewrite (unshares_concat _ _ Hks), (unshares_all dup _ _ Hms). reflexivity.
Qed.
Print Assumptions C70_search.

(** Every query of at least one keyword with a long enough chain has exactly one
    answer for a text, so the answers above are determined. *)
Theorem C70_one_answer :
  forall text ks bits, ks <> [] -> 2 * length ks - 1 <= length bits ->
  exists a, answer text ks bits a /\ forall a', answer text ks bits a' -> a' = a.
Proof.
  intros text ks bits Hk HL. pose proof (bchain_answer text ks bits Hk HL) as H. eexists. split; [exact H|].
  intros a' H'. eapply answer_unique; eauto.
Qed.
Print Assumptions C70_one_answer.

(** ** Panics *)

Lemma ofold_none {A B} (f : A -> B -> option A) l1 x l2 : (forall st, f st x = None) -> forall st, ofold f st (l1 ++ x :: l2) = None.
Proof.
  intros H. induction l1 as [|y l1 IH]; intros st; cbn [app ofold]; [rewrite H; reflexivity|].
  destruct (f st y); cbn [obind]; auto.
Qed.

Lemma empty_compares t : forall ks b b' cs, pm_compares b [] t ks = Some (b', cs) -> Forall (fun z => z = []) cs /\ length cs = length ks.
Proof.
  induction ks as [|k ks IH]; intros b b' cs H; cbn [pm_compares] in H; [injection H as <- <-; auto|].
  destruct (pm_compare b [] t k) as [[b1 c]|] eqn:E; [|discriminate]. cbn [obind] in H.
  destruct (pm_compares b1 [] t ks) as [[b2 cs']|] eqn:E2; [|discriminate]. cbn [obind] in H. injection H as <- <-.
  destruct (IH _ _ _ E2). unfold pm_compare in E. destruct (oassert (k + length (@nil (list secret)) <=? length t)); [|discriminate].
  cbn in E. injection E as <- <-. split; [constructor; auto|cbn; congruence].
Qed.

Lemma empty_keyword b t : pm_per_mail b [] t = None.
Proof.
  unfold pm_per_mail. destruct (sec_const b 0 false) as [[b1 f]|]; auto. cbn [obind length Nat.leb].
  unfold pm_search. cbn [length Nat.leb oassert obind].
  destruct (pm_compares b1 [] t (seq 0 (length t - 0 + 1))) as [[b2 cs]|] eqn:E; auto. cbn [obind].
  apply empty_compares in E. destruct E as [HF HL]. rewrite seq_length in HL. destruct cs as [|c cs]; [cbn in HL; lia|].
  inversion HF; subst. reflexivity.
Qed.

Lemma in_enumerate {A} (x : A) l : In x l -> exists l1 j l2, enumerate l = l1 ++ (j, x) :: l2.
Proof.
  unfold enumerate. generalize 0 as s. induction l as [|y l IH]; intros s H; [destruct H|]. cbn [length seq combine]. destruct H as [->|H].
  - exists [], s, (combine (seq (S s) (length l)) l). reflexivity.
  - destruct (IH (S s) H) as (l1 & j & l2 & ->). exists ((s, y) :: l1), j, l2. reflexivity.
Qed.

(** The search panics exactly on an empty query, a chain that is too short, or an
    empty keyword when there are mails. *)
Theorem C70_panics :
  forall dup ks md ms,
  priv_mail_search b_new ks md ms dup = None <->
  ks = [] \/ 8 * length md < 2 * length ks - 1 \/ (In [] ks /\ ms <> []).
Proof.
  intros dup ks md ms. split.
  - intros H. destruct ks as [|k0 ks0] eqn:Ek; auto. right. rewrite <- Ek in *.
    destruct (Nat.lt_ge_cases (8 * length md) (2 * length ks - 1)) as [L|L]; auto. right.
    destruct ms as [|m ms'] eqn:Em.
    + exfalso. destruct (search_spec 1 ks md [] dup) as (c & os & ec & E & _); [lia| |rewrite E in H; discriminate].
      split; [rewrite Ek; discriminate|auto].
    + rewrite <- Em in *. split; [|rewrite Em; discriminate].
      destruct (in_dec (list_eq_dec N.eq_dec) [] ks) as [|Hn]; auto. exfalso.
      destruct (search_spec 1 ks md ms dup) as (c & os & ec & E & _); [lia| |rewrite E in H; discriminate].
      split; [rewrite Ek; discriminate|]. split; auto. right. apply Forall_forall. intros x Hx ->. auto.
  - intros H. unfold priv_mail_search. change b_new with (one c_new).
    destruct (pm_to_input_spec md 1 c_new built_new) as (c1 & mc & E1 & A1 & C1 & H1). rewrite E1. cbn [obind].
    destruct (pm_decode_spec 1 ks (bits_of (times 1 md)) c1 (proj1 A1)) as (c2 & kc & E2 & A2 & C2 & H2). rewrite E2. cbn [obind].
    pose proof (F2_len _ _ _ H2) as LK. rewrite map_length in LK. rewrite <- LK.
    assert (LM : length (concat mc) = 8 * length md).
    { rewrite C1, map_length, seq_length, times_length. lia. }
    destruct (Nat.leb_spec 1 (2 * length ks)) as [L1|L1]; cbn [oassert obind]; auto.
    change (@length (prod nat nat) (concat mc)) with (@length secret (concat mc)).
    destruct (Nat.leb_spec (2 * length ks - 1) (length (concat mc))) as [L2|L2]; cbn [oassert obind]; auto.
    destruct H as [->|[H|[H Hms]]]; [cbn in L1; lia|lia|].
    destruct (pm_decode_spec dup ms (bits_of (times 1 md) ++ bits_of (all_bytes 1 ks)) c2 (proj1 A2)) as (c3 & tc & E3 & A3 & C3 & H3).
    rewrite E3. cbn [obind].
    assert (Ht : tc <> []) by (pose proof (F2_len _ _ _ H3) as LT; rewrite map_length in LT; destruct tc; [destruct ms; [congruence|discriminate]|discriminate]).
    assert (Hk : In [] kc).
    { clear -H H2. revert kc H2. induction ks as [|k ks IH]; intros kc H2; [destruct H|]. cbn [map] in H2. inversion H2 as [|? cs ? css Hc Hr]; subst.
      destruct H as [->|H]; [left|right; auto]. destruct Hc as [Hc _]. destruct cs; auto. discriminate. }
    assert (HL : pm_loops (concat mc) kc tc (one c3) = None); [|rewrite HL; reflexivity].
    unfold pm_loops. destruct (in_enumerate _ _ Hk) as (l1 & j & l2 & ->). apply ofold_none. intros [b res]. cbn [fst snd].
    destruct tc as [|t tc]; [congruence|]. unfold enumerate. cbn [length seq combine ofold pm_round].
    rewrite empty_keyword. reflexivity.
Qed.
Print Assumptions C70_panics.

(** Concrete: the query "k1 and not k2" ([k1 = [7; 1]], [k2 = [3]]) over three mails,
    with shares; byte 65 is the same character as byte 1.  The lengths of the shared
    files agree, the chain is long enough; the first mail has k1 only, the second
    both, the third neither.  The circuit has 88 inputs and 3 outputs.  Panicking
    calls for comparison. *)
Example C70_case :
  let ks0 := [[200; 14]; [90]]%N in let ks1 := [[207; 15]; [89]]%N in
  let md0 := [1]%N in let md1 := [5]%N in
  let ms0 := [[9; 9; 9]; [1; 2; 3]; [4]]%N in let ms1 := [[14; 72; 0]; [6; 3; 0]; [4]]%N in
  zip_with unshare ks0 ks1 = [[7; 1]; [3]]%N /\ zip_with unshare ms0 ms1 = [[7; 65; 9]; [7; 1; 3]; [0]]%N /\
  bits_of (unshare md0 md1) = [false; false; true; false; false; false; false; false] /\
  Forall2 (fun x y : list N => length x = length y) ks0 ks1 /\ Forall2 (fun x y : list N => length x = length y) ms0 ms1 /\
  2 * length ks0 - 1 <= 8 * length md0 /\ Forall (fun k => k <> []) ks0 /\
  option_map (fun r => (length (fst (snd r)), length (snd (snd r)))) (priv_mail_search b_new ks0 md0 ms0 1) = Some (88, 3) /\
  answer [7; 65; 9]%N [[7; 1]; [3]]%N (bits_of (unshare md0 md1)) true /\
  answer [7; 1; 3]%N [[7; 1]; [3]]%N (bits_of (unshare md0 md1)) false /\
  answer [0]%N [[7; 1]; [3]]%N (bits_of (unshare md0 md1)) false /\
  priv_mail_search b_new [] md0 ms0 1 = None /\ priv_mail_search b_new [[1]; []]%N md0 ms0 1 = None /\
  priv_mail_search b_new ks0 [] ms0 1 = None.
Proof.
  assert (HA : forall t, answer t [[7; 1]; [3]]%N (bits_of (unshare [1] [5]))%N
    (bchain (bits_of (unshare [1] [5])%N) (enumerate (map (map byte_bits) [[7; 1]; [3]]%N)) (map byte_bits t) false)).
  { intros t. apply bchain_answer; [discriminate|]. apply Nat.leb_le. reflexivity. }
  cbv zeta. split; [reflexivity|]. split; [reflexivity|]. split; [reflexivity|].
  split; [repeat constructor|]. split; [repeat constructor|]. split; [apply Nat.leb_le; reflexivity|].
  split; [repeat constructor; discriminate|]. split; [vm_compute; reflexivity|].
  split; [exact (HA [7; 65; 9]%N)|]. split; [exact (HA [7; 1; 3]%N)|]. split; [exact (HA [0]%N)|].
  split; [apply C70_panics; auto|]. split; apply C70_panics; right.
  - right. split; [cbn; auto|discriminate].
  - left. apply Nat.ltb_lt. reflexivity.
Qed.
