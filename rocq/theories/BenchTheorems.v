(** C74: benchmark runs. *)
From Coq Require Import List Bool Arith Lia Permutation.
Require Import Verif.Prelude Verif.PreludeProofs Verif.BitVecModel Verif.BitVecSpec Verif.BitVecProofs Verif.GateModel Verif.CircuitModel
  Verif.ProtocolModel Verif.BoolGmwModel Verif.BoolGmwSpec Verif.BoolGmwProofs Verif.BoolGmwProofs2 Verif.InlineModel Verif.BristolSpec Verif.BristolTheorems
  Verif.ExecModel Verif.ExecSpec Verif.ExecBoolSpec Verif.ExecBoolProofs Verif.ExecTheorems
  Verif.ConnModel Verif.BuilderModel Verif.MultiModel Verif.MultiTheorems Verif.StaticModel Verif.CbcScModel
  Verif.StaticTheorems Verif.BristolToolModel Verif.BristolToolTheorems Verif.BenchModel.
Import ListNotations.

(** ** The insecure provider *)
Section Provider.
Variable S : Type.
Variables (fill : S -> nat -> list bool * S) (s42 : S) (W : nat).
Hypothesis fill_length : forall s n, length (fst (fill s n)) = n.
Hypothesis HW : 0 < W.

Lemma gen_ok n : exists t, gen_mts fill s42 W n = Some t /\ mts_wf W 0 n t.
Proof.
  unfold gen_mts, mts_random. pose proof (rand_bitvec_spec S fill fill_length W n) as RS.
  pose proof (RS s42 HW) as (P1 & P2 & P3 & _). destruct (rand_bitvec fill W n s42) as [a s1]; cbn [fst] in *.
  pose proof (RS s1 HW) as (Q1 & Q2 & Q3 & _). destruct (rand_bitvec fill W n s1) as [b s2]; cbn [fst] in *.
  pose proof (RS s2 HW) as (U1 & U2 & U3 & _). destruct (rand_bitvec fill W n s2) as [c s3]; cbn [fst] in *.
  unfold mts_from_raw. rewrite P3, Q3, U3, Nat.eqb_refl. cbn [andb obind]. eexists. split; [reflexivity|].
  unfold mts_wf. cbn [ts_a ts_b ts_c]. auto 10.
Qed.

(** Both parties' providers are in the same state. *)
Definition ip_same (ns : list nat) (s0 s1 : ip_state) : Prop :=
  s0 = s1 /\ match s0 with None => True | Some t => exists h n, mts_wf W h n t end.

Lemma triples_same t : triples_ok (mts_iter t) (mts_iter t).
Proof.
  unfold triples_ok. induction (mts_iter t) as [|x l IH]; constructor; auto. destruct x as [[] [] []]; reflexivity.
Qed.

Lemma ip_serves : serves (ip_request fill s42 W) (bool_setup_ok W) ip_same.
Proof.
  intros n ns s0 s1 [<- Hs]. destruct (gen_ok n) as (g & Eg & Wg).
  assert (Hg : bool_setup_ok W n g g) by (exists 0, n; split; auto; split; auto; split; auto; apply triples_same).
  destruct s0 as [t|].
  - destruct Hs as (h & k & Hwf). unfold ip_request. destruct (n <=? mts_len t) eqn:En.
    + apply Nat.leb_le in En. assert (Hl : mts_len t = k) by (unfold mts_len; apply Hwf). rewrite Hl in En.
      destruct (mts_split_off_last_spec W h k t n HW Hwf En) as (R & U & E & WR & WU & _). rewrite E. cbn [obind].
      exists U, U, (Some R), (Some R). split; auto. split; auto. split.
      * eexists _, n. split; [lia|]. split; [exact WU|]. split; [exact WU|]. apply triples_same.
      * split; auto. eauto.
    + rewrite Eg. cbn [obind]. exists g, g, (Some t), (Some t). repeat (split; auto). eauto.
  - unfold ip_request. rewrite Eg. cbn [obind]. exists g, g, None, None. repeat (split; auto).
Qed.

Lemma ip_start ns (pre : option nat) r0 r1 : r_pre (W:=W) r0 = pre -> r_pre (W:=W) r1 = pre ->
  exists t, insecure_start W fill s42 r0 = Some t /\ insecure_start W fill s42 r1 = Some t /\ ip_same ns t t.
Proof.
  intros E0 E1. unfold insecure_start. rewrite E0, E1. destruct pre as [n|].
  - unfold ip_precompute. destruct (gen_ok n) as (t & -> & Ht). exists (Some t). cbn [obind]. split; auto. split; auto. split; auto. eauto.
  - exists None. repeat (split; auto).
Qed.
End Provider.

(** ** The insecure provider serves two parties *)

(** Whatever the fixed seed gives: as long as both parties make the same calls, all
    triples they get are valid together, also when more are requested than were
    precomputed. *)
Definition same_calls {S} (fill : S -> nat -> list bool * S) (s42 : S) (W : nat) (pre : option nat) (ns : list nat) :
  option (list mul_triples * ip_state) :=
  st <- match pre with None => Some None | Some n => ip_precompute fill s42 W n end ;;
  ofold (fun acc n => '(t, st') <- ip_request fill s42 W (snd acc) n ;; Some (fst acc ++ [t], st')) ([], st) ns.

Theorem C74_insecure_provider :
  forall (S : Type) (fill : S -> nat -> list bool * S) s42 W, 0 < W -> (forall s n, length (fst (fill s n)) = n) ->
  forall pre ns, exists ts st, same_calls fill s42 W pre ns = Some (ts, st) /\
    Forall2 (fun n t => mts_len t = n /\ length (mts_iter t) = n /\ triples_ok (mts_iter t) (mts_iter t)) ns ts.
Proof.
  intros S fill s42 W HW HF pre ns. unfold same_calls.
  assert (HG : forall ns st l, (match st with None => True | Some t => exists h n, mts_wf W h n t end) ->
    exists ts st', ofold (fun acc n => '(t, st') <- ip_request fill s42 W (snd acc) n ;; Some (fst acc ++ [t], st')) (l, st) ns = Some (l ++ ts, st') /\
      Forall2 (fun n t => mts_len t = n /\ length (mts_iter t) = n /\ triples_ok (mts_iter t) (mts_iter t)) ns ts).
  { clear pre ns. induction ns as [|n ns IH]; intros st l Hs.
    - exists [], st. rewrite app_nil_r. split; [reflexivity|constructor].
    - assert (HR : exists t st', ip_request fill s42 W st n = Some (t, st') /\ (exists h, mts_wf W h n t) /\
        match st' with None => True | Some u => exists h k, mts_wf W h k u end).
      { destruct (gen_ok S fill s42 W HF HW n) as (g & Eg & Wg). destruct st as [t|]; unfold ip_request.
        - destruct Hs as (h & k & Hwf). destruct (n <=? mts_len t) eqn:En.
          + apply Nat.leb_le in En. assert (Hl : mts_len t = k) by (unfold mts_len; apply Hwf). rewrite Hl in En.
            destruct (mts_split_off_last_spec W h k t n HW Hwf En) as (R & U & E & WR & WU & _). rewrite E. cbn [obind].
            exists U, (Some R). split; auto. split; eauto.
          + rewrite Eg. cbn [obind]. exists g, (Some t). split; auto. split; eauto.
        - rewrite Eg. cbn [obind]. exists g, None. split; auto. split; eauto. }
      destruct HR as (t & st' & E & (h & Ht) & Hs'). cbn [ofold]. cbn [snd fst]. rewrite E. cbn [obind].
      destruct (IH st' (l ++ [t]) Hs') as (ts & st2 & E2 & HF2). exists (t :: ts), st2. rewrite <- app_assoc in E2. split; [exact E2|].
      constructor; auto. split; [unfold mts_len; apply Ht|]. split; [apply (mts_iter_length _ _ _ _ Ht)|apply triples_same]. }
  destruct pre as [n|].
  - unfold ip_precompute. destruct (gen_ok S fill s42 W HF HW n) as (g & -> & Wg). cbn [obind].
    destruct (HG ns (Some g) []) as (ts & st' & E & H); [eauto|]. exists ts, st'. auto.
  - cbn [obind]. destruct (HG ns None []) as (ts & st' & E & H); auto. exists ts, st'. auto.
Qed.
Print Assumptions C74_insecure_provider.

(** ** Setters *)

(** The last value that a setter of one kind was called with. *)
Definition last_set {A} (pick : bp_setter -> option A) (ss : list bp_setter) (d : A) : A :=
  fold_left (fun a s => match pick s with Some v => v | None => a end) ss d.

(** No sequence of setter calls that does not panic leads to the arm marked as
    unreachable; every option has the value that was set last. *)
Theorem C74_setters :
  forall id ss p, ofold bp_set (bp_new id) ss = Some p ->
    (bp_id p = id /\
     bp_circ p = last_set (fun s => match s with SCircuit x => Some (Some x) | _ => None end) ss None /\
     bp_insecure p = last_set (fun s => match s with SInsecure b => Some b | _ => None end) ss false /\
     bp_stored p = last_set (fun s => match s with SStored q => Some (Some q) | _ => None end) ss None /\
     bp_pre p = last_set (fun s => match s with SPrecompute b => Some b | _ => None end) ss true /\
     bp_inter p = last_set (fun s => match s with SInterleave b => Some b | _ => None end) ss false /\
     bp_repeat p = last_set (fun s => match s with SRepeat n => Some n | _ => None end) ss 1) /\
    exists k, bp_provider p = Some k /\ (k = PInsecure <-> bp_insecure p = true) /\ (forall path, k = PStored path <-> bp_stored p = Some path).
Proof.
  intros id ss p H. split.
  { assert (HG : forall ss q, ofold bp_set q ss = Some p ->
      bp_id p = bp_id q /\
      bp_circ p = last_set (fun s => match s with SCircuit x => Some (Some x) | _ => None end) ss (bp_circ q) /\
      bp_insecure p = last_set (fun s => match s with SInsecure b => Some b | _ => None end) ss (bp_insecure q) /\
      bp_stored p = last_set (fun s => match s with SStored q => Some (Some q) | _ => None end) ss (bp_stored q) /\
      bp_pre p = last_set (fun s => match s with SPrecompute b => Some b | _ => None end) ss (bp_pre q) /\
      bp_inter p = last_set (fun s => match s with SInterleave b => Some b | _ => None end) ss (bp_inter q) /\
      bp_repeat p = last_set (fun s => match s with SRepeat n => Some n | _ => None end) ss (bp_repeat q)).
    { clear. induction ss as [|s ss IH]; intros q E; cbn [ofold] in E; [injection E as <-; repeat split|].
      destruct (bp_set q s) as [q'|] eqn:Eq; [|discriminate]. cbn [obind] in E. specialize (IH q' E).
      destruct s; cbn [bp_set] in Eq; try (injection Eq as <-; exact IH).
      - destruct (oassert _); cbn [obind] in Eq; [|discriminate]. injection Eq as <-. exact IH.
      - destruct (oassert _); cbn [obind] in Eq; [|discriminate]. injection Eq as <-. exact IH. }
    exact (HG ss (bp_new id) H). }
  assert (HI : forall ss q p, (bp_insecure q = false \/ bp_stored q = None) -> ofold bp_set q ss = Some p -> bp_insecure p = false \/ bp_stored p = None).
  { clear. induction ss as [|s ss IH]; intros q p Hq E; cbn [ofold] in E; [injection E as <-; auto|].
    destruct (bp_set q s) as [q'|] eqn:Eq; [|discriminate]. cbn [obind] in E. apply (IH q' p); auto.
    destruct s; cbn [bp_set] in Eq; try (injection Eq as <-; cbn; tauto).
    - destruct (bp_stored q) eqn:Es; cbn in Eq; [discriminate|]. injection Eq as <-. cbn. auto.
    - destruct (bp_insecure q) eqn:Es; cbn in Eq; [discriminate|]. injection Eq as <-. cbn. auto. }
  specialize (HI ss (bp_new id) p (or_introl eq_refl) H). unfold bp_provider.
  destruct (bp_insecure p) eqn:E1, (bp_stored p) as [path|] eqn:E2; [destruct HI; discriminate|..];
    eexists; (split; [reflexivity|]); (split; [split; congruence|]); intros q; split; congruence.
Qed.
Print Assumptions C74_setters.

(** ** Runs with a given circuit *)

(** Input number [j] in lane [i] of the fake inputs, reconstructed: random bits in a
    scalar circuit; in a SIMD circuit all inputs get the same random lanes. *)
Definition bench_input (rnd : nat -> nat -> list bool) (simd : option nat) (nin i : nat) : list bool :=
  match simd with
  | None => bits_xor (rnd 0 nin) (rnd 42 nin)
  | Some size => repeat (xorb (nth i (rnd 0 size) false) (nth i (rnd 42 size) false)) nin
  end.

Lemma loop_same rnd W geqb imax perm p r g : bp_circ p <> None ->
  bench_one rnd W geqb imax perm p g = Some (r, g) -> forall n, bench_loop rnd W geqb imax perm p n g = Some (repeat r n).
Proof.
  intros _ E n. induction n as [|n IH]; auto. cbn [bench_loop]. rewrite E. cbn [obind]. rewrite IH. reflexivity.
Qed.

Lemma zip_repeat {A B C} (f : A -> B -> C) x y n : zip_with f (repeat x n) (repeat y n) = repeat (f x y) n.
Proof. induction n; simpl; auto. f_equal. auto. Qed.

Lemma map_rep {A B} (f : A -> B) x n : map f (repeat x n) = repeat (f x) n.
Proof. induction n; simpl; auto. f_equal. auto. Qed.

Lemma nth_xor a : forall b i, length a = length b -> nth i (bits_xor a b) false = xorb (nth i a false) (nth i b false).
Proof.
  unfold bits_xor. induction a as [|x a IH]; intros [|y b] [|i] H; try discriminate H; auto. cbn. apply IH. injection H; auto.
Qed.

Lemma lane_vec_bits W l : 0 < W -> lane_vec W (length l) (bv_of_bits W l).
Proof.
  intros HW. unfold lane_vec, bv_of_bits. split; [apply bv_copy_wf; auto|]. split; reflexivity.
Qed.

(** Any benchmark of a circuit compiled from a Bristol circuit, with any provider,
    with triples computed before or while executing: all runs succeed and are the
    same.  Where triples are computed before, their number is the number that the
    execution uses.  The execution gives in every lane the Bristol function of the fake
    inputs; with the insecure provider without further conditions. *)
Theorem C74_bench_bristol :
  forall W b F simd dyn_layers imax geqb perm, 0 < W ->
  0 < br_total_in b -> 0 < br_total_out b -> br_header_ok b -> br_wires_ok b -> br_no_self b ->
  (forall x, length x = br_total_in b -> br_eval b x = Some (F x)) ->
  (forall size, simd = Some size -> size <> 0 /\ size mod W = 0) ->
  (forall x y, geqb x y = true <-> x = y) -> rearranges perm ->
  forall rnd, (forall seed n, length (rnd seed n) = n) ->
  exists m, bt_circuit b simd = Some m /\
    (Forall (fun c => c_count c <= imax) (mc_circuits m) ->
     exists x ec, bt_compile geqb imax perm b simd dyn_layers = Some x /\ x_ec imax perm x = Some ec /\
     forall p0 p1 g0 g1, bp_circ p0 = Some x -> bp_circ p1 = Some x -> bp_id p0 = 0 -> bp_id p1 = 1 ->
     bp_inter p0 = bp_inter p1 -> bp_provider p0 <> None -> bp_provider p1 <> None ->
     exists r0 r1,
       bench_runs rnd W geqb imax perm p0 g0 = Some (repeat r0 (bp_repeat p0)) /\
       bench_runs rnd W geqb imax perm p1 g1 = Some (repeat r1 (bp_repeat p1)) /\
       r_circ r0 = x /\ r_circ r1 = x /\
       (forall r, r = r0 \/ r = r1 -> r_pre r = if bp_inter p0 then None else Some (sum_list (requests ec))) /\
       (forall (Sv : Type) (req : Sv -> nat -> option (mul_triples * Sv)) J s0 s1, serves req (bool_setup_ok W) J ->
          J (requests ec) s0 s1 ->
          exists o0 o1 st' outs, ex2_run (pr:=bool_gmw W) req ec (r_input r0) (r_input r1)
              ((go_init (pr:=bool_gmw W) ec, s0), (go_init (pr:=bool_gmw W) ec, s1)) = Some (o0, o1, st') /\
            shares_of W simd o0 o1 outs /\ length outs = br_total_out b /\
            forall i, i < lanes_of simd -> lane i outs = F (bench_input rnd simd (br_total_in b) i)) /\
       (forall (S : Type) (fill : S -> nat -> list bool * S) s42, (forall s n, length (fst (fill s n)) = n) ->
          exists o0 o1 outs, insecure_exec W imax perm fill s42 r0 r1 = Some (o0, o1) /\
            shares_of W simd o0 o1 outs /\ length outs = br_total_out b /\
            forall i, i < lanes_of simd -> lane i outs = F (bench_input rnd simd (br_total_in b) i))).
Proof.
  intros W b F simd dyn imax geqb perm HW Ha Hm H1 H2 H3 HF HS Hg HP rnd HR.
  destruct (C73_bristol_tool W b F simd dyn imax geqb perm HW Ha Hm H1 H2 H3 HF HS Hg HP) as (m & Em & H). exists m. split; auto.
  intros HI. destruct (H HI) as (x & ec & Ex & Eec & HX & (R1 & R2 & R3) & _). clear H HI. exists x, ec. split; auto. split; auto.
  intros p0 p1 g0 g1 C0 C1 I0 I1 HN V0 V1. set (nin := br_total_in b) in *.
  destruct (bp_provider p0) as [k0|] eqn:K0; [|congruence]. destruct (bp_provider p1) as [k1|] eqn:K1; [|congruence].
  set (inp := fun seed => match simd with None => @IScalar (bool_gmw W) (rnd seed nin)
                          | Some size => @ISimd (bool_gmw W) (repeat (bv_of_bits W (rnd seed size)) nin) end).
  set (pre := if bp_inter p0 then None else Some (sum_list (requests ec))).
  assert (HO : forall p k g, bp_circ p = Some x -> bp_provider p = Some k -> bp_inter p = bp_inter p0 ->
     bench_one rnd W geqb imax perm p g = Some (BR x k pre (inp (42 * bp_id p)), g)).
  { intros p k g Hc Hk Hi. unfold bench_one, bench_circuit, fake_inp. rewrite Hc. cbn [obind]. rewrite Hk. cbn [obind].
    rewrite R1. cbn [obind]. rewrite R2. cbn [obind]. rewrite R3. cbn [obind]. rewrite Hi. unfold pre, inp. destruct simd; reflexivity. }
  pose proof (HO p0 k0 g0 C0 K0 eq_refl) as O0. pose proof (HO p1 k1 g1 C1 K1 (eq_sym HN)) as O1.
  rewrite I0 in O0. rewrite I1 in O1. change (42 * 0) with 0 in O0. change (42 * 1) with 42 in O1.
  exists (BR x k0 pre (inp 0)), (BR x k1 pre (inp 42)). unfold bench_runs.
  split; [apply loop_same; congruence|]. split; [apply loop_same; congruence|]. split; auto. split; auto.
  split; [intros r [->| ->]; reflexivity|].
  assert (HIn : exists ins, shares_of W simd (inp 0) (inp 42) ins /\ length ins = nin /\
    forall i, i < lanes_of simd -> lane i ins = bench_input rnd simd nin i).
  { unfold inp, shares_of, bench_input. destruct simd as [size|].
    - exists (repeat (bits_xor (rnd 0 size) (rnd 42 size)) nin). split; [|split].
      + rewrite !repeat_length. split; auto. pose proof (lane_vec_bits W (rnd 0 size) HW) as L0. pose proof (lane_vec_bits W (rnd 42 size) HW) as L1.
        rewrite HR in L0, L1. split; [|split].
        * apply Forall_forall. intros y Hy. apply repeat_spec in Hy. subst y. exact L0.
        * apply Forall_forall. intros y Hy. apply repeat_spec in Hy. subst y. exact L1.
        * rewrite zip_repeat, !bv_of_bits_bits; auto.
      + apply repeat_length.
      + intros i Hi. unfold lane. rewrite map_rep. f_equal. apply nth_xor. rewrite !HR. auto.
    - exists (map (fun x => [x]) (bits_xor (rnd 0 nin) (rnd 42 nin))). split; [|split].
      + split; [|reflexivity]. rewrite !HR. auto.
      + rewrite map_length. unfold bits_xor. rewrite zip_with_length, !HR. apply Nat.min_id.
      + intros i Hi. unfold lane. rewrite map_map. cbn [lanes_of] in Hi. assert (i = 0) as -> by lia. cbn [nth]. apply map_id. }
  destruct HIn as (ins & HSh & HLn & HLi). cbn [r_input].
  assert (HE : forall (Sv : Type) (req : Sv -> nat -> option (mul_triples * Sv)) J s0 s1, serves req (bool_setup_ok W) J ->
          J (requests ec) s0 s1 ->
          exists o0 o1 st' outs, ex2_run (pr:=bool_gmw W) req ec (inp 0) (inp 42)
              ((go_init (pr:=bool_gmw W) ec, s0), (go_init (pr:=bool_gmw W) ec, s1)) = Some (o0, o1, st') /\
            shares_of W simd o0 o1 outs /\ length outs = br_total_out b /\
            forall i, i < lanes_of simd -> lane i outs = F (bench_input rnd simd nin i)).
  { intros Sv req J s0 s1 HJ Hj. rewrite <- (app_nil_r (requests ec)) in Hj.
    destruct (HX Sv req J HJ (inp 0) (inp 42) ins HSh HLn s0 s1 [] Hj) as (o0 & o1 & st' & outs & E & So & Lo & _ & Vo).
    exists o0, o1, st', outs. split; auto. split; auto. split; auto. intros i Hi. rewrite (Vo i Hi), (HLi i Hi). auto. }
  split; [exact HE|]. intros S fill s42 Hfill. unfold insecure_exec. cbn [r_circ r_input]. rewrite Eec. cbn [obind].
  destruct (ip_start S fill s42 W Hfill HW (requests ec) pre (BR x k0 pre (inp 0)) (BR x k1 pre (inp 42)) eq_refl eq_refl) as (t & -> & -> & Ht).
  cbn [obind]. destruct (HE ip_state _ _ t t (ip_serves S fill s42 W Hfill HW) Ht) as (o0 & o1 & st' & outs & -> & R). cbn [obind].
  exists o0, o1, outs. auto.
Qed.
Print Assumptions C74_bench_bristol.

(** ** Runs without a given circuit *)

Lemma default_into : fst (b_into b_default) = MC [c_new] [0] cn_empty.
Proof. reflexivity. Qed.

Lemma default_static geqb imax perm : rearranges perm ->
  x_precompute geqb imax perm (XDyn (MC [c_new] [0] cn_empty)) = Some (XStatic (SCirc [] [] [] [0] [] cn_empty)).
Proof.
  intros HP. cbn [x_precompute]. unfold st_precompute.
  assert (E : mc_layers bool_ops imax (MC [c_new] [0] cn_empty) perm = Some []).
  { unfold mc_layers. change (mi_new (MC [@c_new bool_gate] [0] cn_empty)) with (Some [(0, li_new (@c_new bool_gate))]). cbn [obind].
    change (mc_count (MC [@c_new bool_gate] [0] cn_empty)) with 0. cbn [mi_collect].
    pose proof (HP 0 [(0, li_new (@c_new bool_gate))]) as H. apply Permutation_length_1_inv in H. rewrite H. reflexivity. }
  rewrite E. reflexivity.
Qed.

(** Without [explicit_circuit] only the first run executes the circuit in the global
    builder.  With precomputed layers, the default, a benchmark with a second run
    panics. *)
Theorem C74_second_run_panics :
  forall rnd W geqb imax perm p g, rearranges perm -> bp_circ p = None -> bp_pre p = true -> 2 <= bp_repeat p ->
  bench_runs rnd W geqb imax perm p g = None.
Proof.
  intros rnd W geqb imax perm p g HP Hc Hp Hr. unfold bench_runs. destruct (bp_repeat p) as [|[|n]]; [lia|lia|]. cbn [bench_loop].
  destruct (bench_one rnd W geqb imax perm p g) as [[r g']|] eqn:E; [|reflexivity]. cbn [obind].
  assert (g' = b_default) as ->.
  { unfold bench_one, bench_circuit in E. rewrite Hc, Hp in E.
    destruct (x_precompute geqb imax perm (XDyn (fst (b_into g)))) as [e|]; [|discriminate]. cbn [obind] in E.
    destruct (bp_provider p); [|discriminate]. cbn [obind] in E. destruct (x_int_count e); [|discriminate]. cbn [obind] in E.
    destruct (fake_inp rnd W (bp_id p) e); [|discriminate]. cbn [obind] in E. injection E as _ <-. reflexivity. }
  assert (E2 : bench_one rnd W geqb imax perm p b_default = None).
  { unfold bench_one, bench_circuit. rewrite Hc, Hp, default_into, (default_static geqb imax perm HP). cbn [obind].
    destruct (bp_provider p); reflexivity. }
  rewrite E2. reflexivity.
Qed.
Print Assumptions C74_second_run_panics.

(** With layers computed on the fly the first run executes the circuit in the
    global builder; all further runs execute a circuit without gates and inputs. *)
Theorem C74_second_run_empty :
  forall rnd W geqb imax perm p g rs, (forall seed n, length (rnd seed n) = n) ->
  bp_circ p = None -> bp_pre p = false ->
  bench_runs rnd W geqb imax perm p g = Some rs ->
  length rs = bp_repeat p /\
  forall k r, nth_error rs k = Some r ->
    (k = 0 -> r_circ r = XDyn (fst (b_into g))) /\
  (k <> 0 -> exists m, r_circ r = XDyn m /\ mc_count m = 0 /\ r_input r = @IScalar (bool_gmw W) []).
Proof.
  intros rnd W geqb imax perm p g rs HR Hc Hp H. unfold bench_runs in H.
  assert (HO : forall g r g', bench_one rnd W geqb imax perm p g = Some (r, g') -> g' = b_default /\ r_circ r = XDyn (fst (b_into g)) /\
    fake_inp rnd W (bp_id p) (XDyn (fst (b_into g))) = Some (r_input r)).
  { clear - Hc Hp. intros g r g' E. unfold bench_one, bench_circuit in E. rewrite Hc, Hp in E. cbn [obind] in E.
    destruct (bp_provider p); [|discriminate]. cbn [obind] in E. destruct (x_int_count (XDyn (fst (b_into g)))); [|discriminate]. cbn [obind] in E.
    destruct (fake_inp rnd W (bp_id p) (XDyn (fst (b_into g)))) as [i|]; [|discriminate]. cbn [obind] in E. injection E as <- <-. auto. }
  assert (HL : forall n rs, bench_loop rnd W geqb imax perm p n b_default = Some rs -> length rs = n /\
    Forall (fun r => exists m, r_circ r = XDyn m /\ mc_count m = 0 /\ r_input r = @IScalar (bool_gmw W) []) rs).
  { clear - HO HR. induction n as [|n IH]; intros rs E; cbn [bench_loop] in E; [injection E as <-; auto|].
    destruct (bench_one rnd W geqb imax perm p b_default) as [[r g']|] eqn:E1; [|discriminate]. cbn [obind] in E.
    destruct (HO _ _ _ E1) as (-> & Hr & Hi). destruct (bench_loop rnd W geqb imax perm p n b_default) as [rs'|]; [|discriminate].
    cbn [obind] in E. injection E as <-. destruct (IH rs' eq_refl) as [L1 L2]. split; [cbn; auto|]. constructor; auto.
    rewrite default_into in Hr, Hi. eexists. split; [exact Hr|]. split; [reflexivity|].
    unfold fake_inp in Hi. cbn [x_simd_size x_input_count mc_get obind] in Hi. cbn in Hi. injection Hi as <-.
    f_equal. apply length_zero_iff_nil. apply HR. }
  destruct (bp_repeat p) as [|n]; cbn [bench_loop] in H; [injection H as <-; split; auto; intros [|k] r E; discriminate E|].
  destruct (bench_one rnd W geqb imax perm p g) as [[r g']|] eqn:E1; [|discriminate]. cbn [obind] in H.
  destruct (HO _ _ _ E1) as (-> & Hr & Hi). destruct (bench_loop rnd W geqb imax perm p n b_default) as [rs'|] eqn:El; [|discriminate].
  cbn [obind] in H. injection H as <-. destruct (HL n rs' El) as [L1 L2]. split; [cbn; auto|]. intros [|k] q E; cbn in E.
  - injection E as <-. split; [auto|congruence].
  - split; [discriminate|]. intros _. rewrite Forall_forall in L2. apply L2. apply nth_error_In with k. exact E.
Qed.
Print Assumptions C74_second_run_empty.

(** ** Concrete cases *)

(** The conjunction of three bits, in two layers. *)
Definition and3 : br_circuit := BrCircuit (BrHeader 2 5 [3] [1]) [BrGate BrAnd [0; 1] [3]; BrGate BrAnd [3; 2] [4]].
Definition and3_f (x : list bool) : list bool := match x with [a; b; c] => [a && b && c] | _ => [] end.
(** A generator whose third block of words is 1, 0, 1, 0, ... and inputs 1, 1, 1. *)
Definition ex_fill (s n : nat) : list bool * nat := (map (fun i => (s =? 2) && Nat.even i) (seq 0 n), S s).
Definition ex_rnd (seed n : nat) : list bool := repeat (seed =? 0) n.

Definition ex_outs (i0 i1 : bool) : option (list bool) :=
  x <- bt_compile bool_gate_eqb 100 (fun _ st => st) and3 None true ;;
  p0 <- ofold bp_set (bp_new 0) [SCircuit x; SRepeat 2; SInsecure true; SInterleave i0] ;;
  p1 <- ofold bp_set (bp_new 1) [SCircuit x; SRepeat 2; SInsecure true; SInterleave i1] ;;
  rs0 <- bench_runs ex_rnd 8 bool_gate_eqb 100 (fun _ st => st) p0 b_default ;;
  rs1 <- bench_runs ex_rnd 8 bool_gate_eqb 100 (fun _ st => st) p1 b_default ;;
  match rs0, rs1 with
  | [_; r0], [_; r1] =>
      '(o0, o1) <- insecure_exec 8 100 (fun _ st => st) ex_fill 0 r0 r1 ;;
      match o0, o1 with IScalar a, IScalar b => Some (bits_xor a b) | _, _ => None end
  | _, _ => None
  end.

Example C74_case :
  0 < br_total_in and3 /\ 0 < br_total_out and3 /\ br_header_ok and3 /\ br_wires_ok and3 /\ br_no_self and3 /\
  (forall x, length x = br_total_in and3 -> br_eval and3 x = Some (and3_f x)) /\
  (forall s n, length (fst (ex_fill s n)) = n) /\ (forall s n, length (ex_rnd s n) = n) /\
  and3_f (bench_input ex_rnd None 3 0) = [true] /\
  ex_outs false false = Some [true] /\ ex_outs true true = Some [true] /\
  map (fun n => option_map (@length _) (bench_runs ex_rnd 8 bool_gate_eqb 100 (fun _ st => st) (BP 0 None true None true false n)
    (BD [bare_main] [0] cn_empty))) [1; 2] = [Some 1; None].
Proof.
  split; [vm_compute; lia|]. split; [vm_compute; lia|]. split; [split; vm_compute; lia|]. split; [repeat constructor|].
  split; [repeat constructor; intros w; simpl; lia|]. split.
  { intros [|a [|b [|c [|]]]] H; try discriminate H. destruct a, b, c; reflexivity. }
  split; [intros s n; unfold ex_fill; cbn [fst]; rewrite map_length, seq_length; auto|].
  split; [intros s n; apply repeat_length|]. split; [reflexivity|]. split; [vm_compute; reflexivity|].
  split; vm_compute; reflexivity.
Qed.

(** The two parties have to agree on [interleave_setup]: if only one of them computes
    its triples before, the insecure provider gives them triples that do not fit
    together, and the result is wrong. *)
Theorem C74_interleave_refuted :
  exists i0 i1, i0 <> i1 /\ exists out, ex_outs i0 i1 = Some out /\ out <> and3_f (bench_input ex_rnd None 3 0).
Proof.
  exists false, true. split; [discriminate|]. exists [false]. split; [vm_compute; reflexivity|discriminate].
Qed.
Print Assumptions C74_interleave_refuted.
