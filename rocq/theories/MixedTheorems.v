(** Theorems about mixed boolean/arithmetic executions: C42, C44, C45, C46. *)
From Coq Require Import List Bool Arith ZArith Lia.
Require Import Verif.ParseModel Verif.Prelude Verif.PreludeProofs Verif.BitVecModel Verif.BitVecSpec Verif.BitVecProofs
  Verif.GateModel Verif.ProtocolModel Verif.CircuitModel Verif.CircuitSpec Verif.CircuitProofs Verif.CircuitProofs2 Verif.CircuitProofs3 Verif.CircuitCheck
  Verif.BoolGmwModel Verif.BoolGmwSpec Verif.ArithGmwModel Verif.InlineModel
  Verif.ExecModel Verif.ExecSpec Verif.ExecProofs
  Verif.MixedModel Verif.MixedSpec Verif.MixedProgSpec Verif.AdderProofs Verif.AdderTheorems
  Verif.MixedExecProofs Verif.MixedProgProofs2 Verif.MixedProgProofs3 Verif.MixedProgProofs4.
Import ListNotations.
Open Scope nat_scope.

(** ** Setup data *)

(** The two parties' requests to [InsecureMixedSetup]: same boolean triples and
    shared bits at both parties, different masks. *)
Definition insecure_req (w : nat) (zb : nat -> mul_triples) (sb : nat -> list Z) (rands : nat -> list Z)
  (st : nat) (n : nat) : option (msetup * nat) :=
  Some (insecure_mixed_request w zb sb (rands st) n, S (S st)).

(** [InsecureMixedSetup] provides valid setup data for every positive request;
    the state counts requests (even for party 0, odd for party 1). *)
Theorem C44_insecure_setup_serves :
  forall W w zb sb rands,
  (forall n, exists h, mts_wf W h n (zb n)) -> (forall n, length (sb n) = n) -> (forall k, rands k <> []) ->
  serves (insecure_req w zb sb rands) (mixed_setup_ok W w) (fun ns _ _ => Forall (fun n => 0 < n) ns).
Proof.
  intros W w zb sb rands Hzb Hsb Hr n ns s0 s1 HF. inversion HF; subst.
  eexists _, _, _, _. split; [reflexivity|]. split; [reflexivity|]. split; auto.
  unfold insecure_mixed_request. split; [|split; [|cbn; auto]].
  - split; [|split; exists n; auto]. destruct (Hzb n) as (h & Hh). exists n, h, h. cbn. split; auto. split; auto. split; auto.
    induction (mts_iter (zb n)) as [|t l IH]; constructor; auto. unfold triple_ok. rewrite !xorb_nilpotent. reflexivity.
  - pose proof (Hsb n) as L. destruct (sb n) as [|z l] eqn:El using rev_ind; [cbn in L; lia|]. clear IHl.
    exists l, l, z, z, (repeat 0%Z (n * w - w)), (repeat 0%Z (n * w - w)), (repeat 0%Z w), (repeat 0%Z w). cbn [st_sb_bool st_sb_arith].
    assert (E : repeat 0%Z (n * w) = repeat 0%Z (n * w - w) ++ rev (repeat 0%Z w)).
    { replace (rev (repeat 0%Z w)) with (repeat 0%Z w).
      - rewrite <- repeat_app. f_equal. destruct n; [lia|]. cbn [Nat.mul]. lia.
      - clear. induction w as [|w IH]; auto. cbn. rewrite <- IH. clear. induction w as [|w IH]; auto. cbn. f_equal. auto. }
    split; auto. split; auto. split; auto. split; auto. rewrite repeat_length. split; auto. split; auto.
    intros i Hi. rewrite xorb_nilpotent, !nth_repeat. reflexivity.
Qed.
Print Assumptions C44_insecure_setup_serves.

(** ** C42, C44, C45: executions of mixed programs *)

(** The execution of the circuit of a program with inputs [ins] and outputs [outs]. *)
Definition runs_correctly (W w : nat) (c : circuit mixed_gate) (ins outs : list pval) : Prop :=
  exists ec, ec_of_base mixed_ops c = Some ec /\
  forall (Sv : Type) (req : Sv -> nat -> option (msetup * Sv)) J, serves req (mixed_setup_ok W w) J ->
  forall i0 i1 s0 s1 rest, all3 (pshares w) ins i0 i1 -> J (requests ec ++ rest) s0 s1 ->
  exists o0 o1 s',
    ex2_run (pr:=mixed_gmw W w) req ec (IScalar (pr:=mixed_gmw W w) i0) (IScalar (pr:=mixed_gmw W w) i1)
      (go_init (pr:=mixed_gmw W w) ec, s0, (go_init (pr:=mixed_gmw W w) ec, s1))
    = Some (IScalar (pr:=mixed_gmw W w) o0, IScalar (pr:=mixed_gmw W w) o1, s') /\
    all3 (pshares w) outs o0 o1.

(** What holds of C45: a program whose circuit has at most one conversion in
    every layer is executed correctly.  Missing for the full statement: several
    conversions in one layer, for which it is false (theorems below). *)
Theorem C45_programs_partial :
  forall W w maxu cap prog ins env outs,
  0 < W -> 0 < w -> 1000 <= maxu -> 2 <= cap ->
  (forall a, In (IA2B a) prog -> In w [8; 16; 32; 64]) ->
  prun w prog [] [] ins = Some (env, outs, []) ->
  exists c ids ls, comp maxu cap w prog c_new_main [] = Some (c, ids) /\ c_layers mixed_ops c = Some ls /\
    ((forall l, In l ls -> conversions c l <= 1) -> runs_correctly W w c ins outs).
Proof.
  intros W w maxu cap prog ins env outs HW Hw Hm Hc Hs HR.
  destruct (prog_exec W w maxu cap prog ins env outs HW Hw Hm Hc Hs HR) as (c & ids & ls & ec & EC & EL & EE & HX).
  exists c, ids, ls. split; auto. split; auto. intros HC. exists ec. split; [exact EE|exact (HX HC)].
Qed.
Print Assumptions C45_programs_partial.

(** The number of conversions of a program. *)
Definition conversion_count (prog : list instr) : nat :=
  length (filter (fun i => match i with IA2B _ | IB2A _ => true | _ => false end) prog).

(** Programs with a single conversion need no condition on the layers. *)
Theorem C44_single_conversion :
  forall W w maxu cap prog ins env outs,
  0 < W -> 0 < w -> 1000 <= maxu -> 2 <= cap ->
  (forall a, In (IA2B a) prog -> In w [8; 16; 32; 64]) ->
  conversion_count prog <= 1 ->
  prun w prog [] [] ins = Some (env, outs, []) ->
  exists c ids, comp maxu cap w prog c_new_main [] = Some (c, ids) /\ runs_correctly W w c ins outs.
Proof.
  intros W w maxu cap prog ins env outs HW Hw Hm Hc Hs Hn HR.
  destruct (C45_programs_partial W w maxu cap prog ins env outs HW Hw Hm Hc Hs HR) as (c & ids & ls & EC & EL & HX).
  exists c, ids. split; auto. apply HX. intros l Hl.
  pose proof (prog_convs maxu cap w prog ins _ c ids ls Hm Hc Hw Hs HR EC EL l Hl) as H.
  assert (E : sum_list (map conv_instr prog) = conversion_count prog).
  { unfold conversion_count. clear. induction prog as [|i prog IH]; auto. unfold sum_list in *. cbn. rewrite IH. destruct i; auto. }
  lia.
Qed.
Print Assumptions C44_single_conversion.

Definition a2b_prog (w : nat) : list instr := IIn :: IA2B 0 :: map IOut (seq 1 w).
Definition b2a_prog (w : nat) : list instr := repeat IIn w ++ [IB2A (seq 0 w); IOut w].

Lemma outs_run w env l : forall outs vs, omap (nth_error env) l = Some vs ->
  prun w (map IOut l) env outs [] = Some (env, outs ++ vs, []).
Proof.
  induction l as [|a l IH]; intros outs vs H; cbn in H.
  - injection H as <-. cbn. rewrite app_nil_r. auto.
  - cbn [map prun prun1]. destruct (nth_error env a) as [v|] eqn:E; [|discriminate]. cbn [obind] in *.
    destruct (omap (nth_error env) l) as [r|] eqn:Er; [|discriminate]. cbn in H. injection H as <-.
    rewrite (IH (outs ++ [v]) r eq_refl). rewrite <- app_assoc. auto.
Qed.

Lemma omap_nth_seq {A} (p l : list A) : omap (nth_error (p ++ l)) (seq (length p) (length l)) = Some l.
Proof.
  revert p. induction l as [|x l IH]; intros p; auto. cbn [length seq omap].
  rewrite nth_error_app2, Nat.sub_diag by lia. cbn [nth_error obind].
  specialize (IH (p ++ [x])). rewrite app_length, <- app_assoc in IH. cbn [length app] in IH. rewrite Nat.add_1_r in IH.
  rewrite IH. reflexivity.
Qed.

Lemma ins_run w vs : forall env rest prog, prun w (repeat IIn (length vs) ++ prog) env [] (vs ++ rest) = prun w prog (env ++ vs) [] rest.
Proof.
  induction vs as [|v vs IH]; intros env rest prog; cbn; [rewrite app_nil_r; auto|]. rewrite IH, <- app_assoc. auto.
Qed.

Lemma bool_shares w outs : forall o0 o1, all3 (pshares w) (map PB outs) o0 o1 ->
  exists p q, o0 = map MBool p /\ o1 = map MBool q /\ bits_xor p q = outs.
Proof.
  induction outs as [|b outs IH]; intros o0 o1 H; cbn [map] in H.
  - inversion H; subst. exists [], []. auto.
  - destruct (all3_cons_inv _ _ _ _ _ H) as (x & y & r0 & r1 & -> & -> & (p & q & -> & -> & <-) & H').
    destruct (IH _ _ H') as (ps & qs & -> & -> & <-). exists (p :: ps), (q :: qs). auto.
Qed.

Lemma push_bools l : forall p, ofold ms_try_push (SBool p) (map MBool l) = Some (SBool (p ++ l)).
Proof. induction l as [|b l IH]; intros p; cbn; [rewrite app_nil_r; auto|]. rewrite IH, <- app_assoc. auto. Qed.

Lemma collect_bools l : l <> [] -> ms_from_iter (map MBool l) = Some (SBool l).
Proof. destruct l as [|b l]; [tauto|]. intros _. cbn. apply push_bools. Qed.

(** The circuit of an input, [a2b] and one output per bit: for any additive
    shares of [x] and any valid setup data, both parties' outputs can be collected
    and reconstruct to the bits of [x].  Missing for the full statement: other
    ring widths, for which [a2b] panics (below). *)
Theorem C42_a2b_partial :
  forall W w maxu cap, 0 < W -> In w [8; 16; 32; 64] -> 1000 <= maxu -> 2 <= cap ->
  exists c ids ec, comp maxu cap w (a2b_prog w) c_new_main [] = Some (c, ids) /\ ec_of_base mixed_ops c = Some ec /\
  forall x0 x1 (Sv : Type) (req : Sv -> nat -> option (msetup * Sv)) J s0 s1 rest,
  serves req (mixed_setup_ok W w) J -> J (requests ec ++ rest) s0 s1 ->
  exists o0 o1 s' p q,
    ex2_run (pr:=mixed_gmw W w) req ec (IScalar (pr:=mixed_gmw W w) [MArith x0]) (IScalar (pr:=mixed_gmw W w) [MArith x1])
      (go_init (pr:=mixed_gmw W w) ec, s0, (go_init (pr:=mixed_gmw W w) ec, s1))
    = Some (IScalar (pr:=mixed_gmw W w) o0, IScalar (pr:=mixed_gmw W w) o1, s') /\
    ms_from_iter o0 = Some (SBool p) /\ ms_from_iter o1 = Some (SBool q) /\
    ms_reconstruct (Z.of_nat w) (SBool p) (SBool q) = Some (SBool (bits_of w (x0 + x1))).
Proof.
  intros W w maxu cap HW Hw Hm Hc.
  assert (Hw0 : 0 < w) by (cbn in Hw; lia).
  assert (HR : forall x, prun w (a2b_prog w) [] [] [PA x] = Some ([PA x] ++ map PB (bits_of w x), map PB (bits_of w x), [])).
  { intros x. unfold a2b_prog. cbn [prun prun1 obind nth_error app].
    rewrite (outs_run w (PA x :: map PB (bits_of w x)) (seq 1 w) [] (map PB (bits_of w x))); auto.
    pose proof (omap_nth_seq [PA x] (map PB (bits_of w x))) as H. rewrite map_length in H. unfold bits_of in H at 2.
    rewrite map_length, seq_length in H. exact H. }
  assert (HS : forall a, In (IA2B a) (a2b_prog w) -> In w [8; 16; 32; 64]) by auto.
  assert (HN : conversion_count (a2b_prog w) <= 1).
  { unfold conversion_count, a2b_prog. cbn [filter]. generalize (seq 1 w). clear. intros l. cbn [length].
    induction l as [|a l IH]; auto. }
  destruct (C44_single_conversion W w maxu cap (a2b_prog w) [PA 0%Z] _ _ HW Hw0 Hm Hc HS HN (HR 0%Z)) as (c & ids & EC & ec & EE & _).
  exists c, ids, ec. split; auto. split; auto. intros x0 x1 Sv req J s0 s1 rest HJ Hj.
  destruct (C44_single_conversion W w maxu cap (a2b_prog w) [PA ((x0 + x1) mod 2 ^ Z.of_nat w)%Z] _ _ HW Hw0 Hm Hc HS HN (HR ((x0 + x1) mod 2 ^ Z.of_nat w)%Z))
    as (c' & ids' & EC' & ec' & EE' & HX).
  rewrite EC in EC'. injection EC' as <- <-. rewrite EE in EE'. injection EE' as <-.
  destruct (HX Sv req J HJ [MArith x0] [MArith x1] s0 s1 rest) as (o0 & o1 & s' & ER & HO); auto.
  { constructor; [|constructor]. exists x0, x1. auto. }
  destruct (bool_shares _ _ _ _ HO) as (p & q & -> & -> & EX). rewrite bits_of_mod in EX.
  exists (map MBool p), (map MBool q), s', p, q. split; auto.
  assert (HL : length (bits_of w (x0 + x1)) = w) by (unfold bits_of; rewrite map_length, seq_length; auto).
  assert (HE : p <> [] /\ q <> []).
  { split; intros ->; cbn in EX; [|destruct p; cbn in EX]; rewrite <- EX in HL; cbn in HL; lia. }
  split; [apply collect_bools; tauto|]. split; [apply collect_bools; tauto|]. cbn. unfold bits_xor in EX. rewrite EX. reflexivity.
Qed.
Print Assumptions C42_a2b_partial.

(** Any other ring width, in particular [u128], panics. *)
Theorem C42_other_widths_panic :
  forall maxu cap w (c : circuit mixed_gate) a, ~ In w [8; 16; 32; 64] -> a2b maxu cap w c a = None.
Proof.
  intros maxu cap w c a Hw. unfold a2b.
  repeat match goal with |- context [obind ?e _] => destruct e as [[? ?]|]; [cbn [obind]|reflexivity] end.
  apply C43_other_widths_panic. auto.
Qed.
Print Assumptions C42_other_widths_panic.

Theorem C42_u128_refuted :
  exists w c a, w = 128 /\ main_ok mixed_ops c /\ nth_error (c_gates c) a = Some (MGBase GInput) /\
    forall maxu cap, a2b maxu cap w c a = None.
Proof.
  exists 128, (fst (add_gate mixed_ops c_new_main (MGBase GInput))), 0. split; [reflexivity|]. split; [|split; [reflexivity|]].
  - apply wired_main_ok. apply wired_source; [constructor|reflexivity].
  - intros. apply C42_other_widths_panic. cbn. intros H. repeat destruct H as [H|H]; discriminate || auto.
Qed.
Print Assumptions C42_u128_refuted.

(** Every ring width, every sharing of [w] bits and any valid setup data: B2A
    gives an additive sharing of the number. *)
Theorem C44_b2a :
  forall W w maxu cap, 0 < W -> 0 < w -> 1000 <= maxu -> 2 <= cap ->
  exists c ids ec, comp maxu cap w (b2a_prog w) c_new_main [] = Some (c, ids) /\ ec_of_base mixed_ops c = Some ec /\
  forall p q (Sv : Type) (req : Sv -> nat -> option (msetup * Sv)) J s0 s1 rest,
  length p = w -> length q = w ->
  serves req (mixed_setup_ok W w) J -> J (requests ec ++ rest) s0 s1 ->
  exists s' y0 y1,
    ex2_run (pr:=mixed_gmw W w) req ec (IScalar (pr:=mixed_gmw W w) (map MBool p)) (IScalar (pr:=mixed_gmw W w) (map MBool q))
      (go_init (pr:=mixed_gmw W w) ec, s0, (go_init (pr:=mixed_gmw W w) ec, s1))
    = Some (IScalar (pr:=mixed_gmw W w) [MArith y0], IScalar (pr:=mixed_gmw W w) [MArith y1], s') /\
    ((y0 + y1) mod 2 ^ Z.of_nat w = bits_value (bits_xor p q))%Z.
Proof.
  intros W w maxu cap HW Hw Hm Hc.
  assert (HR : forall bits, length bits = w -> prun w (b2a_prog w) [] [] (map PB bits) =
     Some (map PB bits ++ [PA (bits_value bits)], [PA (bits_value bits)], [])).
  { intros bits HL. rewrite <- HL. unfold b2a_prog. pose proof (ins_run (length bits) (map PB bits) [] []) as HI. rewrite map_length, app_nil_r in HI.
    rewrite HI. cbn [app prun prun1].
    pose proof (omap_nth_seq [] (map PB bits)) as HE. rewrite map_length in HE. cbn [app length] in HE. rewrite HE.
    cbn [obind]. assert (HB : omap pbit (map PB bits) = Some bits).
    { clear. induction bits as [|b l IH]; auto. cbn. rewrite IH. auto. }
    rewrite HB. cbn [obind]. rewrite Nat.eqb_refl. cbn [oassert obind].
    rewrite nth_error_app2; rewrite map_length; auto. rewrite Nat.sub_diag. reflexivity. }
  assert (HS : forall a, In (IA2B a) (b2a_prog w) -> In w [8; 16; 32; 64]).
  { intros a Ha. unfold b2a_prog in Ha. apply in_app_or in Ha. destruct Ha as [Ha|[Ha|[Ha|[]]]]; try discriminate.
    apply repeat_spec in Ha. discriminate. }
  assert (HN : conversion_count (b2a_prog w) <= 1).
  { unfold conversion_count, b2a_prog. rewrite filter_app, app_length. cbn [filter length].
    replace (length (filter _ (repeat IIn w))) with 0; [auto|]. clear. induction w as [|w IH]; auto. }
  destruct (C44_single_conversion W w maxu cap (b2a_prog w) (map PB (repeat false w)) _ _ HW Hw Hm Hc HS HN (HR _ (repeat_length _ _)))
    as (c & ids & EC & ec & EE & _).
  exists c, ids, ec. split; auto. split; auto. intros p q Sv req J s0 s1 rest Lp Lq HJ Hj.
  assert (LX : length (bits_xor p q) = w) by (unfold bits_xor; rewrite zip_with_length; lia).
  destruct (C44_single_conversion W w maxu cap (b2a_prog w) (map PB (bits_xor p q)) _ _ HW Hw Hm Hc HS HN (HR _ LX)) as (c' & ids' & EC' & ec' & EE' & HX).
  rewrite EC in EC'. injection EC' as <- <-. rewrite EE in EE'. injection EE' as <-.
  destruct (HX Sv req J HJ (map MBool p) (map MBool q) s0 s1 rest) as (o0 & o1 & s' & ER & HO); auto.
  { assert (E : length p = length q) by lia. clear - E. revert q E.
    induction p as [|x p IH]; intros [|y q] E; try discriminate; [constructor|].
    injection E as E. cbn. constructor; [exists x, y; auto|]. apply (IH q E). }
  destruct (all3_cons_inv _ _ _ _ _ HO) as (x & y & r0 & r1 & -> & -> & (y0 & y1 & -> & -> & HY) & HO'). inversion HO'; subst.
  exists s', y0, y1. split; auto.
Qed.
Print Assumptions C44_b2a.
