(** Property theorems about the low-depth adder: C43. *)
From Coq Require Import List Bool Arith ZArith Lia Permutation.
Require Import Verif.ParseModel Verif.Prelude Verif.PreludeProofs Verif.GateModel Verif.CircuitModel Verif.CircuitSpec
  Verif.CircuitProofs Verif.CircuitProofs2 Verif.CircuitProofs3 Verif.CircuitCheck
  Verif.BoolGmwModel Verif.InlineModel Verif.InlineSpec Verif.InlineProofs
  Verif.MixedModel Verif.MixedSpec Verif.AdderProofs Verif.AdderProofs2 Verif.AdderProofs3.
Import ListNotations.
Open Scope nat_scope.

(** ** C43 *)

Lemma map_pointwise {V} (w v : nat -> V) : forall scins inputs, length scins = length inputs ->
  ((forall i g, nth_error scins i = Some g -> exists a, nth_error inputs i = Some a /\ w g = v a) <->
   map w scins = map v inputs).
Proof.
  induction scins as [|s scins IH]; intros [|a inputs] HL; simpl in HL; try lia.
  - split; auto. intros _ [|i] g; discriminate.
  - injection HL as HL. simpl. split.
    + intros H. f_equal.
      * destruct (H 0 s eq_refl) as (b & Hb & ->). injection Hb as <-. auto.
      * apply (IH inputs HL). intros i g Hi. apply (H (S i) g Hi).
    + intros E. injection E as E1 E2. intros [|i] g Hi; simpl in *.
      * injection Hi as <-. eauto.
      * apply (proj2 (IH inputs HL) E2); auto.
Qed.

Lemma add_structure maxu cap w (c : circuit mixed_gate) a b :
  supported w -> 1000 <= maxu -> 2 <= cap -> api mixed_ops c ->
  length a = w -> length b = w -> Forall (fun i => i < c_count c) (a ++ b) ->
  exists c' outs order f, depth_optimized_add maxu cap w c a b = Some (c', outs) /\
    adder_ok w (adder w) /\ inlined mixed_ops c (adder w) c' (a ++ b) outs order f.
Proof.
  intros Hw Hm Hc Ha La Lb HF. pose proof (adder_facts w Hw) as Hok.
  destruct (inline_structure mixed_ops c (adder w) (a ++ b) Ha (ao_callable _ _ Hok)) as (c' & outs & order & f & E & HI); auto.
  { rewrite (ao_ins _ _ Hok), app_length. lia. }
  exists c', outs, order, f. split; auto. unfold depth_optimized_add. rewrite La, Lb, Nat.eqb_refl. cbn [oassert obind].
  rewrite (adder_loaded maxu cap w Hw Hm Hc). auto.
Qed.

(** For each of the widths the function knows and all operands, the ids it
    returns carry the bits of the sum modulo 2^w in every plaintext valuation of
    the gates it added; every assignment of the old gates extends to such a
    valuation; old gates and their operands stay, and the circuit stays
    executable.  [maxu] and [cap] are the limits of the Bristol parser, far above
    1000 on every platform. *)
Theorem C43_adder_adds :
  forall maxu cap w (c : circuit mixed_gate) a b,
  In w [8; 16; 32; 64] -> 1000 <= maxu -> 2 <= cap -> api mixed_ops c ->
  length a = w -> length b = w -> Forall (fun i => i < c_count c) (a ++ b) ->
  exists c' outs, depth_optimized_add maxu cap w c a b = Some (c', outs) /\
    (forall g, g < c_count c -> nth_error (c_gates c') g = nth_error (c_gates c) g /\ parents c' g = parents c g) /\
    (forall v, new_valued c c' v ->
       map v outs = bits_of w (bits_value (map v a) + bits_value (map v b))) /\
    (forall v, exists v', (forall g, g < c_count c -> v' g = v g) /\ new_valued c c' v') /\
    (main_ok mixed_ops c -> main_ok mixed_ops c').
Proof.
  intros maxu cap w c a b Hw Hm Hc Ha La Lb HF.
  destruct (add_structure maxu cap w c a b Hw Hm Hc Ha La Lb HF) as (c' & outs & order & f & E & Hok & HI).
  exists c', outs. split; auto. pose proof (plain_reversible _ _ Hok) as Hrev. pose proof (ao_callable _ _ Hok) as Hcall.
  assert (HL : length (c_scins (adder w)) = length (a ++ b)) by (rewrite (ao_ins _ _ Hok), app_length; lia).
  split; [|split; [|split]].
  - intros g Hg. split; [apply (old_gate _ _ _ _ _ _ _ _ HI); auto|apply (in_old _ _ _ _ _ _ _ _ HI); auto].
  - intros v Hv. destruct (local_down c (adder w) c' (a ++ b) outs order f Hcall Hrev HI v Hv) as [V1 V2].
    apply (map_pointwise (fun g => v (f g)) v _ _ HL) in V2. rewrite map_app in V2.
    rewrite (in_outs _ _ _ _ _ _ _ _ HI), map_map.
    apply (ao_sum _ _ Hok (fun g => v (f g)) (map v a) (map v b)); auto; rewrite map_length; auto.
  - intros v. destruct (adder_values w (adder w) (map v (a ++ b)) Hok) as (u & Hu & Hi).
    { rewrite map_length, <- HL. apply (ao_ins _ _ Hok). }
    exists (glue c order v u). split; [intros g Hg; apply glue_old; auto|].
    apply (local_up c (adder w) c' (a ++ b) outs order f Hcall Hrev HI HF); auto.
    apply (map_pointwise u v _ _ HL). auto.
  - intros Hm'. eapply inline_main_ok; eauto.
Qed.
Print Assumptions C43_adder_adds.

(** Depth.  The addition circuit has multiplicative depth exactly [log2 w]; after
    inlining, on every path to output bit [i] there are at most
    [log2_up (i + 1)] interactive gates more than on the paths to and through the
    operands. *)
Theorem C43_adder_depth :
  forall maxu cap w (c : circuit mixed_gate) a b,
  In w [8; 16; 32; 64] -> 1000 <= maxu -> 2 <= cap -> api mixed_ops c ->
  length a = w -> length b = w -> Forall (fun i => i < c_count c) (a ++ b) ->
  (exists sub, load_adder maxu cap w = Some sub /\ circuit_depth mixed_ops sub (Nat.log2 w)) /\
  exists c' outs, depth_optimized_add maxu cap w c a b = Some (c', outs) /\ length outs = w /\
    forall D, (forall p k, In p (a ++ b) -> int_path mixed_ops c p k ->
                 (if is_int mixed_ops c p then S k else k) <= D) ->
    forall i o k, nth_error outs i = Some o -> int_path mixed_ops c' o k ->
      k <= D + Nat.log2_up (S i) /\ k <= D + Nat.log2 w.
Proof.
  intros maxu cap w c a b Hw Hm Hc Ha La Lb HF.
  destruct (add_structure maxu cap w c a b Hw Hm Hc Ha La Lb HF) as (c' & outs & order & f & E & Hok & HI).
  split. { exists (adder w). split; [apply adder_loaded; auto|apply (ao_depth _ _ Hok)]. }
  exists c', outs. split; auto. split. { rewrite (in_outs _ _ _ _ _ _ _ _ HI), map_length. apply (ao_outs _ _ Hok). }
  intros D HD i o k Ho Hk. rewrite (in_outs _ _ _ _ _ _ _ _ HI) in Ho.
  destruct (nth_error (c_scouts (adder w)) i) as [g|] eqn:Eg.
  2:{ apply nth_error_None in Eg. assert (i < length (map f (c_scouts (adder w)))) by (apply nth_error_Some; congruence).
      rewrite map_length in H. lia. }
  rewrite (map_nth_error _ _ _ Eg) in Ho. injection Ho as <-.
  assert (Hi : i < w) by (rewrite <- (ao_outs _ _ Hok); apply nth_error_Some; congruence).
  assert (Hg : g < c_count (adder w)).
  { destruct (ao_callable _ _ Hok) as ((Hs & _) & _). apply api_api_wf in Hs. apply nth_error_In in Eg.
    rewrite (aw_scouts _ _ Hs) in Eg. apply ids_where_In in Eg. destruct Eg as (x & Ex & _). apply nth_error_Some. congruence. }
  assert (Hle : k <= D + Nat.log2_up (S i)).
  { assert (HX : forall d, mult_depth mixed_ops (adder w) g d -> k <= D + d).
    { intros d Hd.
      (* labels: a depth for every gate *)
      assert (Hlab : exists lab, forall h, h < c_count (adder w) -> mult_depth mixed_ops (adder w) h (lab h)).
      { assert (Hall : forall n, n <= c_count (adder w) ->
          exists lab : list nat, length lab = n /\ forall h, h < n -> mult_depth mixed_ops (adder w) h (nth h lab 0)).
        { induction n as [|n IH]; intros Hn; [exists []; split; auto; intros; lia|].
          destruct (IH ltac:(lia)) as (lab & Hl & Hlab). destruct (ao_depths _ _ Hok n ltac:(lia)) as (dn & Hdn).
          exists (lab ++ [dn]). split; [rewrite app_length; simpl; lia|]. intros h Hh.
          destruct (Nat.eq_dec h n) as [->|Hne].
          - rewrite app_nth2, Hl, Nat.sub_diag by lia. auto.
          - rewrite app_nth1 by lia. apply Hlab. lia. }
        destruct (Hall _ (le_n _)) as (lab & _ & Hlab). exists (fun h => nth h lab 0). auto. }
      destruct Hlab as (lab & Hlab).
      pose proof (inlined_path_new c (adder w) c' (a ++ b) outs order f (ao_callable _ _ Hok) HI HF Ha D lab HD Hlab
        _ _ Hk g Hg eq_refl) as Hb.
      destruct (Hlab g Hg) as [Hp _]. destruct Hd as [_ Hmax]. specialize (Hmax _ Hp). lia. }
    apply HX. apply (ao_out_depth _ _ Hok); auto. }
  split; auto. assert (Nat.log2_up (S i) <= Nat.log2 w); [|lia].
  transitivity (Nat.log2_up w); [apply Nat.log2_up_le_mono; lia|].
  destruct Hw as [<-|[<-|[<-|[<-|[]]]]]; apply Nat.leb_le; reflexivity.
Qed.
Print Assumptions C43_adder_depth.

(** Any other width, and operands of another length, panic. *)
Theorem C43_other_widths_panic :
  forall maxu cap w (c : circuit mixed_gate) a b,
  ~ In w [8; 16; 32; 64] \/ length a <> w \/ length b <> w ->
  depth_optimized_add maxu cap w c a b = None.
Proof.
  intros maxu cap w c a b H. unfold depth_optimized_add.
  destruct (Nat.eqb_spec w (length a)) as [Ea|Ea]; [|reflexivity]. cbn [oassert obind].
  destruct (Nat.eqb_spec w (length b)) as [Eb|Eb]; [|reflexivity]. cbn [oassert obind].
  destruct H as [H|[H|H]]; try congruence.
  unfold load_adder, adder_text.
  destruct (Nat.eqb_spec w 8); [exfalso; apply H; rewrite e; simpl; auto|].
  destruct (Nat.eqb_spec w 16); [exfalso; apply H; rewrite e; simpl; auto|].
  destruct (Nat.eqb_spec w 32); [exfalso; apply H; rewrite e; simpl; auto|].
  destruct (Nat.eqb_spec w 64); [exfalso; apply H; rewrite e; simpl; auto|].
  reflexivity.
Qed.
Print Assumptions C43_other_widths_panic.

(** 200 + 100 = 44 modulo 256, with sixteen input gates as operands. *)
Definition C43_ins : circuit mixed_gate := c_build mixed_ops c_new (repeat (MGBase GInput, []) 16).

Example C43_case :
  exists c' outs, depth_optimized_add 1000 2 8 C43_ins (seq 0 8) (seq 8 8) = Some (c', outs) /\
    forall v, new_valued C43_ins c' v ->
      map v (seq 0 8) = bits_of 8 200 -> map v (seq 8 8) = bits_of 8 100 -> map v outs = bits_of 8 44.
Proof.
  destruct (C43_adder_adds 1000 2 8 C43_ins (seq 0 8) (seq 8 8)) as (c' & outs & E & _ & H & _).
  - simpl; auto.
  - apply le_n.
  - apply le_n.
  - apply c_build_api, api_new.
  - reflexivity.
  - reflexivity.
  - apply Forall_forall. intros i Hi. change (seq 0 8 ++ seq 8 8) with (seq 0 16) in Hi. apply in_seq in Hi.
    change (c_count C43_ins) with 16. lia.
  - exists c', outs. split; auto. intros v Hv Ha Hb. rewrite (H v Hv), Ha, Hb. reflexivity.
Qed.
