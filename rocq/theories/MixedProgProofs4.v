(** Counting the conversions of a mixed program. *)
From Coq Require Import List Bool Arith ZArith Lia Permutation.
Require Import Verif.ParseModel Verif.Prelude Verif.PreludeProofs Verif.GateModel Verif.ProtocolModel
  Verif.CircuitModel Verif.CircuitSpec Verif.CircuitProofs Verif.CircuitProofs2 Verif.CircuitProofs3
  Verif.BoolGmwModel Verif.ArithGmwModel Verif.InlineModel Verif.InlineProofs
  Verif.ExecModel Verif.ExecSpec Verif.ExecProofs Verif.ExecLayerProofs Verif.ExecCircuitProofs
  Verif.MixedModel Verif.MixedSpec Verif.MixedProgSpec Verif.MixedExecProofs Verif.AdderProofs
  Verif.Aby2CircuitProofs Verif.MixedProgProofs Verif.MixedProgProofs2 Verif.MixedProgProofs3.
Import ListNotations.
Open Scope nat_scope.

Definition isc (g : mixed_gate) : bool := match g with MGConv (CSnd | CB2A) => true | _ => false end.
Definition conv_gates (c : circuit mixed_gate) : nat := length (filter isc (c_gates c)).
Definition conv_instr (i : instr) : nat := match i with IA2B _ | IB2A _ => 1 | _ => 0 end.

Lemma filter_positions {A} (f : A -> bool) l : forall k,
  length (filter (fun i => match nth_error l (i - k) with Some x => f x | None => false end) (seq k (length l))) = length (filter f l).
Proof.
  induction l as [|x l IH]; intros k; auto. cbn [length seq filter]. rewrite Nat.sub_diag. cbn [nth_error].
  assert (E : filter (fun i => match nth_error (x :: l) (i - k) with Some x => f x | None => false end) (seq (S k) (length l)) =
              filter (fun i => match nth_error l (i - S k) with Some x => f x | None => false end) (seq (S k) (length l))).
  { apply filter_ext_in. intros i Hi. apply in_seq in Hi. replace (i - k) with (S (i - S k)) by lia. reflexivity. }
  destruct (f x); cbn [length]; rewrite E, IH; auto.
Qed.

Lemma layer_convs_le c ls l : Permutation (all_ids ls) (seq 0 (c_count c)) -> In l ls -> conversions c l <= conv_gates c.
Proof.
  intros HP Hl. unfold conversions, conv_gates. rewrite <- (filter_positions isc (c_gates c) 0).
  assert (HN : NoDup (bl_int l) /\ incl (bl_int l) (seq 0 (c_count c))).
  { apply in_split in Hl. destruct Hl as (a & b & ->). pose proof (ids_nodup c _ HP) as HN.
    unfold all_ids in HN, HP. rewrite map_app, concat_app in HN, HP. split.
    - apply NoDup_app_r in HN. cbn [map concat] in HN. apply NoDup_app_l in HN. unfold bl_ids in HN. apply NoDup_app_r in HN. auto.
    - intros x Hx. apply (Permutation_in _ HP). apply in_or_app. right. cbn [map concat]. apply in_or_app. left.
      unfold bl_ids. apply in_or_app. auto. }
  destruct HN as [HN HI]. apply NoDup_incl_length; [apply NoDup_filter; auto|].
  intros x Hx. apply filter_In in Hx. destruct Hx as [Hx Fx]. apply filter_In. split; [apply HI; auto|].
  rewrite Nat.sub_0_r. unfold isc. destruct (nth_error (c_gates c) x); auto.
Qed.

Section Count.
Variables maxu cap w : nat.
Hypothesis Hmx : 1000 <= maxu.
Hypothesis Hcp : 2 <= cap.
Hypothesis Hw0 : 0 < w.

Lemma add_count c g from c' id : main_ok mixed_ops c -> add_wired_gate mixed_ops c g from = Some (c', id) ->
  conv_gates c' = conv_gates c + (if isc g then 1 else 0).
Proof.
  intros (Ha & _) E. destruct (add_wired_gate_spec mixed_ops c c' g from _ Ha E) as (_ & _ & Eg & _).
  unfold conv_gates. rewrite Eg, filter_app, app_length. cbn. destruct (isc g); auto.
Qed.

Lemma step_count i c env c' env' : (match i with IA2B _ => In w [8; 16; 32; 64] | _ => True end) ->
  shape c env -> comp1 maxu cap w i c env = Some (c', env') -> conv_gates c' = conv_gates c + conv_instr i.
Proof.
  intros Hw [Hm Hsd He Hp] H.
  assert (HA : forall g l, (ids <- omap (nth_error env) l ;; '(c', id) <- add_wired_gate mixed_ops c g ids ;; Some (c', env ++ [id])) = Some (c', env') ->
    conv_gates c' = conv_gates c + (if isc g then 1 else 0)).
  { intros g l E. destruct (omap (nth_error env) l) as [ids|]; [|discriminate]. cbn [obind] in E.
    destruct (add_wired_gate mixed_ops c g ids) as [[c1 id]|] eqn:EA; [|discriminate]. cbn [obind] in E. injection E as <- _.
    eapply add_count; eauto. }
  destruct i as [|m|a b|a b|a|a b|a b|a b|a|l|a|a]; cbn [comp1] in H; try (apply HA in H; exact H).
  - destruct (nth_error env a) as [id|] eqn:Eid; [|discriminate]. cbn [obind] in H.
    assert (Hid : id < c_count c) by (rewrite Forall_forall in He; apply He; eapply nth_error_In; eauto).
    destruct (a2b_grow maxu cap w Hmx Hcp Hw0 c id Hw Hm Hid) as (c2 & outs & E & HG & LO & FO & NS & NR & PS & PR & HQ & _).
    rewrite E in H. cbn [obind] in H. injection H as <- _.
    destruct (gr_gates _ _ _ HG) as (gs & Eg & _). unfold conv_gates. rewrite Eg, filter_app, app_length. f_equal.
    assert (NQ : forall j x, nth_error gs j = Some x -> nth_error (c_gates c2) (c_count c + j) = Some x).
    { intros j x Hj. rewrite Eg, nth_error_app2 by (unfold c_count; lia). unfold c_count.
      replace (length (c_gates c) + j - length (c_gates c)) with j by lia. auto. }
    assert (NQ' : forall j, nth_error gs j = nth_error (c_gates c2) (c_count c + j)).
    { intros j. rewrite Eg, nth_error_app2 by (unfold c_count; lia). unfold c_count. f_equal. lia. }
    pose proof (NQ' 0) as N0. rewrite Nat.add_0_r, NS in N0. pose proof (NQ' 1) as N1. rewrite Nat.add_1_r, NR in N1.
    destruct gs as [|x0 [|x1 gs]]; try discriminate. cbn in N0, N1. injection N0 as ->. injection N1 as ->.
    cbn [filter isc conv_instr length]. f_equal. replace (filter isc gs) with (@nil mixed_gate); auto.
    symmetry. apply filter_all_false. intros x Hx. apply In_nth_error in Hx. destruct Hx as (j & Hj).
    assert (HX : quiet x). { apply (HQ (c_count c + S (S j)) x); [lia|]. apply NQ. exact Hj. }
    destruct x as [[]| | |[]]; cbn in *; tauto.
  - destruct (nth_error env a) as [id|] eqn:Eid; [|discriminate]. cbn [obind] in H.
    destruct (add_wired_gate mixed_ops c (MGBase GOutput) [id]) as [[c1 id']|] eqn:EA; [|discriminate]. cbn [obind] in H. injection H as <- _.
    apply (add_count _ _ _ _ _ Hm EA).
Qed.

Lemma comp_count prog : forall c env penv pouts pins r c' env',
  (forall a, In (IA2B a) prog -> In w [8; 16; 32; 64]) ->
  shape c env -> length env = length penv -> prun w prog penv pouts pins = Some r ->
  comp maxu cap w prog c env = Some (c', env') -> conv_gates c' = conv_gates c + sum_list (map conv_instr prog).
Proof.
  induction prog as [|i prog IH]; intros c env penv pouts pins [[e o] p] c' env' Hw HS HL H HC; cbn [prun comp] in *.
  - injection HC as <- _. cbn. lia.
  - destruct (prun1 w i penv pouts pins) as [[[e1 o1] i1]|] eqn:E1; [|discriminate]. cbn [obind] in H.
    assert (Hi : match i with IA2B _ => In w [8; 16; 32; 64] | _ => True end) by (destruct i; auto; eapply Hw; cbn; eauto).
    destruct (step_ok maxu cap w Hmx Hcp Hw0 i c env penv pouts pins e1 o1 i1) as (c1 & env1 & C1 & S1 & L1 & _); auto.
    rewrite C1 in HC. cbn [obind] in HC. pose proof (step_count i c env c1 env1 Hi HS C1) as HN.
    rewrite (IH c1 env1 e1 o1 i1 (e, o, p) c' env'); auto.
    + rewrite HN. cbn [map sum_list fold_right]. unfold sum_list. lia.
    + intros a Ha. apply (Hw a). cbn; auto.
Qed.
End Count.

Lemma prog_convs_from c0 maxu cap w prog ins r c ids ls : c0 = c_new \/ c0 = c_new_main -> 1000 <= maxu -> 2 <= cap -> 0 < w ->
  (forall a, In (IA2B a) prog -> In w [8; 16; 32; 64]) ->
  prun w prog [] [] ins = Some r -> comp maxu cap w prog c0 [] = Some (c, ids) -> c_layers mixed_ops c = Some ls ->
  forall l, In l ls -> conversions c l <= sum_list (map conv_instr prog).
Proof.
  intros H0 Hmx Hcp Hw Hs HR HC HL l Hl. destruct r as [[e o] p].
  destruct (comp_ok maxu cap w Hmx Hcp Hw prog c0 [] [] [] ins e o p) as (c1 & ids1 & EC & [Hm _ _ _] & _); auto.
  { apply empty_shape. auto. }
  rewrite EC in HC. injection HC as -> ->.
  destruct (main_layers mixed_ops c Hm) as (ls' & EL' & _ & HP & _). rewrite HL in EL'. injection EL' as <-.
  assert (Sh : shape c0 []).
  { apply empty_shape. auto. }
  pose proof (comp_count maxu cap w Hmx Hcp Hw prog c0 [] [] [] ins (e, o, p) c ids Hs Sh eq_refl HR EC) as E.
  assert (E0 : conv_gates c0 = 0) by (destruct H0 as [->| ->]; reflexivity). rewrite E0 in E. cbn [Nat.add] in E. pose proof (layer_convs_le c ls l HP Hl). unfold conv_gates in *. cbn in E. lia.
Qed.

Lemma prog_convs maxu cap w prog ins r c ids ls : 1000 <= maxu -> 2 <= cap -> 0 < w ->
  (forall a, In (IA2B a) prog -> In w [8; 16; 32; 64]) ->
  prun w prog [] [] ins = Some r -> comp maxu cap w prog c_new_main [] = Some (c, ids) -> c_layers mixed_ops c = Some ls ->
  forall l, In l ls -> conversions c l <= sum_list (map conv_instr prog).
Proof. apply prog_convs_from. auto. Qed.
