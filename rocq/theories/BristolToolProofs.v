(** The Bristol tool: what the builder holds. *)
From Coq Require Import List Bool Arith Lia Permutation.
Require Import Verif.Prelude Verif.PreludeProofs Verif.GateModel Verif.CircuitModel Verif.CircuitSpec Verif.CircuitProofs
  Verif.CircuitProofs2 Verif.CircuitProofs3 Verif.ExecModel Verif.BoolGmwModel Verif.BoolGmwSpec Verif.InlineModel
  Verif.BristolProofs Verif.BristolTheorems Verif.ConnModel Verif.ConnSpec Verif.ConnProofs Verif.ConnProofs2 Verif.BuilderModel Verif.BuilderSpec
  Verif.BuilderProofs Verif.BuilderProofs2 Verif.CbcModel
  Verif.MultiModel Verif.MultiSpec Verif.MultiTheorems Verif.SubCircModel Verif.CbcScModel Verif.CbcScProofs Verif.CbcScProofs2 Verif.CbcScProofs3 Verif.BristolToolModel.
Import ListNotations.

(** ** Adding gates to the main circuit *)

(** [c'] is [c] with the gates [gs] added; [p i] are the operands of the [i]-th. *)
Record added (c c' : circuit bool_gate) (gs : list bool_gate) (p : nat -> list nat) : Prop := {
  ad_api : api bool_ops c';
  ad_gates : c_gates c' = c_gates c ++ gs;
  ad_old : forall x, x < c_count c -> parents c' x = parents c x;
  ad_new : forall i, i < length gs -> parents c' (c_count c + i) = p i;
  ad_simd : c_simd c' = c_simd c }.

Lemma added_count c c' gs p : added c c' gs p -> c_count c' = c_count c + length gs.
Proof. intros H. unfold c_count. rewrite (ad_gates _ _ _ _ H), app_length. auto. Qed.

Lemma added_refl c p : api bool_ops c -> added c c [] p.
Proof. intros H. constructor; auto; [rewrite app_nil_r; auto|]. intros i Hi. cbn in Hi. lia. Qed.

Lemma added_put c c' g gs from p : api bool_ops c -> (forall f, In f from -> f < c_count c) ->
  added (put_gate bool_ops c g (rev from)) c' gs p ->
  added c c' (g :: gs) (fun i => match i with 0 => from | S j => p j end).
Proof.
  intros Ha Hf [A1 A2 A3 A4 A5].
  destruct (put_gate_spec bool_ops c g (rev from) Ha) as (_ & G & P); [intros f H; apply in_rev in H; auto|].
  assert (Hc : c_count (put_gate bool_ops c g (rev from)) = S (c_count c)) by (unfold c_count; rewrite G, app_length; cbn; lia).
  rewrite Hc in *. constructor; auto.
  - rewrite A2, G, <- app_assoc. reflexivity.
  - intros x Hx. rewrite A3, P by lia. rewrite (proj2 (Nat.eqb_neq x (c_count c))) by lia. auto.
  - intros [|i] Hi.
    + rewrite Nat.add_0_r, A3, P, Nat.eqb_refl, rev_involutive by lia. auto.
    + cbn [length] in Hi. rewrite <- (A4 i) by lia. f_equal. lia.
Qed.

Section Main.
Variables (cells : list (circuit bool_gate)) (ids : list nat) (cn : conns).

Lemma put_api c g from : api bool_ops c -> (forall f, In f from -> f < c_count c) -> api bool_ops (put_gate bool_ops c g (rev from)).
Proof. intros Ha Hf. apply put_gate_spec; auto. intros f H. apply in_rev in H. auto. Qed.
Lemma put_count c (g : bool_gate) from : c_count (put_gate bool_ops c g from) = S (c_count c).
Proof. unfold c_count, put_gate, add_gate. cbn. rewrite app_length. cbn. lia. Qed.

Lemma inputs_add m : forall c, api bool_ops c ->
  exists c', sec_inputs m (BD (c :: cells) (0 :: ids) cn) = Some (BD (c' :: cells) (0 :: ids) cn, map (pair 0) (seq (c_count c) m)) /\
    added c c' (repeat (BBase GInput) m) (fun _ => []).
Proof.
  induction m as [|m IH]; intros c Ha.
  - exists c. split; [reflexivity|apply added_refl; auto].
  - cbn [sec_inputs]. unfold sec_input. rewrite b_add_wired, b_wired_main by (intros f []). cbn [obind].
    destruct (IH (put_gate bool_ops c (BBase GInput) (rev []))) as (c' & E & A); [apply put_api; auto; intros f []|].
    rewrite E, put_count. cbn [obind seq map]. exists c'. split; [reflexivity|].
    apply (added_put c c' (BBase GInput) _ []) in A; auto; [|intros f []]. destruct A as [A1 A2 A3 A4 A5]. constructor; auto.
    intros [|i] Hi; rewrite A4 by auto; reflexivity.
Qed.

Lemma scins_add m : forall c, api bool_ops c ->
  exists c', sec_scins m (BD (c :: cells) (0 :: ids) cn) 0 = Some (BD (c' :: cells) (0 :: ids) cn, map (pair 0) (seq (c_count c) m)) /\
    added c c' (repeat (BBase GScInput) m) (fun _ => []).
Proof.
  induction m as [|m IH]; intros c Ha.
  - exists c. split; [reflexivity|apply added_refl; auto].
  - cbn [sec_scins]. assert (E1 : sec_scin (BD (c :: cells) (0 :: ids) cn) 0 =
      Some (BD (put_gate bool_ops c (BBase GScInput) (rev []) :: cells) (0 :: ids) cn, (0, c_count c))) by reflexivity.
    rewrite E1. cbn [obind].
    destruct (IH (put_gate bool_ops c (BBase GScInput) (rev []))) as (c' & E & A); [apply put_api; auto; intros f []|].
    rewrite E, put_count. cbn [obind seq map]. exists c'. split; [reflexivity|].
    apply (added_put c c' (BBase GScInput) _ []) in A; auto; [|intros f []]. destruct A as [A1 A2 A3 A4 A5]. constructor; auto.
    intros [|i] Hi; rewrite A4 by auto; reflexivity.
Qed.

Lemma outputs_add m : forall a c, api bool_ops c -> a + m <= c_count c ->
  exists c', sec_outputs (BD (c :: cells) (0 :: ids) cn) (map (pair 0) (seq a m)) = Some (BD (c' :: cells) (0 :: ids) cn, seq (c_count c) m) /\
    added c c' (repeat (BBase GOutput) m) (fun i => [a + i]).
Proof.
  induction m as [|m IH]; intros a c Ha Hm.
  - exists c. split; [reflexivity|apply added_refl; auto].
  - cbn [seq map sec_outputs]. unfold sec_output. cbn [fst snd].
    assert (Hf : forall f, In f [a] -> f < c_count c) by (intros f [<-|[]]; lia).
    rewrite b_wired_main by auto. cbn [obind].
    destruct (IH (S a) (put_gate bool_ops c (BBase GOutput) (rev [a]))) as (c' & E & A); [apply put_api; auto|rewrite put_count; lia|].
    rewrite E, put_count. cbn [obind snd]. exists c'. split; [reflexivity|].
    apply (added_put c c' (BBase GOutput) _ [a]) in A; auto. destruct A as [A1 A2 A3 A4 A5]. constructor; auto.
    intros [|i] Hi; rewrite A4 by auto; f_equal; lia.
Qed.
End Main.

(** ** The connections *)

Section Layout.
Variables (a m o : nat).
Hypothesis Ha : 0 < a.
Hypothesis Hm : 0 < m.

Definition bt_in : list (gid * nat) := [((0, 0), a)].
Definition bt_out : list (gid * nat) := [((1, o), m)].
Definition bt_hist : list (grange * grange) := run_ranges bt_in 1 0 ++ run_ranges bt_out 0 a.
Definition bt_wires : list (gid * gid) :=
  combine (map (pair 0) (seq 0 a)) (map (pair 1) (seq 0 a)) ++ combine (map (pair 1) (seq o m)) (map (pair 0) (seq a m)).

Lemma bt_connect_in {G} (isz : G -> nat) circ :
  exists cn', connect_sc_gates isz cn_empty (map (pair 0) (seq 0 a)) circ 1 (seq 0 a) = Some cn' /\ cn_rep cn' (run_ranges bt_in 1 0) [].
Proof.
  assert (H := connect_call_ok isz circ (map (pair 0) (seq 0 a)) bt_in 1 0 (a - 1) cn_empty [] [] cn_rep_empty).
  replace (S (a - 1)) with a in H by lia. apply H; clear H.
  - rewrite seq_run. revert Ha. clear. destruct a; [lia|discriminate].
  - rewrite seq_run. apply one_run. auto.
  - exact I.
  - rewrite map_length, seq_length. lia.
  - cbn [bt_in run_ranges insertables]. split; [|exact I]. apply (insertable_intro 1 1 Nat.lt_0_1 (le_n 1)); [lia|]. intros ft [].
  - cbn [bt_in run_ranges map insertables swap fst snd]. split; [|exact I]. apply (insertable_intro 1 1 Nat.lt_0_1 (le_n 1)); [lia|]. intros ft [].
Qed.
Lemma bt_connect_out {G} (isz : G -> nat) circ cn : cn_rep cn (run_ranges bt_in 1 0) [] ->
  exists cn', connect_sc_gates isz cn (map (pair 1) (seq o m)) circ 0 (seq a m) = Some cn' /\ cn_rep cn' bt_hist [].
Proof.
  intros R. assert (H := connect_call_ok isz circ (map (pair 1) (seq o m)) bt_out 0 a (m - 1) cn _ [] R).
  replace (S (m - 1)) with m in H by lia. apply H; clear H.
  - rewrite seq_run. revert Hm. clear. destruct m; [lia|discriminate].
  - rewrite seq_run. apply one_run. auto.
  - exact I.
  - rewrite map_length, seq_length. lia.
  - cbn [bt_in bt_out run_ranges insertables fst snd]. split; [|exact I]. apply (insertable_intro 1 1 Nat.lt_0_1 (le_n 1)); [lia|]. intros ft [<-|[]] E. discriminate E.
  - cbn [bt_in bt_out run_ranges map insertables swap fst snd]. split; [|exact I]. apply (insertable_intro 1 1 Nat.lt_0_1 (le_n 1)); [lia|]. intros ft [<-|[]] E. discriminate E.
Qed.

Lemma bt_related g : related bt_hist g = targets_of bt_wires g /\ related (map swap bt_hist) g = sources_of bt_wires g.
Proof.
  rewrite sources_swap.
  destruct (run_ranges_targets (map (pair 0) (seq 0 a)) bt_in 1 g ltac:(rewrite seq_run; apply one_run; auto) 0 a) as [A1 A2]; [rewrite map_length, seq_length; lia|].
  destruct (run_ranges_targets (map (pair 1) (seq o m)) bt_out 0 g ltac:(rewrite seq_run; apply one_run; auto) a m) as [B1 B2]; [rewrite map_length, seq_length; lia|].
  unfold bt_hist, bt_wires. rewrite (map_app (@swap grange grange)), (map_app (@swap gid gid)), !related_app, !targets_of_app, !map_swap_combine.
  rewrite (seq_run 1 0 a), (seq_run 0 a m).
  split; [exact (f_equal2 (@app gid) (eq_sym A1) (eq_sym B1))|exact (f_equal2 (@app gid) (eq_sym A2) (eq_sym B2))].
Qed.

Lemma bt_wired {G} imax (cs : list (circuit G)) mp cn : a + m <= imax -> o + m <= imax -> cn_rep cn bt_hist [] ->
  wired_as imax (MC cs mp cn) bt_wires.
Proof.
  intros H1 H2 [R1 R2 R3 R4] g. cbn [mc_conns].
  assert (HO : Forall (fun ft => range_ok imax (fst ft) /\ range_ok imax (snd ft)) bt_hist).
  { unfold bt_hist, bt_in, bt_out. cbn [run_ranges app fst snd Nat.add]. repeat constructor; cbn [fst snd]; lia. }
  destruct (bt_related g) as [W1 W2]. unfold cn_outgoing, cn_parents. rewrite R3, R4. cbn [map]. change (targets_of [] g) with (@nil gid).
  cbn [app]. rewrite <- W1, <- W2. split.
  - apply lookup_complete; auto; [eapply Forall_impl; [|exact HO]; cbn beta; tauto|].
    intros r1 r2 [<-|[<-|[]]] [<-|[<-|[]]]; cbn [fst snd]; lia.
  - apply lookup_complete; auto; [apply Forall_map; eapply Forall_impl; [|exact HO]; cbn beta; cbn [swap fst]; tauto|].
    intros r1 r2 [<-|[<-|[]]] [<-|[<-|[]]]; cbn [fst snd swap]; lia.
Qed.
End Layout.

(** ** Building *)

(** The main circuit: inputs, inputs from the called circuit, outputs. *)
Record bt_main (a m size : nat) (c : circuit bool_gate) : Prop := {
  bm_api : api bool_ops c;
  bm_gates : c_gates c = repeat (BBase GInput) a ++ repeat (BBase GScInput) m ++ repeat (BBase GOutput) m;
  bm_ports : forall x, x < a + m -> parents c x = [];
  bm_outs : forall i, i < m -> parents c (a + m + i) = [a + i];
  bm_simd : c_simd c = Some size }.

Lemma bt_build_main a m o sub size : 0 < a -> 0 < m -> c_scins sub = seq 0 a -> c_scouts sub = seq o m ->
  exists c cn, bt_build sub size = Some (BD [c; c_set_simd sub size] [0; 1] cn) /\ bt_main a m size c /\ cn_rep cn (bt_hist a m o) [].
Proof.
  intros Ha Hm Hi Ho. unfold bt_build. cbv zeta. change (c_scins (c_set_simd sub size)) with (c_scins sub). rewrite Hi, seq_length.
  destruct (inputs_add [] [] cn_empty a c_new (api_new bool_ops)) as (c1 & E1 & A1). rewrite E1. cbn [obind].
  unfold b_main_simd, b_cell. cbn [b_ids b_cells nth_error obind b_set upd b_cn b_push_new length app].
  set (c1' := c_set_simd c1 size).
  unfold b_connect_sub, b_cell at 1. cbn [b_ids b_cells nth_error obind b_cn]. change (c_scins (c_set_simd sub size)) with (c_scins sub). change (c_scouts (c_set_simd sub size)) with (c_scouts sub). rewrite Hi, Ho.
  destruct (bt_connect_in a m Ha Hm bool_input_size (c_set_simd sub size)) as (cn1 & F1 & R1).
  match goal with |- context [connect_sc_gates ?x1 ?x2 ?x3 ?x4 ?x5 ?x6] => replace (connect_sc_gates x1 x2 x3 x4 x5 x6) with (Some cn1) by (symmetry; exact F1) end.
  cbn [obind]. unfold b_connect_to_main. rewrite !map_length, !seq_length.
  assert (N1 : c_count c1' = a).
  { change (c_count c1') with (c_count c1). rewrite (added_count _ _ _ _ A1), repeat_length. reflexivity. }
  destruct (scins_add [c_set_simd sub size] [1] cn1 m c1' (api_simd bool_ops c1 size (ad_api _ _ _ _ A1))) as (c2 & E2 & A2).
  match goal with |- context [sec_scins ?a1 ?a2 ?a3] => replace (sec_scins a1 a2 a3) with (Some (BD [c2; c_set_simd sub size] [0; 1] cn1, map (pair 0) (seq (c_count c1') m))) by (symmetry; exact E2) end.
  cbn [obind]. unfold b_cell. cbn [b_ids b_cells nth_error obind b_cn]. rewrite N1 in *.
  destruct (bt_connect_out a m o Ha Hm bool_input_size c2 cn1 R1) as (cn2 & F2 & R2).
  assert (Em : map snd (map (pair 0) (seq a m)) = seq a m) by (rewrite map_map; apply map_id).
  assert (Ef : map (fun s : secret => (1, snd s)) (map (pair 1) (seq o m)) = map (pair 1) (seq o m)) by (rewrite map_map; reflexivity).
  match goal with |- context [connect_sc_gates ?a1 ?a2 ?a3 ?a4 ?a5 ?a6] => replace (connect_sc_gates a1 a2 a3 a4 a5 a6) with (Some cn2)
    by (symmetry; rewrite <- F2; f_equal; [exact Ef|exact Em]) end.
  cbn [obind]. pose proof (added_count _ _ _ _ A2) as N2. rewrite repeat_length, N1 in N2.
  destruct (outputs_add [c_set_simd sub size] [1] cn2 m a c2 (ad_api _ _ _ _ A2) ltac:(lia)) as (c3 & E3 & A3).
  match goal with |- context [sec_outputs ?a1 ?a2] => replace (sec_outputs a1 a2) with (Some (BD [c3; c_set_simd sub size] [0; 1] cn2, seq (c_count c2) m)) by (symmetry; exact E3) end.
  cbn [obind]. exists c3, cn2. split; [reflexivity|]. split; auto.
  destruct A1 as [_ G1 P1 Q1 S1], A2 as [_ G2 P2 Q2 S2], A3 as [B3 G3 P3 Q3 S3]. rewrite N1 in *. rewrite N2 in *. rewrite !repeat_length in *. constructor; auto.
  - rewrite G3, G2. change (c_gates c1') with (c_gates c1). rewrite G1, <- app_assoc. reflexivity.
  - intros x Hx. rewrite P3 by auto. destruct (Nat.ltb_spec x a) as [H|H].
    + rewrite P2 by auto. exact (Q1 x H).
    + replace x with (a + (x - a)) by lia. apply Q2. lia.
  - rewrite S3, S2. reflexivity.
Qed.
