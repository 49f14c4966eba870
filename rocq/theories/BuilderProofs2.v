(** From a program over secrets to the main circuit it builds. *)
From Coq Require Import List Bool Arith Lia.
Require Import Verif.Prelude Verif.PreludeProofs Verif.GateModel Verif.CircuitModel Verif.CircuitSpec Verif.CircuitProofs
  Verif.CircuitProofs2 Verif.CircuitProofs3 Verif.ExecModel Verif.BoolGmwModel Verif.BoolGmwSpec Verif.InlineSpec
  Verif.ExecCircuitSpec Verif.InlineProofs Verif.BristolProofs Verif.ConnModel Verif.BuilderModel Verif.BuilderSpec Verif.ReduceProofs
  Verif.BuilderProofs.
Import ListNotations.

Lemma built_new : built (@c_new bool_gate).
Proof. constructor; [constructor| | |auto]; [intros p g []|]. intros [|g] x; discriminate. Qed.

Lemma b_wired_one c cn g from : (forall f, In f from -> f < c_count c) ->
  b_wired (BD [c] [0] cn) 0 g from = Some (BD [put_gate bool_ops c g (rev from)] [0] cn, (0, c_count c)).
Proof. intros H. unfold b_wired, b_cell. cbn [b_ids b_cells nth_error obind]. rewrite add_wired_gate_put by auto. reflexivity. Qed.

Lemma sec_inputs_spec n : forall c cn, built c ->
  exists c', sec_inputs n (BD [c] [0] cn) = Some (BD [c'] [0] cn, map (pair 0) (seq (c_count c) n)) /\ built c' /\
    c_gates c' = c_gates c ++ repeat (BBase GInput) n /\ c_inputs c' = c_inputs c ++ seq (c_count c) n /\
    c_outputs c' = c_outputs c /\ c_scins c' = c_scins c.
Proof.
  induction n as [|n IH]; intros c cn Hb.
  - exists c. cbn. rewrite !app_nil_r. repeat (split; [solve [auto]|]). auto.
  - cbn [sec_inputs]. unfold sec_input. rewrite b_add_wired, b_wired_one by (intros f []). cbn [obind].
    set (c1 := put_gate bool_ops c (BBase GInput) (rev [])).
    assert (B1 : built c1) by (apply put_built; auto; intros f []).
    destruct (IH c1 cn B1) as (c' & E & B & G & I & O & S). rewrite E. cbn [obind].
    assert (Hc : c_count c1 = Datatypes.S (c_count c)) by (unfold c_count, c1; simpl; rewrite app_length; simpl; lia).
    rewrite Hc in *. exists c'. split; [reflexivity|]. split; auto. split; [rewrite G; unfold c1; simpl; rewrite <- app_assoc; auto|].
    split; [rewrite I; unfold c1; simpl; rewrite <- app_assoc; auto|]. auto.
Qed.

Lemma sec_outputs_spec l : forall c cn, built c -> Forall (fun s : secret => fst s = 0 /\ snd s < c_count c) l ->
  exists c' os, sec_outputs (BD [c] [0] cn) l = Some (BD [c'] [0] cn, os) /\ built c' /\
    os = seq (c_count c) (length l) /\
    c_gates c' = c_gates c ++ repeat (BBase GOutput) (length l) /\ c_inputs c' = c_inputs c /\
    c_outputs c' = c_outputs c ++ os /\ c_scins c' = c_scins c /\
    forall v, valued bool_ops bool_gate_sem c' v ->
      valued bool_ops bool_gate_sem c v /\ map v os = map (fun s : secret => v (snd s)) l.
Proof.
  induction l as [|s l IH]; intros c cn Hb Hl.
  - exists c, []. cbn. rewrite !app_nil_r. intuition auto.
  - inversion Hl as [|? ? [Hs0 Hs1] Hl']; subst. cbn [sec_outputs]. unfold sec_output. rewrite Hs0.
    assert (Hf : forall f, In f [snd s] -> f < c_count c) by (intros f [<-|[]]; auto).
    rewrite b_wired_one by auto. cbn [obind].
    set (c1 := put_gate bool_ops c (BBase GOutput) (rev [snd s])).
    assert (B1 : built c1) by (apply put_built; auto).
    assert (Hc : c_count c1 = Datatypes.S (c_count c)) by (unfold c_count, c1; simpl; rewrite app_length; simpl; lia).
    destruct (IH c1 cn B1) as (c' & os & E & B & Eos & G & I & O & S & V).
    { eapply Forall_impl; [|exact Hl']. cbn beta. intros t [T1 T2]. split; auto. rewrite Hc. lia. }
    rewrite E. cbn [obind snd]. rewrite Hc in *. exists c', (c_count c :: os). split; [reflexivity|]. split; auto.
    split; [cbn [length seq]; congruence|].
    split; [rewrite G; unfold c1; simpl; rewrite <- app_assoc; auto|]. split; auto.
    split; [rewrite O; unfold c1; simpl; rewrite <- app_assoc; auto|]. split; auto.
    intros v Hv. destruct (V v Hv) as [V1 V2]. apply put_gate_valued in V1; [|apply Hb|auto].
    destruct V1 as [V1 V3]. split; auto. cbn [map]. rewrite V2. f_equal.
    specialize (V3 eq_refl). cbn in V3. congruence.
Qed.

Lemma no_scins c : built c -> c_scins c = [] -> forall g x, nth_error (c_gates c) g = Some x -> x <> BBase GScInput.
Proof.
  intros Hb Hs g x Hx ->. pose proof (aw_scins _ _ (api_api_wf _ _ (bt_api _ Hb))) as H. rewrite Hs in H.
  assert (In g []); [|auto]. rewrite H. apply ids_where_In. eauto.
Qed.

Lemma built_main c : built c -> c_scins c = [] -> main_ok bool_ops c /\ operands_ok c.
Proof.
  intros Hb Hs. pose proof (no_scins c Hb Hs) as Hn. destruct Hb as [A O R S]. split; [split; [auto|split]|].
  - exists (fun x => x). auto.
  - intros g x Hx. split.
    + intros Hp. specialize (R g x Hx). rewrite Hp in R. specialize (Hn g x Hx).
      destruct x as [[]| | |]; try discriminate; auto.
    + intros Hp. specialize (R g x Hx). destruct (parents c g); auto. destruct x as [[]| | |]; try discriminate.
  - intros g x Hx. specialize (R g x Hx). specialize (Hn g x Hx).
    destruct x as [[]| | |]; try discriminate; auto; cbn in R; try congruence.
Qed.
