(** Property theorems about inlining a sub-circuit: C15. *)
From Coq Require Import List Bool Arith Lia Permutation ZArith.
Require Import Verif.Prelude Verif.PreludeProofs Verif.GateModel Verif.CircuitModel Verif.CircuitSpec
  Verif.CircuitProofs Verif.CircuitProofs2 Verif.CircuitProofs3 Verif.BoolGmwModel Verif.BoolGmwSpec
  Verif.ArithGmwModel Verif.ArithGmwSpec
  Verif.InlineModel Verif.InlineSpec Verif.InlineProofs Verif.CircuitCheck.
Import ListNotations.
Open Scope nat_scope.

(** ** C15 *)

(** What C15 asks of the result [(c', outs)] of inlining [sub] into [c]. *)
Definition inlining_correct {P G V} (ops : gate_ops P G) (sem : G -> list V -> option V)
  (c sub c' : circuit G) (inputs outs : list nat) : Prop :=
  (* gates present before stay *)
  (forall g, g < c_count c -> nth_error (c_gates c') g = nth_error (c_gates c) g) /\
  (* values of the result: the old circuit, and the sub-circuit fed by the
     inputs *)
  (forall v, valued ops sem c' v ->
     valued ops sem c v /\
     exists w, valued ops sem sub w /\
       map w (c_scins sub) = map v (firstn (length (c_scins sub)) inputs) /\
       map v outs = map w (c_scouts sub)) /\
  (* and all such values are possible *)
  (forall v w, valued ops sem c v -> valued ops sem sub w ->
     map w (c_scins sub) = map v (firstn (length (c_scins sub)) inputs) ->
     exists v', valued ops sem c' v' /\ (forall g, g < c_count c -> v' g = v g) /\
       map v' outs = map w (c_scouts sub)).

Lemma map_firstn_pointwise {V} (w v : nat -> V) : forall scins inputs,
  (forall i g, nth_error scins i = Some g -> exists a, nth_error inputs i = Some a /\ w g = v a) <->
  (length scins <= length inputs /\ map w scins = map v (firstn (length scins) inputs)).
Proof.
  induction scins as [|s scins IH]; intros inputs.
  - simpl. split; [intros _; split; [lia|auto]|]. intros _ [|i] g; discriminate.
  - destruct inputs as [|a inputs].
    + simpl. split; [|intros [H _]; lia]. intros H. destruct (H 0 s eq_refl) as (a & Ha & _). discriminate.
    + simpl. split.
      * intros H. destruct (proj1 (IH inputs)) as [H1 H2].
        { intros i g Hi. apply (H (S i) g Hi). }
        split; [lia|]. destruct (H 0 s eq_refl) as (b & Hb & ->). injection Hb as <-. congruence.
      * intros [H1 H2]. injection H2 as E H2. intros [|i] g Hi; simpl in *.
        -- injection Hi as <-. eauto.
        -- apply (proj2 (IH inputs)); auto. split; auto. lia.
Qed.

(** For every gate set and semantics in which the operands of the gates of the
    inlined circuit may be listed in either direction.  Missing for the full
    property: gates like subtraction, see [C15_inlining_refuted]. *)
Theorem C15_inlining_partial :
  forall (P G V : Type) (ops : gate_ops P G) (sem : G -> list V -> option V) (c sub : circuit G) inputs,
  passes_through ops sem -> api ops c -> callable ops sub -> reversible sem sub ->
  length (c_scins sub) <= length inputs -> Forall (fun i => i < c_count c) inputs ->
  exists c' outs, add_sub_circuit ops c sub inputs = Some (c', outs) /\
    inlining_correct ops sem c sub c' inputs outs /\
    (main_ok ops c -> main_ok ops c').
Proof.
  intros P G V ops sem c sub inputs Hpass Hapi Hcall Hrev Hlen Hrange.
  destruct (inline_structure ops c sub inputs Hapi Hcall Hlen Hrange) as (c' & outs & order & f & E & HI).
  exists c', outs. split; auto.
  assert (Hsco : forall o, In o (c_scouts sub) -> o < c_count sub).
  { destruct Hcall as ((Ha & _) & _). apply api_api_wf in Ha. rewrite (aw_scouts _ _ Ha). intros o Ho.
    apply ids_where_In in Ho. destruct Ho as (x & Ex & _). apply nth_error_Some. congruence. }
  split.
  - split; [|split].
    + intros g Hg. apply (old_gate ops c sub c' inputs outs order f HI g Hg).
    + intros v Hv.
      destruct (inline_down ops sem c sub c' inputs outs order f Hpass Hcall Hrev HI v Hv) as (A & B & C).
      split; auto. exists (fun g => v (f g)). split; auto. split.
      * apply (map_firstn_pointwise (fun g => v (f g)) v). auto.
      * rewrite (in_outs _ _ _ _ _ _ _ _ HI), map_map. auto.
    + intros v w Hv Hw Hm. exists (glue c order v w). split; [|split].
      * apply (inline_up ops sem c sub c' inputs outs order f); auto.
        apply (map_firstn_pointwise w v). auto.
      * intros g Hg. apply glue_old; auto.
      * rewrite (in_outs _ _ _ _ _ _ _ _ HI), map_map. apply map_ext_in. intros o Ho.
        apply (glue_new ops c sub c' inputs outs order f HI). auto.
  - intros Hm. eapply inline_main_ok; eauto. apply Hpass.
Qed.
Print Assumptions C15_inlining_partial.

(** Too few inputs are rejected. *)
Theorem C15_too_few_inputs_panic :
  forall (P G : Type) (ops : gate_ops P G) (c sub : circuit G) inputs,
  length inputs < length (c_scins sub) -> add_sub_circuit ops c sub inputs = None.
Proof.
  intros P G ops c sub inputs H. unfold add_sub_circuit.
  destruct (oassert (negb (c_is_main sub))); [|reflexivity]. cbn [obind].
  destruct (oassert _); [|reflexivity]. cbn [obind].
  destruct (c_iter ops sub); [|reflexivity]. cbn [obind].
  destruct (ofold (asc_step ops sub) _ _) as [[c1 gmap]|]; [|reflexivity]. cbn [obind].
  destruct (ofold _ c1 _); [|reflexivity]. cbn [obind].
  rewrite combine_length, Nat.min_l by lia.
  destruct (Nat.eqb_spec (length inputs) (length (c_scins sub))); [lia|]. reflexivity.
Qed.
Print Assumptions C15_too_few_inputs_panic.

(** Operand counts of a boolean circuit to be inlined. *)
Definition bool_arity_ok (sub : circuit bool_gate) : Prop :=
  forall g x, nth_error (c_gates sub) g = Some x ->
  match x with BAnd | BXor => length (parents sub g) = 2 | _ => length (parents sub g) <= 1 end.

Lemma bool_reversible sub : bool_arity_ok sub -> reversible bool_gate_sem sub.
Proof.
  intros H g x Hx l Hl. specialize (H _ _ Hx). rewrite <- Hl in H.
  destruct x as [b| | |]; destruct l as [|a [|b' [|]]]; simpl in H; try lia; simpl; auto;
    rewrite ?(andb_comm b'), ?(xorb_comm b'); auto.
Qed.

Lemma bool_passes : passes_through bool_ops bool_gate_sem.
Proof.
  split; [reflexivity|]. split; [reflexivity|]. intros [[]| | |] l; simpl; try discriminate. auto.
Qed.

(** Boolean circuits: the full property. *)
Theorem C15_boolean_inlining :
  forall (c sub : circuit bool_gate) inputs,
  api bool_ops c -> callable bool_ops sub -> bool_arity_ok sub ->
  length (c_scins sub) <= length inputs -> Forall (fun i => i < c_count c) inputs ->
  exists c' outs, add_sub_circuit bool_ops c sub inputs = Some (c', outs) /\
    inlining_correct bool_ops bool_gate_sem c sub c' inputs outs /\
    (main_ok bool_ops c -> main_ok bool_ops c').
Proof.
  intros. apply C15_inlining_partial; auto using bool_passes, bool_reversible.
Qed.
Print Assumptions C15_boolean_inlining.

(** Arithmetic circuits without subtraction. *)
Definition arith_no_sub (sub : circuit arith_gate) : Prop :=
  forall g x, nth_error (c_gates sub) g = Some x ->
  match x with
  | ASub => False
  | AMul | AAdd => length (parents sub g) = 2
  | _ => length (parents sub g) <= 1
  end.

Theorem C15_arith_inlining_partial :
  forall w (c sub : circuit arith_gate) inputs,
  api arith_ops c -> callable arith_ops sub -> arith_no_sub sub ->
  length (c_scins sub) <= length inputs -> Forall (fun i => i < c_count c) inputs ->
  exists c' outs, add_sub_circuit arith_ops c sub inputs = Some (c', outs) /\
    inlining_correct arith_ops (arith_gate_sem w) c sub c' inputs outs /\
    (main_ok arith_ops c -> main_ok arith_ops c').
Proof.
  intros w c sub inputs Ha Hc Hn Hl Hr. apply C15_inlining_partial; auto.
  - split; [reflexivity|]. split; [reflexivity|]. intros [[]| | |] l; simpl; try discriminate. auto.
  - intros g x Hx l Hll. specialize (Hn _ _ Hx). rewrite <- Hll in Hn.
    destruct x as [b| | |]; destruct l as [|a [|b' [|]]]; simpl in Hn; try lia; try tauto; simpl; auto.
    + do 2 f_equal. ring.
    + do 2 f_equal. ring.
Qed.
Print Assumptions C15_arith_inlining_partial.

(** The sub-circuit x - y inlined into a circuit computes y - x. *)
Definition ex_sub_sub : circuit arith_gate :=
  c_build arith_ops c_new [(ABase GScInput, []); (ABase GScInput, []); (ASub, [0; 1]); (ABase GScOutput, [2])].
Definition ex_sub_main : circuit arith_gate :=
  c_build arith_ops c_new_main [(ABase GInput, []); (ABase GInput, [])].

Theorem C15_inlining_refuted :
  exists c sub inputs c' outs v w,
    api arith_ops c /\ callable arith_ops sub /\
    add_sub_circuit arith_ops c sub inputs = Some (c', outs) /\
    valued arith_ops (arith_gate_sem 8) c' v /\ valued arith_ops (arith_gate_sem 8) sub w /\
    map w (c_scins sub) = map v inputs /\ map v outs <> map w (c_scouts sub).
Proof.
  set (r := add_sub_circuit arith_ops ex_sub_main ex_sub_sub [0; 1]).
  destruct r as [[c' outs]|] eqn:E; [|vm_compute in E; discriminate].
  exists ex_sub_main, ex_sub_sub, [0; 1], c', outs,
    (fun g => nth g [7; 5; 7; 5; 254; 254] 0)%Z, (fun g => nth g [7; 5; 2; 2] 0)%Z.
  split; [apply c_build_api; constructor|]. split.
  { apply sub_check_callable; [apply c_build_api; constructor|reflexivity]. }
  split; [exact E|]. unfold r in E. vm_compute in E. injection E as <- <-.
  split; [apply (valued_check_ok Z.eqb); [apply Z.eqb_eq|reflexivity]|].
  split; [apply (valued_check_ok Z.eqb); [apply Z.eqb_eq|reflexivity]|].
  split; [reflexivity|]. vm_compute. discriminate.
Qed.
Print Assumptions C15_inlining_refuted.

(** A full adder inlined twice, the second time fed by the first. *)
Definition ex_adder : circuit bool_gate :=
  c_build bool_ops c_new [(BBase GScInput, []); (BBase GScInput, []); (BBase GScInput, []);
    (BXor, [0; 2]); (BXor, [1; 2]); (BXor, [0; 4]); (BAnd, [3; 4]); (BXor, [6; 2]);
    (BBase GScOutput, [5]); (BBase GScOutput, [7])].
Definition ex_add_main : circuit bool_gate :=
  c_build bool_ops c_new_main (repeat (BBase GInput, []) 5).

Example C15_case :
  api bool_ops ex_add_main /\ callable bool_ops ex_adder /\ bool_arity_ok ex_adder /\
  match add_sub_circuit bool_ops ex_add_main ex_adder [0; 1; 2] with
  | Some (c1, [s; co]) =>
      match add_sub_circuit bool_ops c1 ex_adder [3; 4; co] with
      | Some (c2, [s'; co']) =>
          valued_check Bool.eqb bool_ops bool_gate_sem c2
            (fun g => nth g [true; true; false; true; false;
                             true; true; false; true; true; false; false; true; true; true;
                             true; false; true; true; false; false; false; false; true; true] false) = true
          /\ (s, co, s', co') = (11, 14, 21, 24)
      | _ => False
      end
  | _ => False
  end.
Proof.
  split; [apply c_build_api; constructor|]. split.
  { apply sub_check_callable; [apply c_build_api; constructor|reflexivity]. }
  split.
  { intros g x Hx. assert (Hg : g < 10) by (change 10 with (length (c_gates ex_adder)); apply nth_error_Some; congruence).
    do 10 (destruct g as [|g]; [vm_compute in Hx; injection Hx as <-; vm_compute; auto with arith|]). lia. }
  vm_compute. repeat split.
Qed.
