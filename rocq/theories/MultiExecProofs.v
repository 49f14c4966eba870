(** Executions of programs made of several circuits. *)
From Coq Require Import List Bool Arith Lia Permutation Sorting.Sorted.
Require Import Verif.Prelude Verif.PreludeProofs Verif.GateModel Verif.ProtocolModel Verif.BoolGmwModel
  Verif.BoolGmwSpec Verif.CircuitModel Verif.CircuitSpec Verif.CircuitProofs Verif.CircuitProofs2
  Verif.CircuitProofs3 Verif.ExecModel Verif.ExecSpec Verif.ExecProofs Verif.ExecBoolSpec Verif.ExecBoolProofs
  Verif.ExecCircuitSpec Verif.ExecCircuitProofs Verif.ConnModel Verif.ConnSpec Verif.MultiModel Verif.MultiSpec
  Verif.MultiProofs Verif.MultiExecSpec.
Import ListNotations.

(** * Numbering *)

Section Flat.
Context {G : Type}.
Implicit Types (cl : list (circuit G)) (c : circuit G).

Fixpoint unflat (cl : list (circuit G)) (k x : nat) : gid :=
  match cl with
  | [] => (k, x)
  | c :: r => if x <? c_count c then (k, x) else unflat r (S k) (x - c_count c)
  end.

Definition ex_in (cl : list (circuit G)) (g : gid) : Prop :=
  exists c, nth_error cl (fst g) = Some c /\ snd g < c_count c.

Lemma unflat_flat cl : forall k0 g, ex_in cl g -> unflat cl k0 (flat_id cl g) = (k0 + fst g, snd g).
Proof.
  induction cl as [|c r IH]; intros k0 [k g] (c' & E & L); simpl in E, L; [destruct k; discriminate|].
  unfold flat_id. cbn [fst snd]. destruct k as [|k]; cbn [flat_off unflat].
  - simpl in E. injection E as <-. simpl. destruct (Nat.ltb_spec g (c_count c)); [|lia]. f_equal. lia.
  - simpl in E. destruct (Nat.ltb_spec (c_count c + flat_off r k + g) (c_count c)); [lia|].
    replace (c_count c + flat_off r k + g - c_count c) with (flat_off r k + g) by lia.
    specialize (IH (S k0) (k, g) (ex_intro _ c' (conj E L))). unfold flat_id in IH. cbn [fst snd] in IH.
    rewrite IH. f_equal. lia.
Qed.

Lemma flat_id_inj cl g g' : ex_in cl g -> ex_in cl g' -> flat_id cl g = flat_id cl g' -> g = g'.
Proof.
  intros H H' E. pose proof (unflat_flat cl 0 g H) as A. rewrite E, (unflat_flat cl 0 g' H') in A.
  destruct g, g'. simpl in A. congruence.
Qed.

Lemma flat_gate cl : forall k c g x, nth_error cl k = Some c -> nth_error (c_gates c) g = Some x ->
  nth_error (concat (map c_gates cl)) (flat_id cl (k, g)) = Some x.
Proof.
  induction cl as [|c0 r IH]; intros k c g x Hk Hg; [destruct k; discriminate|].
  assert (Hlt : g < length (c_gates c)) by (apply nth_error_Some; congruence).
  unfold flat_id. cbn [fst snd]. destruct k as [|k]; cbn [flat_off map concat].
  - simpl in Hk. injection Hk as ->. simpl. rewrite nth_error_app1 by auto. auto.
  - simpl in Hk. unfold c_count. rewrite nth_error_app2 by lia.
    replace (length (c_gates c0) + flat_off r k + g - length (c_gates c0)) with (flat_off r k + g) by lia.
    apply (IH k c g x Hk Hg).
Qed.

Lemma flat_gate_inv cl : forall y x, nth_error (concat (map c_gates cl)) y = Some x ->
  exists k c g, nth_error cl k = Some c /\ nth_error (c_gates c) g = Some x /\ y = flat_id cl (k, g).
Proof.
  induction cl as [|c0 r IH]; intros y x H; [destruct y; discriminate|]. cbn [map concat] in H.
  destruct (lt_dec y (length (c_gates c0))) as [Hl|Hl].
  - rewrite nth_error_app1 in H by auto. exists 0, c0, y. repeat split; auto.
  - rewrite nth_error_app2 in H by lia. destruct (IH _ _ H) as (k & c & g & A & B & C).
    exists (S k), c, g. repeat split; auto. unfold flat_id in *. cbn [fst snd flat_off] in *. unfold c_count. lia.
Qed.

Lemma flat_bound cl g : ex_in cl g -> flat_id cl g < length (concat (map (@c_gates G) cl)).
Proof.
  intros (c & A & B). destruct g as [k g]. simpl in *.
  destruct (nth_error (c_gates c) g) as [x|] eqn:E; [|apply nth_error_None in E; unfold c_count in B; lia].
  apply nth_error_Some. rewrite (flat_gate cl k c g x A E). discriminate.
Qed.

(** Edges of circuit [k] among the renumbered edges. *)
Lemma flat_edges_In cl : forall o e, In e (flat_edges o cl) -> exists k c f,
  nth_error cl k = Some c /\ In f (c_edges c) /\
  e = (o + flat_off cl k + fst f, o + flat_off cl k + snd f).
Proof.
  induction cl as [|c r IH]; intros o e H; [destruct H|]. cbn [flat_edges] in H. apply in_app_or in H.
  destruct H as [H|H].
  - apply in_map_iff in H. destruct H as (f & <- & Hf). exists 0, c, f. split; [auto|]. split; [auto|].
    cbn [flat_off]. f_equal; lia.
  - destruct (IH _ _ H) as (k & c' & f & A & B & ->). exists (S k), c', f. split; [auto|]. split; [auto|].
    cbn [flat_off]. f_equal; lia.
Qed.

Lemma filter_none {A} (f : A -> bool) l : (forall x, In x l -> f x = false) -> filter f l = [].
Proof.
  induction l as [|a l IH]; intros H; auto. simpl. rewrite (H a) by (simpl; auto). apply IH.
  intros; apply H; simpl; auto.
Qed.

Definition ranged (cl : list (circuit G)) : Prop := forall k c, nth_error cl k = Some c -> in_range c.

Lemma flat_edges_pick (side other : nat * nat -> nat) (mk : forall o (e : nat * nat), side (o + fst e, o + snd e) = o + side e)
  (mk' : forall o (e : nat * nat), other (o + fst e, o + snd e) = o + other e)
  cl : forall o k c g, (forall k c e, nth_error cl k = Some c -> In e (c_edges c) -> side e < c_count c) ->
  nth_error cl k = Some c -> g < c_count c ->
  map other (filter (fun e => side e =? o + flat_off cl k + g) (flat_edges o cl)) =
  map (fun p => o + flat_off cl k + p) (map other (filter (fun e => side e =? g) (c_edges c))).
Proof.
  induction cl as [|c0 r IH]; intros o k c g HR Hk Hg; [destruct k; discriminate|].
  cbn [flat_edges]. rewrite filter_app, map_app. destruct k as [|k].
  - simpl in Hk. injection Hk as ->. cbn [flat_off].
    rewrite (filter_none _ (flat_edges (o + c_count c) r)).
    + rewrite app_nil_r. rewrite Nat.add_0_r. clear - mk mk'. induction (c_edges c) as [|e l IHl]; auto.
      simpl. rewrite mk. replace (o + side e =? o + g) with (side e =? g).
      2:{ destruct (Nat.eqb_spec (side e) g), (Nat.eqb_spec (o + side e) (o + g)); auto; lia. }
      destruct (side e =? g); simpl; rewrite IHl; auto. rewrite mk'. auto.
    + intros e He. apply flat_edges_In in He. destruct He as (k & c' & f & A & B & ->).
      replace (o + c_count c + flat_off r k + fst f, o + c_count c + flat_off r k + snd f)
        with ((o + c_count c + flat_off r k) + fst f, (o + c_count c + flat_off r k) + snd f) by auto.
      rewrite mk. apply Nat.eqb_neq. lia.
  - simpl in Hk. cbn [flat_off].
    rewrite (filter_none _ (map _ (c_edges c0))).
    + cbn [map app]. specialize (IH (o + c_count c0) k c g). rewrite Nat.add_assoc. apply IH; auto.
      intros k' c' e A. apply (HR (S k') c' e A).
    + intros e He. apply in_map_iff in He. destruct He as (f & <- & Hf). rewrite mk.
      apply Nat.eqb_neq. specialize (HR 0 c0 f eq_refl Hf). lia.
Qed.

Lemma flat_edges_parents cl k c g : ranged cl -> nth_error cl k = Some c -> g < c_count c ->
  map fst (filter (fun e => snd e =? flat_id cl (k, g)) (flat_edges 0 cl)) =
  map (fun p => flat_id cl (k, p)) (parents c g).
Proof.
  intros HR Hk Hg.
  exact (flat_edges_pick snd fst (fun _ _ => eq_refl) (fun _ _ => eq_refl) cl 0 k c g
    (fun k c e A B => proj2 (HR k c A (fst e) (snd e) ltac:(destruct e; exact B))) Hk Hg).
Qed.

Lemma flat_edges_children cl k c g : ranged cl -> nth_error cl k = Some c -> g < c_count c ->
  map snd (filter (fun e => fst e =? flat_id cl (k, g)) (flat_edges 0 cl)) =
  map (fun p => flat_id cl (k, p)) (children c g).
Proof.
  intros HR Hk Hg.
  exact (flat_edges_pick fst snd (fun _ _ => eq_refl) (fun _ _ => eq_refl) cl 0 k c g
    (fun k c e A B => proj1 (HR k c A (fst e) (snd e) ltac:(destruct e; exact B))) Hk Hg).
Qed.

(** The single circuit. *)
Lemma put_wires_api {P} (ops : gate_ops P G) es : forall c, api ops c ->
  api ops (fold_right (fun e c => put_wire c e) c es).
Proof.
  induction es as [|e es IH]; intros c H; auto. cbn [fold_right]. unfold put_wire at 1.
  destruct (add_wire _ (fst e) (snd e)) eqn:E; auto. eapply api_wire; [|eauto]. auto.
Qed.

Lemma put_wires_spec es : forall c : circuit G,
  (forall e, In e es -> fst e < c_count c /\ snd e < c_count c) ->
  let c' := fold_right (fun e c => put_wire c e) c es in
  c_gates c' = c_gates c /\ c_edges c' = es ++ c_edges c /\ c_simd c' = c_simd c.
Proof.
  induction es as [|e es IH]; intros c H; auto. cbn [fold_right].
  destruct (IH c) as (A & B & C); [intros; apply H; simpl; auto|].
  set (c1 := fold_right (fun e c => put_wire c e) c es) in *. cbv zeta in *.
  destruct (H e) as [H1 H2]; [simpl; auto|].
  assert (Hc : c_count c1 = c_count c) by (unfold c_count; rewrite A; auto).
  assert (Ew : put_wire c1 e = Circ (c_gates c1) ((fst e, snd e) :: c_edges c1) (c_is_main c1) (c_simd c1)
            (c_icount c1) (c_inputs c1) (c_outputs c1) (c_consts c1) (c_scouts c1) (c_scins c1)).
  { unfold put_wire, add_wire. rewrite Hc. apply Nat.ltb_lt in H1, H2. rewrite H1, H2. reflexivity. }
  rewrite Ew. cbn [c_gates c_edges c_simd]. split; [exact A|]. split; [|exact C]. rewrite B. destruct e; auto.
Qed.

Lemma add_gates_spec {P} (ops : gate_ops P G) gs : forall c,
  let c' := fold_left (fun c g => fst (add_gate ops c g)) gs c in
  c_gates c' = c_gates c ++ gs /\ c_edges c' = c_edges c /\ c_simd c' = c_simd c /\ (api ops c -> api ops c').
Proof.
  induction gs as [|g gs IH]; intros c; cbn [fold_left]; cbv zeta.
  - rewrite app_nil_r. auto.
  - destruct (IH (fst (add_gate ops c g))) as (A & B & C & D). cbv zeta in *.
    rewrite A, B, C. simpl. rewrite <- app_assoc. repeat split; auto.
    intros H. apply D. apply api_gate; auto.
Qed.

Lemma inline_all_spec {P} (ops : gate_ops P G) cl h c0 :
  nth_error cl 0 = Some c0 -> ranged cl ->
  (forall p t, In (p, t) h -> ex_in cl p /\ ex_in cl t) ->
  let f := inline_all ops cl h in
  api ops f /\ c_gates f = concat (map c_gates cl) /\ c_simd f = c_simd c0 /\
  c_edges f = flat_edges 0 cl ++ map (fun w => (flat_id cl (fst w), flat_id cl (snd w))) h.
Proof.
  intros H0 HR Hw f. unfold f, inline_all. destruct cl as [|c r]; [discriminate|].
  injection H0 as ->. set (cl := c0 :: r) in *.
  set (c1 := match c_simd c0 with Some n => c_set_simd c_new_main n | None => c_new_main end).
  destruct (add_gates_spec ops (concat (map c_gates cl)) c1) as (A & B & C & D). cbv zeta in A, B, C, D.
  set (c2 := fold_left (fun c g => fst (add_gate ops c g)) (concat (map c_gates cl)) c1) in *.
  assert (Hc1 : c_gates c1 = [] /\ c_edges c1 = [] /\ c_simd c1 = c_simd c0 /\ api ops c1).
  { unfold c1. destruct (c_simd c0); simpl; repeat split; repeat constructor. }
  destruct Hc1 as (E1 & E2 & E3 & E4). rewrite E1 in A. rewrite E2 in B. rewrite E3 in C. simpl in A.
  destruct (put_wires_spec (flat_edges 0 cl ++ map (fun w => (flat_id cl (fst w), flat_id cl (snd w))) h) c2)
    as (F1 & F2 & F3).
  { intros e He. unfold c_count. rewrite A. apply in_app_or in He. destruct He as [He|He].
    - apply flat_edges_In in He. destruct He as (k & c & g & K1 & K2 & ->). cbn [fst snd].
      destruct (HR k c K1 (fst g) (snd g)) as [R1 R2]; [destruct g; auto|].
      split; [apply (flat_bound cl (k, fst g))|apply (flat_bound cl (k, snd g))]; exists c; auto.
    - apply in_map_iff in He. destruct He as ([p t] & <- & He). cbn [fst snd]. destruct (Hw p t He).
      split; apply flat_bound; auto. }
  cbv zeta in F1, F2, F3. rewrite F1, F2, F3, A, B, C, app_nil_r. repeat split.
  apply put_wires_api. auto.
Qed.

Lemma flat_parents {P} (ops : gate_ops P G) cl h c0 k c g :
  nth_error cl 0 = Some c0 -> ranged cl ->
  (forall p t, In (p, t) h -> ex_in cl p /\ ex_in cl t) ->
  nth_error cl k = Some c -> g < c_count c ->
  parents (inline_all ops cl h) (flat_id cl (k, g)) =
  map (flat_id cl) (map (pair k) (parents c g) ++ sources_of h (k, g)).
Proof.
  intros H0 HR Hw Hk Hg. destruct (inline_all_spec ops cl h c0 H0 HR Hw) as (_ & _ & _ & E).
  unfold parents at 1. rewrite E, filter_app, !map_app. f_equal.
  - rewrite (flat_edges_parents cl k c g HR Hk Hg), map_map. reflexivity.
  - unfold sources_of. clear E. assert (Hx : ex_in cl (k, g)) by (exists c; auto).
    induction h as [|[p t] l IH]; auto.
    assert (IH' := IH (fun p t H => Hw p t (or_intror H))). clear IH.
    cbn [map filter fst snd]. destruct (Hw p t (or_introl eq_refl)) as [_ Ht].
    replace (flat_id cl t =? flat_id cl (k, g)) with ((fst t =? k) && (snd t =? g)).
    + destruct ((fst t =? k) && (snd t =? g)); cbn [map fst]; rewrite IH'; auto.
    + destruct (Nat.eqb_spec (flat_id cl t) (flat_id cl (k, g))) as [Eq|Ne].
      * apply flat_id_inj in Eq; auto. subst t. simpl. rewrite !Nat.eqb_refl. auto.
      * destruct (Nat.eqb_spec (fst t) k), (Nat.eqb_spec (snd t) g); auto. exfalso. apply Ne.
        destruct t. simpl in *. subst. auto.
Qed.

Lemma flat_children {P} (ops : gate_ops P G) cl h c0 k c g :
  nth_error cl 0 = Some c0 -> ranged cl ->
  (forall p t, In (p, t) h -> ex_in cl p /\ ex_in cl t) ->
  nth_error cl k = Some c -> g < c_count c -> children c g = [] -> (forall t, ~ In ((k, g), t) h) ->
  children (inline_all ops cl h) (flat_id cl (k, g)) = [].
Proof.
  intros H0 HR Hw Hk Hg Hc Hh. destruct (inline_all_spec ops cl h c0 H0 HR Hw) as (_ & _ & _ & E).
  unfold children at 1. rewrite E, filter_app, map_app, (flat_edges_children cl k c g HR Hk Hg), Hc.
  simpl. rewrite filter_none; auto. intros e He. apply in_map_iff in He. destruct He as ([p t] & <- & He).
  cbn [fst snd]. apply Nat.eqb_neq. intros Eq. apply flat_id_inj in Eq.
  - subst p. apply (Hh t He).
  - apply (Hw p t He).
  - exists c; auto.
Qed.
End Flat.
