(** Generic soundness of the two-party executor: local correctness of the
    protocol's gate functions implies correctness of whole executions. *)
From Coq Require Import List Bool Arith Lia.
Require Import Verif.Prelude Verif.PreludeProofs Verif.GateModel Verif.ProtocolModel
  Verif.CircuitModel Verif.ExecModel Verif.ExecSpec.
Import ListNotations.

Lemma gid_eqb_spec a b : reflect (a = b) (gid_eqb a b).
Proof.
  destruct a as [a1 a2], b as [b1 b2]. unfold gid_eqb. simpl.
  destruct (Nat.eqb_spec a1 b1), (Nat.eqb_spec a2 b2); simpl; constructor; congruence.
Qed.

Lemma gid_dec (a b : gid) : {a = b} + {a <> b}.
Proof. destruct (gid_eqb_spec a b); auto. Qed.

Lemma in_set_existsb g l : existsb (gid_eqb g) l = true <-> In g l.
Proof.
  rewrite existsb_exists. split.
  - intros (x & Hx & E). destruct (gid_eqb_spec g x); subst; auto. discriminate.
  - intros H. exists g. split; auto. destruct (gid_eqb_spec g g); auto.
Qed.

Lemma all3_app {A B C} (R : A -> B -> C -> Prop) la lb lc la' lb' lc' :
  all3 R la lb lc -> all3 R la' lb' lc' -> all3 R (la ++ la') (lb ++ lb') (lc ++ lc').
Proof. induction 1; simpl; auto. constructor; auto. Qed.

Lemma all3_impl {A B C} (R R' : A -> B -> C -> Prop) la lb lc :
  (forall a b c, In a la -> R a b c -> R' a b c) -> all3 R la lb lc -> all3 R' la lb lc.
Proof. intros H; induction 1; constructor; auto; [apply H; simpl; auto|apply IHall3; intros; apply H; simpl; auto]. Qed.

Lemma all3_length {A B C} (R : A -> B -> C -> Prop) la lb lc :
  all3 R la lb lc -> length lb = length la /\ length lc = length la.
Proof. induction 1; simpl; auto. destruct IHall3; auto. Qed.

Lemma all3_cons_inv {A B C} (R : A -> B -> C -> Prop) a la xs ys :
  all3 R (a :: la) xs ys ->
  exists b c lb lc, xs = b :: lb /\ ys = c :: lc /\ R a b c /\ all3 R la lb lc.
Proof. intros H. inversion H; subst. eauto 10. Qed.

Lemma all3_nil_inv {A B C} (R : A -> B -> C -> Prop) xs ys :
  all3 R [] xs ys -> xs = [] /\ ys = [].
Proof. intros H. inversion H; auto. Qed.

Section Sound.
Context {pr : protocol}.
Variable ops : gate_ops (p_plain pr) (p_gate pr).
Variable ec : ecirc (p_gate pr).

Definition same_kind (a b : cell pr) : Prop :=
  match a, b with CS _, CS _ => True | CD _, CD _ => True | _, _ => False end.

Lemma kind_same g (a b : cell pr) : kind_ok ec g a -> kind_ok ec g b -> same_kind a b.
Proof. unfold kind_ok. destruct a, b, (ec_simd ec (fst g)); simpl; tauto. Qed.

Lemma go_put_spec (go : gouts pr) g c v :
  go_cell go g = Some c -> same_kind c v ->
  exists go', go_put go g v = Some go' /\
    go_cell go' g = Some v /\
    (forall h, h <> g -> go_cell go' h = go_cell go h) /\
    go_set go' = g :: go_set go.
Proof.
  unfold go_cell, go_put. intros Hc Hk. destruct g as [i j]. simpl in *.
  destruct (nth_error (go_data go) i) as [[l|l]|] eqn:Ei; [| |discriminate].
  - destruct (nth_error l j) as [s|] eqn:Ej; [|discriminate]. simpl in Hc. injection Hc as <-.
    destruct v as [v|v]; [|destruct Hk]. simpl.
    assert (Hj : j < length l) by (apply nth_error_Some; congruence).
    assert (Hi : i < length (go_data go)) by (apply nth_error_Some; congruence).
    replace (j <? length l) with true by (symmetry; apply Nat.ltb_lt; auto). simpl.
    eexists. split; [reflexivity|]. simpl. split; [|split; [|reflexivity]].
    + rewrite upd_nth_error_same by auto. rewrite upd_nth_error_same by auto. auto.
    + intros [i' j'] Hne. simpl. destruct (Nat.eq_dec i i').
      * subst. rewrite upd_nth_error_same by auto. rewrite Ei.
        rewrite upd_nth_error_other by congruence. auto.
      * rewrite upd_nth_error_other by auto. auto.
  - destruct (nth_error l j) as [s|] eqn:Ej; [|discriminate]. simpl in Hc. injection Hc as <-.
    destruct v as [v|v]; [destruct Hk|]. simpl.
    assert (Hj : j < length l) by (apply nth_error_Some; congruence).
    assert (Hi : i < length (go_data go)) by (apply nth_error_Some; congruence).
    replace (j <? length l) with true by (symmetry; apply Nat.ltb_lt; auto). simpl.
    eexists. split; [reflexivity|]. simpl. split; [|split; [|reflexivity]].
    + rewrite upd_nth_error_same by auto. rewrite upd_nth_error_same by auto. auto.
    + intros [i' j'] Hne. simpl. destruct (Nat.eq_dec i i').
      * subst. rewrite upd_nth_error_same by auto. rewrite Ei.
        rewrite upd_nth_error_other by congruence. auto.
      * rewrite upd_nth_error_other by auto. auto.
Qed.

Lemma go_free_spec (go : gouts pr) g c :
  go_cell go g = Some c ->
  exists go' c', go_free go g = Some go' /\
    go_cell go' g = Some c' /\ same_kind c c' /\
    (forall h, h <> g -> go_cell go' h = go_cell go h) /\
    go_set go' = go_set go.
Proof.
  unfold go_cell, go_free. intros Hc. destruct g as [i j]. simpl in *.
  destruct (nth_error (go_data go) i) as [[l|l]|] eqn:Ei; [| |discriminate].
  - destruct (nth_error l j) as [s|] eqn:Ej; [|discriminate]. simpl in Hc. injection Hc as <-.
    exists go, (CS s). rewrite Ei, Ej. simpl. auto.
  - destruct (nth_error l j) as [s|] eqn:Ej; [|discriminate]. simpl in Hc. injection Hc as <-.
    assert (Hj : j < length l) by (apply nth_error_Some; congruence).
    assert (Hi : i < length (go_data go)) by (apply nth_error_Some; congruence).
    replace (j <? length l) with true by (symmetry; apply Nat.ltb_lt; auto). simpl.
    eexists _, _. split; [reflexivity|]. simpl.
    rewrite upd_nth_error_same by auto. rewrite upd_nth_error_same by auto. simpl.
    split; [reflexivity|]. split; [exact I|]. split; [|reflexivity].
    intros [i' j'] Hne. simpl. destruct (Nat.eq_dec i i').
    + subst. rewrite upd_nth_error_same by auto. rewrite Ei.
      rewrite upd_nth_error_other by congruence. auto.
    + rewrite upd_nth_error_other by auto. auto.
Qed.

Variable R I : gid -> cell pr -> cell pr -> Prop.

Record EInv (Live Todo : gid -> Prop) (go0 go1 : gouts pr) : Prop := {
  ei_shape0 : shape_ok ec go0;
  ei_shape1 : shape_ok ec go1;
  ei_live : forall g, Live g -> exists c0 c1,
     go_get go0 g = Some c0 /\ go_get go1 g = Some c1 /\ R g c0 c1;
  ei_todo : forall g c0 c1, Todo g ->
     go_cell go0 g = Some c0 -> go_cell go1 g = Some c1 -> I g c0 c1 }.

Lemma go_get_cell (go : gouts pr) g c : go_get go g = Some c -> go_cell go g = Some c /\ In g (go_set go).
Proof.
  unfold go_get. destruct (existsb (gid_eqb g) (go_set go)) eqn:E; simpl; [|discriminate].
  apply in_set_existsb in E. auto.
Qed.

Lemma go_get_intro (go : gouts pr) g c : go_cell go g = Some c -> In g (go_set go) -> go_get go g = Some c.
Proof. intros H1 H2. unfold go_get. apply in_set_existsb in H2. rewrite H2. simpl. auto. Qed.

(** Storing related values for a gate of the circuit. *)
Lemma EInv_put Live Todo go0 go1 g gate v0 v1 :
  EInv Live Todo go0 go1 -> ec_gate ec g = Some gate ->
  kind_ok ec g v0 -> kind_ok ec g v1 -> R g v0 v1 ->
  exists go0' go1', go_put go0 g v0 = Some go0' /\ go_put go1 g v1 = Some go1' /\
    EInv (fun h => Live h \/ h = g) (fun h => Todo h /\ h <> g) go0' go1'.
Proof.
  intros [S0 S1 HL HT] Hg K0 K1 HR.
  destruct (S0 g gate Hg) as (c0 & C0 & D0). destruct (S1 g gate Hg) as (c1 & C1 & D1).
  destruct (go_put_spec go0 g c0 v0 C0 (kind_same _ _ _ D0 K0)) as (go0' & P0 & A0 & B0 & E0).
  destruct (go_put_spec go1 g c1 v1 C1 (kind_same _ _ _ D1 K1)) as (go1' & P1 & A1 & B1 & E1).
  exists go0', go1'. split; auto. split; auto. constructor.
  - intros h gt Hh. destruct (gid_dec h g).
    + subst. exists v0. auto.
    + rewrite B0 by auto. eapply S0; eauto.
  - intros h gt Hh. destruct (gid_dec h g).
    + subst. exists v1. auto.
    + rewrite B1 by auto. eapply S1; eauto.
  - intros h Hh. destruct (gid_dec h g).
    + subst. exists v0, v1. split; [|split]; auto; apply go_get_intro; auto;
        [rewrite E0|rewrite E1]; simpl; auto.
    + destruct Hh as [Hh|Hh]; [|contradiction]. destruct (HL _ Hh) as (x & y & Gx & Gy & Hxy).
      apply go_get_cell in Gx, Gy. exists x, y. split; [|split]; auto; apply go_get_intro.
      * rewrite B0; tauto.
      * rewrite E0; simpl; tauto.
      * rewrite B1; tauto.
      * rewrite E1; simpl; tauto.
  - intros h x y [Hh Hne] Hx Hy. rewrite B0 in Hx by auto. rewrite B1 in Hy by auto. eauto.
Qed.

Lemma EInv_weaken (Live Todo Live' Todo' : gid -> Prop) go0 go1 :
  EInv Live Todo go0 go1 -> (forall g, Live' g -> Live g) -> (forall g, Todo' g -> Todo g) ->
  EInv Live' Todo' go0 go1.
Proof. intros [S0 S1 HL HT] H1 H2. constructor; auto. Qed.

Lemma EInv_free Live Todo go0 go1 f gate :
  EInv Live Todo go0 go1 -> ec_gate ec f = Some gate ->
  exists go0' go1', go_free go0 f = Some go0' /\ go_free go1 f = Some go1' /\
    EInv (fun h => Live h /\ h <> f) (fun h => Todo h /\ h <> f) go0' go1' /\
    (forall h, h <> f -> go_cell go0' h = go_cell go0 h) /\
    (forall h, h <> f -> go_cell go1' h = go_cell go1 h).
Proof.
  intros [S0 S1 HL HT] Hg.
  destruct (S0 f gate Hg) as (c0 & C0 & D0). destruct (S1 f gate Hg) as (c1 & C1 & D1).
  destruct (go_free_spec go0 f c0 C0) as (go0' & v0 & P0 & A0 & K0 & B0 & E0).
  destruct (go_free_spec go1 f c1 C1) as (go1' & v1 & P1 & A1 & K1 & B1 & E1).
  assert (Kt : forall a b : cell pr, kind_ok ec f a -> same_kind a b -> kind_ok ec f b).
  { unfold kind_ok. intros a b. destruct a, b, (ec_simd ec (fst f)); simpl; tauto. }
  exists go0', go1'. split; auto. split; auto. split; [|split; auto]. constructor.
  - intros h gt Hh. destruct (gid_dec h f).
    + subst. exists v0. eauto.
    + rewrite B0 by auto. eapply S0; eauto.
  - intros h gt Hh. destruct (gid_dec h f).
    + subst. exists v1. eauto.
    + rewrite B1 by auto. eapply S1; eauto.
  - intros h [Hh Hne]. destruct (HL _ Hh) as (x & y & Gx & Gy & Hxy).
    apply go_get_cell in Gx, Gy. exists x, y. split; [|split]; auto; apply go_get_intro.
    * rewrite B0; tauto.
    * rewrite E0; tauto.
    * rewrite B1; tauto.
    * rewrite E1; tauto.
  - intros h x y [Hh Hne] Hx Hy. rewrite B0 in Hx by auto. rewrite B1 in Hy by auto. eauto.
Qed.

Lemma EInv_free_all : forall fs Live Todo go0 go1,
  EInv Live Todo go0 go1 -> (forall f, In f fs -> exists gate, ec_gate ec f = Some gate) ->
  exists go0' go1', ofold go_free go0 fs = Some go0' /\ ofold go_free go1 fs = Some go1' /\
    EInv (fun h => Live h /\ ~ In h fs) (fun h => Todo h /\ ~ In h fs) go0' go1' /\
    (forall h, ~ In h fs -> go_cell go0' h = go_cell go0 h) /\
    (forall h, ~ In h fs -> go_cell go1' h = go_cell go1 h).
Proof.
  induction fs as [|f fs IH]; intros Live Todo go0 go1 E Hf.
  - exists go0, go1. simpl. split; auto. split; auto. split; auto.
    eapply EInv_weaken; eauto; tauto.
  - destruct (Hf f) as (gate & Hg); [simpl; auto|].
    destruct (EInv_free Live Todo go0 go1 f gate E Hg) as (a & b & P0 & P1 & E' & B0 & B1).
    destruct (IH _ _ a b E') as (a' & b' & Q0 & Q1 & E'' & C0 & C1).
    { intros; apply Hf; simpl; auto. }
    exists a', b'. simpl. rewrite P0, P1. simpl. split; auto. split; auto. split; [|split].
    + eapply EInv_weaken; eauto; simpl; intros g [? ?]; repeat split; auto.
    + intros h Hh. simpl in Hh. rewrite C0, B0; auto.
    + intros h Hh. simpl in Hh. rewrite C1, B1; auto.
Qed.

(** Fetching the parents. *)
Lemma EInv_fetch Live Todo go0 go1 ps :
  EInv Live Todo go0 go1 -> (forall p, In p ps -> Live p) ->
  exists c0 c1, omap (go_get go0) ps = Some c0 /\ omap (go_get go1) ps = Some c1 /\
    all3 R ps c0 c1.
Proof.
  intros E. induction ps as [|p ps IH]; intros H.
  - exists [], []. repeat split; auto. constructor.
  - destruct (ei_live _ _ _ _ E p) as (x & y & Gx & Gy & Hxy); [apply H; simpl; auto|].
    destruct IH as (c0 & c1 & A & B & C); [intros; apply H; simpl; auto|].
    exists (x :: c0), (y :: c1). simpl. rewrite Gx, Gy. simpl. rewrite A, B. simpl.
    repeat split; auto. constructor; auto.
Qed.

(** Local correctness of the non-interactive gates. *)
Definition ni_sound (i0 i1 : istore pr) : Prop :=
  forall g gate cur0 cur1 ps0 ps1,
  ec_gate ec g = Some gate -> g_inter ops gate = false ->
  kind_ok ec g cur0 -> kind_ok ec g cur1 -> I g cur0 cur1 ->
  all3 R (ec_parents ec g) ps0 ps1 ->
  exists v0 v1,
    eval_cell 0 ec (ec_main_simd ec) i0 g gate cur0 ps0 = Some v0 /\
    eval_cell 1 ec (ec_main_simd ec) i1 g gate cur1 ps1 = Some v1 /\
    kind_ok ec g v0 /\ kind_ok ec g v1 /\ R g v0 v1.

Lemma ex_ni_sound i0 i1 Live Todo go0 go1 g gate :
  ni_sound i0 i1 -> EInv Live Todo go0 go1 ->
  ec_gate ec g = Some gate -> g_inter ops gate = false -> Todo g ->
  (forall p, In p (ec_parents ec g) -> Live p) ->
  exists go0' go1',
    ex_ni 0 ec (ec_main_simd ec) i0 go0 g = Some go0' /\
    ex_ni 1 ec (ec_main_simd ec) i1 go1 g = Some go1' /\
    EInv (fun h => Live h \/ h = g) (fun h => Todo h /\ h <> g) go0' go1'.
Proof.
  intros HN E Hg Hi HT Hp.
  destruct (EInv_fetch Live Todo go0 go1 _ E Hp) as (ps0 & ps1 & F0 & F1 & HA).
  destruct (ei_shape0 _ _ _ _ E g gate Hg) as (c0 & C0 & D0).
  destruct (ei_shape1 _ _ _ _ E g gate Hg) as (c1 & C1 & D1).
  pose proof (ei_todo _ _ _ _ E g c0 c1 HT C0 C1) as HI.
  destruct (HN g gate c0 c1 ps0 ps1 Hg Hi D0 D1 HI HA) as (v0 & v1 & V0 & V1 & K0 & K1 & HR).
  destruct (EInv_put Live Todo go0 go1 g gate v0 v1 E Hg K0 K1 HR) as (a & b & P0 & P1 & E').
  exists a, b. unfold ex_ni. rewrite Hg, C0, C1, F0, F1. simpl. rewrite V0, V1. simpl. auto.
Qed.

Lemma ex_ni_all i0 i1 : ni_sound i0 i1 ->
  forall gs Live Todo go0 go1,
  EInv Live Todo go0 go1 ->
  (forall l1 g l2, gs = l1 ++ g :: l2 ->
     (exists gate, ec_gate ec g = Some gate /\ g_inter ops gate = false) /\
     Todo g /\ ~ In g l1 /\ (forall p, In p (ec_parents ec g) -> Live p \/ In p l1)) ->
  exists go0' go1',
    ofold (ex_ni 0 ec (ec_main_simd ec) i0) go0 gs = Some go0' /\
    ofold (ex_ni 1 ec (ec_main_simd ec) i1) go1 gs = Some go1' /\
    EInv (fun h => Live h \/ In h gs) (fun h => Todo h /\ ~ In h gs) go0' go1'.
Proof.
  intros HN. induction gs as [|g gs IH]; intros Live Todo go0 go1 E H.
  - exists go0, go1. simpl. split; auto. split; auto. eapply EInv_weaken; eauto; tauto.
  - destruct (H [] g gs eq_refl) as ((gate & Hg & Hi) & HT & _ & Hp).
    destruct (ex_ni_sound i0 i1 Live Todo go0 go1 g gate HN E Hg Hi HT) as (a & b & P0 & P1 & E').
    { intros p Hin. destruct (Hp p Hin) as [?|[]]; auto. }
    destruct (IH _ _ a b E') as (a' & b' & Q0 & Q1 & E'').
    { intros l1 x l2 ->. destruct (H (g :: l1) x l2 eq_refl) as (A & B & C & D).
      split; auto. split; [|split].
      - split; auto. intros ->. apply C; simpl; auto.
      - intros Hx. apply C; simpl; auto.
      - intros p Hin. destruct (D p Hin) as [?|[?|?]]; auto. }
    exists a', b'. simpl. rewrite P0, P1. simpl. split; auto. split; auto.
    eapply EInv_weaken; eauto; simpl; intuition.
Qed.

(** The protocol calls of both parties for one interactive layer, in the order of
    the executor (scalar message, SIMD message, scalar evaluation, SIMD
    evaluation). *)
Definition pair_layer (sg : list (p_gate pr)) (so0 so1 si0 si1 : list (p_share pr))
  (dg : list (p_gate pr)) (do0 do1 di0 di1 : list (p_simd pr)) (st0 st1 : p_setup pr)
  : option ((list (p_share pr) * list (p_share pr)) * (list (p_simd pr) * list (p_simd pr))) :=
  '(m0, st0) <- p_compute_msg pr 0 sg so0 si0 st0 ;;
  '(m1, st1) <- p_compute_msg pr 1 sg so1 si1 st1 ;;
  if p_simd_support pr then
    '(n0, st0) <- p_compute_msg_simd pr 0 dg do0 di0 st0 ;;
    '(n1, st1) <- p_compute_msg_simd pr 1 dg do1 di1 st1 ;;
    '(o0, st0) <- p_eval_int pr 0 sg so0 m0 m1 st0 ;;
    '(o1, st1) <- p_eval_int pr 1 sg so1 m1 m0 st1 ;;
    '(q0, _) <- p_eval_int_simd pr 0 dg do0 n0 n1 st0 ;;
    '(q1, _) <- p_eval_int_simd pr 1 dg do1 n1 n0 st1 ;;
    Some ((o0, o1), (q0, q1))
  else
    '(o0, st0) <- p_eval_int pr 0 sg so0 m0 m1 st0 ;;
    '(o1, st1) <- p_eval_int pr 1 sg so1 m1 m0 st1 ;;
    Some ((o0, o1), ([], [])).

Definition RS (g : gid) (a b : p_share pr) : Prop := R g (CS a) (CS b).
Definition RD (g : gid) (a b : p_simd pr) : Prop := R g (CD a) (CD b).
Definition IS (g : gid) (a b : p_share pr) : Prop := I g (CS a) (CS b).
Definition ID (g : gid) (a b : p_simd pr) : Prop := I g (CD a) (CD b).

(** Local correctness of one interactive layer. *)
Definition int_sound (ok : nat -> p_setup pr -> p_setup pr -> Prop) (l : elayer) : Prop :=
  forall st0 st1 sg dg so0 so1 si0 si1 do0 do1 di0 di1,
  ok (el_int_count l) st0 st1 ->
  omap (ec_gate ec) (el_int (el_scalar l)) = Some sg ->
  omap (ec_gate ec) (el_int (el_simd l)) = Some dg ->
  all3 IS (el_int (el_scalar l)) so0 so1 ->
  all3 RS (concat (map (ec_parents ec) (el_int (el_scalar l)))) si0 si1 ->
  all3 ID (el_int (el_simd l)) do0 do1 ->
  all3 RD (concat (map (ec_parents ec) (el_int (el_simd l)))) di0 di1 ->
  exists o0 o1 q0 q1,
    pair_layer sg so0 so1 si0 si1 dg do0 do1 di0 di1 st0 st1 = Some ((o0, o1), (q0, q1)) /\
    all3 RS (el_int (el_scalar l)) o0 o1 /\
    all3 RD (el_int (el_simd l)) q0 q1.

(** Parents of scalar gates are scalar, of SIMD gates SIMD. *)
Definition parents_kind (l : elayer) : Prop :=
  (forall g p, In g (el_int (el_scalar l)) -> In p (ec_parents ec g) -> ec_simd ec (fst p) = None) /\
  (forall g p, In g (el_int (el_simd l)) -> In p (ec_parents ec g) -> ec_simd ec (fst p) <> None).

Lemma el_int_split l : forall g, In g (el_int l) <-> In g (el_int (el_scalar l)) \/ In g (el_int (el_simd l)).
Proof.
  unfold el_int, el_scalar, el_simd. induction l as [|[[sc simd] b] l IH]; intros g; simpl; [tauto|].
  destruct simd; simpl; rewrite !in_app_iff, IH; tauto.
Qed.

Lemma el_scalar_None l Live Todo : layer_ok ops ec Live Todo l ->
  (forall g, In g (el_int (el_scalar l)) -> ec_simd ec (fst g) = None) /\
  (forall g, In g (el_int (el_simd l)) -> exists n, ec_simd ec (fst g) = Some n /\ n <> 0).
Proof.
  intros [H _ _ _ _]. unfold el_int, el_scalar, el_simd. split; intros g Hg;
    apply in_concat in Hg; destruct Hg as (x & Hx & Hg); apply in_map_iff in Hx;
    destruct Hx as ([[sc simd] b] & <- & Hx); apply filter_In in Hx; destruct Hx as [Hx Hs];
    apply in_map_iff in Hg; destruct Hg as (i & <- & Hi); simpl.
  - destruct simd; [discriminate|]. apply (H _ _ _ Hx).
  - destruct simd; [|discriminate]. destruct (H _ _ _ Hx) as [A B]. exists n. split; auto.
Qed.

Lemma el_int_count_0 l Live Todo : layer_ok ops ec Live Todo l ->
  el_int_count l = 0 -> el_int l = [].
Proof.
  intros [H _ _ _ _]. unfold el_int_count, el_int. induction l as [|[[sc simd] b] l IH]; simpl; auto.
  intros E. rewrite IH; [|intros; eapply H; simpl; eauto|lia]. rewrite app_nil_r.
  destruct (H sc simd b) as [_ Hn]; [simpl; auto|].
  destruct (bl_int b) as [|x r]; auto. simpl in E. destruct simd as [[|n]|]; try congruence; lia.
Qed.

Lemma NoDup_int_split l : NoDup (el_int l) ->
  NoDup (el_int (el_scalar l)) /\ NoDup (el_int (el_simd l)) /\
  (forall g, In g (el_int (el_scalar l)) -> ~ In g (el_int (el_simd l))).
Proof.
  unfold el_int. induction l as [|[[sc simd] b] l IH]; simpl; intros H.
  - repeat split; try constructor. intros g [].
  - assert (Hsub : NoDup (map (pair sc) (bl_int b)) /\
              NoDup (concat (map (fun '(sc0, _, b0) => map (pair sc0) (bl_int b0)) l)) /\
              (forall x, In x (map (pair sc) (bl_int b)) ->
                 ~ In x (concat (map (fun '(sc0, _, b0) => map (pair sc0) (bl_int b0)) l)))).
    { revert H. generalize (map (pair sc) (bl_int b)). intros l0. induction l0 as [|a l0 IH0]; simpl; intros H.
      - repeat split; auto; constructor.
      - inversion H; subst. destruct (IH0 H3) as (A & B & C). rewrite in_app_iff in H2.
        repeat split; auto.
        + constructor; tauto.
        + intros x [->|Hx]; [tauto|auto]. }
    destruct Hsub as (A & B & C). destruct (IH B) as (D & E & F).
    assert (Hs : forall g, In g (concat (map (fun '(sc0, _, b0) => map (pair sc0) (bl_int b0)) (el_scalar l))) ->
                  In g (el_int l)).
    { intros g Hg. apply el_int_split. auto. }
    assert (Hd : forall g, In g (concat (map (fun '(sc0, _, b0) => map (pair sc0) (bl_int b0)) (el_simd l))) ->
                  In g (el_int l)).
    { intros g Hg. apply el_int_split. auto. }
    destruct simd; simpl.
    + repeat split; auto.
      * clear - A E C Hd. revert A C. generalize (map (pair sc) (bl_int b)). intros l0.
        induction l0 as [|a l0 IH0]; simpl; intros A C; auto. inversion A; subst. constructor.
        -- rewrite in_app_iff. intros [?|Hin]; auto. apply (C a); auto.
        -- apply IH0; auto.
      * intros g Hg. rewrite in_app_iff. intros [Hin|Hin].
        -- apply (C _ Hin). apply Hs; auto.
        -- apply (F g); auto.
    + repeat split; auto.
      * clear - A D C Hs. revert A C. generalize (map (pair sc) (bl_int b)). intros l0.
        induction l0 as [|a l0 IH0]; simpl; intros A C; auto. inversion A; subst. constructor.
        -- rewrite in_app_iff. intros [?|Hin]; auto. apply (C a); auto.
        -- apply IH0; auto.
      * intros g Hg. rewrite in_app_iff in Hg. destruct Hg as [Hg|Hg]; auto.
        intros Hin. apply (C _ Hg). apply Hd; auto.
Qed.

Lemma fetch_outs_scalar Live Todo go0 go1 gs :
  EInv Live Todo go0 go1 ->
  (forall g, In g gs -> Todo g /\ (exists gate, ec_gate ec g = Some gate) /\ ec_simd ec (fst g) = None) ->
  exists c0 c1,
    omap (fun g => c <- go_cell go0 g ;; cell_scalar c) gs = Some c0 /\
    omap (fun g => c <- go_cell go1 g ;; cell_scalar c) gs = Some c1 /\
    all3 IS gs c0 c1.
Proof.
  intros E. induction gs as [|g gs IH]; intros H.
  - exists [], []. repeat split; auto. constructor.
  - destruct (H g) as (HT & (gate & Hg) & Hs); [simpl; auto|].
    destruct (ei_shape0 _ _ _ _ E g gate Hg) as (x & C0 & D0).
    destruct (ei_shape1 _ _ _ _ E g gate Hg) as (y & C1 & D1).
    pose proof (ei_todo _ _ _ _ E g x y HT C0 C1) as HI.
    destruct IH as (c0 & c1 & A & B & C); [intros; apply H; simpl; auto|].
    unfold kind_ok in D0, D1. rewrite Hs in D0, D1.
    destruct x as [x|x]; [|destruct D0]. destruct y as [y|y]; [|destruct D1].
    exists (x :: c0), (y :: c1). simpl. rewrite C0, C1. simpl. rewrite A, B. simpl.
    repeat split; auto. constructor; auto.
Qed.

Lemma fetch_outs_simd Live Todo go0 go1 gs :
  EInv Live Todo go0 go1 ->
  (forall g, In g gs -> Todo g /\ (exists gate, ec_gate ec g = Some gate) /\ ec_simd ec (fst g) <> None) ->
  exists c0 c1,
    omap (fun g => c <- go_cell go0 g ;; cell_simd c) gs = Some c0 /\
    omap (fun g => c <- go_cell go1 g ;; cell_simd c) gs = Some c1 /\
    all3 ID gs c0 c1.
Proof.
  intros E. induction gs as [|g gs IH]; intros H.
  - exists [], []. repeat split; auto. constructor.
  - destruct (H g) as (HT & (gate & Hg) & Hs); [simpl; auto|].
    destruct (ei_shape0 _ _ _ _ E g gate Hg) as (x & C0 & D0).
    destruct (ei_shape1 _ _ _ _ E g gate Hg) as (y & C1 & D1).
    pose proof (ei_todo _ _ _ _ E g x y HT C0 C1) as HI.
    destruct IH as (c0 & c1 & A & B & C); [intros; apply H; simpl; auto|].
    unfold kind_ok in D0, D1. destruct (ec_simd ec (fst g)); [|congruence].
    destruct x as [x|x]; [destruct D0|]. destruct y as [y|y]; [destruct D1|].
    exists (x :: c0), (y :: c1). simpl. rewrite C0, C1. simpl. rewrite A, B. simpl.
    repeat split; auto. constructor; auto.
Qed.

Hypothesis Rkind : forall g c0 c1, R g c0 c1 -> kind_ok ec g c0 /\ kind_ok ec g c1.

Lemma fetch_ins_scalar Live Todo go0 go1 ps :
  EInv Live Todo go0 go1 ->
  (forall p, In p ps -> Live p /\ ec_simd ec (fst p) = None) ->
  exists c0 c1,
    omap (fun g => c <- go_get go0 g ;; cell_scalar c) ps = Some c0 /\
    omap (fun g => c <- go_get go1 g ;; cell_scalar c) ps = Some c1 /\
    all3 RS ps c0 c1.
Proof.
  intros E. induction ps as [|p ps IH]; intros H.
  - exists [], []. repeat split; auto. constructor.
  - destruct (H p) as (HL & Hs); [simpl; auto|].
    destruct (ei_live _ _ _ _ E p HL) as (x & y & Gx & Gy & Hxy).
    destruct IH as (c0 & c1 & A & B & C); [intros; apply H; simpl; auto|].
    destruct (Rkind _ _ _ Hxy) as [D0 D1].
    unfold kind_ok in D0, D1. rewrite Hs in D0, D1.
    destruct x as [x|x]; [|destruct D0]. destruct y as [y|y]; [|destruct D1].
    exists (x :: c0), (y :: c1). simpl. rewrite Gx, Gy. simpl. rewrite A, B. simpl.
    repeat split; auto. constructor; auto.
Qed.

Lemma fetch_ins_simd Live Todo go0 go1 ps :
  EInv Live Todo go0 go1 ->
  (forall p, In p ps -> Live p /\ ec_simd ec (fst p) <> None) ->
  exists c0 c1,
    omap (fun g => c <- go_get go0 g ;; cell_simd c) ps = Some c0 /\
    omap (fun g => c <- go_get go1 g ;; cell_simd c) ps = Some c1 /\
    all3 RD ps c0 c1.
Proof.
  intros E. induction ps as [|p ps IH]; intros H.
  - exists [], []. repeat split; auto. constructor.
  - destruct (H p) as (HL & Hs); [simpl; auto|].
    destruct (ei_live _ _ _ _ E p HL) as (x & y & Gx & Gy & Hxy).
    destruct IH as (c0 & c1 & A & B & C); [intros; apply H; simpl; auto|].
    destruct (Rkind _ _ _ Hxy) as [D0 D1].
    unfold kind_ok in D0, D1. destruct (ec_simd ec (fst p)); [|congruence].
    destruct x as [x|x]; [destruct D0|]. destruct y as [y|y]; [destruct D1|].
    exists (x :: c0), (y :: c1). simpl. rewrite Gx, Gy. simpl. rewrite A, B. simpl.
    repeat split; auto. constructor; auto.
Qed.

Lemma EInv_put_all_scalar : forall gs o0 o1 Live Todo go0 go1,
  EInv Live Todo go0 go1 -> all3 RS gs o0 o1 ->
  (forall g, In g gs -> exists gate, ec_gate ec g = Some gate) ->
  exists go0' go1',
    put_all go0 gs (map CS o0) = Some go0' /\ put_all go1 gs (map CS o1) = Some go1' /\
    EInv (fun h => Live h \/ In h gs) (fun h => Todo h /\ ~ In h gs) go0' go1'.
Proof.
  intros gs o0 o1 Live Todo go0 go1 E HA. revert Live Todo go0 go1 E.
  induction HA as [|g x y gs o0 o1 Hxy HA IH]; intros Live Todo go0 go1 E Hg.
  - exists go0, go1. simpl. split; auto. split; auto. eapply EInv_weaken; eauto; tauto.
  - destruct (Hg g) as (gate & Hgate); [simpl; auto|].
    destruct (Rkind _ _ _ Hxy) as [K0 K1].
    destruct (EInv_put Live Todo go0 go1 g gate (CS x) (CS y) E Hgate K0 K1 Hxy)
      as (a & b & P0 & P1 & E').
    destruct (IH _ _ a b E') as (a' & b' & Q0 & Q1 & E''); [intros; apply Hg; simpl; auto|].
    exists a', b'. simpl. rewrite P0, P1. simpl. split; auto. split; auto.
    eapply EInv_weaken; eauto; simpl; intuition.
Qed.

Lemma EInv_put_all_simd : forall gs o0 o1 Live Todo go0 go1,
  EInv Live Todo go0 go1 -> all3 RD gs o0 o1 ->
  (forall g, In g gs -> exists gate, ec_gate ec g = Some gate) ->
  exists go0' go1',
    put_all go0 gs (map CD o0) = Some go0' /\ put_all go1 gs (map CD o1) = Some go1' /\
    EInv (fun h => Live h \/ In h gs) (fun h => Todo h /\ ~ In h gs) go0' go1'.
Proof.
  intros gs o0 o1 Live Todo go0 go1 E HA. revert Live Todo go0 go1 E.
  induction HA as [|g x y gs o0 o1 Hxy HA IH]; intros Live Todo go0 go1 E Hg.
  - exists go0, go1. simpl. split; auto. split; auto. eapply EInv_weaken; eauto; tauto.
  - destruct (Hg g) as (gate & Hgate); [simpl; auto|].
    destruct (Rkind _ _ _ Hxy) as [K0 K1].
    destruct (EInv_put Live Todo go0 go1 g gate (CD x) (CD y) E Hgate K0 K1 Hxy)
      as (a & b & P0 & P1 & E').
    destruct (IH _ _ a b E') as (a' & b' & Q0 & Q1 & E''); [intros; apply Hg; simpl; auto|].
    exists a', b'. simpl. rewrite P0, P1. simpl. split; auto. split; auto.
    eapply EInv_weaken; eauto; simpl; intuition.
Qed.

Lemma omap_gates gs : (forall g, In g gs -> exists gate, ec_gate ec g = Some gate) ->
  exists sg, omap (ec_gate ec) gs = Some sg.
Proof.
  induction gs as [|g gs IH]; intros H; [exists []; auto|].
  destruct (H g) as (gate & E); [simpl; auto|]. destruct IH as (sg & Es); [intros; apply H; simpl; auto|].
  exists (gate :: sg). simpl. rewrite E. simpl. rewrite Es. auto.
Qed.

Context {Sv : Type}.
Variable req : Sv -> nat -> option (p_setup pr * Sv).
Variable ok : nat -> p_setup pr -> p_setup pr -> Prop.
Variable J : list nat -> Sv -> Sv -> Prop.
Hypothesis HJ : serves req ok J.

Lemma ex2_layer_sound i0 i1 l Live Todo go0 go1 s0 s1 rest :
  ni_sound i0 i1 -> int_sound ok l -> parents_kind l ->
  (p_simd_support pr = false -> el_int (el_simd l) = []) ->
  layer_ok ops ec Live Todo l -> EInv Live Todo go0 go1 ->
  (el_int_count l = 0 -> J rest s0 s1) ->
  (el_int_count l <> 0 -> J (el_int_count l :: rest) s0 s1) ->
  exists go0' go1' s0' s1',
    ex2_layer req ec i0 i1 ((go0, s0), (go1, s1)) l = Some ((go0', s0'), (go1', s1')) /\
    EInv (live_after Live l) (todo_after Todo l) go0' go1' /\ J rest s0' s1'.
Proof.
  intros HN HI HK HS HL E HJ0 HJ1.
  destruct (ex_ni_all i0 i1 HN (el_ni l) Live Todo go0 go1 E (lo_ni _ _ _ _ _ HL))
    as (a & b & P0 & P1 & E1).
  unfold ex2_layer. rewrite P0, P1. cbn [obind].
  destruct (Nat.eqb_spec (el_int_count l) 0) as [Hz|Hz].
  - exists a, b, s0, s1. split; auto. split; auto.
    pose proof (el_int_count_0 l Live Todo HL Hz) as Hnil.
    eapply EInv_weaken; eauto.
    + unfold live_after, freed. rewrite Hz. simpl. rewrite Hnil. simpl. tauto.
    + unfold todo_after. tauto.
  - destruct (HJ _ _ _ _ (HJ1 Hz)) as (st0 & st1 & s0' & s1' & Q0 & Q1 & Hok & HJr).
    rewrite Q0, Q1. cbn [obind].
    destruct (el_scalar_None l Live Todo HL) as [Ks Kd].
    assert (Hint : forall g, In g (el_int l) ->
              (Todo g /\ ~ In g (el_ni l)) /\ (exists gate, ec_gate ec g = Some gate)).
    { intros g Hg. destruct (lo_int _ _ _ _ _ HL g Hg) as ((gate & A & _) & B & C & _).
      split; eauto. }
    assert (Hs : forall g, In g (el_int (el_scalar l)) -> In g (el_int l))
      by (intros; apply el_int_split; auto).
    assert (Hd : forall g, In g (el_int (el_simd l)) -> In g (el_int l))
      by (intros; apply el_int_split; auto).
    destruct (omap_gates (el_int (el_scalar l))) as (sg & Esg); [intros; apply Hint; auto|].
    destruct (omap_gates (el_int (el_simd l))) as (dg & Edg); [intros; apply Hint; auto|].
    destruct (fetch_outs_scalar _ _ a b (el_int (el_scalar l)) E1) as (so0 & so1 & O0 & O1 & HO).
    { intros g Hg. destruct (Hint g) as [A B]; auto. }
    destruct (fetch_outs_simd _ _ a b (el_int (el_simd l)) E1) as (do0 & do1 & DO0 & DO1 & HDO).
    { intros g Hg. destruct (Hint g) as [A B]; auto. split; auto. split; auto.
      destruct (Kd g Hg) as (n & -> & _). congruence. }
    assert (Hpar : forall g p, In g (el_int l) -> In p (ec_parents ec g) -> Live p \/ In p (el_ni l)).
    { intros g p Hg Hp. apply (lo_int _ _ _ _ _ HL g Hg); auto. }
    destruct HK as [HK1 HK2].
    destruct (fetch_ins_scalar _ _ a b (concat (map (ec_parents ec) (el_int (el_scalar l)))) E1)
      as (si0 & si1 & SI0 & SI1 & HSI).
    { intros p Hp. apply in_concat in Hp. destruct Hp as (x & Hx & Hp). apply in_map_iff in Hx.
      destruct Hx as (g & <- & Hg). split; eauto. }
    destruct (fetch_ins_simd _ _ a b (concat (map (ec_parents ec) (el_int (el_simd l)))) E1)
      as (di0 & di1 & DI0 & DI1 & HDI).
    { intros p Hp. apply in_concat in Hp. destruct Hp as (x & Hx & Hp). apply in_map_iff in Hx.
      destruct Hx as (g & <- & Hg). split; eauto. }
    destruct (HI st0 st1 sg dg so0 so1 si0 si1 do0 do1 di0 di1 Hok Esg Edg HO HSI HDO HDI)
      as (o0 & o1 & q0 & q1 & HP & HRo & HRq).
    (* release *)
    assert (Hfr : freed l = el_free (el_simd l)).
    { unfold freed. destruct (Nat.eqb_spec (el_int_count l) 0); congruence. }
    destruct (EInv_free_all (el_free (el_simd l)) _ _ a b E1) as (a' & b' & F0 & F1 & E2 & B0 & B1).
    { intros f Hf. rewrite <- Hfr in Hf. apply (lo_free _ _ _ _ _ HL f Hf). }
    assert (Hnf : forall g, In g (el_int l) -> ~ In g (el_free (el_simd l))).
    { intros g Hg Hf. rewrite <- Hfr in Hf.
      destruct (lo_free _ _ _ _ _ HL g Hf) as [_ [Hn|Hn]].
      - apply Hn. apply Hint; auto.
      - destruct (Hint g Hg) as [[_ A] _]. auto. }
    assert (Hcell : forall (X : Type) (k : cell pr -> option X) go go' gs,
              (forall h, ~ In h (el_free (el_simd l)) -> go_cell go' h = go_cell go h) ->
              (forall g, In g gs -> In g (el_int l)) ->
              omap (fun g => c <- go_cell go' g ;; k c) gs = omap (fun g => c <- go_cell go g ;; k c) gs).
    { intros X k go go' gs Hc Hin. apply omap_ext. intros g Hg. rewrite Hc; auto. }
    unfold pair_layer in HP.
    destruct (p_compute_msg pr 0 sg so0 si0 st0) as [[m0 st0a]|] eqn:M0; [|discriminate].
    cbn [obind] in HP.
    destruct (p_compute_msg pr 1 sg so1 si1 st1) as [[m1 st1a]|] eqn:M1; [|discriminate].
    cbn [obind] in HP.
    assert (Hputs : forall qs0 qs1, all3 RD (el_int (el_simd l)) qs0 qs1 ->
        exists go0' go1',
          (go <- put_all a' (el_int (el_scalar l)) (map CS o0) ;;
           put_all go (el_int (el_simd l)) (map CD qs0)) = Some go0' /\
          (go <- put_all b' (el_int (el_scalar l)) (map CS o1) ;;
           put_all go (el_int (el_simd l)) (map CD qs1)) = Some go1' /\
          EInv (live_after Live l) (todo_after Todo l) go0' go1').
    { intros qs0 qs1 HQ.
      destruct (EInv_put_all_scalar _ o0 o1 _ _ a' b' E2 HRo) as (c & d & U0 & U1 & E3);
        [intros; apply Hint; auto|].
      destruct (EInv_put_all_simd _ qs0 qs1 _ _ c d E3 HQ) as (c' & d' & V0 & V1 & E4);
        [intros; apply Hint; auto|].
      exists c', d'. rewrite U0, U1. cbn [obind]. split; auto. split; auto.
      eapply EInv_weaken; eauto; cbn.
      - intros g. unfold live_after. rewrite Hfr. intros [[A B]|A]; [tauto|].
        apply el_int_split in A. tauto.
      - intros g. unfold todo_after. intros (A & B & C). rewrite (el_int_split l g) in C.
        repeat split; try tauto. intros Hf. rewrite <- Hfr in Hf.
        destruct (lo_free _ _ _ _ _ HL g Hf) as [_ [Hn|Hn]]; tauto. }
    destruct (p_simd_support pr) eqn:Es.
    + destruct (p_compute_msg_simd pr 0 dg do0 di0 st0a) as [[n0 st0b]|] eqn:N0; [|discriminate].
      cbn [obind] in HP.
      destruct (p_compute_msg_simd pr 1 dg do1 di1 st1a) as [[n1 st1b]|] eqn:N1; [|discriminate].
      cbn [obind] in HP.
      destruct (p_eval_int pr 0 sg so0 m0 m1 st0b) as [[o0' st0c]|] eqn:V0; [|discriminate].
      cbn [obind] in HP.
      destruct (p_eval_int pr 1 sg so1 m1 m0 st1b) as [[o1' st1c]|] eqn:V1; [|discriminate].
      cbn [obind] in HP.
      destruct (p_eval_int_simd pr 0 dg do0 n0 n1 st0c) as [[q0' st0d]|] eqn:W0; [|discriminate].
      cbn [obind] in HP.
      destruct (p_eval_int_simd pr 1 dg do1 n1 n0 st1c) as [[q1' st1d]|] eqn:W1; [|discriminate].
      cbn [obind] in HP. injection HP as -> -> -> ->.
      destruct (Hputs q0 q1 HRq) as (g0' & g1' & G0 & G1 & E5).
      exists g0', g1', s0', s1'.
      unfold ex_send. rewrite Es. rewrite Esg, O0, SI0, O1, SI1. cbn [obind].
      rewrite M0, M1. cbn [obind]. rewrite Edg, DO0, DI0, DO1, DI1. cbn [obind].
      rewrite N0, N1. cbn [obind]. rewrite F0, F1. cbn [obind].
      unfold ex_recv. cbn [em_scalar em_simd].
      rewrite (Hcell _ cell_scalar a a') by auto. rewrite (Hcell _ cell_simd a a') by auto.
      rewrite (Hcell _ cell_scalar b b') by auto. rewrite (Hcell _ cell_simd b b') by auto.
      rewrite Esg, O0, O1, Edg, DO0, DO1. cbn [obind]. rewrite V0, V1. cbn [obind].
      rewrite W0, W1. cbn [obind]. rewrite G0, G1. cbn [obind]. auto.
    + destruct (p_eval_int pr 0 sg so0 m0 m1 st0a) as [[o0' st0c]|] eqn:V0; [|discriminate].
      cbn [obind] in HP.
      destruct (p_eval_int pr 1 sg so1 m1 m0 st1a) as [[o1' st1c]|] eqn:V1; [|discriminate].
      cbn [obind] in HP. injection HP as -> -> <- <-.
      destruct (Hputs [] [] HRq) as (g0' & g1' & G0 & G1 & E5).
      exists g0', g1', s0', s1'.
      unfold ex_send. rewrite Es. rewrite Esg, O0, SI0, O1, SI1. cbn [obind].
      rewrite M0, M1. cbn [obind]. rewrite F0, F1. cbn [obind].
      unfold ex_recv. cbn [em_scalar em_simd].
      rewrite (Hcell _ cell_scalar a a') by auto.
      rewrite (Hcell _ cell_scalar b b') by auto.
      rewrite Esg, O0, O1. cbn [obind]. rewrite V0, V1. cbn [obind].
      rewrite (HS eq_refl) in G0, G1. simpl map in *. rewrite G0, G1. cbn [obind]. auto.
Qed.

Definition reqs_of (ls : list elayer) : list nat :=
  filter (fun n => negb (n =? 0)) (map el_int_count ls).

Lemma ex2_layers_sound i0 i1 :
  ni_sound i0 i1 ->
  forall ls Live Todo go0 go1 s0 s1 rest,
  (forall l, In l ls -> int_sound ok l /\ parents_kind l /\
     (p_simd_support pr = false -> el_int (el_simd l) = [])) ->
  sched_ok ops ec Live Todo ls -> EInv Live Todo go0 go1 -> J (reqs_of ls ++ rest) s0 s1 ->
  exists go0' go1' s0' s1' Live' Todo',
    ofold (ex2_layer req ec i0 i1) ((go0, s0), (go1, s1)) ls = Some ((go0', s0'), (go1', s1')) /\
    EInv Live' Todo' go0' go1' /\ (forall o, In o (ec_outputs ec) -> Live' (0, o)) /\
    J rest s0' s1'.
Proof.
  intros HN. induction ls as [|l ls IH]; intros Live Todo go0 go1 s0 s1 rest HI HS E Hj.
  - exists go0, go1, s0, s1, Live, Todo. simpl in *. auto.
  - destruct HS as [HL HS]. destruct (HI l) as (A & B & C); [simpl; auto|].
    destruct (ex2_layer_sound i0 i1 l Live Todo go0 go1 s0 s1 (reqs_of ls ++ rest) HN A B C HL E)
      as (a & b & s0' & s1' & P & E' & Hj').
    { intros Hz. unfold reqs_of in Hj. simpl in Hj. rewrite Hz in Hj. exact Hj. }
    { intros Hz. unfold reqs_of in Hj. simpl in Hj.
      destruct (Nat.eqb_spec (el_int_count l) 0); [contradiction|]. exact Hj. }
    destruct (IH _ _ a b s0' s1' rest (fun l' Hl' => HI l' (or_intror Hl')) HS E' Hj')
      as (a' & b' & t0 & t1 & Lv & Td & Q & E'' & HO & Hj'').
    exists a', b', t0, t1, Lv, Td. cbn [ofold]. rewrite P. cbn [obind]. auto.
Qed.

Lemma outputs_sound Live Todo go0 go1 :
  EInv Live Todo go0 go1 -> (forall o, In o (ec_outputs ec) -> Live (0, o)) ->
  exists o0 o1, ex_outputs ec go0 = Some o0 /\ ex_outputs ec go1 = Some o1 /\
    match ec_simd ec 0, o0, o1 with
    | None, IScalar l0, IScalar l1 => all3 RS (map (pair 0) (ec_outputs ec)) l0 l1
    | Some _, ISimd l0, ISimd l1 => all3 RD (map (pair 0) (ec_outputs ec)) l0 l1
    | _, _, _ => False
    end.
Proof.
  intros E HO. unfold ex_outputs, ec_main_simd.
  destruct (ec_simd ec 0) as [n|] eqn:Es.
  - assert (H : exists c0 c1 l0 l1,
       omap (fun id => go_get go0 (0, id)) (ec_outputs ec) = Some c0 /\
       omap (fun id => go_get go1 (0, id)) (ec_outputs ec) = Some c1 /\
       omap cell_simd c0 = Some l0 /\ omap cell_simd c1 = Some l1 /\
       all3 RD (map (pair 0) (ec_outputs ec)) l0 l1).
    { induction (ec_outputs ec) as [|o os IHo].
      - exists [], [], [], []. repeat split; auto. constructor.
      - destruct IHo as (c0 & c1 & l0 & l1 & A & B & C & D & F); [intros; apply HO; simpl; auto|].
        destruct (ei_live _ _ _ _ E (0, o)) as (x & y & Gx & Gy & Hxy); [apply HO; simpl; auto|].
        destruct (Rkind _ _ _ Hxy) as [K0 K1]. unfold kind_ok in K0, K1. simpl in K0, K1.
        rewrite Es in K0, K1. destruct x as [x|x]; [destruct K0|]. destruct y as [y|y]; [destruct K1|].
        exists (CD x :: c0), (CD y :: c1), (x :: l0), (y :: l1). simpl. rewrite Gx, Gy. simpl.
        rewrite A, B. simpl. rewrite C, D. simpl. repeat split; auto. constructor; auto. }
    destruct H as (c0 & c1 & l0 & l1 & A & B & C & D & F). rewrite A, B. cbn [obind].
    rewrite C, D. cbn [obind]. exists (ISimd l0), (ISimd l1). auto.
  - assert (H : exists c0 c1 l0 l1,
       omap (fun id => go_get go0 (0, id)) (ec_outputs ec) = Some c0 /\
       omap (fun id => go_get go1 (0, id)) (ec_outputs ec) = Some c1 /\
       omap cell_scalar c0 = Some l0 /\ omap cell_scalar c1 = Some l1 /\
       all3 RS (map (pair 0) (ec_outputs ec)) l0 l1).
    { induction (ec_outputs ec) as [|o os IHo].
      - exists [], [], [], []. repeat split; auto. constructor.
      - destruct IHo as (c0 & c1 & l0 & l1 & A & B & C & D & F); [intros; apply HO; simpl; auto|].
        destruct (ei_live _ _ _ _ E (0, o)) as (x & y & Gx & Gy & Hxy); [apply HO; simpl; auto|].
        destruct (Rkind _ _ _ Hxy) as [K0 K1]. unfold kind_ok in K0, K1. simpl in K0, K1.
        rewrite Es in K0, K1. destruct x as [x|x]; [|destruct K0]. destruct y as [y|y]; [|destruct K1].
        exists (CS x :: c0), (CS y :: c1), (x :: l0), (y :: l1). simpl. rewrite Gx, Gy. simpl.
        rewrite A, B. simpl. rewrite C, D. simpl. repeat split; auto. constructor; auto. }
    destruct H as (c0 & c1 & l0 & l1 & A & B & C & D & F). rewrite A, B. cbn [obind].
    rewrite C, D. cbn [obind]. exists (IScalar l0), (IScalar l1). auto.
Qed.

(** Whole execution. *)
Theorem ex2_run_sound i0 i1 Live Todo go0 go1 s0 s1 rest :
  ni_sound i0 i1 ->
  istore_len i0 = length (ec_inputs ec) -> istore_len i1 = length (ec_inputs ec) ->
  (forall l, In l (ec_layers ec) -> int_sound ok l /\ parents_kind l /\
     (p_simd_support pr = false -> el_int (el_simd l) = [])) ->
  sched_ok ops ec Live Todo (ec_layers ec) -> EInv Live Todo go0 go1 ->
  J (requests ec ++ rest) s0 s1 ->
  exists o0 o1 go0' go1' s0' s1',
    ex2_run req ec i0 i1 ((go0, s0), (go1, s1)) = Some (o0, o1, ((go0', s0'), (go1', s1'))) /\
    match ec_simd ec 0, o0, o1 with
    | None, IScalar l0, IScalar l1 => all3 RS (map (pair 0) (ec_outputs ec)) l0 l1
    | Some _, ISimd l0, ISimd l1 => all3 RD (map (pair 0) (ec_outputs ec)) l0 l1
    | _, _, _ => False
    end /\
    shape_ok ec go0' /\ shape_ok ec go1' /\ J rest s0' s1'.
Proof.
  intros HN L0 L1 HI HS E Hj.
  destruct (ex2_layers_sound i0 i1 HN (ec_layers ec) Live Todo go0 go1 s0 s1 rest HI HS E Hj)
    as (a & b & t0 & t1 & Lv & Td & Q & E' & HO & Hj').
  destruct (outputs_sound Lv Td a b E' HO) as (o0 & o1 & A & B & C).
  exists o0, o1, a, b, t0, t1.
  unfold ex2_run. rewrite L0, L1, Nat.eqb_refl. cbn [oassert obind]. rewrite Q. cbn [obind].
  rewrite A, B. cbn [obind]. destruct E'. auto.
Qed.
End Sound.
