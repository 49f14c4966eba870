(** The ABY2 setup by a GMW execution: the setup circuit computes the products of the masks. *)
From Coq Require Import List Bool Arith Lia Permutation.
Require Import Verif.Prelude Verif.PreludeProofs Verif.GateModel Verif.ProtocolModel Verif.BoolGmwModel
  Verif.CircuitModel Verif.CircuitSpec Verif.CircuitProofs Verif.CircuitProofs2 Verif.CircuitProofs3
  Verif.ExecModel Verif.ExecSpec Verif.ExecProofs Verif.ExecCircuitSpec
  Verif.Aby2Model Verif.Aby2Spec Verif.Aby2Proofs.
Import ListNotations.
Open Scope nat_scope.

(** *** Later circuits *)
Definition ext (c c' : circuit bool_gate) : Prop :=
  (exists gs, c_gates c' = c_gates c ++ gs) /\
  (forall x, x < c_count c -> parents c' x = parents c x) /\
  (exists is, c_inputs c' = c_inputs c ++ is).

Lemma ext_refl c : ext c c.
Proof. split; [exists []; rewrite app_nil_r; auto|]. split; auto. exists []; rewrite app_nil_r; auto. Qed.
Lemma ext_count c c' : ext c c' -> c_count c <= c_count c'.
Proof. intros ((gs & E) & _). unfold c_count. rewrite E, app_length. lia. Qed.
Lemma ext_trans a b c : ext a b -> ext b c -> ext a c.
Proof.
  intros H1 H2. pose proof (ext_count _ _ H1) as Hc. destruct H1 as ((g1 & E1) & P1 & (i1 & I1)). destruct H2 as ((g2 & E2) & P2 & (i2 & I2)).
  split; [exists (g1 ++ g2); rewrite E2, E1, app_assoc; auto|]. split.
  - intros x Hx. rewrite P2, P1; auto. lia.
  - exists (i1 ++ i2). rewrite I2, I1, app_assoc. auto.
Qed.

(** Bits that respect the AND and output gates. *)
Definition bval (c : circuit bool_gate) (v : nat -> bool) : Prop :=
  forall g gate, nth_error (c_gates c) g = Some gate ->
  match gate with
  | BAnd => forall a b, parents c g = [a; b] -> v g = v a && v b
  | BBase GOutput => forall a, parents c g = [a] -> v g = v a
  | _ => True
  end.

Lemma bval_ext c c' v : ext c c' -> bval c' v -> bval c v.
Proof.
  intros ((gs & E) & P & _) H g gate Hg.
  assert (Hl : g < c_count c) by (apply nth_error_Some; unfold c_count; congruence).
  specialize (H g gate). rewrite E, nth_error_app1 in H by auto. specialize (H Hg). rewrite (P g Hl) in H. auto.
Qed.

(** Circuits as the setup builds them. *)
Record cok (c : circuit bool_gate) : Prop := {
  ck_wired : wired bool_ops c;
  ck_simd : c_simd c = None;
  ck_ops : operands_ok c }.

Lemma cok_new : cok c_new_main.
Proof. split; [constructor|reflexivity|]. intros [|g] gate; discriminate. Qed.

Lemma add_gate_eqs {P G} (ops : gate_ops P G) (c : circuit G) g :
  c_gates (fst (add_gate ops c g)) = c_gates c ++ [g] /\
  c_simd (fst (add_gate ops c g)) = c_simd c /\
  (forall x, parents (fst (add_gate ops c g)) x = parents c x).
Proof. split; [reflexivity|]. split; [reflexivity|]. intros x. reflexivity. Qed.

Lemma add_input c : cok c -> exists c', add_gate bool_ops c (BBase GInput) = (c', c_count c) /\
  cok c' /\ ext c c' /\ c_inputs c' = c_inputs c ++ [c_count c] /\ c_outputs c' = c_outputs c /\ c_count c < c_count c'.
Proof.
  intros [W S O]. exists (fst (add_gate bool_ops c (BBase GInput))). split; [reflexivity|].
  destruct (wired_main_ok _ _ W) as (Ha & _). pose proof (api_api_wf _ _ Ha) as Hw.
  split; [split|].
  - apply wired_source; auto.
  - auto.
  - intros g gate E. cbn in E. destruct (Nat.ltb_spec g (length (c_gates c))).
    + rewrite nth_error_app1 in E by auto. apply (O g gate E).
    + rewrite nth_error_app2 in E by auto. destruct (g - length (c_gates c)); cbn in E; [injection E as <-; auto|destruct n; discriminate].
  - split; [|split; [reflexivity|split; [reflexivity|cbn; unfold c_count; cbn; rewrite app_length; cbn; lia]]].
    split; [eexists; reflexivity|]. split; [auto|]. eexists; reflexivity.
Qed.

Lemma ofold_wire_fields (l : list nat) : forall (c c' : circuit bool_gate) id,
  ofold (fun c f => add_wire c f id) c l = Some c' ->
  c_inputs c' = c_inputs c /\ c_outputs c' = c_outputs c /\ c_simd c' = c_simd c.
Proof.
  induction l as [|f l IH]; intros c c' id H; cbn in H; [injection H as <-; auto|].
  destruct (add_wire c f id) as [c1|] eqn:E; [|discriminate]. cbn in H.
  unfold add_wire in E. destruct (_ && _); [|discriminate]. injection E as <-. apply IH in H. cbn in H. auto.
Qed.

Lemma ofold_wire_some (l : list nat) : forall (c : circuit bool_gate) id,
  id < c_count c -> (forall f, In f l -> f < c_count c) ->
  exists c', ofold (fun c f => add_wire c f id) c l = Some c'.
Proof.
  induction l as [|f l IH]; intros c id Hid Hl; cbn [ofold]; [eauto|].
  assert (exists c1, add_wire c f id = Some c1 /\ c_count c1 = c_count c) as (c1 & -> & E1).
  { unfold add_wire. destruct (Nat.ltb_spec f (c_count c)) as [Hf|Hf]; [|specialize (Hl f (or_introl eq_refl)); lia].
    destruct (Nat.ltb_spec id (c_count c)); [|lia]. eexists. split; reflexivity. }
  cbn [obind]. apply IH; [lia|]. intros; rewrite E1; apply Hl; cbn; auto.
Qed.

Lemma add_op c g from : cok c -> g = BAnd /\ length from = 2 \/ g = BBase GOutput /\ length from = 1 ->
  (forall f, In f from -> f < c_count c) ->
  exists c', add_wired_gate bool_ops c g from = Some (c', c_count c) /\
  cok c' /\ ext c c' /\ c_inputs c' = c_inputs c /\
  c_outputs c' = c_outputs c ++ (match g with BBase GOutput => [c_count c] | _ => [] end) /\ c_count c < c_count c' /\
  nth_error (c_gates c') (c_count c) = Some g /\ parents c' (c_count c) = from.
Proof.
  intros [W S O] Hg Hf. destruct (wired_main_ok _ _ W) as (Ha & _).
  destruct (ofold_wire_some (rev from) (fst (add_gate bool_ops c g)) (c_count c)) as (c' & E).
  { unfold c_count. cbn. rewrite app_length. cbn. lia. }
  { intros f H. apply in_rev in H. apply Hf in H. unfold c_count in *. cbn. rewrite app_length. cbn. lia. }
  assert (E' : add_wired_gate bool_ops c g from = Some (c', c_count c)).
  { transitivity (c2 <- ofold (fun c0 f => add_wire c0 f (c_count c)) (fst (add_gate bool_ops c g)) (rev from) ;; Some (c2, c_count c)).
    { reflexivity. } rewrite E. reflexivity. }
  destruct (add_wired_gate_spec bool_ops c c' g from _ Ha E') as (A & _ & Eg & Ep & _).
  destruct (ofold_wire_fields _ _ _ _ E) as (F1 & F2 & F3).
  assert (Hlt : c_count c < c_count c') by (unfold c_count; rewrite Eg, app_length; cbn; lia).
  exists c'. split; auto. split; [split|split; [split|split; [|split; [|split; [auto|split]]]]].
  - eapply wired_gate with (from := from) (g := g); eauto.
    + destruct Hg as [[-> _]|[-> _]]; reflexivity.
    + destruct Hg as [[-> L]|[-> L]]; intros ->; discriminate.
    + apply Forall_forall. auto.
  - rewrite F3. auto.
  - intros x gate E1. rewrite Ep. rewrite Eg in E1. destruct (Nat.eqb_spec x (c_count c)) as [->|Hx].
    + unfold c_count in E1. rewrite nth_error_app2, Nat.sub_diag in E1 by auto. injection E1 as <-.
      destruct Hg as [[-> L]|[-> L]]; auto.
    + destruct (Nat.ltb_spec x (length (c_gates c))).
      * rewrite nth_error_app1 in E1 by auto. apply (O x gate E1).
      * rewrite nth_error_app2 in E1 by auto. destruct (x - length (c_gates c)) eqn:Ex; cbn in E1; [unfold c_count in Hx; lia|destruct n; discriminate].
  - eauto.
  - split; [|exists []; rewrite F1; destruct Hg as [[-> _]|[-> _]]; cbn; rewrite app_nil_r; auto].
    intros x Hx. rewrite Ep. destruct (Nat.eqb_spec x (c_count c)); [lia|auto].
  - rewrite F1. destruct Hg as [[-> _]|[-> _]]; reflexivity.
  - rewrite F2. destruct Hg as [[-> _]|[-> _]]; cbn; rewrite ?app_nil_r; reflexivity.
  - rewrite Eg. unfold c_count. rewrite nth_error_app2, Nat.sub_diag by auto. reflexivity.
  - rewrite Ep, Nat.eqb_refl. auto.
Qed.

(** *** The builder *)
Lemma eq_list_spec a : forall b, eq_list a b = true <-> a = b.
Proof.
  induction a as [|x a IH]; intros [|y b]; cbn; split; intros H; try discriminate; auto.
  - apply andb_true_iff in H. destruct H as [H1 H2]. apply Nat.eqb_eq in H1. apply IH in H2. congruence.
  - injection H as -> ->. rewrite Nat.eqb_refl. apply IH. auto.
Qed.
Lemma assoc_cons_ne {V} a b (v : V) l : a <> b -> assoc eq_list a ((b, v) :: l) = assoc eq_list a l.
Proof. intros H. cbn. destruct (eq_list a b) eqn:E; auto. apply eq_list_spec in E. congruence. Qed.
Lemma assoc_cons_eq {V} a (v : V) l : assoc eq_list a ((a, v) :: l) = Some v.
Proof. cbn. assert (eq_list a a = true) as -> by (apply eq_list_spec; auto). auto. Qed.

Record sok (s : sbuild) : Prop := {
  so_c : cok (sb_circ s);
  so_out : c_outputs (sb_circ s) = [];
  so_len : length (c_inputs (sb_circ s)) = length (sb_ins s);
  so_map : forall p i, assoc gid_eqb p (sb_map s) = Some i ->
     i < c_count (sb_circ s) /\ exists k, nth_error (sb_ins s) k = Some p /\ nth_error (c_inputs (sb_circ s)) k = Some i;
  so_cache : forall set i, assoc eq_list set (sb_cache s) = Some i ->
     i < c_count (sb_circ s) /\ forall v, bval (sb_circ s) v -> v i = forallb v set }.

(** Later builders. *)
Definition sext (s s' : sbuild) : Prop :=
  ext (sb_circ s) (sb_circ s') /\ (exists l, sb_ins s' = sb_ins s ++ l) /\
  (forall p i, assoc gid_eqb p (sb_map s) = Some i -> assoc gid_eqb p (sb_map s') = Some i) /\
  (forall x i, assoc eq_list x (sb_cache s) = Some i -> assoc eq_list x (sb_cache s') = Some i).
Lemma sext_refl s : sext s s.
Proof. split; [apply ext_refl|]. split; [exists []; rewrite app_nil_r; auto|]. auto. Qed.
Lemma sext_trans a b c : sext a b -> sext b c -> sext a c.
Proof.
  intros (A1 & (l1 & A2) & A3 & A4) (B1 & (l2 & B2) & B3 & B4). split; [eapply ext_trans; eauto|].
  split; [exists (l1 ++ l2); rewrite B2, A2, app_assoc; auto|]. auto.
Qed.

Lemma sb_parent_ok s p : sok s -> exists s' i, sb_parent s p = (s', i) /\ sok s' /\ sext s s' /\
  sb_cache s' = sb_cache s /\ assoc gid_eqb p (sb_map s') = Some i.
Proof.
  intros H. unfold sb_parent. destruct (assoc gid_eqb p (sb_map s)) as [i|] eqn:E.
  - exists s, i. split; auto. split; auto. split; [apply sext_refl|]. auto.
  - destruct H as [C O L M K]. destruct (add_input _ C) as (c' & -> & C' & X & I & O' & N).
    eexists _, _. split; [reflexivity|]. cbn [sb_circ sb_map sb_ins sb_cache assoc].
    assert (Hpp : gid_eqb p p = true) by (unfold gid_eqb; rewrite !Nat.eqb_refl; auto).
    split; [split|split; [split; [|split; [|split]]|split]]; cbn [sb_circ sb_map sb_ins sb_cache]; auto.
    + congruence.
    + rewrite I, !app_length, L. auto.
    + intros q i Hq. cbn [assoc] in Hq. destruct (gid_eqb q p) eqn:Eqp.
      * injection Hq as <-. split; auto. exists (length (sb_ins s)). split.
        -- rewrite nth_error_app2, Nat.sub_diag by auto. cbn. unfold gid_eqb in Eqp. apply andb_true_iff in Eqp.
           destruct Eqp as [A B]. apply Nat.eqb_eq in A, B. destruct p, q; cbn in *; congruence.
        -- rewrite I, nth_error_app2, L, Nat.sub_diag by lia. reflexivity.
      * destruct (M q i Hq) as (M1 & k & M2 & M3). split; [lia|]. exists k.
        rewrite I, !nth_error_app1; auto; apply nth_error_Some; congruence.
    + intros set i Hs. destruct (K set i Hs) as [K1 K2]. split; [lia|]. intros v Hv. apply K2. eapply bval_ext; eauto.
    + eexists; reflexivity.
    + intros q i Hq. cbn [assoc]. destruct (gid_eqb q p) eqn:Eqp; auto. exfalso.
      unfold gid_eqb in Eqp. apply andb_true_iff in Eqp. destruct Eqp as [A B]. apply Nat.eqb_eq in A, B.
      destruct p, q; cbn in *; subst. congruence.
    + cbn [assoc]. rewrite Hpp. auto.
Qed.

Lemma sb_parents_ok ps : forall s, sok s -> exists s' is, sb_parents s ps = (s', is) /\ sok s' /\ sext s s' /\
  sb_cache s' = sb_cache s /\ Forall2 (fun p i => assoc gid_eqb p (sb_map s') = Some i) ps is.
Proof.
  induction ps as [|p ps IH]; intros s H; cbn.
  - exists s, []. split; auto. split; auto. split; [apply sext_refl|]. split; auto.
  - destruct (sb_parent_ok s p H) as (s1 & i & -> & H1 & X1 & C1 & A1).
    destruct (IH s1 H1) as (s2 & is & -> & H2 & X2 & C2 & A2).
    eexists _, _. split; [reflexivity|]. split; auto. split; [eapply sext_trans; eauto|].
    split; [congruence|]. constructor; auto. apply X2. auto.
Qed.

(** Lists of sets in which the prefix of every set comes earlier. *)
Fixpoint closed (done : list nat -> Prop) (sets : list (list nat)) : Prop :=
  match sets with
  | [] => True
  | x :: r => 2 <= length x /\ (length x = 2 \/ done (removelast x)) /\ closed (fun y => done y \/ y = x) r
  end.

Lemma closed_mono sets : forall (d d' : list nat -> Prop), (forall x, d x -> d' x) -> closed d sets -> closed d' sets.
Proof.
  induction sets as [|x r IH]; intros d d' H C; cbn in *; auto. destruct C as (A & B & C).
  split; auto. split; [destruct B; auto|]. eapply IH; [|eauto]. cbn. intros y [Hy|Hy]; auto.
Qed.
Lemma closed_app a : forall d b, closed d a -> closed (fun y => d y \/ In y a) b -> closed d (a ++ b).
Proof.
  induction a as [|x a IH]; intros d b A B; cbn in *.
  - eapply closed_mono; [|eauto]. cbn. tauto.
  - destruct A as (A1 & A2 & A3). split; auto. split; auto. apply IH; auto.
    eapply closed_mono; [|eauto]. cbn. intros y [Hy|[Hy|Hy]]; subst; auto.
Qed.
Lemma closed_level sets : forall d, (forall x, In x sets -> 2 <= length x /\ (length x = 2 \/ d (removelast x))) -> closed d sets.
Proof.
  induction sets as [|x r IH]; intros d H; cbn; auto.
  destruct (H x (or_introl eq_refl)) as [A B]. split; auto. split; auto. apply IH. intros y Hy.
  destruct (H y (or_intror Hy)) as [C D]. split; auto. tauto.
Qed.

Lemma combinations_removelast {A} (l : list A) : forall k s, In s (combinations (S k) l) -> In (removelast s) (combinations k l).
Proof.
  induction l as [|x l IH]; intros k s H; [destruct H|].
  cbn [combinations] in H. apply in_app_or in H. destruct H as [H|H].
  - apply in_map_iff in H. destruct H as (t & <- & H). destruct k as [|k].
    + rewrite combinations_0 in H. destruct H as [<-|[]]. cbn. auto.
    + pose proof (combinations_length _ _ _ H) as L. cbn [combinations]. apply in_or_app. left.
      destruct t as [|y t]; [discriminate|]. change (removelast (x :: y :: t)) with (x :: removelast (y :: t)).
      apply in_map. apply IH. auto.
  - apply IH in H. destruct k; cbn [combinations]; [rewrite combinations_0 in H; auto|]. apply in_or_app. auto.
Qed.

Lemma closed_levels (l : list nat) n : forall k (d : list nat -> Prop), (k = 1 \/ forall s, In s (combinations k l) -> d s) -> 1 <= k ->
  closed d (concat (map (fun j => combinations j l) (seq (S k) n))).
Proof.
  induction n as [|n IH]; intros k d H Hk; cbn [seq map concat]; [exact I|].
  apply closed_app.
  - apply closed_level. intros x Hx. pose proof (combinations_length _ _ _ Hx) as L. split; [lia|].
    destruct H as [->|H]; [left; auto|]. right. apply H. apply combinations_removelast. auto.
  - apply IH; [|lia]. right. intros s Hs. auto.
Qed.

Lemma closed_big (l : list nat) d : closed d (big_subsets l).
Proof.
  rewrite big_subsets_from. unfold subsets_from. apply closed_levels; auto.
Qed.

Lemma pop_split (x : list nat) : 1 <= length x -> pop x = Some (last x 0, removelast x) /\ x = removelast x ++ [last x 0].
Proof.
  intros H. assert (E : x = removelast x ++ [last x 0]) by (apply app_removelast_last; intros ->; cbn in H; lia).
  split; auto. rewrite E at 1. apply pop_app.
Qed.

Lemma sb_set_ok s x : sok s -> 2 <= length x -> (forall i, In i x -> i < c_count (sb_circ s)) ->
  (length x = 2 \/ assoc eq_list (removelast x) (sb_cache s) <> None) ->
  exists s' i, sb_set s x = Some (s', i) /\ sok s' /\ sext s s' /\ sb_map s' = sb_map s /\
    assoc eq_list x (sb_cache s') = Some i.
Proof.
  intros H Hl Hb Hc. unfold sb_set. destruct (assoc eq_list x (sb_cache s)) as [i|] eqn:E.
  { exists s, i. split; auto. split; auto. split; [apply sext_refl|]. auto. }
  destruct H as [C O L M K].
  assert (FIN : forall a b, a < c_count (sb_circ s) -> b < c_count (sb_circ s) ->
    (forall v, bval (sb_circ s) v -> v a && v b = forallb v x) ->
    exists s' i, ('(c, i) <- add_wired_gate bool_ops (sb_circ s) BAnd [a; b] ;;
       Some (SB c (sb_map s) (sb_ins s) ((x, i) :: sb_cache s), i)) = Some (s', i) /\ sok s' /\ sext s s' /\ sb_map s' = sb_map s /\
      assoc eq_list x (sb_cache s') = Some i).
  { intros a b Ha Hbb Hv.
    destruct (add_op (sb_circ s) BAnd [a; b] C) as (c' & -> & C' & X & I & O' & N & G & P); auto.
    { cbn. intros f [<-|[<-|[]]]; auto. }
    cbn [obind]. eexists _, _. split; [reflexivity|].
    split; [split|split; [split; [|split; [|split]]|split]]; cbn [sb_circ sb_map sb_ins sb_cache]; auto.
    - rewrite O', O. reflexivity.
    - congruence.
    - intros p i Hp. destruct (M p i Hp) as (M1 & k & M2 & M3). split; [lia|]. exists k. rewrite I. auto.
    - intros set i Hs. destruct (list_eq_dec Nat.eq_dec set x) as [->|Hne].
      + rewrite assoc_cons_eq in Hs. injection Hs as <-. split; auto. intros v Hbv.
        rewrite <- Hv by (eapply bval_ext; eauto). apply (Hbv _ _ G). auto.
      + rewrite assoc_cons_ne in Hs by auto. destruct (K set i Hs) as [K1 K2]. split; [lia|].
        intros v Hbv. apply K2. eapply bval_ext; eauto.
    - exists []. rewrite app_nil_r. auto.
    - intros y i Hy. rewrite assoc_cons_ne; auto. intros ->. congruence.
    - apply assoc_cons_eq. }
  destruct (Nat.eq_dec (length x) 2) as [H2|H2].
  - destruct x as [|a [|b [|? ?]]]; try discriminate. apply FIN; try (apply Hb; cbn; auto).
    intros v _. cbn. rewrite andb_true_r. auto.
  - destruct Hc as [Hc|Hc]; [congruence|]. destruct (pop_split x) as [Ep Ex]; [lia|].
    destruct (assoc eq_list (removelast x) (sb_cache s)) as [j|] eqn:Ej; [|congruence].
    destruct (K _ _ Ej) as [K1 K2].
    assert (Lr : 2 <= length (removelast x)).
    { assert (length x = length (removelast x) + 1) by (rewrite Ex at 1; rewrite app_length; auto). lia. }
    destruct (FIN (last x 0) j) as (s' & i & F); auto.
    { apply Hb. rewrite Ex at 2. apply in_or_app. cbn; auto. }
    { intros v Hv. rewrite K2 by auto. rewrite Ex at 3. rewrite forallb_app. cbn. rewrite andb_true_r. apply andb_comm. }
    exists s', i. destruct F as (F & F').
    split; auto. destruct x as [|a [|b [|c r]]]; cbn in Hl, H2; try lia.
    cbn [obind]. rewrite Ep. cbn [obind].
    assert (2 <=? length (removelast (a :: b :: c :: r)) = true) as -> by (apply Nat.leb_le; auto). cbn [oassert obind].
    rewrite Ej. cbn [obind]. exact F.
Qed.

Lemma sb_sets_ok sets : forall s, sok s -> (forall x i, In x sets -> In i x -> i < c_count (sb_circ s)) ->
  closed (fun x => assoc eq_list x (sb_cache s) <> None) sets ->
  exists s' is, sb_sets s sets = Some (s', is) /\ sok s' /\ sext s s' /\ sb_map s' = sb_map s /\
    Forall2 (fun x i => assoc eq_list x (sb_cache s') = Some i) sets is.
Proof.
  induction sets as [|x r IH]; intros s H Hb Hc; cbn.
  - exists s, []. split; auto. split; auto. split; [apply sext_refl|]. auto.
  - cbn in Hc. destruct Hc as (C1 & C2 & C3).
    destruct (sb_set_ok s x H C1) as (s1 & i & -> & H1 & X1 & M1 & A1); auto.
    { intros i Hi. apply (Hb x); cbn; auto. }
    cbn [obind].
    destruct (IH s1 H1) as (s2 & is & -> & H2 & X2 & M2 & A2).
    { intros y j Hy Hj. assert (j < c_count (sb_circ s)) by (apply (Hb y); cbn; auto).
      pose proof (ext_count _ _ (proj1 X1)). lia. }
    { eapply closed_mono; [|exact C3]. cbn. intros y [Hy| ->]; [|congruence].
      destruct (assoc eq_list y (sb_cache s)) as [j|] eqn:Ey; [|congruence].
      destruct X1 as (_ & _ & _ & X1). rewrite (X1 _ _ Ey). discriminate. }
    cbn [obind]. eexists _, _. split; [reflexivity|]. split; auto. split; [eapply sext_trans; eauto|].
    split; [congruence|]. constructor; auto. apply X2. auto.
Qed.

(** *** One interactive gate, all interactive gates *)
Lemma insert_perm x l : Permutation (x :: l) (insert_sorted x l).
Proof.
  induction l as [|y l IH]; cbn; auto. destruct (x <=? y); auto.
  eapply perm_trans; [apply perm_swap|]. auto.
Qed.
Lemma sort_perm l : Permutation l (sort_ids l).
Proof.
  induction l as [|x l IH]; cbn; auto. eapply perm_trans; [|apply insert_perm]. auto.
Qed.

(** The input gates carry [lam]. *)
Definition ins_val (s : sbuild) (lam : gid -> bool) (v : nat -> bool) : Prop :=
  forall k p i, nth_error (sb_ins s) k = Some p -> nth_error (c_inputs (sb_circ s)) k = Some i -> v i = lam p.

Lemma ins_val_ext s s' lam v : sok s -> sext s s' -> ins_val s' lam v -> ins_val s lam v.
Proof.
  intros H ((_ & _ & (is & E)) & (l & E2) & _) HV k p i Hp Hi. apply (HV k p i).
  - rewrite E2, nth_error_app1; auto. apply nth_error_Some. congruence.
  - rewrite E, nth_error_app1; auto. apply nth_error_Some. congruence.
Qed.

(** The secrets [os] hold the products of the masks. *)
Definition gate_ok (ec : ecirc aby_gate) (s : sbuild) (g : gid) (os : list nat) : Prop :=
  exists ps, Permutation ps (ec_parents ec g) /\ (forall o, In o os -> o < c_count (sb_circ s)) /\
    forall lam v, bval (sb_circ s) v -> ins_val s lam v -> map v os = map (forallb lam) (big_subsets ps).

Lemma gate_ok_ext ec s s' g os : sok s -> sext s s' -> gate_ok ec s g os -> gate_ok ec s' g os.
Proof.
  intros H X (ps & P & B & V). exists ps. split; auto. split.
  - intros o Ho. apply B in Ho. pose proof (ext_count _ _ (proj1 X)). lia.
  - intros lam v H1 H2. apply V; [eapply bval_ext; [apply X|auto]|eapply ins_val_ext; eauto].
Qed.

Lemma sb_gate_ok ec s g n : sok s -> ec_gate ec g = Some (AAnd n) -> length (ec_parents ec g) = n ->
  exists s' os, sb_gate ec s g = Some (s', os) /\ sok s' /\ sext s s' /\ gate_ok ec s' g os.
Proof.
  intros H Eg Hn. unfold sb_gate. rewrite Eg.
  destruct (sb_parents_ok (ec_parents ec g) s H) as (s1 & is & -> & H1 & X1 & _ & A1).
  set (ds := sort_ids is).
  assert (Lis : length is = n). { rewrite <- Hn. symmetry. clear - A1. induction A1; cbn; auto. }
  assert (Lds : length ds = n). { pose proof (Permutation_length (sort_perm is)) as LP. fold ds in LP. lia. }
  rewrite firstn_all2 by lia.
  replace (skipn (n + 1) (powerset ds)) with (big_subsets ds) by (unfold big_subsets; rewrite Lds; f_equal; lia).
  set (f := fun p => match assoc gid_eqb p (sb_map s1) with Some i => i | None => 0 end).
  assert (Eis : is = map f (ec_parents ec g)).
  { clear - A1. unfold f. induction A1 as [|p i ps is E A IH]; cbn; auto. rewrite E. f_equal. auto. }
  destruct (Permutation_map_inv f (ec_parents ec g) (l1 := ds)) as (ps & Eds & Pps).
  { rewrite <- Eis. apply Permutation_sym. apply sort_perm. }
  assert (Hf : forall p, In p ps -> assoc gid_eqb p (sb_map s1) = Some (f p)).
  { intros p Hp. apply (Permutation_in _ (Permutation_sym Pps)) in Hp. clear - A1 Hp. unfold f.
    induction A1 as [|q i qs is E A IH]; [destruct Hp|]. destruct Hp as [<-|Hp]; [rewrite E; auto|auto]. }
  assert (Hbig : forall x, In x (big_subsets ds) -> incl x ds).
  { intros x Hx. rewrite big_subsets_from in Hx. unfold subsets_from in Hx. apply in_concat in Hx.
    destruct Hx as (t & Ht & Hxt). apply in_map_iff in Ht. destruct Ht as (j & <- & _).
    clear - Hxt. revert j x Hxt. induction ds as [|y l IH]; intros [|j] x Hx; cbn in Hx; try tauto.
    - destruct Hx as [<-|[]]. intros z [].
    - destruct Hx as [<-|[]]. intros z [].
    - apply in_app_or in Hx. destruct Hx as [Hx|Hx].
      + apply in_map_iff in Hx. destruct Hx as (t & <- & Ht). intros z [<-|Hz]; cbn; auto. right. eapply IH; eauto.
      + intros z Hz. right. eapply IH; eauto. }
  destruct (sb_sets_ok (big_subsets ds) s1 H1) as (s2 & os & -> & H2 & X2 & M2 & A2).
  { intros x i Hx Hi. apply (Hbig x Hx) in Hi. rewrite Eds in Hi. apply in_map_iff in Hi.
    destruct Hi as (p & <- & Hp). apply (so_map _ H1 p). auto. }
  { apply closed_big. }
  exists s2, os. split; auto. split; auto. split; [eapply sext_trans; eauto|].
  exists ps. split; [apply Permutation_sym; auto|]. split.
  - intros o Ho. clear - A2 Ho H2. induction A2 as [|x i xs js E A IH]; [destruct Ho|].
    destruct Ho as [<-|Ho]; auto. apply (so_cache _ H2 x). auto.
  - intros lam v Hv Hi.
    assert (Hvs : map v os = map (forallb v) (big_subsets ds)).
    { clear - A2 Hv H2. induction A2 as [|x i xs js E A IH]; cbn; auto. f_equal; auto.
      apply (so_cache _ H2 x i E). auto. }
    rewrite Hvs, Eds, big_subsets_map, map_map. apply map_ext_in. intros x Hx.
    assert (Hin : incl x ps).
    { intros p Hp. 
      assert (G : forall (l : list gid) x, In x (big_subsets l) -> incl x l).
      { clear. intros l x Hx. rewrite big_subsets_from in Hx. unfold subsets_from in Hx. apply in_concat in Hx.
        destruct Hx as (t & Ht & Hxt). apply in_map_iff in Ht. destruct Ht as (j & <- & _).
        revert j x Hxt. induction l as [|y l IH]; intros [|j] x Hx; cbn in Hx; try tauto.
        - destruct Hx as [<-|[]]. intros z [].
        - destruct Hx as [<-|[]]. intros z [].
        - apply in_app_or in Hx. destruct Hx as [Hx|Hx].
          + apply in_map_iff in Hx. destruct Hx as (t & <- & Ht). intros z [<-|Hz]; cbn; auto. right. eapply IH; eauto.
          + intros z Hz. right. eapply IH; eauto. }
      apply (G ps x Hx). auto. }
    clear - Hin Hf Hi H1 H2 X2. induction x as [|p x IH]; cbn; auto. f_equal.
    + destruct (so_map _ H1 p (f p)) as (_ & k & K1 & K2); [apply Hf, Hin; cbn; auto|].
      apply (ins_val_ext _ _ _ _ H1 X2 Hi k p); auto.
    + apply IH. intros q Hq. apply Hin. cbn; auto.
Qed.

Lemma sb_gates_ok ec gs : forall s, sok s ->
  (forall g, In g gs -> exists n, ec_gate ec g = Some (AAnd n) /\ length (ec_parents ec g) = n) ->
  exists s' oss, sb_gates ec s gs = Some (s', oss) /\ sok s' /\ sext s s' /\ Forall2 (gate_ok ec s') gs oss.
Proof.
  induction gs as [|g gs IH]; intros s H Hg; cbn.
  - exists s, []. split; auto. split; auto. split; [apply sext_refl|]. auto.
  - destruct (Hg g (or_introl eq_refl)) as (n & Eg & Ln).
    destruct (sb_gate_ok ec s g n H Eg Ln) as (s1 & os & -> & H1 & X1 & G1).
    cbn [obind].
    destruct (IH s1 H1) as (s2 & oss & -> & H2 & X2 & G2); [intros; apply Hg; cbn; auto|].
    cbn [obind]. eexists _, _. split; [reflexivity|]. split; auto. split; [eapply sext_trans; eauto|].
    constructor; auto. apply (gate_ok_ext ec s1 s2); auto.
Qed.

Lemma sb_outputs_ok os : forall c, cok c -> (forall o, In o os -> o < c_count c) ->
  exists c' is, sb_outputs c os = Some (c', is) /\ cok c' /\ ext c c' /\ c_inputs c' = c_inputs c /\
    c_outputs c' = c_outputs c ++ is /\ (forall v, bval c' v -> map v is = map v os).
Proof.
  induction os as [|o os IH]; intros c H Ho; cbn [sb_outputs sb_all_outputs].
  - exists c, []. split; auto. split; auto. split; [apply ext_refl|]. rewrite app_nil_r. auto.
  - destruct (add_op c (BBase GOutput) [o] H) as (c1 & -> & H1 & X1 & I1 & O1 & N1 & G1 & P1); auto.
    { cbn. intros f [<-|[]]. apply Ho. cbn; auto. }
    cbn [obind].
    destruct (IH c1 H1) as (c2 & is & -> & H2 & X2 & I2 & O2 & V2). { intros x Hx. specialize (Ho x (or_intror Hx)). lia. }
    cbn [obind]. eexists _, _. split; [reflexivity|]. split; auto. split; [eapply ext_trans; eauto|].
    split; [congruence|]. split; [rewrite O2, O1, <- app_assoc; reflexivity|].
    intros v Hv. cbn. f_equal; auto. pose proof (bval_ext _ _ _ X2 Hv) as Hv1. apply (Hv1 _ _ G1). auto.
Qed.

Lemma sb_all_outputs_ok oss : forall c, cok c -> (forall os o, In os oss -> In o os -> o < c_count c) ->
  exists c' iss, sb_all_outputs c oss = Some (c', iss) /\ cok c' /\ ext c c' /\ c_inputs c' = c_inputs c /\
    c_outputs c' = c_outputs c ++ concat iss /\ (forall v, bval c' v -> map (map v) iss = map (map v) oss).
Proof.
  induction oss as [|os oss IH]; intros c H Ho; cbn [sb_outputs sb_all_outputs].
  - exists c, []. split; auto. split; auto. split; [apply ext_refl|]. cbn. rewrite app_nil_r. auto.
  - destruct (sb_outputs_ok os c H) as (c1 & is & -> & H1 & X1 & I1 & O1 & V1). { intros o. apply Ho. cbn; auto. }
    cbn [obind].
    destruct (IH c1 H1) as (c2 & iss & -> & H2 & X2 & I2 & O2 & V2).
    { intros x o Hx Hox. assert (o < c_count c) by (apply (Ho x); cbn; auto). pose proof (ext_count _ _ X1). lia. }
    cbn [obind]. eexists _, _. split; [reflexivity|]. split; auto. split; [eapply ext_trans; eauto|].
    split; [congruence|]. split; [rewrite O2, O1, <- app_assoc; reflexivity|].
    intros v Hv. cbn. f_equal; auto. apply V1. eapply bval_ext; eauto.
Qed.

(** The setup circuit. *)
Lemma setup_circuit_ok ec :
  (forall g, In g (ec_int_iter ec) -> exists n, ec_gate ec g = Some (AAnd n) /\ length (ec_parents ec g) = n) ->
  exists c ins iss, setup_circuit ec = Some (c, ins, iss) /\ cok c /\ length (c_inputs c) = length ins /\
    c_outputs c = concat iss /\
    (forall p, In p ins -> exists g, In g (ec_int_iter ec) /\ In p (ec_parents ec g)) /\
    forall lam v, bval c v ->
      (forall k p i, nth_error ins k = Some p -> nth_error (c_inputs c) k = Some i -> v i = lam p) ->
      Forall2 (fun g is => exists ps, Permutation ps (ec_parents ec g) /\
                 map v is = map (forallb lam) (big_subsets ps)) (ec_int_iter ec) iss.
Proof.
  intros Hg. unfold setup_circuit.
  assert (H0 : sok (SB c_new_main [] [] [])).
  { split; cbn; auto; [apply cok_new| |]; intros; discriminate. }
  destruct (sb_gates_ok ec (ec_int_iter ec) _ H0 Hg) as (s & oss & E & H & X & G). rewrite E. cbn [obind].
  destruct (sb_all_outputs_ok oss (sb_circ s) (so_c _ H)) as (c & iss & -> & C & Xc & I & O & V).
  { intros os o Hos. clear - G Hos. induction G as [|g x gs xs (ps & _ & B & _) G IH]; [destruct Hos|].
    destruct Hos as [<-|Hos]; auto. }
  cbn [obind]. exists c, (sb_ins s), iss. split; auto. split; auto. split; [rewrite I; apply (so_len _ H)|].
  split; [rewrite O, (so_out _ H); auto|]. split.
  - assert (Q : forall gs s s' oss, sb_gates ec s gs = Some (s', oss) ->
      forall p, In p (sb_ins s') -> In p (sb_ins s) \/ exists g, In g gs /\ In p (ec_parents ec g)).
    { clear. assert (P1 : forall ps s s' is, sb_parents s ps = (s', is) -> forall p, In p (sb_ins s') -> In p (sb_ins s) \/ In p ps).
      { induction ps as [|q ps IH]; intros s s' is E p Hp; cbn in E; [injection E as <- _; auto|].
        destruct (sb_parent s q) as [s1 i] eqn:E1. destruct (sb_parents s1 ps) as [s2 is2] eqn:E2. injection E as <- _.
        destruct (IH _ _ _ E2 p Hp) as [H|H]; [|cbn; auto].
        unfold sb_parent in E1. destruct (assoc gid_eqb q (sb_map s)); [injection E1 as <- _; auto|].
        destruct (add_gate bool_ops (sb_circ s) (BBase GInput)). injection E1 as <- _. cbn in H.
        apply in_app_or in H. destruct H as [H|[<-|[]]]; cbn; auto. }
      assert (P2 : forall sets s s' is, sb_sets s sets = Some (s', is) -> sb_ins s' = sb_ins s).
      { induction sets as [|x r IH]; intros s s' is E; cbn in E; [injection E as <- _; auto|].
        destruct (sb_set s x) as [[s1 i]|] eqn:E1; [|discriminate]. cbn in E.
        destruct (sb_sets s1 r) as [[s2 is2]|] eqn:E2; [|discriminate]. cbn in E. injection E as <- _.
        rewrite (IH _ _ _ E2). unfold sb_set in E1. destruct (assoc eq_list x (sb_cache s)); [injection E1 as <- _; auto|].
        destruct x as [|a [|b [|x3 r3]]].
        - discriminate.
        - cbn in E1. discriminate.
        - destruct (add_wired_gate bool_ops (sb_circ s) BAnd [a; b]) as [[c1 j]|]; [|discriminate]. cbn in E1. injection E1 as <- _. auto.
        - cbn [obind] in E1. destruct (pop _) as [[l sub]|]; [|discriminate]. cbn [obind] in E1.
          destruct (2 <=? length sub) eqn:E2'; [|discriminate]. cbn [oassert obind] in E1.
          destruct (assoc eq_list sub (sb_cache s)) as [j|]; [|discriminate]. cbn [obind] in E1.
          destruct (add_wired_gate bool_ops (sb_circ s) BAnd [l; j]) as [[c1 k]|]; [|discriminate]. cbn in E1. injection E1 as <- _. auto. }
      induction gs as [|g gs IH]; intros s s' oss E p Hp; cbn in E; [injection E as <- _; auto|].
      destruct (sb_gate ec s g) as [[s1 o]|] eqn:E1; [|discriminate]. cbn in E.
      destruct (sb_gates ec s1 gs) as [[s2 os]|] eqn:E2; [|discriminate]. cbn in E. injection E as <- _.
      destruct (IH _ _ _ E2 p Hp) as [H|(g' & H1 & H2)]; [|right; exists g'; cbn; auto].
      unfold sb_gate in E1. destruct (ec_gate ec g) as [[|n| |]|]; try discriminate.
      destruct (sb_parents s (ec_parents ec g)) as [s3 is] eqn:E3. rewrite (P2 _ _ _ _ E1) in H.
      destruct (P1 _ _ _ _ E3 p H) as [H'|H']; auto. right. exists g. cbn; auto. }
    intros p Hp. destruct (Q _ _ _ _ E p Hp) as [[]|Q']; auto.
  - intros lam v Hv Hi. pose proof (V v Hv) as HV. pose proof (bval_ext _ _ _ Xc Hv) as Hvs.
    assert (Hin : ins_val s lam v). { intros k p i. rewrite <- I. apply Hi. }
    clear - G HV Hvs Hin. revert iss HV. induction G as [|g os gs oss (ps & P & _ & W) G IH]; intros [|is iss] HV; try discriminate; constructor.
    + cbn in HV. injection HV as HV _. exists ps. split; auto. rewrite HV. apply W; auto.
    + cbn in HV. injection HV as _ HV. apply IH; auto.
Qed.
