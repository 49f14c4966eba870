(** The tensor ABY2 setup by a GMW execution: the setup circuit computes the products of the masks. *)
From Coq Require Import List Bool Arith Lia ZArith.
From Coq Require Import ZifyBool ZifyNat.
Require Import Verif.Prelude Verif.PreludeProofs Verif.GateModel Verif.ProtocolModel Verif.BoolGmwModel
  Verif.CircuitModel Verif.CircuitSpec Verif.CircuitProofs Verif.CircuitProofs2 Verif.CircuitProofs3
  Verif.ExecModel Verif.ExecSpec Verif.ExecProofs Verif.ExecCircuitSpec
  Verif.BitMatModel Verif.BitMatSpec Verif.BitMatTheorems
  Verif.Aby2Model Verif.Aby2Spec Verif.Aby2Proofs Verif.Aby2SetupProofs Verif.TensorModel Verif.TensorSpec Verif.TensorProofs.
Import ListNotations.
Open Scope nat_scope.

(** *** Lists *)
Lemma combine_map_r {A B} (f : A -> B) l : combine l (map f l) = map (fun x => (x, f x)) l.
Proof. induction l; cbn; f_equal; auto. Qed.
Lemma combine_map2 {A B C} (f : A -> B) (g : A -> C) l : combine (map f l) (map g l) = map (fun x => (f x, g x)) l.
Proof. induction l; cbn; f_equal; auto. Qed.

Lemma firstn_skipn_nth {A} (d : A) k n (l : list A) : n + k <= length l ->
  firstn k (skipn n l) = map (fun t => nth (n + t) l d) (seq 0 k).
Proof.
  revert n. induction k as [|k IH]; intros n H; auto.
  destruct (skipn n l) as [|x r] eqn:E. { apply (f_equal (@length A)) in E. rewrite skipn_length in E. cbn in E. lia. }
  assert (E1 : skipn (S n) l = r).
  { clear - E. revert n E. induction l as [|y l IH]; intros [|n] E; cbn in E; try discriminate.
    - injection E as <- <-. reflexivity.
    - cbn [skipn]. apply IH. exact E. }
  cbn [firstn]. rewrite <- E1, IH by lia. cbn [seq map]. f_equal.
  - rewrite Nat.add_0_r. rewrite <- (firstn_skipn n l), E, app_nth2; rewrite firstn_length, Nat.min_l by lia; [|lia]. rewrite Nat.sub_diag. reflexivity.
  - rewrite <- seq_shift, map_map. apply map_ext. intros t. f_equal. lia.
Qed.

Lemma chunks_exact_nth {A} (d : A) k r (l : list A) : 1 <= k -> length l = r * k ->
  chunks_exact k l = map (fun i => map (fun t => nth (i * k + t) l d) (seq 0 k)) (seq 0 r).
Proof.
  intros Hk L. unfold chunks_exact. rewrite L, Nat.div_mul by lia. apply map_ext_in. intros i Hi. apply in_seq in Hi.
  apply firstn_skipn_nth. rewrite L. nia.
Qed.

Lemma chunks_exact_concat {A} (d : A) k (ls : list (list A)) : 1 <= k -> (forall x, In x ls -> length x = k) -> chunks_exact k (concat ls) = ls.
Proof.
  intros Hk H. assert (L : length (concat ls) = length ls * k).
  { clear Hk. induction ls as [|x ls IH]; auto. cbn [concat length]. rewrite app_length, IH by (intros; apply H; cbn; auto).
    rewrite (H x) by (cbn; auto). reflexivity. }
  unfold chunks_exact. rewrite L, Nat.div_mul by lia. clear L.
  induction ls as [|x ls IH]; auto. cbn [length seq map concat]. pose proof (H x (or_introl eq_refl)) as Lx. f_equal.
  - cbn [Nat.mul skipn]. apply firstn_app_exact. auto.
  - rewrite <- seq_shift, map_map. rewrite <- IH at 2 by (intros; apply H; cbn; auto). apply map_ext. intros i. f_equal.
    cbn [Nat.mul]. rewrite skipn_app. rewrite (skipn_all2 x) by lia. cbn [app]. f_equal. lia.
Qed.

Lemma flat_map_repeat {A} (f : nat -> A) c r : 1 <= c ->
  flat_map (fun i => repeat (f i) c) (seq 0 r) = map (fun n => f (n / c)) (seq 0 (r * c)).
Proof.
  intros Hc. induction r as [|r IH]; auto. rewrite seq_S, flat_map_app, IH. cbn [flat_map Nat.add]. rewrite app_nil_r.
  replace (S r * c) with (r * c + c) by lia. rewrite seq_app, map_app. f_equal.
  cbn [Nat.add]. assert (E : forall m, m <= c -> map (fun n => f (n / c)) (seq (r * c) m) = repeat (f r) m).
  { induction m as [|m IHm]; intros Hm; auto. rewrite seq_S, map_app, IHm by lia. cbn [map].
    replace ((r * c + m) / c) with r. { rewrite <- repeat_cons. reflexivity. }
    rewrite Nat.add_comm, Nat.div_add by lia. rewrite Nat.div_small; lia. }
  rewrite E; auto.
Qed.

Lemma strided_ok j c k (b : list nat) : j < c -> length b = k * c ->
  strided j c b = map (fun t => nth (t * c + j) b 0) (seq 0 k).
Proof.
  intros Hj L. unfold strided. rewrite L.
  assert (E : (k * c - j + (c - 1)) / c = k).
  { destruct k as [|k]; [cbn; apply Nat.div_small; lia|].
    symmetry. apply Nat.div_unique with (r := c - 1 - j); [lia|]. nia. }
  rewrite E. assert (HF : forall l, (forall i, In i l -> i < k) ->
    flat_map (fun i => match nth_error b (j + i * c) with Some x => [x] | None => [] end) l = map (fun t => nth (t * c + j) b 0) l).
  { induction l as [|i l IH]; intros H; auto. cbn [flat_map map].
    rewrite (nth_error_nth' b 0) by (specialize (H i (or_introl eq_refl)); nia). cbn [app]. f_equal; [f_equal; lia|]. apply IH. intros; apply H; cbn; auto. }
  apply HF. intros i Hi. apply in_seq in Hi. lia.
Qed.

Lemma tb_pairs_ok r c k a b : 1 <= r -> 1 <= c -> 1 <= k -> length a = r * k -> length b = k * c ->
  tb_pairs r c a b = Some (map (fun n => map (fun t => (nth (n / c * k + t) a 0, nth (t * c + n mod c) b 0)) (seq 0 k)) (seq 0 (r * c))).
Proof.
  intros Hr Hc Hk La Lb. unfold tb_pairs.
  destruct (Nat.eqb_spec r 0); [lia|]. destruct (Nat.eqb_spec c 0); [lia|]. cbn [negb oassert obind].
  rewrite La, Lb, Nat.div_mul by lia. rewrite (Nat.mul_comm r k), Nat.div_mul by lia.
  destruct (Nat.eqb_spec k 0); [lia|]. cbn [negb oassert obind].
  assert (EB : chunks_exact k (flat_map (fun j => strided j c b) (seq 0 c)) = map (fun j => map (fun t => nth (t * c + j) b 0) (seq 0 k)) (seq 0 c)).
  { rewrite flat_map_concat_map.
    replace (map (fun j => strided j c b) (seq 0 c)) with (map (fun j => map (fun t => nth (t * c + j) b 0) (seq 0 k)) (seq 0 c)).
    - apply (chunks_exact_concat 0); auto. intros x Hx. apply in_map_iff in Hx. destruct Hx as (j & <- & _). rewrite map_length, seq_length. auto.
    - apply map_ext_in. intros j Hj. apply in_seq in Hj. symmetry. apply strided_ok; auto. lia. }
  rewrite EB. rewrite (chunks_exact_nth 0 k r a) by auto.
  assert (ER : flat_map (fun row : list nat => repeat row c) (map (fun i => map (fun t => nth (i * k + t) a 0) (seq 0 k)) (seq 0 r)) =
    map (fun n => map (fun t => nth (n / c * k + t) a 0) (seq 0 k)) (seq 0 (r * c))).
  { rewrite <- (flat_map_repeat (fun i => map (fun t => nth (i * k + t) a 0) (seq 0 k)) c r Hc).
    rewrite !flat_map_concat_map, map_map. reflexivity. }
  rewrite ER.
  set (bs := map (fun j => map (fun t => nth (t * c + j) b 0) (seq 0 k)) (seq 0 c)).
  assert (Lbs : length bs = c) by (unfold bs; rewrite map_length, seq_length; auto).
  assert (HM : forall X Y : option (list (list (nat * nat))), match bs with [] => X | _ :: _ => Y end = Y).
  { intros X Y. destruct bs; [cbn in Lbs; lia|reflexivity]. }
  rewrite HM, Lbs. f_equal. rewrite map_length, seq_length.
  rewrite combine_map_r, map_map. apply map_ext. intros m1. cbn [fst snd].
  rewrite (nth_indep _ _ (map (fun t => nth (t * c + 0) b 0) (seq 0 k))) by (rewrite Lbs; apply Nat.mod_upper_bound; lia).
  unfold bs. rewrite (map_nth (fun j => map (fun t => nth (t * c + j) b 0) (seq 0 k))).
  rewrite seq_nth by (apply Nat.mod_upper_bound; lia). cbn [Nat.add]. apply combine_map2.
Qed.

(** *** Circuits with XOR gates *)
Definition tbval (c : circuit bool_gate) (v : nat -> bool) : Prop :=
  bval c v /\ forall g a b, nth_error (c_gates c) g = Some BXor -> parents c g = [a; b] -> v g = xorb (v a) (v b).

Lemma tbval_ext c c' v : ext c c' -> tbval c' v -> tbval c v.
Proof.
  intros X [H1 H2]. split; [eapply bval_ext; eauto|]. destruct X as ((gs & E) & P & _). intros g a b Hg Hp.
  assert (Hl : g < c_count c) by (apply nth_error_Some; unfold c_count; congruence).
  apply (H2 g a b); [rewrite E, nth_error_app1 by auto; auto|]. rewrite P; auto.
Qed.

Lemma add_xor c a b : cok c -> a < c_count c -> b < c_count c ->
  exists c', add_wired_gate bool_ops c BXor [a; b] = Some (c', c_count c) /\
  cok c' /\ ext c c' /\ c_inputs c' = c_inputs c /\ c_outputs c' = c_outputs c /\ c_count c < c_count c' /\
  forall v, tbval c' v -> v (c_count c) = xorb (v a) (v b).
Proof.
  intros [W S O] Ha' Hb'. destruct (wired_main_ok _ _ W) as (Ha & _).
  assert (Hf : forall f, In f [a; b] -> f < c_count c) by (intros f [<-|[<-|[]]]; auto).
  destruct (ofold_wire_some (rev [a; b]) (fst (add_gate bool_ops c BXor)) (c_count c)) as (c' & E).
  { unfold c_count. cbn. rewrite app_length. cbn. lia. }
  { intros f H. apply in_rev in H. apply Hf in H. unfold c_count in *. cbn. rewrite app_length. cbn. lia. }
  assert (E' : add_wired_gate bool_ops c BXor [a; b] = Some (c', c_count c)).
  { transitivity (c2 <- ofold (fun c0 f => add_wire c0 f (c_count c)) (fst (add_gate bool_ops c BXor)) (rev [a; b]) ;; Some (c2, c_count c)).
    { reflexivity. } rewrite E. reflexivity. }
  destruct (add_wired_gate_spec bool_ops c c' BXor [a; b] _ Ha E') as (A & _ & Eg & Ep & _).
  destruct (ofold_wire_fields _ _ _ _ E) as (F1 & F2 & F3).
  assert (Hlt : c_count c < c_count c') by (unfold c_count; rewrite Eg, app_length; cbn; lia).
  exists c'. split; auto. split; [split|split; [split|split; [|split; [|split; [auto|]]]]].
  - eapply wired_gate with (from := [a; b]) (g := BXor); eauto.
    all: try discriminate; try (apply Forall_forall; auto).
  - rewrite F3. auto.
  - intros x gate E1. rewrite Ep. rewrite Eg in E1. destruct (Nat.eqb_spec x (c_count c)) as [->|Hx].
    + unfold c_count in E1. rewrite nth_error_app2, Nat.sub_diag in E1 by auto. injection E1 as <-. reflexivity.
    + destruct (Nat.ltb_spec x (length (c_gates c))).
      * rewrite nth_error_app1 in E1 by auto. apply (O x gate E1).
      * rewrite nth_error_app2 in E1 by auto. destruct (x - length (c_gates c)) eqn:Ex; cbn in E1; [unfold c_count in Hx; lia|destruct n; discriminate].
  - eauto.
  - split; [|exists []; rewrite F1; cbn; rewrite app_nil_r; auto].
    intros x Hx. rewrite Ep. destruct (Nat.eqb_spec x (c_count c)); [lia|auto].
  - rewrite F1. reflexivity.
  - rewrite F2. cbn. reflexivity.
  - intros v [_ Hv]. apply Hv.
    + rewrite Eg. unfold c_count. rewrite nth_error_app2, Nat.sub_diag by auto. reflexivity.
    + rewrite Ep, Nat.eqb_refl. auto.
Qed.

Lemma add_and c a b : cok c -> a < c_count c -> b < c_count c ->
  exists c', add_wired_gate bool_ops c BAnd [a; b] = Some (c', c_count c) /\
  cok c' /\ ext c c' /\ c_inputs c' = c_inputs c /\ c_outputs c' = c_outputs c /\ c_count c < c_count c' /\
  forall v, tbval c' v -> v (c_count c) = v a && v b.
Proof.
  intros H Ha Hb. destruct (add_op c BAnd [a; b] H) as (c' & E & A1 & A2 & A3 & A4 & A5 & A6 & A7); auto.
  { intros f [<-|[<-|[]]]; auto. }
  exists c'. split; auto. split; auto. split; auto. split; auto. split; [rewrite A4, app_nil_r; auto|]. split; auto.
  intros v [Hv _]. apply (Hv _ _ A6). auto.
Qed.

Definition pval (v : nat -> bool) (ab : nat * nat) : bool := v (fst ab) && v (snd ab).

Lemma tb_dot_tail_ok ab : forall c acc, cok c -> acc < c_count c -> (forall x, In x ab -> fst x < c_count c /\ snd x < c_count c) ->
  exists c' i, tb_dot_tail c acc ab = Some (c', i) /\ cok c' /\ ext c c' /\ c_inputs c' = c_inputs c /\ c_outputs c' = c_outputs c /\
    i < c_count c' /\ forall v, tbval c' v -> v i = fold_left (fun x p => xorb x (pval v p)) ab (v acc).
Proof.
  induction ab as [|[a b] ab IH]; intros c acc H Hacc Hab; cbn [tb_dot_tail].
  - exists c, acc. split; auto. split; auto. split; [apply ext_refl|]. auto.
  - destruct (Hab (a, b) (or_introl eq_refl)) as [Ha Hb]. cbn [fst snd] in Ha, Hb.
    destruct (add_and c a b H Ha Hb) as (c1 & -> & H1 & X1 & I1 & O1 & N1 & V1). cbn [obind].
    destruct (add_xor c1 acc (c_count c) H1 ltac:(lia) N1) as (c2 & -> & H2 & X2 & I2 & O2 & N2 & V2). cbn [obind].
    pose proof (ext_count _ _ X1). 
    destruct (IH c2 (c_count c1) H2 N2) as (c3 & i & E3 & H3 & X3 & I3 & O3 & N3 & V3).
    { intros x Hx. destruct (Hab x (or_intror Hx)). lia. }
    exists c3, i. split; auto. split; auto. split; [eapply ext_trans; [eapply ext_trans|]; eauto|]. split; [congruence|]. split; [congruence|]. split; auto.
    intros v Hv. rewrite (V3 v Hv). cbn [fold_left]. f_equal.
    pose proof (tbval_ext _ _ _ X3 Hv) as Hv2. rewrite (V2 v Hv2). f_equal. apply (V1 v). eapply tbval_ext; eauto.
Qed.

Lemma tb_dot_ok ab c : ab <> [] -> cok c -> (forall x, In x ab -> fst x < c_count c /\ snd x < c_count c) ->
  exists c' i, tb_dot c ab = Some (c', i) /\ cok c' /\ ext c c' /\ c_inputs c' = c_inputs c /\ c_outputs c' = c_outputs c /\
    i < c_count c' /\ forall v, tbval c' v -> v i = fold_left (fun x p => xorb x (pval v p)) ab false.
Proof.
  intros Hne H Hab. destruct ab as [|[a b] ab]; [congruence|]. cbn [tb_dot].
  destruct (Hab (a, b) (or_introl eq_refl)) as [Ha Hb]. cbn [fst snd] in Ha, Hb.
  destruct (add_and c a b H Ha Hb) as (c1 & -> & H1 & X1 & I1 & O1 & N1 & V1). cbn [obind].
  destruct (tb_dot_tail_ok ab c1 (c_count c) H1 N1) as (c3 & i & E3 & H3 & X3 & I3 & O3 & N3 & V3).
  { intros x Hx. destruct (Hab x (or_intror Hx)). lia. }
  exists c3, i. split; auto. split; auto. split; [eapply ext_trans; eauto|]. split; [congruence|]. split; [congruence|]. split; auto.
  intros v Hv. rewrite (V3 v Hv). cbn [fold_left]. f_equal. unfold pval. cbn [fst snd]. rewrite xorb_false_l. apply V1. eapply tbval_ext; eauto.
Qed.

Lemma tb_dots_ok l : forall c, (forall ab, In ab l -> ab <> []) -> cok c ->
  (forall ab x, In ab l -> In x ab -> fst x < c_count c /\ snd x < c_count c) ->
  exists c' is, tb_dots c l = Some (c', is) /\ cok c' /\ ext c c' /\ c_inputs c' = c_inputs c /\ c_outputs c' = c_outputs c /\
    (forall i, In i is -> i < c_count c') /\
    forall v, tbval c' v -> map v is = map (fun ab => fold_left (fun x p => xorb x (pval v p)) ab false) l.
Proof.
  induction l as [|ab l IH]; intros c Hne H Hab; cbn [tb_dots].
  - exists c, []. split; auto. split; auto. split; [apply ext_refl|]. split; auto. split; auto. split; [intros i []|reflexivity].
  - destruct (tb_dot_ok ab c) as (c1 & i & -> & H1 & X1 & I1 & O1 & N1 & V1).
    { apply Hne; cbn; auto. } { auto. } { intros x Hx. apply (Hab ab); cbn; auto. }
    cbn [obind]. pose proof (ext_count _ _ X1).
    destruct (IH c1) as (c2 & is & -> & H2 & X2 & I2 & O2 & N2 & V2); auto.
    { intros; apply Hne; cbn; auto. }
    { intros y x Hy Hx. destruct (Hab y x (or_intror Hy) Hx). lia. }
    cbn [obind]. pose proof (ext_count _ _ X2).
    eexists _, _. split; [reflexivity|]. split; auto. split; [eapply ext_trans; eauto|]. split; [congruence|]. split; [congruence|].
    split; [intros j [<-|Hj]; [lia|auto]|].
    intros v Hv. cbn [map]. f_equal; [apply V1; eapply tbval_ext; eauto|apply V2; auto].
Qed.

Lemma fold_xor_sum (f : nat -> bool) k : forall b, fold_left (fun x t => xorb x (f t)) (seq 0 k) b = xorb b (xor_sum k f).
Proof.
  induction k as [|k IH]; intros b; [cbn; rewrite xorb_false_r; auto|].
  rewrite seq_S, fold_left_app, IH. cbn [fold_left xor_sum Nat.add]. apply xorb_assoc.
Qed.
Lemma fold_left_map {A B C} (f : C -> B -> C) (g : A -> B) l : forall c, fold_left f (map g l) c = fold_left (fun x a => f x (g a)) l c.
Proof. induction l; intros c; cbn; auto. Qed.

(** *** Inputs *)
Lemma add_inputs_ok n : forall c, cok c -> exists c' is, add_inputs c n = (c', is) /\ cok c' /\ ext c c' /\
  c_inputs c' = c_inputs c ++ is /\ c_outputs c' = c_outputs c /\ length is = n /\ (forall i, In i is -> i < c_count c').
Proof.
  induction n as [|n IH]; intros c H; cbn [add_inputs].
  - exists c, []. rewrite app_nil_r. split; auto. split; auto. split; [apply ext_refl|]. split; auto. split; auto. split; auto. intros i [].
  - destruct (add_input c H) as (c1 & -> & H1 & X1 & I1 & O1 & N1).
    destruct (IH c1 H1) as (c2 & is & -> & H2 & X2 & I2 & O2 & L2 & B2). pose proof (ext_count _ _ X2).
    eexists _, _. split; [reflexivity|]. split; auto. split; [eapply ext_trans; eauto|].
    split; [rewrite I2, I1, <- app_assoc; reflexivity|]. split; [congruence|]. split; [cbn; lia|].
    intros i [<-|Hi]; [lia|auto].
Qed.

Section Build.
(** [w]: the widths; [P]: the gates whose shares are read. *)
Variable w : gid -> option nat.
Variable wd : gid -> nat.

Record tok (s : tbuild) : Prop := {
  tk_c : cok (tb_circ s);
  tk_out : c_outputs (tb_circ s) = [];
  tk_ins : exists iss, Forall2 (fun p is => assoc gid_eqb p (tb_map s) = Some is) (tb_ins s) iss /\ c_inputs (tb_circ s) = concat iss;
  tk_map : forall p is, assoc gid_eqb p (tb_map s) = Some is ->
     length is = wd p /\ In p (tb_ins s) /\ forall i, In i is -> i < c_count (tb_circ s) }.

Definition text (s s' : tbuild) : Prop :=
  ext (tb_circ s) (tb_circ s') /\
  (forall p is, assoc gid_eqb p (tb_map s) = Some is -> assoc gid_eqb p (tb_map s') = Some is).
Lemma text_refl s : text s s.
Proof. split; [apply ext_refl|auto]. Qed.
Lemma text_trans a b c : text a b -> text b c -> text a c.
Proof. intros (A1 & A2) (B1 & B2). split; [eapply ext_trans; eauto|auto]. Qed.

Lemma gid_eqb_eq p q : gid_eqb p q = true -> p = q.
Proof. destruct (gid_eqb_spec p q); congruence. Qed.

Lemma tb_parent_ok s p : tok s -> w p = Some (wd p) -> exists s' is, tb_parent w s p = Some (s', is) /\ tok s' /\ text s s' /\
  assoc gid_eqb p (tb_map s') = Some is /\ (forall q, In q (tb_ins s') -> In q (tb_ins s) \/ q = p).
Proof.
  intros H Hw. unfold tb_parent. destruct (assoc gid_eqb p (tb_map s)) as [is|] eqn:E.
  - exists s, is. split; auto. split; auto. split; [apply text_refl|]. split; auto.
  - rewrite Hw. cbn [obind]. destruct H as [C O (iss & F & I) M].
    destruct (add_inputs_ok (wd p) _ C) as (c' & is & -> & C' & X & I' & O' & L & B).
    pose proof (ext_count _ _ X) as HC.
    assert (Hpp : gid_eqb p p = true) by (destruct (gid_eqb_spec p p); congruence).
    assert (Hold : forall q js, assoc gid_eqb q (tb_map s) = Some js -> assoc gid_eqb q ((p, is) :: tb_map s) = Some js).
    { intros q js Hq. cbn [assoc]. destruct (gid_eqb q p) eqn:Eqp; auto. apply gid_eqb_eq in Eqp. congruence. }
    eexists _, _. split; [reflexivity|]. split; [split|split; [split|split]]; cbn [tb_circ tb_map tb_ins]; auto.
    + congruence.
    + exists (iss ++ [is]). split.
      * apply Forall2_app; [|constructor; auto; cbn [assoc]; rewrite Hpp; auto].
        clear - F Hold. induction F; constructor; auto.
      * rewrite I', concat_app, I. cbn. rewrite app_nil_r. auto.
    + intros q js Hq. cbn [assoc] in Hq. destruct (gid_eqb q p) eqn:Eqp.
      * injection Hq as <-. apply gid_eqb_eq in Eqp. subst q. split; auto. split; auto. apply in_or_app. cbn; auto.
      * destruct (M q js Hq) as (M1 & M2 & M3). split; auto. split; [apply in_or_app; auto|]. intros i Hi. apply M3 in Hi. lia.
    + cbn [assoc]. rewrite Hpp. auto.
    + intros q Hq. apply in_app_or in Hq. destruct Hq as [Hq|[<-|[]]]; auto.
Qed.

Lemma tb_parents_ok ps : forall s, tok s -> (forall p, In p ps -> w p = Some (wd p)) -> exists s' iss, tb_parents w s ps = Some (s', iss) /\ tok s' /\ text s s' /\
  Forall2 (fun p is => assoc gid_eqb p (tb_map s') = Some is) ps iss /\ (forall q, In q (tb_ins s') -> In q (tb_ins s) \/ In q ps).
Proof.
  induction ps as [|p ps IH]; intros s H Hw; cbn [tb_parents].
  - exists s, []. split; auto. split; auto. split; [apply text_refl|]. split; auto.
  - destruct (tb_parent_ok s p H (Hw p (or_introl eq_refl))) as (s1 & is & -> & H1 & X1 & A1 & Q1). cbn [obind].
    destruct (IH s1 H1) as (s2 & iss & -> & H2 & X2 & A2 & Q2). { intros; apply Hw; cbn; auto. }
    cbn [obind]. eexists _, _. split; [reflexivity|]. split; auto. split; [eapply text_trans; eauto|].
    split; [constructor; auto; apply X2; auto|]. intros q Hq. destruct (Q2 q Hq) as [Hq'|Hq']; [|cbn; auto].
    destruct (Q1 q Hq') as [Hq''| ->]; cbn; auto.
Qed.

(** The input gates of [p] carry the bits [lam p]. *)
Definition tins_val (s : tbuild) (lam : gid -> list bool) (v : nat -> bool) : Prop :=
  forall p is, assoc gid_eqb p (tb_map s) = Some is -> map v is = lam p.

(** What the outputs of a gate carry. *)
Definition tprod (gate : tensor_gate) (a b : list bool) : list bool :=
  match gate with
  | TMatMult r c =>
      let k := length a / r in
      map (fun n => xor_sum k (fun t => nth (n / c * k + t) a false && nth (t * c + n mod c) b false)) (seq 0 (r * c))
  | _ => [nth 0 a false && nth 0 b false]
  end.
Definition tgate_ok (ec : ecirc tensor_gate) (s : tbuild) (g : gid) (os : list nat) : Prop :=
  exists gate p q, ec_gate ec g = Some gate /\ ec_parents ec g = [p; q] /\
    (forall o, In o os -> o < c_count (tb_circ s)) /\
    forall lam v, tbval (tb_circ s) v -> tins_val s lam v -> map v os = tprod gate (lam p) (lam q).

Lemma tgate_ok_ext ec s s' g os : text s s' -> tgate_ok ec s g os -> tgate_ok ec s' g os.
Proof.
  intros [X1 X2] (gate & p & q & E & Ep & B & V). exists gate, p, q. split; auto. split; auto. split.
  - intros o Ho. apply B in Ho. pose proof (ext_count _ _ X1). lia.
  - intros lam v H1 H2. apply V; [eapply tbval_ext; eauto|]. intros x is Hx. apply H2. auto.
Qed.

(** The widths of the operands of an interactive gate. *)
Definition widths_ok (ec : ecirc tensor_gate) (g : gid) : Prop :=
  exists p q, ec_parents ec g = [p; q] /\ w p = Some (wd p) /\ w q = Some (wd q) /\
  match ec_gate ec g with
  | Some TAnd2 => wd p = 1 /\ wd q = 1
  | Some (TMatMult r c) => 1 <= r /\ 1 <= c /\ exists k, 1 <= k /\ wd p = r * k /\ wd q = k * c
  | _ => False
  end.

Lemma tb_gate_ok ec s g : tok s -> widths_ok ec g ->
  exists s' os, tb_gate w ec s g = Some (s', os) /\ tok s' /\ text s s' /\ tgate_ok ec s' g os /\
    (forall q, In q (tb_ins s') -> In q (tb_ins s) \/ In q (ec_parents ec g)).
Proof.
  intros H (p & q & Ep & Wp & Wq & HG). unfold tb_gate. destruct (ec_gate ec g) as [gate|] eqn:Eg; [|destruct HG]. cbn [obind]. rewrite Ep.
  destruct (tb_parents_ok [p; q] s H) as (s1 & iss & -> & H1 & X1 & A1 & Q1). { intros x [<-|[<-|[]]]; auto. }
  cbn [obind]. inversion A1 as [|? a ? ? Ea A1']; subst. inversion A1' as [|? b ? ? Eb A1'']; subst. inversion A1''; subst. clear A1 A1' A1''.
  destruct H1 as [C1 O1 (jss & F1 & I1) M1] eqn:EH1. clear EH1.
  destruct (M1 p a Ea) as (La & Pa & Ba). destruct (M1 q b Eb) as (Lb & Pb & Bb).
  assert (Htok : forall c', cok c' -> c_outputs c' = c_outputs (tb_circ s1) -> c_inputs c' = c_inputs (tb_circ s1) -> ext (tb_circ s1) c' ->
     tok (TB c' (tb_map s1) (tb_ins s1)) /\ text s (TB c' (tb_map s1) (tb_ins s1))).
  { intros c' K1 K2 K3 K4. pose proof (ext_count _ _ K4). split; [split; cbn [tb_circ tb_map tb_ins]; auto|].
    - congruence.
    - exists jss. split; auto. congruence.
    - intros x is Hx. destruct (M1 x is Hx) as (N1 & N2 & N3). split; auto. split; auto. intros i Hi. apply N3 in Hi. lia.
    - eapply text_trans; [exact X1|]. split; auto. }
  destruct gate as [[] dim| | | | | |r c|]; try (destruct HG; fail).
  - destruct HG as [W1 W2]. destruct a as [|a0 a]; [cbn in La; lia|]. destruct b as [|b0 b]; [cbn in Lb; lia|].
    destruct (add_and (tb_circ s1) a0 b0 C1) as (c' & -> & K1 & K2 & K3 & K4 & K5 & K6); [apply Ba; cbn; auto|apply Bb; cbn; auto|].
    cbn [obind]. destruct (Htok c' K1 K4 K3 K2) as [T1 T2]. eexists _, _. split; [reflexivity|]. split; auto. split; auto. split; auto.
    exists TAnd2, p, q. split; auto. split; auto. split; [intros o [<-|[]]; auto|].
    cbn [tb_circ]. intros lam v Hv Hi. pose proof (Hi p _ Ea) as Ia. pose proof (Hi q _ Eb) as Ib. cbn [map] in *.
    rewrite (K6 v Hv), <- Ia, <- Ib. reflexivity.
  - destruct HG as (Hr & Hc & k & Hk & W1 & W2). rewrite W1 in La. rewrite W2 in Lb.
    rewrite (tb_pairs_ok r c k a b Hr Hc Hk La Lb). cbn [obind].
    set (l := map _ (seq 0 (r * c))).
    destruct (tb_dots_ok l (tb_circ s1)) as (c' & os & -> & K1 & K2 & K3 & K4 & K5 & K6); auto.
    { intros ab Hab. unfold l in Hab. apply in_map_iff in Hab. destruct Hab as (n & <- & _). destruct k; [lia|]. discriminate. }
    { intros ab x Hab Hx. unfold l in Hab. apply in_map_iff in Hab. destruct Hab as (n & <- & Hn). apply in_seq in Hn.
      apply in_map_iff in Hx. destruct Hx as (t & <- & Ht). apply in_seq in Ht. cbn [fst snd].
      pose proof (Nat.mod_upper_bound n c ltac:(lia)). pose proof (Nat.div_lt_upper_bound n c r ltac:(lia) ltac:(nia)).
      split; [apply Ba, nth_In; nia|apply Bb, nth_In; nia]. }
    cbn [obind]. destruct (Htok c' K1 K4 K3 K2) as [T1 T2]. eexists _, _. split; [reflexivity|]. split; auto. split; auto. split; auto.
    exists (TMatMult r c), p, q. split; auto. split; auto. split; [auto|].
    cbn [tb_circ]. intros lam v Hv Hi. pose proof (Hi p _ Ea) as Ia. pose proof (Hi q _ Eb) as Ib.
    rewrite (K6 v Hv). unfold l. rewrite map_map. cbn [tprod].
    assert (Lk : length (lam p) / r = k) by (rewrite <- Ia, map_length, La, Nat.mul_comm, Nat.div_mul; lia).
    rewrite Lk. apply map_ext_in. intros n Hn. apply in_seq in Hn. rewrite fold_left_map, fold_xor_sum, xorb_false_l.
    apply xor_sum_ext. intros t Ht. unfold pval. cbn [fst snd].
    pose proof (Nat.mod_upper_bound n c ltac:(lia)). pose proof (Nat.div_lt_upper_bound n c r ltac:(lia) ltac:(nia)).
    rewrite <- Ia, <- Ib. rewrite (nth_indep (map v a) false (v 0)), (nth_indep (map v b) false (v 0)) by (rewrite map_length; nia).
    rewrite !map_nth. reflexivity.
Qed.

Lemma tb_gates_ok ec gs : forall s, tok s -> (forall g, In g gs -> widths_ok ec g) ->
  exists s' oss, tb_gates w ec s gs = Some (s', oss) /\ tok s' /\ text s s' /\ Forall2 (tgate_ok ec s') gs oss /\
    (forall q, In q (tb_ins s') -> In q (tb_ins s) \/ exists g, In g gs /\ In q (ec_parents ec g)).
Proof.
  induction gs as [|g gs IH]; intros s H Hg; cbn [tb_gates].
  - exists s, []. split; auto. split; auto. split; [apply text_refl|]. split; auto.
  - destruct (tb_gate_ok ec s g H (Hg g (or_introl eq_refl))) as (s1 & os & -> & H1 & X1 & G1 & Q1). cbn [obind].
    destruct (IH s1 H1) as (s2 & oss & -> & H2 & X2 & G2 & Q2); [intros; apply Hg; cbn; auto|].
    cbn [obind]. eexists _, _. split; [reflexivity|]. split; auto. split; [eapply text_trans; eauto|]. split.
    + constructor; auto. eapply tgate_ok_ext; eauto.
    + intros q Hq. destruct (Q2 q Hq) as [Hq'|(x & X3 & X4)]; [|right; exists x; cbn; auto].
      destruct (Q1 q Hq') as [Hq''|Hq'']; auto. right. exists g. cbn; auto.
Qed.
End Build.

Lemma tb_parents_w w w' ps : forall s, (forall p, In p ps -> w p = w' p) -> tb_parents w s ps = tb_parents w' s ps.
Proof.
  induction ps as [|p ps IH]; intros s H; auto. cbn [tb_parents].
  assert (E : tb_parent w s p = tb_parent w' s p) by (unfold tb_parent; rewrite (H p) by (cbn; auto); reflexivity).
  rewrite E. destruct (tb_parent w' s p) as [[s1 is]|]; auto. cbn [obind]. rewrite IH; auto. intros; apply H; cbn; auto.
Qed.
Lemma tb_gates_w w w' ec gs : forall s, (forall g p, In g gs -> In p (ec_parents ec g) -> w p = w' p) -> tb_gates w ec s gs = tb_gates w' ec s gs.
Proof.
  induction gs as [|g gs IH]; intros s H; auto. cbn [tb_gates].
  assert (E : tb_gate w ec s g = tb_gate w' ec s g).
  { unfold tb_gate. destruct (ec_gate ec g); auto. cbn [obind]. rewrite (tb_parents_w w w'); auto. intros; eapply H; cbn; eauto. }
  rewrite E. destruct (tb_gate w' ec s g) as [[s1 o]|]; auto. cbn [obind]. rewrite IH; auto. intros; eapply H; cbn; eauto.
Qed.

(** Input bits group by group. *)
Lemma concat_groups {A} (f : gid -> list A) (v : nat -> A) ins : forall iss,
  Forall2 (fun p (is : list nat) => length is = length (f p)) ins iss -> map v (concat iss) = concat (map f ins) ->
  Forall2 (fun p is => map v is = f p) ins iss.
Proof.
  induction ins as [|p ins IH]; intros iss HF E; inversion HF as [|? is ? iss' L HF']; subst; constructor.
  - cbn in E. rewrite map_app in E.
    assert (E1 : firstn (length (f p)) (map v is ++ map v (concat iss')) = firstn (length (f p)) (f p ++ concat (map f ins))) by congruence.
    rewrite !firstn_app_exact in E1; auto. rewrite map_length. auto.
  - apply IH; auto. cbn in E. rewrite map_app in E.
    assert (E1 : skipn (length (f p)) (map v is ++ map v (concat iss')) = skipn (length (f p)) (f p ++ concat (map f ins))) by congruence.
    rewrite !skipn_app_exact in E1; auto. rewrite map_length. auto.
Qed.

(** The setup circuit for the widths [wd] of the private parts. *)
Lemma t_setup_circuit_ok junk ec go wd :
  (forall g, In g (t_int_iter ec) -> widths_ok (fun p => l <- t_private junk go p ;; Some (length l)) wd ec g) ->
  exists c ins iss, t_setup_circuit junk ec go = Some (c, ins, iss) /\ cok c /\ 
    c_outputs c = concat iss /\ length (c_inputs c) = sum_list (map wd ins) /\
    (forall p, In p ins -> exists g, In g (t_int_iter ec) /\ In p (ec_parents ec g)) /\
    forall lam v, tbval c v -> (forall p, In p ins -> length (lam p) = wd p) ->
      map v (c_inputs c) = concat (map lam ins) ->
      Forall2 (fun g is => exists gate p q, ec_gate ec g = Some gate /\ ec_parents ec g = [p; q] /\
                 map v is = tprod gate (lam p) (lam q)) (t_int_iter ec) iss.
Proof.
  intros Hg. unfold t_setup_circuit.
  set (w := fun p => l <- t_private junk go p ;; Some (length l)) in *.
  assert (H0 : tok wd (TB c_new_main [] [])).
  { split; cbn [tb_circ tb_map tb_ins].
    - apply cok_new.
    - reflexivity.
    - exists []. split; [constructor|reflexivity].
    - intros p is E. discriminate. }
  destruct (tb_gates_ok w wd ec (t_int_iter ec) _ H0 Hg) as (s & oss & E & H & X & G & Q). rewrite E. cbn [obind].
  destruct (sb_all_outputs_ok oss (tb_circ s) (tk_c _ _ H)) as (c & iss & -> & C & Xc & I & O & V).
  { intros os o Hos. clear - G Hos. induction G as [|g x gs xs (gate & p & q & _ & _ & B & _) G IH]; [destruct Hos|].
    destruct Hos as [<-|Hos]; auto. }
  cbn [obind]. exists c, (tb_ins s), iss. split; auto. split; auto. split; [rewrite O, (tk_out _ _ H); auto|].
  destruct (tk_ins _ _ H) as (jss & F & Ij).
  assert (FL : Forall2 (fun p (is : list nat) => length is = wd p) (tb_ins s) jss).
  { assert (M : forall p is, assoc gid_eqb p (tb_map s) = Some is -> length is = wd p) by (intros p is Hp; apply (tk_map _ _ H p is Hp)).
    clear - F M. induction F as [|p is ps iss E F IH]; constructor; auto. }
  split. { rewrite I, Ij. clear - FL. induction FL as [|p is ps jss E F IH]; auto. cbn [concat map]. rewrite app_length.
    rewrite IH, E. reflexivity. }
  split; [intros p Hp; destruct (Q p Hp) as [[]|Hq]; auto|].
  intros lam v Hv Hl Hi. pose proof (V v (proj1 Hv)) as HV. pose proof (tbval_ext _ _ _ Xc Hv) as Hvs.
  assert (Hin : tins_val s lam v).
  { rewrite I, Ij in Hi.
    assert (FV : Forall2 (fun p is => map v is = lam p) (tb_ins s) jss).
    { apply concat_groups; auto. clear - FL Hl. induction FL as [|p is ps jss E F IH]; constructor; auto.
      - rewrite E, Hl; cbn; auto.
      - apply IH. intros; apply Hl; cbn; auto. }
    intros p is Hp. destruct (tk_map _ _ H p is Hp) as (_ & Pin & _). clear - F FV Pin Hp.
    induction F as [|x is' ps jss E F IH]; [destruct Pin|]. inversion FV; subst. destruct Pin as [->|Pin]; auto. congruence. }
  clear - G HV Hvs Hin. revert iss HV. induction G as [|g os gs oss (gate & p & q & Eg & Ep & _ & W) G IH]; intros [|is iss] HV; try discriminate; constructor.
  - cbn in HV. injection HV as HV _. exists gate, p, q. split; auto. split; auto. rewrite HV. apply W; auto.
  - cbn in HV. injection HV as _ HV. apply IH; auto.
Qed.
