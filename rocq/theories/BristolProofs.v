(** Proofs about [from_bristol]. *)
From Coq Require Import List Bool Arith Lia.
Require Import Verif.Prelude Verif.PreludeProofs Verif.GateModel Verif.CircuitModel
  Verif.CircuitSpec Verif.CircuitProofs Verif.CircuitProofs2 Verif.CircuitProofs3
  Verif.BoolGmwModel Verif.BoolGmwSpec
  Verif.InlineModel Verif.InlineSpec Verif.InlineProofs Verif.BristolSpec.
Import ListNotations.

Definition bool_from_br : br_kind -> bool_gate := from_br_kind BAnd BXor BInv.

Definition set_edges {G} (c : circuit G) (es : list (nat * nat)) : circuit G :=
  Circ (c_gates c) es (c_is_main c) (c_simd c) (c_icount c) (c_inputs c) (c_outputs c)
       (c_consts c) (c_scouts c) (c_scins c).

Lemma add_wires_eq {G} id : forall from (c : circuit G),
  (forall f, In f from -> f < c_count c) -> id < c_count c ->
  ofold (fun c f => add_wire c f id) c from =
    Some (set_edges c (rev (map (fun f => (f, id)) from) ++ c_edges c)).
Proof.
  induction from as [|f r IH]; intros c Hf Hid.
  - simpl. destruct c; reflexivity.
  - cbn [ofold]. unfold add_wire at 1. assert (Hff : f < c_count c) by (apply Hf; simpl; auto).
    apply Nat.ltb_lt in Hff. pose proof Hid as Hid'. apply Nat.ltb_lt in Hid'. rewrite Hff, Hid'.
    cbn [andb obind]. rewrite IH.
    + unfold set_edges. simpl. rewrite <- app_assoc. reflexivity.
    + intros x Hx. unfold c_count. simpl. apply Hf. simpl; auto.
    + exact Hid.
Qed.

(** The circuit after adding gate [g] and wiring [from] in order. *)
Definition put_gate {P G} (ops : gate_ops P G) (c : circuit G) (g : G) (from : list nat) : circuit G :=
  let c1 := fst (add_gate ops c g) in
  set_edges c1 (rev (map (fun f => (f, c_count c)) from) ++ c_edges c).

Lemma put_gate_spec {P G} (ops : gate_ops P G) (c : circuit G) g from :
  api ops c -> (forall f, In f from -> f < c_count c) ->
  api ops (put_gate ops c g from) /\ c_gates (put_gate ops c g from) = c_gates c ++ [g] /\
  (forall x, parents (put_gate ops c g from) x = if x =? c_count c then rev from else parents c x).
Proof.
  intros Ha Hf. set (c1 := fst (add_gate ops c g)).
  assert (Hc1 : c_count c1 = S (c_count c)).
  { unfold c1, c_count. simpl. rewrite app_length. simpl. lia. }
  assert (E : ofold (fun c f => add_wire c f (c_count c1 - 1)) c1 from = Some (put_gate ops c g from)).
  { rewrite Hc1. replace (S (c_count c) - 1) with (c_count c) by lia.
    apply (add_wires_eq (c_count c) from c1); [intros f H; apply Hf in H; lia|lia]. }
  destruct (ofold_add_wire_api ops _ from c1 _ (api_gate ops c g Ha) E) as (A & B & _ & _).
  split; auto. split; auto. intros x. unfold parents, put_gate, set_edges. cbn [c_edges].
  rewrite filter_app, map_app, <- map_rev, filter_all_to. rewrite (Nat.eqb_sym x).
  destruct (Nat.eqb_spec (c_count c) x) as [<-|]; auto.
  pose proof (parents_fresh c (c_count c) (aw_range _ _ (api_api_wf ops c Ha)) (le_n _)) as Hfr.
  unfold parents in Hfr. rewrite Hfr, app_nil_r, map_map. simpl. apply map_id.
Qed.

Lemma br_wire_in_eq {G} wm id (phi : nat -> nat) : forall ins (c : circuit G),
  (forall w, In w ins -> nth_error wm w = Some (phi w) /\ phi w < c_count c) -> id < c_count c ->
  br_wire_in ins id wm c =
    Some (Some (set_edges c (rev (map (fun w => (phi w, id)) ins) ++ c_edges c))).
Proof.
  induction ins as [|w r IH]; intros c Hw Hid; simpl.
  - destruct c; reflexivity.
  - destruct (Hw w (in_eq _ _)) as [E Hl]. rewrite E. unfold add_wire.
    apply Nat.ltb_lt in Hl. pose proof Hid as Hid'. apply Nat.ltb_lt in Hid'. rewrite Hl, Hid'.
    cbn [andb obind]. rewrite IH.
    + unfold set_edges. simpl. rewrite <- app_assoc. reflexivity.
    + intros x Hx. apply Hw. simpl; auto.
    + exact Hid.
Qed.

Lemma br_map_out_spec id : forall outs wm,
  (forall w, In w outs -> w < length wm) ->
  exists wm', br_map_out outs id wm = Some wm' /\ length wm' = length wm /\
    (forall w, In w outs -> nth_error wm' w = Some id) /\
    (forall w, ~ In w outs -> nth_error wm' w = nth_error wm w).
Proof.
  induction outs as [|o r IH]; intros wm H.
  - exists wm. simpl. repeat split; auto. intros w [].
  - simpl. assert (Ho : o < length wm) by (apply H; simpl; auto).
    pose proof Ho as Hb. apply Nat.ltb_lt in Hb. rewrite Hb.
    destruct (IH (upd o id wm)) as (wm' & E & L & A & B).
    { intros w Hw. rewrite upd_length. apply H. simpl; auto. }
    exists wm'. rewrite upd_length in L. split; auto. split; auto. split.
    + intros w [->|Hw]; auto.
      destruct (in_dec Nat.eq_dec w r) as [Hin|Hni]; auto. rewrite B by auto.
      apply upd_nth_error_same; auto.
    + intros w Hw. simpl in Hw. rewrite B by tauto. apply upd_nth_error_other. tauto.
Qed.

(** ** The invariant *)

Definition in_ids {G} (l : load) (c : circuit G) : list nat :=
  match l with LoadCircuit => c_inputs c | LoadSub => c_scins c end.
Definition out_ids {G} (l : load) (c : circuit G) : list nat :=
  match l with LoadCircuit => c_outputs c | LoadSub => c_scouts c end.
Definition l_in (l : load) : bool_gate := BBase (load_in l).
Definition l_out (l : load) : bool_gate := BBase (load_out l).

(** Shape of the circuit built so far: [nin] input gates, then gates with their
    operands among earlier gates, then output gates. *)
Record br_shape (l : load) (nin : nat) (c : circuit bool_gate) : Prop := {
  bs_api : api bool_ops c;
  bs_main : c_is_main c = false;
  bs_simd : c_simd c = None;
  bs_in : in_ids l c = seq 0 nin;
  bs_nin : nin <= c_count c;
  bs_topo : forall p g, In p (parents c g) -> p < g;
  bs_gate : forall g x, nth_error (c_gates c) g = Some x ->
    (g < nin /\ x = l_in l /\ parents c g = []) \/
    (nin <= g /\ ((x = BAnd \/ x = BXor) /\ length (parents c g) = 2 \/
                  (x = BInv \/ x = l_out l) /\ length (parents c g) = 1)) }.

(** Extension by one gate. *)
Lemma shape_put l nin c g from :
  br_shape l nin c -> (forall f, In f from -> f < c_count c) ->
  (g = BAnd \/ g = BXor) /\ length from = 2 \/ (g = BInv \/ g = l_out l) /\ length from = 1 ->
  br_shape l nin (put_gate bool_ops c g from) /\
  (forall v, valued bool_ops bool_gate_sem (put_gate bool_ops c g from) v ->
     valued bool_ops bool_gate_sem c v /\
     bool_gate_sem g (rev (map v from)) = Some (v (c_count c))) /\
  out_ids l (put_gate bool_ops c g from) =
    out_ids l c ++ (match g with BBase _ => [c_count c] | _ => [] end).
Proof.
  intros HS Hf Hg. destruct HS as [A M Sm In_ N T K].
  destruct (put_gate_spec bool_ops c g from A Hf) as (A' & G' & P').
  assert (Hcnt : c_count (put_gate bool_ops c g from) = S (c_count c)).
  { unfold c_count. rewrite G', app_length. simpl. lia. }
  assert (Hgs : source_gate bool_ops g = false).
  { destruct Hg as [[[->| ->] _]|[[->| ->] _]]; auto. destruct l; auto. }
  split; [|split].
  - constructor; auto.
    + rewrite <- In_. destruct Hg as [[[->| ->] _]|[[->| ->] _]]; destruct l; reflexivity.
    + lia.
    + intros p h Hp. rewrite P' in Hp. destruct (Nat.eqb_spec h (c_count c)); auto.
      subst h. apply in_rev in Hp. auto.
    + intros h x Hx. rewrite G' in Hx. rewrite P'. destruct (Nat.eqb_spec h (c_count c)) as [->|Hne].
      * unfold c_count in Hx. rewrite nth_error_app2, Nat.sub_diag in Hx by auto. simpl in Hx.
        injection Hx as <-. rewrite rev_length. right. split; auto.
      * apply K. destruct (Nat.ltb_spec h (length (c_gates c))).
        -- rewrite nth_error_app1 in Hx; auto.
        -- rewrite nth_error_app2 in Hx by auto. unfold c_count in Hne.
           destruct (h - length (c_gates c)) as [|k] eqn:E; [lia|]. destruct k; discriminate.
  - intros v Hv. split.
    + intros h x Hx Hs. assert (Hh : h < c_count c) by (apply nth_error_Some; congruence).
      specialize (Hv h x). rewrite G', nth_error_app1 in Hv by auto. specialize (Hv Hx Hs).
      rewrite P' in Hv. destruct (Nat.eqb_spec h (c_count c)); [lia|]. auto.
    + specialize (Hv (c_count c) g). rewrite G' in Hv. unfold c_count in Hv at 1.
      rewrite nth_error_app2, Nat.sub_diag in Hv by auto. specialize (Hv eq_refl Hgs).
      rewrite P', Nat.eqb_refl, map_rev in Hv. auto.
  - destruct Hg as [[[->| ->] _]|[[->| ->] _]]; destruct l; simpl; rewrite ?app_nil_r; reflexivity.
Qed.

(** Input phase. *)
Lemma br_inputs_spec l : forall n i c wm,
  br_shape l i c -> c_count c = i -> i + n <= length wm ->
  (forall w, w < i -> nth_error wm w = Some w) -> out_ids l c = [] ->
  exists c' wm', br_inputs bool_ops l n i (c, wm) = (c', wm') /\
    br_shape l (i + n) c' /\ c_count c' = i + n /\ length wm' = length wm /\
    (forall w, w < i + n -> nth_error wm' w = Some w) /\ out_ids l c' = [].
Proof.
  induction n as [|n IH]; intros i c wm HS Hc Hl Hw Ho.
  - exists c, wm. simpl. rewrite Nat.add_0_r. auto 10.
  - cbn [br_inputs fst snd]. destruct (add_gate bool_ops c (g_wrap bool_ops (load_in l))) as [c1 id] eqn:E.
    assert (Ec : c1 = fst (add_gate bool_ops c (l_in l))) by (change (l_in l) with (g_wrap bool_ops (load_in l)); rewrite E; auto).
    assert (Ei : id = i) by (rewrite <- Hc; injection E; auto). subst id.
    destruct HS as [A M Sm In_ N T K].
    assert (Hc1 : c_count c1 = S i).
    { rewrite Ec. unfold c_count in *. simpl. rewrite app_length. simpl. lia. }
    destruct (IH (S i) c1 (upd i i wm)) as (c' & wm' & E' & S' & C' & L' & W' & O').
    + constructor.
      * rewrite Ec. apply api_gate; auto.
      * rewrite Ec. auto.
      * rewrite Ec. auto.
      * rewrite seq_S. simpl. rewrite <- In_, <- Hc, Ec. destruct l; reflexivity.
      * lia.
      * rewrite Ec. exact T.
      * intros g x Hx. rewrite Ec in Hx |- *. simpl in Hx. rewrite parents_add_gate.
        destruct (Nat.ltb_spec g (length (c_gates c))) as [Hg|Hg].
        -- rewrite nth_error_app1 in Hx by auto. unfold c_count in Hc.
           destruct (K g x Hx) as [(H1 & H2 & H3)|(H1 & _)]; [left; auto|lia].
        -- rewrite nth_error_app2 in Hx by auto. unfold c_count in Hc.
           destruct (g - length (c_gates c)) as [|k] eqn:Ek; [|destruct k; discriminate].
           simpl in Hx. injection Hx as <-. left. split; [lia|]. split; auto.
           apply parents_fresh; [apply (aw_range _ _ (api_api_wf bool_ops c A))|unfold c_count; lia].
    + auto.
    + rewrite upd_length. lia.
    + intros w Hlt. destruct (Nat.eq_dec w i) as [->|Hne].
      * apply upd_nth_error_same. lia.
      * rewrite upd_nth_error_other by auto. apply Hw. lia.
    + rewrite <- Ho, Ec. destruct l; simpl; rewrite ?app_nil_r; reflexivity.
    + rewrite upd_length in L'. exists c', wm'. replace (i + S n) with (S i + n) by lia. auto 10.
Qed.

(** Gate phase. *)
Definition tracks (c : circuit bool_gate) (l : load) (wm : list nat) (ins : list bool) (s : wire_store) : Prop :=
  (forall w b, s w = Some b -> exists m, nth_error wm w = Some m /\ m < c_count c) /\
  (forall v, valued bool_ops bool_gate_sem c v -> map v (in_ids l c) = ins ->
     forall w b m, s w = Some b -> nth_error wm w = Some m -> v m = b).

Lemma br_sem_len k xs b : br_sem k xs = Some b -> forall from : list nat, length from = length xs ->
  (bool_from_br k = BAnd \/ bool_from_br k = BXor) /\ length from = 2 \/
  (bool_from_br k = BInv \/ False) /\ length from = 1.
Proof.
  destruct k; destruct xs as [|x [|y [|]]]; simpl; intros H from Hl; try discriminate; auto.
Qed.

Lemma br_sem_rev k xs b : br_sem k xs = Some b -> bool_gate_sem (bool_from_br k) (rev xs) = Some b.
Proof.
  destruct k; destruct xs as [|x [|y [|]]]; simpl; intros H; try discriminate; auto.
  - rewrite andb_comm. auto.
  - rewrite xorb_comm. auto.
Qed.

Lemma omap_in {A B} (f : A -> option B) l xs : omap f l = Some xs -> forall a, In a l -> exists b, f a = Some b.
Proof.
  revert xs. induction l as [|a l IH]; simpl; intros xs H y Hy; [tauto|].
  destruct (f a) eqn:E; [|discriminate]. simpl in H. destruct (omap f l) eqn:E2; [|discriminate].
  destruct Hy as [->|Hy]; eauto.
Qed.

Lemma omap_map {A B} (f : A -> option B) (k : A -> B) l xs : omap f l = Some xs ->
  (forall a b, In a l -> f a = Some b -> k a = b) -> map k l = xs.
Proof.
  revert xs. induction l as [|a l IH]; simpl; intros xs H Hk; [congruence|].
  destruct (f a) eqn:E; [|discriminate]. simpl in H. destruct (omap f l) eqn:E2; [|discriminate].
  simpl in H. injection H as <-. f_equal; auto.
Qed.

Lemma br_gates_spec l nin ins : forall gs c wm s s',
  br_shape l nin c -> out_ids l c = [] -> tracks c l wm ins s ->
  Forall (fun g => Forall (fun w => w < length wm) (br_in g) /\
                   Forall (fun w => w < length wm) (br_out g)) gs ->
  Forall (fun g => forall w, In w (br_in g) -> ~ In w (br_out g)) gs ->
  br_run gs s = Some s' ->
  exists c' wm', br_gates_loop bool_ops bool_from_br gs c wm = Some (Some (c', wm')) /\
    br_shape l nin c' /\ out_ids l c' = [] /\ length wm' = length wm /\ tracks c' l wm' ins s'.
Proof.
  induction gs as [|g r IH]; intros c wm s s' HS Ho HT Hw Hn Hr.
  - simpl in Hr. injection Hr as <-. exists c, wm. simpl. auto.
  - cbn [br_run] in Hr. destruct (omap s (br_in g)) as [xs|] eqn:Ex; [|discriminate]. cbn [obind] in Hr.
    destruct (br_sem (br_op g) xs) as [b|] eqn:Eb; [|discriminate]. cbn [obind] in Hr.
    apply Forall_cons_iff in Hw. destruct Hw as [[Hw1 Hw2] Hw]. apply Forall_cons_iff in Hn. destruct Hn as [Hn1 Hn].
    rewrite Forall_forall in Hw1, Hw2.
    cbn [br_gates_loop]. destruct (add_gate bool_ops c (bool_from_br (br_op g))) as [c1 id] eqn:E1.
    assert (Ec : c1 = fst (add_gate bool_ops c (bool_from_br (br_op g)))) by (rewrite E1; auto).
    assert (Ei : id = c_count c) by (injection E1; auto). subst id.
    destruct (br_map_out_spec (c_count c) (br_out g) wm Hw2) as (wm1 & Em & Lm & Om & Nm).
    rewrite Em. destruct HT as [T1 T2].
    set (phi := fun w => nth w wm 0).
    assert (Hphi : forall w, In w (br_in g) -> nth_error wm1 w = Some (phi w) /\ phi w < c_count c).
    { intros w Hin. destruct (omap_in _ _ _ Ex w Hin) as (bb & Hb). destruct (T1 _ _ Hb) as (m & Hm & Hlt).
      rewrite Nm by (apply Hn1; auto). unfold phi. rewrite (nth_error_nth _ _ _ Hm). auto. }
    rewrite (br_wire_in_eq wm1 (c_count c) phi).
    2:{ intros w Hin. destruct (Hphi w Hin) as [H1 H2]. split; auto. rewrite Ec. unfold c_count in *. simpl.
        rewrite app_length. lia. }
    2:{ rewrite Ec. unfold c_count. simpl. rewrite app_length. simpl. lia. }
    cbn [obind].
    assert (Ep : set_edges c1 (rev (map (fun w => (phi w, c_count c)) (br_in g)) ++ c_edges c1) =
                 put_gate bool_ops c (bool_from_br (br_op g)) (map phi (br_in g))).
    { unfold put_gate. rewrite map_map, Ec. reflexivity. }
    rewrite Ep.
    assert (Hlen : length (map phi (br_in g)) = length xs).
    { rewrite map_length. symmetry. eapply omap_length; eauto. }
    assert (Hfrom : forall f, In f (map phi (br_in g)) -> f < c_count c).
    { intros f Hf. apply in_map_iff in Hf. destruct Hf as (w & <- & Hin). apply Hphi; auto. }
    destruct (shape_put l nin c (bool_from_br (br_op g)) (map phi (br_in g)) HS Hfrom) as (HS' & HV & HO).
    { destruct (br_sem_len _ _ _ Eb _ Hlen) as [H|[[H|[]] H2]]; auto. }
    assert (Hcnt : c_count (put_gate bool_ops c (bool_from_br (br_op g)) (map phi (br_in g))) = S (c_count c)).
    { unfold put_gate, set_edges, c_count. simpl. rewrite app_length. simpl. lia. }
    destruct (IH (put_gate bool_ops c (bool_from_br (br_op g)) (map phi (br_in g))) wm1
                 (br_write (br_out g) b s) s') as (c' & wm' & E' & S' & O' & L' & T').
    + auto.
    + rewrite HO, Ho. destruct (br_op g); reflexivity.
    + split.
      * intros w bb Hbb. unfold br_write in Hbb. rewrite Hcnt.
        destruct (existsb (Nat.eqb w) (br_out g)) eqn:Ew.
        -- apply existsb_exists in Ew. destruct Ew as (y & Hy & Eq). apply Nat.eqb_eq in Eq. subst y.
           exists (c_count c). rewrite Om by auto. split; auto.
        -- assert (Hni : ~ In w (br_out g)).
           { intros Hin. assert (existsb (Nat.eqb w) (br_out g) = true); [|congruence].
             apply existsb_exists. exists w. split; auto. apply Nat.eqb_refl. }
           destruct (T1 _ _ Hbb) as (m & Hm & Hlt). exists m. rewrite Nm by auto. split; auto.
      * intros v Hv Hin w bb m Hbb Hm. destruct (HV v Hv) as [Hvc Hsem].
        assert (Hin' : map v (in_ids l c) = ins).
        { rewrite <- Hin. f_equal. rewrite (bs_in _ _ _ HS), (bs_in _ _ _ HS'). auto. }
        unfold br_write in Hbb. destruct (existsb (Nat.eqb w) (br_out g)) eqn:Ew.
        -- injection Hbb as <-. apply existsb_exists in Ew. destruct Ew as (y & Hy & Eq). apply Nat.eqb_eq in Eq. subst y.
           rewrite Om in Hm by auto. injection Hm as <-.
           assert (Exs : map v (map phi (br_in g)) = xs).
           { rewrite map_map. apply (omap_map _ _ _ _ Ex). intros a bb Ha Hb.
             destruct (T1 _ _ Hb) as (m & Hm & _). unfold phi. rewrite (nth_error_nth _ _ _ Hm).
             apply (T2 v Hvc Hin' a bb m Hb Hm). }
           rewrite Exs, (br_sem_rev _ _ _ Eb) in Hsem. congruence.
        -- assert (Hni : ~ In w (br_out g)).
           { intros Hin2. assert (existsb (Nat.eqb w) (br_out g) = true); [|congruence].
             apply existsb_exists. exists w. split; auto. apply Nat.eqb_refl. }
           rewrite Nm in Hm by auto. apply (T2 v Hvc Hin' w bb m Hbb Hm).
    + rewrite Lm. auto.
    + auto.
    + auto.
    + exists c', wm'. rewrite Lm in L'. auto.
Qed.

(** Output phase. *)
Lemma br_outputs_spec l nin : forall ws c,
  br_shape l nin c -> (forall w, In w ws -> w < c_count c) ->
  exists c', br_outputs bool_ops l ws c = Some c' /\ br_shape l nin c' /\
    out_ids l c' = out_ids l c ++ seq (c_count c) (length ws) /\
    (forall v, valued bool_ops bool_gate_sem c' v ->
       valued bool_ops bool_gate_sem c v /\ map v (seq (c_count c) (length ws)) = map v ws).
Proof.
  induction ws as [|w r IH]; intros c HS Hw.
  - exists c. simpl. rewrite app_nil_r. auto.
  - cbn [br_outputs]. destruct (add_gate bool_ops c (g_wrap bool_ops (load_out l))) as [c1 id] eqn:E1.
    assert (Ec : c1 = fst (add_gate bool_ops c (l_out l))) by (change (l_out l) with (g_wrap bool_ops (load_out l)); rewrite E1; auto).
    assert (Ei : id = c_count c) by (injection E1; auto). subst id.
    assert (Hc1 : c_count c1 = S (c_count c)).
    { rewrite Ec. unfold c_count. simpl. rewrite app_length. simpl. lia. }
    assert (Hww : w < c_count c) by (apply Hw; simpl; auto).
    assert (Eq : add_wire c1 w (c_count c) = Some (put_gate bool_ops c (l_out l) [w])).
    { unfold add_wire. rewrite Hc1. destruct (Nat.ltb_spec w (S (c_count c))); [|lia].
      destruct (Nat.ltb_spec (c_count c) (S (c_count c))); [|lia]. simpl. rewrite Ec. reflexivity. }
    rewrite Eq. cbn [obind].
    destruct (shape_put l nin c (l_out l) [w] HS) as (HS' & HV & HO).
    { intros f [<-|[]]. auto. }
    { right. simpl. auto. }
    assert (Hcnt : c_count (put_gate bool_ops c (l_out l) [w]) = S (c_count c)).
    { unfold put_gate, set_edges, c_count. simpl. rewrite app_length. simpl. lia. }
    destruct (IH _ HS') as (c' & E' & S' & O' & V').
    { intros x Hx. rewrite Hcnt. assert (x < c_count c) by (apply Hw; simpl; auto). lia. }
    exists c'. split; auto. split; auto. rewrite Hcnt in O', V'. split.
    + rewrite O', HO. unfold l_out. rewrite <- app_assoc. reflexivity.
    + intros v Hv. destruct (V' v Hv) as [V1 V2]. destruct (HV v V1) as [V3 V4]. split; auto.
      simpl. f_equal; auto. destruct l; simpl in V4; congruence.
Qed.

(** The whole conversion. *)
Lemma from_bristol_spec b l ins outs :
  br_header_ok b -> br_wires_ok b -> br_no_self b ->
  length ins = br_total_in b -> br_eval b ins = Some outs ->
  exists c, from_bristol bool_ops bool_from_br b l = Some (Some c) /\
    br_shape l (br_total_in b) c /\ length (out_ids l c) = br_total_out b /\
    (forall v, valued bool_ops bool_gate_sem c v -> map v (in_ids l c) = ins ->
       map v (out_ids l c) = outs).
Proof.
  intros [H1 H2] Hw Hn Hlen He. unfold from_bristol.
  pose proof H1 as H1b. apply Nat.leb_le in H1b. rewrite H1b. cbn [oassert obind].
  destruct (br_inputs_spec l (br_total_in b) 0 c_new (repeat 0 (bh_wires (bc_header b))))
    as (c0 & wm0 & E0 & S0 & C0 & L0 & W0 & O0).
  { constructor.
    - apply api_new.
    - reflexivity.
    - reflexivity.
    - destruct l; reflexivity.
    - apply le_n.
    - intros p g [].
    - intros [|g] x; discriminate. }
  { reflexivity. }
  { rewrite repeat_length. auto. }
  { intros w Hlt. lia. }
  { destruct l; reflexivity. }
  rewrite E0. simpl in S0, C0, W0. rewrite repeat_length in L0.
  unfold br_eval in He. destruct (br_run (bc_gates b) (fun w => nth_error ins w)) as [s'|] eqn:Er; [|discriminate].
  cbn [obind] in He.
  destruct (br_gates_spec l (br_total_in b) ins (bc_gates b) c0 wm0 (fun w => nth_error ins w) s')
    as (c1 & wm1 & E1 & S1 & O1 & L1 & T1); auto.
  { split.
    - intros w bb Hb. assert (Hlt : w < length ins) by (apply nth_error_Some; congruence).
      exists w. split; [apply W0; lia|]. lia.
    - intros v Hv Hin w bb m Hb Hm. assert (Hlt : w < length ins) by (apply nth_error_Some; congruence).
      rewrite W0 in Hm by lia. injection Hm as <-. rewrite (bs_in _ _ _ S0) in Hin.
      rewrite <- Hin in Hb. rewrite nth_error_map in Hb.
      rewrite (nth_error_nth' _ 0) in Hb by (rewrite seq_length; lia). rewrite seq_nth in Hb by lia.
      simpl in Hb. congruence. }
  { rewrite L0. exact Hw. }
  rewrite E1. cbn [obind].
  pose proof H2 as H2b. apply Nat.leb_le in H2b. rewrite H2b. cbn [oassert obind].
  destruct T1 as [T1 T2].
  assert (Ews : skipn (bh_wires (bc_header b) - br_total_out b) wm1 =
                map (fun w => nth w wm1 0) (seq (bh_wires (bc_header b) - br_total_out b) (br_total_out b))).
  { apply (list_ext 0).
    - rewrite skipn_length, map_length, seq_length. lia.
    - intros i Hi. rewrite skipn_length in Hi. rewrite nth_skipn.
      rewrite (nth_indep (map _ _) 0 (nth 0 wm1 0)) by (rewrite map_length, seq_length; lia).
      rewrite (map_nth (fun w => nth w wm1 0)). rewrite seq_nth by lia. auto. }
  destruct (br_outputs_spec l (br_total_in b) (skipn (bh_wires (bc_header b) - br_total_out b) wm1) c1 S1)
    as (c2 & E2 & S2 & O2 & V2).
  { rewrite Ews. intros w Hin. apply in_map_iff in Hin. destruct Hin as (a & <- & Ha).
    destruct (omap_in _ _ _ He a Ha) as (bb & Hb). destruct (T1 _ _ Hb) as (m & Hm & Hlt).
    rewrite (nth_error_nth _ _ _ Hm). auto. }
  rewrite E2. cbn [obind]. exists c2. split; auto. split; auto.
  rewrite O1 in O2. simpl in O2. split.
  - rewrite O2, seq_length, skipn_length. lia.
  - intros v Hv Hin. destruct (V2 v Hv) as [V3 V4]. rewrite O2, V4, Ews, map_map.
    apply (omap_map _ _ _ _ He). intros a bb Ha Hb. destruct (T1 _ _ Hb) as (m & Hm & _).
    rewrite (nth_error_nth _ _ _ Hm). apply (T2 v V3) with (w := a); auto.
    rewrite <- Hin. f_equal. rewrite (bs_in _ _ _ S1), (bs_in _ _ _ S2). auto.
Qed.
