(** From circuits to executions: the layers of a circuit are a valid schedule,
    plaintext values exist and are unique. *)
From Coq Require Import List Bool Arith Lia Permutation.
Require Import Verif.Prelude Verif.PreludeProofs Verif.BitVecModel Verif.BitVecSpec
  Verif.BitVecProofs Verif.GateModel Verif.ProtocolModel Verif.BoolGmwModel Verif.BoolGmwSpec
  Verif.BoolGmwProofs Verif.BoolGmwProofs2
  Verif.CircuitModel Verif.CircuitSpec Verif.CircuitProofs Verif.CircuitProofs2 Verif.CircuitProofs3
  Verif.ExecModel Verif.ExecSpec Verif.ExecProofs Verif.ExecBoolSpec Verif.ExecBoolProofs
  Verif.ExecCircuitSpec.
Import ListNotations.

(** ** Layers of one circuit *)

Definition wrap1 (simd : option nat) (l : blayer) : elayer := [(0, simd, l)].

Lemma wrap1_ni s l : el_ni (wrap1 s l) = map (pair 0) (bl_ni l).
Proof. unfold el_ni, wrap1. simpl. apply app_nil_r. Qed.
Lemma wrap1_int s l : el_int (wrap1 s l) = map (pair 0) (bl_int l).
Proof. unfold el_int, wrap1. simpl. apply app_nil_r. Qed.
Lemma wrap1_freed s l (f : gid) : In f (freed (wrap1 s l)) ->
  exists n x, s = Some n /\ f = (0, x) /\ In x (bl_free l).
Proof.
  unfold freed. destruct (el_int_count (wrap1 s l) =? 0); [intros []|].
  unfold wrap1, el_simd, el_free. destruct s as [n|]; simpl; [|intros []].
  rewrite app_nil_r. intros H. apply in_map_iff in H. destruct H as (x & <- & H). eauto.
Qed.

Lemma in_pair0 (x : nat) (l : list nat) : In (0, x) (map (pair 0) l) <-> In x l.
Proof.
  rewrite in_map_iff. split.
  - intros (y & E & H). injection E as <-. auto.
  - intros H. exists x. auto.
Qed.

Lemma map_pair0_split (l : list nat) : forall l1 g l2, map (pair 0) l = l1 ++ g :: l2 ->
  exists m1 x m2, l = m1 ++ x :: m2 /\ l1 = map (pair 0) m1 /\ g = (0, x).
Proof.
  induction l as [|a l IH]; intros [|b l1] g l2 H; simpl in H; try discriminate.
  - injection H as <- _. exists [], a, l. auto.
  - injection H as <- H. destruct (IH _ _ _ H) as (m1 & x & m2 & -> & -> & ->).
    exists (a :: m1), x, m2. auto.
Qed.

Section Base.
Context {P G : Type}.
Variable ops : gate_ops P G.
Variable c : circuit G.

Definition ec_base (ls : list blayer) : ecirc G :=
  EC (fun g => if fst g =? 0 then nth_error (c_gates c) (snd g) else None)
     (fun g => map (pair 0) (parents c (snd g)))
     (map (wrap1 (c_simd c)) ls) (fun _ => c_simd c) (c_inputs c) (c_outputs c)
     [(c_count c, c_simd c)].

Lemma ec_of_base_eq ls : c_layers ops c = Some ls -> ec_of_base ops c = Some (ec_base ls).
Proof. intros E. unfold ec_of_base. rewrite E. reflexivity. Qed.

Lemma is_int_gate g b : g < c_count c -> is_int ops c g = b ->
  exists x, nth_error (c_gates c) g = Some x /\ g_inter ops x = b.
Proof.
  unfold is_int. intros Hg Hb. destruct (nth_error (c_gates c) g) eqn:E; eauto.
  apply nth_error_None in E. unfold c_count in *. lia.
Qed.

Lemma base_sched_aux ls0 : forall ls P0 (Live Todo : gid -> Prop),
  Sched ops c P0 ls -> NoDup (P0 ++ all_ids ls) ->
  (forall x, In x (P0 ++ all_ids ls) -> x < c_count c) ->
  (forall x, In x P0 -> (c_simd c = None \/ children c x = [] \/ exists h, In h (children c x) /\ ~ In h P0) ->
     Live (0, x)) ->
  (forall x, In x (all_ids ls) -> Todo (0, x)) ->
  (forall x, In x P0 -> ~ Todo (0, x)) ->
  (forall o, In o (c_outputs c) -> In o (P0 ++ all_ids ls) /\ (c_simd c = None \/ children c o = [])) ->
  c_simd c <> Some 0 ->
  sched_ok ops (ec_base ls0) Live Todo (map (wrap1 (c_simd c)) ls).
Proof.
  induction ls as [|l ls IH]; intros P0 Live Todo HS HN HR HL HT HP HO Hs.
  - simpl. intros o Ho. destruct (HO o Ho) as [A B]. rewrite app_nil_r in A. apply HL; tauto.
  - cbn [map sched_ok]. destruct HS as ([R1 R2 R3 R4] & HF & _ & HS).
    change (all_ids (l :: ls)) with (bl_ids l ++ all_ids ls) in *.
    assert (HN1 : NoDup (P0 ++ bl_ids l)).
    { rewrite app_assoc in HN. eapply NoDup_app_l; eauto. }
    assert (Hnew : forall x, In x (bl_ids l) -> ~ In x P0).
    { intros x Hx Hx'. eapply NoDup_app_disj; eauto. }
    assert (Hni : forall x, In x (bl_ni l) -> In x (bl_ids l)) by (intros; apply in_or_app; auto).
    assert (Hit : forall x, In x (bl_int l) -> In x (bl_ids l)) by (intros; apply in_or_app; auto).
    assert (HL' : forall p x, In p (parents c x) -> In x (bl_ids l) -> In p P0 -> Live (0, p)).
    { intros p x Hp Hx Hin. apply HL; auto. right. right. exists x.
      split; [apply parents_children; auto|auto]. }
    assert (Hcnt : forall x, In x (P0 ++ bl_ids l) -> x < c_count c).
    { intros x Hx. apply HR. rewrite app_assoc. apply in_or_app. auto. }
    split.
    + constructor.
      * intros sc simd b [E|[]]. injection E as <- <- <-. auto.
      * intros l1 g l2 E. rewrite wrap1_ni in E.
        destruct (map_pair0_split _ _ _ _ E) as (m1 & x & m2 & E' & -> & ->).
        assert (Hx : In x (bl_ni l)) by (rewrite E'; apply in_or_app; simpl; auto).
        split; [|split; [|split]].
        -- simpl. apply is_int_gate; auto. apply Hcnt. apply in_or_app; auto.
        -- apply HT. apply in_or_app; auto.
        -- rewrite in_pair0. intros Hm. unfold bl_ids in HN1. rewrite E' in HN1.
           apply NoDup_app_r in HN1. rewrite <- app_assoc in HN1.
           eapply (NoDup_app_disj m1); [exact HN1|exact Hm|simpl; auto].
        -- intros p Hp. cbn [ec_base ec_parents snd] in Hp. apply in_map_iff in Hp.
           destruct Hp as (y & <- & Hy). rewrite in_pair0.
           destruct (in_app_or _ _ _ (R1 _ _ _ E' y Hy)) as [H|H]; auto.
           left. eapply HL'; eauto.
      * rewrite wrap1_int. apply FinFun.Injective_map_NoDup; [intros a b E; congruence|].
        unfold bl_ids in HN1. apply NoDup_app_r in HN1. apply NoDup_app_r in HN1. auto.
      * intros g Hg. rewrite wrap1_int in Hg. apply in_map_iff in Hg. destruct Hg as (x & <- & Hx).
        rewrite wrap1_ni, in_pair0.
        split; [|split; [|split]].
        -- simpl. apply is_int_gate; auto. apply Hcnt. apply in_or_app; auto.
        -- apply HT. apply in_or_app; auto.
        -- intros Hm. unfold bl_ids in HN1. apply NoDup_app_r in HN1. eapply NoDup_app_disj; eauto.
        -- intros p Hp. cbn [ec_base ec_parents snd] in Hp. apply in_map_iff in Hp.
           destruct Hp as (y & <- & Hy). rewrite in_pair0.
           destruct (in_app_or _ _ _ (R2 _ Hx y Hy)) as [H|H]; auto.
           left. eapply HL'; eauto.
      * intros f Hf. destruct (wrap1_freed _ _ _ Hf) as (n & x & _ & -> & Hx).
        destruct (HF _ Hx) as (A & _). rewrite wrap1_ni, in_pair0. split.
        -- simpl. destruct (nth_error (c_gates c) x) eqn:E; eauto. apply nth_error_None in E.
           assert (x < c_count c); [|unfold c_count in *; lia].
           apply Hcnt. apply in_app_or in A. apply in_or_app. destruct A; auto.
        -- apply in_app_or in A. destruct A as [A|A]; auto.
    + apply (IH (P0 ++ bl_ids l)); auto.
      * rewrite <- app_assoc. auto.
      * intros x Hx. apply HR. rewrite <- app_assoc in Hx. auto.
      * intros x Hx Hc. unfold live_after. rewrite wrap1_ni, wrap1_int, !in_pair0.
        assert (Hfr : ~ In (0, x) (freed (wrap1 (c_simd c) l))).
        { intros Hf. destruct (wrap1_freed _ _ _ Hf) as (n & y & En & E & Hy).
          injection E as <-. destruct (HF _ Hy) as (_ & B & h & C & D).
          destruct Hc as [Hc|[Hc|(h' & Hc & Hc')]]; [congruence| |apply Hc'; auto].
          rewrite Hc in C. destruct C. }
        apply in_app_or in Hx. destruct Hx as [Hx|Hx].
        -- left. split; auto. left. apply HL; auto.
           destruct Hc as [Hc|[Hc|(h' & Hc & Hc')]]; auto. right. right. exists h'. split; auto.
           intros H. apply Hc'. apply in_or_app; auto.
        -- apply in_app_or in Hx. tauto.
      * intros x Hx. unfold todo_after. rewrite wrap1_ni, wrap1_int, !in_pair0.
        split; [apply HT; apply in_or_app; auto|].
        assert (~ In x (bl_ids l)).
        { intros H. rewrite app_assoc in HN. eapply (NoDup_app_disj (P0 ++ bl_ids l)); eauto.
          apply in_or_app; auto. }
        split; auto.
      * intros x Hx (A & B & C). rewrite wrap1_ni, wrap1_int, !in_pair0 in *.
        apply in_app_or in Hx. destruct Hx as [Hx|Hx]; [apply (HP x); auto|].
        apply in_app_or in Hx. tauto.
      * intros o Ho. rewrite <- app_assoc. auto.
Qed.

Lemma base_sched :
  main_ok ops c -> c_simd c <> Some 0 ->
  (c_simd c = None \/ forall o, In o (c_outputs c) -> children c o = []) ->
  exists ls, c_layers ops c = Some ls /\ ec_of_base ops c = Some (ec_base ls) /\
    Permutation (all_ids ls) (seq 0 (c_count c)) /\ Sched ops c [] ls /\
    sched_ok ops (ec_base ls) (fun _ => False) (fun g => fst g = 0) (ec_layers (ec_base ls)).
Proof.
  intros Hm Hs Ho. destruct (main_layers ops c Hm) as (ls & A & B & C & _).
  exists ls. split; auto. split; [apply ec_of_base_eq; auto|]. split; auto. split; auto.
  apply (base_sched_aux ls ls []); [exact B|..|exact Hs].
  - simpl. apply (Permutation_NoDup (Permutation_sym C)). apply seq_NoDup.
  - simpl. intros x Hx. apply (Permutation_in _ C) in Hx. apply in_seq in Hx. lia.
  - intros x [].
  - intros x _. reflexivity.
  - intros x [].
  - intros o Hin. split.
    + simpl. apply (Permutation_in _ (Permutation_sym C)). apply in_seq.
      destruct Hm as (Ha & _). apply api_api_wf in Ha. rewrite (aw_outputs _ _ Ha) in Hin.
      apply ids_where_In in Hin. destruct Hin as (x & E & _).
      assert (o < length (c_gates c)) by (apply nth_error_Some; congruence).
      unfold c_count. lia.
    + destruct Ho as [Ho|Ho]; auto.
Qed.

(** The total of all requests is the reported count. *)
Lemma requests_base ls :
  sum_list (requests (ec_base ls)) =
  (match c_simd c with Some n => n | None => 1 end) * length (concat (map bl_int ls)).
Proof.
  unfold requests, ec_base. cbn [ec_layers].
  assert (F : forall l, sum_list (filter (fun n => negb (n =? 0)) l) = sum_list l).
  { induction l as [|a l IH]; auto. cbn [filter]. destruct (Nat.eqb_spec a 0) as [->|]; simpl;
      unfold sum_list in *; simpl; rewrite IH; auto. }
  rewrite F. induction ls as [|l ls IH]; [simpl; unfold sum_list; simpl; lia|].
  cbn [map concat]. change (sum_list (?a :: ?b)) with (a + sum_list b). rewrite IH, app_length.
  unfold el_int_count, wrap1. simpl. lia.
Qed.

Lemma count_int : forall ls P0, Sched ops c P0 ls ->
  length (concat (map bl_int ls)) = length (filter (is_int ops c) (all_ids ls)).
Proof.
  induction ls as [|l ls IH]; intros P0 HS; auto.
  destruct HS as ([_ _ R3 R4] & _ & _ & HS). cbn [map concat].
  change (all_ids (l :: ls)) with (bl_ids l ++ all_ids ls).
  rewrite app_length, (IH _ HS). unfold bl_ids. rewrite !filter_app, !app_length.
  assert (E1 : filter (is_int ops c) (bl_ni l) = []).
  { clear - R3. induction (bl_ni l) as [|a r IH]; auto. simpl. rewrite (R3 a) by (simpl; auto).
    apply IH. intros; apply R3; simpl; auto. }
  assert (E2 : filter (is_int ops c) (bl_int l) = bl_int l).
  { clear - R4. induction (bl_int l) as [|a r IH]; auto. simpl. rewrite (R4 a) by (simpl; auto).
    f_equal. apply IH. intros; apply R4; simpl; auto. }
  rewrite E1, E2. simpl. lia.
Qed.

Lemma filter_perm_length {A} (f : A -> bool) a b : Permutation a b ->
  length (filter f a) = length (filter f b).
Proof.
  induction 1; simpl; auto.
  - destruct (f x); simpl; auto.
  - destruct (f x), (f y); simpl; auto.
  - congruence.
Qed.

Lemma filter_int_seq : length (filter (is_int ops c) (seq 0 (c_count c))) =
  length (filter (g_inter ops) (c_gates c)).
Proof.
  assert (H : forall n gs, (forall i, nth_error gs i = nth_error (c_gates c) (n + i)) ->
     length (filter (is_int ops c) (seq n (length gs))) = length (filter (g_inter ops) gs)).
  { intros n gs. revert n. induction gs as [|g gs IH]; intros n H; auto.
    cbn [seq length filter]. pose proof (H 0) as H0. rewrite Nat.add_0_r in H0. simpl in H0.
    unfold is_int at 1. rewrite <- H0.
    assert (IH' : length (filter (is_int ops c) (seq (S n) (length gs))) = length (filter (g_inter ops) gs)).
    { apply IH. intros i. specialize (H (S i)). simpl in H. rewrite H. f_equal. lia. }
    destruct (g_inter ops g); simpl; rewrite IH'; auto. }
  apply (H 0). intros; auto.
Qed.

Lemma requests_total ls : main_ok ops c -> Sched ops c [] ls ->
  Permutation (all_ids ls) (seq 0 (c_count c)) ->
  sum_list (requests (ec_base ls)) =
  c_icount c * (match c_simd c with Some n => n | None => 1 end).
Proof.
  intros (Ha & _) HS HP. rewrite requests_base, (count_int ls [] HS),
    (filter_perm_length _ _ _ HP), filter_int_seq.
  apply api_api_wf in Ha. rewrite (aw_icount _ _ Ha). lia.
Qed.
End Base.

(** ** Boolean circuits *)

Section BaseBool.
Variable c : circuit bool_gate.
Hypothesis Hm : main_ok bool_ops c.

Lemma base_root g gate : nth_error (c_gates c) g = Some gate ->
  (gate = BBase GInput \/ exists b, gate = BBase (GConstant b)) -> parents c g = [].
Proof.
  intros E H. destruct Hm as (_ & _ & Hr). apply (Hr _ _ E).
  destruct H as [->|(b & ->)]; reflexivity.
Qed.

Lemma base_typed ls : operands_ok c -> typed (ec_base c ls).
Proof.
  intros Ho [sc g] gate E. cbn [ec_base ec_gate fst snd] in E.
  destruct (Nat.eqb_spec sc 0) as [->|]; [|discriminate].
  pose proof (Ho _ _ E) as HO. unfold gate_typed. cbn [ec_base ec_parents ec_simd fst snd].
  assert (F : Forall (fun p : gid => c_simd c = c_simd c) (map (pair 0) (parents c g)))
    by (apply Forall_forall; auto).
  assert (FN : c_simd c = None -> Forall (fun p : gid => c_simd c = None) (map (pair 0) (parents c g)))
    by (intros; apply Forall_forall; auto).
  destruct gate as [[]| | |]; rewrite ?map_length in *; auto.
  - split; auto. erewrite base_root; eauto.
  - destruct (c_simd c); auto.
  - destruct HO.
  - erewrite base_root; eauto.
Qed.

Lemma base_inputs_nodup : NoDup (c_inputs c).
Proof.
  destruct Hm as (Ha & _). apply api_api_wf in Ha. rewrite (aw_inputs _ _ Ha).
  unfold ids_where. apply NoDup_filter. apply seq_NoDup.
Qed.

Lemma base_valuation ls ins v : operands_ok c -> plain_value c ins v ->
  valuation (ec_base c ls) ins (fun g => v (snd g)).
Proof.
  intros Ho Hv [sc g] gate E. cbn [ec_base ec_gate fst snd] in E.
  destruct (Nat.eqb_spec sc 0) as [->|]; [|discriminate].
  pose proof (Ho _ _ E) as HO. pose proof (Hv _ _ E) as HV.
  unfold gate_eq. cbn [ec_base ec_parents ec_simd ec_inputs fst snd].
  unfold lanes. cbn [ec_base ec_simd fst snd]. fold (c_lanes c).
  destruct HV as [HL HV].
  assert (M : forall i, map (fun p : gid => nth i (v (snd p)) false) (map (pair 0) (parents c g)) =
              map (fun p => nth i (v p) false) (parents c g)) by (intros; rewrite map_map; auto).
  assert (K : (forall i, i < c_lanes c ->
      bool_gate_sem gate (map (fun p => nth i (v p) false) (parents c g)) = Some (nth i (v g) false)) ->
    length (v g) = c_lanes c /\
    (forall i, i < c_lanes c ->
      bool_gate_sem gate (map (fun p : gid => nth i (v (snd p)) false) (map (pair 0) (parents c g))) = Some (nth i (v g) false))).
  { intros B. split; auto. intros i Hi. rewrite M. auto. }
  destruct gate as [[| | | | | | |k|]| | |]; auto; try contradiction.
  - (* ScInput with one operand of the same circuit *)
    destruct (parents c g) as [|p [|]] eqn:Ep; simpl in HO; try lia.
    assert (Hex : exists p0, map (pair 0) [p] = [p0] /\ v g = v (snd p0)).
    { exists (0, p). split; auto. simpl.
      assert (Hlen : length (v p) = c_lanes c).
      { destruct (nth_error (c_gates c) p) as [gp|] eqn:Eg; [apply (Hv _ _ Eg)|].
        exfalso. destruct Hm as (Ha & _). apply api_api_wf in Ha. apply nth_error_None in Eg.
        assert (Hin : In p (parents c g)) by (rewrite Ep; simpl; auto).
        apply (in_range_parents c p g (aw_range _ _ Ha)) in Hin. unfold c_count in Hin. lia. }
      apply (list_ext false); [congruence|]. intros i Hi. rewrite HL in Hi. specialize (HV i Hi).
      simpl in HV. congruence. }
    destruct (c_simd c); auto.
  - apply (list_ext false); rewrite ?repeat_length; auto. intros i Hi. rewrite HL in Hi.
    specialize (HV i Hi). simpl in HV. rewrite (nth_indep (repeat k _) false k) by (rewrite repeat_length; auto).
    rewrite nth_repeat_any. congruence.
Qed.

(** Plaintext values exist for all inputs and are unique. *)
Lemma plain_value_unique ins v v' : NoDup (c_inputs c) ->
  plain_value c ins v -> plain_value c ins v' -> forall g, g < c_count c -> v g = v' g.
Proof.
  intros Hnd Hv Hv'. destruct Hm as (Ha & (rank & Hrank) & _). apply api_api_wf in Ha.
  assert (H : forall n g, rank g < n -> g < c_count c -> v g = v' g).
  { induction n as [|n IH]; intros g Hn Hg; [lia|].
    destruct (nth_error (c_gates c) g) as [gate|] eqn:E;
      [|apply nth_error_None in E; unfold c_count in Hg; lia].
    destruct (Hv _ _ E) as [L A]. destruct (Hv' _ _ E) as [L' A'].
    assert (Hp : forall p, In p (parents c g) -> v p = v' p).
    { intros p Hp. apply IH; [specialize (Hrank _ _ Hp); lia|].
      apply (in_range_parents c p g (aw_range _ _ Ha)); auto. }
    assert (Hmap : forall i, map (fun p => nth i (v p) false) (parents c g) =
                             map (fun p => nth i (v' p) false) (parents c g)).
    { intros i. apply map_ext_in. intros p Hin. rewrite Hp; auto. }
    assert (Hgen : (forall i, i < c_lanes c ->
        bool_gate_sem gate (map (fun p => nth i (v p) false) (parents c g)) = Some (nth i (v g) false)) ->
      (forall i, i < c_lanes c ->
        bool_gate_sem gate (map (fun p => nth i (v' p) false) (parents c g)) = Some (nth i (v' g) false)) ->
      v g = v' g).
    { intros B B'. apply (list_ext false); [congruence|]. intros i Hi. rewrite L in Hi.
      specialize (B i Hi). specialize (B' i Hi). rewrite Hmap in B. congruence. }
    destruct gate as [[]| | |]; auto.
    destruct A as (i & I1 & I2), A' as (j & J1 & J2).
    assert (i = j); [|subst; congruence].
    apply (proj1 (NoDup_nth_error (c_inputs c)) Hnd); [apply nth_error_Some; congruence|congruence]. }
  intros g. apply (H (S (rank g))). lia.
Qed.

(** Evaluation along the ranking, with fuel. *)
Fixpoint peval (ins : list (list bool)) (fuel g : nat) : list bool :=
  match fuel with
  | 0 => []
  | S f =>
      match nth_error (c_gates c) g with
      | Some (BBase GInput) =>
          match index_of (c_inputs c) g with Some i => nth i ins [] | None => [] end
      | Some gate =>
          map (fun i => match bool_gate_sem gate (map (fun p => nth i (peval ins f p) false) (parents c g)) with
                        | Some b => b | None => false end) (seq 0 (c_lanes c))
      | None => []
      end
  end.

Lemma sem_total gate xs : (match gate with
  | BBase GInput => False
  | BBase (GConstant _) => True
  | BBase (GConnectToMainFromSimd _) => False
  | BAnd | BXor => length xs = 2
  | _ => length xs = 1 end) -> exists b, bool_gate_sem gate xs = Some b.
Proof.
  destruct gate as [[]| | |]; simpl; try tauto; destruct xs as [|x [|y [|]]]; simpl; intros; try lia; eauto.
Qed.

Lemma plain_value_exists ins : operands_ok c ->
  length ins = length (c_inputs c) -> Forall (fun x => length x = c_lanes c) ins ->
  exists v, plain_value c ins v.
Proof.
  intros Ho HL HF. pose proof base_inputs_nodup as Hnd.
  destruct Hm as (Ha & (rank & Hrank) & _). apply api_api_wf in Ha.
  assert (Hstab : forall f g, rank g < f -> peval ins f g = peval ins (S (rank g)) g).
  { assert (H : forall n g f f', rank g < n -> rank g < f -> rank g < f' -> peval ins f g = peval ins f' g).
    { induction n as [|n IH]; intros g f f' Hn Hf Hf'; [lia|].
      destruct f as [|f]; [lia|]. destruct f' as [|f']; [lia|]. cbn [peval].
      destruct (nth_error (c_gates c) g) as [gate|]; auto.
      assert (Hmap : forall i, map (fun p => nth i (peval ins f p) false) (parents c g) =
                               map (fun p => nth i (peval ins f' p) false) (parents c g)).
      { intros i. apply map_ext_in. intros p Hin. specialize (Hrank _ _ Hin).
        rewrite (IH p f f'); auto; lia. }
      destruct gate as [[]| | |]; auto; apply map_ext; intros i; rewrite Hmap; auto. }
    intros f g Hf. apply (H (S (rank g))); lia. }
  exists (fun g => peval ins (S (rank g)) g).
  intros g gate E. pose proof (Ho _ _ E) as HO.
  assert (Hsem : (match gate with BBase GInput => False | _ => True end) ->
     length (peval ins (S (rank g)) g) = c_lanes c /\
     forall i, i < c_lanes c ->
       bool_gate_sem gate (map (fun p => nth i (peval ins (S (rank p)) p) false) (parents c g))
       = Some (nth i (peval ins (S (rank g)) g) false)).
  { intros Hk.
    assert (Epe : peval ins (S (rank g)) g =
       map (fun i => match bool_gate_sem gate (map (fun p => nth i (peval ins (rank g) p) false) (parents c g)) with
                     | Some b => b | None => false end) (seq 0 (c_lanes c))).
    { cbn [peval]. rewrite E. destruct gate as [[]| | |]; auto; contradiction. }
    rewrite Epe. rewrite map_length, seq_length. split; auto. intros i Hi.
    rewrite (nth_indep _ false (match bool_gate_sem gate (map (fun p => nth 0 (peval ins (rank g) p) false) (parents c g)) with
                     | Some b => b | None => false end)) by (rewrite map_length, seq_length; auto).
    rewrite (map_nth (fun i => match bool_gate_sem gate (map (fun p => nth i (peval ins (rank g) p) false) (parents c g)) with
                     | Some b => b | None => false end) (seq 0 (c_lanes c)) 0 i).
    rewrite seq_nth by auto. simpl.
    assert (Hmap : map (fun p => nth i (peval ins (S (rank p)) p) false) (parents c g) =
                   map (fun p => nth i (peval ins (rank g) p) false) (parents c g)).
    { apply map_ext_in. intros p Hin. specialize (Hrank _ _ Hin). rewrite (Hstab (rank g) p); auto. }
    cbn [peval] in Hmap |- *. rewrite Hmap.
    destruct (sem_total gate (map (fun p => nth i (peval ins (rank g) p) false) (parents c g))) as (b & ->); auto.
    rewrite map_length. destruct gate as [[]| | |]; auto. }
  destruct gate as [[]| | |]; try (destruct (Hsem I); auto; fail).
  assert (Hin : In g (c_inputs c)).
  { rewrite (aw_inputs _ _ Ha). apply ids_where_In. exists (BBase GInput). auto. }
  apply In_nth_error in Hin. destruct Hin as (i & Hi).
  assert (Ei : index_of (c_inputs c) g = Some i) by (apply index_of_nth; auto).
  assert (Hil : i < length ins) by (rewrite HL; apply nth_error_Some; congruence).
  cbn [peval]. rewrite E, Ei. split.
  - rewrite Forall_forall in HF. apply HF. apply nth_In; auto.
  - exists i. split; auto. apply nth_error_nth'; auto.
Qed.
End BaseBool.
