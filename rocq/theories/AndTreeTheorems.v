(** C78: the tree of AND gates. *)
From Coq Require Import List Bool Arith Lia.
Require Import Verif.Prelude Verif.PreludeProofs Verif.GateModel Verif.CircuitModel Verif.CircuitSpec Verif.CircuitProofs
  Verif.CircuitProofs2 Verif.CircuitProofs3 Verif.ExecModel Verif.BoolGmwModel Verif.BoolGmwSpec Verif.InlineSpec
  Verif.ExecSpec Verif.ExecCircuitSpec Verif.InlineProofs Verif.BristolProofs Verif.ConnModel Verif.BuilderModel Verif.BuilderSpec Verif.ReduceProofs
  Verif.BuilderProofs Verif.ExecBoolSpec Verif.ExecTheorems Verif.AndTreeModel.
Import ListNotations.

(** The first [j] AND gates on [n] inputs: the parents of the i-th are the gates 2i and
    2i + 1. *)
Record tree (n j : nat) (c : circuit bool_gate) : Prop := {
  t_wired : wired bool_ops c;
  t_gates : c_gates c = repeat (BBase GInput) n ++ repeat BAnd j;
  t_inputs : c_inputs c = seq 0 n;
  t_outputs : c_outputs c = [];
  t_simd : c_simd c = None;
  t_icount : c_icount c = j;
  t_roots : forall i, i < n -> parents c i = [];
  t_parents : forall i, i < j -> parents c (n + i) = [2 * i; 2 * i + 1] }.

Lemma tree_count n j c : tree n j c -> c_count c = n + j.
Proof. intros T. unfold c_count. rewrite (t_gates _ _ _ T), app_length, !repeat_length. reflexivity. Qed.
Lemma tree_api n j c : tree n j c -> api bool_ops c.
Proof. intros T. apply wired_main_ok_gen. apply (t_wired _ _ _ T). Qed.
Lemma tree_new : tree 0 0 c_new.
Proof. split; try reflexivity; [apply wired_new|]. intros i H; lia. Qed.

Lemma tree_input n c : tree n 0 c -> tree (S n) 0 (fst (add_gate bool_ops c (BBase GInput))) /\ snd (add_gate bool_ops c (BBase GInput)) = n.
Proof.
  intros T. pose proof (tree_count _ _ _ T) as HC. pose proof (tree_api _ _ _ T) as HA. split; [|cbn; unfold c_count in HC; lia]. split; cbn [fst add_gate c_gates c_inputs c_outputs c_simd c_icount g_base g_inter bool_ops].
  - apply (wired_source bool_ops c (BBase GInput)); [apply (t_wired _ _ _ T)|reflexivity].
  - rewrite (t_gates _ _ _ T). cbn [repeat]. rewrite !app_nil_r. symmetry. apply repeat_cons.
  - rewrite (t_inputs _ _ _ T), (seq_S n 0). unfold c_count in HC. rewrite HC. rewrite Nat.add_0_r. reflexivity.
  - apply (t_outputs _ _ _ T).
  - apply (t_simd _ _ _ T).
  - apply (t_icount _ _ _ T).
  - intros i Hi. change (parents c i = []). destruct (Nat.eq_dec i n) as [->|Hn]; [|apply (t_roots _ _ _ T); lia].
    apply parents_fresh; [apply (aw_range _ _ (api_api_wf bool_ops c HA))|lia].
  - intros i Hi. lia.
Qed.

Lemma and_inputs_tree k : forall n c, tree n 0 c -> tree (n + k) 0 (fst (and_inputs k c)) /\ snd (and_inputs k c) = seq n k.
Proof.
  induction k as [|k IH]; intros n c T; cbn [and_inputs seq]; [rewrite Nat.add_0_r; auto|].
  destruct (tree_input n c T) as [T1 E1]. destruct (add_gate bool_ops c (BBase GInput)) as [c1 i]. cbn [fst snd] in *. subst i.
  destruct (IH (S n) c1 T1) as [T2 E2]. destruct (and_inputs k c1) as [c2 is]. cbn [fst snd] in *. subst is. split; [|reflexivity]. replace (n + S k) with (S n + k) by lia. exact T2.
Qed.

Lemma tree_and n j c : 2 * j + 1 < n + j -> tree n j c ->
  exists c', add_wired_gate bool_ops c BAnd [2 * j; 2 * j + 1] = Some (c', n + j) /\ tree n (S j) c'.
Proof.
  intros Hj T. pose proof (tree_count _ _ _ T) as HC. pose proof (tree_api _ _ _ T) as HA.
  assert (HF : forall f, In f [2 * j; 2 * j + 1] -> f < c_count c) by (intros f [<-|[<-|[]]]; lia).
  pose proof (add_wired_gate_put bool_ops c BAnd [2 * j; 2 * j + 1] HF) as E. rewrite HC in E. eexists. split; [exact E|].
  destruct (add_wired_gate_spec bool_ops c _ BAnd _ _ HA E) as (_ & _ & EG & EP & _). rewrite HC in EP.
  split.
  - apply (wired_gate bool_ops c BAnd [2 * j; 2 * j + 1] _ (n + j)); [apply (t_wired _ _ _ T)|reflexivity|discriminate| |exact E]. apply Forall_forall. exact HF.
  - rewrite EG, (t_gates _ _ _ T), <- app_assoc. f_equal. symmetry. apply repeat_cons.
  - cbn. apply (t_inputs _ _ _ T).
  - cbn. apply (t_outputs _ _ _ T).
  - cbn. apply (t_simd _ _ _ T).
  - cbn. rewrite (t_icount _ _ _ T). reflexivity.
  - intros i Hi. rewrite EP. rewrite (proj2 (Nat.eqb_neq _ _)) by lia. apply (t_roots _ _ _ T). exact Hi.
  - intros i Hi. rewrite EP. destruct (Nat.eqb_spec (n + i) (n + j)) as [Eq|Hne]; [assert (i = j) by lia; subst i; reflexivity|]. apply (t_parents _ _ _ T). lia.
Qed.

Lemma and_pairs_tree n m : forall j c, 2 * j + 2 * m <= n + j -> tree n j c ->
  exists c', and_pairs c (seq (2 * j) (2 * m)) = Some (c', seq (n + j) m) /\ tree n (j + m) c'.
Proof.
  induction m as [|m IH]; intros j c Hj T; [exists c; rewrite Nat.add_0_r; auto|].
  replace (2 * S m) with (S (S (2 * m))) by lia. cbn [seq and_pairs].
  destruct (tree_and n j c) as (c1 & E1 & T1); [lia|exact T|]. replace (S (2 * j)) with (2 * j + 1) by lia. rewrite E1. cbn [obind].
  replace (S (2 * j + 1)) with (2 * S j) by lia.
  destruct (IH (S j) c1) as (c2 & E2 & T2); [lia|exact T1|]. rewrite E2. cbn [obind]. exists c2. split; [rewrite Nat.add_succ_r; reflexivity|].
  replace (j + S m) with (S j + m) by lia. exact T2.
Qed.

Lemma and_layers_tree n e : forall fuel j c, e < fuel -> 2 * j + 2 ^ e = n + j -> tree n j c ->
  exists c', and_layers fuel (2 ^ e) c (seq (2 * j) (2 ^ e)) = Some (c', [2 * (n - 1)]) /\ tree n (n - 1) c'.
Proof.
  induction e as [|e IH]; intros [|fuel] j c Hf Hj T; try lia; cbn [and_layers].
  - change (2 ^ 0) with 1 in *. cbn [Nat.ltb Nat.leb seq]. assert (j = n - 1) by lia. subst j. exists c. auto.
  - assert (P : 2 ^ e <> 0) by (apply Nat.pow_nonzero; discriminate). rewrite Nat.pow_succ_r' in *.
    rewrite (proj2 (Nat.ltb_lt 1 (2 * 2 ^ e))) by lia.
    destruct (and_pairs_tree n (2 ^ e) j c) as (c1 & E1 & T1); [lia|exact T|]. rewrite E1. cbn [obind].
    rewrite (Nat.mul_comm 2 (2 ^ e)), Nat.div_mul by discriminate.
    replace (n + j) with (2 * (j + 2 ^ e)) by lia. apply IH; [lia|lia|exact T1].
Qed.

(** ** What the circuit is *)
Section Tree.
Variables (e : nat) (c : circuit bool_gate).
Definition leaves : nat := 2 ^ e.
Hypothesis G : c_gates c = repeat (BBase GInput) leaves ++ repeat BAnd (leaves - 1) ++ [BBase GOutput].
Hypothesis PR : forall i, i < leaves -> parents c i = [].
Hypothesis PA : forall i, i < leaves - 1 -> parents c (leaves + i) = [2 * i; 2 * i + 1].

Lemma leaves_pos : leaves <> 0.
Proof. unfold leaves. apply Nat.pow_nonzero. discriminate. Qed.
Lemma gate_input i : i < leaves -> nth_error (c_gates c) i = Some (BBase GInput).
Proof. intros H. rewrite G, nth_error_app1 by (rewrite repeat_length; exact H). rewrite (nth_error_nth' _ (BBase GInput)) by (rewrite repeat_length; exact H). rewrite nth_repeat. reflexivity. Qed.
Lemma gate_and i : i < leaves - 1 -> nth_error (c_gates c) (leaves + i) = Some BAnd.
Proof.
  intros H. rewrite G, nth_error_app2 by (rewrite repeat_length; lia). rewrite repeat_length. replace (leaves + i - leaves) with i by lia.
  rewrite nth_error_app1 by (rewrite repeat_length; exact H). rewrite (nth_error_nth' _ BAnd) by (rewrite repeat_length; exact H). rewrite nth_repeat. reflexivity.
Qed.
Lemma gate_out : nth_error (c_gates c) (2 * leaves - 1) = Some (BBase GOutput).
Proof.
  pose proof leaves_pos. rewrite G, nth_error_app2 by (rewrite repeat_length; lia). rewrite repeat_length. rewrite nth_error_app2 by (rewrite repeat_length; lia). rewrite repeat_length.
  replace (2 * leaves - 1 - leaves - (leaves - 1)) with 0 by lia. reflexivity.
Qed.
Lemma gate_cases g x : nth_error (c_gates c) g = Some x ->
  (g < leaves /\ x = BBase GInput) \/ (exists i, i < leaves - 1 /\ g = leaves + i /\ x = BAnd) \/ (g = 2 * leaves - 1 /\ x = BBase GOutput).
Proof.
  intros H. pose proof leaves_pos. assert (HL : g < length (c_gates c)) by (apply nth_error_Some; congruence).
  rewrite G, !app_length, !repeat_length in HL. cbn [length] in HL.
  destruct (Nat.lt_ge_cases g leaves) as [H1|H1]; [left; rewrite gate_input in H by auto; injection H as <-; auto|].
  destruct (Nat.lt_ge_cases g (2 * leaves - 1)) as [H2|H2].
  - right. left. exists (g - leaves). assert (EG : g = leaves + (g - leaves)) by lia. rewrite EG, gate_and in H by lia. injection H as <-. split; [lia|auto].
  - right. right. assert (EG : g = 2 * leaves - 1) by lia. rewrite EG, gate_out in H. injection H as <-. auto.
Qed.

(** The conjunction of a layer is the value of the last AND gate. *)
Lemma layer_value (b : nat -> bool) : (forall i, i < leaves - 1 -> b (leaves + i) = b (2 * i) && b (2 * i + 1)) ->
  forall k j, 2 * j + 2 ^ k = leaves + j -> forallb b (seq (2 * j) (2 ^ k)) = b (2 * (leaves - 1)).
Proof.
  intros Hb. induction k as [|k IH]; intros j Hj.
  - change (2 ^ 0) with 1 in *. cbn [seq forallb]. rewrite andb_true_r. f_equal. lia.
  - assert (P : 2 ^ k <> 0) by (apply Nat.pow_nonzero; discriminate). rewrite Nat.pow_succ_r' in *. rewrite <- (IH (j + 2 ^ k)) by lia. replace (2 * (j + 2 ^ k)) with (leaves + j) by lia.
    assert (X : forall m j', 2 * j' + 2 * m <= leaves + j' -> j' + m <= leaves - 1 -> forallb b (seq (2 * j') (2 * m)) = forallb b (seq (leaves + j') m)).
    { induction m as [|m IHm]; intros j' H1 H2; [reflexivity|]. replace (2 * S m) with (S (S (2 * m))) by lia. cbn [seq forallb].
      replace (S (S (2 * j'))) with (2 * S j') by lia. rewrite IHm by lia. rewrite (Hb j') by lia. rewrite <- Nat.add_succ_r, andb_assoc. replace (S (2 * j')) with (2 * j' + 1) by lia. reflexivity. }
    apply X; lia.
Qed.

(** Paths: in the layer [t] all paths have the same number of AND gates. *)
Lemma int_iff g : is_int bool_ops c g = true <-> leaves <= g < 2 * leaves - 1.
Proof.
  pose proof leaves_pos. unfold is_int. destruct (nth_error (c_gates c) g) as [x|] eqn:E.
  - destruct (gate_cases g x E) as [[H1 ->]|[(i & H1 & -> & ->)|[-> ->]]]; cbn; split; intros; try discriminate; lia.
  - split; [discriminate|]. intros HG. apply nth_error_None in E. rewrite G, !app_length, !repeat_length in E. cbn in E. lia.
Qed.
Lemma depth_layers : forall k j t, 2 * j + 2 ^ k = leaves + j -> (t = 0 <-> j = 0) ->
  (forall g, 2 * j <= g < leaves + j -> int_path bool_ops c g (pred t) /\ forall d, int_path bool_ops c g d -> d = pred t) ->
  int_path bool_ops c (2 * (leaves - 1)) (pred (t + k)) /\ forall g d, 2 * j <= g < 2 * leaves - 1 -> int_path bool_ops c g d -> d <= pred (t + k).
Proof.
  induction k as [|k IH]; intros j t Hj Ht HL.
  - change (2 ^ 0) with 1 in *. rewrite Nat.add_0_r. split; [apply HL; lia|]. intros g d Hg Hd. apply HL in Hd; lia.
  - assert (P : 2 ^ k <> 0) by (apply Nat.pow_nonzero; discriminate). rewrite Nat.pow_succ_r' in *.
    destruct (IH (j + 2 ^ k) (S t)) as [A B]; [lia|split; lia| |].
    { intros g Hg. assert (EG : g = leaves + (g - leaves)) by lia. set (i := g - leaves) in *. clearbody i. subst g. pose proof (PA i ltac:(lia)) as EP.
      assert (IV : forall p, p = 2 * i \/ p = 2 * i + 1 -> (if is_int bool_ops c p then S (pred t) else pred t) = t).
      { intros p Hp. destruct (is_int bool_ops c p) eqn:Ei.
        - apply int_iff in Ei. assert (t <> 0) by (intros Z; apply Ht in Z; lia). lia.
        - destruct t; [reflexivity|]. exfalso. assert (is_int bool_ops c p = true); [apply int_iff|congruence]. assert (j <> 0) by (intros Z; apply Ht in Z; discriminate). 
          assert (leaves <= 2 * j); [|lia]. 
          (* the start of a later layer is at least the number of leaves *)
          unfold leaves in *. clear -Hj H P. destruct (Nat.lt_ge_cases (2 * j) (2 ^ e)) as [HX|HX]; [|exact HX]. exfalso.
          assert (K : S k < e \/ S k = e \/ e < S k) by lia. destruct K as [K|[K|K]].
          + assert (2 ^ S (S k) <= 2 ^ e) by (apply Nat.pow_le_mono_r; lia). rewrite !Nat.pow_succ_r' in *. lia.
          + subst e. rewrite Nat.pow_succ_r' in *. lia.
          + assert (2 ^ e <= 2 ^ k) by (apply Nat.pow_le_mono_r; lia). lia. }
      split.
      - assert (X : int_path bool_ops c (leaves + i) (if is_int bool_ops c (2 * i) then S (pred t) else pred t)).
        { apply ip_step; [rewrite EP; left; reflexivity|]. apply HL. lia. }
        rewrite IV in X by auto. exact X.
      - intros d Hd. inversion Hd as [g0 H0|p g0 k0 Hp Hk]; subst; [rewrite EP in H0; discriminate|]. rewrite EP in Hp.
        assert (Hp' : p = 2 * i \/ p = 2 * i + 1) by (destruct Hp as [<-|[<-|[]]]; auto).
        apply HL in Hk; [|lia]. subst k0. rewrite IV by exact Hp'. reflexivity. }
    replace (t + S k) with (S t + k) by lia. split; [exact A|]. intros g d Hg Hd. destruct (Nat.lt_ge_cases g (2 * (j + 2 ^ k))) as [H1|H1].
    + apply HL in Hd; [|lia]. lia.
    + apply (B g d); [lia|exact Hd].
Qed.
End Tree.

(** The tree of depth [S e]: on [2 ^ e] inputs, one AND gate less, the conjunction of all
    inputs, in [e] rounds. *)
Theorem C78_and_tree :
  forall e, e < 31 ->
  exists c, create_and_tree (S e) = Some c /\ main_ok bool_ops c /\ operands_ok c /\ c_simd c = None /\
    length (c_inputs c) = 2 ^ e /\ c_icount c = 2 ^ e - 1 /\ circuit_depth bool_ops c e /\
    forall ins v, length ins = 2 ^ e -> plain_value c ins v ->
      map v (c_outputs c) = [[forallb (fun x => nth 0 x false) ins]].
Proof.
  intros e He. unfold create_and_tree. rewrite (proj2 (Nat.ltb_lt (S e) 32)) by lia. cbn [oassert obind].
  rewrite Nat.pow_succ_r', (Nat.mul_comm 2), Nat.div_mul by discriminate.
  destruct (and_inputs_tree (2 ^ e) 0 c_new tree_new) as [T0 E0]. destruct (and_inputs (2 ^ e) c_new) as [c0 l0]. cbn [fst snd Nat.add] in *. subst l0.
  assert (P : 2 ^ e <> 0) by (apply Nat.pow_nonzero; discriminate).
  destruct (and_layers_tree (2 ^ e) e (S (S e)) 0 c0) as (c1 & E1 & T1); [lia|lia|exact T0|]. change (2 * 0) with 0 in E1. rewrite E1. cbn [obind length Nat.eqb oassert nth_error].
  pose proof (tree_count _ _ _ T1) as HC. pose proof (tree_api _ _ _ T1) as HA.
  set (n := 2 ^ e) in *.
  assert (HF : forall f, In f [2 * (n - 1)] -> f < c_count c1) by (intros f [<-|[]]; lia).
  pose proof (add_wired_gate_put bool_ops c1 (BBase GOutput) [2 * (n - 1)] HF) as E2. rewrite E2. cbn [obind].
  destruct (add_wired_gate_spec bool_ops c1 _ (BBase GOutput) _ _ HA E2) as (_ & _ & EG & EP & _). rewrite HC in EP.
  set (c := put_gate bool_ops c1 (BBase GOutput) (rev [2 * (n - 1)])) in *.
  assert (W : wired bool_ops c).
  { apply (wired_gate bool_ops c1 (BBase GOutput) [2 * (n - 1)] _ (c_count c1)); [apply (t_wired _ _ _ T1)|reflexivity|discriminate| |exact E2]. apply Forall_forall. exact HF. }
  assert (CI : c_inputs c = seq 0 n) by (cbn; apply (t_inputs _ _ _ T1)).
  assert (CO : c_outputs c = [2 * n - 1]).
  { change (c_outputs c) with (c_outputs c1 ++ [c_count c1]). rewrite (t_outputs _ _ _ T1), HC. cbn [app]. f_equal. lia. }
  assert (CS : c_simd c = None) by (cbn; apply (t_simd _ _ _ T1)).
  assert (CC : c_icount c = n - 1) by (cbn; apply (t_icount _ _ _ T1)).
  assert (G : c_gates c = repeat (BBase GInput) n ++ repeat BAnd (n - 1) ++ [BBase GOutput]) by (rewrite EG, (t_gates _ _ _ T1), <- app_assoc; reflexivity).
  assert (PR : forall i, i < n -> parents c i = []) by (intros i Hi; rewrite EP, (proj2 (Nat.eqb_neq _ _)) by lia; apply (t_roots _ _ _ T1); exact Hi).
  assert (PA : forall i, i < n - 1 -> parents c (n + i) = [2 * i; 2 * i + 1]) by (intros i Hi; rewrite EP, (proj2 (Nat.eqb_neq _ _)) by lia; apply (t_parents _ _ _ T1); exact Hi).
  assert (PO : parents c (2 * n - 1) = [2 * (n - 1)]) by (rewrite EP; replace (2 * n - 1 =? n + (n - 1)) with true by (symmetry; apply Nat.eqb_eq; lia); reflexivity).
  clearbody c. exists c. split; [reflexivity|]. split; [apply wired_main_ok; exact W|].
  split; [|split; [exact CS|split; [rewrite CI; apply seq_length|split; [exact CC|split]]]].
  - intros g gate Hg. destruct (gate_cases e c G g gate Hg) as [[_ ->]|[(i & Hi & -> & ->)|[-> ->]]]; [exact I| |].
    + change (leaves e) with n. rewrite PA by exact Hi. reflexivity.
    + change (leaves e) with n. rewrite PO. reflexivity.
  - destruct (depth_layers e c G PA e 0 0) as [A B]; [unfold leaves; lia|split; auto| |].
    { intros g Hg. assert (E : parents c g = []) by (apply PR; unfold leaves in Hg; fold n in Hg; lia). split; [apply ip_root; exact E|].
      intros d Hd. inversion Hd as [g0 H0|p g0 k0 Hp Hk]; subst; [reflexivity|]. rewrite E in Hp. destruct Hp. }
    cbn [Nat.add] in A, B. split.
    + destruct e as [|e']; [left; reflexivity|]. right. exists (2 * (n - 1)), e'. split; [|split; [exact A|reflexivity]].
      apply (int_iff (S e') c G). unfold leaves. fold n. unfold n in *. rewrite Nat.pow_succ_r' in *. lia.
    + intros g k Hi Hk. apply (int_iff e c G) in Hi. assert (k <= pred e) by (apply (B g k); [lia|exact Hk]).
      destruct e; [cbn in Hi; lia|]. lia.
  - intros ins v HL HV. rewrite CO. cbn [map]. f_equal.
    assert (HN : c_lanes c = 1) by (unfold c_lanes; rewrite CS; reflexivity).
    assert (ONE : forall l : list bool, length l = 1 -> l = [nth 0 l false]) by (intros [|x [|y l]]; cbn; intros; try discriminate; reflexivity).
    destruct (HV _ _ (gate_out e c G)) as [LO VO]. rewrite HN in LO, VO. change (leaves e) with n in LO, VO. rewrite PO in VO. rewrite (ONE _ LO). f_equal.
    specialize (VO 0 (Nat.lt_0_succ 0)). cbn [map bool_gate_sem] in VO. apply (f_equal (fun o => match o with Some x => x | None => false end)) in VO. cbv beta iota in VO. rewrite <- VO.
    assert (LV : (forall i, i < leaves e - 1 -> nth 0 (v (leaves e + i)) false = nth 0 (v (2 * i)) false && nth 0 (v (2 * i + 1)) false) ->
      forallb (fun g => nth 0 (v g) false) (seq 0 n) = nth 0 (v (2 * (n - 1))) false).
    { intros HH. apply (layer_value e (fun g => nth 0 (v g) false) HH e 0). unfold leaves. lia. }
    rewrite <- LV; clear LV VO.
    + rewrite <- HL.
      assert (HI : forall i, i < n -> nth_error ins i = Some (v i)).
      { intros i Hi. destruct (HV _ _ (gate_input e c G i Hi)) as [_ (i' & A & B)]. rewrite CI in A.
        assert (i' < n) by (rewrite <- (seq_length n 0); apply nth_error_Some; congruence). rewrite (nth_error_nth' _ 0) in A by (rewrite seq_length; auto). rewrite seq_nth in A by auto. injection A as A. cbn in A. congruence. }
      rewrite <- HL in HI. clear -HI. 
      assert (X : forall l s, (forall i, i < length l -> nth_error l i = Some (v (s + i))) -> forallb (fun g => nth 0 (v g) false) (seq s (length l)) = forallb (fun x => nth 0 x false) l).
      { induction l as [|x l IH]; intros s H; auto. cbn [length seq forallb]. pose proof (H 0 ltac:(cbn; lia)) as H0. cbn in H0. rewrite Nat.add_0_r in H0. injection H0 as ->. f_equal.
        apply IH. intros i Hi. specialize (H (S i)). cbn in H. rewrite Nat.add_succ_r in H. apply H. lia. }
      apply (X ins 0). exact HI.
    + intros i Hi. destruct (HV _ _ (gate_and e c G i Hi)) as [_ VA]. rewrite HN in VA. specialize (VA 0 (Nat.lt_0_succ 0)). change (leaves e) with n in *. rewrite PA in VA by exact Hi.
      cbn [map bool_gate_sem] in VA. apply (f_equal (fun o => match o with Some x => x | None => false end)) in VA. cbv beta iota in VA. symmetry. exact VA.
Qed.
Print Assumptions C78_and_tree.

(** A tree of depth 0 and of depth 32 or more is not built. *)
Theorem C78_no_tree : create_and_tree 0 = None /\ forall d, 32 <= d -> create_and_tree d = None.
Proof.
  split; [reflexivity|]. intros d Hd. unfold create_and_tree. rewrite (proj2 (Nat.ltb_ge d 32)) by exact Hd. reflexivity.
Qed.
Print Assumptions C78_no_tree.

(** Two parties that execute the tree on shares of any inputs get shares of the
    conjunction. *)
Theorem C78_execution :
  forall W e, 0 < W -> e < 31 ->
  exists c ec, create_and_tree (S e) = Some c /\ ec_of_base bool_ops c = Some ec /\
  forall (Sv : Type) (req : Sv -> nat -> option (mul_triples * Sv)) J, serves req (bool_setup_ok W) J ->
  forall (i0 i1 : istore (bool_gmw W)) ins, shares_of W None i0 i1 ins -> length ins = 2 ^ e ->
  forall s0 s1 rest, J (requests ec ++ rest) s0 s1 ->
  exists o0 o1 st, ex2_run (pr:=bool_gmw W) req ec i0 i1 ((go_init (pr:=bool_gmw W) ec, s0), (go_init (pr:=bool_gmw W) ec, s1)) = Some (o0, o1, st) /\
    shares_of W None o0 o1 [[forallb (fun x => nth 0 x false) ins]].
Proof.
  intros W e HW He. destruct (C78_and_tree e He) as (c & E & M & O & CS & LI & _ & _ & V).
  destruct (C11_execution_computes_circuit W c HW M O) as (ec & E2 & SH & R); [unfold simd_ok; rewrite CS; exact I|].
  exists c, ec. split; [exact E|]. split; [exact E2|]. intros Sv req J HJ i0 i1 ins HS HL s0 s1 rest HR. rewrite CS in R. rewrite LI in R.
  destruct (R Sv req J HJ i0 i1 ins HS HL _ _ s0 s1 rest SH SH HR) as (v & o0 & o1 & g0 & g1 & t0 & t1 & PV & RUN & SO & _).
  exists o0, o1, ((g0, t0), (g1, t1)). split; [exact RUN|]. rewrite <- (V ins v HL PV). exact SO.
Qed.
Print Assumptions C78_execution.

(** Depth 3: four inputs, three AND gates, two rounds. *)
Example C78_case :
  match create_and_tree 3 with
  | Some c => length (c_gates c) = 8 /\ c_inputs c = [0; 1; 2; 3] /\ c_outputs c = [7] /\ map (parents c) [4; 5; 6; 7] = [[0; 1]; [2; 3]; [4; 5]; [6]]
  | None => False
  end.
Proof. vm_compute. auto. Qed.
