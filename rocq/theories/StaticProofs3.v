(** Proofs about precomputed layers, part 3: from the layers of the dynamic
    iterator to the precomputed circuit. *)
From Coq Require Import List Bool Arith Lia Permutation Sorting.Sorted.
Require Import Verif.Prelude Verif.PreludeProofs Verif.GateModel Verif.CircuitModel Verif.CircuitSpec
  Verif.CircuitProofs Verif.CircuitProofs2 Verif.CircuitProofs3
  Verif.ExecModel Verif.ExecSpec Verif.ExecCircuitProofs Verif.ConnModel Verif.ConnSpec Verif.ConnProofs Verif.MultiModel Verif.MultiSpec Verif.MultiProofs
  Verif.MultiTheorems Verif.StaticModel Verif.StaticSpec Verif.StaticProofs Verif.StaticProofs2.
Import ListNotations.

Lemma some_inj {A} (x y : A) : Some x = Some y -> x = y.
Proof. intros H. injection H as ->. auto. Qed.

Lemma omap_concat {A B} (f : A -> option B) : forall ls tls, omap (omap f) ls = Some tls ->
  omap f (concat ls) = Some (concat tls).
Proof.
  induction ls as [|l ls IH]; intros tls H; cbn [omap] in H; [injection H as <-; auto|].
  destruct (omap f l) as [t|] eqn:E1; [|discriminate]. destruct (omap (omap f) ls) as [ts|] eqn:E2; [|discriminate].
  cbn [obind] in H. injection H as <-. cbn [concat]. rewrite omap_app, E1, (IH ts) by auto. auto.
Qed.

Lemma omap_split {A B} (f : A -> option B) : forall l a x b, omap f l = Some (a ++ x :: b) ->
  exists a' x' b', l = a' ++ x' :: b' /\ omap f a' = Some a /\ f x' = Some x /\ omap f b' = Some b.
Proof.
  induction l as [|y l IH]; intros a x b H; cbn [omap] in H; [destruct a; discriminate|].
  destruct (f y) as [z|] eqn:E1; [|discriminate]. destruct (omap f l) as [r|] eqn:E2; [|discriminate].
  cbn [obind] in H. apply some_inj in H. destruct a as [|a0 a].
  - injection H as -> ->. exists [], y, l. auto.
  - injection H as -> ->. destruct (IH a x b eq_refl) as (a' & x' & b' & -> & A1 & A2 & A3).
    exists (y :: a'), x', b'. split; auto. cbn [omap]. rewrite E1, A1. auto.
Qed.

Lemma omap_In {A B} (f : A -> option B) : forall l r, omap f l = Some r ->
  forall y, In y r <-> exists x, In x l /\ f x = Some y.
Proof.
  induction l as [|x l IH]; intros r H y; cbn [omap] in H.
  - injection H as <-. split; [intros []|intros (x & [] & _)].
  - destruct (f x) as [z|] eqn:E1; [|discriminate]. destruct (omap f l) as [t|] eqn:E2; [|discriminate].
    cbn [obind] in H. injection H as <-. simpl. rewrite (IH t eq_refl). split.
    + intros [<-|(x' & X & Y)]; eauto.
    + intros (x' & [<-|X] & Y); [left; congruence|eauto].
Qed.

Lemma omap_ok_map {A B C} (f : A -> option B) (g : A -> option C) (k : B -> C) :
  forall l r, omap f l = Some r -> (forall x y, In x l -> f x = Some y -> g x = Some (k y)) -> omap g l = Some (map k r).
Proof.
  induction l as [|x l IH]; intros r H Hk; cbn [omap] in H |- *; [injection H as <-; auto|].
  destruct (f x) as [z|] eqn:E1; [|discriminate]. destruct (omap f l) as [t|] eqn:E2; [|discriminate].
  cbn [obind] in H. injection H as <-. rewrite (Hk x z) by (simpl; auto). cbn [obind].
  rewrite (IH t) by (auto; intros; apply Hk; simpl; auto). auto.
Qed.

Lemma omap_filter {A B} (f : A -> option B) (p : A -> bool) (q : B -> bool) :
  (forall x y, f x = Some y -> p x = q y) -> forall l r, omap f l = Some r -> omap f (filter p l) = Some (filter q r).
Proof.
  intros Hpq. induction l as [|x l IH]; intros r H; cbn [omap] in H; [injection H as <-; auto|].
  destruct (f x) as [z|] eqn:E1; [|discriminate]. destruct (omap f l) as [t|] eqn:E2; [|discriminate].
  cbn [obind] in H. injection H as <-. cbn [filter]. rewrite (Hpq x z E1). destruct (q z); cbn [omap]; rewrite ?E1, (IH t); auto.
Qed.

Lemma filter_true {A} (l : list A) : filter (fun _ => true) l = l.
Proof. induction l; simpl; congruence. Qed.

Section Static.
Context {P G : Type}.
Variable ops : gate_ops P G.
Variable m : mcirc G.
Variable imax : nat.
Variable h : list (gid * gid).
Hypothesis Hcirc : circuits_ok ops (mc_get m).
Hypothesis Hwires : wires_ok ops (mc_get m) h.
Hypothesis Hwired : wired_as imax m h.
Variable perm : nat -> miter -> miter.
Hypothesis Hperm : rearranges perm.
Variable ls : list elayer.
Hypothesis Hls : mc_layers ops imax m perm = Some ls.

Definition simd_at (k : nat) : option nat :=
  match nth_error (mc_circuits m) k with Some c => c_simd c | None => None end.

Lemma ls_spec : MSched ops m h [] ls /\ NoDup (flat ls) /\
  (forall g, In g (flat ls) -> gate_exists (mc_get m) g) /\ (forall g, runs ops (mc_get m) h g -> In g (flat ls)).
Proof.
  destruct (mc_layers_spec ops m imax h Hcirc Hwires (fun g => proj1 (Hwired g)) perm Hperm) as (ls' & A & B).
  rewrite Hls in A. apply some_inj in A. rewrite A. auto.
Qed.

Lemma ls_layer l : In l ls -> exists E, LayerOk ops m h E l.
Proof.
  intros Hl. apply In_nth_error in Hl. destruct Hl as (i & Hi). eexists.
  apply (MSched_nth ops m h ls [] i l (proj1 ls_spec) Hi).
Qed.

Lemma ls_entry l e : In l ls -> In e l -> exists c k, mc_get m (fst (fst e)) = Some c /\ copy_of m (fst (fst e)) k /\
  nth_error (mc_circuits m) k = Some c /\ snd (fst e) = c_simd c /\
  (forall id, In id (bl_ids (snd e)) -> id < c_count c) /\ (forall id, In id (bl_ni (snd e)) -> is_int ops c id = false) /\
  (forall id, In id (bl_int (snd e)) -> is_int ops c id = true).
Proof.
  intros Hl He. destruct (ls_layer l Hl) as (E & [_ HL]). destruct e as [[sc s] b].
  destruct (HL _ _ _ He) as (c & A & B & _ & LR & _ & _ & D & _). cbn [fst snd] in *.
  pose proof A as A'. unfold mc_get in A'. destruct (nth_error (mc_map m) sc) as [k|] eqn:Ek; [|discriminate].
  cbn [obind] in A'. exists c, k. repeat split; auto.
  - intros id Hid. apply D; auto.
  - exact (lr_kni _ _ _ _ _ LR).
  - exact (lr_kit _ _ _ _ _ LR).
Qed.

Lemma pre_total : exists tls, omap (omap (pre_of imax m)) ls = Some tls.
Proof.
  apply omap_total. intros l Hl. apply omap_total. intros e He.
  destruct (ls_entry l e Hl He) as (c & k & A & _ & _ & _ & B & _). eapply pre_of_total; eauto.
Qed.

Variable tls : list (list (tev G)).
Hypothesis Htls : omap (omap (pre_of imax m)) ls = Some tls.
Notation all := (concat tls).

Lemma Hall : omap (pre_of imax m) (concat ls) = Some all.
Proof. apply omap_concat. auto. Qed.

Lemma t_in t : In t all -> exists l e, In l ls /\ In e l /\ pre_of imax m e = Some t.
Proof.
  intros Ht. apply (omap_In _ _ _ Hall) in Ht. destruct Ht as (e & He & Ht). apply in_concat in He.
  destruct He as (l & A & B). exists l, e. auto.
Qed.

Lemma Hbase : forall e, In e all -> exists k, bcopy (mc_map m) (fst (fst e)) k /\ snd (fst e) = simd_at k.
Proof.
  intros t Ht. destruct (t_in t Ht) as (l & e & Hl & He & Hp). apply pre_of_key in Hp.
  destruct (ls_entry l e Hl He) as (c & k & A & B & C & D & _). exists k.
  rewrite (proj1 Hp). split; auto. unfold simd_at. rewrite C. auto.
Qed.

Lemma t_keys : Forall (fun tl => NoDup (map tkey tl)) tls.
Proof.
  apply Forall_forall. intros tl Htl. apply (omap_In _ _ _ Htls) in Htl. destruct Htl as (l & Hl & E).
  assert (Ek : map tkey tl = map ekey l).
  { clear - E. revert tl E. induction l as [|e l IH]; intros tl E; cbn [omap] in E; [injection E as <-; auto|].
    destruct (pre_of imax m e) as [t|] eqn:Ee; [|discriminate]. destruct (omap (pre_of imax m) l) as [r|] eqn:Er; [|discriminate].
    cbn [obind] in E. injection E as <-. cbn [map]. rewrite (IH r) by auto. f_equal. apply pre_of_key in Ee. unfold tkey, ekey.
    rewrite (proj1 Ee). auto. }
  rewrite Ek. destruct (ls_layer l Hl) as (E0 & [HS _]). clear - HS.
  induction (map ekey l) as [|a r IH]; constructor; inversion HS; subst; auto.
  intros Hin. rewrite Forall_forall in H2. apply H2 in Hin. lia.
Qed.

Lemma t_hist sc : omap (sl_from_base imax m sc) (history sc ls) = Some (thist sc all).
Proof.
  unfold history. generalize (concat ls) all Hall. induction l as [|e l IH]; intros r E; cbn [omap] in E.
  - injection E as <-. auto.
  - destruct (pre_of imax m e) as [t|] eqn:Ee; [|discriminate]. destruct (omap (pre_of imax m) l) as [r'|] eqn:Er; [|discriminate].
    cbn [obind] in E. injection E as <-. change (t :: r') with ([t] ++ r'). rewrite thist_app, thist_one. cbn [filter].
    apply pre_of_key in Ee. destruct Ee as [E1 E2]. rewrite E1. destruct (Nat.eqb_spec (fst (fst e)) sc) as [<-|]; [|apply IH; auto].
    cbn [map omap]. rewrite E2. cbn [obind]. rewrite (IH r') by auto. auto.
Qed.

Lemma cross_parents l e c id : In l ls -> In e l -> mc_get m (fst (fst e)) = Some c -> In id (bl_ids (snd e)) ->
  cn_parents imax (mc_conns m) (fst (fst e), id) <> [] -> parents c id = [].
Proof.
  intros Hl He Hc Hid Hn. destruct (cn_parents imax (mc_conns m) (fst (fst e), id)) as [|q qs] eqn:Eq; [congruence|].
  assert (X : In q (sources_of h (fst (fst e), id))).
  { apply (Permutation_in _ (proj2 (Hwired _))). rewrite Eq. simpl; auto. }
  unfold sources_of in X. apply in_map_iff in X. destruct X as ((a & t) & E & X). apply filter_In in X.
  destruct X as [X Y]. cbn [fst snd] in *. apply andb_true_iff in Y. rewrite !Nat.eqb_eq in Y. destruct Y, t; cbn [fst snd] in *.
  subst. destruct (wire_target ops m h Hcirc Hwires _ _ _ X) as (c' & E1 & _ & E3 & _). rewrite Hc in E1. injection E1 as <-. auto.
Qed.

(** What the iteration over the precomputed layers gives. *)
Lemma static_views s : Final (mc_map m) all simd_at s -> st_layers s = map (map tkey) tls -> st_conns s = mc_conns m ->
  exists vs, omap (omap (layer_view m imax)) ls = Some vs /\ st_views imax s false false = Some vs /\
    st_views imax s true false = omap (omap (layer_view m imax)) (map scalar_part ls) /\
    st_views imax s false true = omap (omap (layer_view m imax)) (map simd_part ls).
Proof.
  intros HF HL HC. pose proof (fun a b => st_views_ok imax (mc_map m) all simd_at Hbase s HF a b tls eq_refl t_keys HL) as V.
  rewrite HC in V.
  assert (Hgen : forall (p : nat * option nat * blayer -> bool) (q : tev G -> bool),
    (forall e t, fst e = fst t -> p e = q t) ->
    forall ls' ts, omap (omap (pre_of imax m)) ls' = Some ts -> (forall l, In l ls' -> In l ls) ->
    omap (omap (layer_view m imax)) (map (filter p) ls') =
      Some (map (fun tl => map (tview imax (mc_conns m)) (filter q tl)) ts)).
  { intros p q Hpq. induction ls' as [|l ls' IH]; intros ts E Hin; cbn [omap] in E; [injection E as <-; auto|].
    destruct (omap (pre_of imax m) l) as [t|] eqn:E1; [|discriminate].
    destruct (omap (omap (pre_of imax m)) ls') as [r|] eqn:E2; [|discriminate]. cbn [obind] in E. injection E as <-.
    cbn [map omap]. rewrite (IH r) by (auto; intros; apply Hin; simpl; auto).
    rewrite (omap_ok_map (pre_of imax m) (layer_view m imax) (tview imax (mc_conns m)) (filter p l) (filter q t)); auto.
    - apply (omap_filter _ p q); auto. intros x y Hx. apply Hpq. apply pre_of_key in Hx. symmetry. apply Hx.
    - intros e y He Hy. apply pre_of_view; auto. intros c id Hc Hid. apply filter_In in He. destruct He as [He _].
      apply (cross_parents l e c id); auto. apply Hin. simpl; auto. }
  assert (Hid : map (filter (fun _ => true)) ls = ls).
  { rewrite <- (map_id ls) at 2. apply map_ext. apply filter_true. }
  eexists. split; [|split; [|split]].
  - assert (X := fun Hq => Hgen (fun _ => true) (fun e => kept false false (snd (fst e))) Hq ls tls Htls (fun l H => H)).
    rewrite Hid in X. apply X. intros e t E. rewrite <- E. unfold kept. destruct (snd (fst e)); auto.
  - apply V.
  - rewrite V. symmetry. refine (Hgen _ (fun e => kept true false (snd (fst e))) _ ls tls Htls (fun l H => H)).
    intros e t E. rewrite <- E. unfold kept. destruct (snd (fst e)); auto.
  - rewrite V. symmetry. refine (Hgen _ (fun e => kept false true (snd (fst e))) _ ls tls Htls (fun l H => H)).
    intros e t E. rewrite <- E. unfold kept. destruct (snd (fst e)); auto.
Qed.

(** *** Gate counts *)
Lemma history_ids sc : concat (map bl_ids (history sc ls)) = proj sc (flat ls).
Proof.
  unfold history, flat. assert (E : concat (map el_ids ls) = el_ids (concat ls)).
  { unfold el_ids. clear. induction ls as [|l r IH]; auto. cbn [map concat]. rewrite map_app, concat_app, <- IH. auto. }
  rewrite E. generalize (concat ls). induction l as [|e l IH]; auto. destruct e as [[k s] b].
  cbn [filter]. rewrite el_ids_cons, proj_app, proj_pair. cbn [fst snd].
  destruct (k =? sc); cbn [map concat]; rewrite IH; auto.
Qed.

Lemma in_history sc b : In b (history sc ls) -> exists l s, In l ls /\ In (sc, s, b) l.
Proof.
  unfold history. rewrite in_map_iff. intros (e & <- & He). apply filter_In in He. destruct He as [He Ek].
  apply Nat.eqb_eq in Ek. apply in_concat in He. destruct He as (l & A & B). exists l, (snd (fst e)).
  rewrite <- Ek. destruct e as [[? ?] ?]. auto.
Qed.

Lemma sg_lengths sc : forall bs ts, omap (sl_from_base imax m sc) bs = Some ts ->
  sum_list (map sl_len ts) = length (concat (map bl_ids bs)) /\
  sum_list (map sl_ilen ts) = length (concat (map bl_int bs)).
Proof.
  induction bs as [|b bs IH]; intros ts E; cbn [omap] in E; [injection E as <-; auto|].
  destruct (sl_from_base imax m sc b) as [t|] eqn:Et; [|discriminate].
  destruct (omap (sl_from_base imax m sc) bs) as [r|] eqn:Er; [|discriminate]. cbn [obind] in E. injection E as <-.
  destruct (IH r eq_refl) as [A B]. unfold sl_from_base in Et. destruct (mc_get m sc) as [c|]; [|discriminate].
  cbn [obind] in Et. unfold sg_from_base in Et.
  destruct (omap (nth_error (c_gates c)) (bl_ni b)) as [gn|] eqn:Egn; [|discriminate]. cbn [obind] in Et.
  destruct (sg_loop imax (mc_conns m) c sc (bl_ni b) []) as [[r1 b1] o1]. cbn [obind] in Et.
  destruct (omap (nth_error (c_gates c)) (bl_int b)) as [gi|] eqn:Egi; [|discriminate]. cbn [obind] in Et.
  destruct (sg_loop imax (mc_conns m) c sc (bl_int b) o1) as [[r2 b2] o2]. cbn [obind] in Et. injection Et as <-.
  apply omap_length in Egn, Egi. cbn [map concat]. rewrite !app_length. unfold sum_list in *. cbn [fold_right].
  rewrite A, B. unfold sl_len, sl_ilen, bl_ids. cbn [sl_ni sl_int sg_gates]. rewrite app_length. lia.
Qed.

Hypothesis Hcall : all_callable ops (mc_get m) h.

Lemma hist_counts sc c : mc_get m sc = Some c ->
  sum_list (map sl_len (thist sc all)) = c_count c /\ sum_list (map sl_ilen (thist sc all)) = c_icount c.
Proof.
  intros Hc. destruct (sg_lengths sc _ _ (t_hist sc)) as [-> ->]. destruct ls_spec as (_ & Hn & He & Hr).
  assert (HP : Permutation (concat (map bl_ids (history sc ls))) (seq 0 (c_count c))).
  { rewrite history_ids. apply NoDup_Permutation.
    - apply proj_NoDup. auto.
    - apply seq_NoDup.
    - intros x. rewrite in_proj, in_seq. split.
      + intros Hx. destruct (He _ Hx) as (c' & A & B). cbn [fst snd] in *. rewrite Hc in A. injection A as <-. lia.
      + intros Hx. apply Hr. apply callable_runs; auto. exists c. cbn [fst snd]. split; auto. lia. }
  split; [rewrite (Permutation_length HP), seq_length; auto|].
  assert (Hapi : api_wf ops c) by (apply api_api_wf; destruct Hcirc as [_ HC]; apply (HC sc c Hc)).
  rewrite (aw_icount _ _ Hapi), <- (filter_int_seq ops c), <- (filter_perm_length _ _ _ HP).
  assert (K : forall b, In b (history sc ls) -> filter (is_int ops c) (bl_ids b) = bl_int b).
  { intros b Hb. destruct (in_history _ _ Hb) as (l & s & A & B).
    destruct (ls_entry l _ A B) as (c' & k & A' & _ & _ & _ & _ & K1 & K2). cbn [fst snd] in *. rewrite Hc in A'. injection A' as <-.
    unfold bl_ids. rewrite filter_app.
    assert (E1 : filter (is_int ops c) (bl_ni b) = []).
    { clear - K1. induction (bl_ni b) as [|a r IH]; auto. simpl. rewrite (K1 a) by (simpl; auto). apply IH.
      intros; apply K1; simpl; auto. }
    rewrite E1. clear - K2. cbn [app]. induction (bl_int b) as [|a r IH]; auto. simpl. rewrite (K2 a) by (simpl; auto).
    f_equal. apply IH. intros; apply K2; simpl; auto. }
  clear - K. induction (history sc ls) as [|b r IH]; auto. cbn [map concat]. rewrite filter_app, !app_length, K by (simpl; auto).
  rewrite IH; auto. intros; apply K; simpl; auto.
Qed.

Hypothesis Hgates : forall k, k < length (mc_map m) -> exists c, mc_get m k = Some c /\ c_count c <> 0.

Lemma static_rec s sc : Final (mc_map m) all simd_at s -> sc < length (mc_map m) ->
  exists sub c, mc_get m sc = Some c /\ st_get s sc = Some sub /\ ss_simd sub = c_simd c /\
    ss_count sub = c_count c /\ ss_icount sub = c_icount c.
Proof.
  intros [_ HF] Hsc. destruct (Hgates sc Hsc) as (c & Hc & Hne).
  pose proof Hc as Hc'. unfold mc_get in Hc'. destruct (nth_error (mc_map m) sc) as [k|] eqn:Ek; [|discriminate].
  cbn [obind] in Hc'.
  assert (Hh : thist sc all <> []).
  { intros E. destruct (hist_counts sc c Hc) as [X _]. rewrite E in X. simpl in X. congruence. }
  destruct (HF sc k Ek Hh) as (sub & sc' & A & B & R & _). exists sub, c. split; auto. split; auto.
  assert (Hc2 : mc_get m sc' = Some c) by (unfold mc_get; unfold bcopy in B; rewrite B; auto).
  destruct (hist_counts sc' c Hc2) as [E1 E2]. destruct R as [R1 R2 R3 R4].
  rewrite R1, R3, R4, E1, E2. unfold simd_at. rewrite Hc'. auto.
Qed.

Lemma omap_all {A B} (f : A -> option B) (g : A -> B) l : (forall x, In x l -> f x = Some (g x)) -> omap f l = Some (map g l).
Proof.
  induction l as [|x l IH]; intros H; auto. cbn [omap map]. rewrite H by (simpl; auto). cbn [obind].
  rewrite IH; auto. intros; apply H; simpl; auto.
Qed.

Lemma static_counts s : Final (mc_map m) all simd_at s ->
  st_gate_counts s = Some (map (fun id => match mc_get m id with Some c => (c_count c, c_simd c) | None => (0, None) end)
                               (seq 0 (length (mc_map m)))) /\
  st_gate_count s = Some (mc_count m) /\
  st_int_count s = Some (sum_list (map (fun id => match mc_get m id with Some c => c_icount c | None => 0 end)
                                       (seq 0 (length (mc_map m))))) /\
  st_int_count_simd s = Some (mc_int_count m).
Proof.
  intros HF. pose proof (proj1 HF) as HL. unfold st_gate_counts, st_gate_count, st_int_count, st_int_count_simd, mc_count, mc_int_count.
  rewrite HL. pose proof (fun sc => static_rec s sc HF) as R.
  split; [|split; [|split]];
  (erewrite omap_all; [reflexivity|]; intros sc Hsc; apply in_seq in Hsc; destruct (R sc) as (sub & c & A & B & C & D & E);
   [lia|]; rewrite A, B; cbn [option_map]; rewrite ?C, ?D, ?E; reflexivity).
Qed.

(** *** Copies that run through alike layers *)
Section Parting.
Variable geqb : G -> G -> bool.
Hypothesis Hg : forall a b, geqb a b = true <-> a = b.
Hypothesis Horder : opens_in_order m ls.
Hypothesis Hopen : opens_before_parting m h ls.
Hypothesis Hclean : parts_cleanly m h ls.

Lemma order_t l1 e l2 k k' : all = l1 ++ e :: l2 -> bcopy (mc_map m) (fst (fst e)) k -> k' < k ->
  exists e', In e' l1 /\ bcopy (mc_map m) (fst (fst e')) k'.
Proof.
  intros E Hk Hlt. pose proof Hall as HA. rewrite E in HA. apply omap_split in HA.
  destruct HA as (a' & x' & b' & E1 & E2 & E3 & E4). apply pre_of_key in E3. destruct E3 as [E3 _].
  destruct (Horder a' x' b' k k' E1) as (e' & He' & Hk'); [unfold copy_of; rewrite <- E3; auto|auto|].
  assert (T : exists t, pre_of imax m e' = Some t).
  { clear - E2 He'. revert l1 E2. induction a' as [|y a' IH]; intros l1 E2; [destruct He'|]. cbn [omap] in E2.
    destruct (pre_of imax m y) as [z|] eqn:Ey; [|discriminate]. destruct (omap (pre_of imax m) a') as [r|] eqn:Er; [|discriminate].
    destruct He' as [<-|He']; eauto. }
  destruct T as (t & Ht). exists t. split; [apply (omap_In _ _ _ E2); eauto|].
  apply pre_of_key in Ht. rewrite (proj1 Ht). auto.
Qed.

Lemma omap_nth {A B} (f : A -> option B) : forall l r, omap f l = Some r -> forall j y, nth_error r j = Some y ->
  exists x, nth_error l j = Some x /\ f x = Some y.
Proof.
  induction l as [|a l IH]; intros r E j y Hy.
  - injection E as <-. destruct j; discriminate.
  - cbn [omap] in E. destruct (f a) as [b|] eqn:Eb; [|discriminate]. destruct (omap f l) as [r'|] eqn:Er; [|discriminate].
    cbn [obind] in E. injection E as <-. destruct j as [|j]; simpl in *; [exists a; split; auto; congruence|].
    eapply IH; eauto.
Qed.

Lemma omap_nth' {A B} (f : A -> option B) : forall l r, omap f l = Some r -> forall j x, nth_error l j = Some x ->
  exists y, nth_error r j = Some y /\ f x = Some y.
Proof.
  induction l as [|a l IH]; intros r E j x Hx.
  - destruct j; discriminate.
  - cbn [omap] in E. destruct (f a) as [b|] eqn:Eb; [|discriminate]. destruct (omap f l) as [r'|] eqn:Er; [|discriminate].
    cbn [obind] in E. injection E as <-. destruct j as [|j]; simpl in *; [exists b; split; auto; congruence|].
    eapply IH; eauto.
Qed.

(** Histories of a part of the layers. *)
Lemma hist_part sc : forall l t, omap (pre_of imax m) l = Some t ->
  omap (sl_from_base imax m sc) (history sc [l]) = Some (thist sc t).
Proof.
  induction l as [|e l IH]; intros t E.
  - injection E as <-. auto.
  - cbn [omap] in E. destruct (pre_of imax m e) as [x|] eqn:Ex; [|discriminate].
    destruct (omap (pre_of imax m) l) as [r|] eqn:Er; [|discriminate]. cbn [obind] in E. injection E as <-.
    specialize (IH r eq_refl). change (x :: r) with ([x] ++ r). rewrite thist_app, thist_one.
    apply pre_of_key in Ex. destruct Ex as [Ek El].
    unfold history in *. cbn [concat app filter map] in *. rewrite app_nil_r in *. rewrite Ek.
    destruct (Nat.eqb_spec (fst (fst e)) sc) as [<-|]; auto. cbn [map omap]. rewrite El. cbn [obind]. rewrite IH. auto.
Qed.

Lemma part_iff l t sc1 sc2 k d : omap (pre_of imax m) l = Some t -> bcopy (mc_map m) sc1 k -> bcopy (mc_map m) sc2 k ->
  split_at (thist sc1 t) (thist sc2 t) d -> parted h sc1 sc2 [l] d.
Proof.
  intros Ht H1 H2 (S & x & y & Hx & Hy & Hn). pose proof (hist_part sc1 l t Ht) as T1. pose proof (hist_part sc2 l t Ht) as T2.
  split.
  - intros j b1 b2 Hj B1 B2. destruct (omap_nth' _ _ _ T1 j b1 B1) as (z1 & Z1 & F1).
    destruct (omap_nth' _ _ _ T2 j b2 B2) as (z2 & Z2 & F2). rewrite S in Z1 by auto. rewrite Z1 in Z2. injection Z2 as ->.
    eapply (pre_unlike imax m); eauto. intros g. apply Hwired.
  - destruct (omap_nth _ _ _ T1 d x Hx) as (b1 & B1 & F1). destruct (omap_nth _ _ _ T2 d y Hy) as (b2 & B2 & F2).
    exists b1, b2. split; auto. split; auto. intros Ha. apply Hn.
    assert (E : sl_from_base imax m sc1 b1 = sl_from_base imax m sc2 b2); [|congruence].
    apply (pre_alike imax m _ _ _ _ h); auto.
    + intros g. apply Hwired.
    + unfold mc_get. unfold bcopy in *. rewrite H1, H2. auto.
Qed.

Lemma open_t l1 e l2 k : all = l1 ++ e :: l2 -> bcopy (mc_map m) (fst (fst e)) k ->
  (forall e', In e' l1 -> ~ bcopy (mc_map m) (fst (fst e')) k) ->
  forall sc1 sc2 k' d, bcopy (mc_map m) sc1 k' -> bcopy (mc_map m) sc2 k' -> ~ split_at (thist sc1 l1) (thist sc2 l1) d.
Proof.
  intros E Hk Hno sc1 sc2 k' d H1 H2 Hs. pose proof Hall as HA. rewrite E in HA. apply omap_split in HA.
  destruct HA as (a' & x' & b' & E1 & E2 & E3 & E4). apply pre_of_key in E3. destruct E3 as [E3 _].
  apply (Hopen a' x' b' k E1) with (sc1 := sc1) (sc2 := sc2) (k' := k') (d := d); auto.
  - unfold copy_of. rewrite <- E3. auto.
  - intros e' He' Hc. 
    assert (T : exists t, pre_of imax m e' = Some t).
    { clear - E2 He'. revert l1 E2. induction a' as [|y a' IH]; intros l1 E2; [destruct He'|]. cbn [omap] in E2.
      destruct (pre_of imax m y) as [z|] eqn:Ey; [|discriminate]. destruct (omap (pre_of imax m) a') as [r|] eqn:Er; [|discriminate].
      destruct He' as [<-|He']; eauto. }
    destruct T as (t & Ht). apply (Hno t); [apply (omap_In _ _ _ E2); eauto|].
    apply pre_of_key in Ht. rewrite (proj1 Ht). auto.
  - eapply part_iff; eauto.
Qed.

Lemma clean_t l1 e l2 k sc1 sc2 d : all = l1 ++ e :: l2 -> bcopy (mc_map m) (fst (fst e)) k ->
  bcopy (mc_map m) sc1 k -> bcopy (mc_map m) sc2 k ->
  split_at (thist (fst (fst e)) (l1 ++ [e])) (thist sc1 l1) (length (thist (fst (fst e)) l1)) ->
  split_at (thist (fst (fst e)) l1) (thist sc2 l1) d ->
  exists y, nth_error (thist sc2 l1) (length (thist (fst (fst e)) l1)) = Some y /\ y <> snd e.
Proof.
  intros E Hk H1 H2 S1 S2. pose proof Hall as HA. rewrite E in HA. apply omap_split in HA.
  destruct HA as (a' & x' & b' & E1 & E2 & E3 & E4). pose proof E3 as E5. apply pre_of_key in E3. destruct E3 as [E3 E6].
  assert (Hne : sc1 <> fst (fst e)).
  { intros X. destruct S1 as (_ & x & y & _ & Hy & _). rewrite X in Hy.
    assert (length (thist (fst (fst e)) l1) < length (thist (fst (fst e)) l1)) by (apply nth_error_Some; congruence). lia. }
  assert (Hl : length (history (fst (fst e)) [a']) = length (thist (fst (fst e)) l1))
    by (symmetry; eapply omap_length; apply hist_part; eauto).
  rewrite E3 in *. cbn [fst snd] in *.
  assert (Eae : omap (pre_of imax m) (a' ++ [x']) = Some (l1 ++ [e])).
  { rewrite omap_app, E2. cbn [omap obind]. rewrite E5. auto. }
  destruct (Hclean a' x' b' k sc1 sc2 d E1) as (b & B1 & B2); auto.
  - rewrite Hl. eapply part_iff; [exact Eae|exact Hk|exact H1|].
    replace (thist sc1 (l1 ++ [e])) with (thist sc1 l1); auto. rewrite thist_app, thist_one, E3.
    destruct (Nat.eqb_spec (fst (fst x')) sc1); [congruence|rewrite app_nil_r; auto].
  - eapply part_iff; eauto.
  - rewrite Hl in B1. destruct (omap_nth' _ _ _ (hist_part sc2 a' l1 E2) _ _ B1) as (y & Y1 & Y2).
    exists y. split; auto. intros ->. apply B2. eapply (pre_unlike imax m); eauto. intros g. apply Hwired.
Qed.

Lemma precompute_final : exists s, st_precompute ops geqb imax m perm = Some s /\
  Final (mc_map m) all simd_at s /\ st_layers s = map (map tkey) tls /\ st_conns s = mc_conns m /\
  exists c0, mc_get m 0 = Some c0 /\ st_ins s = c_inputs c0 /\ st_outs s = c_outputs c0.
Proof.
  destruct Hcirc as [(c0 & H0) _].
  destruct (run_layers geqb imax m all (Inv (mc_map m) simd_at)) with (ls := ls) (tls := tls) (evs := @nil (tev G))
    (s := SCirc (c_inputs c0) (c_outputs c0) (@nil (ssub G)) (mc_map m) [] (mc_conns m)) (sp := @nil (nat * list nat))
    (ptrs := repeat 0 (length (mc_map m))) as (s & sp & ptrs & E & HI & A1 & A2 & A3 & A4); auto.
  - intros evs e rest s sp ptrs E HI.
    apply (inv_step geqb Hg (mc_map m) all simd_at Hbase order_t open_t clean_t evs e rest s sp ptrs E HI).
  - intros evs s sp ptrs ll [B1 B2 B3 B4 B5 B6 B7 B8 B9 B10]. constructor; auto.
  - constructor; cbn [st_map st_subs]; auto.
    + apply ptrs_init.
    + intros k sub Hk. destruct k; discriminate.
    + intros sc k _ Hno. destruct (Hno eq_refl).
    + intros sc1 sc2 k1 k2 r _ _ Hno. destruct (Hno eq_refl).
    + intros sc k _ Hno. destruct (Hno eq_refl).
    + intros r q [].
    + intros r q sc1 sc2 k1 k2 [].
    + left. simpl. intros; lia.
  - exists s. split.
    + unfold st_precompute. rewrite Hls. cbn [obind]. rewrite H0. cbn [obind].
      exact (f_equal (fun o => obind o _) E).
    + split; [eapply inv_final; eauto|]. split; [exact A1|]. split; [exact A4|]. exists c0. auto.
Qed.
End Parting.

(** Copies that run through alike layers never part. *)
Lemma alike_never_parts : copies_alike m h ls -> opens_before_parting m h ls /\ parts_cleanly m h ls.
Proof.
  intros Ha.
  assert (N : forall l1 l2 sc1 sc2 k d, concat ls = l1 ++ l2 -> copy_of m sc1 k -> copy_of m sc2 k -> ~ parted h sc1 sc2 [l1] d).
  { intros l1 l2 sc1 sc2 k d E H1 H2 (_ & b1 & b2 & B1 & B2 & Hn). apply Hn. apply (Ha sc1 sc2 k d); auto.
    - revert B1. unfold history. rewrite E. cbn [concat]. rewrite app_nil_r, filter_app, map_app. intros B1.
      rewrite nth_error_app1; auto. apply nth_error_Some. congruence.
    - revert B2. unfold history. rewrite E. cbn [concat]. rewrite app_nil_r, filter_app, map_app. intros B2.
      rewrite nth_error_app1; auto. apply nth_error_Some. congruence. }
  split.
  - intros l1 e l2 k E _ _ sc1 sc2 k' d H1 H2. apply (N l1 (e :: l2) sc1 sc2 k' d); auto.
  - intros l1 e l2 k sc1 sc2 d E H0 H1 H2 p _ Hp. exfalso. apply (N l1 (e :: l2) _ sc2 k d E H0 H2 Hp).
Qed.
End Static.
