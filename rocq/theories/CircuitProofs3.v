(** Circuits built through the API, and the final statements about layers. *)
From Coq Require Import List Bool Arith Lia Permutation.
Require Import Verif.Prelude Verif.PreludeProofs Verif.GateModel Verif.CircuitModel
  Verif.CircuitSpec Verif.CircuitProofs Verif.CircuitProofs2.
Import ListNotations.

Lemma ids_where_snoc {G} (f : G -> bool) gs g :
  ids_where f (gs ++ [g]) = ids_where f gs ++ (if f g then [length gs] else []).
Proof.
  unfold ids_where. rewrite app_length. simpl length. rewrite Nat.add_1_r, seq_S, filter_app.
  f_equal.
  - apply filter_ext_in. intros i Hi. apply in_seq in Hi. rewrite nth_error_app1 by lia. auto.
  - simpl. rewrite nth_error_app2 by lia. rewrite Nat.sub_diag. simpl. destruct (f g); auto.
Qed.

Lemma ids_where_In {G} (f : G -> bool) gs i :
  In i (ids_where f gs) <-> exists x, nth_error gs i = Some x /\ f x = true.
Proof.
  unfold ids_where. rewrite filter_In, in_seq. split.
  - intros [H1 H2]. destruct (nth_error gs i); [eauto|discriminate].
  - intros (x & E & Hf). rewrite E. split; auto. simpl. split; [lia|].
    apply nth_error_Some. congruence.
Qed.

Lemma ids_where_NoDup {G} (f : G -> bool) gs : NoDup (ids_where f gs).
Proof. unfold ids_where. apply NoDup_filter, seq_NoDup. Qed.

Record api_wf {P G} (ops : gate_ops P G) (c : circuit G) : Prop := {
  aw_range : in_range c;
  aw_inputs : c_inputs c = ids_where (is_input_gate ops) (c_gates c);
  aw_outputs : c_outputs c = ids_where (is_output_gate ops) (c_gates c);
  aw_consts : c_consts c = ids_where (is_const_gate ops) (c_gates c);
  aw_scouts : c_scouts c = ids_where (is_scout_gate ops) (c_gates c);
  aw_scins : c_scins c = ids_where (is_scin_gate ops) (c_gates c);
  aw_icount : c_icount c = length (filter (g_inter ops) (c_gates c)) }.

Lemma api_api_wf {P G} (ops : gate_ops P G) (c : circuit G) : api ops c -> api_wf ops c.
Proof.
  induction 1 as [ | |c n H IH|c g H IH|c f t c' H IH E].
  - constructor; simpl; auto. intros ? ? [].
  - constructor; simpl; auto. intros ? ? [].
  - destruct IH. constructor; simpl; auto.
  - destruct IH as [H1 H2 H3 H4 H5 H6 H7]. constructor; simpl.
    + intros p q Hp. apply H1 in Hp. unfold c_count in *. simpl. rewrite app_length. simpl. lia.
    + rewrite ids_where_snoc, H2. unfold is_input_gate. destruct (g_base ops g) as [[]|]; simpl;
        rewrite ?app_nil_r; auto.
    + rewrite ids_where_snoc, H3. unfold is_output_gate. destruct (g_base ops g) as [[]|]; simpl;
        rewrite ?app_nil_r; auto.
    + rewrite ids_where_snoc, H4. unfold is_const_gate. destruct (g_base ops g) as [[]|]; simpl;
        rewrite ?app_nil_r; auto.
    + rewrite ids_where_snoc, H5. unfold is_scout_gate. destruct (g_base ops g) as [[]|]; simpl;
        rewrite ?app_nil_r; auto.
    + rewrite ids_where_snoc, H6. unfold is_scin_gate. destruct (g_base ops g) as [[]|]; simpl;
        rewrite ?app_nil_r; auto.
    + rewrite filter_app, app_length, H7. simpl. destruct (g_inter ops g); simpl; lia.
  - unfold add_wire in E. destruct ((f <? c_count c) && (t <? c_count c)) eqn:Eb; [|discriminate].
    injection E as <-. apply andb_true_iff in Eb. destruct Eb as [Ef Et].
    apply Nat.ltb_lt in Ef, Et.
    destruct IH as [H1 H2 H3 H4 H5 H6 H7]. constructor; simpl; auto.
    intros p g [Hp|Hp]; [injection Hp as <- <-|]; unfold c_count in *; simpl; auto.
Qed.

(** Roots of the graph are exactly the start list. *)
Lemma layers_from {P G} (ops : gate_ops P G) (c : circuit G) Src :
  in_range c -> acyclic c -> NoDup Src ->
  (forall g, In g Src <-> g < c_count c /\ parents c g = []) ->
  exists ls,
    li_collect ops c (S (c_count c))
      (LI (map (fun g => length (parents c g)) (seq 0 (c_count c))) [] [] Src
          (repeat None (c_count c)) 0) = Some ls /\
    Sched ops c [] ls /\
    Permutation (all_ids ls) (seq 0 (c_count c)) /\
    (forall j g, in_layer ls j g -> mult_depth ops c g j) /\
    (forall j l l', nth_error ls j = Some l -> nth_error ls (S j) = Some l' -> bl_int l <> []).
Proof.
  intros Hr (rank & Hrank) Hnd Hs.
  destruct (li_collect_spec ops c Src Hr (S (c_count c)) [] [] _ 0
              (LIInv_init ops c Src Hnd (fun g H => proj1 (Hs g) H)))
    as (ls & C1 & C2 & C3 & C4 & C5 & C6 & C7 & C8 & _).
  { simpl; lia. }
  { intros p []. }
  { intros p []. }
  { auto. }
  exists ls. split; auto. split; auto. split; [|split; auto].
  simpl in C3, C4, C5, C6.
  apply NoDup_Permutation; auto using seq_NoDup.
  intros g. rewrite in_seq. split; [intros H; apply C4 in H; lia|].
  intros [_ Hg]. simpl in Hg.
  remember (rank g) as r eqn:Er. revert g Er Hg.
  induction r as [r IH] using lt_wf_ind. intros g -> Hg.
  destruct (parents c g) as [|p ps] eqn:Ep.
  - apply C5, Hs. auto.
  - apply C6; auto; [congruence|]. intros q Hq. apply (IH (rank q)); auto.
    exact (proj1 (in_range_parents c q g Hr Hq)).
Qed.

Lemma NoDup_ids_app {G} (f g : G -> bool) gs :
  (forall x, f x = true -> g x = false) -> NoDup (ids_where f gs ++ ids_where g gs).
Proof.
  intros H. apply NoDup_app_intro; auto using ids_where_NoDup.
  intros x Hx Hy. apply ids_where_In in Hx, Hy. destruct Hx as (a & E & Ha), Hy as (b & E' & Hb).
  rewrite E in E'. injection E' as <-. apply H in Ha. congruence.
Qed.

Lemma main_layers {P G} (ops : gate_ops P G) (c : circuit G) :
  main_ok ops c ->
  exists ls,
    c_layers ops c = Some ls /\
    Sched ops c [] ls /\
    Permutation (all_ids ls) (seq 0 (c_count c)) /\
    (forall j g, in_layer ls j g -> mult_depth ops c g j) /\
    (forall j l l', nth_error ls j = Some l -> nth_error ls (S j) = Some l' -> bl_int l <> []).
Proof.
  intros (Ha & Hac & Hroot). apply api_api_wf in Ha. destruct Ha as [H1 H2 H3 H4 H5 H6 H7].
  unfold c_layers, li_new, li_new_uninit. cbn [li_needed li_prev li_visit li_next li_left li_produced].
  apply layers_from; auto.
  - rewrite H4, H2. apply NoDup_ids_app. unfold is_const_gate, is_input_gate.
    intros x. destruct (g_base ops x) as [[]|]; congruence.
  - intros g. rewrite H4, H2, in_app_iff, !ids_where_In. split.
    + intros H. assert (exists x, nth_error (c_gates c) g = Some x /\
        is_input_gate ops x || is_const_gate ops x = true) as (x & E & Hk).
      { destruct H as [(x & E & Hk)|(x & E & Hk)]; exists x; rewrite Hk, ?orb_true_r; auto. }
      split; [apply nth_error_Some; congruence|]. apply (Hroot _ _ E); auto.
    + intros [Hg Hp]. destruct (nth_error (c_gates c) g) as [x|] eqn:E;
        [|apply nth_error_None in E; unfold c_count in Hg; lia].
      apply (Hroot _ _ E) in Hp. apply orb_true_iff in Hp. destruct Hp; eauto.
Qed.

Lemma sub_layers {P G} (ops : gate_ops P G) (c : circuit G) :
  sub_ok ops c ->
  exists ls,
    c_layers_sc ops c = Some ls /\
    Sched ops c [] ls /\
    Permutation (all_ids ls) (seq 0 (c_count c)) /\
    (forall j g, in_layer ls j g -> mult_depth ops c g j) /\
    (forall j l l', nth_error ls j = Some l -> nth_error ls (S j) = Some l' -> bl_int l <> []).
Proof.
  intros (Ha & Hac & Hroot). apply api_api_wf in Ha. destruct Ha as [H1 H2 H3 H4 H5 H6 H7].
  unfold c_layers_sc, li_visit_sc, li_new, li_new_uninit.
  cbn [li_needed li_prev li_visit li_next li_left li_produced].
  apply layers_from; auto.
  - rewrite H4, H2, H6. rewrite <- app_assoc. apply NoDup_app_intro; auto using ids_where_NoDup.
    + apply NoDup_ids_app. unfold is_scin_gate, is_input_gate.
      intros x. destruct (g_base ops x) as [[]|]; congruence.
    + intros x Hx Hy. rewrite in_app_iff in Hy. rewrite !ids_where_In in *.
      destruct Hx as (a & E & Ha).
      destruct Hy as [(b & E' & Hb)|(b & E' & Hb)]; rewrite E in E'; injection E' as <-;
        unfold is_const_gate, is_input_gate, is_scin_gate in *;
        destruct (g_base ops a) as [[]|]; congruence.
  - intros g. rewrite H4, H2, H6, !in_app_iff, !ids_where_In. split.
    + intros H. assert (exists x, nth_error (c_gates c) g = Some x /\
        is_input_gate ops x || is_const_gate ops x || is_scin_gate ops x = true) as (x & E & Hk).
      { destruct H as [[(x & E & Hk)|(x & E & Hk)]|(x & E & Hk)]; exists x;
          rewrite Hk, ?orb_true_r; auto. }
      split; [apply nth_error_Some; congruence|]. apply (Hroot _ _ E); auto.
    + intros [Hg Hp]. destruct (nth_error (c_gates c) g) as [x|] eqn:E;
        [|apply nth_error_None in E; unfold c_count in Hg; lia].
      apply (Hroot _ _ E) in Hp. rewrite !orb_true_iff in Hp. destruct Hp as [[?|?]|?]; eauto 6.
Qed.

(** From the inductive schedule to statements about positions. *)
Lemma Sched_nth {P G} (ops : gate_ops P G) (c : circuit G) : forall ls P0 i l,
  Sched ops c P0 ls -> nth_error ls i = Some l ->
  LoopRes ops c (P0 ++ all_ids (firstn i ls)) (bl_ni l) (bl_int l) /\
  (forall f, In f (bl_free l) ->
     In f ((P0 ++ all_ids (firstn i ls)) ++ bl_ni l) /\
     incl (children c f) ((P0 ++ all_ids (firstn i ls)) ++ bl_ids l) /\
     exists h, In h (children c f) /\ In h (bl_ids l)).
Proof.
  induction ls as [|a ls IH]; intros P0 i l HS Hi; [destruct i; discriminate|].
  simpl in HS. destruct HS as (S1 & S2 & _ & S3). destruct i as [|i].
  - simpl in Hi. injection Hi as <-. simpl. rewrite app_nil_r. auto.
  - simpl in Hi. destruct (IH _ _ _ S3 Hi) as [A B].
    change (all_ids (firstn (S i) (a :: ls))) with (bl_ids a ++ all_ids (firstn i ls)).
    rewrite (app_assoc P0 (bl_ids a)). auto.
Qed.

Lemma in_all_ids ls i g :
  In g (all_ids (firstn i ls)) <-> exists j, j < i /\ in_layer ls j g.
Proof.
  unfold all_ids, in_layer. split.
  - intros H. apply in_concat in H. destruct H as (x & Hx & Hg). apply in_map_iff in Hx.
    destruct Hx as (l & <- & Hl). apply In_nth_error in Hl. destruct Hl as (j & Hj).
    assert (Hji : j < length (firstn i ls)) by (apply nth_error_Some; congruence).
    rewrite firstn_length in Hji. exists j. split; [lia|]. exists l. split; auto.
    rewrite <- (firstn_skipn i ls). rewrite nth_error_app1; auto. rewrite firstn_length. lia.
  - intros (j & Hj & l & Hl & Hg). apply in_concat. exists (bl_ids l). split; auto.
    apply in_map. assert (j < length ls) by (apply nth_error_Some; congruence).
    eapply nth_error_In with (n := j). rewrite <- (firstn_skipn i ls) in Hl.
    rewrite nth_error_app1 in Hl; auto. rewrite firstn_length. lia.
Qed.

Lemma Sched_order {P G} (ops : gate_ops P G) (c : circuit G) ls :
  Sched ops c [] ls ->
  forall i l g p, nth_error ls i = Some l -> In g (bl_ids l) -> In p (parents c g) ->
    (exists j, j < i /\ in_layer ls j p) \/
    (is_int ops c p = false /\ before (bl_ids l) p g).
Proof.
  intros HS i l g p Hl Hg Hp. destruct (Sched_nth _ _ _ _ _ _ HS Hl) as [[R1 R2 R3 R4] _].
  simpl in R1, R2. unfold bl_ids in Hg. apply in_app_or in Hg. destruct Hg as [Hg|Hg].
  - apply in_split in Hg. destruct Hg as (l1 & l2 & E). pose proof (R1 _ _ _ E p Hp) as H.
    apply in_app_or in H. destruct H as [H|H].
    + left. apply in_all_ids; auto.
    + right. split; [apply R3; rewrite E; apply in_or_app; auto|].
      apply in_split in H. destruct H as (a & b & ->). unfold bl_ids, before. rewrite E.
      exists a, b, (l2 ++ bl_int l). repeat (rewrite <- app_assoc; simpl). auto.
  - pose proof (R2 _ Hg p Hp) as H. apply in_app_or in H. destruct H as [H|H].
    + left. apply in_all_ids; auto.
    + right. split; [apply R3; auto|]. apply in_split in H. destruct H as (a & b & E).
      apply in_split in Hg. destruct Hg as (a' & b' & E'). unfold bl_ids, before. rewrite E, E'.
      exists a, (b ++ a'), b'. repeat (rewrite <- app_assoc; simpl). auto.
Qed.

Lemma Sched_kinds {P G} (ops : gate_ops P G) (c : circuit G) ls :
  Sched ops c [] ls ->
  forall i l g, nth_error ls i = Some l ->
    (In g (bl_ni l) -> is_int ops c g = false) /\ (In g (bl_int l) -> is_int ops c g = true).
Proof.
  intros HS i l g Hl. destruct (Sched_nth _ _ _ _ _ _ HS Hl) as [[R1 R2 R3 R4] _]. auto.
Qed.

Lemma Sched_free {P G} (ops : gate_ops P G) (c : circuit G) ls :
  Sched ops c [] ls ->
  forall i l f, nth_error ls i = Some l -> In f (bl_free l) ->
    ((exists j, j < i /\ in_layer ls j f) \/ In f (bl_ni l)) /\
    (forall h, In f (parents c h) -> exists j, j <= i /\ in_layer ls j h) /\
    (exists h, In f (parents c h) /\ In h (bl_ids l)).
Proof.
  intros HS i l f Hl Hf. destruct (Sched_nth _ _ _ _ _ _ HS Hl) as [_ H].
  destruct (H _ Hf) as (A & B & h0 & C & D). simpl in A, B. split; [|split].
  3:{ exists h0. split; auto. apply parents_children; auto. }
  - apply in_app_or in A. destruct A as [A|A]; auto. left. apply in_all_ids; auto.
  - intros h Hh. apply parents_children in Hh. apply B in Hh. apply in_app_or in Hh.
    destruct Hh as [Hh|Hh].
    + apply in_all_ids in Hh. destruct Hh as (j & Hj & Hh). exists j. split; [lia|auto].
    + exists i. split; auto. exists l. auto.
Qed.

Lemma all_ids_layer ls g : In g (all_ids ls) -> exists j, in_layer ls j g.
Proof.
  intros H. rewrite <- (firstn_all ls) in H. apply in_all_ids in H.
  destruct H as (j & _ & H). eauto.
Qed.

Lemma layer_all_ids ls j g : in_layer ls j g -> In g (all_ids ls).
Proof.
  intros H. rewrite <- (firstn_all ls). apply in_all_ids. exists j. split; auto.
  destruct H as (l & H & _). apply nth_error_Some. congruence.
Qed.

(** All layers but the last have interactive gates. *)
Lemma rounds_char ls :
  (forall j l l', nth_error ls j = Some l -> nth_error ls (S j) = Some l' -> bl_int l <> []) ->
  (forall j l, nth_error ls j = Some l -> (bl_int l <> [] <-> j < rounds ls)) /\
  rounds ls <= length ls.
Proof.
  unfold rounds. induction ls as [|a ls IH]; intros H.
  - split; [intros j l Hl; destruct j; discriminate|simpl; lia].
  - destruct IH as [IH1 IH2].
    { intros j l l' A B. apply (H (S j) l l'); auto. }
    destruct ls as [|b ls].
    + simpl. destruct (bl_int a) as [|x0 l0] eqn:Ea; simpl; split; try lia.
      * intros [|j] l Hl; [|destruct j; discriminate]. injection Hl as <-.
        rewrite Ea. split; [congruence|lia].
      * intros [|j] l Hl; [|destruct j; discriminate]. injection Hl as <-.
        rewrite Ea. split; [lia|congruence].
    + assert (Ha : bl_int a <> []) by (apply (H 0 a b); auto).
      remember (b :: ls) as r eqn:Er. clear Er.
      cbn [filter]. destruct (bl_int a) as [|x0 l0] eqn:Ea; [congruence|].
      cbn [length]. split; [|lia].
      intros [|j] l Hl.
      * injection Hl as <-. rewrite Ea. split; [lia|congruence].
      * simpl in Hl. rewrite (IH1 j l Hl). lia.
Qed.

Lemma layers_depth {P G} (ops : gate_ops P G) (c : circuit G) ls :
  in_range c ->
  Sched ops c [] ls ->
  Permutation (all_ids ls) (seq 0 (c_count c)) ->
  (forall j g, in_layer ls j g -> mult_depth ops c g j) ->
  (forall j l l', nth_error ls j = Some l -> nth_error ls (S j) = Some l' -> bl_int l <> []) ->
  circuit_depth ops c (rounds ls).
Proof.
  intros Hr HS HP HD HL. destruct (rounds_char ls HL) as [R1 R2]. split.
  - destruct (rounds ls) as [|k] eqn:Ek; auto. right.
    destruct (nth_error ls k) as [l|] eqn:El; [|apply nth_error_None in El; lia].
    assert (bl_int l <> []) by (apply (R1 k); auto).
    destruct (bl_int l) as [|g r] eqn:Eg; [congruence|].
    assert (Hg : In g (bl_int l)) by (rewrite Eg; simpl; auto).
    exists g, k. split; [eapply Sched_kinds; eauto|]. split; auto.
    apply HD. exists l. split; auto. unfold bl_ids. apply in_or_app; auto.
  - intros g k Hg Hk.
    assert (Hn : g < c_count c).
    { unfold is_int in Hg. destruct (nth_error (c_gates c) g) eqn:E; [|discriminate].
      apply nth_error_Some. congruence. }
    assert (Hin : In g (all_ids ls)).
    { apply (Permutation_in _ (Permutation_sym HP)). apply in_seq. lia. }
    apply all_ids_layer in Hin. destruct Hin as (j & Hj). destruct (HD _ _ Hj) as [_ Hm].
    apply Hm in Hk. destruct Hj as (l & Hl & Hgl).
    assert (Hjr : j < rounds ls); [|lia]. apply (R1 j l Hl).
    unfold bl_ids in Hgl. apply in_app_or in Hgl. destruct Hgl as [Hgl|Hgl].
    + apply (Sched_kinds ops c ls HS j l g Hl) in Hgl. congruence.
    + intros E. rewrite E in Hgl. destruct Hgl.
Qed.

(** Circuits made only of source gates and of [add_wired_gate] meet the
    hypotheses. *)
Lemma ofold_add_wire_api {P G} (ops : gate_ops P G) id : forall from (c c' : circuit G),
  api ops c -> ofold (fun c f => add_wire c f id) c from = Some c' ->
  api ops c' /\ c_gates c' = c_gates c /\
  c_edges c' = rev (map (fun f => (f, id)) from) ++ c_edges c /\
  (forall f, In f from -> f < c_count c).
Proof.
  induction from as [|f r IH]; simpl; intros c c' Ha H.
  - injection H as <-. repeat split; auto. intros f [].
  - destruct (add_wire c f id) as [c1|] eqn:E; [|discriminate]. simpl in H.
    pose proof (api_wire ops c f id c1 Ha E) as Ha1.
    destruct (IH c1 c' Ha1 H) as (A & B & C & D).
    unfold add_wire in E. destruct ((f <? c_count c) && (id <? c_count c)) eqn:Eb; [|discriminate].
    injection E as <-. simpl in *. apply andb_true_iff in Eb. destruct Eb as [Ef _].
    apply Nat.ltb_lt in Ef. repeat split; auto.
    + rewrite C. rewrite <- app_assoc. reflexivity.
    + intros g [->|Hg]; auto.
Qed.

Lemma parents_add_gate {P G} (ops : gate_ops P G) c g x :
  parents (fst (add_gate ops c g)) x = parents c x.
Proof. reflexivity. Qed.

Lemma parents_fresh {G} (c : circuit G) x : in_range c -> c_count c <= x -> parents c x = [].
Proof.
  intros Hr Hx. destruct (parents c x) as [|p ps] eqn:E; auto. exfalso.
  assert (In p (parents c x)) by (rewrite E; simpl; auto).
  apply in_range_parents in H; auto. lia.
Qed.

Lemma filter_all_to (to x : nat) (from : list nat) :
  filter (fun e : nat * nat => snd e =? x) (map (fun f => (f, to)) from) =
  if to =? x then map (fun f => (f, to)) from else [].
Proof.
  induction from; simpl; [destruct (to =? x); auto|].
  rewrite IHfrom. destruct (to =? x); auto.
Qed.

(** Parents after [add_wired_gate]: the listed gates in the given order. *)
Lemma add_wired_gate_spec {P G} (ops : gate_ops P G) (c c' : circuit G) g from id :
  api ops c -> add_wired_gate ops c g from = Some (c', id) ->
  api ops c' /\ id = c_count c /\ c_gates c' = c_gates c ++ [g] /\
  (forall x, parents c' x = if x =? c_count c then from else parents c x) /\
  (forall f, In f from -> f <= c_count c).
Proof.
  intros Ha H. unfold add_wired_gate in H.
  destruct (add_gate ops c g) as [c1 i1] eqn:E1.
  assert (Ei : i1 = c_count c) by (injection E1; auto).
  assert (Ec : c1 = fst (add_gate ops c g)) by (rewrite E1; auto).
  pose proof (api_gate ops c g Ha) as Ha1. rewrite <- Ec in Ha1.
  destruct (ofold _ c1 (rev from)) as [c2|] eqn:E2; [|discriminate].
  injection H as <- <-.
  destruct (ofold_add_wire_api ops i1 (rev from) c1 c2 Ha1 E2) as (A & B & C & D).
  pose proof (aw_range _ _ (api_api_wf ops c Ha)) as Hr.
  split; auto. split; auto. split; [rewrite B, Ec; auto|]. split.
  - intros x. unfold parents. rewrite C, filter_app, map_app.
    rewrite <- map_rev, rev_involutive. rewrite filter_all_to, Ei.
    rewrite Ec. cbn [fst add_gate c_edges].
    rewrite (Nat.eqb_sym x). destruct (Nat.eqb_spec (c_count c) x).
    + subst x. pose proof (parents_fresh c (c_count c) Hr (le_n _)) as Hf. unfold parents in Hf.
      rewrite Hf, app_nil_r, map_map. simpl. apply map_id.
    + simpl. auto.
  - intros f Hf. apply in_rev in Hf. apply D in Hf. rewrite Ec in Hf. unfold c_count in *.
    simpl in Hf. rewrite app_length in Hf. simpl in Hf. lia.
Qed.

Lemma wired_main_ok_gen {P G} (ops : gate_ops P G) (c : circuit G) :
  wired ops c ->
  api ops c /\ (forall p g, In p (parents c g) -> p < g) /\
  roots_are ops c (fun x => is_input_gate ops x || is_const_gate ops x).
Proof.
  induction 1 as [ | |c n H IH|c g H IH Hk|c g from c' id H IH Hk Hne Hf E].
  - split; [constructor|]. split; [intros ? ? []|]. intros [|g] x; discriminate.
  - split; [constructor|]. split; [intros ? ? []|]. intros [|g] x; discriminate.
  - destruct IH as (A & B & C). split; [constructor; auto|]. split; auto.
  - destruct IH as (A & B & C). split; [constructor; auto|]. split; auto.
    intros i x Hx. rewrite parents_add_gate. simpl in Hx.
    destruct (Nat.ltb_spec i (length (c_gates c))) as [Hi|Hi].
    + rewrite nth_error_app1 in Hx by auto. apply C; auto.
    + rewrite parents_fresh by (auto; apply (aw_range _ _ (api_api_wf ops c A))).
      rewrite nth_error_app2 in Hx by auto. destruct (i - length (c_gates c)) as [|k].
      * simpl in Hx. injection Hx as <-. tauto.
      * simpl in Hx. destruct k; discriminate.
  - destruct IH as (A & B & C).
    destruct (add_wired_gate_spec ops c c' g from id A E) as (A' & Ei & Eg & Ep & _).
    split; auto. split.
    + intros p x Hp. rewrite Ep in Hp. destruct (Nat.eqb_spec x (c_count c)); auto.
      subst x. rewrite Forall_forall in Hf. auto.
    + intros i x Hx. rewrite Ep. rewrite Eg in Hx. destruct (Nat.eqb_spec i (c_count c)).
      * subst i. unfold c_count in Hx. rewrite nth_error_app2, Nat.sub_diag in Hx by auto.
        simpl in Hx. injection Hx as <-. rewrite Hk. split; congruence.
      * apply C. destruct (Nat.ltb_spec i (length (c_gates c))) as [Hi|Hi].
        -- rewrite nth_error_app1 in Hx by auto. auto.
        -- rewrite nth_error_app2 in Hx by auto. unfold c_count in n.
           destruct (i - length (c_gates c)) as [|k] eqn:Ek; [lia|].
           simpl in Hx. destruct k; discriminate.
Qed.

Lemma wired_main_ok {P G} (ops : gate_ops P G) (c : circuit G) :
  wired ops c -> main_ok ops c.
Proof.
  intros H. destruct (wired_main_ok_gen ops c H) as (A & B & C). split; auto. split; auto.
  exists (fun x => x). auto.
Qed.
