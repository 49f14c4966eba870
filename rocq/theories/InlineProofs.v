(** Proofs about [add_sub_circuit]. *)
From Coq Require Import List Bool Arith Lia Permutation.
Require Import Verif.Prelude Verif.PreludeProofs Verif.GateModel Verif.CircuitModel
  Verif.CircuitSpec Verif.CircuitProofs Verif.CircuitProofs2 Verif.CircuitProofs3
  Verif.InlineModel Verif.InlineSpec.
Import ListNotations.

(** ** Adding wires to one gate *)

Lemma add_wire_some {G} (c : circuit G) f t : f < c_count c -> t < c_count c ->
  exists c', add_wire c f t = Some c'.
Proof.
  intros Hf Ht. unfold add_wire. apply Nat.ltb_lt in Hf, Ht. rewrite Hf, Ht. simpl. eauto.
Qed.

Lemma add_wire_spec {G} (c c' : circuit G) f t : add_wire c f t = Some c' ->
  c_gates c' = c_gates c /\ c_edges c' = (f, t) :: c_edges c /\ c_simd c' = c_simd c /\
  c_is_main c' = c_is_main c /\ f < c_count c /\ t < c_count c /\
  (forall x, parents c' x = if x =? t then f :: parents c x else parents c x).
Proof.
  unfold add_wire. destruct ((f <? c_count c) && (t <? c_count c)) eqn:E; [|discriminate].
  intros H. injection H as <-. apply andb_true_iff in E. destruct E as [Ef Et].
  apply Nat.ltb_lt in Ef, Et. repeat (split; [auto|]). intros x. unfold parents. simpl.
  rewrite (Nat.eqb_sym t x). destruct (x =? t); auto.
Qed.

Lemma add_wires_some {G} id : forall from (c : circuit G),
  (forall f, In f from -> f < c_count c) -> id < c_count c ->
  exists c', ofold (fun c f => add_wire c f id) c from = Some c' /\
    c_simd c' = c_simd c /\ c_is_main c' = c_is_main c.
Proof.
  induction from as [|f r IH]; intros c Hf Hid; simpl; [eauto|].
  destruct (add_wire_some c f id) as (c1 & E); auto using in_eq. rewrite E. simpl.
  destruct (add_wire_spec _ _ _ _ E) as (Eg & _ & Es & Em & _).
  destruct (IH c1) as (c2 & E2 & Hs & Hm).
  - intros x Hx. unfold c_count. rewrite Eg. apply Hf. simpl; auto.
  - unfold c_count. rewrite Eg. auto.
  - exists c2. split; auto. split; congruence.
Qed.

Lemma ofold_map_opt {S A B} (f : S -> B -> option S) (h : A -> option B) (k : A -> B) l : forall s,
  (forall a, In a l -> h a = Some (k a)) ->
  ofold (fun s a => b <- h a ;; f s b) s l = ofold f s (map k l).
Proof.
  induction l as [|a l IH]; intros s H; simpl; auto. rewrite (H a) by (simpl; auto). simpl.
  destruct (f s (k a)); simpl; auto. apply IH. intros b Hb. apply H. simpl; auto.
Qed.

Lemma omap_nth_error {A B} (f : A -> option B) l : forall r, omap f l = Some r ->
  forall i x, nth_error l i = Some x -> exists y, f x = Some y /\ nth_error r i = Some y.
Proof.
  induction l as [|a l IH]; simpl; intros r H i x Hi; [destruct i; discriminate|].
  destruct (f a) as [y|] eqn:Ea; [|discriminate]. simpl in H.
  destruct (omap f l) as [ys|]; [|discriminate]. simpl in H. injection H as <-.
  destruct i as [|i]; simpl in *; [injection Hi as <-; eauto|]. apply IH; auto.
Qed.

Lemma Forall2_len {A B} (R : A -> B -> Prop) l l' : Forall2 R l l' -> length l = length l'.
Proof. induction 1; simpl; auto. Qed.

Section Inline.
Context {P G : Type}.
Variable ops : gate_ops P G.
Variables c sub : circuit G.
Let n := c_count c.

Definition conv (g : nat) (x : G) : Prop :=
  exists y, nth_error (c_gates sub) g = Some y /\ x = asc_gate ops y.

Definition phi (gmap : list nat) (g : nat) : nat := nth g gmap 0.

Record asc_inv (done : list nat) (cc : circuit G) (gmap : list nat) : Prop := {
  ai_api : api ops cc;
  ai_simd : c_simd cc = c_simd c;
  ai_main : c_is_main cc = c_is_main c;
  ai_gates : exists gs, c_gates cc = c_gates c ++ gs /\ Forall2 conv done gs;
  ai_len : length gmap = c_count sub;
  ai_map : forall j g, nth_error done j = Some g -> nth_error gmap g = Some (n + j);
  ai_old : forall h, h < n -> parents cc h = parents c h;
  ai_new : forall j g, nth_error done j = Some g ->
     parents cc (n + j) = rev (map (phi gmap) (parents sub g)) }.

Lemma asc_count done cc gmap : asc_inv done cc gmap -> c_count cc = n + length done.
Proof.
  intros []. destruct ai_gates0 as (gs & E & F). unfold c_count. rewrite E, app_length.
  rewrite <- (Forall2_len _ _ _ F). auto.
Qed.

Lemma phi_done done cc gmap g : asc_inv done cc gmap -> In g done ->
  exists j, nth_error done j = Some g /\ nth_error gmap g = Some (n + j) /\
    phi gmap g = n + j /\ j < length done.
Proof.
  intros HI Hg. apply In_nth_error in Hg. destruct Hg as (j & Hj). exists j.
  pose proof (ai_map _ _ _ HI _ _ Hj) as Hm. split; auto. split; auto. split.
  - unfold phi. apply nth_error_nth with (1 := Hm).
  - apply nth_error_Some. congruence.
Qed.

Lemma asc_step_inv done cc gmap id :
  asc_inv done cc gmap -> id < c_count sub -> ~ In id done ->
  incl (concat (map (parents sub) done)) done -> incl (parents sub id) done ->
  exists cc' gmap', asc_step ops sub (cc, gmap) id = Some (cc', gmap') /\
    asc_inv (done ++ [id]) cc' gmap'.
Proof.
  intros HI Hid Hnd Hcl Hp. pose proof (asc_count _ _ _ HI) as Hcnt.
  unfold asc_step.
  destruct (nth_error (c_gates sub) id) as [gate|] eqn:Eg;
    [|apply nth_error_None in Eg; unfold c_count in Hid; lia].
  cbn [obind]. destruct (add_gate ops cc (asc_gate ops gate)) as [c1 nid] eqn:E1.
  assert (En : nid = n + length done) by (injection E1; intros <- _; exact Hcnt).
  assert (Ec1 : c1 = fst (add_gate ops cc (asc_gate ops gate))) by (rewrite E1; auto).
  assert (Hlt : (id <? length gmap) = true) by (rewrite (ai_len _ _ _ HI); apply Nat.ltb_lt; auto).
  rewrite Hlt. cbn [oassert obind].
  set (gmap1 := upd id nid gmap).
  assert (Hc1 : c_count c1 = S (n + length done)).
  { rewrite Ec1. unfold c_count in *. simpl. rewrite app_length. simpl. lia. }
  assert (Hphi : forall g, In g done -> nth_error gmap1 g = nth_error gmap g).
  { intros g Hg. unfold gmap1. apply upd_nth_error_other. intros ->. auto. }
  assert (Hphi' : forall g, In g done -> phi gmap1 g = phi gmap g).
  { intros g Hg. destruct (phi_done _ _ _ _ HI Hg) as (j & _ & Hm & -> & _).
    unfold phi. apply nth_error_nth. rewrite Hphi; auto. }
  rewrite (ofold_map_opt (fun c0 np => add_wire c0 np nid) _ (phi gmap1)).
  2:{ intros a Ha. apply Hp in Ha. destruct (phi_done _ _ _ _ HI Ha) as (j & _ & Hm & Hj & _).
      rewrite Hphi by auto. rewrite Hphi' by auto. congruence. }
  destruct (add_wires_some nid (map (phi gmap1) (parents sub id)) c1) as (c2 & E2 & Hs & Hmn).
  { intros f Hf. apply in_map_iff in Hf. destruct Hf as (p & <- & Hpp).
    apply Hp in Hpp. rewrite Hphi' by auto. destruct (phi_done _ _ _ _ HI Hpp) as (j & _ & _ & -> & Hj). lia. }
  { lia. }
  rewrite E2. cbn [obind]. exists c2, gmap1. split; auto.
  assert (Hapi1 : api ops c1) by (rewrite Ec1; apply api_gate; apply HI).
  destruct (ofold_add_wire_api ops nid _ c1 c2 Hapi1 E2) as (A & B & C & D).
  assert (Hpar : forall x, parents c2 x =
     if x =? nid then rev (map (phi gmap1) (parents sub id)) else parents cc x).
  { intros x. unfold parents at 1. rewrite C, filter_app, map_app. rewrite <- map_rev.
    rewrite filter_all_to. rewrite (Nat.eqb_sym x nid).
    assert (Eo : map fst (filter (fun e : nat * nat => snd e =? x) (c_edges c1)) = parents cc x)
      by (rewrite Ec1; reflexivity).
    rewrite Eo. destruct (Nat.eqb_spec nid x).
    - subst x. rewrite (parents_fresh cc nid); [|apply (aw_range _ _ (api_api_wf ops cc (ai_api _ _ _ HI)))|lia].
      rewrite app_nil_r, map_map. simpl. apply map_id.
    - reflexivity. }
  constructor.
  - auto.
  - rewrite Hs, Ec1. apply HI.
  - rewrite Hmn, Ec1. apply HI.
  - destruct (ai_gates _ _ _ HI) as (gs & Egs & F). exists (gs ++ [asc_gate ops gate]). split.
    + rewrite B, Ec1. simpl. rewrite Egs. rewrite <- app_assoc. auto.
    + apply Forall2_app; auto. constructor; [|constructor]. exists gate. auto.
  - unfold gmap1. rewrite upd_length. apply HI.
  - intros j g Hj. destruct (Nat.ltb_spec j (length done)) as [Hl|Hl].
    + rewrite nth_error_app1 in Hj by auto. rewrite Hphi by (eapply nth_error_In; eauto).
      apply HI; auto.
    + rewrite nth_error_app2 in Hj by auto. destruct (j - length done) as [|k] eqn:Ek;
        [|destruct k; discriminate]. simpl in Hj. injection Hj as <-.
      unfold gmap1. rewrite upd_nth_error_same by (rewrite (ai_len _ _ _ HI); auto).
      f_equal. lia.
  - intros h Hh. rewrite Hpar. destruct (Nat.eqb_spec h nid); [lia|]. apply HI; auto.
  - intros j g Hj. rewrite Hpar. destruct (Nat.ltb_spec j (length done)) as [Hl|Hl].
    + rewrite nth_error_app1 in Hj by auto. destruct (Nat.eqb_spec (n + j) nid); [lia|].
      rewrite (ai_new _ _ _ HI _ _ Hj). f_equal. apply map_ext_in. intros p Hpp.
      symmetry. apply Hphi'. apply Hcl. apply in_concat. exists (parents sub g).
      split; auto. apply in_map. eapply nth_error_In; eauto.
    + rewrite nth_error_app2 in Hj by auto. destruct (j - length done) as [|k] eqn:Ek;
        [|destruct k; discriminate]. simpl in Hj. injection Hj as <-.
      replace (n + j) with nid by lia. rewrite Nat.eqb_refl. auto.
Qed.

Definition ordered (done todo : list nat) : Prop :=
  forall l1 g l2, todo = l1 ++ g :: l2 -> incl (parents sub g) (done ++ l1).

Lemma asc_fold todo : forall done cc gmap,
  asc_inv done cc gmap -> NoDup (done ++ todo) -> (forall g, In g todo -> g < c_count sub) ->
  incl (concat (map (parents sub) done)) done -> ordered done todo ->
  exists cc' gmap', ofold (asc_step ops sub) (cc, gmap) todo = Some (cc', gmap') /\
    asc_inv (done ++ todo) cc' gmap'.
Proof.
  induction todo as [|id r IH]; intros done cc gmap HI Hnd Hlt Hcl Hord.
  - rewrite app_nil_r. simpl. eauto.
  - cbn [ofold]. assert (Hp : incl (parents sub id) done).
    { specialize (Hord [] id r eq_refl). rewrite app_nil_r in Hord. auto. }
    destruct (asc_step_inv done cc gmap id) as (cc1 & gmap1 & E & HI1); auto.
    { apply Hlt. simpl; auto. }
    { intros Hin. apply (NoDup_app_disj _ _ _ Hnd Hin). simpl; auto. }
    rewrite E. cbn [obind].
    destruct (IH (done ++ [id]) cc1 gmap1) as (cc2 & gmap2 & E2 & HI2); auto.
    + rewrite <- app_assoc. auto.
    + intros g Hg. apply Hlt. simpl; auto.
    + rewrite map_app, concat_app. simpl. rewrite app_nil_r. intros x Hx. apply in_app_or in Hx.
      apply in_or_app. left. destruct Hx; auto.
    + intros l1 g l2 El. rewrite <- app_assoc. simpl. apply (Hord (id :: l1) g l2). simpl. congruence.
    + exists cc2, gmap2. rewrite <- app_assoc in HI2. auto.
Qed.
End Inline.

(** The visiting order of a schedule. *)
Lemma Sched_ordered {P G} (ops : gate_ops P G) (sub : circuit G) : forall ls P0,
  Sched ops sub P0 ls -> ordered sub P0 (all_ids ls).
Proof.
  induction ls as [|l ls IH]; intros P0 HS l1 g l2 E.
  - destruct l1; discriminate.
  - change (all_ids (l :: ls)) with (bl_ids l ++ all_ids ls) in E.
    simpl in HS. destruct HS as ([R1 R2 _ _] & _ & _ & HS). unfold bl_ids in *.
    assert (Hcase : (exists m2, bl_ni l ++ bl_int l = l1 ++ g :: m2) \/
                    exists m1, l1 = (bl_ni l ++ bl_int l) ++ m1 /\ all_ids ls = m1 ++ g :: l2).
    { clear -E. revert l1 E. generalize (bl_ni l ++ bl_int l) as a. induction a as [|x a IHa]; intros l1 E.
      - right. exists l1. auto.
      - destruct l1 as [|y l1].
        + left. simpl in E. injection E as <- _. exists a. auto.
        + simpl in E. injection E as <- E. destruct (IHa _ E) as [(m2 & ->)|(m1 & -> & ->)].
          * left. exists m2. auto.
          * right. exists m1. auto. }
    destruct Hcase as [(m2 & Em)|(m1 & -> & Em)].
    + assert (Hc2 : (exists k, bl_ni l = l1 ++ g :: k) \/ exists k, l1 = bl_ni l ++ k /\ bl_int l = k ++ g :: m2).
      { clear -Em. revert l1 Em. generalize (bl_ni l) as a. induction a as [|x a IHa]; intros l1 E.
        - right. exists l1. auto.
        - destruct l1 as [|y l1]; simpl in E.
          + left. injection E as <- _. exists a. auto.
          + injection E as <- E. destruct (IHa _ E) as [(k & ->)|(k & -> & ->)].
            * left. exists k. auto.
            * right. exists k. auto. }
      destruct Hc2 as [(k & Ek)|(k & -> & Ek)].
      * apply (R1 _ _ _ Ek).
      * intros p Hp. assert (Hg : In g (bl_int l)) by (rewrite Ek; apply in_or_app; simpl; auto).
        pose proof (R2 g Hg p Hp) as H. rewrite in_app_iff in *. rewrite in_app_iff. tauto.
    + specialize (IH _ HS _ _ _ Em). intros p Hp. specialize (IH p Hp).
      rewrite !in_app_iff in *. tauto.
Qed.

(** Wiring the inputs. *)
Lemma add_inputs {P G} (ops : gate_ops P G) gmap : forall ps (cc : circuit G),
  api ops cc -> NoDup (map (fun ft => phi gmap (snd ft)) ps) ->
  (forall ft, In ft ps -> fst ft < c_count cc /\ phi gmap (snd ft) < c_count cc /\
     nth_error gmap (snd ft) = Some (phi gmap (snd ft))) ->
  exists cc', ofold (fun c ft => to <- nth_error gmap (snd ft) ;; add_wire c (fst ft) to) cc ps = Some cc' /\
    api ops cc' /\ c_gates cc' = c_gates cc /\ c_simd cc' = c_simd cc /\ c_is_main cc' = c_is_main cc /\
    (forall x, ~ In x (map (fun ft => phi gmap (snd ft)) ps) -> parents cc' x = parents cc x) /\
    (forall ft, In ft ps ->
       parents cc' (phi gmap (snd ft)) = fst ft :: parents cc (phi gmap (snd ft))).
Proof.
  induction ps as [|ft ps IH]; intros cc Ha Hnd H.
  - exists cc. simpl. repeat split; auto. intros ft [].
  - cbn [ofold]. destruct (H ft (in_eq _ _)) as (H1 & H2 & H3). rewrite H3. cbn [obind].
    destruct (add_wire_some cc (fst ft) (phi gmap (snd ft)) H1 H2) as (c1 & E). rewrite E. cbn [obind].
    destruct (add_wire_spec _ _ _ _ E) as (Eg & _ & Es & Em & _ & _ & Ep).
    assert (Ec : c_count c1 = c_count cc) by (unfold c_count; rewrite Eg; auto).
    simpl in Hnd. apply NoDup_cons_iff in Hnd. destruct Hnd as [Hni Hnd].
    destruct (IH c1) as (c2 & E2 & A & B & C & D & Old & New).
    + apply (api_wire ops cc _ _ _ Ha E).
    + auto.
    + intros x Hx. rewrite Ec. apply H. simpl; auto.
    + exists c2. split; [exact E2|]. split; auto. split; [congruence|]. split; [congruence|]. split; [congruence|].
      split.
      * intros x Hx. simpl in Hx. rewrite Old by tauto. rewrite Ep.
        destruct (Nat.eqb_spec x (phi gmap (snd ft))); auto. subst. tauto.
      * intros y [<-|Hy].
        -- rewrite Old by auto. rewrite Ep, Nat.eqb_refl. auto.
        -- rewrite New by auto. rewrite Ep.
           destruct (Nat.eqb_spec (phi gmap (snd y)) (phi gmap (snd ft))) as [Ee|]; auto.
           exfalso. apply Hni. rewrite <- Ee. apply in_map_iff. exists y. auto.
Qed.

(** What [add_sub_circuit] returns, structurally. *)
Record inlined {P G} (ops : gate_ops P G) (c sub c' : circuit G) (inputs outs : list nat)
  (order : list nat) (f : nat -> nat) : Prop := {
  in_api : api ops c';
  in_simd : c_simd c' = c_simd c;
  in_main : c_is_main c' = c_is_main c;
  in_perm : Permutation order (seq 0 (c_count sub));
  in_ord : ordered sub [] order;
  in_gates : exists gs, c_gates c' = c_gates c ++ gs /\ Forall2 (conv ops sub) order gs;
  in_f : forall j g, nth_error order j = Some g -> f g = c_count c + j;
  in_outs : outs = map f (c_scouts sub);
  in_old : forall h, h < c_count c -> parents c' h = parents c h;
  in_new : forall g, g < c_count sub -> ~ In g (c_scins sub) ->
     parents c' (f g) = rev (map f (parents sub g));
  in_sc : forall i g, nth_error (c_scins sub) i = Some g ->
     exists a, nth_error inputs i = Some a /\ parents c' (f g) = [a] }.

Lemma combine_firstn_l {A B} (l : list A) : forall (l' : list B), length l' <= length l ->
  map snd (combine l l') = l'.
Proof.
  induction l as [|a l IH]; intros [|b l'] H; simpl in *; auto; try lia.
  rewrite IH by lia. auto.
Qed.

Lemma nth_error_combine {A B} (l : list A) : forall (l' : list B) i b, length l' <= length l ->
  nth_error l' i = Some b -> exists a, nth_error l i = Some a /\ In (a, b) (combine l l').
Proof.
  induction l as [|a l IH]; intros [|b l'] i x H Hi; simpl in *; try (destruct i; discriminate); try lia.
  destruct i as [|i]; simpl in *.
  - injection Hi as <-. eauto.
  - destruct (IH l' i x) as (y & H1 & H2); auto; [lia|]. eauto.
Qed.

Lemma callable_inputs {P G} (ops : gate_ops P G) sub : callable ops sub -> c_inputs sub = [].
Proof.
  intros ((Ha & _) & _ & Hk). apply api_api_wf in Ha. rewrite (aw_inputs _ _ Ha).
  destruct (ids_where (is_input_gate ops) (c_gates sub)) as [|g l] eqn:E; auto. exfalso.
  assert (Hin : In g (ids_where (is_input_gate ops) (c_gates sub))) by (rewrite E; simpl; auto).
  apply ids_where_In in Hin. destruct Hin as (x & Ex & Hx). specialize (Hk _ _ Ex).
  unfold is_input_gate in Hx. destruct (g_base ops x) as [[]|]; discriminate || auto.
Qed.

Lemma scin_root {P G} (ops : gate_ops P G) sub g : callable ops sub -> In g (c_scins sub) ->
  g < c_count sub /\ parents sub g = [] /\
  exists x, nth_error (c_gates sub) g = Some x /\ g_base ops x = Some GScInput.
Proof.
  intros ((Ha & _ & Hroot) & _ & Hk) Hg. apply api_api_wf in Ha. rewrite (aw_scins _ _ Ha) in Hg.
  apply ids_where_In in Hg. destruct Hg as (x & Ex & Hx). split.
  - apply nth_error_Some. congruence.
  - split.
    + apply (Hroot _ _ Ex). rewrite Hx, orb_true_r. auto.
    + exists x. split; auto. specialize (Hk _ _ Ex). unfold is_scin_gate in Hx.
      destruct (g_base ops x) as [[]|]; try discriminate; tauto.
Qed.

Lemma inline_structure {P G} (ops : gate_ops P G) (c sub : circuit G) inputs :
  api ops c -> callable ops sub ->
  length (c_scins sub) <= length inputs -> Forall (fun i => i < c_count c) inputs ->
  exists c' outs order f, add_sub_circuit ops c sub inputs = Some (c', outs) /\
    inlined ops c sub c' inputs outs order f.
Proof.
  intros Hac Hsub Hlen Hin. pose proof (callable_inputs ops sub Hsub) as Hnoin.
  destruct Hsub as (Hok & Hmain & Hkind).
  destruct (sub_layers ops sub Hok) as (ls & Els & HS & HP & _).
  unfold add_sub_circuit. rewrite Hmain, Hnoin. cbn [negb oassert obind].
  unfold c_iter. rewrite Els. cbn [obind]. fold (all_ids ls).
  assert (Hord : ordered sub [] (all_ids ls)) by (apply (Sched_ordered ops); auto).
  assert (Hnd : NoDup (all_ids ls)).
  { apply (Permutation_NoDup (Permutation_sym HP)), seq_NoDup. }
  assert (Hin_ord : forall g, In g (all_ids ls) <-> g < c_count sub).
  { intros g. split; intros H.
    - apply (Permutation_in _ HP) in H. apply in_seq in H. lia.
    - apply (Permutation_in _ (Permutation_sym HP)). apply in_seq. lia. }
  destruct (asc_fold ops c sub (all_ids ls) [] c (repeat 0 (c_count sub))) as (c1 & gmap & E1 & HI).
  { constructor; auto.
    - exists []. split; [rewrite app_nil_r|]; auto.
    - apply repeat_length.
    - intros [|j] g; discriminate.
    - intros [|j] g; discriminate. }
  { auto. }
  { intros g Hg. apply Hin_ord; auto. }
  { intros x []. }
  { auto. }
  simpl in HI. rewrite E1. cbn [obind].
  assert (Hcnt : c_count c1 = c_count c + length (all_ids ls)) by (apply (asc_count ops c sub _ _ _ HI)).
  assert (Hphi : forall g, g < c_count sub -> exists j, nth_error (all_ids ls) j = Some g /\
     nth_error gmap g = Some (c_count c + j) /\ phi gmap g = c_count c + j /\ j < length (all_ids ls)).
  { intros g Hg. apply (phi_done ops c sub _ _ _ g HI). apply Hin_ord; auto. }
  assert (Hinj : forall g h, g < c_count sub -> h < c_count sub -> phi gmap g = phi gmap h -> g = h).
  { intros g h Hg Hh E. destruct (Hphi g Hg) as (j & J1 & _ & J2 & _).
    destruct (Hphi h Hh) as (k & K1 & _ & K2 & _). assert (j = k) by lia. subst. congruence. }
  assert (Hsub' : callable ops sub) by (split; auto).
  assert (Hscr : forall g, In g (c_scins sub) -> g < c_count sub).
  { intros g Hg. apply (scin_root ops sub g Hsub' Hg). }
  assert (Hscnd : NoDup (c_scins sub)).
  { destruct Hok as (Ha & _). apply api_api_wf in Ha. rewrite (aw_scins _ _ Ha). apply ids_where_NoDup. }
  destruct (add_inputs ops gmap (combine inputs (c_scins sub)) c1) as (c2 & E2 & A & B & C & D & Old & New).
  { apply HI. }
  { rewrite <- (map_map snd (phi gmap)). rewrite combine_firstn_l by auto.
    clear -Hinj Hscr Hscnd. induction (c_scins sub) as [|a l IH]; simpl; [constructor|].
    apply NoDup_cons_iff in Hscnd. destruct Hscnd as [Hni Hnd]. constructor.
    - intros H. apply in_map_iff in H. destruct H as (b & Eb & Hb). apply Hni.
      apply Hinj in Eb; [congruence| |]; apply Hscr; simpl; auto.
    - apply IH; auto. intros g Hg. apply Hscr. simpl; auto. }
  { intros [a b] Hab. simpl. pose proof (in_combine_l _ _ _ _ Hab) as Hal.
    pose proof (in_combine_r _ _ _ _ Hab) as Hbr. rewrite Forall_forall in Hin. apply Hin in Hal.
    destruct (Hphi b (Hscr _ Hbr)) as (j & _ & Hm & Hj & Hlt). rewrite Hm, Hj. repeat split; lia. }
  rewrite E2. cbn [obind].
  rewrite combine_length, Nat.min_r by lia. rewrite Nat.eqb_refl. cbn [oassert obind].
  assert (Hsco : forall o, In o (c_scouts sub) -> o < c_count sub).
  { destruct Hok as (Ha & _). apply api_api_wf in Ha. rewrite (aw_scouts _ _ Ha). intros o Ho.
    apply ids_where_In in Ho. destruct Ho as (x & Ex & _). apply nth_error_Some. congruence. }
  rewrite (omap_some _ (phi gmap)).
  2:{ intros o Ho. destruct (Hphi o (Hsco o Ho)) as (j & _ & Hm & Hj & _). congruence. }
  cbn [obind]. exists c2, (map (phi gmap) (c_scouts sub)), (all_ids ls), (phi gmap). split; auto.
  constructor.
  - auto.
  - rewrite C. apply HI.
  - rewrite D. apply HI.
  - auto.
  - auto.
  - rewrite B. apply HI.
  - intros j g Hj. unfold phi. apply nth_error_nth. apply (ai_map _ _ _ _ _ _ HI); auto.
  - auto.
  - intros h Hh. rewrite Old; [apply HI; auto|]. intros H. apply in_map_iff in H.
    destruct H as ([a b] & Eb & Hab). simpl in Eb. pose proof (in_combine_r _ _ _ _ Hab) as Hbr.
    destruct (Hphi b (Hscr _ Hbr)) as (j & _ & _ & Hj & _). lia.
  - intros g Hg Hns. rewrite Old.
    + destruct (Hphi g Hg) as (j & J1 & _ & -> & _). apply (ai_new _ _ _ _ _ _ HI); auto.
    + intros H. apply in_map_iff in H. destruct H as ([a b] & Eb & Hab). simpl in Eb.
      pose proof (in_combine_r _ _ _ _ Hab) as Hbr. apply Hinj in Eb; [congruence| |]; auto.
  - intros i g Hi. destruct (nth_error_combine inputs (c_scins sub) i g Hlen Hi) as (a & Ha & Hab).
    exists a. split; auto. pose proof (New (a, g) Hab) as Hn. simpl in Hn. rewrite Hn. f_equal.
    assert (Hg : In g (c_scins sub)) by (eapply nth_error_In; eauto).
    destruct (Hphi g (Hscr _ Hg)) as (j & J1 & _ & -> & _). rewrite (ai_new _ _ _ _ _ _ HI _ _ J1).
    destruct (scin_root ops sub g Hsub' Hg) as (_ & -> & _). auto.
Qed.

Section Values.
Context {P G V : Type}.
Variable ops : gate_ops P G.
Variable sem : G -> list V -> option V.
Variables c sub c' : circuit G.
Variables inputs outs order : list nat.
Variable f : nat -> nat.
Hypothesis Hpass : passes_through ops sem.
Hypothesis Hcall : callable ops sub.
Hypothesis Hrev : reversible sem sub.
Hypothesis Hin : inlined ops c sub c' inputs outs order f.
Hypothesis Hrange : Forall (fun i => i < c_count c) inputs.
Hypothesis Hapi : api ops c.

Lemma in_order g : In g order <-> g < c_count sub.
Proof.
  split; intros H.
  - apply (Permutation_in _ (in_perm _ _ _ _ _ _ _ _ Hin)) in H. apply in_seq in H. lia.
  - apply (Permutation_in _ (Permutation_sym (in_perm _ _ _ _ _ _ _ _ Hin))). apply in_seq. lia.
Qed.

Lemma f_pos g : g < c_count sub -> exists j, nth_error order j = Some g /\ f g = c_count c + j.
Proof.
  intros Hg. apply in_order in Hg. apply In_nth_error in Hg. destruct Hg as (j & Hj).
  exists j. split; auto. apply (in_f _ _ _ _ _ _ _ _ Hin); auto.
Qed.

Lemma old_gate h : h < c_count c -> nth_error (c_gates c') h = nth_error (c_gates c) h.
Proof.
  intros Hh. destruct (in_gates _ _ _ _ _ _ _ _ Hin) as (gs & -> & _). apply nth_error_app1. auto.
Qed.

Lemma new_gate j g : nth_error order j = Some g ->
  exists x, nth_error (c_gates sub) g = Some x /\
            nth_error (c_gates c') (c_count c + j) = Some (asc_gate ops x).
Proof.
  intros Hj. destruct (in_gates _ _ _ _ _ _ _ _ Hin) as (gs & -> & F). unfold c_count.
  rewrite nth_error_app2 by lia. replace (length (c_gates c) + j - length (c_gates c)) with j by lia.
  clear -F Hj. revert j Hj. induction F as [|a b la lb (y & Hy & ->) F IH]; intros [|j] Hj; try discriminate; simpl in *.
  - injection Hj as <-. eauto.
  - apply IH; auto.
Qed.

Lemma asc_source x : g_base ops x <> Some GInput ->
  (forall k, g_base ops x <> Some (GConnectToMainFromSimd k)) -> g_base ops x <> Some GConnectToMain ->
  source_gate ops (asc_gate ops x) = false.
Proof.
  intros H1 H2 H3. destruct Hpass as (Hid & _). unfold source_gate, is_input_gate, is_scin_gate, asc_gate.
  destruct (g_base ops x) as [[]|] eqn:E; rewrite ?E, ?Hid; auto; try congruence.
Qed.

Lemma asc_source' g x : nth_error (c_gates sub) g = Some x -> source_gate ops (asc_gate ops x) = false.
Proof.
  intros Hx. destruct Hcall as (_ & _ & Hk). specialize (Hk _ _ Hx).
  apply asc_source; intros; intros E; rewrite E in Hk; auto.
Qed.

Lemma asc_sem g x l : nth_error (c_gates sub) g = Some x -> source_gate ops x = false ->
  length l = length (parents sub g) -> sem (asc_gate ops x) (rev l) = sem x l.
Proof.
  intros Hx Hs Hl. rewrite <- (Hrev _ _ Hx l Hl). unfold asc_gate.
  destruct Hpass as (_ & _ & Ho). destruct (g_base ops x) as [[]|] eqn:E; auto.
  - unfold source_gate, is_scin_gate in Hs. rewrite E, orb_true_r in Hs. discriminate.
  - symmetry. apply Ho; auto.
Qed.

Lemma not_scin g x : nth_error (c_gates sub) g = Some x -> source_gate ops x = false -> ~ In g (c_scins sub).
Proof.
  intros Hx Hs H. destruct (scin_root ops sub g Hcall H) as (_ & _ & y & Hy & Eb).
  rewrite Hx in Hy. injection Hy as <-. unfold source_gate, is_scin_gate in Hs.
  rewrite Eb, orb_true_r in Hs. discriminate.
Qed.

Lemma scin_or g x : nth_error (c_gates sub) g = Some x -> source_gate ops x = true ->
  In g (c_scins sub) /\ g_base ops x = Some GScInput.
Proof.
  intros Hx Hs. destruct Hcall as ((Ha & _) & _ & Hk). specialize (Hk _ _ Hx).
  apply api_api_wf in Ha. rewrite (aw_scins _ _ Ha), ids_where_In.
  unfold source_gate, is_input_gate, is_scin_gate in *.
  destruct (g_base ops x) as [[]|] eqn:E; try discriminate; try tauto.
  split; auto. exists x. split; auto. rewrite E. auto.
Qed.

Lemma inline_down v' : valued ops sem c' v' ->
  valued ops sem c v' /\ valued ops sem sub (fun g => v' (f g)) /\
  (forall i g, nth_error (c_scins sub) i = Some g ->
     exists a, nth_error inputs i = Some a /\ v' (f g) = v' a).
Proof.
  intros Hv. split; [|split].
  - intros g x Hx Hs. assert (Hg : g < c_count c) by (apply nth_error_Some; congruence).
    rewrite <- (in_old _ _ _ _ _ _ _ _ Hin g Hg). apply Hv; auto. rewrite old_gate; auto.
  - intros g x Hx Hs. assert (Hg : g < c_count sub) by (apply nth_error_Some; congruence).
    destruct (f_pos g Hg) as (j & Hj & Ef). destruct (new_gate j g Hj) as (y & Hy & Hn).
    rewrite Hx in Hy. injection Hy as <-. rewrite <- Ef in Hn.
    specialize (Hv _ _ Hn (asc_source' _ _ Hx)).
    rewrite (in_new _ _ _ _ _ _ _ _ Hin g Hg (not_scin _ _ Hx Hs)) in Hv.
    rewrite map_rev, map_map in Hv. rewrite (asc_sem g x) in Hv; auto. apply map_length.
  - intros i g Hi. destruct (in_sc _ _ _ _ _ _ _ _ Hin i g Hi) as (a & Ha & Hp). exists a. split; auto.
    assert (Hgin : In g (c_scins sub)) by (eapply nth_error_In; eauto).
    destruct (scin_root ops sub g Hcall Hgin) as (Hg & _ & x & Hx & Eb).
    destruct (f_pos g Hg) as (j & Hj & Ef). destruct (new_gate j g Hj) as (y & Hy & Hn).
    rewrite Hx in Hy. injection Hy as <-. rewrite <- Ef in Hn.
    specialize (Hv _ _ Hn (asc_source' _ _ Hx)). rewrite Hp in Hv. simpl in Hv.
    unfold asc_gate in Hv. rewrite Eb in Hv. destruct Hpass as (_ & Hid & _). rewrite Hid in Hv. congruence.
Qed.

Definition glue (v w : nat -> V) (h : nat) : V :=
  if h <? c_count c then v h else w (nth (h - c_count c) order 0).

Lemma glue_old v w h : h < c_count c -> glue v w h = v h.
Proof. intros H. unfold glue. apply Nat.ltb_lt in H. rewrite H. auto. Qed.

Lemma glue_new v w g : g < c_count sub -> glue v w (f g) = w g.
Proof.
  intros Hg. destruct (f_pos g Hg) as (j & Hj & ->). unfold glue.
  destruct (Nat.ltb_spec (c_count c + j) (c_count c)); [lia|].
  replace (c_count c + j - c_count c) with j by lia. rewrite (nth_error_nth _ _ _ Hj). auto.
Qed.

Lemma inline_up v w : valued ops sem c v -> valued ops sem sub w ->
  (forall i g, nth_error (c_scins sub) i = Some g ->
     exists a, nth_error inputs i = Some a /\ w g = v a) ->
  valued ops sem c' (glue v w).
Proof.
  intros Hv Hw Hi h x Hx Hs. destruct (Nat.ltb_spec h (c_count c)) as [Hh|Hh].
  - rewrite (in_old _ _ _ _ _ _ _ _ Hin h Hh). rewrite glue_old by auto.
    rewrite old_gate in Hx by auto. rewrite <- (Hv _ _ Hx Hs). f_equal. apply map_ext_in.
    intros p Hp. apply glue_old. apply (in_range_parents c p h); auto.
    apply (aw_range _ _ (api_api_wf ops c Hapi)).
  - assert (Hj : exists g, nth_error order (h - c_count c) = Some g).
    { destruct (nth_error order (h - c_count c)) as [g|] eqn:E; [eauto|]. exfalso.
      apply nth_error_None in E. destruct (in_gates _ _ _ _ _ _ _ _ Hin) as (gs & Eg & F).
      assert (h < length (c_gates c')) by (apply nth_error_Some; congruence).
      rewrite Eg, app_length, <- (Forall2_len _ _ _ F) in H. unfold c_count in *. lia. }
    destruct Hj as (g & Hj). assert (Hg : g < c_count sub) by (apply in_order; eapply nth_error_In; eauto).
    assert (Ef : h = f g) by (rewrite (in_f _ _ _ _ _ _ _ _ Hin _ _ Hj); lia).
    destruct (new_gate _ _ Hj) as (y & Hy & Hn).
    replace (c_count c + (h - c_count c)) with h in Hn by lia. rewrite Hx in Hn. injection Hn as ->.
    rewrite Ef, glue_new by auto.
    destruct (source_gate ops y) eqn:Es.
    + destruct (scin_or _ _ Hy Es) as [Hsc Eb]. apply In_nth_error in Hsc. destruct Hsc as (i & Hsc).
      destruct (in_sc _ _ _ _ _ _ _ _ Hin i g Hsc) as (a & Ha & ->).
      destruct (Hi i g Hsc) as (a' & Ha' & ->). rewrite Ha in Ha'. injection Ha' as <-.
      simpl. unfold asc_gate. rewrite Eb. destruct Hpass as (_ & Hid & _).
      rewrite glue_old; [apply Hid|]. rewrite Forall_forall in Hrange. apply Hrange.
      eapply nth_error_In; eauto.
    + rewrite (in_new _ _ _ _ _ _ _ _ Hin g Hg (not_scin _ _ Hy Es)).
      rewrite map_rev, map_map. rewrite (asc_sem g y) by (auto; apply map_length).
      rewrite <- (Hw _ _ Hy Es). f_equal. apply map_ext_in. intros p Hp. apply glue_new.
      apply (in_range_parents sub p g); auto. destruct Hcall as ((Ha & _) & _).
      apply (aw_range _ _ (api_api_wf ops sub Ha)).
Qed.
End Values.

(** Inlining keeps a circuit executable. *)
Lemma inline_main_ok {P G} (ops : gate_ops P G) (c sub c' : circuit G) inputs outs order f :
  g_base ops (g_wrap ops GIdentity) = Some GIdentity ->
  main_ok ops c -> callable ops sub -> Forall (fun i => i < c_count c) inputs ->
  inlined ops c sub c' inputs outs order f -> main_ok ops c'.
Proof.
  intros Hid (Ha & (rank & Hrank) & Hroot) Hcall Hrange Hin.
  pose proof (aw_range _ _ (api_api_wf ops c Ha)) as Hr.
  assert (Hr' : in_range c') by (apply (aw_range _ _ (api_api_wf ops c' (in_api _ _ _ _ _ _ _ _ Hin)))).
  assert (Hrs : in_range sub).
  { destruct Hcall as ((Hs & _) & _). apply (aw_range _ _ (api_api_wf ops sub Hs)). }
  assert (Hpos : forall h, h < c_count c' -> c_count c <= h ->
     exists g, nth_error order (h - c_count c) = Some g /\ h = f g /\ g < c_count sub).
  { intros h Hh Hc. destruct (nth_error order (h - c_count c)) as [g|] eqn:E.
    - exists g. split; auto. split.
      + rewrite (in_f _ _ _ _ _ _ _ _ Hin _ _ E). lia.
      + apply (in_order ops c sub c' inputs outs order f Hin). eapply nth_error_In; eauto.
    - exfalso. apply nth_error_None in E. destruct (in_gates _ _ _ _ _ _ _ _ Hin) as (gs & Eg & F).
      unfold c_count in *. rewrite Eg, app_length, <- (Forall2_len _ _ _ F) in Hh. lia. }
  assert (Hsc : forall g, {In g (c_scins sub)} + {~ In g (c_scins sub)}) by (intros; apply in_dec, Nat.eq_dec).
  split; [apply (in_api _ _ _ _ _ _ _ _ Hin)|]. split.
  - set (base := S (list_max (map rank (seq 0 (c_count c))))).
    assert (Hbase : forall h, h < c_count c -> rank h < base).
    { intros h Hh. unfold base. apply le_n_S.
      assert (HF : Forall (fun k => k <= list_max (map rank (seq 0 (c_count c)))) (map rank (seq 0 (c_count c)))).
      { apply list_max_le. auto. }
      rewrite Forall_forall in HF. apply HF. apply in_map. apply in_seq. lia. }
    exists (fun h => if h <? c_count c then rank h else base + h).
    intros p g Hp. destruct (in_range_parents c' p g Hr' Hp) as [Hpc Hgc].
    destruct (Nat.ltb_spec g (c_count c)) as [Hg|Hg].
    + rewrite (in_old _ _ _ _ _ _ _ _ Hin g Hg) in Hp.
      destruct (in_range_parents c p g Hr Hp) as [Hp' _]. apply Nat.ltb_lt in Hp'. rewrite Hp'.
      apply Hrank; auto.
    + destruct (Nat.ltb_spec p (c_count c)) as [Hpl|Hpl].
      * specialize (Hbase _ Hpl). lia.
      * apply Nat.add_lt_mono_l. destruct (Hpos g Hgc Hg) as (y & Hy & -> & Hys).
        destruct (Hsc y) as [Hin'|Hni].
        -- apply In_nth_error in Hin'. destruct Hin' as (i & Hi).
           destruct (in_sc _ _ _ _ _ _ _ _ Hin i y Hi) as (a & Hai & Epa). rewrite Epa in Hp.
           destruct Hp as [<-|[]]. rewrite Forall_forall in Hrange.
           apply nth_error_In in Hai. apply Hrange in Hai. lia.
        -- rewrite (in_new _ _ _ _ _ _ _ _ Hin y Hys Hni) in Hp. apply in_rev in Hp.
           apply in_map_iff in Hp. destruct Hp as (q & <- & Hq).
           destruct (nth_error_split _ _ Hy) as (l1 & l2 & El & Hl1).
           pose proof (in_ord _ _ _ _ _ _ _ _ Hin _ _ _ El q Hq) as Hq'. simpl in Hq'.
           apply In_nth_error in Hq'. destruct Hq' as (k & Hk).
           assert (k < length l1) by (apply nth_error_Some; congruence).
           assert (Hk' : nth_error order k = Some q) by (rewrite El, nth_error_app1; auto).
           rewrite (in_f _ _ _ _ _ _ _ _ Hin _ _ Hk'). lia.
  - intros h x Hx. assert (Hh : h < c_count c') by (apply nth_error_Some; congruence).
    destruct (Nat.ltb_spec h (c_count c)) as [Hlt|Hge].
    + rewrite (in_old _ _ _ _ _ _ _ _ Hin h Hlt). apply Hroot.
      rewrite (old_gate ops c sub c' inputs outs order f Hin) in Hx; auto.
    + destruct (Hpos h Hh Hge) as (g & Hj & Ef & Hg).
      destruct (new_gate ops c sub c' inputs outs order f Hin _ _ Hj) as (y & Hy & Hn).
      replace (c_count c + (h - c_count c)) with h in Hn by lia. rewrite Hx in Hn. injection Hn as ->.
      rewrite Ef. pose proof Hcall as ((_ & _ & Hrt) & _ & Hk). specialize (Hk _ _ Hy).
      specialize (Hrt _ _ Hy). destruct (Hsc g) as [Hin'|Hni].
      * destruct (scin_root ops sub g Hcall Hin') as (_ & _ & z & Hz & Eb).
        rewrite Hy in Hz. injection Hz as <-. apply In_nth_error in Hin'. destruct Hin' as (i & Hi).
        destruct (in_sc _ _ _ _ _ _ _ _ Hin i g Hi) as (a & Hai & ->).
        unfold asc_gate, is_input_gate, is_const_gate. rewrite Eb, Hid. split; discriminate.
      * rewrite (in_new _ _ _ _ _ _ _ _ Hin g Hg Hni).
        assert (Hnn : rev (map f (parents sub g)) = [] <-> parents sub g = []).
        { destruct (parents sub g); simpl; split; auto; try discriminate.
          intros E. apply app_eq_nil in E. destruct E; discriminate. }
        rewrite Hnn, Hrt. unfold asc_gate, is_input_gate, is_const_gate, is_scin_gate.
        assert (Hb : g_base ops y <> Some GScInput).
        { intros Eb. apply Hni. destruct Hcall as ((Hs & _) & _). apply api_api_wf in Hs.
          rewrite (aw_scins _ _ Hs), ids_where_In. exists y. split; auto. unfold is_scin_gate.
          rewrite Eb. auto. }
        destruct (g_base ops y) as [[]|] eqn:Eb; rewrite ?Eb, ?Hid; simpl; split; auto;
          try discriminate; try contradiction; try congruence.
Qed.
