(** Proofs about precomputed layers, part 2: the precomputation as a whole and
    the iteration over its result. *)
From Coq Require Import List Bool Arith Lia Permutation Sorted.
Require Import Verif.Prelude Verif.PreludeProofs Verif.GateModel Verif.CircuitModel Verif.CircuitSpec
  Verif.ExecModel Verif.ConnModel Verif.ConnSpec Verif.ConnProofs Verif.MultiModel Verif.MultiSpec Verif.MultiProofs
  Verif.StaticModel Verif.StaticSpec Verif.StaticProofs.
Import ListNotations.

(** The precomputed layer of an entry. *)
Definition pre_of {G} (imax : nat) (m : mcirc G) (e : nat * option nat * blayer) : option (tev G) :=
  option_map (pair (fst e)) (sl_from_base imax m (fst (fst e)) (snd e)).

Definition tkey {G} (e : tev G) : nat := fst (fst e).

Lemma pre_of_key {G} imax (m : mcirc G) e t : pre_of imax m e = Some t -> fst t = fst e /\
  sl_from_base imax m (fst (fst e)) (snd e) = Some (snd t).
Proof.
  unfold pre_of. destruct (sl_from_base _ _ _ _); [|discriminate]. simpl. intros E. injection E as <-. auto.
Qed.

Section Run.
Context {G : Type}.
Variable geqb : G -> G -> bool.
Variable imax : nat.
Variable m : mcirc G.
Variable all : list (tev G).
Variable I : list (tev G) -> scirc G -> splits -> list nat -> Prop.

Definition keeps (s s' : scirc G) : Prop :=
  st_layers s' = st_layers s /\ st_ins s' = st_ins s /\ st_outs s' = st_outs s /\ st_conns s' = st_conns s.

Hypothesis Istep : forall evs e rest s sp ptrs, all = evs ++ e :: rest -> I evs s sp ptrs ->
  exists s' sp' ptrs', st_ev geqb (s, sp, ptrs) e = Some (s', sp', ptrs') /\ I (evs ++ [e]) s' sp' ptrs' /\ keeps s s'.
Hypothesis Ilayers : forall evs s sp ptrs ll, I evs s sp ptrs ->
  I evs (SCirc (st_ins s) (st_outs s) (st_subs s) (st_map s) ll (st_conns s)) sp ptrs.

Lemma run_entries : forall es tes evs rest s sp ptrs, omap (pre_of imax m) es = Some tes ->
  all = evs ++ tes ++ rest -> I evs s sp ptrs ->
  exists s' sp' ptrs', ofold (st_entry geqb imax m) (s, sp, ptrs) es = Some (s', sp', ptrs') /\
    I (evs ++ tes) s' sp' ptrs' /\ keeps s s'.
Proof.
  induction es as [|e es IH]; intros tes evs rest s sp ptrs Ho Hall HI.
  - injection Ho as <-. exists s, sp, ptrs. rewrite app_nil_r. unfold keeps. auto 10.
  - cbn [omap] in Ho. destruct (pre_of imax m e) as [t|] eqn:Et; [|discriminate].
    destruct (omap (pre_of imax m) es) as [ts|] eqn:Es; [|discriminate]. cbn [obind] in Ho. injection Ho as <-.
    destruct (Istep evs t (ts ++ rest) s sp ptrs Hall HI) as (s1 & sp1 & p1 & E1 & I1 & K1).
    destruct (IH ts (evs ++ [t]) rest s1 sp1 p1 eq_refl) as (s2 & sp2 & p2 & E2 & I2 & K2); auto.
    { rewrite <- app_assoc. auto. }
    exists s2, sp2, p2. split; [|split].
    + apply pre_of_key in Et. destruct Et as [Ek El]. destruct e as [[sc simd] b]. destruct t as [[sc' simd'] l].
      cbn [fst snd] in *. injection Ek as -> ->. cbn [ofold].
      rewrite (st_entry_ev geqb imax m (s, sp, ptrs) sc simd b l El).
      exact (eq_trans (f_equal (fun o => obind o (fun st => ofold (st_entry geqb imax m) st es)) E1) E2).
    + rewrite <- app_assoc in I2. auto.
    + unfold keeps in *. intuition congruence.
Qed.

Lemma run_layers : forall ls tls evs s sp ptrs, omap (omap (pre_of imax m)) ls = Some tls ->
  all = evs ++ concat tls -> I evs s sp ptrs ->
  exists s' sp' ptrs', ofold (st_layer geqb imax m) (s, sp, ptrs) ls = Some (s', sp', ptrs') /\
    I all s' sp' ptrs' /\ st_layers s' = st_layers s ++ map (map tkey) tls /\
    st_ins s' = st_ins s /\ st_outs s' = st_outs s /\ st_conns s' = st_conns s.
Proof.
  induction ls as [|L ls IH]; intros tls evs s sp ptrs Ho Hall HI.
  - injection Ho as <-. cbn [concat] in Hall. rewrite app_nil_r in Hall. exists s, sp, ptrs. rewrite Hall.
    cbn [map]. rewrite app_nil_r. auto 10.
  - cbn [omap] in Ho. destruct (omap (pre_of imax m) L) as [tl|] eqn:Et; [|discriminate].
    destruct (omap (omap (pre_of imax m)) ls) as [ts|] eqn:Es; [|discriminate]. cbn [obind] in Ho. injection Ho as <-.
    cbn [concat] in Hall.
    destruct (run_entries L tl evs (concat ts) s sp ptrs Et Hall HI) as (s1 & sp1 & p1 & E1 & I1 & K1).
    assert (Ek : map (fun e => fst (fst e)) L = map tkey tl).
    { clear - Et. revert tl Et. induction L as [|e L IHL]; intros tl Et; [injection Et as <-; auto|].
      cbn [omap] in Et. destruct (pre_of imax m e) as [t|] eqn:Ee; [|discriminate].
      destruct (omap (pre_of imax m) L) as [ts|] eqn:Es; [|discriminate]. cbn [obind] in Et. injection Et as <-.
      cbn [map]. rewrite (IHL ts) by auto. f_equal. apply pre_of_key in Ee. unfold tkey. rewrite (proj1 Ee). auto. }
    destruct (IH ts (evs ++ tl) _ sp1 p1 eq_refl ltac:(rewrite <- app_assoc; auto)
       (Ilayers _ _ _ _ (st_layers s1 ++ [map tkey tl]) I1)) as (s2 & sp2 & p2 & E2 & I2 & K2 & K3 & K4 & K5).
    exists s2, sp2, p2. split; [|split; auto].
    + cbn [ofold]. unfold st_layer at 1. rewrite Ek.
      refine (eq_trans (f_equal (fun o => obind (obind o _) (fun st => ofold (st_layer geqb imax m) st ls)) E1) _).
      exact E2.
    + cbn [st_layers st_ins st_outs st_conns] in *. unfold keeps in K1. destruct K1 as (A & B & C & D).
      rewrite K2, A, <- app_assoc. repeat split; congruence.
Qed.
End Run.

Section Iter.
Context {G : Type}.
Variable imax : nat.
Variable base : list nat.
Variable all : list (tev G).
Variable simd_of : nat -> option nat.
Hypothesis Hbase : forall e, In e all -> exists k, bcopy base (fst (fst e)) k /\ snd (fst e) = simd_of k.
Variable s : scirc G.
Hypothesis HF : Final base all simd_of s.

Lemma in_all_lt e : In e all -> tkey e < length base.
Proof. intros H. destruct (Hbase e H) as (k & Hk & _). apply nth_error_Some. unfold bcopy in Hk. unfold tkey. congruence. Qed.

Lemma bump_ok : forall tes evs ptrs, (forall e, In e tes -> In e all) -> ptrs_ok base evs ptrs ->
  exists ptrs', bump ptrs (map tkey tes) = Some ptrs' /\ ptrs_ok base (evs ++ tes) ptrs'.
Proof.
  unfold bump. induction tes as [|e tes IH]; intros evs ptrs Hin Hp.
  - exists ptrs. rewrite app_nil_r. auto.
  - destruct (ptrs_step base evs ptrs e Hp) as (p & Ep & _ & Hp'); [apply in_all_lt, Hin; simpl; auto|].
    cbn [map ofold]. unfold tkey at 1. rewrite Ep. cbn [obind].
    destruct (IH (evs ++ [e]) (upd (fst (fst e)) (S p) ptrs)) as (p' & E & Hp''); auto.
    { intros x Hx. apply Hin. simpl; auto. }
    exists p'. split; [exact E|]. rewrite <- app_assoc in Hp''. auto.
Qed.

Definition kept (skip_simd skip_scalar : bool) (simd : option nat) : bool :=
  match simd with None => negb skip_scalar | Some _ => negb skip_simd end.

Lemma thist_own : forall (tes : list (tev G)) e, NoDup (map tkey tes) -> In e tes -> thist (tkey e) tes = [snd e].
Proof.
  induction tes as [|x tes IH]; intros e Hn Hin; [destruct Hin|].
  cbn [map] in Hn. inversion Hn as [|? ? Hx Hn']; subst. change (x :: tes) with ([x] ++ tes). rewrite thist_app, thist_one.
  destruct Hin as [->|Hin].
  - unfold tkey at 1. rewrite Nat.eqb_refl. destruct (thist (tkey e) tes) eqn:E; auto. exfalso. apply Hx.
    assert (X : thist (tkey e) tes <> []) by congruence. apply thist_In in X. destruct X as (e' & H1 & H2).
    rewrite <- H2. apply (in_map tkey) in H1. auto.
  - destruct (Nat.eqb_spec (fst (fst x)) (tkey e)) as [E|E]; [|apply IH; auto]. exfalso. apply Hx. unfold tkey at 1. rewrite E.
    apply in_map. auto.
Qed.

(** The record of an entry: SIMD size, and its layer at the right position. *)
Lemma entry_rec evs tes rest e : all = evs ++ tes ++ rest -> NoDup (map tkey tes) -> In e tes ->
  exists sub, st_get s (tkey e) = Some sub /\ ss_simd sub = snd (fst e) /\
    nth_error (ss_layers sub) (length (thist (tkey e) evs)) = Some (snd e).
Proof.
  intros Hall Hn Hin. assert (Hia : In e all) by (rewrite Hall, !in_app_iff; auto).
  destruct (Hbase e Hia) as (k & Hk & Hs). destruct HF as [_ HF'].
  destruct (HF' (tkey e) k Hk) as (sub & sc' & A & _ & R & Pre).
  { apply thist_In. exists e. auto. }
  exists sub. split; auto. split; [rewrite (ro_simd _ _ _ R); auto|].
  rewrite (ro_layers _ _ _ R). apply (firstn_nth _ _ _ _ Pre).
  rewrite Hall, !thist_app, (thist_own tes e Hn Hin), nth_error_app2, Nat.sub_diag by lia. auto.
Qed.

Lemma collect_ok a b evs tes rest ptrs : all = evs ++ tes ++ rest -> NoDup (map tkey tes) -> ptrs_ok base evs ptrs ->
  forall es, (forall e, In e es -> In e tes) ->
  sci_collect s ptrs a b (map tkey es) =
    Some (map (fun e => (tkey e, snd e)) (filter (fun e => kept a b (snd (fst e))) es)).
Proof.
  intros Hall Hn Hp. induction es as [|e es IH]; intros Hin; auto.
  destruct (entry_rec evs tes rest e Hall Hn ltac:(apply Hin; simpl; auto)) as (sub & A & B & C).
  cbn [map sci_collect]. rewrite A. cbn [obind]. rewrite B. cbn [filter].
  rewrite (proj2 Hp) by (apply in_all_lt; rewrite Hall, !in_app_iff; right; left; apply Hin; simpl; auto).
  cbn [obind]. rewrite C, IH by (intros; apply Hin; simpl; auto).
  unfold kept at 2. destruct (snd (fst e)); [destruct a|destruct b]; auto.
Qed.

Definition tview (cn : conns) (e : tev G) : view G :=
  (tkey e, snd (fst e), sg_items imax cn (tkey e) (sl_incoming (snd e)) (sl_ni (snd e)),
   sg_items imax cn (tkey e) (sl_incoming (snd e)) (sl_int (snd e))).

Lemma views_ok evs tes rest : all = evs ++ tes ++ rest -> NoDup (map tkey tes) ->
  forall es, (forall e, In e es -> In e tes) ->
  omap (st_view imax s) (map (fun e => (tkey e, snd e)) es) = Some (map (tview (st_conns s)) es).
Proof.
  intros Hall Hn. induction es as [|e es IH]; intros Hin; auto.
  destruct (entry_rec evs tes rest e Hall Hn ltac:(apply Hin; simpl; auto)) as (sub & A & B & _).
  cbn [map omap]. rewrite IH by (intros; apply Hin; simpl; auto). unfold st_view at 1. cbn [fst snd].
  rewrite A. cbn [obind]. rewrite B. auto.
Qed.

Lemma iter_ok a b : forall tls evs ptrs, all = evs ++ concat tls -> Forall (fun tl => NoDup (map tkey tl)) tls ->
  ptrs_ok base evs ptrs ->
  exists it, st_iter s ptrs (map (map tkey) tls) = Some it /\
    omap (fun e => es <- sci_collect s (snd e) a b (fst e) ;; omap (st_view imax s) es) it =
      Some (map (fun tl => map (tview (st_conns s)) (filter (fun e => kept a b (snd (fst e))) tl)) tls).
Proof.
  induction tls as [|tl tls IH]; intros evs ptrs Hall Hn Hp.
  - exists []. auto.
  - pose proof (Forall_inv Hn) as Hn1. pose proof (Forall_inv_tail Hn) as Hn2. cbn [concat] in Hall.
    destruct (bump_ok tl evs ptrs) as (ptrs' & E1 & Hp'); auto.
    { intros e He. rewrite Hall, !in_app_iff. auto. }
    destruct (IH (evs ++ tl) ptrs' ltac:(rewrite <- app_assoc; auto) Hn2 Hp') as (it & E2 & E3).
    exists ((map tkey tl, ptrs) :: it). split.
    + cbn [map st_iter]. rewrite E1. cbn [obind]. rewrite E2. auto.
    + cbn [omap map fst snd]. rewrite (collect_ok a b evs tl (concat tls) ptrs) by auto. cbn [obind].
      rewrite (views_ok evs tl (concat tls)) by (auto; intros e He; apply filter_In in He; tauto). cbn [obind].
      rewrite E3. auto.
Qed.

Lemma ptrs_init : ptrs_ok (G:=G) base [] (repeat 0 (length base)).
Proof.
  split; [apply repeat_length|]. intros sc Hsc. rewrite (nth_error_nth' _ 0) by (rewrite repeat_length; auto).
  rewrite nth_repeat. auto.
Qed.

Lemma st_views_ok a b tls : all = concat tls -> Forall (fun tl => NoDup (map tkey tl)) tls ->
  st_layers s = map (map tkey) tls ->
  st_views imax s a b =
    Some (map (fun tl => map (tview (st_conns s)) (filter (fun e => kept a b (snd (fst e))) tl)) tls).
Proof.
  intros Hall Hn Hl. unfold st_views, st_layer_iter. destruct HF as [E _]. rewrite E, Hl.
  destruct (iter_ok a b tls [] _ Hall Hn ptrs_init) as (it & E1 & E2). rewrite E1. cbn [obind]. auto.
Qed.
End Iter.

(** Layers as the dynamic iterator gives them. *)
Section FromBase.
Context {G : Type}.
Variable imax : nat.
Variable m : mcirc G.

Lemma sg_loop_out cn (c : circuit G) sc : forall idx inc rs bs out, sg_loop imax cn c sc idx inc = (rs, bs, out) ->
  exists t, out = inc ++ t.
Proof.
  induction idx as [|id idx IH]; intros inc rs bs out E; cbn [sg_loop] in E.
  - injection E as <- <- <-. exists []. rewrite app_nil_r. auto.
  - destruct (sg_loop imax cn c sc idx (inc ++ parents c id)) as [[rs1 bs1] out1] eqn:E1. injection E as <- <- <-.
    destruct (IH _ _ _ _ E1) as (t & ->). exists (parents c id ++ t). rewrite app_assoc. auto.
Qed.

Lemma sg_loop_items cn (c : circuit G) sc : forall idx inc rs bs out gates fin,
  sg_loop imax cn c sc idx inc = (rs, bs, out) -> omap (nth_error (c_gates c)) idx = Some gates ->
  (exists t, fin = out ++ t) ->
  omap (fun id => g <- nth_error (c_gates c) id ;;
    Some (g, id, match cn_parents imax cn (sc, id) with [] => map (pair sc) (parents c id) | ps => ps end)) idx =
  Some (sg_items imax cn sc fin (SG gates idx rs bs)).
Proof.
  induction idx as [|id idx IH]; intros inc rs bs out gates fin E Eg Hf; cbn [sg_loop] in E; cbn [omap] in Eg |- *.
  - injection E as <- <- <-. injection Eg as <-. auto.
  - destruct (sg_loop imax cn c sc idx (inc ++ parents c id)) as [[rs1 bs1] out1] eqn:E1. injection E as <- <- <-.
    destruct (nth_error (c_gates c) id) as [g|]; [|discriminate]. cbn [obind] in Eg |- *.
    destruct (omap (nth_error (c_gates c)) idx) as [gs|] eqn:Egs; [|discriminate]. cbn [obind] in Eg. injection Eg as <-.
    rewrite (IH _ _ _ _ _ fin E1 eq_refl Hf). cbn [obind]. unfold sg_items. cbn [sg_gates sg_idx sg_inc sg_cross zip_with].
    f_equal. f_equal. f_equal. cbn [fst snd].
    destruct (cn_parents imax cn (sc, id)); auto. f_equal.
    destruct (sg_loop_out _ _ _ _ _ _ _ _ E1) as (t1 & ->). destruct Hf as (t & ->).
    rewrite <- !app_assoc, app_length, skipn_app, skipn_all2, Nat.sub_diag by lia. simpl.
    replace (length inc + length (parents c id) - length inc) with (length (parents c id)) by lia.
    rewrite firstn_app, Nat.sub_diag, firstn_all. simpl. rewrite app_nil_r. auto.
Qed.

Lemma omap_ext_in {A B} (f g : A -> option B) l : (forall x, In x l -> f x = g x) -> omap f l = omap g l.
Proof.
  induction l as [|x l IH]; intros H; auto. cbn [omap]. rewrite H by (simpl; auto). rewrite IH; auto.
  intros y Hy. apply H. simpl; auto.
Qed.

Lemma pre_of_view e t : pre_of imax m e = Some t ->
  (forall c id, mc_get m (fst (fst e)) = Some c -> In id (bl_ids (snd e)) ->
     cn_parents imax (mc_conns m) (fst (fst e), id) <> [] -> parents c id = []) ->
  layer_view m imax e = Some (tview imax (mc_conns m) t).
Proof.
  intros Hp Hpar. apply pre_of_key in Hp. destruct Hp as [Ek El]. destruct e as [[sc simd] b]. destruct t as [[sc' simd'] l].
  cbn [fst snd] in *. injection Ek as -> ->. unfold sl_from_base in El.
  destruct (mc_get m sc) as [c|] eqn:Ec; [|discriminate]. cbn [obind] in El. unfold sg_from_base in El.
  destruct (omap (nth_error (c_gates c)) (bl_ni b)) as [gn|] eqn:Egn; [|discriminate].
  cbn [obind] in El.
  destruct (sg_loop imax (mc_conns m) c sc (bl_ni b) []) as [[r1 b1] o1] eqn:E1. cbn [obind] in El.
  destruct (omap (nth_error (c_gates c)) (bl_int b)) as [gi|] eqn:Egi; [|discriminate]. cbn [obind] in El.
  destruct (sg_loop imax (mc_conns m) c sc (bl_int b) o1) as [[r2 b2] o2] eqn:E2. cbn [obind] in El. injection El as <-.
  destruct (sg_loop_out _ _ _ _ _ _ _ _ E2) as (t2 & Eo).
  assert (V : forall ids, incl ids (bl_ids b) -> gates_view m imax sc ids =
    omap (fun id => g <- nth_error (c_gates c) id ;;
      Some (g, id, match cn_parents imax (mc_conns m) (sc, id) with [] => map (pair sc) (parents c id) | ps => ps end)) ids).
  { intros ids Hi. unfold gates_view. apply omap_ext_in. intros id Hid. unfold mc_gate, mc_parents. cbn [fst snd].
    rewrite Ec. cbn [obind]. specialize (Hpar c id eq_refl (Hi _ Hid)).
    destruct (cn_parents imax (mc_conns m) (sc, id)) as [|q qs] eqn:Eq; [rewrite app_nil_r; auto|].
    rewrite Hpar by discriminate. auto. }
  unfold layer_view, tview, tkey. cbn [fst snd sl_ni sl_int sl_incoming].
  rewrite (V (bl_ni b)) by (intros x Hx; apply in_or_app; auto).
  rewrite (sg_loop_items _ _ _ _ _ _ _ _ gn o2 E1 Egn) by eauto. cbn [obind].
  rewrite (V (bl_int b)) by (intros x Hx; apply in_or_app; auto).
  rewrite (sg_loop_items _ _ _ _ _ _ _ _ gi o2 E2 Egi) by (exists []; rewrite app_nil_r; auto). auto.
Qed.

Lemma omap_total {A B} (f : A -> option B) l : (forall x, In x l -> exists y, f x = Some y) -> exists r, omap f l = Some r.
Proof.
  induction l as [|x l IH]; intros H; [exists []; auto|]. destruct (H x) as (y & Hy); [simpl; auto|].
  destruct IH as (r & Hr); [intros; apply H; simpl; auto|]. exists (y :: r). cbn [omap]. rewrite Hy, Hr. auto.
Qed.

Lemma pre_of_total e c : mc_get m (fst (fst e)) = Some c -> (forall id, In id (bl_ids (snd e)) -> id < c_count c) ->
  exists t, pre_of imax m e = Some t.
Proof.
  intros Hc Hid. unfold pre_of, sl_from_base. rewrite Hc. cbn [obind]. unfold sg_from_base.
  assert (T : forall ids, incl ids (bl_ids (snd e)) -> exists r, omap (nth_error (c_gates c)) ids = Some r).
  { intros ids Hi. apply omap_total. intros x Hx. specialize (Hid x (Hi _ Hx)).
    destruct (nth_error (c_gates c) x) eqn:E; eauto. apply nth_error_None in E. unfold c_count in Hid. lia. }
  destruct (T (bl_ni (snd e))) as (gn & ->); [intros x Hx; apply in_or_app; auto|]. cbn [obind].
  destruct (sg_loop imax (mc_conns m) c (fst (fst e)) (bl_ni (snd e)) []) as [[r1 b1] o1]. cbn [obind].
  destruct (T (bl_int (snd e))) as (gi & ->); [intros x Hx; apply in_or_app; auto|]. cbn [obind].
  destruct (sg_loop imax (mc_conns m) c (fst (fst e)) (bl_int (snd e)) o1) as [[r2 b2] o2]. cbn [obind option_map]. eauto.
Qed.

Lemma sg_loop_alike cn (c : circuit G) sc1 sc2 : forall idx inc,
  (forall id, In id idx -> (cn_parents imax cn (sc1, id) = [] <-> cn_parents imax cn (sc2, id) = [])) ->
  sg_loop imax cn c sc1 idx inc = sg_loop imax cn c sc2 idx inc.
Proof.
  induction idx as [|id idx IH]; intros inc H; auto. cbn [sg_loop]. rewrite IH by (intros; apply H; simpl; auto).
  specialize (H id (or_introl eq_refl)).
  destruct (cn_parents imax cn (sc1, id)), (cn_parents imax cn (sc2, id)); auto;
    [destruct H as [H _]|destruct H as [_ H]]; discriminate (H eq_refl).
Qed.

Lemma pre_alike sc1 b1 sc2 b2 h :
  (forall g, Permutation (cn_parents imax (mc_conns m) g) (sources_of h g)) ->
  mc_get m sc1 = mc_get m sc2 -> alike h sc1 b1 sc2 b2 ->
  sl_from_base imax m sc1 b1 = sl_from_base imax m sc2 b2.
Proof.
  intros Hpar Hc (A & B & C). unfold sl_from_base. rewrite Hc. destruct (mc_get m sc2) as [c|]; auto. cbn [obind].
  assert (S : forall g, cn_parents imax (mc_conns m) g = [] <-> ~ exists p, In (p, g) h).
  { intros g. specialize (Hpar g). split.
    - intros E (p & Hp). rewrite E in Hpar. apply Permutation_nil in Hpar.
      assert (X : In p (sources_of h g)); [|rewrite Hpar in X; destruct X].
      unfold sources_of. apply in_map_iff. exists (p, g). split; auto. apply filter_In. split; auto.
      cbn [snd]. rewrite !Nat.eqb_refl. auto.
    - intros Hn. destruct (cn_parents imax (mc_conns m) g) as [|q qs]; auto. exfalso. apply Hn. exists q.
      assert (X : In q (sources_of h g)) by (apply (Permutation_in _ Hpar); simpl; auto).
      unfold sources_of in X. apply in_map_iff in X. destruct X as ((a & t) & E & X). apply filter_In in X.
      destruct X as [X Y]. cbn [fst snd] in *. apply andb_true_iff in Y. rewrite !Nat.eqb_eq in Y. destruct Y, t, g; cbn [fst snd] in *.
      subst. auto. }
  unfold sg_from_base. rewrite <- A, <- B.
  assert (L : forall ids inc, incl ids (bl_ni b1 ++ bl_int b1) ->
    sg_loop imax (mc_conns m) c sc1 ids inc = sg_loop imax (mc_conns m) c sc2 ids inc).
  { intros ids inc Hi. apply sg_loop_alike. intros id Hid. rewrite !S. specialize (C id (Hi _ Hid)). tauto. }
  rewrite (L (bl_ni b1)) by (intros x Hx; apply in_or_app; auto).
  destruct (omap (nth_error (c_gates c)) (bl_ni b1)); auto. cbn [obind].
  destruct (sg_loop imax (mc_conns m) c sc2 (bl_ni b1) []) as [[r1 b1'] o1]. cbn [obind].
  rewrite (L (bl_int b1)) by (intros x Hx; apply in_or_app; auto). auto.
Qed.

Lemma sources_none h : (forall g, Permutation (cn_parents imax (mc_conns m) g) (sources_of h g)) ->
  forall g, cn_parents imax (mc_conns m) g = [] <-> ~ exists p, In (p, g) h.
Proof.
  intros Hpar g. specialize (Hpar g). split.
  - intros E (p & Hp). rewrite E in Hpar. apply Permutation_nil in Hpar.
    assert (X : In p (sources_of h g)); [|rewrite Hpar in X; destruct X].
    unfold sources_of. apply in_map_iff. exists (p, g). split; auto. apply filter_In. split; auto.
    cbn [snd]. rewrite !Nat.eqb_refl. auto.
  - intros Hn. destruct (cn_parents imax (mc_conns m) g) as [|q qs]; auto. exfalso. apply Hn. exists q.
    assert (X : In q (sources_of h g)) by (apply (Permutation_in _ Hpar); simpl; auto).
    unfold sources_of in X. apply in_map_iff in X. destruct X as ((a & t) & E & X). apply filter_In in X.
    destruct X as [X Y]. cbn [fst snd] in *. apply andb_true_iff in Y. rewrite !Nat.eqb_eq in Y. destruct Y, t, g; cbn [fst snd] in *.
    subst. auto.
Qed.

Lemma sg_loop_cross cn (c : circuit G) sc : forall idx inc rs bs out, sg_loop imax cn c sc idx inc = (rs, bs, out) ->
  bs = map (fun id => match cn_parents imax cn (sc, id) with [] => false | _ => true end) idx.
Proof.
  induction idx as [|id idx IH]; intros inc rs bs out E; cbn [sg_loop] in E.
  - injection E as <- <- <-. auto.
  - destruct (sg_loop imax cn c sc idx (inc ++ parents c id)) as [[rs1 bs1] out1] eqn:E1. injection E as <- <- <-.
    cbn [map]. f_equal. eapply IH; eauto.
Qed.

(** Equal precomputed layers come from layers that look alike. *)
Lemma pre_unlike sc1 b1 sc2 b2 h x :
  (forall g, Permutation (cn_parents imax (mc_conns m) g) (sources_of h g)) ->
  sl_from_base imax m sc1 b1 = Some x -> sl_from_base imax m sc2 b2 = Some x -> alike h sc1 b1 sc2 b2.
Proof.
  intros Hpar.
  assert (P : forall sc b x, sl_from_base imax m sc b = Some x ->
    sg_idx (sl_ni x) = bl_ni b /\ sg_idx (sl_int x) = bl_int b /\
    sg_cross (sl_ni x) = map (fun id => match cn_parents imax (mc_conns m) (sc, id) with [] => false | _ => true end) (bl_ni b) /\
    sg_cross (sl_int x) = map (fun id => match cn_parents imax (mc_conns m) (sc, id) with [] => false | _ => true end) (bl_int b)).
  { clear. intros sc b x El. unfold sl_from_base in El.
    destruct (mc_get m sc) as [c|] eqn:Ec; [|discriminate]. cbn [obind] in El. unfold sg_from_base in El.
    destruct (omap (nth_error (c_gates c)) (bl_ni b)) as [gn|] eqn:Egn; [|discriminate].
    cbn [obind] in El.
    destruct (sg_loop imax (mc_conns m) c sc (bl_ni b) []) as [[r1 b1] o1] eqn:E1. cbn [obind] in El.
    destruct (omap (nth_error (c_gates c)) (bl_int b)) as [gi|] eqn:Egi; [|discriminate]. cbn [obind] in El.
    destruct (sg_loop imax (mc_conns m) c sc (bl_int b) o1) as [[r2 b2] o2] eqn:E2. cbn [obind] in El. injection El as <-.
    cbn [sl_ni sl_int sg_idx sg_cross]. split; auto. split; auto. split; eapply sg_loop_cross; eauto. }
  intros H1 H2. destruct (P _ _ _ H1) as (A1 & B1 & C1 & D1). destruct (P _ _ _ H2) as (A2 & B2 & C2 & D2).
  rewrite A1 in A2. rewrite B1 in B2. rewrite <- A2 in C2. rewrite <- B2 in D2. rewrite C1 in C2. rewrite D1 in D2.
  split; auto. split; auto. intros id Hid.
  assert (E : (match cn_parents imax (mc_conns m) (sc1, id) with [] => false | _ => true end) =
              (match cn_parents imax (mc_conns m) (sc2, id) with [] => false | _ => true end)).
  { apply in_app_or in Hid. destruct Hid as [Hid|Hid]; [apply (ext_in_map C2 id Hid)|apply (ext_in_map D2 id Hid)]. }
  pose proof (sources_none h Hpar (sc1, id)) as S1. pose proof (sources_none h Hpar (sc2, id)) as S2.
  assert (Dec : forall g, (exists p, In (p, g) h) \/ ~ exists p, In (p, g) h).
  { intros g. destruct (cn_parents imax (mc_conns m) g) as [|q qs] eqn:Eq.
    - right. apply (sources_none h Hpar g). auto.
    - left. exists q. assert (X : In q (sources_of h g)) by (apply (Permutation_in _ (Hpar g)); rewrite Eq; simpl; auto).
      unfold sources_of in X. apply in_map_iff in X. destruct X as ((a & t) & E' & X). apply filter_In in X.
      destruct X as [X Y]. cbn [fst snd] in *. apply andb_true_iff in Y. rewrite !Nat.eqb_eq in Y. destruct Y, t, g; cbn [fst snd] in *.
      subst. auto. }
  destruct (cn_parents imax (mc_conns m) (sc1, id)) as [|u us], (cn_parents imax (mc_conns m) (sc2, id)) as [|v vs]; try discriminate E.
  - split; intros X; exfalso; [apply (proj1 S1 eq_refl)|apply (proj1 S2 eq_refl)]; auto.
  - split; intros _; [destruct (Dec (sc2, id)) as [|N]; auto; discriminate (proj2 S2 N)|
      destruct (Dec (sc1, id)) as [|N]; auto; discriminate (proj2 S1 N)].
Qed.
End FromBase.
