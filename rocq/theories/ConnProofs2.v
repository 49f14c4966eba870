(** Proofs about grouping gates into ranges and about whole connect calls. *)
From Coq Require Import List Bool Arith Lia Permutation.
Require Import Verif.Prelude Verif.PreludeProofs Verif.GateModel Verif.CircuitModel Verif.ExecModel
  Verif.ConnModel Verif.ConnSpec Verif.ConnProofs.
Import ListNotations.

(** ** Runs *)

Lemma run_from_length n : forall g, length (run_from g n) = n.
Proof. induction n; intros g; simpl; auto. Qed.

Lemma run_from_nth n : forall g i, i < n -> nth_error (run_from g n) i = Some (fst g, snd g + i).
Proof.
  induction n; intros g i Hi; [lia|]. destruct i; simpl.
  - destruct g; simpl. rewrite Nat.add_0_r. auto.
  - rewrite IHn by lia. simpl. do 2 f_equal. lia.
Qed.

Lemma runs_exist l : exists rs, maximal_runs l rs.
Proof.
  induction l as [|x l (rs & IH)]; [exists []; constructor|].
  inversion IH as [|g n l' rs' H' Hd]; subst.
  - exists [(x, 1)]. exact (mr_cons x 0 [] [] mr_nil I).
  - destruct (gid_eqb (gid_succ x) g) eqn:E.
    + apply gid_eqb_eq in E. subst g. exists ((x, S (S n)) :: rs').
      change (x :: run_from (gid_succ x) (S n) ++ l') with (run_from x (S (S n)) ++ l').
      constructor; auto. destruct l' as [|y l']; auto. intros ->. apply Hd. unfold gid_succ. simpl. f_equal. lia.
    + exists ((x, 1) :: (g, S n) :: rs'). change (x :: run_from g (S n) ++ l') with (run_from x 1 ++ run_from g (S n) ++ l').
      constructor; auto. cbn [run_from app]. intros ->. unfold gid_succ in E. rewrite Nat.add_1_r, gid_eqb_refl in E. discriminate.
Qed.

Definition keyed (rs : list (gid * nat)) : list (gid * gid) :=
  concat (map (fun r => map (pair (fst r)) (run_from (fst r) (snd r))) rs).

Lemma gg_keys_cons2 s x y r :
  gg_keys s (x :: y :: r) = (s, x) :: gg_keys (if gid_eqb (gid_succ x) y then s else y) (y :: r).
Proof. reflexivity. Qed.

Lemma gg_keys_block s l : (forall x, match l with y :: _ => gg_keys y l | [] => [] end = x ->
   forall n g, (match l with y :: _ => y <> (fst g, snd g + S n) | [] => True end) ->
   gg_keys s (run_from g (S n) ++ l) = map (pair s) (run_from g (S n)) ++ x).
Proof.
  intros x Hx. induction n as [|n IH]; intros g Hd.
  - cbn [run_from app map]. cbn [gg_keys]. destruct l as [|y l]; [subst; auto|].
    destruct (gid_eqb (gid_succ g) y) eqn:E.
    + apply gid_eqb_eq in E. exfalso. apply Hd. rewrite <- E. unfold gid_succ. f_equal. lia.
    + rewrite Hx. auto.
  - change (run_from g (S (S n)) ++ l) with (g :: (fst g, S (snd g)) :: run_from (gid_succ (gid_succ g)) n ++ l).
    rewrite gg_keys_cons2. change (gid_succ g) with (fst g, S (snd g)) at 1. rewrite gid_eqb_refl.
    change (run_from g (S (S n))) with (g :: run_from (fst g, S (snd g)) (S n)). cbn [map app]. f_equal.
    apply (IH (fst g, S (snd g))).
    destruct l as [|y l]; auto. intros ->. apply Hd. simpl. f_equal. lia.
Qed.

Lemma gg_keys_runs l rs : maximal_runs l rs -> match l with y :: _ => gg_keys y l | [] => [] end = keyed rs.
Proof.
  induction 1 as [|g n l rs H IH Hd]; auto. cbn [run_from app].
  change (g :: run_from (fst g, S (snd g)) n ++ l) with (run_from g (S n) ++ l).
  rewrite (gg_keys_block g l _ IH n g Hd). auto.
Qed.

Lemma group_adj_block k x l rest :
  group_adj (map (pair k) (x :: l) ++ rest) =
  match group_adj rest with
  | (k', grp) :: gs => if gid_eqb k k' then (k, (x :: l) ++ grp) :: gs else (k, x :: l) :: (k', grp) :: gs
  | [] => [(k, x :: l)]
  end.
Proof.
  revert x. induction l as [|y l IH]; intros x.
  - cbn [map app group_adj]. destruct (group_adj rest) as [|[k' grp] gs]; auto.
  - cbn [map app group_adj]. cbn [map app group_adj] in IH. rewrite IH.
    destruct (group_adj rest) as [|[k' grp] gs].
    + rewrite gid_eqb_refl. auto.
    + destruct (gid_eqb k k'); rewrite gid_eqb_refl; auto.
Qed.

Definition pos_run (r : gid * nat) : Prop := 0 < snd r.

Lemma maximal_pos l rs : maximal_runs l rs -> Forall pos_run rs.
Proof. induction 1; constructor; auto. unfold pos_run. simpl. lia. Qed.

Lemma maximal_concat l rs : maximal_runs l rs -> concat (map (fun r => run_from (fst r) (snd r)) rs) = l.
Proof. induction 1 as [|g n l rs H IH Hd]; auto. cbn [map concat fst snd]. rewrite IH. auto. Qed.

(** A partition of the runs into blocks of equal start. *)
Definition blocks_runs (p : list (gid * list nat)) : list (gid * nat) :=
  concat (map (fun b => map (pair (fst b)) (snd b)) p).
Definition block_group (b : gid * list nat) : gid * list gid :=
  (fst b, concat (map (run_from (fst b)) (snd b))).

Lemma group_structure rs : Forall pos_run rs ->
  exists p, group_adj (keyed rs) = map block_group p /\ rs = blocks_runs p /\
    adjacent_differ (map fst p) /\ Forall (fun b => snd b <> [] /\ Forall (lt 0) (snd b)) p.
Proof.
  induction rs as [|[g n] rs IH]; intros HP.
  - exists []. repeat split; auto; constructor.
  - inversion HP as [|? ? H1 H2]; subst. destruct (IH H2) as (p & E & -> & A & F). unfold pos_run in H1. simpl in H1.
    destruct n as [|n]; [lia|].
    assert (Hb : group_adj (keyed ((g, S n) :: blocks_runs p)) =
      match group_adj (keyed (blocks_runs p)) with
      | (k', grp) :: gs => if gid_eqb g k' then (g, run_from g (S n) ++ grp) :: gs
                           else (g, run_from g (S n)) :: (k', grp) :: gs
      | [] => [(g, run_from g (S n))]
      end).
    { unfold keyed at 1. cbn [map concat fst snd]. cbn [run_from]. rewrite group_adj_block. auto. }
    rewrite Hb, E. destruct p as [|[k ns] p].
    + exists [(g, [S n])]. unfold block_group, blocks_runs. cbn [map fst snd concat app]. rewrite app_nil_r.
      repeat split; auto. constructor; [|constructor]. simpl. split; [discriminate|]. constructor; [lia|constructor].
    + cbn [map block_group fst snd]. destruct (gid_eqb g k) eqn:Ek.
      * apply gid_eqb_eq in Ek. subst k. exists ((g, S n :: ns) :: p). inversion F as [|? ? F1 F2]; subst. simpl in F1.
        split; [auto|]. split; [auto|]. split; [auto|]. constructor; auto. simpl. split; [discriminate|].
        constructor; [lia|tauto].
      * exists ((g, [S n]) :: (k, ns) :: p). unfold block_group at 2. cbn [map fst snd concat]. rewrite app_nil_r.
        split; [auto|]. split; [auto|]. split.
        -- cbn [map fst] in *. split; auto. intros ->. rewrite gid_eqb_refl in Ek. discriminate.
        -- constructor; auto. simpl. split; [discriminate|]. constructor; [lia|constructor].
Qed.

Lemma adjacent_differ_tail x l : adjacent_differ (x :: l) -> adjacent_differ l.
Proof. destruct l; simpl; tauto. Qed.

Lemma blocks_single p : Forall (fun b : gid * list nat => snd b <> [] /\ Forall (lt 0) (snd b)) p ->
  adjacent_differ (map fst p) ->
  (adjacent_differ (map fst (blocks_runs p)) <-> Forall (fun b => length (snd b) = 1) p).
Proof.
  induction p as [|[k ns] p IH]; intros HF HA.
  - simpl. split; [constructor|auto].
  - inversion HF as [|? ? F1 F2]; subst. pose proof (adjacent_differ_tail _ _ HA) as HA'. specialize (IH F2 HA').
    destruct F1 as [N P]. simpl in N, P. destruct ns as [|n [|n2 ns]]; [congruence| |].
    + unfold blocks_runs. cbn [map fst snd concat app]. fold (blocks_runs p). split.
      * intros H. constructor; auto. apply IH. eapply adjacent_differ_tail; eauto.
      * intros H. inversion H as [|? ? H1 H2]; subst. apply IH in H2.
        destruct p as [|[k2 ns2] p]; [simpl; auto|]. inversion F2 as [|? ? [N2 _] _]; subst.
        destruct ns2 as [|m ns2]; [simpl in N2; congruence|]. cbn [blocks_runs map fst snd concat app] in *.
        split; auto. exact (proj1 HA).
    + unfold blocks_runs. cbn [map fst snd concat app]. split.
      * intros [H _]. congruence.
      * intros H. inversion H as [|? ? H1 H2]; subst. discriminate.
Qed.

(** ** Connecting ranges *)

Lemma consecutive_seq l : consecutive l = true <-> exists t, l = seq t (length l).
Proof.
  induction l as [|x l IH]; [split; [exists 0|]; auto|]. destruct l as [|y l].
  - split; [exists x|]; auto.
  - change (consecutive (x :: y :: l)) with ((S x =? y) && consecutive (y :: l)).
    rewrite andb_true_iff, Nat.eqb_eq, IH. split.
    + intros [<- (t & H)]. exists x. cbn [length seq] in *. injection H as H1 H2. subst t. congruence.
    + intros (t & H). cbn [length seq] in *. injection H as -> -> H. split; auto. exists (S t). congruence.
Qed.

Definition swap {A B} (p : A * B) : B * A := (snd p, fst p).

Lemma sum_last_single ns d : ns <> [] -> Forall (lt 0) ns -> last ns d = sum_list ns -> length ns = 1.
Proof.
  intros HN HP HL. destruct ns as [|a ns]; [congruence|]. clear HN.
  assert (G : forall ns d, Forall (lt 0) ns -> ns <> [] -> last ns d <= sum_list ns).
  { clear. induction ns as [|a ns IH]; intros d HP H; [congruence|]. inversion HP; subst.
    destruct ns as [|b ns]; [simpl; lia|]. change (last (a :: b :: ns) d) with (last (b :: ns) d).
    change (sum_list (a :: b :: ns)) with (a + sum_list (b :: ns)).
    assert (last (b :: ns) d <= sum_list (b :: ns)) by (apply IH; auto; discriminate). lia. }
  destruct ns as [|b ns]; auto. exfalso. inversion HP; subst.
  change (last (a :: b :: ns) d) with (last (b :: ns) d) in HL.
  change (sum_list (a :: b :: ns)) with (a + sum_list (b :: ns)) in HL.
  assert (last (b :: ns) d <= sum_list (b :: ns)) by (apply G; auto; discriminate). lia.
Qed.

Lemma block_length k ns : length (concat (map (run_from k) ns)) = sum_list ns.
Proof. induction ns as [|n ns IH]; auto. cbn [map concat]. rewrite app_length, run_from_length, IH. auto. Qed.

Lemma block_last k ns : ns <> [] -> Forall (lt 0) ns ->
  nth_error (concat (map (run_from k) ns)) (sum_list ns - 1) = Some (fst k, snd k + (last ns 0 - 1)).
Proof.
  induction ns as [|n ns IH]; intros HN HP; [congruence|]. inversion HP as [|? ? P1 P2]; subst.
  cbn [map concat]. destruct ns as [|m ns].
  - cbn [map concat]. rewrite app_nil_r. simpl. rewrite Nat.add_0_r. apply run_from_nth. lia.
  - assert (0 < sum_list (m :: ns)). { inversion P2; subst. simpl. lia. }
    change (sum_list (n :: m :: ns)) with (n + sum_list (m :: ns)).
    rewrite nth_error_app2 by (rewrite run_from_length; lia). rewrite run_from_length.
    replace (n + sum_list (m :: ns) - 1 - n) with (sum_list (m :: ns) - 1) by lia.
    rewrite IH; auto. discriminate.
Qed.

Lemma connect_ranges_spec p to_c t : forall ic len cn cn',
  Forall (fun b : gid * list nat => snd b <> [] /\ Forall (lt 0) (snd b)) p ->
  connect_ranges (map block_group p) to_c (seq t len) ic cn = Some cn' ->
  Forall (fun b => length (snd b) = 1) p /\
  ic + sum_list (map snd (blocks_runs p)) <= max ic len /\
  cn_oout cn' = cn_oout cn /\ cn_oin cn' = cn_oin cn /\
  rc_inserts (cn_rout cn) (run_ranges (blocks_runs p) to_c (t + ic)) = Some (cn_rout cn') /\
  rc_inserts (cn_rin cn) (map swap (run_ranges (blocks_runs p) to_c (t + ic))) = Some (cn_rin cn').
Proof.
  induction p as [|[k ns] p IH]; intros ic len cn cn' HF H.
  - cbn [map connect_ranges] in H. injection H as <-. split; [constructor|]. split; [simpl; lia|]. repeat split; auto.
  - inversion HF as [|? ? [N P] F2]; subst. cbn [map block_group connect_ranges fst snd] in H, N, P.
    unfold block_group in H at 1. cbn [fst snd] in H.
    rewrite block_length, block_last in H by auto. cbn [obind fst snd] in H.
    assert (Hpos : 0 < sum_list ns). { destruct ns; [congruence|]. inversion P; subst. simpl. lia. }
    assert (Hl : 0 < last ns 0).
    { clear - N P. induction ns as [|a ns IH]; [congruence|]. inversion P; subst. destruct ns as [|b ns]; [simpl; lia|].
      change (last (a :: b :: ns) 0) with (last (b :: ns) 0). apply IH; auto. discriminate. }
    destruct (oassert (ic + sum_list ns <=? length (seq t len))) as [[]|] eqn:E1; [|discriminate].
    apply oassert_true in E1. apply Nat.leb_le in E1. rewrite seq_length in E1. cbn [obind] in H.
    assert (Hseq : forall i, i < len -> nth_error (seq t len) i = Some (t + i)).
    { intros i Hi. rewrite (nth_error_nth' _ 0) by (rewrite seq_length; auto). f_equal. apply seq_nth. auto. }
    rewrite !Hseq in H by lia. cbn [obind] in H. unfold csub in H.
    destruct (snd k <=? snd k + (last ns 0 - 1)) eqn:E2; [|discriminate].
    destruct (t + ic <=? t + (ic + sum_list ns - 1)) eqn:E3; [|discriminate]. cbn [obind] in H.
    destruct (oassert _) as [[]|] eqn:E4 in H; [|discriminate]. apply oassert_true in E4. apply Nat.eqb_eq in E4.
    cbn [obind] in H.
    assert (Hsum : last ns 0 = sum_list ns) by lia.
    pose proof (sum_last_single ns 0 N P Hsum) as H1. destruct ns as [|n [|? ?]]; try discriminate.
    assert (Es : sum_list [n] = n) by (simpl; lia). rewrite Es in *. cbn [last] in *.
    destruct (rc_insert (cn_rout cn) _ _) as [ro|] eqn:Eo; [|discriminate]. cbn [obind] in H.
    destruct (rc_insert (cn_rin cn) _ _) as [ri|] eqn:Ei; [|discriminate]. cbn [obind] in H.
    apply IH in H; auto. destruct H as (A & B & C & D & E & F). cbn [cn_rout cn_rin cn_oout cn_oin] in *.
    split; [constructor; auto|]. unfold blocks_runs in *. cbn [map fst snd concat app].
    match goal with |- context [sum_list (n :: ?x)] => change (sum_list (n :: x)) with (n + sum_list x) end.
    split; [lia|]. split; auto. split; auto.
    cbn [run_ranges map swap]. unfold rc_inserts. cbn [ofold fst snd].
    replace (t + (ic + n - 1)) with (t + ic + (n - 1)) in Eo, Ei by lia.
    replace (t + (ic + n)) with (t + ic + n) in E, F by lia.
    split.
    + match goal with |- obind ?x _ = _ => replace x with (Some ro) by (symmetry; exact Eo) end. cbn [obind]. exact E.
    + match goal with |- obind ?x _ = _ => replace x with (Some ri) by (symmetry; exact Ei) end. cbn [obind]. exact F.
Qed.

(** ** Whole calls *)

Lemma o2o_get_push m k v : forall x, o2o_get (o2o_push m k v) x = o2o_get m x ++ (if gid_eqb x k then [v] else []).
Proof.
  induction m as [|[k' l] m IH]; intros x; cbn [o2o_push o2o_get].
  - destruct (gid_eqb x k); auto.
  - destruct (gid_eqb k k') eqn:E; cbn [o2o_get].
    + apply gid_eqb_eq in E. subst k'. destruct (gid_eqb x k); auto. rewrite app_nil_r. auto.
    + destruct (gid_eqb x k') eqn:E2; auto. apply gid_eqb_eq in E2. subst k'.
      destruct (gid_eqb x k) eqn:E3; [|rewrite app_nil_r; auto]. apply gid_eqb_eq in E3. subst k.
      rewrite gid_eqb_refl in E. discriminate.
Qed.

Lemma targets_of_cons f t h g : targets_of ((f, t) :: h) g = (if gid_eqb g f then [t] else []) ++ targets_of h g.
Proof.
  unfold targets_of. cbn [filter fst snd]. unfold gid_eqb. rewrite (Nat.eqb_sym (fst f)), (Nat.eqb_sym (snd f)).
  destruct ((fst g =? fst f) && (snd g =? snd f)); auto.
Qed.

Lemma sources_swap h g : sources_of h g = targets_of (map swap h) g.
Proof.
  unfold sources_of, targets_of. induction h as [|[f t] h IH]; auto. cbn [map filter fst snd swap].
  destruct ((fst t =? fst g) && (snd t =? snd g)); cbn [map fst snd swap]; rewrite IH; auto.
Qed.

Lemma targets_of_app h1 h2 g : targets_of (h1 ++ h2) g = targets_of h1 g ++ targets_of h2 g.
Proof. unfold targets_of. rewrite filter_app, map_app. auto. Qed.

Lemma connect_unchecked_spec l : forall cn g,
  cn_rout (connect_unchecked cn l) = cn_rout cn /\ cn_rin (connect_unchecked cn l) = cn_rin cn /\
  o2o_get (cn_oout (connect_unchecked cn l)) g = o2o_get (cn_oout cn) g ++ targets_of l g /\
  o2o_get (cn_oin (connect_unchecked cn l)) g = o2o_get (cn_oin cn) g ++ targets_of (map swap l) g.
Proof.
  unfold connect_unchecked. induction l as [|[f t] l IH]; intros cn g.
  - simpl. rewrite !app_nil_r. auto.
  - cbn [fold_left fst snd map]. change (swap (f, t)) with (t, f).
    destruct (IH (CN (o2o_push (cn_oout cn) f t) (o2o_push (cn_oin cn) t f) (cn_rout cn) (cn_rin cn)) g) as (A & B & C & D).
    cbn [cn_oout cn_oin cn_rout cn_rin] in *. rewrite A, B, C, D, !o2o_get_push, !targets_of_cons, !app_assoc. repeat split; auto.
Qed.

Lemma deal_inputs_one to_c ids : forall from,
  deal_inputs (map (fun t => (t, 1)) ids) to_c from = combine from (map (pair to_c) ids).
Proof.
  induction ids as [|t ids IH]; intros from; cbn [map deal_inputs].
  - destruct from; auto.
  - rewrite IH. destruct from as [|f from]; auto.
Qed.

Lemma run_targets n : forall a b g,
  targets_of (combine (run_from a n) (run_from b n)) g =
  if (fst a =? fst g) && (snd a <=? snd g) && (snd g <? snd a + n) then [(fst b, snd b + (snd g - snd a))] else [].
Proof.
  induction n as [|n IH]; intros a b g.
  - cbn [run_from combine]. destruct (Nat.leb_spec (snd a) (snd g)), (Nat.ltb_spec (snd g) (snd a + 0)), (fst a =? fst g);
      auto; lia.
  - cbn [run_from combine]. rewrite targets_of_cons, IH. cbn [fst snd]. unfold gid_eqb.
    rewrite (Nat.eqb_sym (fst g)). destruct (fst a =? fst g); cbn [andb]; auto.
    destruct (Nat.eqb_spec (snd g) (snd a)) as [E|E].
    + rewrite E. rewrite Nat.leb_refl. destruct (Nat.leb_spec (S (snd a)) (snd a)); [lia|].
      destruct (Nat.ltb_spec (snd a) (snd a + S n)); [|lia]. cbn [andb app]. rewrite Nat.sub_diag, Nat.add_0_r.
      destruct b; auto.
    + destruct (Nat.leb_spec (S (snd a)) (snd g)), (Nat.leb_spec (snd a) (snd g)),
        (Nat.ltb_spec (snd g) (S (snd a) + n)), (Nat.ltb_spec (snd g) (snd a + S n)); try lia; cbn [andb app]; auto.
      do 2 f_equal. lia.
Qed.

Lemma seq_run c t n : map (pair c) (seq t n) = run_from (c, t) n.
Proof. revert t. induction n; intros t; simpl; auto. rewrite IHn. reflexivity. Qed.

Lemma run_from_app g n m : run_from g (n + m) = run_from g n ++ run_from (fst g, snd g + n) m.
Proof.
  revert g. induction n as [|n IH]; intros g; simpl.
  - rewrite Nat.add_0_r. destruct g; auto.
  - f_equal. rewrite IH. simpl. rewrite Nat.add_succ_r. auto.
Qed.

Lemma combine_app {A B} (a1 a2 : list A) (b1 b2 : list B) : length a1 = length b1 ->
  combine (a1 ++ a2) (b1 ++ b2) = combine a1 b1 ++ combine a2 b2.
Proof. revert b1. induction a1 as [|x a1 IH]; destruct b1; simpl; intros H; try discriminate; auto. f_equal; auto. Qed.

Lemma map_swap_combine {A B} (a : list A) (b : list B) : map swap (combine a b) = combine b a.
Proof. revert b. induction a as [|x a IH]; destruct b; simpl; auto. f_equal; auto. Qed.

Lemma run_ranges_targets l rs to_c g : maximal_runs l rs -> forall t len, length l <= len ->
  targets_of (combine l (run_from (to_c, t) len)) g = related (run_ranges rs to_c t) g /\
  targets_of (combine (run_from (to_c, t) len) l) g = related (map swap (run_ranges rs to_c t)) g.
Proof.
  induction 1 as [|a n l rs H IH Hd]; intros t len Hl.
  - split; auto. destruct (run_from (to_c, t) len); auto.
  - rewrite app_length, run_from_length in Hl. replace len with (S n + (len - S n)) by lia.
    rewrite run_from_app. rewrite !combine_app by (rewrite !run_from_length; auto).
    rewrite !targets_of_app, !run_targets. cbn [fst snd].
    destruct (IH (t + S n) (len - S n)) as [I1 I2]; [lia|]. rewrite I1, I2.
    cbn [run_ranges]. unfold related. cbn [map swap filter fst snd]. unfold inside. cbn [fst snd]. split.
    + replace (snd g <? snd a + S n) with (snd g <=? snd a + (S n - 1))
        by (apply eq_true_iff_eq; rewrite Nat.ltb_lt, Nat.leb_le; lia).
      destruct ((fst a =? fst g) && (snd a <=? snd g) && (snd g <=? snd a + (S n - 1))); auto.
    + replace (snd g <? t + S n) with (snd g <=? t + (S n - 1))
        by (apply eq_true_iff_eq; rewrite Nat.ltb_lt, Nat.leb_le; lia).
      destruct ((to_c =? fst g) && (t <=? snd g) && (snd g <=? t + (S n - 1))); auto.
Qed.

Lemma run_ranges_ok imax l rs to_c : maximal_runs l rs -> forall t,
  Forall (fun x => snd x <= imax) l -> t + length l <= S imax ->
  Forall (fun ft => range_ok imax (fst ft) /\ range_ok imax (snd ft)) (run_ranges rs to_c t).
Proof.
  induction 1 as [|a n l rs H IH Hd]; intros t HF Ht; [constructor|]. rewrite app_length, run_from_length in Ht.
  apply Forall_app in HF. destruct HF as [F1 F2]. cbn [run_ranges]. constructor; [|apply IH; auto; lia].
  assert (Hlast : snd a + n <= imax).
  { rewrite Forall_forall in F1. specialize (F1 (fst a, snd a + n)). apply F1.
    apply (nth_error_In _ n). apply run_from_nth. lia. }
  unfold range_ok. cbn [fst snd]. repeat split; lia.
Qed.

Record cn_rep (cn : conns) (hr : list (grange * grange)) (h1 : list (gid * gid)) : Prop := {
  rep_out : rc_inv (cn_rout cn) hr;
  rep_in : rc_inv (cn_rin cn) (map swap hr);
  rep_oout : forall g, o2o_get (cn_oout cn) g = targets_of h1 g;
  rep_oin : forall g, o2o_get (cn_oin cn) g = targets_of (map swap h1) g }.

Lemma cn_rep_empty : cn_rep cn_empty [] [].
Proof. constructor; try apply rc_inv_nil; auto. Qed.

Lemma seq_eq_inv t n t' n' : seq t (S n) = seq t' (S n') -> t = t' /\ n = n'.
Proof.
  intros H. split; [injection H; auto|]. assert (E : length (seq t (S n)) = length (seq t' (S n'))) by congruence.
  rewrite !seq_length in E. lia.
Qed.

Lemma call_step {G} (isz : G -> nat) circ c cn cn' hr h1 r :
  cn_rep cn hr h1 ->
  connect_sc_gates isz cn (ca_from c) circ (ca_to c) (ca_ids c) = Some cn' ->
  (forall t g, In t (ca_ids c) -> nth_error (c_gates circ) t = Some g -> isz g = 1) ->
  call_ranges c r ->
  exists s, cn_rep cn' (hr ++ r) (h1 ++ s) /\
    forall g, targets_of (intended c) g = targets_of s g ++ related r g /\
              targets_of (map swap (intended c)) g = targets_of (map swap s) g ++ related (map swap r) g.
Proof.
  intros [R1 R2 R3 R4] H Hsz HC. unfold connect_sc_gates in H.
  destruct (group_gates (ca_from c)) as [groups|] eqn:EG.
  2:{ injection H as <-. destruct c as [[|x from] to_c ids]; [|discriminate EG]. exists [].
      inversion HC as [? ? ? ? rs HM|? ? ? HN]; subst.
      - inversion HM; subst. cbn [run_ranges]. rewrite !app_nil_r.
        split; [constructor; auto|]. intros g. unfold intended. cbn [ca_from combine map]. auto.
      - rewrite !app_nil_r. split; [constructor; auto|]. intros g. unfold intended. cbn [ca_from combine map]. auto. }
  destruct c as [from to_c ids]. cbn [ca_from ca_to ca_ids] in *.
  assert (Hne : exists x from', from = x :: from'). { destruct from; [discriminate|eauto]. }
  destruct Hne as (x & from' & Ef).
  remember (Call from to_c ids) as c0 eqn:Ec0. destruct HC as [from0 to_c0 t n rs HM|from0 to_c0 ids0 HN];
    injection Ec0 as E1 E2 E3.
  - subst from0 to_c0 ids.
    assert (Ec : consecutive (seq t (S n)) = true) by (apply consecutive_seq; exists t; rewrite seq_length; auto).
    change (t :: seq (S t) n) with (seq t (S n)) in H. rewrite Ec in H. cbn [negb andb] in H.
    assert (EG' : groups = group_adj (keyed rs)).
    { rewrite <- (gg_keys_runs _ _ HM). clear - EG Ef. subst from. cbn [group_gates] in EG. congruence. }
    destruct (group_structure rs (maximal_pos _ _ HM)) as (p & E & -> & A & F). rewrite E in EG'. subst groups.
    apply connect_ranges_spec in H; auto. destruct H as (S1 & S2 & S3 & S4 & S5 & S6). rewrite Nat.add_0_r in *.
    exists []. rewrite app_nil_r. split.
    + constructor.
      * eapply rc_inserts_inv; eauto.
      * rewrite map_app. eapply rc_inserts_inv; eauto.
      * intros g. rewrite S3. auto.
      * intros g. rewrite S4. auto.
    + intros g. cbn [map targets_of filter app]. unfold intended. cbn [ca_from ca_to ca_ids].
      rewrite seq_run, map_swap_combine.
      assert (Hlen : length from <= S n).
      { assert (El : length from = sum_list (map snd (blocks_runs p))); [|simpl in S2; lia].
        rewrite <- (maximal_concat _ _ HM). clear. induction (blocks_runs p) as [|[a m] l IH]; auto.
        cbn [map concat]. rewrite app_length, run_from_length, IH. auto. }
      exact (run_ranges_targets _ _ to_c g HM t (S n) Hlen).
  - subst from0 to_c0 ids0.
    assert (Ec : consecutive ids && negb (match ids with [] => true | _ => false end) = false).
    { apply not_true_iff_false. rewrite andb_true_iff, consecutive_seq. intros [(t & E1) E2].
      destruct ids as [|i ids]; [discriminate|]. apply (HN t (length ids)). exact E1. }
    rewrite Ec in H. destruct (omap _ ids) as [sizes|] eqn:Es in H; [|discriminate]. cbn [obind] in H. injection H as <-.
    assert (Hs : sizes = map (fun t => (t, 1)) ids).
    { clear - Es Hsz. revert sizes Es. induction ids as [|t ids IH]; intros sizes Es; cbn [omap] in Es.
      - injection Es as <-. auto.
      - destruct (nth_error (c_gates circ) t) as [g|] eqn:Eg; [|discriminate]. cbn [obind] in Es.
        destruct (omap _ ids) as [sz|] eqn:Ei in Es; [|discriminate]. cbn [obind] in Es. injection Es as <-.
        cbn [map]. rewrite (Hsz t g (or_introl eq_refl) Eg). f_equal. apply IH; auto.
        intros t' g' Ht'. apply Hsz. simpl; auto. }
    rewrite Hs, deal_inputs_one. exists (combine from (map (pair to_c) ids)).
    rewrite app_nil_r. split.
    + constructor.
      * rewrite (proj1 (connect_unchecked_spec _ _ (0, 0))). auto.
      * rewrite (proj1 (proj2 (connect_unchecked_spec _ _ (0, 0)))). auto.
      * intros g. destruct (connect_unchecked_spec (combine from (map (pair to_c) ids)) cn g) as (_ & _ & E & _).
        rewrite E, R3, targets_of_app. auto.
      * intros g. destruct (connect_unchecked_spec (combine from (map (pair to_c) ids)) cn g) as (_ & _ & _ & E).
        rewrite E, R4, map_app, targets_of_app. auto.
    + intros g. unfold related. cbn [filter map]. rewrite !app_nil_r. auto.
Qed.

(** A call on the target circuit as it is at that time. *)
Definition connect_calls {G} (isz : G -> nat) (cn : conns) (calls : list (call * circuit G)) : option conns :=
  ofold (fun cn c => connect_sc_gates isz cn (ca_from (fst c)) (snd c) (ca_to (fst c)) (ca_ids (fst c))) cn calls.

Definition unit_inputs {G} (isz : G -> nat) (c : call * circuit G) : Prop :=
  forall t g, In t (ca_ids (fst c)) -> nth_error (c_gates (snd c)) t = Some g -> isz g = 1.

Lemma related_app h1 h2 g : related (h1 ++ h2) g = related h1 g ++ related h2 g.
Proof. unfold related. rewrite filter_app, map_app. auto. Qed.

Lemma calls_rep {G} (isz : G -> nat) calls : forall cn cn' hr h1 rss hall,
  cn_rep cn hr h1 ->
  (forall g, Permutation (targets_of h1 g ++ related hr g) (targets_of hall g) /\
             Permutation (targets_of (map swap h1) g ++ related (map swap hr) g) (targets_of (map swap hall) g)) ->
  connect_calls isz cn calls = Some cn' ->
  Forall (unit_inputs isz) calls -> Forall2 call_ranges (map fst calls) rss ->
  exists h1', cn_rep cn' (hr ++ concat rss) h1' /\
   let hall' := hall ++ concat (map intended (map fst calls)) in
   forall g, Permutation (targets_of h1' g ++ related (hr ++ concat rss) g) (targets_of hall' g) /\
             Permutation (targets_of (map swap h1') g ++ related (map swap (hr ++ concat rss)) g)
                         (targets_of (map swap hall') g).
Proof.
  induction calls as [|[c circ] calls IH]; intros cn cn' hr h1 rss hall HR HP H HU HC.
  - injection H as <-. inversion HC; subst. cbn [concat map]. rewrite !app_nil_r. exists h1. auto.
  - inversion HU as [|? ? U1 U2]; subst. cbn [map fst] in HC. inversion HC as [|? r ? rss' C1 C2]; subst.
    unfold connect_calls in H. cbn [ofold fst snd] in H.
    destruct (connect_sc_gates isz cn (ca_from c) circ (ca_to c) (ca_ids c)) as [cn1|] eqn:E; [|discriminate].
    cbn [obind] in H. destruct (call_step isz circ c cn cn1 hr h1 r HR E U1 C1) as (s & HR1 & HS).
    cbn [concat map fst]. rewrite !app_assoc.
    apply (IH cn1 cn' (hr ++ r) (h1 ++ s) rss' (hall ++ intended c)); auto.
    intros g. destruct (HP g) as [P1 P2]. destruct (HS g) as [S1 S2].
    rewrite !map_app, !targets_of_app, !related_app, S1, S2. split.
    + rewrite <- P1. rewrite <- !app_assoc. apply Permutation_app_head. rewrite !app_assoc.
      apply Permutation_app_tail. apply Permutation_app_comm.
    + rewrite <- P2. rewrite <- !app_assoc. apply Permutation_app_head. rewrite !app_assoc.
      apply Permutation_app_tail. apply Permutation_app_comm.
Qed.

Lemma call_ranges_ok imax c r : call_ranges c r ->
  Forall (fun x => snd x <= imax) (ca_from c) -> Forall (fun t => t <= imax) (ca_ids c) ->
  length (ca_from c) <= length (ca_ids c) ->
  Forall (fun ft => range_ok imax (fst ft) /\ range_ok imax (snd ft)) r.
Proof.
  intros [from to_c t n rs HM|from to_c ids HN] H1 H2 H3; [|constructor]. cbn [ca_from ca_ids] in *.
  rewrite seq_length in H3. eapply run_ranges_ok; eauto.
  assert (t + n <= imax); [|lia]. rewrite Forall_forall in H2. apply H2. apply in_seq. lia.
Qed.
