(** Property C50: [AlignedVec] under every history of calls. *)
From Coq Require Import List Bool Arith Lia Permutation.
Require Import Verif.Prelude Verif.PreludeProofs Verif.AlignedModel Verif.AlignedSpec Verif.AlignedProofs.
Import ListNotations.

Section A.
Context {V : Type}.
Variable p : aparams.

(** What has to hold after one call. *)
Definition step_post (ess : list (option (list (elem V)))) (D : nat) (o : aop V) (res : outcome (aworld V * option V)) : Prop :=
  match res with
  | Ret (w', r) => exists ess', winv p w' ess' /\ plain_ret (plain_of ess) o = Some (plain_of ess', r)
  | Pan (w', r) => exists ess', winv p w' ess' /\ plain_pan p (plain_of ess) o (plain_of ess') /\ r = None
  | Undef u => u = UBReallocSize /\ exists n, n <= D + demand [o] /\ too_big p n
  end.

Lemma winv_missing_vec w (ess : list (option (list (elem V)))) i : winv p w ess -> (forall v, nth_error (w_vecs w) i <> Some (Some v)) ->
  match nth_error (plain_of ess) i with Some (Some _) => False | _ => True end.
Proof. intros W H. pose proof (winv_missing p w ess i W H) as X. destruct (nth_error (plain_of ess) i) as [[l|]|]; auto. exact (X l eq_refl). Qed.

Lemma demand_one (o : aop V) : demand [o] = match o with
    | OWithCapacity n _ | OReserve _ n _ | OResize _ n _ _ _ => n
    | OPush _ _ _ => 1 | OFrom l _ _ => length l | _ => 0 end.
Proof. unfold demand, sum_list. cbn. destruct o; lia. Qed.

Lemma good_refl R (m : amem V) v es : vec_ok p (m_heap m) v es -> bal p m (R ++ map fst es) -> good p R m v m v (map snd es).
Proof. intros A B. exists es. split; auto. split; auto. split; [apply heff_refl|auto]. Qed.

Lemma step_ok w ess o D : 1 <= umax p -> winv p w ess -> args_ok p [o] -> (needs_drop p = true -> no_clone [o]) ->
  (forall l, In (Some l) (plain_of ess) -> length l <= D) -> step_post ess D o (a_step p w o).
Proof.
  intros HU W HA HC HD.
  assert (LEN : forall i es, nth_error ess i = Some (Some es) -> length es <= D).
  { intros i es H. apply plain_get in H. apply nth_error_In in H. apply HD in H. rewrite map_length in H. exact H. }
  assert (NOP : forall i, (forall v, nth_error (w_vecs w) i <> Some (Some v)) ->
      (exists k, plain_ret (plain_of ess) o = match nth_error (plain_of ess) i with Some (Some l) => k l | _ => Some (plain_of ess, None) end) ->
      step_post ess D o (Ret (w, None))).
  { intros i H (k & Hk). exists ess. split; auto. rewrite Hk. pose proof (winv_missing_vec w ess i W H) as X.
    destruct (nth_error (plain_of ess) i) as [[l|]|]; [contradiction| |]; reflexivity. }
  (* a call on vector i *)
  assert (FIN : forall i v es O m1 k, nth_error (w_vecs w) i = Some (Some v) -> nth_error ess i = Some (Some es) ->
     m_heap m1 = m_heap (w_mem w) ->
     (forall m' v' es' held', vec_ok p (m_heap m') v' es' -> heff (m_heap (w_mem w)) (m_heap m') (vblock v) (vblock v') ->
        bal p m' (map fst held' ++ O ++ map fst es') ->
        winv p (AWorld m' (upd i (Some v') (w_vecs w)) held') (upd i (Some es') ess)) ->
     forall m' v', good p (map fst (w_held w) ++ O) m1 v m' v' k ->
     exists ess', winv p (AWorld m' (upd i (Some v') (w_vecs w)) (w_held w)) ess' /\ plain_of ess' = upd i (Some k) (plain_of ess)).
  { intros i v es O m1 k Hi He Hh HW m' v' (es' & A & B & C & E). exists (upd i (Some es') ess). split.
    - apply HW; auto; [rewrite <- Hh; exact C|]. rewrite app_assoc. exact E.
    - rewrite plain_upd. cbn [option_map]. rewrite B. reflexivity. }
  destruct o as [|cap ok|i n ok|i x ok|i|i n x ok clones|i n|i ok|i|i j|i j x|l ok clones]; unfold a_step.
  - (* new *)
    unfold a_new. destruct (Nat.eqb_spec (esize p) 0) as [He|He]; cbn [orb lift_new].
    { exists ess. destruct w; split; auto. split; auto. split; auto. left. auto. }
    destruct (Nat.ltb_spec (align p) (ealign p)) as [Ha|Ha]; cbn [orb lift_new].
    { exists ess. destruct w; split; auto. split; auto. split; auto. right. auto. }
    exists (ess ++ [Some []]). split.
    + apply winv_add; auto; [apply vec_new; lia|apply heff_refl|]. cbn [map]. rewrite app_nil_r. apply W.
    + cbn [plain_ret]. unfold plain_of. rewrite map_app. reflexivity.
  - (* with_capacity *)
    pose proof (with_capacity_ok p (w_mem w) cap ok) as H. destruct (a_with_capacity p (w_mem w) cap ok) as [[m' [v'|]]|[m' v']|u]; try contradiction.
    + destruct H as (A & B & C & E & _). exists (ess ++ [Some []]). split.
      * apply winv_add; auto. cbn [map]. rewrite app_nil_r. apply (bal_same p (w_mem w)); auto. apply W.
      * cbn [plain_ret]. unfold plain_of. rewrite map_app. reflexivity.
    + destruct H as (-> & H). exists ess. destruct w; split; auto. split; auto. split; auto.
  - (* reserve *)
    destruct (nth_error (w_vecs w) i) as [[v|]|] eqn:Ei.
    2,3: exists ess; split; auto.
    destruct (winv_get p w ess i v W Ei) as (es & O & He & Hv & HB & HW & _).
    pose proof (reserve_ok p (w_mem w) v es n ok HU Hv) as H. destruct (a_reserve p (w_mem w) v n ok) as [[m' v']|[m' v']|u]; cbn [lift].
    + destruct H as (A & B & C & E & _). exists (upd i (Some es) ess). split.
      * apply HW; auto. apply (bal_same p (w_mem w)); auto.
      * rewrite (upd_self i _ ess) by auto. reflexivity.
    + destruct H as (-> & -> & H). exists ess. split.
      * rewrite upd_self by auto. destruct w; auto.
      * split; auto. split; auto. exists (map snd es). split; [apply plain_get; auto|]. rewrite map_length.
        destruct Hv as (L & _). unfold elem in *. rewrite L. exact H.
    + destruct H as (-> & H). split; auto. exists (a_len v + n). split; auto. rewrite demand_one.
      destruct Hv as (L & _). specialize (LEN i es He). lia.
  - (* push *)
    destruct (nth_error (w_vecs w) i) as [[v|]|] eqn:Ei.
    2,3: apply (NOP i); [intros v0; congruence|eexists; reflexivity].
    destruct (winv_get p w ess i v W Ei) as (es & O & He & Hv & HB & HW & _).
    unfold fresh. set (m1 := AMem (m_heap (w_mem w)) (m_dropped (w_mem w)) (S (m_next (w_mem w)))).
    pose proof (fresh_bal p (w_mem w) x _ HB) as B1. cbn [fresh snd] in B1. fold m1 in B1.
    pose proof (push_ok p (map fst (w_held w) ++ O) m1 v es (m_next (w_mem w), x) ok HU Hv) as H.
    cbn [fst snd] in H. rewrite <- app_assoc in H. specialize (H B1).
    pose proof Hv as (L & _).
    destruct (a_push p m1 v (m_next (w_mem w), x) ok) as [[m' v']|[m' v']|u]; cbn [lift].
    + destruct (FIN i v es O m1 _ Ei He eq_refl HW m' v' H) as (ess' & W' & P'). exists ess'. split; auto.
      cbn [plain_ret]. rewrite (plain_get _ _ _ He), P'. reflexivity.
    + destruct H as (-> & Hh & B2 & H). exists ess. split.
      * rewrite <- (upd_self i _ ess He). apply HW; auto; [rewrite Hh; exact Hv|rewrite Hh; apply heff_refl].
      * split; auto. split; auto. exists (map snd es). split; [apply plain_get; auto|]. rewrite map_length.
        unfold elem in *. rewrite L. exact H.
    + destruct H as (-> & H). split; auto. exists (a_len v + 1). split; auto. rewrite demand_one. specialize (LEN i es He). lia.
  - (* pop *)
    destruct (nth_error (w_vecs w) i) as [[v|]|] eqn:Ei.
    2,3: apply (NOP i); [intros v0; congruence|eexists; reflexivity].
    destruct (winv_get p w ess i v W Ei) as (es & O & He & Hv & HB & HW & _). pose proof Hv as (L & Hes & Hcap).
    unfold a_pop. destruct (a_len v) as [|n] eqn:El.
    + exists ess. rewrite upd_self by auto. destruct w. split; auto. cbn [plain_ret]. rewrite (plain_get _ _ _ He).
      assert (es = []) by (destruct es; auto; discriminate). subst es. cbn. rewrite (upd_self i (Some []) (plain_of ess)); [reflexivity|].
      apply plain_get in He. exact He.
    + rewrite (vec_read p (w_mem w) v es n Hv) by lia. destruct (nth_error es n) as [e|] eqn:En; [|apply nth_error_None in En; lia].
      assert (Hsplit : es = firstn n es ++ [e]).
      { assert (firstn (S n) es = es) by (apply firstn_all2; lia). rewrite <- H at 1.
        clear -En. revert n En. induction es as [|y l IHl]; intros [|n] E; simpl in *; try discriminate; [congruence|]. f_equal. auto. }
      exists (upd i (Some (firstn n es)) ess). split.
      * apply HW.
        -- split; [rewrite firstn_length; cbn [a_len]; lia|]. split; auto. cbn [a_cap a_len a_ptr].
           destruct Hcap as [[? ?]|(Hc & Hl & b & rest & P & N & Q)]; [left; lia|]. right. split; auto. split; auto.
           exists b, (Some e :: rest). split; auto. split.
           ++ rewrite N. rewrite Hsplit at 1. rewrite map_app, <- app_assoc. reflexivity.
           ++ rewrite firstn_length. cbn [length]. lia.
        -- unfold vblock. cbn [a_cap a_ptr]. apply heff_refl.
        -- cbn [map]. eapply bal_perm; [|exact HB].
           assert (Q : Permutation (map fst es) (fst e :: map fst (firstn n es))).
           { rewrite Hsplit at 1. rewrite map_app. symmetry. apply Permutation_cons_append. }
           rewrite Q, !app_assoc. symmetry. apply Permutation_middle.
      * cbn [plain_ret]. rewrite (plain_get _ _ _ He), plain_upd. cbn [option_map].
        assert (R1 : removelast (map snd es) = map snd (firstn n es)).
        { rewrite Hsplit at 1. rewrite map_app. cbn [map]. apply removelast_last. }
        assert (R2 : nth_error (map snd es) (length (map snd es) - 1) = Some (snd e)).
        { rewrite map_length. replace (length es - 1) with n by lia.
          pose proof (map_nth_error snd n es En) as X. replace (@length (nat * V) es - 1) with n; [exact X|]. unfold elem in *. lia. }
        rewrite R1, R2. reflexivity.
  - (* resize *)
    destruct (nth_error (w_vecs w) i) as [[v|]|] eqn:Ei.
    2,3: apply (NOP i); [intros v0; congruence|eexists; reflexivity].
    destruct (winv_get p w ess i v W Ei) as (es & O & He & Hv & HB & HW & _).
    unfold fresh. set (m1 := AMem (m_heap (w_mem w)) (m_dropped (w_mem w)) (S (m_next (w_mem w)))).
    pose proof (fresh_bal p (w_mem w) x _ HB) as B1. cbn [fresh snd] in B1. fold m1 in B1.
    set (e := (m_next (w_mem w), x)). change (m_next (w_mem w)) with (fst e) in B1. rewrite app_assoc in B1.
    pose proof Hv as (L & _). assert (LS : length (map snd es) = a_len v) by (rewrite map_length; exact L).
    assert (Hn : n <= umax p) by exact (HA _ (or_introl eq_refl)).
    unfold a_resize. destruct (Nat.ltb_spec (a_len v) n) as [Hlt|Hge].
    + pose proof (reserve_ok p m1 v es (n - a_len v) ok HU Hv) as H.
      replace (a_len v + (n - a_len v)) with n in H by lia.
      destruct (a_reserve p m1 v (n - a_len v) ok) as [[m2 v2]|[m2 v2]|u].
      * destruct H as (A & B & C & E & F & G). specialize (G Hn).
        pose proof (extend_ok p (map fst (w_held w) ++ O) (n - a_len v2) m2 v2 es clones e A ltac:(lia) ltac:(lia)) as X.
        assert (B2 : bal p m2 (fst e :: (map fst (w_held w) ++ O) ++ map fst es)) by (apply (bal_same p m1); auto).
        specialize (X B2).
        assert (T : forall m' v' k, good p (map fst (w_held w) ++ O) m2 v2 m' v' k -> good p (map fst (w_held w) ++ O) m1 v m' v' k).
        { intros m' v' k (es' & Q1 & Q2 & Q3 & Q4). exists es'. split; auto. split; auto. split; auto. eapply heff_trans; eauto. }
        rewrite F in *.
        destruct (a_extend p m2 v2 (n - a_len v) clones e) as [[m' v']|[m' v']|u]; cbn [lift]; [| |contradiction].
        -- destruct (FIN i v es O m1 _ Ei He eq_refl HW m' v' (T _ _ _ X)) as (ess' & W' & P'). exists ess'. split; auto.
           cbn [plain_ret]. rewrite (plain_get _ _ _ He), P'. rewrite firstn_all2 by lia. rewrite LS. reflexivity.
        -- destruct X as [X Hcl]. destruct (FIN i v es O m1 _ Ei He eq_refl HW m' v' (T _ _ _ X)) as (ess' & W' & P'). exists ess'. split; auto.
           split; auto. cbn [plain_pan]. exists (map snd es). split; [apply plain_get; auto|]. rewrite LS. split; auto.
      * destruct H as (-> & -> & H). unfold unwind_drop. destruct (drop_elem_ok p m1 e _ B1) as (m3 & -> & Hh & B3). cbn [lift].
        exists ess. split.
        -- rewrite <- (upd_self i _ ess He). rewrite <- app_assoc in B3. apply HW; auto; [rewrite Hh; exact Hv|rewrite Hh; apply heff_refl].
        -- split; auto. cbn [plain_pan]. exists (map snd es). split; [apply plain_get; auto|]. rewrite LS. split; auto.
      * destruct H as (-> & H). split; auto. exists n. split; auto. rewrite demand_one. lia.
    + destruct (truncate_ok p (fst e :: map fst (w_held w) ++ O) m1 v es n Hv B1) as (m2 & v2 & -> & (es2 & Q1 & Q2 & Q3 & Q4)).
      destruct (drop_elem_ok p m2 e _ Q4) as (m3 & -> & Hh & B3). cbn [lift].
      exists (upd i (Some es2) ess). split.
      * change (bal p m3 ((map fst (w_held w) ++ O) ++ map fst es2)) in B3. rewrite <- app_assoc in B3. apply HW; auto; rewrite Hh; auto.
      * cbn [plain_ret]. rewrite (plain_get _ _ _ He), plain_upd. cbn [option_map]. rewrite Q2.
        replace (n - length (map snd es)) with 0 by lia. cbn [repeat]. rewrite app_nil_r. reflexivity.
  - (* truncate *)
    destruct (nth_error (w_vecs w) i) as [[v|]|] eqn:Ei.
    2,3: apply (NOP i); [intros v0; congruence|eexists; reflexivity].
    destruct (winv_get p w ess i v W Ei) as (es & O & He & Hv & HB & HW & _). rewrite app_assoc in HB.
    destruct (truncate_ok p _ (w_mem w) v es n Hv HB) as (m2 & v2 & -> & G). cbn [lift].
    destruct (FIN i v es O (w_mem w) _ Ei He eq_refl HW m2 v2 G) as (ess' & W' & P'). exists ess'. split; auto.
    cbn [plain_ret]. rewrite (plain_get _ _ _ He), P'. reflexivity.
  - (* clone *)
    destruct (nth_error (w_vecs w) i) as [[v|]|] eqn:Ei.
    2,3: apply (NOP i); [intros v0; congruence|eexists; reflexivity].
    destruct (winv_get p w ess i v W Ei) as (es & O & He & Hv & _).
    pose proof (clone_ok p (w_mem w) v es ok Hv) as H. destruct (a_clone p (w_mem w) v ok) as [[m' [v'|]]|[m' v']|u]; try contradiction; cbn [lift_new].
    + destruct H as (A & B & C & E). exists (ess ++ [Some es]). split.
      * apply winv_add; auto. intros Hd. exfalso. apply (HC Hd i ok). simpl. auto.
      * cbn [plain_ret]. rewrite (plain_get _ _ _ He). unfold plain_of. rewrite map_app. reflexivity.
    + destruct H as (-> & H). exists ess. destruct w; split; auto. split; auto. split; auto.
      exists (map snd es). split; [apply plain_get; auto|]. rewrite map_length. destruct Hv as (L & _). unfold elem in *. rewrite L. exact H.
  - (* drop *)
    destruct (nth_error (w_vecs w) i) as [[v|]|] eqn:Ei.
    2,3: apply (NOP i); [intros v0; congruence|eexists; reflexivity].
    destruct (winv_get p w ess i v W Ei) as (es & O & He & Hv & HB & _ & HW). rewrite app_assoc in HB.
    destruct (drop_ok p _ (w_mem w) v es Hv HB) as (m2 & -> & G & B2).
    exists (upd i None ess). split; [apply HW; auto|].
    cbn [plain_ret]. rewrite (plain_get _ _ _ He), plain_upd. reflexivity.
  - (* read *)
    destruct (nth_error (w_vecs w) i) as [[v|]|] eqn:Ei.
    2,3: apply (NOP i); [intros v0; congruence|eexists; reflexivity].
    destruct (winv_get p w ess i v W Ei) as (es & O & He & Hv & _). pose proof Hv as (L & _).
    destruct (Nat.leb_spec (a_len v) j) as [Hj|Hj].
    + exists ess. split; auto. split; auto. split; auto. exists (map snd es). split; [apply plain_get; auto|].
      rewrite map_length. unfold elem in *. lia.
    + rewrite (vec_read p _ v es j Hv Hj). destruct (nth_error es j) as [e|] eqn:En; [|apply nth_error_None in En; lia].
      exists ess. split; auto. cbn [plain_ret]. rewrite (plain_get _ _ _ He). rewrite (map_nth_error snd j es En). reflexivity.
  - (* write *)
    destruct (nth_error (w_vecs w) i) as [[v|]|] eqn:Ei.
    2,3: apply (NOP i); [intros v0; congruence|eexists; reflexivity].
    destruct (winv_get p w ess i v W Ei) as (es & O & He & Hv & HB & HW & _). pose proof Hv as (L & _).
    unfold fresh. set (m1 := AMem (m_heap (w_mem w)) (m_dropped (w_mem w)) (S (m_next (w_mem w)))).
    pose proof (fresh_bal p (w_mem w) x _ HB) as B1. cbn [fresh snd] in B1. fold m1 in B1.
    set (e := (m_next (w_mem w), x)). change (m_next (w_mem w)) with (fst e) in B1.
    destruct (Nat.leb_spec (a_len v) j) as [Hj|Hj].
    + destruct (drop_elem_ok p m1 e _ B1) as (m3 & -> & Hh & B3). exists ess. split.
      * pose proof (HW m3 v es (w_held w)) as X. rewrite !upd_self in X by auto. apply X; auto; rewrite Hh; [exact Hv|apply heff_refl].
      * split; auto. split; auto. exists (map snd es). split; [apply plain_get; auto|]. rewrite map_length. unfold elem in *. lia.
    + rewrite (vec_read p m1 v es j Hv Hj). destruct (nth_error es j) as [old|] eqn:En; [|apply nth_error_None in En; lia].
      assert (P1 : Permutation (map fst es) (fst old :: map fst (firstn j es) ++ map fst (skipn (S j) es))).
      { clear -En. revert j En. induction es as [|y l IH]; intros [|j] E; simpl in *; try discriminate.
        - injection E as ->. reflexivity.
        - rewrite (IH _ E). apply perm_swap. }
      destruct (drop_elem_ok p m1 old (fst e :: map fst (w_held w) ++ O ++ map fst (firstn j es) ++ map fst (skipn (S j) es))) as (m2 & -> & Hh & B2).
      { eapply bal_perm; [|exact B1]. rewrite P1. rewrite !app_assoc. rewrite <- !Permutation_middle. rewrite perm_swap, !app_assoc. reflexivity. }
      assert (Hv2 : vec_ok p (m_heap m2) v es) by (rewrite Hh; exact Hv).
      destruct (write_mid p m2 v es e j Hv2 Hj) as (m3 & -> & G1 & G2 & G3 & G4).
      exists (upd i (Some (upd j e es)) ess). split.
      * pose proof (HW m3 v (upd j e es) (w_held w)) as X. rewrite (upd_self i (Some v)) in X by auto. apply X; auto.
        -- rewrite Hh in G2. exact G2.
        -- apply (bal_same p m2); auto. eapply bal_perm; [|exact B2].
           assert (Q : Permutation (map fst (upd j e es)) (fst e :: map fst (firstn j es) ++ map fst (skipn (S j) es))).
           { clear -En. revert j En. induction es as [|y l IH]; intros [|j] E; simpl in *; try discriminate.
             - reflexivity.
             - rewrite (IH _ E). apply perm_swap. }
           rewrite Q. rewrite <- !Permutation_middle. reflexivity.
      * cbn [plain_ret]. rewrite (plain_get _ _ _ He), plain_upd. cbn [option_map].
        assert (LS : length (map snd es) = a_len v) by (rewrite map_length; exact L).
        rewrite LS. destruct (Nat.ltb_spec j (a_len v)); [|lia]. do 4 f_equal. symmetry. exact (map_upd snd j e es).
  - (* from *)
    pose proof (with_capacity_ok p (w_mem w) (length l) ok) as H. unfold a_from.
    destruct (a_with_capacity p (w_mem w) (length l) ok) as [[m1 [v1|]]|[m1 v1]|u]; try contradiction.
    + destruct H as (A & B & C & E & _).
      assert (B1 : bal p m1 ((map fst (w_held w) ++ all_toks ess) ++ map fst (@nil (elem V)))).
      { cbn [map]. rewrite app_nil_r. apply (bal_same p (w_mem w)); auto. apply W. }
      pose proof (push_all_ok p _ HU l m1 v1 [] clones ok A B1) as H.
      destruct (a_push_all p m1 v1 l clones ok) as [[m' [v'|]]|[m' v']|u]; try contradiction; cbn [lift_new].
      * destruct H as (es' & Q1 & Q2 & Q3 & Q4). cbn [map app] in Q2. exists (ess ++ [Some es']). split.
        -- apply winv_add; auto; [eapply heff_trans; eauto|]. rewrite app_assoc. exact Q4.
        -- cbn [plain_ret]. unfold plain_of. rewrite map_app. cbn [map option_map]. rewrite Q2. reflexivity.
      * destruct H as (Q1 & Q2 & Q3). exists ess. split.
        -- apply winv_mem; auto. eapply heff_trans; eauto.
        -- split; [|reflexivity]. split; [|reflexivity]. destruct Q3 as [?|[?|?]]; auto.
      * destruct H as (-> & H). split; auto. exists (length l). split; auto. rewrite demand_one. lia.
    + destruct H as (-> & H). cbn [lift_new]. exists ess. destruct w; split; auto. split; [|reflexivity]. split; [|reflexivity].
      destruct H as [?|[?|?]]; auto.
Qed.

Lemma plain_len s (o : aop V) s' r D : plain_ret s o = Some (s', r) -> (forall l : list V, In (Some l) s -> length l <= D) ->
  forall l, In (Some l) s' -> length l <= D + demand [o].
Proof.
  intros HR HD l Hl.
  assert (UP : forall i l' x, nth_error s i = Some (Some l') -> In (Some l) (upd i x s) -> Some l = x \/ length l <= D).
  { intros i l' x Hi H. apply In_nth_error in H. destruct H as [k Hk]. destruct (Nat.eq_dec i k) as [<-|Hne].
    - rewrite upd_nth_error_same in Hk by (apply nth_error_Some; congruence). injection Hk as ->. auto.
    - rewrite upd_nth_error_other in Hk by auto. right. apply HD. apply nth_error_In in Hk. exact Hk. }
  assert (AP : forall x, In (Some l) (s ++ [Some x]) -> l = x \/ length l <= D).
  { intros x H. apply in_app_iff in H. destruct H as [H|[H|[]]]; [right; apply HD; auto|]. left. congruence. }
  rewrite demand_one.
  destruct o as [|cap ok|i n ok|i x ok|i|i n x ok clones|i n|i ok|i|i j|i j x|l0 ok clones]; cbn [plain_ret] in HR.
  1,2,12: injection HR as <- _; destruct (AP _ Hl) as [->|?]; simpl; lia.
  1: injection HR as <- _; apply HD in Hl; lia.
  all: destruct (nth_error s i) as [[l'|]|] eqn:Ei; try (injection HR as <- _; apply HD in Hl; lia).
  all: pose proof (HD l' (nth_error_In _ _ Ei)) as HL.
  - injection HR as <- _. destruct (UP _ _ _ Ei Hl) as [E|?]; [|lia]. injection E as ->. rewrite app_length. simpl. lia.
  - injection HR as <- _. destruct (UP _ _ _ Ei Hl) as [E|?]; [|lia]. injection E as ->.
    assert (length (removelast l') <= length l').
    { clear. induction l' as [|a l' IH]; simpl; auto. destruct l'; simpl in *; lia. } lia.
  - injection HR as <- _. destruct (UP _ _ _ Ei Hl) as [E|?]; [|lia]. injection E as ->. rewrite app_length, firstn_length, repeat_length. lia.
  - injection HR as <- _. destruct (UP _ _ _ Ei Hl) as [E|?]; [|lia]. injection E as ->. rewrite firstn_length. lia.
  - injection HR as <- _. destruct (AP _ Hl) as [->|?]; lia.
  - injection HR as <- _. destruct (UP _ _ _ Ei Hl) as [E|?]; [discriminate|lia].
  - destruct (nth_error l' j); [|discriminate]. injection HR as <- _. apply HD in Hl. lia.
  - destruct (j <? length l'); [|discriminate]. injection HR as <- _. destruct (UP _ _ _ Ei Hl) as [E|?]; [|lia]. injection E as ->. rewrite upd_length. lia.
Qed.

Lemma plain_pan_len s (o : aop V) s' D : plain_pan p s o s' -> (forall l : list V, In (Some l) s -> length l <= D) ->
  forall l, In (Some l) s' -> length l <= D + demand [o].
Proof.
  intros HR HD l Hl. rewrite demand_one.
  destruct o as [|cap ok|i n ok|i x ok|i|i n x ok clones|i n|i ok|i|i j|i j x|l0 ok clones]; cbn [plain_pan] in HR; try contradiction;
    try (destruct HR as [_ ->]; apply HD in Hl; lia).
  destruct HR as (l' & Ei & Hn & [[_ ->]|[Hc ->]]); [apply HD in Hl; lia|].
  apply In_nth_error in Hl. destruct Hl as [k Hk]. destruct (Nat.eq_dec i k) as [<-|Hne].
  - rewrite upd_nth_error_same in Hk by (apply nth_error_Some; congruence). injection Hk as <-.
    rewrite app_length, repeat_length. pose proof (HD l' (nth_error_In _ _ Ei)). lia.
  - rewrite upd_nth_error_other in Hk by auto. apply nth_error_In, HD in Hk. lia.
Qed.

Lemma demand_cons (o : aop V) ops : demand (o :: ops) = demand [o] + demand ops.
Proof. unfold demand, sum_list. cbn [map fold_right]. lia. Qed.

Lemma run_ok : 1 <= umax p -> forall (ops : list (aop V)) w ess D, winv p w ess -> args_ok p ops -> (needs_drop p = true -> no_clone ops) ->
  (forall l, In (Some l) (plain_of ess) -> length l <= D) ->
  match a_run p w ops with
  | inl (w', rs) => exists ess', winv p w' ess' /\ plain_run p (plain_of ess) ops rs (plain_of ess')
  | inr u => u = UBReallocSize /\ exists n, n <= D + demand ops /\ too_big p n
  end.
Proof.
  intros HU. induction ops as [|o ops IH]; intros w ess D W HA HC HD; cbn [a_run].
  - exists ess. split; auto. reflexivity.
  - assert (HS : step_post ess D o (a_step p w o)).
    { apply step_ok; auto.
      - intros o' [<-|[]]. apply HA. simpl. auto.
      - intros H i ok [E|[]]. apply (HC H i ok). left. exact E. }
    assert (HA' : args_ok p ops) by (intros o' H; apply HA; simpl; auto).
    assert (HC' : needs_drop p = true -> no_clone ops) by (intros H i ok Hin; apply (HC H i ok); simpl; auto).
    rewrite demand_cons.
    destruct (a_step p w o) as [[w1 r]|[w1 r]|u]; cbn [step_post] in HS.
    + destruct HS as (ess1 & W1 & P1). specialize (IH w1 ess1 (D + demand [o]) W1 HA' HC' (plain_len _ _ _ _ _ P1 HD)).
      destruct (a_run p w1 ops) as [[w' rs]|u].
      * destruct IH as (ess' & W' & P'). exists ess'. split; auto. cbn [plain_run]. eauto.
      * rewrite Nat.add_assoc. exact IH.
    + destruct HS as (ess1 & W1 & P1 & Hr). specialize (IH w1 ess1 (D + demand [o]) W1 HA' HC' (plain_pan_len _ _ _ _ P1 HD)).
      destruct (a_run p w1 ops) as [[w' rs]|u].
      * destruct IH as (ess' & W' & P'). exists ess'. split; auto. cbn [plain_run]. eauto.
      * rewrite Nat.add_assoc. exact IH.
    + destruct HS as (-> & n & Hn & Hb). split; auto. exists n. split; auto. lia.
Qed.

Lemma start_ok : winv p (@a_start V) [].
Proof.
  constructor; cbn.
  - constructor.
  - intros i j vi vj b H. destruct i; discriminate.
  - intros b blk H. destruct b; discriminate.
  - intros _. reflexivity.
Qed.

Lemma winv_shows w (ess : list (option (list (elem V)))) : winv p w ess -> shows w (plain_of ess).
Proof.
  intros [W1 _ _ _]. split.
  - unfold plain_of. rewrite map_length. clear -W1. induction W1; simpl; auto.
  - intros i. destruct (nth_error (w_vecs w) i) as [o|] eqn:Ei.
    + destruct (Forall2_nth_error _ _ _ _ _ W1 Ei) as (oe & He & Hoe).
      assert (Hp : nth_error (plain_of ess) i = Some (option_map (map snd) oe)) by (apply map_nth_error; exact He).
      rewrite Hp. destruct o as [v|], oe as [es|]; cbn [option_map]; auto. split.
      * rewrite map_length. destruct Hoe as (L & _). unfold elem in *. auto.
      * intros j Hj. rewrite map_length in Hj. pose proof Hoe as (L & _). unfold elem in *.
        rewrite (vec_read p _ v es j Hoe) by lia. destruct (nth_error es j) as [[t x]|] eqn:En; [|apply nth_error_None in En; lia].
        exists t. rewrite (map_nth_error snd j es En). exact En.
    + destruct (nth_error (plain_of ess) i) eqn:Ep; auto. exfalso.
      apply nth_error_None in Ei. assert (i < length (plain_of ess)) by (apply nth_error_Some; congruence).
      unfold plain_of in H. rewrite map_length in H. assert (length (w_vecs w) = length ess) by (clear -W1; induction W1; simpl; auto). unfold elem in *. lia.
Qed.

Lemma winv_blocks w (ess : list (option (list (elem V)))) : winv p w ess -> blocks_ok p w.
Proof.
  intros [W1 W2 W3 _]. split; [|split; auto].
  intros i v Hi. destruct (Forall2_nth_error _ _ _ _ _ W1 Hi) as ([es|] & He & Hv); [|contradiction].
  split; [eapply vec_len_cap; eauto|]. intros Hc. destruct Hv as (L & _ & [[? _]|(_ & _ & b & rest & P & N & Q)]); [contradiction|].
  exists b. eexists. split; auto. split; [exact N|]. repeat split. cbn [b_cells]. rewrite app_length, map_length. lia.
Qed.

Lemma winv_elements w (ess : list (option (list (elem V)))) : winv p w ess -> needs_drop p = true -> elements_ok w.
Proof.
  intros [W1 _ _ W4] H. unfold elements_ok. replace (inside w) with (all_toks ess); [apply (W4 H)|].
  unfold inside, all_toks. f_equal. clear -W1.
  induction W1 as [|o oe l l' Ho W1 IH]; simpl; auto. f_equal; auto.
  destruct o as [v|], oe as [es|]; cbn [toks]; try contradiction; auto.
  pose proof Ho as (L & _).
  assert (G : forall n k, n + k = length es ->
    map fst (skipn k es) = concat (map (fun j => match cell_read (w_mem w) (a_ptr v) j with Some e => [fst e] | None => [] end) (seq k n))).
  { induction n as [|n IHn]; intros k Hk.
    - rewrite skipn_all2 by lia. reflexivity.
    - cbn [seq map concat]. rewrite (vec_read p _ v es k Ho) by lia.
      destruct (nth_error es k) as [e|] eqn:En; [|apply nth_error_None in En; lia].
      rewrite <- (IHn (S k)) by lia. cbn [app].
      clear -En. revert k En. induction es as [|y l IH]; intros [|k] E; simpl in *; try discriminate; [congruence|]. apply IH. exact E. }
  rewrite <- (G (a_len v) 0) by lia. reflexivity.
Qed.

End A.

(** ** C50 *)

(** For every program of calls, in either overflow profile and with any pattern of
    allocation failures and panicking element clones: if elements have no destructor
    or vectors are never cloned, then either nothing undefined happens, every call
    returns or panics as for plain vectors, the contents are those of the plain
    vectors, every vector owns its own live block with the layout of its capacity,
    every other block is freed, and (with destructors) every element is in exactly
    one place; or the program asked [realloc] for more memory than the address space
    allows.  Missing: cloning of elements with destructors, and such huge requests
    (both refuted below). *)
Theorem C50_memory_safe_partial :
  forall V (p : aparams) (ops : list (aop V)), 1 <= umax p -> args_ok p ops -> (needs_drop p = true -> no_clone ops) ->
  match a_run p a_start ops with
  | inl (w, rs) => exists s, plain_run p [] ops rs s /\ shows w s /\ blocks_ok p w /\ (needs_drop p = true -> elements_ok w)
  | inr u => u = UBReallocSize /\ exists n, n <= demand ops /\ too_big p n
  end.
Proof.
  intros V p ops HU HA HC. pose proof (run_ok p HU ops a_start [] 0 (start_ok p) HA HC ltac:(intros l [])) as H.
  destruct (a_run p a_start ops) as [[w rs]|u]; [|exact H].
  destruct H as (ess & W & P). exists (plain_of ess). split; auto.
  split; [eapply winv_shows; eauto|]. split; [eapply winv_blocks; eauto|]. eapply winv_elements; eauto.
Qed.
Print Assumptions C50_memory_safe_partial.

(** Programs that do not ask for more elements than fit in half the address space
    never reach undefined behaviour. *)
Theorem C50_within_bounds :
  forall V (p : aparams) (ops : list (aop V)), 1 <= umax p -> args_ok p ops -> (needs_drop p = true -> no_clone ops) ->
  2 * demand ops * esize p + align p <= imax p ->
  exists w rs s, a_run p a_start ops = inl (w, rs) /\ plain_run p [] ops rs s /\ shows w s /\ blocks_ok p w /\
    (needs_drop p = true -> elements_ok w).
Proof.
  intros V p ops HU HA HC HB. pose proof (C50_memory_safe_partial V p ops HU HA HC) as H.
  destruct (a_run p a_start ops) as [[w rs]|u].
  - destruct H as (s & H). exists w, rs, s. auto.
  - destruct H as (_ & n & Hn & Hb). apply (too_big_mono p n (demand ops)) in Hb; auto. unfold too_big in Hb. lia.
Qed.
Print Assumptions C50_within_bounds.

(** A program that reallocates, shrinks, survives a failing allocation and a
    panicking clone, with elements that have destructors. *)
Definition p8 : aparams := AParams 1000 2 2 4 true false.
Definition ops8 : list (aop nat) :=
  [ONew; OPush 0 7 true; OPush 0 8 true; OPush 0 9 true; OPush 0 10 true; OPush 0 11 false; OResize 0 7 5 true 1; ORead 0 4; OPop 0;
   OFrom [1; 2; 3] true 2; OFrom [1; 2; 3] true 3; OWrite 1 1 20; ORead 1 3; OTruncate 0 2; ODrop 0; ORead 1 1].
Example C50_case :
  args_ok p8 ops8 /\ no_clone ops8 /\ 2 * demand ops8 * esize p8 + align p8 <= imax p8 /\
  match a_run p8 a_start ops8 with
  | inl (w, rs) => map fst rs = [true; true; true; true; true; false; false; true; true; false; true; true; false; true; true; true] /\
      nth 7 rs (false, None) = (true, Some 5) /\ nth 8 rs (false, None) = (true, Some 5) /\ nth 15 rs (false, None) = (true, Some 20)
  | inr _ => False
  end.
Proof.
  split; [intros o H; repeat (destruct H as [<-|H]; [exact I || (cbn; lia)|]); destruct H|].
  split; [intros i ok H; repeat (destruct H as [H|H]; [discriminate|]); destruct H|].
  split; [vm_compute; lia|vm_compute; auto].
Qed.

(** Cloning a vector of elements with destructors drops the elements twice. *)
Theorem C50_clone_refuted : exists (p : aparams) (ops : list (aop nat)),
  args_ok p ops /\ 2 * demand ops * esize p + align p <= imax p /\
  a_run p a_start ops = inr UBDoubleDrop.
Proof.
  exists p8, [ONew; OPush 0 7 true; OClone 0 true; ODrop 0; ODrop 1]. split; [|split; [vm_compute; lia|vm_compute; reflexivity]].
  intros o H. repeat (destruct H as [<-|H]; [exact I|]). destruct H.
Qed.
Print Assumptions C50_clone_refuted.

(** A request that does not fit: the first [reserve] panics (no memory was
    allocated before), the second asks [realloc] for a size above [isize::MAX]. *)
Theorem C50_realloc_refuted : exists (p : aparams) (ops : list (aop nat)),
  args_ok p ops /\ needs_drop p = false /\
  a_run (V:=nat) p a_start [OWithCapacity 0 true; OReserve 0 128 true] =
    inl (AWorld (AMem [] [] 0) [Some (AVec None 0 0)] [], [(true, None); (false, None)]) /\
  a_run p a_start ops = inr UBReallocSize /\ ops = [OWithCapacity 1 true; OReserve 0 128 true].
Proof.
  exists (AParams 255 1 1 4 false false), [OWithCapacity 1 true; OReserve 0 128 true].
  split; [|split; [reflexivity|split; [vm_compute; reflexivity|split; [vm_compute; reflexivity|reflexivity]]]].
  intros o H. repeat (destruct H as [<-|H]; [cbn; lia|]). destruct H.
Qed.
Print Assumptions C50_realloc_refuted.
