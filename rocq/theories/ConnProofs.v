(** Proofs about connections between circuits. *)
From Coq Require Import List Bool Arith Lia Permutation Sorted.
Require Import Verif.Prelude Verif.PreludeProofs Verif.GateModel Verif.CircuitModel Verif.ExecModel
  Verif.ConnModel Verif.ConnSpec.
Import ListNotations.

(** ** Order *)

Lemma gid_eqb_eq a b : gid_eqb a b = true <-> a = b.
Proof.
  unfold gid_eqb. rewrite andb_true_iff, !Nat.eqb_eq. destruct a, b; simpl. split; [intros []; subst; auto|].
  intros H; inversion H; auto.
Qed.

Lemma gid_eqb_refl a : gid_eqb a a = true.
Proof. apply gid_eqb_eq; auto. Qed.

Definition gid_lt (a b : gid) : Prop := fst a < fst b \/ fst a = fst b /\ snd a < snd b.

Lemma gid_ltb_lt a b : gid_ltb a b = true <-> gid_lt a b.
Proof.
  unfold gid_ltb, gid_lt. rewrite orb_true_iff, andb_true_iff, !Nat.ltb_lt, Nat.eqb_eq. tauto.
Qed.

Lemma gid_leb_le a b : gid_leb a b = true <-> gid_lt a b \/ a = b.
Proof. unfold gid_leb. rewrite orb_true_iff, gid_ltb_lt, gid_eqb_eq. tauto. Qed.

Lemma rk_eqb_eq a b : rk_eqb a b = true <-> a = b.
Proof.
  unfold rk_eqb. rewrite andb_true_iff, !gid_eqb_eq. destruct a, b; simpl. split; [intros []; subst; auto|].
  intros H; inversion H; auto.
Qed.

Definition rk_lt (a b : grange) : Prop := gid_lt (fst a) (fst b) \/ fst a = fst b /\ gid_lt (snd a) (snd b).

Lemma rk_leb_le a b : rk_leb a b = true <-> rk_lt a b \/ a = b.
Proof.
  unfold rk_leb, rk_lt. rewrite orb_true_iff, andb_true_iff, gid_ltb_lt, gid_eqb_eq, gid_leb_le.
  destruct a as [a1 a2], b as [b1 b2]. simpl. split.
  - intros [H|[-> [H| ->]]]; auto.
  - intros [[H|[-> H]]|H]; auto. inversion H; subst. auto.
Qed.

Lemma gid_lt_trans a b c : gid_lt a b -> gid_lt b c -> gid_lt a c.
Proof. unfold gid_lt. lia. Qed.

Lemma rk_lt_trans a b c : rk_lt a b -> rk_lt b c -> rk_lt a c.
Proof.
  unfold rk_lt. intros [H|[H1 H2]] [K|[K1 K2]].
  - left. eapply gid_lt_trans; eauto.
  - left. rewrite <- K1. auto.
  - left. rewrite H1. auto.
  - right. split; [congruence|]. eapply gid_lt_trans; eauto.
Qed.

Lemma gid_lt_irrefl a : ~ gid_lt a a.
Proof. unfold gid_lt. lia. Qed.

Lemma rk_lt_irrefl a : ~ rk_lt a a.
Proof. unfold rk_lt. intros [H|[_ H]]; eapply gid_lt_irrefl; eauto. Qed.

Lemma gid_trich a b : gid_lt a b \/ a = b \/ gid_lt b a.
Proof.
  unfold gid_lt. destruct a as [a1 a2], b as [b1 b2]; simpl.
  destruct (lt_eq_lt_dec a1 b1) as [[?|?]|?]; destruct (lt_eq_lt_dec a2 b2) as [[?|?]|?]; subst; auto; lia.
Qed.

Lemma rk_trich a b : rk_lt a b \/ a = b \/ rk_lt b a.
Proof.
  unfold rk_lt. destruct a as [a1 a2], b as [b1 b2]; simpl.
  destruct (gid_trich a1 b1) as [?|[?|?]]; destruct (gid_trich a2 b2) as [?|[?|?]]; subst; auto.
Qed.

(** ** B-trees as sorted lists *)

Definition blt (e f : grange * list grange) : Prop := rk_lt (fst e) (fst f).
Definition flatten (t : btree) : list (grange * grange) :=
  flat_map (fun e => map (pair (fst e)) (snd e)) t.

Lemma bt_push_spec t k v : StronglySorted blt t -> Forall (fun e => snd e <> []) t ->
  StronglySorted blt (bt_push t k v) /\ Forall (fun e => snd e <> []) (bt_push t k v) /\
  Permutation (flatten (bt_push t k v)) ((k, v) :: flatten t) /\
  (forall e, In e (bt_push t k v) -> fst e = k \/ exists e', In e' t /\ fst e' = fst e).
Proof.
  induction t as [|[k' l] r IH]; intros HS HN.
  - simpl. split; [repeat constructor|]. split; [repeat constructor; discriminate|]. split; auto.
    intros e [<-|[]]; auto.
  - inversion HS as [|? ? HS' HF]; subst. inversion HN as [|? ? N1 N2]; subst. simpl.
    destruct (rk_eqb k k') eqn:E.
    + apply rk_eqb_eq in E. subst k'. split; [constructor; auto|].
      split; [constructor; auto; simpl; destruct l; discriminate|]. split.
      * unfold flatten. simpl. rewrite map_app, <- app_assoc. simpl. symmetry. apply Permutation_middle.
      * intros e [<-|He]; simpl; auto. right. exists e. simpl; auto.
    + destruct (rk_leb k k') eqn:E2.
      * apply rk_leb_le in E2. destruct E2 as [E2|E2]; [|subst; rewrite (proj2 (rk_eqb_eq k' k') eq_refl) in E; discriminate].
        split; [constructor; [constructor; auto|]|].
        { constructor; [exact E2|]. eapply Forall_impl; [|exact HF]. unfold blt. simpl.
          intros a Ha. eapply rk_lt_trans; eauto. }
        split; [constructor; auto; discriminate|]. split; auto.
        intros e [<-|He]; simpl; auto. right. exists e. auto.
      * destruct (IH HS' N2) as (A & B & C & D).
        assert (Hlt : rk_lt k' k).
        { destruct (rk_trich k k') as [H|[H|H]]; auto.
          - exfalso. assert (rk_leb k k' = true) by (apply rk_leb_le; auto). congruence.
          - exfalso. assert (rk_leb k k' = true) by (apply rk_leb_le; auto). congruence. }
        split; [constructor; auto|].
        { apply Forall_forall. intros e He. destruct (D e He) as [Ek|(e' & He' & Ee)].
          - unfold blt. simpl. rewrite Ek. exact Hlt.
          - unfold blt. simpl. rewrite <- Ee. rewrite Forall_forall in HF. apply (HF e' He'). }
        split; [constructor; auto|]. split.
        -- unfold flatten in *. simpl. rewrite C. symmetry. apply Permutation_middle.
        -- intros e [<-|He]; [right; eexists; split; [simpl; auto|reflexivity]|].
           destruct (D e He) as [H|(e' & He' & Ee)]; auto. right. exists e'. simpl; auto.
Qed.

Lemma rm_get_set m c t : forall x, rm_get (rm_set m c t) x = if x =? c then Some t else rm_get m x.
Proof.
  induction m as [|[c1 t1] m IH]; intros x; cbn [rm_set rm_get].
  - auto.
  - destruct (Nat.eqb_spec c c1) as [E|E]; cbn [rm_get].
    + subst c1. destruct (x =? c); auto.
    + rewrite IH. destruct (Nat.eqb_spec x c1); auto. destruct (Nat.eqb_spec x c); auto. congruence.
Qed.

(** ** The stored ranges represent the history *)

Record rc_inv (m : rmap) (hist : list (grange * grange)) : Prop := {
  ri_sorted : forall c t, rm_get m c = Some t -> StronglySorted blt t /\ Forall (fun e => snd e <> []) t;
  ri_content : forall c, Permutation (flatten (match rm_get m c with Some t => t | None => [] end))
                                     (filter (fun ft => fst (fst (fst ft)) =? c) hist) }.

Lemma rc_inv_nil : rc_inv [] [].
Proof. constructor; simpl; auto; discriminate. Qed.

Lemma Permutation_filter_ {A} (f : A -> bool) l l' : Permutation l l' -> Permutation (filter f l) (filter f l').
Proof.
  induction 1; simpl; auto.
  - destruct (f x); auto.
  - destruct (f x), (f y); auto. apply perm_swap.
  - etransitivity; eauto.
Qed.

Lemma rc_insert_inv m hist from to m' : rc_inv m hist -> rc_insert m from to = Some m' ->
  rc_inv m' (hist ++ [(from, to)]).
Proof.
  intros [HS HC] H. unfold rc_insert in H.
  destruct (oassert (gid_leb (fst from) (snd from))) eqn:E1; [|discriminate]. cbn [obind] in H.
  destruct (match rev _ with [] => Some tt | (pc, _) :: _ => _ end); [|discriminate]. cbn [obind] in H.
  injection H as <-. remember (fst (fst from)) as c0 eqn:Ec0.
  assert (HS0 : StronglySorted blt (match rm_get m c0 with Some t => t | None => [] end) /\
                Forall (fun e => snd e <> []) (match rm_get m c0 with Some t => t | None => [] end)).
  { destruct (rm_get m c0) eqn:E; [eapply HS; eauto|]. split; constructor. }
  destruct HS0 as [S0 N0]. destruct (bt_push_spec _ from to S0 N0) as (A & B & C & _).
  constructor.
  - intros c t. rewrite rm_get_set. destruct (Nat.eqb_spec c c0) as [->|]; [|apply HS].
    intros E. injection E as <-. auto.
  - intros c. rewrite rm_get_set, filter_app. cbn [filter fst]. 
    match goal with |- context [if ?b then [(from, to)] else _] => replace b with (c0 =? c) by (rewrite Ec0; reflexivity) end.
    destruct (Nat.eqb_spec c c0) as [->|Hne].
    + rewrite Nat.eqb_refl. rewrite C, HC. apply Permutation_cons_append.
    + destruct (Nat.eqb_spec c0 c); [congruence|]. cbn. rewrite app_nil_r. apply HC.
Qed.

(** Inserting a list of pairs. *)
Definition rc_inserts (m : rmap) (l : list (grange * grange)) : option rmap :=
  ofold (fun m ft => rc_insert m (fst ft) (snd ft)) m l.

Lemma rc_inserts_inv l : forall m hist m', rc_inv m hist -> rc_inserts m l = Some m' -> rc_inv m' (hist ++ l).
Proof.
  induction l as [|[f t] l IH]; intros m hist m' HI H.
  - injection H as <-. rewrite app_nil_r. auto.
  - unfold rc_inserts in H. cbn [ofold fst snd] in H. destruct (rc_insert m f t) as [m1|] eqn:E; [|discriminate].
    cbn [obind] in H. replace (hist ++ (f, t) :: l) with ((hist ++ [(f, t)]) ++ l) by (rewrite <- app_assoc; auto).
    eapply IH; eauto. eapply rc_insert_inv; eauto.
Qed.

(** ** Lookups *)

Lemma take_while_filter {A} (P : A -> bool) l :
  StronglySorted (fun x y => P y = true -> P x = true) l -> take_while P l = filter P l.
Proof.
  induction 1 as [|x l HS IH HF]; simpl; auto. destruct (P x) eqn:E; [f_equal; auto|].
  rewrite Forall_forall in HF. symmetry. clear IH HS.
  induction l as [|y l IHl]; simpl; auto. destruct (P y) eqn:Ey.
  - specialize (HF y (in_eq _ _) Ey). congruence.
  - apply IHl. intros z Hz. apply HF. simpl; auto.
Qed.

Lemma filter_filter_impl_in {A} (P Q : A -> bool) l :
  (forall x, In x l -> P x = true -> Q x = true) -> filter P (filter Q l) = filter P l.
Proof.
  induction l as [|a l IH]; simpl; intros H; auto. destruct (P a) eqn:E.
  - rewrite (H a) by auto. simpl. rewrite E. f_equal. apply IH. intros; apply H; auto.
  - destruct (Q a); simpl; [rewrite E|]; apply IH; intros; apply H; auto.
Qed.

Lemma filter_filter_impl {A} (P Q : A -> bool) l :
  (forall x, P x = true -> Q x = true) -> filter P (filter Q l) = filter P l.
Proof. intros H. apply filter_filter_impl_in. auto. Qed.

Lemma in_length_pos {A} (x : A) l : In x l -> 0 < length l.
Proof. destruct l; simpl; [tauto|lia]. Qed.

Lemma take_while_ext {A} (P Q : A -> bool) l :
  (forall x, In x l -> P x = Q x) -> take_while P l = take_while Q l.
Proof.
  induction l as [|a l IH]; simpl; intros H; auto. rewrite (H a) by auto. destruct (Q a); auto.
  f_equal. apply IH. intros; apply H; auto.
Qed.

Lemma take_while_incl {A} (P : A -> bool) l x : In x (take_while P l) -> In x l /\ P x = true.
Proof.
  induction l as [|y l IH]; simpl; [tauto|]. destruct (P y) eqn:E; simpl; [|tauto].
  intros [->|H]; auto. destruct (IH H); auto.
Qed.

Lemma ss_app {A} (R : A -> A -> Prop) l1 l2 : StronglySorted R (l1 ++ l2) <->
  StronglySorted R l1 /\ StronglySorted R l2 /\ (forall x y, In x l1 -> In y l2 -> R x y).
Proof.
  induction l1 as [|a l1 IH]; simpl.
  - split; [intros H; repeat split; auto; [constructor|intros ? ? []]|tauto].
  - split.
    + intros H. inversion H as [|? ? HS HF]; subst. apply IH in HS. destruct HS as (A1 & A2 & A3).
      apply Forall_app in HF. destruct HF as [F1 F2]. split; [constructor; auto|]. split; auto.
      intros x y [<-|Hx] Hy; auto. rewrite Forall_forall in F2. auto.
    + intros (H1 & H2 & H3). inversion H1 as [|? ? HS HF]; subst. constructor.
      * apply IH. repeat split; auto.
      * apply Forall_app. split; auto. apply Forall_forall. auto.
Qed.

Lemma ss_rev {A} (R : A -> A -> Prop) l : StronglySorted R l -> StronglySorted (fun x y => R y x) (rev l).
Proof.
  induction 1 as [|x l HS IH HF]; simpl; [constructor|]. apply ss_app. split; auto.
  split; [repeat constructor|]. intros a b Ha [<-|[]]. apply in_rev in Ha. rewrite Forall_forall in HF. auto.
Qed.

Lemma ss_filter {A} (R : A -> A -> Prop) f l : StronglySorted R l -> StronglySorted R (filter f l).
Proof.
  induction 1 as [|x l HS IH HF]; simpl; [constructor|]. destruct (f x); auto. constructor; auto.
  apply Forall_forall. intros y Hy. apply filter_In in Hy. rewrite Forall_forall in HF. apply HF. tauto.
Qed.

Lemma ss_impl_in {A} (R R' : A -> A -> Prop) l : StronglySorted R l ->
  (forall x y, In x l -> In y l -> R x y -> R' x y) -> StronglySorted R' l.
Proof.
  induction 1 as [|x l HS IH HF]; intros H; constructor.
  - apply IH. intros a b Ha Hb. apply H; simpl; auto.
  - apply Forall_forall. intros y Hy. rewrite Forall_forall in HF. apply H; simpl; auto.
Qed.

Lemma flatten_filter (P : grange -> bool) t :
  flatten (filter (fun e => P (fst e)) t) = filter (fun ft => P (fst ft)) (flatten t).
Proof.
  unfold flatten. induction t as [|[k l] t IH]; simpl; auto. rewrite filter_app.
  assert (E : filter (fun ft : grange * grange => P (fst ft)) (map (pair k) l) = if P k then map (pair k) l else []).
  { destruct (P k) eqn:E; induction l; simpl; auto; rewrite E; [f_equal|]; auto. }
  rewrite E. destruct (P k); simpl; [f_equal|]; auto.
Qed.

Lemma flatten_rev t : Permutation (flatten (rev t)) (flatten t).
Proof. unfold flatten. rewrite (Permutation_flat_map _ (Permutation_sym (Permutation_rev t))). auto. Qed.

Lemma rc_gates_flatten imax m g :
  rc_gates imax m g = map (counterpart g) (flatten (rc_mapped imax m g)).
Proof.
  unfold rc_gates, flatten. induction (rc_mapped imax m g) as [|[k l] t IH]; simpl; auto.
  rewrite map_app, map_map, IH. auto.
Qed.

(** Membership of a key in the bounded part, for ranges of one circuit. *)
Lemma upto_key imax r g : range_ok imax r -> fst (fst r) = fst g ->
  (rk_leb r (g, (fst g, imax)) = true <-> snd (fst r) <= snd g).
Proof.
  intros (E1 & E2 & E3) Ec. rewrite rk_leb_le. destruct r as [[a1 a2] [b1 b2]], g as [g1 g2]. simpl in *. subst.
  unfold rk_lt, gid_lt. simpl. split.
  - intros [[H|[H [K|K]]]|H]; try (inversion H; subst); lia.
  - intros H. destruct (Nat.eq_dec a2 g2) as [->|]; [|left; left; lia].
    destruct (Nat.eq_dec b2 imax) as [->|]; [right; auto|]. left. right. split; auto. lia.
Qed.

Lemma contains_inside imax r g : range_ok imax r ->
  fst (fst r) = fst g -> gid_leb (fst r) g && gid_leb g (snd r) = inside r g.
Proof.
  intros (E1 & E2 & _) Ec. apply eq_true_iff_eq. unfold inside.
  rewrite !andb_true_iff, !gid_leb_le, Nat.eqb_eq, !Nat.leb_le.
  destruct r as [[a1 a2] [b1 b2]], g as [g1 g2]. simpl in *. subst. unfold gid_lt. simpl. split.
  - intros [[H|H] [K|K]]; try (inversion H; subst); try (inversion K; subst); lia.
  - intros [[_ H] K]. split.
    + destruct (Nat.eq_dec a2 g2); [right; congruence|left; lia].
    + destruct (Nat.eq_dec g2 b2); [right; congruence|left; lia].
Qed.

Section Lookup.
Variables (imax : nat) (m : rmap) (hist : list (grange * grange)).
Hypothesis HI : rc_inv m hist.
Hypothesis Hok : Forall (fun ft => range_ok imax (fst ft)) hist.

Definition tree (c : nat) : btree := match rm_get m c with Some t => t | None => [] end.

Lemma tree_in c e : In e (tree c) -> range_ok imax (fst e) /\ fst (fst (fst e)) = c /\ In (fst e) (map fst hist).
Proof.
  intros He. unfold tree in He. destruct (rm_get m c) as [t|] eqn:E; [|destruct He].
  destruct (ri_sorted _ _ HI c t E) as [_ HN]. rewrite Forall_forall in HN. specialize (HN e He).
  destruct e as [k l]. destruct l as [|v l]; [simpl in HN; congruence|].
  assert (Hin : In (k, v) (flatten t)).
  { unfold flatten. apply in_flat_map. exists (k, v :: l). split; auto. simpl. auto. }
  pose proof (ri_content _ _ HI c) as HP. rewrite E in HP. apply (Permutation_in _ HP) in Hin.
  apply filter_In in Hin. destruct Hin as [Hin Hc]. apply Nat.eqb_eq in Hc. simpl in *.
  rewrite Forall_forall in Hok. split; [apply (Hok _ Hin)|]. split; auto. apply (in_map fst) in Hin. auto.
Qed.

Lemma tree_sorted c : StronglySorted blt (tree c).
Proof.
  unfold tree. destruct (rm_get m c) as [t|] eqn:E; [eapply ri_sorted; eauto|constructor].
Qed.

Lemma tree_content c : Permutation (flatten (tree c)) (filter (fun ft => fst (fst (fst ft)) =? c) hist).
Proof. apply (ri_content _ _ HI). Qed.

Definition cand (g : gid) : btree := rev (bt_upto (tree (fst g)) (g, (fst g, imax))).

Lemma cand_in g e : In e (cand g) <-> In e (tree (fst g)) /\ snd (fst (fst e)) <= snd g.
Proof.
  unfold cand, bt_upto. rewrite <- in_rev, filter_In. split.
  - intros [H1 H2]. split; auto. destruct (tree_in _ _ H1) as (A & B & _). apply (upto_key imax) in H2; auto.
  - intros [H1 H2]. split; auto. destruct (tree_in _ _ H1) as (A & B & _). apply (upto_key imax); auto.
Qed.

Lemma mapped_eq g : rc_mapped imax m g = take_while (fun e => inside (fst e) g) (cand g).
Proof.
  assert (E : rc_mapped imax m g =
    take_while (fun e => gid_leb (fst (fst e)) g && gid_leb g (snd (fst e))) (cand g)).
  { unfold rc_mapped, cand, tree. destruct (rm_get m (fst g)); auto. }
  rewrite E. assert (HA : forall e, In e (cand g) ->
     gid_leb (fst (fst e)) g && gid_leb g (snd (fst e)) = inside (fst e) g).
  { intros e He. apply cand_in in He. destruct He as [He _]. destruct (tree_in _ _ He) as (A & B & _).
    apply (contains_inside imax); auto. }
  apply take_while_ext. exact HA.
Qed.

(** All inside entries of the candidates are all inside pairs of the history. *)
Lemma cand_filter g :
  Permutation (flatten (filter (fun e => inside (fst e) g) (cand g))) (filter (fun ft => inside (fst ft) g) hist).
Proof.
  rewrite (flatten_filter (fun r => inside r g)).
  assert (E1 : Permutation (filter (fun ft => inside (fst ft) g) (flatten (cand g)))
                           (filter (fun ft => inside (fst ft) g) (flatten (tree (fst g))))).
  { unfold cand, bt_upto. rewrite (Permutation_filter_ _ _ _ (flatten_rev _)).
    rewrite (flatten_filter (fun k => rk_leb k (g, (fst g, imax)))).
    assert (Hall : forall ft, In ft (flatten (tree (fst g))) -> inside (fst ft) g = true ->
              rk_leb (fst ft) (g, (fst g, imax)) = true).
    { intros ft Hf Hi. apply in_flat_map in Hf. destruct Hf as (e & He & Hf). apply in_map_iff in Hf.
      destruct Hf as (x & <- & _). destruct (tree_in _ _ He) as (A & B & _). apply (upto_key imax); auto.
      simpl in Hi. unfold inside in Hi. rewrite !andb_true_iff, !Nat.leb_le in Hi. tauto. }
    rewrite filter_filter_impl_in; auto. }
  rewrite E1, (Permutation_filter_ _ _ _ (tree_content (fst g))).
  assert (E2 : filter (fun ft => inside (fst ft) g) (filter (fun ft => fst (fst (fst ft)) =? fst g) hist) =
               filter (fun ft : grange * grange => inside (fst ft) g) hist).
  { apply filter_filter_impl. intros ft Hi. unfold inside in Hi. rewrite !andb_true_iff in Hi. tauto. }
  rewrite E2. auto.
Qed.

Lemma cand_sorted g : StronglySorted (fun x y => blt y x) (cand g).
Proof. unfold cand, bt_upto. apply ss_rev. apply ss_filter. apply tree_sorted. Qed.

Lemma lookup_complete : no_nesting (map fst hist) ->
  forall g, Permutation (rc_gates imax m g) (related hist g).
Proof.
  intros HN g. rewrite rc_gates_flatten, mapped_eq. unfold related. apply Permutation_map.
  rewrite take_while_filter; [apply cand_filter|].
  eapply ss_impl_in; [apply cand_sorted|]. intros x y Hx Hy Hlt Hi.
  apply cand_in in Hx, Hy. destruct Hx as [Hx Lx], Hy as [Hy Ly].
  destruct (tree_in _ _ Hx) as (Ax & Bx & Cx). destruct (tree_in _ _ Hy) as (Ay & By & Cy).
  unfold inside in *. rewrite !andb_true_iff, Nat.eqb_eq, !Nat.leb_le in *.
  destruct Hi as [[I1 I2] I3]. split; [split|]; auto.
  unfold blt, rk_lt, gid_lt in Hlt. destruct Ax as (A1 & A2 & A3), Ay as (A4 & A5 & A6).
  destruct Hlt as [[Hlt|[_ Hlt]]|[He [Hlt|[_ Hlt]]]]; try lia.
  pose proof (HN (fst y) (fst x) Cy Cx). lia.
Qed.

Lemma lookup_sound g : forall t, In t (rc_gates imax m g) -> In t (related hist g).
Proof.
  intros t Ht. rewrite rc_gates_flatten, mapped_eq in Ht. apply in_map_iff in Ht. destruct Ht as (ft & <- & Hf).
  apply in_map. apply (Permutation_in _ (cand_filter g)). apply in_flat_map in Hf.
  destruct Hf as (e & He & Hf). apply take_while_incl in He. apply in_flat_map. exists e. split; auto.
  apply filter_In. auto.
Qed.

Lemma lookup_incomplete : ~ no_nesting (map fst hist) ->
  exists g, length (rc_gates imax m g) < length (related hist g).
Proof.
  intros HN.
  assert (HW : exists r1 r2, In r1 (map fst hist) /\ In r2 (map fst hist) /\ fst (fst r1) = fst (fst r2) /\
     snd (fst r1) < snd (fst r2) /\ snd (snd r2) < snd (snd r1)).
  { set (bad := fun r1 r2 : grange => (fst (fst r1) =? fst (fst r2)) && (snd (fst r1) <? snd (fst r2)) &&
                             (snd (snd r2) <? snd (snd r1))).
    destruct (existsb (fun r1 => existsb (bad r1) (map fst hist)) (map fst hist)) eqn:E.
    - apply existsb_exists in E. destruct E as (r1 & H1 & E). apply existsb_exists in E. destruct E as (r2 & H2 & E).
      unfold bad in E. rewrite !andb_true_iff, Nat.eqb_eq, !Nat.ltb_lt in E. exists r1, r2. tauto.
    - exfalso. apply HN. intros r1 r2 H1 H2 E1 E2. destruct (le_lt_dec (snd (snd r1)) (snd (snd r2))); auto.
      assert (F : existsb (fun r1 => existsb (bad r1) (map fst hist)) (map fst hist) = true); [|congruence].
      apply existsb_exists. exists r1. split; auto. apply existsb_exists. exists r2. split; auto.
      unfold bad. rewrite !andb_true_iff, Nat.eqb_eq, !Nat.ltb_lt. auto. }
  destruct HW as (r1 & r2 & H1 & H2 & Ec & Es & Ee). exists (snd r1).
  assert (Hget : forall r, In r (map fst hist) -> exists l, In (r, l) (tree (fst (fst r))) /\ l <> []).
  { intros r Hr. apply in_map_iff in Hr. destruct Hr as ([f t] & <- & Hr). simpl.
    assert (Hin : In (f, t) (flatten (tree (fst (fst f))))).
    { apply (Permutation_in _ (Permutation_sym (tree_content _))). apply filter_In. split; auto. simpl.
      apply Nat.eqb_refl. }
    apply in_flat_map in Hin. destruct Hin as ([k l] & Hk & Hin). apply in_map_iff in Hin.
    destruct Hin as (t' & E & Ht). simpl in *. injection E as -> ->. exists l. split; auto. intros ->. destruct Ht. }
  destruct (Hget r1 H1) as (l1 & T1 & N1). destruct (Hget r2 H2) as (l2 & T2 & N2).
  destruct (tree_in _ _ T1) as ((A1 & A2 & A3) & _ & _). destruct (tree_in _ _ T2) as ((A4 & A5 & A6) & _ & _).
  cbn [fst snd] in *. remember (snd r1) as g eqn:Eg.
  assert (C1 : In (r1, l1) (cand g)).
  { apply cand_in. cbn [fst snd]. rewrite <- A1. split; auto. }
  assert (C2 : In (r2, l2) (cand g)).
  { apply cand_in. cbn [fst snd]. rewrite <- A1, Ec. split; auto. lia. }
  rewrite rc_gates_flatten, mapped_eq. unfold related. rewrite !map_length.
  rewrite <- (Permutation_length (cand_filter g)).
  apply in_split in C2. destruct C2 as (pre & post & E). pose proof (cand_sorted g) as HSs. rewrite E in *.
  assert (F2 : inside r2 g = false).
  { apply not_true_iff_false. unfold inside. rewrite !andb_true_iff, !Nat.leb_le. lia. }
  assert (P1 : In (r1, l1) post).
  { apply in_app_iff in C1. destruct C1 as [C1|[C1|C1]]; auto.
    - exfalso. apply ss_app in HSs. destruct HSs as (_ & _ & HX). specialize (HX _ _ C1 (in_eq _ _)).
      unfold blt, rk_lt, gid_lt in HX. simpl in HX. destruct HX as [HX|[HX _]]; [lia|]. rewrite HX in Es. lia.
    - exfalso. inversion C1; subst. lia. }
  assert (Htw : forall (P : grange * list grange -> bool) x pre post, P x = false ->
     take_while P (pre ++ x :: post) = take_while P pre).
  { intros P x p q Hx. induction p as [|a p IH]; simpl; [rewrite Hx; auto|]. destruct (P a); auto. f_equal; auto. }
  rewrite Htw by (simpl; auto).
  assert (Hle : forall p, length (flatten (take_while (fun e => inside (fst e) g) p)) <=
                          length (flatten (filter (fun e => inside (fst e) g) p))).
  { intros p. unfold flatten. induction p as [|a p IH]; simpl; auto. destruct (inside (fst a) g); simpl; [|lia].
    rewrite !app_length. lia. }
  rewrite filter_app. unfold flatten at 2. rewrite flat_map_app. fold flatten. rewrite app_length.
  specialize (Hle pre). unfold flatten in *. simpl. rewrite F2.
  assert (Hpos : 0 < length (flat_map (fun e => map (pair (fst e)) (snd e)) (filter (fun e => inside (fst e) g) post))).
  { assert (Hin : In (r1, l1) (filter (fun e => inside (fst e) g) post)).
    { apply filter_In. split; auto. unfold inside. cbn [fst snd]. rewrite <- Eg. rewrite !andb_true_iff, Nat.eqb_eq, !Nat.leb_le. lia. }
    destruct l1 as [|t1 l1]; [congruence|].
    assert (Hf : In (r1, t1) (flat_map (fun e : grange * list grange => map (pair (fst e)) (snd e))
                  (filter (fun e => inside (fst e) g) post))).
    { apply in_flat_map. eexists. split; [exact Hin|]. simpl; auto. }
    eapply in_length_pos. exact Hf. }
  lia.
Qed.
End Lookup.
