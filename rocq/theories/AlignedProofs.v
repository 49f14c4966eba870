(** Lemmas about the model of [AlignedVec]. *)
From Coq Require Import List Bool Arith Lia Permutation.
Require Import Verif.Prelude Verif.PreludeProofs Verif.AlignedModel Verif.AlignedSpec.
Import ListNotations.

Section A.
Context {V : Type}.
Variable p : aparams.
Implicit Types (m : amem V) (h : list (block V)) (v : avec) (es : list (elem V)).

(** A vector with these elements in this heap. *)
Definition vec_ok h v es : Prop :=
  length es = a_len v /\ 0 < esize p /\
  (a_cap v = 0 /\ a_len v = 0 \/
   0 < a_cap v /\ layout_ok p (a_cap v * esize p) = true /\
   exists b rest, a_ptr v = Some b /\
     nth_error h b = Some (Block true (a_cap v * esize p) (align p) (map Some es ++ rest)) /\
     length es + length rest = a_cap v).

(** The heap changes only at the block [o], which becomes [o']. *)
Definition heff h h' (o o' : option nat) : Prop :=
  length h <= length h' /\
  (forall b blk, Some b <> o -> nth_error h b = Some blk -> nth_error h' b = Some blk /\ Some b <> o') /\
  (forall b blk, nth_error h' b = Some blk -> b_live blk = true -> Some b = o' \/ (Some b <> o /\ nth_error h b = Some blk)).

Lemma heff_refl h o : heff h h o o.
Proof.
  split; [lia|]. split; auto. intros b blk H _. destruct o as [c|].
  - destruct (Nat.eq_dec b c) as [->|]; [auto|]. right. split; auto. congruence.
  - right. split; [congruence|auto].
Qed.

Lemma heff_trans h h' h'' o o' o'' : heff h h' o o' -> heff h' h'' o' o'' -> heff h h'' o o''.
Proof.
  intros (A1 & A2 & A3) (B1 & B2 & B3). split; [lia|]. split.
  - intros b blk Hn H. destruct (A2 b blk Hn H) as [H' Hn']. apply B2; auto.
  - intros b blk H Hl. destruct (B3 b blk H Hl) as [->|[Hn H']]; auto.
    destruct (A3 b blk H' Hl) as [E|?]; auto. contradiction.
Qed.

(** Every identity is in exactly one place. *)
Definition bal m (ts : list nat) : Prop := needs_drop p = true -> Permutation (m_dropped m ++ ts) (seq 0 (m_next m)).

Lemma bal_perm m ts ts' : Permutation ts ts' -> bal m ts -> bal m ts'.
Proof. intros P B H. rewrite <- P. auto. Qed.

Lemma bal_same m m' ts : m_dropped m' = m_dropped m -> m_next m' = m_next m -> bal m ts -> bal m' ts.
Proof. unfold bal. intros -> ->. auto. Qed.

Lemma drop_elem_ok m e ts : bal m (fst e :: ts) -> exists m', drop_elem p m e = Some m' /\ m_heap m' = m_heap m /\ bal m' ts.
Proof.
  intros B. unfold drop_elem. destruct (needs_drop p) eqn:E.
  - specialize (B E). destruct (existsb (Nat.eqb (fst e)) (m_dropped m)) eqn:X.
    + exfalso. apply existsb_exists in X. destruct X as (t & Ht & Et). apply Nat.eqb_eq in Et. subst t.
      assert (N : NoDup (m_dropped m ++ fst e :: ts)). { eapply Permutation_NoDup; [symmetry; exact B|apply seq_NoDup]. }
      apply NoDup_remove_2 in N. apply N. apply in_or_app. auto.
    + eexists. split; [reflexivity|]. split; [reflexivity|]. intros _. cbn [m_dropped m_next].
      rewrite <- B. cbn [app]. apply Permutation_middle.
  - exists m. split; auto. split; auto. intros H. congruence.
Qed.

Lemma fresh_bal m x ts : bal m ts -> bal (snd (fresh m x)) (m_next m :: ts).
Proof.
  intros B H. cbn [fresh snd m_dropped m_next]. rewrite <- Permutation_middle, (B H).
  rewrite seq_S. cbn [Nat.add]. apply Permutation_cons_append.
Qed.

Lemma vec_read m v es j : vec_ok (m_heap m) v es -> j < a_len v -> cell_read m (a_ptr v) j = nth_error es j.
Proof.
  intros (L & _ & [[? ?]|(_ & _ & b & rest & P & N & _)]) Hj; [lia|].
  unfold cell_read. rewrite P. cbn [obind]. rewrite N. cbn [obind b_live b_cells].
  rewrite nth_error_app1 by (rewrite map_length; lia). rewrite nth_error_map.
  destruct (nth_error es j); reflexivity.
Qed.

Lemma cell_read_heap m m' ptr j : m_heap m' = m_heap m -> cell_read m' ptr j = cell_read m ptr j.
Proof. unfold cell_read. intros ->. reflexivity. Qed.

Lemma drop_cells_ok ptr ds : forall m i ts,
  (forall k, k < length ds -> cell_read m ptr (i + k) = nth_error ds k) -> bal m (map fst ds ++ ts) ->
  exists m', drop_cells p m ptr i (length ds) = Ret m' /\ m_heap m' = m_heap m /\ bal m' ts.
Proof.
  induction ds as [|e ds IH]; intros m i ts H B; cbn [length drop_cells map app] in *.
  - exists m. auto.
  - pose proof (H 0 ltac:(lia)) as H0. rewrite Nat.add_0_r in H0. rewrite H0. cbn [nth_error].
    destruct (drop_elem_ok m e _ B) as (m1 & -> & Hh & B1).
    destruct (IH m1 (S i) ts) as (m2 & E2 & Hh2 & B2).
    + intros k Hk. rewrite (cell_read_heap m m1) by auto. replace (S i + k) with (i + S k) by lia. apply (H (S k)). lia.
    + exact B1.
    + exists m2. split; auto. split; [congruence|auto].
Qed.

Lemma pop_all_ok ptr es : forall n m ts,
  n <= length es -> (forall k, k < length es -> cell_read m ptr k = nth_error es k) -> bal m (map fst (firstn n es) ++ ts) ->
  exists m', a_pop_all p m ptr n = Ret m' /\ m_heap m' = m_heap m /\ bal m' ts.
Proof.
  induction n as [|n IH]; intros m ts Hn H B; cbn [a_pop_all] in *.
  - exists m. auto.
  - destruct (nth_error es n) as [e|] eqn:E; [|apply nth_error_None in E; lia].
    rewrite H by lia. rewrite E.
    assert (F : firstn (S n) es = firstn n es ++ [e]).
    { clear -E. revert n E. induction es as [|y l IHl]; intros [|n] E; simpl in *; try discriminate; [congruence|]. f_equal. auto. }
    rewrite F, map_app, <- app_assoc in B. cbn [map app] in B.
    destruct (drop_elem_ok m e (map fst (firstn n es) ++ ts)) as (m1 & -> & Hh & B1).
    { eapply bal_perm; [|exact B]. symmetry. apply Permutation_middle. }
    destruct (IH m1 ts) as (m2 & E2 & Hh2 & B2); auto; [lia| |].
    + intros k Hk. rewrite (cell_read_heap m m1) by auto. auto.
    + exists m2. split; auto. split; [congruence|auto].
Qed.

Lemma vec_len_cap h v es : vec_ok h v es -> a_len v <= a_cap v.
Proof. intros (L & _ & [[? ?]|(_ & _ & b & rest & _ & _ & R)]); lia. Qed.

Lemma vec_cap_bound h v es : 1 <= umax p -> vec_ok h v es -> a_cap v + 1 <= umax p.
Proof.
  intros HU (_ & He & [[-> _]|(_ & Hl & _)]); [lia|]. unfold layout_ok, imax in Hl. apply Nat.leb_le in Hl.
  assert (a_cap v <= a_cap v * esize p) by nia.
  assert (H2 : umax p / 2 * 2 <= umax p) by (rewrite Nat.mul_comm; apply Nat.mul_div_le; lia).
  destruct (Nat.eq_dec (umax p / 2) 0); lia.
Qed.

Lemma vec_new h : 0 < esize p -> vec_ok h (AVec None 0 0) [].
Proof. intros H. split; auto. Qed.

Lemma heff_app h blk : heff h (h ++ [blk]) None (Some (length h)).
Proof.
  split; [rewrite app_length; lia|]. split.
  - intros b blk' _ H. assert (b < length h) by (apply nth_error_Some; congruence). split.
    + rewrite nth_error_app1; auto.
    + intros E. injection E as ->. lia.
  - intros b blk' H _. destruct (Nat.lt_ge_cases b (length h)).
    + rewrite nth_error_app1 in H by auto. right. split; [congruence|auto].
    + rewrite nth_error_app2 in H by auto. destruct (b - length h) eqn:E.
      * left. f_equal. lia.
      * simpl in H. destruct n; discriminate.
Qed.

Lemma nth_app_last {A} (l : list A) x : nth_error (l ++ [x]) (length l) = Some x.
Proof. rewrite nth_error_app2, Nat.sub_diag by auto. reflexivity. Qed.

Lemma alloc_ok m cap : 0 < esize p -> 0 < cap -> layout_ok p (cap * esize p) = true ->
  let '(b, m') := mem_alloc p m cap in
  vec_ok (m_heap m') (AVec (Some b) cap 0) [] /\ heff (m_heap m) (m_heap m') None (Some b) /\
  m_dropped m' = m_dropped m /\ m_next m' = m_next m.
Proof.
  intros He Hc Hl. cbn. split; [|split; [apply heff_app|auto]].
  split; auto. split; auto. right. split; auto. split; auto. exists (length (m_heap m)), (repeat None cap).
  split; auto. cbn [a_cap a_len m_heap]. split; [apply nth_app_last|]. rewrite repeat_length. reflexivity.
Qed.

Lemma too_big_mono a b : a <= b -> too_big p a -> too_big p b.
Proof. unfold too_big. intros H. assert (2 * a * esize p <= 2 * b * esize p) by nia. lia. Qed.

Lemma imax_le : imax p <= umax p.
Proof. apply Nat.div_le_upper_bound; lia. Qed.

Lemma pow2_up n : 1 <= n -> n <= 2 ^ Nat.log2_up n <= 2 * n.
Proof.
  intros H. destruct (Nat.eq_dec n 1) as [->|]; [cbn; lia|].
  destruct (Nat.log2_up_spec n ltac:(lia)) as [A B]. split; auto.
  assert (0 < Nat.log2_up n) by (apply Nat.log2_up_pos; lia).
  destruct (Nat.log2_up n) as [|k]; [lia|]. cbn [Nat.pred] in A. rewrite Nat.pow_succ_r'. lia.
Qed.

Lemma with_capacity_ok m n ok :
  match a_with_capacity p m n ok with
  | Ret (m', Some v') => vec_ok (m_heap m') v' [] /\ heff (m_heap m) (m_heap m') None (vblock v') /\
      m_dropped m' = m_dropped m /\ m_next m' = m_next m /\ n <= a_cap v'
  | Ret (_, None) => False
  | Pan (m', _) => m' = m /\ (unsupported p \/ ok = false \/ too_big p n)
  | Undef _ => False
  end.
Proof.
  unfold a_with_capacity. destruct (Nat.eqb_spec (esize p) 0) as [He|He]; cbn [orb].
  { split; auto. left. left. auto. }
  destruct (Nat.ltb_spec (align p) (ealign p)) as [Ha|Ha]; cbn [orb].
  { split; auto. left. right. auto. }
  destruct (Nat.eqb_spec n 0) as [->|Hn].
  { split; [apply vec_new; lia|]. split; [apply heff_refl|]. cbn. auto. }
  destruct (Nat.ltb_spec (umax p) (n * esize p)) as [Hu|Hu].
  { split; auto. right. right. unfold too_big. pose proof imax_le. nia. }
  destruct (layout_ok p (n * esize p)) eqn:El; cbn [negb].
  2:{ split; auto. right. right. unfold layout_ok in El. apply Nat.leb_gt in El. unfold too_big. nia. }
  destruct ok; cbn [negb]; [|auto].
  pose proof (alloc_ok m n ltac:(lia) ltac:(lia) El) as H. destruct (mem_alloc p m n) as [b m'].
  destruct H as (A & B & C & D). split; auto. split; [|auto].
  unfold vblock. cbn [a_cap a_ptr]. destruct n; [lia|]. exact B.
Qed.

Lemma vblock_cap v : 0 < a_cap v -> vblock v = a_ptr v.
Proof. unfold vblock. destruct (a_cap v); [lia|auto]. Qed.

Lemma reserve_ok m v es add ok : 1 <= umax p -> vec_ok (m_heap m) v es ->
  match a_reserve p m v add ok with
  | Ret (m', v') => vec_ok (m_heap m') v' es /\ heff (m_heap m) (m_heap m') (vblock v) (vblock v') /\
      m_dropped m' = m_dropped m /\ m_next m' = m_next m /\ a_len v' = a_len v /\
      (a_len v + add <= umax p -> a_len v + add <= a_cap v')
  | Pan (m', v') => m' = m /\ v' = v /\ (ok = false \/ too_big p (a_len v + add))
  | Undef u => u = UBReallocSize /\ too_big p (a_len v + add)
  end.
Proof.
  intros HU Hv. pose proof Hv as Hv0. destruct Hv as (L & He & Hc). unfold a_reserve.
  destruct (negb (wraps p) && (umax p <? a_len v + add)) eqn:Ew.
  { split; auto. split; auto. right. apply andb_true_iff in Ew. destruct Ew as [_ Ew]. apply Nat.ltb_lt in Ew.
    pose proof imax_le. unfold too_big. nia. }
  assert (Hmod : (a_len v + add) mod (umax p + 1) <= a_len v + add) by (apply Nat.mod_le; lia).
  assert (Hsm : a_len v + add <= umax p -> (a_len v + add) mod (umax p + 1) = a_len v + add) by (intros; apply Nat.mod_small; lia).
  set (n := (a_len v + add) mod (umax p + 1)) in *. clearbody n.
  destruct (Nat.leb_spec n (a_cap v)) as [Hn|Hn].
  { split; auto. split; [apply heff_refl|]. repeat split; auto. intros H. rewrite <- Hsm by auto. auto. }
  unfold next_pow2. destruct (pow2_up n ltac:(lia)) as [P1 P2]. set (r := 2 ^ Nat.log2_up n) in *. clearbody r.
  pose proof imax_le as Hi.
  destruct (Nat.leb_spec r (umax p)) as [Hr|Hr].
  2:{ split; auto. split; auto. right. eapply too_big_mono; [exact Hmod|]. unfold too_big. nia. }
  destruct (Nat.ltb_spec (umax p) (r * esize p)) as [Hs|Hs].
  { split; auto. split; auto. right. eapply too_big_mono; [exact Hmod|]. unfold too_big. nia. }
  destruct (Nat.eqb_spec (r * esize p) 0) as [Hz|Hz]; [nia|].
  assert (HB : layout_ok p (r * esize p) = false -> too_big p (a_len v + add)).
  { intros El. unfold layout_ok in El. apply Nat.leb_gt in El. eapply too_big_mono; [exact Hmod|]. unfold too_big. nia. }
  destruct (Nat.eqb_spec (a_cap v) 0) as [Hz0|Hz0].
  - destruct (layout_ok p (r * esize p)) eqn:El; cbn [negb]; [|repeat split; auto].
    destruct ok; cbn [negb]; [|repeat split; auto].
    pose proof (alloc_ok m r He ltac:(lia) El) as H. destruct (mem_alloc p m r) as [b m'].
    destruct H as (A & B & C & D). destruct Hc as [[_ Hl]|[? _]]; [|lia].
    assert (es = []) by (destruct es; auto; simpl in L; lia). subst es. cbn [a_ptr a_cap a_len].
    rewrite Hl in *. split; [exact A|]. split.
    { unfold vblock. rewrite Hz0. cbn [a_cap a_ptr]. destruct r; [lia|]. exact B. }
    repeat split; auto. intros H. rewrite <- Hsm in * by auto. lia.
  - destruct Hc as [[? _]|(Hcap & Hlo & b & rest & P & N & R)]; [contradiction|].
    rewrite Hlo. cbn [negb]. unfold block_with. rewrite P. cbn [obind]. rewrite N. cbn [obind b_live b_size b_align].
    rewrite !Nat.eqb_refl. cbn [andb].
    destruct (layout_ok p (r * esize p)) eqn:El; cbn [negb]; [|repeat split; auto].
    destruct ok; cbn [negb]; [|repeat split; auto].
    cbn [m_heap m_dropped m_next a_len b_cells].
    assert (LH : length (upd b (kill (Block true (a_cap v * esize p) (align p) (map Some es ++ rest))) (m_heap m)) = length (m_heap m))
      by apply upd_length.
    assert (Hb : b < length (m_heap m)) by (apply nth_error_Some; congruence).
    split; [|split].
    + split; auto. split; auto. right. cbn [a_cap a_ptr]. split; [lia|]. split; auto.
      exists (length (m_heap m)), (rest ++ repeat None (r - length (map Some es ++ rest))). split; auto. split.
      * rewrite <- LH. rewrite nth_app_last. f_equal. f_equal.
        rewrite firstn_all2 by (rewrite app_length, map_length; lia). rewrite app_assoc. reflexivity.
      * rewrite app_length, repeat_length, app_length, map_length. lia.
    + rewrite vblock_cap by lia. unfold vblock. cbn [a_cap a_ptr]. destruct r as [|r]; [lia|]. rewrite P.
      split; [rewrite app_length; lia|]. split.
      * intros c blk Hc Hn'. assert (Hc2 : c < length (m_heap m)) by (apply nth_error_Some; congruence). split.
        -- rewrite nth_error_app1 by lia. rewrite upd_nth_error_other by congruence. auto.
        -- intros E. injection E as ->. lia.
      * intros c blk Hn' Hl'. destruct (Nat.lt_ge_cases c (length (m_heap m))) as [Hlt|Hge].
        -- rewrite nth_error_app1 in Hn' by lia. destruct (Nat.eq_dec b c) as [->|Hne].
           ++ rewrite upd_nth_error_same in Hn' by auto. injection Hn' as <-. discriminate Hl'.
           ++ rewrite upd_nth_error_other in Hn' by auto. right. split; [congruence|auto].
        -- rewrite nth_error_app2 in Hn' by lia. rewrite LH in Hn'. destruct (c - length (m_heap m)) eqn:E.
           ++ left. assert (EC : c = length (m_heap m)) by lia. rewrite EC. reflexivity.
           ++ simpl in Hn'. destruct n0; discriminate.
    + repeat split; auto. intros H. rewrite <- Hsm in * by auto. cbn [a_cap]. lia.
Qed.

Lemma heff_upd h b blk blk' : nth_error h b = Some blk -> heff h (upd b blk' h) (Some b) (Some b).
Proof.
  intros N. assert (Hb : b < length h) by (apply nth_error_Some; congruence).
  split; [rewrite upd_length; lia|]. split.
  - intros c x Hc H. split; auto. rewrite upd_nth_error_other by congruence. auto.
  - intros c x H Hl. destruct (Nat.eq_dec b c) as [->|Hne]; [auto|].
    rewrite upd_nth_error_other in H by auto. right. split; [congruence|auto].
Qed.

Lemma write_end m v es e : vec_ok (m_heap m) v es -> a_len v < a_cap v ->
  exists m', cell_write m (a_ptr v) (a_len v) e = Some m' /\
    vec_ok (m_heap m') (AVec (a_ptr v) (a_cap v) (S (a_len v))) (es ++ [e]) /\
    heff (m_heap m) (m_heap m') (vblock v) (vblock v) /\ m_dropped m' = m_dropped m /\ m_next m' = m_next m.
Proof.
  intros (L & He & [[? ?]|(Hc & Hl & b & rest & P & N & R)]) Hlt; [lia|].
  unfold cell_write. rewrite P. cbn [obind]. rewrite N. cbn [obind b_live b_cells b_size b_align].
  rewrite app_length, map_length. destruct (Nat.ltb_spec (a_len v) (length es + length rest)) as [_|]; [|lia]. cbn [andb].
  eexists. split; [reflexivity|]. cbn [m_heap m_dropped m_next].
  assert (Hb : b < length (m_heap m)) by (apply nth_error_Some; congruence).
  destruct rest as [|r0 rest]; [simpl in R; lia|].
  split; [|split; [|auto]].
  - split; [rewrite app_length; cbn [length a_len]; lia|]. split; auto. right. cbn [a_cap a_ptr]. split; auto. split; auto.
    exists b, rest. split; auto. split.
    + rewrite upd_nth_error_same by auto. f_equal. f_equal. rewrite map_app. cbn [map]. rewrite <- app_assoc. cbn [app].
      rewrite <- L. clear. induction es as [|y l IH]; simpl; auto. f_equal. exact IH.
    + rewrite app_length. cbn [length] in *. lia.
  - rewrite vblock_cap by auto. rewrite P. eapply heff_upd. exact N.
Qed.

Lemma write_mid m v es e j : vec_ok (m_heap m) v es -> j < a_len v ->
  exists m', cell_write m (a_ptr v) j e = Some m' /\
    vec_ok (m_heap m') v (upd j e es) /\
    heff (m_heap m) (m_heap m') (vblock v) (vblock v) /\ m_dropped m' = m_dropped m /\ m_next m' = m_next m.
Proof.
  intros (L & He & [[? ?]|(Hc & Hl & b & rest & P & N & R)]) Hlt; [lia|].
  unfold cell_write. rewrite P. cbn [obind]. rewrite N. cbn [obind b_live b_cells b_size b_align].
  rewrite app_length, map_length. destruct (Nat.ltb_spec j (length es + length rest)) as [_|]; [|lia]. cbn [andb].
  eexists. split; [reflexivity|]. cbn [m_heap m_dropped m_next].
  assert (Hb : b < length (m_heap m)) by (apply nth_error_Some; congruence).
  split; [|split; [|auto]].
  - split; [rewrite upd_length; auto|]. split; auto. right. split; auto. split; auto.
    exists b, rest. split; auto. split.
    + rewrite upd_nth_error_same by auto. f_equal. f_equal. rewrite <- L in Hlt. clear -Hlt.
      revert j Hlt. induction es as [|y l IH]; intros [|j] Hlt; simpl in *; try lia; auto. f_equal. apply IH. lia.
    + rewrite upd_length. auto.
  - rewrite vblock_cap by auto. rewrite P. eapply heff_upd. exact N.
Qed.

(** The result of a call on a vector: new contents, only its own block changed, the
    identities of the rest [R] untouched. *)
Definition good (R : list nat) m v m' v' (vals : list V) : Prop :=
  exists es', vec_ok (m_heap m') v' es' /\ map snd es' = vals /\ heff (m_heap m) (m_heap m') (vblock v) (vblock v') /\
    bal m' (R ++ map fst es').

Lemma push_ok R m v es e ok : 1 <= umax p -> vec_ok (m_heap m) v es -> bal m (fst e :: R ++ map fst es) ->
  match a_push p m v e ok with
  | Ret (m', v') => good R m v m' v' (map snd es ++ [snd e])
  | Pan (m', v') => v' = v /\ m_heap m' = m_heap m /\ bal m' (R ++ map fst es) /\ (ok = false \/ too_big p (a_len v + 1))
  | Undef u => u = UBReallocSize /\ too_big p (a_len v + 1)
  end.
Proof.
  intros HU Hv HB. unfold a_push. pose proof (reserve_ok m v es 1 ok HU Hv) as HR.
  destruct (a_reserve p m v 1 ok) as [[m1 v1]|[m1 v1]|u].
  - destruct HR as (A & B & C & D & E & F).
    pose proof (vec_cap_bound _ _ _ HU Hv). pose proof (vec_len_cap _ _ _ Hv).
    destruct (write_end m1 v1 es e A ltac:(lia)) as (m2 & -> & G1 & G2 & G3 & G4).
    exists (es ++ [e]). split; auto. split; [rewrite map_app; reflexivity|]. split.
    + eapply heff_trans; [exact B|]. exact G2.
    + rewrite map_app. cbn [map]. apply (bal_same m); [congruence|congruence|]. eapply bal_perm; [|exact HB].
      rewrite app_assoc. apply Permutation_cons_append.
  - destruct HR as (-> & -> & HR). unfold unwind_drop. destruct (drop_elem_ok m e _ HB) as (m2 & -> & Hh & B2).
    split; auto.
  - exact HR.
Qed.

Lemma vec_ok_heap h h' v es : (forall b blk, vblock v = Some b -> nth_error h b = Some blk -> nth_error h' b = Some blk) ->
  vec_ok h v es -> vec_ok h' v es.
Proof.
  intros H (L & He & [?|(Hc & Hl & b & rest & P & N & R)]); split; auto; split; auto.
  right. split; auto. split; auto. exists b, rest. split; auto. split; auto. apply H; auto. rewrite vblock_cap; auto.
Qed.

Lemma extend_ok R : forall n m v es clones e, vec_ok (m_heap m) v es -> 1 <= n -> a_len v + n <= a_cap v ->
  bal m (fst e :: R ++ map fst es) ->
  match a_extend p m v n clones e with
  | Ret (m', v') => good R m v m' v' (map snd es ++ repeat (snd e) n)
  | Pan (m', v') => good R m v m' v' (map snd es ++ repeat (snd e) clones) /\ clones + 1 < n
  | Undef _ => False
  end.
Proof.
  induction n as [|n IH]; intros m v es clones e Hv Hn Hc HB; [lia|].
  destruct n as [|n].
  - cbn [a_extend]. destruct (write_end m v es e Hv ltac:(lia)) as (m2 & -> & G1 & G2 & G3 & G4).
    exists (es ++ [e]). split; auto. split; [rewrite map_app; reflexivity|]. split; [exact G2|].
    rewrite map_app. cbn [map]. apply (bal_same m); auto. eapply bal_perm; [|exact HB].
    rewrite app_assoc. apply Permutation_cons_append.
  - destruct clones as [|clones].
    + cbn [a_extend]. unfold unwind_drop. destruct (drop_elem_ok m e _ HB) as (m2 & -> & Hh & B2).
      split; [|lia]. exists es. rewrite Hh. split; auto. split; [cbn; rewrite app_nil_r; reflexivity|]. split; [apply heff_refl|auto].
    + change (a_extend p m v (S (S n)) (S clones) e) with
        (let '(c, m) := fresh m (snd e) in
         match cell_write m (a_ptr v) (a_len v) c with
         | None => Undef UBAccess
         | Some m => a_extend p m (AVec (a_ptr v) (a_cap v) (S (a_len v))) (S n) clones e
         end).
      destruct (fresh m (snd e)) as [c m1] eqn:Ef.
      assert (Hm1 : m_heap m1 = m_heap m) by (unfold fresh in Ef; injection Ef as _ <-; reflexivity).
      assert (Hc1 : snd c = snd e /\ bal m1 (fst c :: fst e :: R ++ map fst es)).
      { pose proof (fresh_bal m (snd e) _ HB) as X. rewrite Ef in X. cbn [snd] in X.
        unfold fresh in Ef. injection Ef as <- _. split; auto. }
      destruct Hc1 as [Hs B1]. rewrite <- Hm1 in Hv.
      destruct (write_end m1 v es c Hv ltac:(lia)) as (m2 & -> & G1 & G2 & G3 & G4).
      assert (B2 : bal m2 (fst e :: R ++ map fst (es ++ [c]))).
      { apply (bal_same m1); auto. eapply bal_perm; [|exact B1]. rewrite map_app. cbn [map].
        rewrite perm_swap. constructor. rewrite app_assoc. apply Permutation_cons_append. }
      specialize (IH m2 (AVec (a_ptr v) (a_cap v) (S (a_len v))) (es ++ [c]) clones e G1 ltac:(lia) ltac:(cbn [a_len a_cap]; lia) B2).
      assert (VB : vblock (AVec (a_ptr v) (a_cap v) (S (a_len v))) = vblock v) by reflexivity.
      assert (T : forall m' v' k, good R m2 (AVec (a_ptr v) (a_cap v) (S (a_len v))) m' v' (map snd (es ++ [c]) ++ repeat (snd e) k) ->
         good R m v m' v' (map snd es ++ repeat (snd e) (S k))).
      { intros m' v' k (es' & Q1 & Q2 & Q3 & Q4). exists es'. split; auto. split; [|split; auto].
        - rewrite Q2, map_app, <- app_assoc. cbn [map app repeat]. rewrite Hs. reflexivity.
        - rewrite VB in Q3. rewrite <- Hm1. eapply heff_trans; eauto. }
      destruct (a_extend p m2 (AVec (a_ptr v) (a_cap v) (S (a_len v))) (S n) clones e) as [[m' v']|[m' v']|u].
      * apply T. exact IH.
      * destruct IH as [IH1 IH2]. split; [apply T; exact IH1|lia].
      * exact IH.
Qed.

Lemma truncate_ok R m v es n : vec_ok (m_heap m) v es -> bal m (R ++ map fst es) ->
  exists m' v', a_truncate p m v n = Ret (m', v') /\ good R m v m' v' (firstn n (map snd es)).
Proof.
  intros Hv HB. unfold a_truncate. pose proof Hv as (L & He & Hc). destruct (Nat.ltb_spec (a_len v) n) as [Hn|Hn].
  - exists m, v. split; auto. exists es. split; auto. split; [|split; [apply heff_refl|auto]].
    rewrite firstn_all2; auto. rewrite map_length. change (length es <= n). lia.
  - destruct (drop_cells_ok (a_ptr v) (skipn n es) m n (R ++ map fst (firstn n es))) as (m' & E & Hh & B').
    + intros k Hk. rewrite skipn_length in Hk. rewrite (vec_read m v es) by (auto; lia).
      clear. revert n. induction es as [|y l IH]; intros [|n]; simpl; auto. destruct k; auto. 
    + eapply bal_perm; [|exact HB]. rewrite <- (firstn_skipn n es) at 1. rewrite map_app.
      rewrite app_assoc, Permutation_app_comm. reflexivity.
    + rewrite skipn_length, L in E. rewrite E. eexists. eexists. split; [reflexivity|].
      exists (firstn n es). rewrite Hh. split; [|split; [|split]].
      * split; [rewrite firstn_length; cbn [a_len]; lia|]. split; auto. cbn [a_cap a_len a_ptr].
        destruct Hc as [[? ?]|(Hc & Hl & b & rest & P & N & Q)]; [left; lia|]. right. split; auto. split; auto.
        exists b, (map Some (skipn n es) ++ rest). split; auto. split.
        -- rewrite N. rewrite app_assoc, <- map_app, firstn_skipn. reflexivity.
        -- rewrite app_length, map_length, firstn_length, skipn_length. lia.
      * rewrite firstn_map. reflexivity.
      * apply heff_refl.
      * exact B'.
Qed.

Lemma drop_ok R m v es : vec_ok (m_heap m) v es -> bal m (R ++ map fst es) ->
  exists m', a_drop p m v = Ret m' /\ heff (m_heap m) (m_heap m') (vblock v) None /\ bal m' R.
Proof.
  intros Hv HB. pose proof Hv as (L & He & Hc). unfold a_drop. destruct (Nat.eqb_spec (a_cap v) 0) as [Hz|Hz]; cbn [negb andb].
  - exists m. split; auto. unfold vblock. rewrite Hz. cbn. split; [apply heff_refl|].
    assert (es = []). { pose proof (vec_len_cap _ _ _ Hv). destruct es; auto. simpl in L. lia. }
    subst es. rewrite app_nil_r in HB. exact HB.
  - destruct (Nat.eqb_spec (esize p) 0) as [?|_]; [lia|]. cbn [negb].
    destruct (pop_all_ok (a_ptr v) es (a_len v) m R) as (m' & E & Hh & B').
    + lia.
    + intros k Hk. apply vec_read; auto. lia.
    + rewrite firstn_all2 by lia. eapply bal_perm; [|exact HB]. apply Permutation_app_comm.
    + rewrite E. destruct Hc as [[? ?]|(Hc & Hl & b & rest & P & N & Q)]; [lia|].
      rewrite Hl. cbn [negb]. unfold block_with. rewrite P, Hh. cbn [obind]. rewrite N. cbn [obind b_live b_size b_align].
      rewrite !Nat.eqb_refl. cbn [andb]. eexists. split; [reflexivity|]. cbn [m_heap]. split.
      * rewrite vblock_cap by auto. rewrite P.
        assert (Hb : b < length (m_heap m)) by (apply nth_error_Some; congruence).
        split; [rewrite upd_length; lia|]. split.
        -- intros c x Hx H. split; [|discriminate]. rewrite upd_nth_error_other by congruence. auto.
        -- intros c x H Hx. destruct (Nat.eq_dec b c) as [->|Hne].
           ++ rewrite upd_nth_error_same in H by auto. injection H as <-. discriminate Hx.
           ++ rewrite upd_nth_error_other in H by auto. right. split; [congruence|auto].
      * intros H. exact (B' H).
Qed.

Lemma push_all_ok R : 1 <= umax p -> forall l m v es clones ok, vec_ok (m_heap m) v es -> bal m (R ++ map fst es) ->
  match a_push_all p m v l clones ok with
  | Ret (m', Some v') => good R m v m' v' (map snd es ++ l)
  | Ret (_, None) => False
  | Pan (m', _) => heff (m_heap m) (m_heap m') (vblock v) None /\ bal m' R /\
      (ok = false \/ clones < length l \/ too_big p (length es + length l))
  | Undef u => u = UBReallocSize /\ too_big p (length es + length l)
  end.
Proof.
  intros HU. induction l as [|x l IH]; intros m v es clones ok Hv HB; cbn [a_push_all].
  - exists es. rewrite app_nil_r. split; auto. split; auto. split; [apply heff_refl|auto].
  - destruct clones as [|clones].
    + destruct (drop_ok R m v es Hv HB) as (m' & -> & A & B). split; auto. split; auto. right. left. simpl. lia.
    + destruct (fresh m x) as [e m1] eqn:Ef.
      assert (Hm1 : m_heap m1 = m_heap m) by (unfold fresh in Ef; injection Ef as _ <-; reflexivity).
      assert (Hc1 : snd e = x /\ bal m1 (fst e :: R ++ map fst es)).
      { pose proof (fresh_bal m x _ HB) as X. rewrite Ef in X. cbn [snd] in X.
        unfold fresh in Ef. injection Ef as <- _. split; auto. }
      destruct Hc1 as [Hs B1]. rewrite <- Hm1 in Hv. pose proof Hv as (L & _ & _).
      pose proof (push_ok R m1 v es e ok HU Hv B1) as HP. destruct (a_push p m1 v e ok) as [[m2 v2]|[m2 v2]|u].
      * destruct HP as (es2 & Q1 & Q2 & Q3 & Q4). specialize (IH m2 v2 es2 clones ok Q1 Q4). rewrite Hm1 in Q3.
        assert (L2 : length es2 + length l = length es + length (x :: l)).
        { apply (f_equal (@length V)) in Q2. rewrite app_length, !map_length in Q2. unfold elem in *. simpl in *. lia. }
        destruct (a_push_all p m2 v2 l clones ok) as [[m3 [v3|]]|[m3 o3]|u].
        -- destruct IH as (es3 & T1 & T2 & T3 & T4). exists es3. split; auto. split; [|split; auto].
           ++ rewrite T2, Q2, <- app_assoc. cbn [app]. rewrite Hs. reflexivity.
           ++ eapply heff_trans; eauto.
        -- exact IH.
        -- destruct IH as (T1 & T2 & T3). split; [eapply heff_trans; eauto|]. split; auto. rewrite L2 in T3. simpl length. lia || (destruct T3 as [?|[?|?]]; auto; right; left; lia).
        -- rewrite L2 in IH. exact IH.
      * destruct HP as (-> & Hh & B2 & HR). rewrite <- Hh in Hv.
        destruct (drop_ok R m2 v es Hv B2) as (m' & -> & A & B). split; [rewrite <- Hm1, <- Hh; exact A|]. split; auto.
        destruct HR as [?|HR]; auto. right. right. eapply too_big_mono; [|exact HR]. simpl. lia.
      * destruct HP as [-> HR]. split; auto. eapply too_big_mono; [|exact HR]. simpl. lia.
Qed.

Lemma clone_ok m v es ok : vec_ok (m_heap m) v es ->
  match a_clone p m v ok with
  | Ret (m', Some v') => vec_ok (m_heap m') v' es /\ heff (m_heap m) (m_heap m') None (vblock v') /\
      m_dropped m' = m_dropped m /\ m_next m' = m_next m
  | Ret (_, None) => False
  | Pan (m', _) => m' = m /\ (unsupported p \/ ok = false \/ too_big p (a_len v))
  | Undef _ => False
  end.
Proof.
  intros Hv. pose proof Hv as (L & He & Hc). unfold a_clone. pose proof (with_capacity_ok m (a_len v) ok) as HW.
  destruct (a_with_capacity p m (a_len v) ok) as [[m1 [r|]]|[m1 o]|u]; try (exact HW).
  destruct HW as (A & B & C & D & E). unfold cells_copy. destruct (Nat.eqb_spec (a_len v) 0) as [Hz|Hz].
  - assert (es = []) by (destruct es; auto; simpl in L; lia). subst es. split; auto.
    destruct A as (_ & A2 & A3). split; [auto|]. split; auto. cbn [a_cap a_len a_ptr]. rewrite Hz.
    destruct A3 as [[? _]|A3]; [left; auto|right; exact A3].
  - destruct Hc as [[? ?]|(Hc & Hl & b & rest & P & N & Q)]; [lia|]. rewrite P. cbn [obind].
    destruct A as (_ & _ & [[? ?]|(Ac & Al & b' & rest' & P' & N' & Q')]); [lia|]. rewrite P'. cbn [obind].
    rewrite vblock_cap in B by auto. rewrite P' in B. pose proof B as (B1 & B2 & B3).
    destruct (B2 b _ ltac:(congruence) N) as [N1 Hne]. rewrite N1. cbn [obind]. rewrite N'. cbn [obind b_live b_cells b_size b_align].
    rewrite !app_length, !map_length. cbn [length] in *.
    destruct (Nat.leb_spec (a_len v) (length es + length rest)) as [_|]; [|lia].
    destruct (Nat.leb_spec (a_len v) (0 + length rest')) as [_|]; [|lia]. cbn [andb].
    assert (Hb' : b' < length (m_heap m1)) by (apply nth_error_Some; congruence).
    split; [|split; [|auto]].
    + split; auto. split; auto. right. cbn [a_cap a_len a_ptr m_heap]. split; auto. split; auto.
      exists b', (skipn (a_len v) rest'). split; auto. split.
      * rewrite upd_nth_error_same by auto. f_equal. f_equal. rewrite firstn_app, map_length, L, Nat.sub_diag.
        rewrite firstn_all2 by (rewrite map_length; lia). cbn [firstn]. rewrite app_nil_r. reflexivity.
      * rewrite skipn_length. lia.
    + unfold vblock. cbn [a_cap a_ptr m_heap]. destruct (a_cap r); [lia|]. cbn [Nat.eqb].
      eapply heff_trans; [exact B|]. eapply heff_upd. exact N'.
Qed.

(** ** Programs *)

Definition toks (o : option (list (elem V))) : list nat := match o with Some es => map fst es | None => [] end.
Definition all_toks (ess : list (option (list (elem V)))) : list nat := concat (map toks ess).

Record winv (w : aworld V) (ess : list (option (list (elem V)))) : Prop := {
  wv_vecs : Forall2 (fun o o' => match o, o' with Some v, Some es => vec_ok (m_heap (w_mem w)) v es | None, None => True | _, _ => False end)
              (w_vecs w) ess;
  wv_dist : forall i j vi vj b, nth_error (w_vecs w) i = Some (Some vi) -> nth_error (w_vecs w) j = Some (Some vj) ->
     vblock vi = Some b -> vblock vj = Some b -> i = j;
  wv_live : forall b blk, nth_error (m_heap (w_mem w)) b = Some blk -> b_live blk = true ->
     exists i v, nth_error (w_vecs w) i = Some (Some v) /\ vblock v = Some b;
  wv_bal : bal (w_mem w) (map fst (w_held w) ++ all_toks ess) }.

Lemma Forall2_nth_error {A B} (P : A -> B -> Prop) l l' i a : Forall2 P l l' -> nth_error l i = Some a ->
  exists b, nth_error l' i = Some b /\ P a b.
Proof. intros H. revert i. induction H as [|x y l l' Hxy H IH]; intros [|i] E; simpl in *; try discriminate; [injection E as <-; eauto|auto]. Qed.

Lemma all_toks_split ess : forall i x, nth_error ess i = Some x ->
  exists O, forall y, Permutation (all_toks (upd i y ess)) (O ++ toks y) /\ Permutation (all_toks ess) (O ++ toks x).
Proof.
  induction ess as [|z ess IH]; intros [|i] x H; simpl in H; try discriminate.
  - injection H as ->. exists (all_toks ess). intros y. unfold all_toks. cbn [map concat upd]. split; apply Permutation_app_comm.
  - destruct (IH i x H) as [O HO]. exists (toks z ++ O). intros y. destruct (HO y) as [A B]. unfold all_toks in *. cbn [map concat upd].
    rewrite A, B, <- !app_assoc. split; reflexivity.
Qed.

Lemma vec_block_in_heap h v es b : vec_ok h v es -> vblock v = Some b -> exists blk, nth_error h b = Some blk.
Proof.
  intros (_ & _ & [[Hz _]|(Hc & _ & b' & rest & P & N & _)]) H.
  - unfold vblock in H. rewrite Hz in H. discriminate.
  - rewrite vblock_cap, P in H by auto. injection H as <-. eauto.
Qed.

Lemma winv_get w ess i v : winv w ess -> nth_error (w_vecs w) i = Some (Some v) ->
  exists es O, nth_error ess i = Some (Some es) /\ vec_ok (m_heap (w_mem w)) v es /\
    bal (w_mem w) (map fst (w_held w) ++ O ++ map fst es) /\
    (forall m' v' es' held', vec_ok (m_heap m') v' es' -> heff (m_heap (w_mem w)) (m_heap m') (vblock v) (vblock v') ->
       bal m' (map fst held' ++ O ++ map fst es') ->
       winv (AWorld m' (upd i (Some v') (w_vecs w)) held') (upd i (Some es') ess)) /\
    (forall m', heff (m_heap (w_mem w)) (m_heap m') (vblock v) None -> bal m' (map fst (w_held w) ++ O) ->
       winv (AWorld m' (upd i None (w_vecs w)) (w_held w)) (upd i None ess)).
Proof.
  intros [W1 W2 W3 W4] Hi. destruct (Forall2_nth_error _ _ _ _ _ W1 Hi) as ([es|] & He & Hv); [|contradiction].
  destruct (all_toks_split ess i _ He) as [O HO]. exists es, O. split; auto. split; auto.
  assert (Hlen : i < length (w_vecs w)) by (apply nth_error_Some; congruence).
  split. { eapply bal_perm; [|exact W4]. apply Permutation_app_head. apply (HO None). }
  assert (HF : forall m' ov oes o', heff (m_heap (w_mem w)) (m_heap m') (vblock v) o' ->
    match ov, oes with Some v', Some es' => vec_ok (m_heap m') v' es' | None, None => True | _, _ => False end ->
    Forall2 (fun o o' => match o, o' with Some v, Some es => vec_ok (m_heap m') v es | None, None => True | _, _ => False end)
      (upd i ov (w_vecs w)) (upd i oes ess)).
  { intros m' ov oes o' (_ & HE & _) Hov.
    assert (HE' : forall j vj esj, j <> i -> nth_error (w_vecs w) j = Some (Some vj) -> vec_ok (m_heap (w_mem w)) vj esj -> vec_ok (m_heap m') vj esj).
    { intros j vj esj Hne Hj Hvj. eapply vec_ok_heap; [|exact Hvj]. intros b blk Hb Hn. apply HE; auto.
      intros Eq. apply Hne. symmetry in Eq. eapply W2; eauto. }
    clear -W1 Hov HE' Hi. revert i Hi HE'. induction W1 as [|o o2 l l' Ho W1 IH]; intros [|i] Hi HE'; simpl in *; try discriminate.
    - constructor; [exact Hov|]. clear -W1 HE'.
      assert (G : forall k l l', Forall2 (fun o o' => match o, o' with Some v, Some es => vec_ok (m_heap (w_mem w)) v es | None, None => True | _, _ => False end) l l' ->
        (forall j vj esj, nth_error l j = Some (Some vj) -> vec_ok (m_heap (w_mem w)) vj esj -> vec_ok (m_heap m') vj esj) -> k = 0 ->
        Forall2 (fun o o' => match o, o' with Some v, Some es => vec_ok (m_heap m') v es | None, None => True | _, _ => False end) l l').
      { intros k l0 l0' F. induction F as [|x y l0 l0' Hxy F IH]; intros H Hk; constructor.
        - destruct x, y; auto. apply (H 0 a l1); auto.
        - apply IH; auto. intros j vj esj Hj. apply (H (S j)). exact Hj. }
      apply (G 0); auto. intros j vj esj Hj. apply (HE' (S j)); auto.
    - constructor.
      + destruct o as [v0|], o2 as [e0|]; auto. apply (HE' 0 v0 e0); auto.
      + apply IH; auto. intros j vj esj Hj. apply (HE' (S j)). auto. }
  split.
  - intros m' v' es' held' Hv' HE HB. constructor; cbn [w_mem w_vecs w_held].
    + eapply HF; [exact HE|exact Hv'].
    + intros j k vj vk b Hj Hk Bj Bk. destruct HE as (_ & HE & _).
      assert (X : forall j vj, j <> i -> nth_error (w_vecs w) j = Some (Some vj) -> vblock vj = Some b -> vblock v' <> Some b).
      { intros j0 v0 Hne H0 Hb0 E. destruct (Forall2_nth_error _ _ _ _ _ W1 H0) as ([e0|] & He0 & Hv0); [|contradiction].
        destruct (vec_block_in_heap _ _ _ _ Hv0 Hb0) as [blk Hblk].
        destruct (HE b blk) as [_ Hn]; auto. intros Eq. apply Hne. symmetry in Eq. eapply W2; eauto. }
      destruct (Nat.eq_dec i j) as [<-|Hj'], (Nat.eq_dec i k) as [<-|Hk']; auto.
      * rewrite upd_nth_error_same in Hj by auto. injection Hj as <-. rewrite upd_nth_error_other in Hk by auto.
        exfalso. eapply (X k vk); eauto.
      * rewrite upd_nth_error_same in Hk by auto. injection Hk as <-. rewrite upd_nth_error_other in Hj by auto.
        exfalso. eapply (X j vj); eauto.
      * rewrite upd_nth_error_other in Hj, Hk by auto. eapply W2; eauto.
    + intros b blk Hb Hl. destruct HE as (_ & _ & HE). destruct (HE b blk Hb Hl) as [E|[Hn Hb0]].
      * exists i, v'. split; [apply upd_nth_error_same; auto|auto].
      * destruct (W3 b blk Hb0 Hl) as (j & vj & Hj & Bj). exists j, vj. split; auto.
        rewrite upd_nth_error_other; auto. intros <-. rewrite Hi in Hj. injection Hj as <-. congruence.
    + eapply bal_perm; [|exact HB]. apply Permutation_app_head. symmetry. apply (HO (Some es')).
  - intros m' HE HB. constructor; cbn [w_mem w_vecs w_held].
    + eapply HF; [exact HE|exact I].
    + intros j k vj vk b Hj Hk Bj Bk.
      destruct (Nat.eq_dec i j) as [<-|Hj']; [rewrite upd_nth_error_same in Hj by auto; discriminate|].
      destruct (Nat.eq_dec i k) as [<-|Hk']; [rewrite upd_nth_error_same in Hk by auto; discriminate|].
      rewrite upd_nth_error_other in Hj, Hk by auto. eapply W2; eauto.
    + intros b blk Hb Hl. destruct HE as (_ & _ & HE). destruct (HE b blk Hb Hl) as [E|[Hn Hb0]]; [discriminate|].
      destruct (W3 b blk Hb0 Hl) as (j & vj & Hj & Bj). exists j, vj. split; auto.
      rewrite upd_nth_error_other; auto. intros <-. rewrite Hi in Hj. injection Hj as <-. congruence.
    + eapply bal_perm; [|exact HB]. apply Permutation_app_head. symmetry. rewrite <- (app_nil_r O) at 1. apply (HO None).
Qed.

Lemma Forall2_mono {A B} (P Q : A -> B -> Prop) l l' : (forall a b, In a l -> P a b -> Q a b) -> Forall2 P l l' -> Forall2 Q l l'.
Proof. intros H F. induction F; constructor; auto. - apply H; simpl; auto. - apply IHF. intros a b Ha. apply H. simpl; auto. Qed.

Lemma winv_add w ess m' v' es' : winv w ess -> vec_ok (m_heap m') v' es' -> heff (m_heap (w_mem w)) (m_heap m') None (vblock v') ->
  bal m' (map fst (w_held w) ++ all_toks ess ++ map fst es') ->
  winv (AWorld m' (w_vecs w ++ [Some v']) (w_held w)) (ess ++ [Some es']).
Proof.
  intros [W1 W2 W3 W4] Hv HE HB. pose proof HE as (_ & HE1 & HE2). constructor; cbn [w_mem w_vecs w_held].
  - apply Forall2_app; [|constructor; auto]. eapply Forall2_mono; [|exact W1]. intros o o' _ H. destruct o, o'; auto.
    eapply vec_ok_heap; [|exact H]. intros b blk _ Hn. apply HE1; auto. discriminate.
  - assert (X : forall j vj b, nth_error (w_vecs w) j = Some (Some vj) -> vblock vj = Some b -> vblock v' <> Some b).
    { intros j vj b Hj Hb E. destruct (Forall2_nth_error _ _ _ _ _ W1 Hj) as ([e0|] & He0 & Hv0); [|contradiction].
      destruct (vec_block_in_heap _ _ _ _ Hv0 Hb) as [blk Hblk]. destruct (HE1 b blk) as [_ Hn]; auto. discriminate. }
    assert (Y : forall j vj, nth_error (w_vecs w ++ [Some v']) j = Some (Some vj) ->
       nth_error (w_vecs w) j = Some (Some vj) \/ j = length (w_vecs w) /\ vj = v').
    { intros j vj H. destruct (Nat.lt_ge_cases j (length (w_vecs w))).
      - rewrite nth_error_app1 in H by auto. auto.
      - rewrite nth_error_app2 in H by auto. destruct (j - length (w_vecs w)) eqn:E; simpl in H.
        + injection H as ->. right. split; auto. lia.
        + destruct n; discriminate. }
    intros j k vj vk b Hj Hk Bj Bk. destruct (Y _ _ Hj) as [Hj'|[-> ->]], (Y _ _ Hk) as [Hk'|[-> ->]]; auto.
    + eapply W2; eauto.
    + exfalso. eapply X; eauto.
    + exfalso. eapply X; eauto.
  - intros b blk Hb Hl. destruct (HE2 b blk Hb Hl) as [E|[_ Hb0]].
    + exists (length (w_vecs w)), v'. split; [apply nth_app_last|auto].
    + destruct (W3 b blk Hb0 Hl) as (j & vj & Hj & Bj). exists j, vj. split; auto.
      rewrite nth_error_app1; auto. apply nth_error_Some. congruence.
  - eapply bal_perm; [|exact HB]. apply Permutation_app_head. unfold all_toks. rewrite map_app, concat_app. cbn [map concat toks].
    rewrite app_nil_r. reflexivity.
Qed.

Lemma winv_mem w ess m' : winv w ess -> heff (m_heap (w_mem w)) (m_heap m') None None ->
  bal m' (map fst (w_held w) ++ all_toks ess) -> winv (AWorld m' (w_vecs w) (w_held w)) ess.
Proof.
  intros [W1 W2 W3 W4] (_ & HE1 & HE2) HB. constructor; cbn [w_mem w_vecs w_held]; auto.
  - eapply Forall2_mono; [|exact W1]. intros o o' _ H. destruct o, o'; auto.
    eapply vec_ok_heap; [|exact H]. intros b blk _ Hn. apply HE1; auto. discriminate.
  - intros b blk Hb Hl. destruct (HE2 b blk Hb Hl) as [E|[_ Hb0]]; [discriminate|]. eauto.
Qed.

Definition plain_of (ess : list (option (list (elem V)))) : plain V := map (option_map (map snd)) ess.

Lemma plain_get ess i es : nth_error ess i = Some (Some es) -> nth_error (plain_of ess) i = Some (Some (map snd es)).
Proof. intros H. unfold plain_of. apply (map_nth_error (option_map (map snd))) in H. exact H. Qed.
Lemma map_upd {A B} (f : A -> B) i x l : map f (upd i x l) = upd i (f x) (map f l).
Proof. revert i. induction l as [|y l IH]; intros [|i]; simpl; auto. f_equal. auto. Qed.
Lemma plain_upd ess i x : plain_of (upd i x ess) = upd i (option_map (map snd) x) (plain_of ess).
Proof. apply map_upd. Qed.
Lemma upd_self {A} i (x : A) l : nth_error l i = Some x -> upd i x l = l.
Proof. revert i. induction l as [|y l IH]; intros [|i] H; simpl in *; try discriminate; [congruence|]. f_equal. auto. Qed.

Lemma winv_missing w ess i : winv w ess -> (forall v, nth_error (w_vecs w) i <> Some (Some v)) ->
  forall l, nth_error (plain_of ess) i <> Some (Some l).
Proof.
  intros [W1 _ _ _] H l E.
  assert (F : Forall2 (fun (a : option (list V)) (b : option avec) => match a, b with Some _, None => False | _, _ => True end) (plain_of ess) (w_vecs w)).
  { clear -W1. unfold plain_of. induction W1 as [|x y l l' H W1 IH]; cbn [map]; constructor; auto. destruct x, y; cbn; auto. }
  destruct (Forall2_nth_error _ _ _ _ _ F E) as ([v|] & Hv & X); [|exact X]. exact (H v Hv).
Qed.

End A.
