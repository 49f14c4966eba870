(** Lemmas about the sub-circuit caches. *)
From Coq Require Import List Bool Arith Lia Permutation.
Require Import Verif.Prelude Verif.PreludeProofs Verif.SubCircModel Verif.SubCircSpec.
Import ListNotations.

Section Into.
Context {C : Type} (dflt : C).

Record ptrs_ok (H0 heap : list C) (ptrs : list (nat * nat)) (cs : list C) : Prop := {
  po_some : forall p i, ptr_get p ptrs = Some i -> nth_error cs i = Some (nth p H0 dflt);
  po_inj : forall p q i, ptr_get p ptrs = Some i -> ptr_get q ptrs = Some i -> p = q;
  po_none : forall p, ptr_get p ptrs = None -> nth_error heap p = nth_error H0 p;
  po_len : length heap = length H0 }.

Lemma nth_upd_other (l : list C) p q x : p <> q -> nth_error (upd p x l) q = nth_error l q.
Proof. revert p q. induction l as [|y l IH]; intros [|p] [|q] H; cbn; auto; try lia. Qed.

Lemma sc_into_ok H0 cells : forall heap ptrs cs cm, ptrs_ok H0 heap ptrs cs ->
  exists heap' ptrs' cs' is, sc_into dflt cells heap ptrs cs cm = (heap', cs', cm ++ is) /\ ptrs_ok H0 heap' ptrs' cs' /\
    Forall2 (fun p i => ptr_get p ptrs' = Some i) cells is /\
    (forall p i, ptr_get p ptrs = Some i -> ptr_get p ptrs' = Some i) /\
    (forall p, ptr_get p ptrs = None -> ~ In p cells -> ptr_get p ptrs' = None).
Proof.
  induction cells as [|p cells IH]; intros heap ptrs cs cm HO; cbn [sc_into].
  - exists heap, ptrs, cs, []. rewrite app_nil_r. auto 6.
  - destruct (ptr_get p ptrs) as [i|] eqn:Ep.
    + destruct (IH heap ptrs cs (cm ++ [i]) HO) as (h & pt & cs' & is & E & O & F & X & N).
      exists h, pt, cs', (i :: is). rewrite E, <- app_assoc. split; auto. split; auto. split; [constructor; auto|]. split; auto.
      intros q Hq Hn. apply N; auto. intros H. apply Hn. cbn; auto.
    + destruct HO as [P1 P2 P3 P4].
      destruct (IH (upd p dflt heap) ((p, length cs) :: ptrs) (cs ++ [nth p heap dflt]) (cm ++ [length cs])) as (h & pt & cs' & is & E & O & F & X & N).
      { split.
        - intros q i H. cbn [ptr_get] in H. destruct (Nat.eqb_spec q p) as [->|Hq].
          + injection H as <-. rewrite nth_error_app2, Nat.sub_diag by lia. cbn. f_equal.
            specialize (P3 _ Ep). rewrite <- (nth_default_eq p heap), <- (nth_default_eq p H0). unfold nth_default. rewrite P3. auto.
          + rewrite nth_error_app1; auto. apply nth_error_Some. rewrite (P1 _ _ H). discriminate.
        - assert (LT : forall q i, ptr_get q ptrs = Some i -> i < length cs) by (intros q i H; apply nth_error_Some; rewrite (P1 _ _ H); discriminate).
          intros q r i H1 H2. cbn [ptr_get] in H1, H2. destruct (Nat.eqb_spec q p) as [Hq|Hq], (Nat.eqb_spec r p) as [Hr|Hr]; subst; auto.
          + injection H1 as <-. apply LT in H2. lia.
          + injection H2 as <-. apply LT in H1. lia.
          + eapply P2; eauto.
        - intros q H. cbn [ptr_get] in H. destruct (Nat.eqb_spec q p) as [Hq|Hq]; [discriminate|]. rewrite nth_upd_other by auto. auto.
        - rewrite upd_length. auto. }
      exists h, pt, cs', (length cs :: is). rewrite E, <- app_assoc. split; auto. split; auto.
      split; [constructor; auto; apply X; cbn; rewrite Nat.eqb_refl; auto|].
      split.
      * intros q i H. apply X. cbn. destruct (Nat.eqb_spec q p) as [->|]; auto. congruence.
      * intros q H Hn. apply N.
        -- cbn. destruct (Nat.eqb_spec q p) as [->|]; auto. exfalso. apply Hn. cbn; auto.
        -- intros Hi. apply Hn. cbn; auto.
Qed.

Lemma sc_into_start H0 cells : exists heap' ptrs' cs' is, sc_into dflt cells H0 [] [] [] = (heap', cs', is) /\
    Forall2 (fun p i => ptr_get p ptrs' = Some i) cells is /\
    (forall p i, ptr_get p ptrs' = Some i -> nth_error cs' i = Some (nth p H0 dflt)) /\
    (forall p q i, ptr_get p ptrs' = Some i -> ptr_get q ptrs' = Some i -> p = q) /\
    length heap' = length H0 /\ (forall p, ~ In p cells -> nth_error heap' p = nth_error H0 p).
Proof.
  destruct (sc_into_ok H0 cells H0 [] [] []) as (h & pt & cs & is & E & [P1 P2 P3 P4] & F & _ & N).
  { split; auto; discriminate. }
  exists h, pt, cs, is. auto 10.
Qed.
End Into.

Section Inv.
Context {C : Type} (dflt : C) (body : nat -> nat -> option C).

(** A cell with its tag holds the circuit of the tag. *)
Definition good_cell (tags : list (nat * nat)) (heap : list C) (call : nat * nat) (cell : nat) : Prop :=
  nth_error tags cell = Some call /\ exists c, nth_error heap cell = Some c /\ body (fst call) (snd call) = Some c.

Definition matches tags heap cache (L : list (nat * nat)) (b : scb) : Prop :=
  Forall2 (fun call cell => good_cell tags heap call cell /\ cache_get (fst call) (snd call) cache = Some cell) L (sb_cells b) /\
  (forall f, In f (sb_caches b) <-> calls_of f L).

Definition disj (a b : list (nat * nat)) : Prop := forall f, calls_of f a -> ~ calls_of f b.

Record scinv (s : scw C) (l : logs) : Prop := {
  i_flag : sw_flag s = false;
  i_tags : exists tags, length tags = length (sw_heap s) /\
    matches tags (sw_heap s) (sw_cache s) (fst l) (sw_global s) /\
    Forall2 (matches tags (sw_heap s) (sw_cache s)) (snd l) (sw_saved s) /\
    (forall f n cell, cache_get f n (sw_cache s) = Some cell -> good_cell tags (sw_heap s) (f, n) cell);
  i_disj : ForallOrdPairs disj (fst l :: snd l) }.

Lemma disj_sym a b : disj a b -> disj b a.
Proof. intros H f Hb Ha. exact (H f Ha Hb). Qed.

Lemma fop_perm l l' : Permutation l l' -> ForallOrdPairs disj l -> ForallOrdPairs disj l'.
Proof.
  induction 1 as [|x l l' HP IH|x y l|l1 l2 l3 _ IH1 _ IH2]; intros H; auto.
  - inversion H as [|? ? F G]; subst. constructor; auto. rewrite Forall_forall in *. intros z Hz. apply F. eapply Permutation_in; [symmetry; eauto|auto].
  - inversion H as [|? ? F G]; subst. inversion G as [|? ? F' G']; subst. inversion F as [|? ? D F'']; subst.
    constructor; [constructor; auto; apply disj_sym; auto|]. constructor; auto.
Qed.

Lemma remove_perm {A} (l : list A) k b : nth_error l k = Some b -> Permutation l (b :: firstn k l ++ skipn (S k) l).
Proof.
  revert k. induction l as [|x l IH]; intros [|k] H; try discriminate.
  - injection H as <-. cbn. auto.
  - cbn in H. cbn [firstn skipn app]. rewrite (IH k H) at 1. apply perm_swap.
Qed.

Lemma forall2_remove {A B} (P : A -> B -> Prop) l r k : Forall2 P l r -> Forall2 P (firstn k l ++ skipn (S k) l) (firstn k r ++ skipn (S k) r).
Proof.
  intros H. revert k. induction H as [|a b l r Hab H IH]; intros [|k]; cbn [firstn skipn app]; auto.
  constructor; auto. apply IH.
Qed.

Lemma forall2_nth {A B} (P : A -> B -> Prop) l r k : Forall2 P l r ->
  match nth_error l k, nth_error r k with Some a, Some b => P a b | None, None => True | _, _ => False end.
Proof. intros H. revert k. induction H; intros [|k]; cbn; auto. apply IHForall2. Qed.

Lemma forall2_impl {A B} (P Q : A -> B -> Prop) l r : (forall a b, P a b -> Q a b) -> Forall2 P l r -> Forall2 Q l r.
Proof. induction 2; constructor; auto. Qed.

Lemma matches_weaken tags heap cache tags' heap' cache' L b :
  (forall call cell, In call L -> good_cell tags heap call cell -> good_cell tags' heap' call cell) ->
  (forall f n, In (f, n) L -> cache_get f n cache' = cache_get f n cache) ->
  matches tags heap cache L b -> matches tags' heap' cache' L b.
Proof.
  intros H1 H2 [M1 M2]. split; auto. clear M2. induction M1 as [|call cell L cells [A B] M IH]; constructor.
  - split; [apply H1; cbn; auto|]. rewrite H2; auto. destruct call; cbn; auto.
  - apply IH; intros; [apply H1; cbn; auto|apply H2; cbn; auto].
Qed.

Lemma in_add_cache f g fs : In f (add_cache g fs) <-> f = g \/ In f fs.
Proof.
  unfold add_cache. destruct (existsb (Nat.eqb g) fs) eqn:E; cbn; [|intuition].
  split; auto. intros [->|H]; auto. apply existsb_exists in E. destruct E as (x & Hx & E). apply Nat.eqb_eq in E. subst. auto.
Qed.

Lemma cache_get_clear f n fs m : cache_get f n (cache_clear fs m) = if existsb (Nat.eqb f) fs then None else cache_get f n m.
Proof.
  induction m as [|[[f' n'] cell] m IH]; [cbn; destruct (existsb _ fs); auto|]. unfold cache_clear in *. cbn [filter fst cache_get].
  destruct (Nat.eqb_spec f f') as [->|Hf]; cbn [andb].
  - destruct (existsb (Nat.eqb f') fs) eqn:E; cbn [negb].
    + exact IH.
    + cbn [cache_get]. rewrite Nat.eqb_refl. cbn [andb]. destruct (n =? n'); auto.
  - destruct (existsb (Nat.eqb f') fs); cbn [negb]; auto. cbn [cache_get]. destruct (Nat.eqb_spec f f'); [congruence|]. exact IH.
Qed.

Lemma step_call f n s l : scinv s l -> body f n <> None -> (forall b, In b (snd l) -> ~ calls_of f b) ->
  exists s', sc_step dflt body s (OCall f n) = (s', RUnit) /\ scinv s' (log_step l (OCall f n)).
Proof.
  intros [HF (tags & TL & MG & MS & HC) HD] HB HS. destruct l as [g saved]. cbn [fst snd log_step] in *.
  cbn [sc_step]. unfold sc_call. rewrite HF.
  assert (HD' : ForallOrdPairs disj ((g ++ [(f, n)]) :: saved)).
  { inversion HD as [|? ? F G]; subst. constructor; auto. rewrite Forall_forall in *. intros b Hb h Hh. unfold calls_of in Hh.
    rewrite map_app, in_app_iff in Hh. destruct Hh as [Hh|[<-|[]]]; [apply (F b Hb h Hh)|apply (HS b Hb)]. }
  assert (HK : forall h b, (forall f', In f' (sb_caches b) <-> calls_of f' g) ->
    In h (add_cache f (sb_caches b)) <-> calls_of h (g ++ [(f, n)])).
  { intros h b Hb. rewrite in_add_cache. unfold calls_of. rewrite map_app, in_app_iff. cbn. rewrite (Hb h). unfold calls_of. intuition. }
  destruct MG as [MG1 MG2].
  destruct (cache_get f n (sw_cache s)) as [cell|] eqn:EC.
  - eexists. split; [reflexivity|]. split; cbn [sw_flag sw_heap sw_cache sw_global sw_saved fst snd]; auto.
    exists tags. split; auto. split; [|auto]. split.
    + cbn [sb_cells]. apply Forall2_app; auto.
    + intros h. cbn [sb_caches]. auto.
  - destruct (body f n) as [c|] eqn:EB; [|congruence]. eexists. split; [reflexivity|].
    split; cbn [sw_flag sw_heap sw_cache sw_global sw_saved fst snd]; auto.
    assert (GC : forall call cell, good_cell tags (sw_heap s) call cell -> good_cell (tags ++ [(f, n)]) (sw_heap s ++ [c]) call cell).
    { intros call cell (A & c' & B & D). split.
      - rewrite nth_error_app1; auto. apply nth_error_Some. congruence.
      - exists c'. rewrite nth_error_app1; auto. apply nth_error_Some. congruence. }
    assert (GN : good_cell (tags ++ [(f, n)]) (sw_heap s ++ [c]) (f, n) (length (sw_heap s))).
    { split; [rewrite <- TL, nth_error_app2, Nat.sub_diag by lia; auto|]. exists c. rewrite nth_error_app2, Nat.sub_diag by lia. auto. }
    assert (GG : forall f' n' cell, cache_get f' n' (sw_cache s) = Some cell ->
      cache_get f' n' (((f, n), length (sw_heap s)) :: sw_cache s) = Some cell).
    { intros f' n' cell H. cbn [cache_get]. destruct (Nat.eqb_spec f' f), (Nat.eqb_spec n' n); subst; cbn [andb]; auto. congruence. }
    assert (MW : forall L b, matches tags (sw_heap s) (sw_cache s) L b ->
      matches (tags ++ [(f, n)]) (sw_heap s ++ [c]) (((f, n), length (sw_heap s)) :: sw_cache s) L b).
    { intros L b [M1 M2]. split; auto. eapply forall2_impl; [|exact M1]. cbn beta. intros call cell [A B]. auto. }
    exists (tags ++ [(f, n)]). split; [rewrite !app_length; cbn; lia|]. split; [|split].
    + split; [|intros h; cbn [sb_caches]; auto]. cbn [sb_cells]. apply Forall2_app.
      * destruct (MW g (sw_global s) (conj MG1 MG2)) as [M _]. exact M.
      * constructor; auto. split; auto. cbn [fst snd cache_get]. rewrite !Nat.eqb_refl. auto.
    + eapply forall2_impl; [|exact MS]. auto.
    + intros f' n' cell H. cbn [cache_get] in H. destruct (Nat.eqb_spec f' f), (Nat.eqb_spec n' n); subst; cbn [andb] in H; auto.
      injection H as <-. auto.
Qed.

Lemma step_install k s l : scinv s l -> exists s', sc_step dflt body s (OInstall k) = (s', RUnit) /\ scinv s' (log_step l (OInstall k)).
Proof.
  intros [HF (tags & TL & MG & MS & HC) HD]. destruct l as [g saved]. cbn [fst snd] in *. destruct k as [k|]; cbn [sc_step log_step].
  - pose proof (forall2_nth _ _ _ k MS) as HN. destruct (nth_error saved k) as [L|] eqn:EL, (nth_error (sw_saved s) k) as [b|] eqn:Eb; try tauto.
    + eexists. split; [reflexivity|]. split; cbn [sw_flag sw_heap sw_cache sw_global sw_saved fst snd]; auto.
      * exists tags. split; auto. split; auto. split; auto. rewrite !app_assoc. apply Forall2_app; auto. apply forall2_remove. auto.
      * eapply fop_perm; [|exact HD]. rewrite (remove_perm saved k L EL) at 1. rewrite app_assoc.
        rewrite perm_swap. constructor. rewrite <- Permutation_cons_append. reflexivity.
    + exists s. split; auto. split; cbn [fst snd]; auto. exists tags. auto.
  - eexists. split; [reflexivity|]. split; cbn [sw_flag sw_heap sw_cache sw_global sw_saved fst snd]; auto.
    + exists tags. split; auto. split; [split; [constructor|intros f; cbn; tauto]|]. split; auto. apply Forall2_app; auto.
    + constructor; [apply Forall_forall; intros b _ f []|]. eapply fop_perm; [|exact HD]. apply Permutation_cons_append.
Qed.

Lemma step_drop k s l : scinv s l -> exists s', sc_step dflt body s (ODrop k) = (s', RUnit) /\ scinv s' (log_step l (ODrop k)).
Proof.
  intros [HF (tags & TL & MG & MS & HC) HD]. destruct l as [g saved]. cbn [fst snd] in *. cbn [sc_step log_step].
  pose proof (forall2_nth _ _ _ k MS) as HN. destruct (nth_error saved k) as [L|] eqn:EL, (nth_error (sw_saved s) k) as [b|] eqn:Eb; try tauto.
  - eexists. split; [reflexivity|]. split; cbn [sw_flag sw_heap sw_cache sw_global sw_saved fst snd]; auto.
    + exists tags. split; auto. split; auto. split; auto. apply forall2_remove. auto.
    + assert (P : Permutation (g :: saved) (L :: g :: firstn k saved ++ skipn (S k) saved)).
      { rewrite (remove_perm saved k L EL) at 1. apply perm_swap. }
      pose proof (fop_perm _ _ P HD) as H. inversion H; auto.
  - exists s. split; auto. apply nth_error_None in EL.
    assert (E : firstn k saved ++ skipn (S k) saved = saved) by (rewrite firstn_all2, skipn_all2, app_nil_r by lia; auto).
    rewrite E. split; cbn [fst snd]; auto. exists tags. auto.
Qed.

Lemma tags_inj tags heap a b p : good_cell tags heap a p -> good_cell tags heap b p -> a = b.
Proof. intros [A _] [B _]. congruence. Qed.

Lemma step_finish s l : scinv s l -> exists s' r, sc_step dflt body s OFinish = (s', r) /\ res_ok body l OFinish r /\ scinv s' (log_step l OFinish).
Proof.
  intros [HF (tags & TL & [MG1 MG2] & MS & HC) HD]. destruct l as [g saved]. cbn [fst snd] in *. cbn [sc_step log_step res_ok fst].
  destruct (sc_into_start dflt (sw_heap s) (sb_cells (sw_global s))) as (heap & ptrs & cs & is & -> & F & P1 & P2 & PL & PN).
  eexists _, _. split; [reflexivity|]. split.
  - exists cs, is. split; auto. split.
    + clear - MG1 F P1. revert is F. induction MG1 as [|call cell L cells [(_ & c & A & B) _] M IH]; intros is F; inversion F as [|? i ? is' Hi F']; subst; constructor; auto.
      exists c. split; auto. rewrite (P1 _ _ Hi). f_equal. apply nth_error_nth. auto.
    + intros i j a b Ha Hb.
      pose proof (forall2_nth _ _ _ i MG1) as Mi. pose proof (forall2_nth _ _ _ j MG1) as Mj. rewrite Ha in Mi. rewrite Hb in Mj.
      pose proof (forall2_nth _ _ _ i F) as Fi. pose proof (forall2_nth _ _ _ j F) as Fj.
      destruct (nth_error (sb_cells (sw_global s)) i) as [p|] eqn:Ep; [|tauto]. destruct (nth_error (sb_cells (sw_global s)) j) as [q|] eqn:Eq; [|tauto].
      destruct (nth_error is i) as [x|]; [|tauto]. destruct (nth_error is j) as [y|]; [|tauto].
      destruct Mi as [Gi Ci], Mj as [Gj Cj]. split.
      * intros E. injection E as <-. pose proof (P2 _ _ _ Fi Fj). subst q. exact (tags_inj _ _ _ _ _ Gi Gj).
      * intros <-. rewrite Ci in Cj. injection Cj as <-. congruence.
  - assert (KG : forall call cell, ~ calls_of (fst call) g -> good_cell tags (sw_heap s) call cell -> good_cell tags heap call cell).
    { intros call cell Hn (A & c & B & D). split; auto. exists c. split; auto. rewrite PN; auto. intros Hi.
      apply Hn. apply In_nth_error in Hi. destruct Hi as (i & Hi). pose proof (forall2_nth _ _ _ i MG1) as M. rewrite Hi in M.
      destruct (nth_error g i) as [call'|] eqn:Eg; [|tauto]. destruct M as [[M _] _]. rewrite A in M. injection M as ->.
      unfold calls_of. apply in_map. eapply nth_error_In; eauto. }
    assert (KC : forall f n, ~ calls_of f g -> cache_get f n (cache_clear (sb_caches (sw_global s)) (sw_cache s)) = cache_get f n (sw_cache s)).
    { intros f n Hn. rewrite cache_get_clear. destruct (existsb (Nat.eqb f) (sb_caches (sw_global s))) eqn:E; auto.
      exfalso. apply Hn. apply MG2. apply existsb_exists in E. destruct E as (x & Hx & E). apply Nat.eqb_eq in E. subst. auto. }
    inversion HD as [|? ? HD1 HD2]; subst. rewrite Forall_forall in HD1.
    split; cbn [sw_flag sw_heap sw_cache sw_global sw_saved fst snd]; auto.
    + exists tags. split; [lia|]. split; [split; [constructor|intros f; cbn; tauto]|]. split.
      * assert (K : forall L, In L saved -> forall f, calls_of f L -> ~ calls_of f g) by (intros L HL f Hf Hg; exact (HD1 L HL f Hg Hf)).
        clear HD HD1 HD2. induction MS as [|L b saved bs M MS IH]; constructor.
        -- eapply matches_weaken; [| |exact M].
           ++ intros call cell Hc. apply KG. apply (K L); [cbn; auto|]. unfold calls_of. apply in_map. auto.
           ++ intros f n Hc. apply KC. apply (K L); [cbn; auto|]. unfold calls_of. apply in_map_iff. exists (f, n). auto.
        -- apply IH. intros L' HL'. apply K. cbn; auto.
      * intros f n cell H. rewrite cache_get_clear in H. destruct (existsb (Nat.eqb f) (sb_caches (sw_global s))) eqn:E; [discriminate|].
        apply KG; auto. intros Hc. apply MG2 in Hc. assert (existsb (Nat.eqb f) (sb_caches (sw_global s)) = true).
        { apply existsb_exists. exists f. split; auto. apply Nat.eqb_refl. } cbn in Hc. congruence.
    + constructor; auto. apply Forall_forall. intros b _ f [].
Qed.

Lemma run_ok ops : forall s l, scinv s l -> (forall f n, In (OCall f n) ops -> body f n <> None) -> separate l ops ->
  exists s' rs, sc_run dflt body s ops = (s', rs) /\ results_ok body l ops rs.
Proof.
  induction ops as [|o ops IH]; intros s l HI HB HS; cbn [sc_run].
  - exists s, []. cbn. auto.
  - cbn [separate] in HS. destruct HS as [H1 H2].
    assert (Step : exists s1 r, sc_step dflt body s o = (s1, r) /\ res_ok body l o r /\ scinv s1 (log_step l o)).
    { destruct o as [f n|k| |k|k].
      - destruct (step_call f n s l HI) as (s1 & E & I1); auto; [apply HB; cbn; auto|]. exists s1, RUnit. cbn [res_ok]. auto.
      - destruct (step_install k s l HI) as (s1 & E & I1); auto. exists s1, RUnit. cbn [res_ok]. auto.
      - destruct (step_finish s l HI) as (s1 & r & E & R & I1). exists s1, r. auto.
      - tauto.
      - destruct (step_drop k s l HI) as (s1 & E & I1); auto. exists s1, RUnit. cbn [res_ok]. auto. }
    destruct Step as (s1 & r & E & R & I1). rewrite E.
    destruct (IH s1 (log_step l o) I1) as (s2 & rs & E2 & R2); auto.
    { intros f n H. apply HB. cbn; auto. }
    rewrite E2. exists s2, (r :: rs). cbn [results_ok]. auto.
Qed.

Lemma init_inv : scinv sw_init ([], []).
Proof.
  split; cbn; auto.
  - exists []. split; auto. split; [split; [constructor|intros f; cbn; tauto]|]. split; [constructor|]. discriminate.
  - constructor; constructor.
Qed.
End Inv.
