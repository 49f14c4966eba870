(** Proofs about ABY2: sharing, gates, setup of the gate outputs. *)
From Coq Require Import List Bool Arith Lia Permutation.
Require Import Verif.Prelude Verif.PreludeProofs Verif.GateModel Verif.ProtocolModel Verif.CircuitModel
  Verif.ExecModel Verif.ExecSpec Verif.ExecProofs Verif.ExecLayerProofs Verif.Aby2Model Verif.Aby2Spec.
Import ListNotations.
Open Scope nat_scope.

Ltac bools := repeat match goal with b : bool |- _ => destruct b end; try reflexivity; try discriminate.

Lemma carries_intro a b x : as_pub a = as_pub b -> xorb (as_pub a) (xorb (as_priv a) (as_priv b)) = x -> carries x a b.
Proof. intros H <-. split; auto. Qed.

(** ** Sharing *)

(** The draws of a generator. *)
Definition draws (r : rng) (n : nat) : list bool := map (fun i => rng_bits r (rng_pos r + i)) (seq 0 n).
Definition advance (r : rng) (n : nat) : rng := Rng (rng_bits r) (rng_pos r + n).

Lemma draws_S r n : draws r (S n) = fst (gen r) :: draws (snd (gen r)) n.
Proof.
  unfold draws, gen. cbn [seq map fst snd rng_bits rng_pos]. rewrite Nat.add_0_r. f_equal.
  rewrite <- seq_shift, map_map. apply map_ext. intros i. f_equal. lia.
Qed.
Lemma draws_length r n : length (draws r n) = n.
Proof. unfold draws. rewrite map_length, seq_length. auto. Qed.
Lemma advance_S r n : advance r (S n) = advance (snd (gen r)) n.
Proof. unfold advance, gen. cbn. f_equal. lia. Qed.
Lemma advance_0 r : advance r 0 = r.
Proof. destruct r. unfold advance. cbn. f_equal. lia. Qed.
Lemma gen_advance r n : gen (advance r n) = (rng_bits r (rng_pos r + n), advance r (S n)).
Proof. unfold gen, advance. cbn. do 2 f_equal. lia. Qed.

Lemma zip_with_nil_r {A B C} (f : A -> B -> C) l : zip_with f l [] = [].
Proof. destruct l; reflexivity. Qed.

Lemma ds_share_spec xs : forall s,
  ds_share s xs =
  (zip_with (fun x my => x my) (zip_with (fun x o my => AS (xorb (xorb x my) o) my) xs (draws (ds_local s) (length xs)))
            (draws (ds_priv s) (length xs)),
   zip_with xorb (zip_with xorb xs (draws (ds_priv s) (length xs))) (draws (ds_local s) (length xs)),
   DS (advance (ds_priv s) (length xs)) (advance (ds_local s) (length xs)) (ds_remote s) (ds_map s)).
Proof.
  induction xs as [|x xs IH]; intros s.
  - cbn. rewrite !advance_0. destruct s; reflexivity.
  - cbn [ds_share length]. rewrite !draws_S, !advance_S.
    destruct (gen (ds_priv s)) as [my p]. destruct (gen (ds_local s)) as [o l]. cbn [fst snd].
    rewrite IH. cbn [ds_priv ds_local ds_remote ds_map]. reflexivity.
Qed.

Lemma ds_delta_spec ds : forall s,
  ds_plain_delta_to_share s ds =
  (zip_with AS ds (draws (ds_remote s) (length ds)),
   DS (ds_priv s) (ds_local s) (advance (ds_remote s) (length ds)) (ds_map s)).
Proof.
  induction ds as [|d ds IH]; intros s.
  - cbn. rewrite !advance_0. destruct s; reflexivity.
  - cbn [ds_plain_delta_to_share length]. rewrite draws_S, advance_S.
    destruct (gen (ds_remote s)) as [x r]. cbn [fst snd].
    rewrite IH. cbn [ds_priv ds_local ds_remote ds_map]. reflexivity.
Qed.

Lemma reconstruct_carries xs : forall a b, length a = length xs -> length b = length xs ->
  (forall i, i < length xs -> carries (nth i xs false) (nth i a (AS false false)) (nth i b (AS false false))) ->
  ds_reconstruct a b = Some xs /\ ds_reconstruct b a = Some xs.
Proof.
  induction xs as [|x xs IH]; intros [|s a] [|t b] La Lb H; try discriminate; auto.
  destruct (IH a b) as [E1 E2]; auto.
  { intros i Hi. apply (H (S i)). cbn. lia. }
  specialize (H 0 ltac:(cbn; lia)). destruct H as [P Q]. cbn [nth] in P, Q.
  cbn [ds_reconstruct]. rewrite E1, E2. destruct s as [p r], t as [p' r']. cbn [as_pub as_priv] in *.
  subst p' x. rewrite eqb_reflx. cbn. split; do 2 f_equal; bools.
Qed.

Lemma reconstruct_iff a : forall b xs, length a = length b ->
  ds_reconstruct a b = Some xs ->
  length xs = length a /\
  forall i, i < length xs -> carries (nth i xs false) (nth i a (AS false false)) (nth i b (AS false false)).
Proof.
  induction a as [|s a IH]; intros [|t b] xs L H; try discriminate.
  - injection H as <-. split; auto. cbn. intros; lia.
  - cbn [ds_reconstruct] in H. destruct (eqb (as_pub s) (as_pub t)) eqn:E; [|discriminate]. cbn [oassert obind] in H.
    destruct (ds_reconstruct a b) as [r|] eqn:Er; [|discriminate]. cbn [obind] in H. injection H as <-.
    destruct (IH b r) as [L' H']; auto. split; [cbn; lia|].
    intros [|i] Hi; cbn [nth]; [|apply H'; cbn in Hi; lia].
    apply eqb_prop in E. split; auto. bools. apply xorb_assoc.
Qed.

(** ** Subsets *)

Lemma combinations_length {A} (l : list A) : forall k s, In s (combinations k l) -> length s = k.
Proof.
  induction l as [|x l IH]; intros [|k] s H; cbn in H.
  - destruct H as [<-|[]]; auto.
  - destruct H.
  - destruct H as [<-|[]]; auto.
  - apply in_app_or in H. destruct H as [H|H]; [|apply IH; auto].
    apply in_map_iff in H. destruct H as (t & <- & H). cbn. rewrite (IH k t); auto.
Qed.

Lemma combinations_0 {A} (l : list A) : combinations 0 l = [[]].
Proof. destruct l; reflexivity. Qed.

Lemma combinations_1 {A} (l : list A) : combinations 1 l = map (fun x => [x]) l.
Proof. induction l as [|x l IH]; auto. cbn [combinations]. rewrite IH, combinations_0. reflexivity. Qed.

Lemma combinations_all {A} (l : list A) : combinations (length l) l = [l].
Proof.
  assert (Z : forall k (m : list A), length m < k -> combinations k m = []).
  { intros k m. revert k. induction m as [|y m IH]; intros [|k] H; cbn in *; try lia; auto.
    rewrite (IH k), (IH (S k)) by lia. reflexivity. }
  induction l as [|x l IH]; auto. cbn [length combinations].
  rewrite IH, Z by lia. reflexivity.
Qed.

Lemma combinations_map {A B} (f : A -> B) l : forall k,
  combinations k (map f l) = map (map f) (combinations k l).
Proof.
  induction l as [|x l IH]; intros [|k]; auto. cbn [combinations map].
  rewrite IH, IH, map_app, !map_map. reflexivity.
Qed.

Lemma powerset_map {A B} (f : A -> B) (l : list A) : powerset (map f l) = map (map f) (powerset l).
Proof.
  unfold powerset. rewrite map_length, concat_map, map_map. f_equal. apply map_ext.
  intros k. apply combinations_map.
Qed.

(** The big subsets are those after the empty one and the singletons. *)
Definition subsets_from {A} (l : list A) : list (list A) :=
  concat (map (fun k => combinations k l) (seq 2 (length l - 1))).

Lemma powerset_from {A} (l : list A) : powerset l = ([] :: map (fun x => [x]) l) ++ subsets_from l.
Proof.
  unfold powerset, subsets_from. destruct l as [|x l]; [reflexivity|].
  remember (x :: l) as m eqn:Em. assert (Hm : length m = S (length l)) by (subst; reflexivity). clear Em.
  rewrite Hm. replace (S (length l) - 1) with (length l) by lia.
  change (seq 0 (S (S (length l)))) with (0 :: 1 :: seq 2 (length l)).
  cbn [map concat]. rewrite combinations_0, combinations_1, app_assoc. reflexivity.
Qed.

Lemma big_subsets_from {A} (l : list A) : big_subsets l = subsets_from l.
Proof.
  unfold big_subsets. rewrite powerset_from, skipn_app, skipn_all2 by (cbn; rewrite map_length; lia).
  replace (S (length l) - length ([] :: map (fun x : A => [x]) l)) with 0 by (cbn; rewrite map_length; lia).
  reflexivity.
Qed.

Lemma powerset_split {A} (l : list A) :
  powerset l = [] :: map (fun x => [x]) l ++ big_subsets l.
Proof. rewrite big_subsets_from, powerset_from. reflexivity. Qed.

Lemma big_subsets_length {A} (l : list A) s : In s (big_subsets l) -> 2 <= length s.
Proof.
  rewrite big_subsets_from. unfold subsets_from. intros H. apply in_concat in H. destruct H as (t & Ht & Hs).
  apply in_map_iff in Ht. destruct Ht as (k & <- & Hk). apply in_seq in Hk.
  rewrite (combinations_length _ _ _ Hs). lia.
Qed.

Lemma powerset_last {A} (l : list A) : exists r, powerset l = r ++ [l].
Proof.
  unfold powerset. exists (concat (map (fun k => combinations k l) (seq 0 (length l)))).
  rewrite seq_S, map_app, concat_app. cbn [map concat]. rewrite Nat.add_0_l, combinations_all. reflexivity.
Qed.

Lemma pop_app {A} (l : list A) x : pop (l ++ [x]) = Some (x, l).
Proof. unfold pop. rewrite rev_app_distr. cbn. rewrite rev_involutive. reflexivity. Qed.

Lemma pop_rev {A} (l : list A) x : pop (rev (x :: l)) = Some (x, rev l).
Proof. cbn [rev]. apply pop_app. Qed.

(** ** One AND gate *)

(** The bit both parties compute for an AND gate, and the new shares. *)
Definition and_pair (n : nat) (i0 i1 : list ashare) (e0 e1 : list bool) (o0 o1 : ashare) : option (ashare * ashare) :=
  '(d0, _) <- compute_delta_share 0 n i0 [e0] o0 ;;
  '(d1, _) <- compute_delta_share 1 n i1 [e1] o1 ;;
  Some (AS (xorb d0 d1) (as_priv o0), AS (xorb d1 d0) (as_priv o1)).

Lemma delta_share_rest party n inputs st e o : 
  compute_delta_share party n inputs (st ++ [e]) o =
  match compute_delta_share party n inputs [e] o with Some (d, _) => Some (d, st) | None => None end.
Proof.
  unfold compute_delta_share. rewrite pop_app.
  change (pop [e]) with (Some (e, @nil (list bool))). cbn [obind].
  destruct ((party =? 0) || (party =? 1)); [|reflexivity]. cbn [oassert obind].
  destruct (n =? 2).
  - destruct inputs as [|a [|b r]]; auto. destruct (pop e) as [[d ?]|]; reflexivity.
  - destruct (pop _) as [[m i]|]; [|reflexivity]. cbn [obind].
    destruct (length i =? _); reflexivity.
Qed.

Lemma carries_not x a b : carries x a b -> carries (negb x) (as_not a) (as_not b).
Proof. intros [H ->]. destruct a, b. cbn in H. subst. split; [reflexivity|bools]. Qed.
Lemma carries_xor x y a b c d : carries x a b -> carries y c d -> carries (xorb x y) (as_xor a c) (as_xor b d).
Proof.
  intros [H ->] [K ->]. split; cbn; [congruence|]. destruct a, b, c, d. cbn in *. subst. bools.
Qed.

Lemma big_subsets_map {A B} (f : A -> B) (l : list A) : big_subsets (map f l) = map (map f) (big_subsets l).
Proof. unfold big_subsets. rewrite powerset_map, map_length. apply skipn_map. Qed.

Lemma forallb_map {A} (f : A -> bool) l : forallb (fun b => b) (map f l) = forallb f l.
Proof. induction l as [|x l IH]; auto. cbn. rewrite IH. auto. Qed.

Definition and_ids (l : list bool) : bool := forallb (fun b => b) l.

Lemma and_gate n i0 i1 xs e0 e1 o0 o1 L :
  n <= 2 -> all3 carries xs i0 i1 -> length xs = n ->
  Permutation L (zip_with (fun a b => xorb (as_priv a) (as_priv b)) i0 i1) ->
  length e0 = length e1 -> zip_with xorb e0 e1 = map and_ids (big_subsets L) ->
  exists d0 d1, compute_delta_share 0 n i0 [e0] o0 = Some (d0, []) /\
    compute_delta_share 1 n i1 [e1] o1 = Some (d1, []) /\
    carries (and_ids xs) (AS (xorb d0 d1) (as_priv o0)) (AS (xorb d1 d0) (as_priv o1)).
Proof.
  intros Hn HA Hl HP Le HE. destruct n as [|[|[|n]]]; try lia.
  - destruct xs; [|discriminate]. apply all3_nil_inv in HA. destruct HA as [-> ->].
    cbn in HP. apply Permutation_sym, Permutation_nil in HP. subst L. cbn in HE.
    destruct e0 as [|? e0], e1 as [|? e1]; try discriminate.
    eexists _, _. split; [reflexivity|]. split; [reflexivity|]. destruct o0 as [a b], o1 as [c d]. cbn. clear.
    split; bools.
  - destruct xs as [|x [|? ?]]; try discriminate.
    destruct (all3_cons_inv _ _ _ _ _ HA) as (a & b & l0 & l1 & -> & -> & [C1 C2] & HA').
    apply all3_nil_inv in HA'. destruct HA' as [-> ->].
    cbn in HP. apply Permutation_sym, Permutation_length_1_inv in HP. subst L. cbn in HE.
    destruct e0 as [|? e0], e1 as [|? e1]; try discriminate.
    destruct a as [p r], b as [p' r']. cbn in C1, C2. subst p' x.
    destruct o0 as [a b], o1 as [c d].
    eexists _, _. split; [reflexivity|]. split; [reflexivity|]. cbn. clear.
    split; [apply xorb_comm|]. bools.
  - destruct xs as [|x [|y [|? ?]]]; try discriminate.
    destruct (all3_cons_inv _ _ _ _ _ HA) as (a & b & l0 & l1 & -> & -> & [C1 C2] & HA').
    destruct (all3_cons_inv _ _ _ _ _ HA') as (a' & b' & l0' & l1' & -> & -> & [D1 D2] & HA'').
    apply all3_nil_inv in HA''. destruct HA'' as [-> ->]. clear HA HA'.
    assert (HE' : zip_with xorb e0 e1 = [xorb (as_priv a) (as_priv b) && xorb (as_priv a') (as_priv b')]).
    { cbn in HP. rewrite HE. destruct L as [|u [|w [|? ?]]];
        try (apply Permutation_length in HP; discriminate).
      cbn. rewrite andb_true_r. f_equal.
      apply Permutation_length_2_inv in HP || apply Permutation_sym, Permutation_length_2_inv in HP.
      destruct HP as [HP|HP]; injection HP as E1 E2; rewrite ?E1, ?E2, <- ?E1, <- ?E2; auto; apply andb_comm. }
    destruct e0 as [|u [|? e0]], e1 as [|w [|? e1]]; try discriminate. cbn in HE'. injection HE' as HE'. clear HE HP L.
    destruct a as [p r], b as [p' r'], a' as [q t], b' as [q' t']. cbn in C1, C2, D1, D2, HE'. subst p' q' x y.
    destruct o0 as [a b], o1 as [c d]. clear Le Hn Hl.
    eexists _, _. split; [reflexivity|]. split; [reflexivity|]. cbn [as_pub as_priv Nat.eqb andb].
    split; [apply xorb_comm|]. cbn [as_pub as_priv]. bools.
Qed.

(** ** Setup of the gate outputs *)

Lemma shape_scalar (ec : ecirc aby_gate) (go : gouts aby2) g gate :
  (forall sc, ec_simd ec sc = None) -> shape_ok (pr:=aby2) ec go -> ec_gate ec g = Some gate ->
  exists s, go_cell (pr:=aby2) go g = Some (@CS aby2 s).
Proof.
  intros Hs Sh Hg. destruct (Sh g gate Hg) as ([s|s] & A & B); [eauto|].
  unfold kind_ok in B. rewrite Hs in B. destruct B.
Qed.

(** What the setup has established for the gates [V]. *)
Record SInv (ec : ecirc aby_gate) (V : list gid) (go : gouts aby2) (l : gid -> bool) : Prop := {
  si_shape : shape_ok (pr:=aby2) ec go;
  si_get : forall g, In g V -> exists s, go_get (pr:=aby2) go g = Some (@CS aby2 s) /\ as_priv s = l g;
  si_mask : forall g gate b, In g V -> ec_gate ec g = Some gate ->
     mask_sem gate (map l (ec_parents ec g)) = Some b -> l g = b;
  si_closed : forall g, In g V -> incl (ec_parents ec g) V }.

Definition drawing (ec : ecirc aby_gate) (g : gid) : bool :=
  match ec_gate ec g with Some (ABase GInput) | Some (AAnd _) => true | _ => false end.

(** The masks of the inputs in the order of the input gates. *)
Fixpoint input_draws (m : nat -> option share_type) (ids : list nat) (p r : rng) : list bool :=
  match ids with
  | [] => []
  | i :: ids =>
      match m i with
      | Some STRemote => fst (gen r) :: input_draws m ids p (snd (gen r))
      | _ => fst (gen p) :: input_draws m ids (snd (gen p)) r
      end
  end.

Definition upd_fun (l : gid -> bool) (g : gid) (b : bool) : gid -> bool :=
  fun h => if gid_eqb h g then b else l h.
Lemma upd_fun_same l g b : upd_fun l g b g = b.
Proof. unfold upd_fun. destruct (gid_eqb_spec g g); congruence. Qed.
Lemma upd_fun_other l g b h : h <> g -> upd_fun l g b h = l h.
Proof. unfold upd_fun. destruct (gid_eqb_spec h g); congruence. Qed.

Lemma omap_cons {A B} (f : A -> option B) x y l r : f x = Some y -> omap f l = Some r -> omap f (x :: l) = Some (y :: r).
Proof. intros E F. cbn. rewrite E, F. reflexivity. Qed.

Lemma setup_step ec V ds go l g gate :
  aby_typed ec -> SInv ec V go l -> ec_gate ec g = Some gate -> ~ In g V ->
  incl (ec_parents ec g) V ->
  exists ds' go' b, setup_gate ec (ds, go) g = Some (ds', go') /\
    SInv ec (V ++ [g]) go' (upd_fun l g b) /\ ds_map ds' = ds_map ds /\ ds_local ds' = ds_local ds /\
    (if drawing ec g then
       match ds_map ds (snd g) with
       | Some STRemote => b = fst (gen (ds_remote ds)) /\ ds_remote ds' = snd (gen (ds_remote ds)) /\ ds_priv ds' = ds_priv ds
       | _ => b = fst (gen (ds_priv ds)) /\ ds_priv ds' = snd (gen (ds_priv ds)) /\ ds_remote ds' = ds_remote ds
       end
     else ds_priv ds' = ds_priv ds /\ ds_remote ds' = ds_remote ds).
Proof.
  intros [Hs HT] [Sh HG HM HC] Hg Hn Hp. specialize (HT g gate Hg).
  destruct (shape_scalar ec go g gate Hs Sh Hg) as (s0 & C0).
  (* reading the operands *)
  assert (RD : forall ps, incl ps V ->
    exists xs, omap (fun p => c <- go_get (pr:=aby2) go p ;; cell_scalar c) ps = Some xs /\ map as_priv xs = map l ps).
  { induction ps as [|p ps IH]; intros Hi; [exists []; auto|].
    destruct (HG p) as (s & A & B); [apply Hi; cbn; auto|].
    destruct IH as (xs & E & F); [intros x Hx; apply Hi; cbn; auto|].
    exists (s :: xs). split; [apply omap_cons; auto; rewrite A; reflexivity|]. cbn [map]. rewrite B, F. auto. }
  destruct (RD (firstn (setup_reads gate) (ec_parents ec g))) as (xs & Ex & Mx).
  { intros x Hx. apply Hp. rewrite <- (firstn_skipn (setup_reads gate)). apply in_or_app. auto. }
  (* the share *)
  assert (SO : forall r, exists o r', setup_output_share gate xs r = Some (o, r') /\
     (if drawing ec g then as_priv o = fst (gen r) /\ r' = snd (gen r) else r' = r) /\
     (forall b, mask_sem gate (map l (ec_parents ec g)) = Some b -> as_priv o = b)).
  { intros r. unfold drawing. rewrite Hg.
    assert (L1 : length (ec_parents ec g) = 1 -> setup_reads gate = 1 ->
       exists x, xs = [x] /\ map l (ec_parents ec g) = [as_priv x]).
    { intros L1 L2. rewrite L2 in Mx. destruct (ec_parents ec g) as [|p [|? ?]]; try discriminate.
      cbn [firstn map] in Mx. destruct xs as [|x [|? ?]]; try discriminate. exists x. cbn. rewrite <- Mx. auto. }
    assert (L2 : length (ec_parents ec g) = 2 -> setup_reads gate = 2 ->
       exists x y, xs = [x; y] /\ map l (ec_parents ec g) = [as_priv x; as_priv y]).
    { intros L2 L3. rewrite L3 in Mx. destruct (ec_parents ec g) as [|p [|q [|? ?]]]; try discriminate.
      cbn [firstn map] in Mx. destruct xs as [|x [|y [|? ?]]]; try discriminate. exists x, y. cbn. rewrite <- Mx. auto. }
    destruct gate as [[]|n| |]; cbn [aby_gate_typed] in HT; try contradiction;
      try (destruct (L1 HT eq_refl) as (x & -> & El); rewrite El; cbn; eexists _, _; split; [reflexivity|]; split; [reflexivity|intros b Hb; congruence]);
      try (cbn; eexists _, _; split; [reflexivity|]; split; [auto|intros b Hb; cbn in *; congruence]).
    destruct (L2 HT eq_refl) as (x & y & -> & El). rewrite El. cbn.
    eexists _, _; split; [reflexivity|]; split; [reflexivity|intros b Hb; cbn; congruence]. }
  assert (PUT : forall o, exists go', go_put (pr:=aby2) go g (@CS aby2 o) = Some go' /\
     SInv ec V go' l /\ go_get (pr:=aby2) go' g = Some (@CS aby2 o)).
  { intros o. destruct (go_put_spec (pr:=aby2) go g _ (@CS aby2 o) C0 Logic.I) as (go' & A & B & C & D).
    exists go'. split; auto. split.
    - constructor.
      + intros h gt Hh. destruct (gid_dec h g).
        * subst. exists (@CS aby2 o). split; auto. unfold kind_ok. rewrite Hs. exact Logic.I.
        * rewrite C by auto. apply (Sh h gt Hh).
      + intros h Hh. assert (h <> g) by (intros ->; auto). destruct (HG h Hh) as (s & E & F).
        exists s. split; auto. apply go_get_cell in E. apply go_get_intro; [rewrite C; tauto|rewrite D; cbn; tauto].
      + auto.
      + auto.
    - apply go_get_intro; auto. rewrite D. cbn. auto. }
  assert (FIN : forall o go', SInv ec V go' l -> go_get (pr:=aby2) go' g = Some (@CS aby2 o) ->
     (forall b, mask_sem gate (map l (ec_parents ec g)) = Some b -> as_priv o = b) ->
     SInv ec (V ++ [g]) go' (upd_fun l g (as_priv o))).
  { intros o go' [Sh' HG' HM' HC'] Hgo Ho.
    assert (Hpar : forall h, incl (ec_parents ec h) V ->
      map (upd_fun l g (as_priv o)) (ec_parents ec h) = map l (ec_parents ec h)).
    { intros h Hh. apply map_ext_in. intros p Hpp. apply upd_fun_other. intros ->. auto. }
    constructor; auto.
    - intros h Hh. destruct (gid_dec h g) as [->|Hne].
      + exists o. rewrite upd_fun_same. auto.
      + apply in_app_or in Hh. destruct Hh as [Hh|[Hh|[]]]; [|congruence].
        rewrite upd_fun_other by auto. auto.
    - intros h gt b Hh Hgt Hb. destruct (gid_dec h g) as [->|Hne].
      + rewrite Hpar in Hb by auto. rewrite upd_fun_same. rewrite Hg in Hgt. injection Hgt as <-. auto.
      + apply in_app_or in Hh. destruct Hh as [Hh|[Hh|[]]]; [|congruence].
        rewrite upd_fun_other by auto. rewrite Hpar in Hb by auto. eauto.
    - intros h Hh p Hpp. apply in_or_app. left. apply in_app_or in Hh. destruct Hh as [Hh|[Hh|[]]].
      + eapply HC; eauto.
      + subst h. auto. }
  unfold setup_gate. rewrite Hg. cbn [obind]. rewrite Ex. cbn [obind].
  destruct (ds_map ds (snd g)) as [[|]|] eqn:Em.
  - destruct (SO (ds_priv ds)) as (o & r & E1 & E2 & E3). destruct (PUT o) as (go' & P1 & P2 & P3).
    rewrite E1. cbn [obind]. rewrite P1. cbn [obind]. eexists _, go', (as_priv o). split; [reflexivity|].
    split; [apply FIN; auto|]. cbn. split; auto. split; auto. destruct (drawing ec g); tauto.
  - destruct (SO (ds_remote ds)) as (o & r & E1 & E2 & E3). destruct (PUT o) as (go' & P1 & P2 & P3).
    rewrite E1. cbn [obind]. rewrite P1. cbn [obind]. eexists _, go', (as_priv o). split; [reflexivity|].
    split; [apply FIN; auto|]. cbn. split; auto. split; auto. destruct (drawing ec g); tauto.
  - destruct (SO (ds_priv ds)) as (o & r & E1 & E2 & E3). destruct (PUT o) as (go' & P1 & P2 & P3).
    rewrite E1. cbn [obind]. rewrite P1. cbn [obind]. eexists _, go', (as_priv o). split; [reflexivity|].
    split; [apply FIN; auto|]. cbn. split; auto. split; auto. destruct (drawing ec g); tauto.
Qed.

(** The whole loop.  [ids]: the input gates not visited yet; they come before all other gates
    that draw. *)
Lemma setup_fold ec : aby_typed ec -> forall gs V ds go l ids rest,
  SInv ec V go l ->
  (forall l1 g l2, gs = l1 ++ g :: l2 ->
     (exists gate, ec_gate ec g = Some gate) /\ ~ In g (V ++ l1) /\ incl (ec_parents ec g) (V ++ l1)) ->
  filter (drawing ec) gs = map (pair 0) ids ++ rest ->
  exists ds' go' l', ofold (setup_gate ec) (ds, go) gs = Some (ds', go') /\
    SInv ec (V ++ gs) go' l' /\ (forall g, In g V -> l' g = l g) /\
    map (fun i => l' (0, i)) ids = input_draws (ds_map ds) ids (ds_priv ds) (ds_remote ds).
Proof.
  intros Ht. induction gs as [|g gs IH]; intros V ds go l ids rest HI HO HF.
  - exists ds, go, l. cbn [ofold]. rewrite app_nil_r. split; auto. split; auto. split; auto.
    destruct ids; [reflexivity|discriminate].
  - destruct (HO [] g gs eq_refl) as ((gate & Hg) & Hn & Hp). rewrite app_nil_r in Hn, Hp.
    destruct (setup_step ec V ds go l g gate Ht HI Hg Hn Hp) as (ds1 & go1 & b & E1 & HI1 & Em & El & Ed).
    assert (HO1 : forall l1 h l2, gs = l1 ++ h :: l2 ->
       (exists gt, ec_gate ec h = Some gt) /\ ~ In h ((V ++ [g]) ++ l1) /\ incl (ec_parents ec h) ((V ++ [g]) ++ l1)).
    { intros l1 h l2 ->. destruct (HO (g :: l1) h l2 eq_refl) as (A & B & C).
      rewrite <- app_assoc. auto. }
    cbn [ofold]. rewrite E1. cbn [obind]. cbn [filter] in HF.
    destruct (drawing ec g).
    + destruct ids as [|i ids].
      * destruct (IH _ ds1 go1 _ [] _ HI1 HO1 eq_refl) as (ds' & go' & l' & F1 & F2 & F3 & F4).
        exists ds', go', l'. rewrite <- app_assoc in F2. split; auto. split; auto. split; [|reflexivity].
        intros h Hh. rewrite F3 by (apply in_or_app; auto). apply upd_fun_other. intros ->. auto.
      * cbn [map app] in HF. injection HF as -> HF.
        destruct (IH _ ds1 go1 _ ids rest HI1 HO1 HF) as (ds' & go' & l' & F1 & F2 & F3 & F4).
        exists ds', go', l'. rewrite <- app_assoc in F2. split; auto. split; auto. split.
        -- intros h Hh. rewrite F3 by (apply in_or_app; auto). apply upd_fun_other. intros ->. auto.
        -- cbn [map input_draws]. rewrite F4, Em, F3 by (apply in_or_app; cbn; auto). rewrite upd_fun_same.
           cbn [snd] in Ed. destruct (ds_map ds i) as [[|]|]; destruct Ed as (-> & -> & ->); reflexivity.
    + destruct (IH _ ds1 go1 _ ids rest HI1 HO1 HF) as (ds' & go' & l' & F1 & F2 & F3 & F4).
      exists ds', go', l'. rewrite <- app_assoc in F2. split; auto. split; auto. split.
      * intros h Hh. rewrite F3 by (apply in_or_app; auto). apply upd_fun_other. intros ->. auto.
      * rewrite F4, Em. destruct Ed as (-> & ->). reflexivity.
Qed.
