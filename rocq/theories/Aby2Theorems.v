(** C40 and C41: ABY2 sharing, linear gates, AND gates and whole executions. *)
From Coq Require Import List Bool Arith Lia Permutation.
Require Import Verif.Prelude Verif.PreludeProofs Verif.GateModel Verif.ProtocolModel
  Verif.CircuitModel Verif.CircuitSpec Verif.CircuitProofs Verif.CircuitProofs2 Verif.CircuitProofs3 Verif.CircuitCheck
  Verif.ExecModel Verif.ExecSpec Verif.ExecProofs Verif.ExecCircuitProofs Verif.ExecTheorems Verif.ExecLayerProofs
  Verif.Aby2Model Verif.Aby2Spec Verif.Aby2Proofs Verif.Aby2ExecProofs Verif.Aby2CircuitProofs.
Import ListNotations.
Open Scope nat_scope.

(** ** C40: sharing *)

(** The generators for each other's inputs are in step after [DeltaSharing::new]. *)
Theorem C40_new_in_step : forall priv0 priv1 joint m0 m1 s t,
  ds_new 0 priv0 joint m0 = Some s -> ds_new 1 priv1 joint m1 = Some t ->
  ds_remote t = ds_local s /\ ds_remote s = ds_local t.
Proof. intros. cbn in *. injection H as <-. injection H0 as <-. auto. Qed.
Print Assumptions C40_new_in_step.

(** Sharing by one party, [plain_delta_to_share] by the other one, reconstruction; the parties are in
    step again afterwards, so the same holds for any number of further values. *)
Theorem C40_share_round_trip : forall s t xs sh ds s' sh' t',
  ds_remote t = ds_local s ->
  ds_share s xs = (sh, ds, s') -> ds_plain_delta_to_share t ds = (sh', t') ->
  ds_reconstruct sh sh' = Some xs /\ ds_reconstruct sh' sh = Some xs /\
  ds_remote t' = ds_local s' /\ ds_remote s' = ds_remote s /\ ds_local t' = ds_local t.
Proof.
  intros s t xs sh ds s' sh' t' Hst E1 E2.
  destruct (share_all3 s xs sh ds s' t E1 Hst) as (A & B & C & D). rewrite E2 in A, C. cbn [fst] in *.
  destruct (all3_length _ _ _ _ A) as [L1 L2].
  destruct (reconstruct_carries xs sh sh' L1 L2) as [R1 R2].
  { intros i Hi. destruct (nth_error xs i) as [x|] eqn:Ex; [|apply nth_error_None in Ex; lia].
    destruct (all3_nth _ _ _ _ A i x Ex) as (a & b & Ea & Eb & HR).
    rewrite (nth_error_nth _ _ _ Ex), (nth_error_nth _ _ _ Ea), (nth_error_nth _ _ _ Eb). auto. }
  split; auto. split; auto. rewrite ds_share_spec in E1. rewrite ds_delta_spec in E2.
  injection E1 as _ <- <-. injection E2 as _ <-. cbn. rewrite Hst. split; auto.
  rewrite zip_with_length, zip_with_length, !draws_length, !Nat.min_id. auto.
Qed.
Print Assumptions C40_share_round_trip.

(** Reconstruction succeeds exactly if the public parts agree, and then gives the carried values. *)
Theorem C40_reconstruct : forall a b xs, length a = length b ->
  (ds_reconstruct a b = Some xs <-> all3 carries xs a b).
Proof.
  intros a b xs L. split.
  - revert b xs L. induction a as [|x a IH]; intros [|y b] xs L H; try discriminate; cbn in H.
    + injection H as <-. constructor.
    + destruct (eqb (as_pub x) (as_pub y)) eqn:E; [|discriminate]. cbn in H.
      destruct (ds_reconstruct a b) as [r|] eqn:Er; [|discriminate]. cbn in H. injection H as <-.
      constructor; [|apply IH; auto]. apply eqb_prop in E. split; auto. apply xorb_assoc.
  - induction 1 as [|x s t xs a b [P Q] H IH]; auto. cbn. rewrite P, eqb_reflx. cbn.
    rewrite IH by (cbn in L; lia). cbn. subst x. rewrite P, xorb_assoc. reflexivity.
Qed.
Print Assumptions C40_reconstruct.

(** What the receiving party sees does not depend on the value: for any other values there is a
    private stream of the sharing party with the same message and the same received shares. *)
Theorem C40_sharing_hides : forall s xs xs', length xs = length xs' ->
  exists p, let s2 := DS (Rng p (rng_pos (ds_priv s))) (ds_local s) (ds_remote s) (ds_map s) in
    snd (fst (ds_share s2 xs')) = snd (fst (ds_share s xs)).
Proof.
  intros s xs xs' L.
  exists (fun i => let j := i - rng_pos (ds_priv s) in
     if i <? rng_pos (ds_priv s) then rng_bits (ds_priv s) i
     else xorb (rng_bits (ds_priv s) i) (xorb (nth j xs false) (nth j xs' false))).
  cbn zeta. rewrite !ds_share_spec. cbn [fst snd ds_priv ds_local]. rewrite <- L.
  assert (G : forall n k (a b : list bool), length a = length b ->
    zip_with xorb b (map (fun i => xorb (rng_bits (ds_priv s) (k + i)) (xorb (nth i a false) (nth i b false))) (seq n (length a)))
    = zip_with xorb b (map (fun i => xorb (rng_bits (ds_priv s) (k + i)) (xorb (nth i a false) (nth i b false))) (seq n (length a)))) by auto.
  clear G. f_equal. apply (list_ext false).
  - rewrite !zip_with_length, !draws_length, L. reflexivity.
  - intros i Hi. rewrite zip_with_length, draws_length, <- L, Nat.min_id in Hi.
    rewrite !(zip_with_nth xorb _ _ i false false) by (rewrite ?draws_length; lia).
    assert (D : forall r n i, i < n -> nth i (draws r n) false = rng_bits r (rng_pos r + i)).
    { intros r n j Hj. unfold draws. rewrite (nth_indep _ false (rng_bits r (rng_pos r + 0))) by (rewrite map_length, seq_length; auto).
      rewrite (map_nth (fun i => rng_bits r (rng_pos r + i)) (seq 0 n) 0 j), seq_nth by auto. auto. }
    rewrite !D by auto. cbn [rng_bits rng_pos].
    destruct (Nat.ltb_spec (rng_pos (ds_priv s) + i) (rng_pos (ds_priv s))); [lia|].
    replace (rng_pos (ds_priv s) + i - rng_pos (ds_priv s)) with i by lia.
    destruct (nth i xs false), (nth i xs' false), (rng_bits _ _); reflexivity.
Qed.
Print Assumptions C40_sharing_hides.

(** ** C40: linear gates *)

(** Every gate evaluated locally: on operand shares carrying [xs] both parties get shares carrying
    the value of the gate, and the private parts follow the rule the setup uses. *)
Theorem C40_local_gates : forall gate xs a b x,
  aby_is_interactive gate = false ->
  (match gate with ABase (GConstant _) => False | _ => True end) ->
  aby_sem gate xs = Some x -> all3 carries xs a b ->
  exists r0 r1, aby_eval_ni 0 gate a = Some r0 /\ aby_eval_ni 1 gate b = Some r1 /\
    carries x r0 r1 /\
    mask_sem gate (map as_priv a) = Some (as_priv r0) /\ mask_sem gate (map as_priv b) = Some (as_priv r1).
Proof.
  intros gate xs a b x Hi Hc Hx HA.
  assert (L1 : forall y, xs = [y] -> exists s t, a = [s] /\ b = [t] /\ carries y s t).
  { intros y ->. destruct (all3_cons_inv _ _ _ _ _ HA) as (s & t & r0 & r1 & -> & -> & X & HA').
    apply all3_nil_inv in HA'. destruct HA' as [-> ->]. eauto. }
  destruct gate as [[]|n| |]; cbn in Hx, Hi; try discriminate; try contradiction;
    try (destruct xs as [|y [|? ?]]; try discriminate; injection Hx as <-; destruct (L1 y eq_refl) as (s & t & -> & -> & X);
         exists s, t; cbn; auto 10; fail).
  - destruct xs as [|y [|z [|? ?]]]; try discriminate. injection Hx as <-.
    destruct (all3_cons_inv _ _ _ _ _ HA) as (s & t & r0 & r1 & -> & -> & X & HA').
    destruct (all3_cons_inv _ _ _ _ _ HA') as (s' & t' & r0' & r1' & -> & -> & X' & HA'').
    apply all3_nil_inv in HA''. destruct HA'' as [-> ->].
    exists (as_xor s s'), (as_xor t t'). cbn. split; auto. split; auto. split; auto. apply carries_xor; auto.
  - destruct xs as [|y [|? ?]]; try discriminate. injection Hx as <-.
    destruct (L1 y eq_refl) as (s & t & -> & -> & X). exists (as_not s), (as_not t).
    cbn. split; auto. split; auto. split; auto. apply carries_not. auto.
Qed.
Print Assumptions C40_local_gates.

(** Constants, whatever the output share before was. *)
Theorem C40_constants : forall c o0 o1,
  carries c (aby_share_constant 0 o0 c) (aby_share_constant 1 o1 c) /\
  mask_sem (ABase (GConstant c)) [] = Some (as_priv (aby_share_constant 0 o0 c)).
Proof. intros c o0 o1. split; [split; auto; destruct c; auto|reflexivity]. Qed.
Print Assumptions C40_constants.

(** ** C41: AND gates *)

(** The gate as both parties evaluate it: [compute_msg] for one gate, exchange of the delta
    shares, [evaluate_interactive]. *)
Definition and_run (n : nat) (i0 i1 : list ashare) (e0 e1 : list bool) (o0 o1 : ashare) : option (list ashare * list ashare) :=
  '(m0, st0) <- aby_compute_msg 0 [AAnd n] [o0] i0 [e0] ;;
  '(m1, st1) <- aby_compute_msg 1 [AAnd n] [o1] i1 [e1] ;;
  '(r0, _) <- aby_eval_int 0 [AAnd n] [o0] m0 m1 st0 ;;
  '(r1, _) <- aby_eval_int 1 [AAnd n] [o1] m1 m0 st1 ;;
  Some (r0, r1).

(** Shares [e0], [e1] of the products of the masks of all subsets of at least two operands. *)
Definition setup_for (i0 i1 : list ashare) (e0 e1 : list bool) : Prop :=
  length e0 = length e1 /\
  zip_with xorb e0 e1 =
  map (forallb (fun b => b)) (big_subsets (zip_with (fun a b => xorb (as_priv a) (as_priv b)) i0 i1)).

Lemma and_run_eq n i0 i1 e0 e1 o0 o1 d0 d1 : length i0 = n -> length i1 = n ->
  compute_delta_share 0 n i0 [e0] o0 = Some (d0, []) ->
  compute_delta_share 1 n i1 [e1] o1 = Some (d1, []) ->
  and_run n i0 i1 e0 e1 o0 o1 = Some ([AS (xorb d0 d1) (as_priv o0)], [AS (xorb d1 d0) (as_priv o1)]).
Proof.
  intros L0 L1 D0 D1. unfold and_run. cbn [aby_compute_msg].
  rewrite !(firstn_all2 _ (n := n)) by lia. rewrite D0, D1. reflexivity.
Qed.

(** Up to two operands the conjunction is computed; the private parts are those of the setup. *)
Theorem C41_fan_in_two : forall n xs i0 i1 e0 e1 o0 o1,
  n <= 2 -> length xs = n -> all3 carries xs i0 i1 -> setup_for i0 i1 e0 e1 ->
  exists r0 r1, and_run n i0 i1 e0 e1 o0 o1 = Some ([r0], [r1]) /\
    carries (forallb (fun x => x) xs) r0 r1 /\ as_priv r0 = as_priv o0 /\ as_priv r1 = as_priv o1.
Proof.
  intros n xs i0 i1 e0 e1 o0 o1 Hn Hl HA [Le HE]. destruct (all3_length _ _ _ _ HA) as [L0 L1].
  destruct (and_gate n i0 i1 xs e0 e1 o0 o1 _ Hn HA Hl (Permutation_refl _) Le HE) as (d0 & d1 & D0 & D1 & C).
  rewrite (and_run_eq n i0 i1 e0 e1 o0 o1 d0 d1); auto; try lia. eexists _, _. split; [reflexivity|]. auto.
Qed.
Print Assumptions C41_fan_in_two.

(** For any number of operands the right bit is computed if the parties hold equal masks and equal
    setup data (as with [insecure_default] on both sides).  Missing for the full statement: masks
    that differ; see the next theorem. *)
Theorem C41_equal_masks_partial : forall n xs i0 i1 e o0 o1,
  n <> 2 -> length xs = n -> all3 carries xs i0 i1 -> map as_priv i0 = map as_priv i1 ->
  length e = length (big_subsets i0) ->
  exists r0 r1, and_run n i0 i1 e e o0 o1 = Some ([r0], [r1]) /\
    carries (forallb (fun x => x) xs) r0 r1 /\ as_priv r0 = as_priv o0 /\ as_priv r1 = as_priv o1.
Proof.
  intros n xs i0 i1 e o0 o1 Hn Hl HA HM Le. destruct (all3_length _ _ _ _ HA) as [L0 L1].
  assert (Ei : i0 = i1 /\ map as_pub i0 = xs).
  { clear - HA HM. induction HA as [|x a b xs la lb [P Q] HA IH]; auto. cbn in HM. injection HM as M1 M2.
    destruct (IH M2) as [-> <-]. destruct a as [p r], b as [p' r']. cbn in *. subst p' r' x.
    split; auto. cbn. f_equal. rewrite xorb_nilpotent, xorb_false_r. auto. }
  destruct Ei as [<- Ex].
  assert (D : forall party o, party = 0 \/ party = 1 ->
     exists t, compute_delta_share party n i0 [e] o = Some (xorb (xorb ((party =? 1) && forallb (fun x => x) xs) t) (as_priv o), []) /\
       forall o' p', p' = 0 \/ p' = 1 -> compute_delta_share p' n i0 [e] o' = Some (xorb (xorb ((p' =? 1) && forallb (fun x => x) xs) t) (as_priv o'), [])).
  { intros party o Hp.
    set (t := fold_left (fun acc pd => acc && fst pd && snd pd)
       (combine (removelast (map (fun set => fold_left (fun acc a => acc && as_pub a) set true) (powerset i0)))
                (rev e ++ rev (map as_priv i0))) true).
    enough (H : forall o' p', p' = 0 \/ p' = 1 -> compute_delta_share p' n i0 [e] o' = Some (xorb (xorb ((p' =? 1) && forallb (fun x => x) xs) t) (as_priv o'), [])).
    { exists t. split; auto. }
    intros o' p' Hp'. unfold compute_delta_share. change (pop [e]) with (Some (e, @nil (list bool))). cbn [obind].
    assert (((p' =? 0) || (p' =? 1)) = true) as -> by (destruct Hp' as [->| ->]; reflexivity). cbn [oassert obind].
    destruct (Nat.eqb_spec n 2); [contradiction|]. rewrite firstn_all2 by lia.
    destruct (powerset_last i0) as (r & Er). pose proof (powerset_split i0) as Es.
    unfold t. rewrite Er, map_app. cbn [map]. rewrite pop_app, removelast_last. cbn [obind].
    assert (Lr : length r = length e + length i0).
    { assert (length (r ++ [i0]) = S (length i0 + length (big_subsets i0))).
      { rewrite <- Er, Es. cbn. rewrite app_length, map_length. auto. }
      rewrite app_length in H. cbn [length] in H. lia. }
    assert ((length (map (fun set => fold_left (fun acc a => acc && as_pub a) set true) r) =?
             length (rev e ++ rev (map as_priv i0))) = true) as ->.
    { apply Nat.eqb_eq. rewrite map_length, app_length, !rev_length, map_length. auto. }
    cbn [oassert obind].
    assert (FA : forall l acc, fold_left (fun acc a => acc && as_pub a) l acc = acc && forallb (fun x => x) (map as_pub l)).
    { induction l as [|y l IHl]; intros acc; cbn; [rewrite andb_true_r; auto|]. rewrite IHl, andb_assoc. auto. }
    rewrite FA, Ex. cbn [andb]. reflexivity. }
  destruct (D 0 o0 (or_introl eq_refl)) as (t & D0 & D').

  (rewrite (and_run_eq n i0 i0 e e o0 o1 (xorb (xorb false t) (as_priv o0)) (xorb (xorb (forallb (fun x => x) xs) t) (as_priv o1))); [|lia|lia|exact D0|exact (D' o1 1 (or_intror eq_refl))]).
  eexists _, _. split; [reflexivity|]. cbn. split; auto. split; cbn; [apply xorb_comm|].
  destruct (forallb (fun x => x) xs), t, (as_priv o0), (as_priv o1); reflexivity.
Qed.
Print Assumptions C41_equal_masks_partial.

(** From three operands on, for every number of operands, there are inputs whose sharing is correct
    and setup data as the setup phase produces it, so that the gate yields a wrong bit: all inputs
    are 1, the result carries 0. *)
Theorem C41_fan_in_three_refuted : forall n, 3 <= n ->
  exists xs i0 i1 e0 e1 o0 o1 r0 r1,
    length xs = n /\ all3 carries xs i0 i1 /\ setup_for i0 i1 e0 e1 /\
    forallb (fun x => x) xs = true /\
    and_run n i0 i1 e0 e1 o0 o1 = Some ([r0], [r1]) /\ carries false r0 r1.
Proof.
  intros n Hn. destruct n as [|k]; [lia|].
  set (i0 := AS false true :: repeat (AS true false) k).
  set (i1 := AS false false :: repeat (AS true false) k).
  assert (Li : length i0 = S k /\ length i1 = S k) by (cbn; rewrite repeat_length; auto).
  destruct Li as [L0 L1].
  set (e := repeat false (length (big_subsets i0))).
  assert (Hpub : map as_pub i0 = map as_pub i1) by reflexivity.
  assert (Hdelta : forall party (i : list ashare), party = 0 \/ party = 1 -> i = i0 \/ i = i1 ->
     compute_delta_share party (S k) i [e] (AS false false) = Some (false, [])).
  { intros party i Hp Hi. unfold compute_delta_share. change (pop [e]) with (Some (e, @nil (list bool))). cbn [obind].
    assert (((party =? 0) || (party =? 1)) = true) as -> by (destruct Hp as [->| ->]; reflexivity). cbn [oassert obind].
    destruct (Nat.eqb_spec (S k) 2); [lia|].
    assert (Li : length i = S k) by (destruct Hi; subst; auto).
    assert (Ei : exists a r, i = a :: r /\ as_pub a = false) by (destruct Hi; subst; eexists _, _; split; reflexivity || reflexivity).
    rewrite firstn_all2 by lia.
    destruct (powerset_last i) as (r & Er). pose proof (powerset_split i) as Es.
    assert (Lb : length (big_subsets i) = length (big_subsets i0)).
    { unfold big_subsets. rewrite !skipn_length. f_equal; [|f_equal; lia].
      assert (Q : forall (u w : list ashare), map as_pub u = map as_pub w -> length (powerset u) = length (powerset w)).
      { intros u w Huw. rewrite <- (map_length (map as_pub) (powerset u)), <- (map_length (map as_pub) (powerset w)).
        rewrite <- !powerset_map, Huw. auto. }
      apply Q. destruct Hi; subst; auto. }
    rewrite Er, map_app. cbn [map]. rewrite pop_app. cbn [obind].
    assert (Lr : length r = length e + length i).
    { assert (length (r ++ [i]) = S (length i + length (big_subsets i))).
      { rewrite <- Er, Es. cbn. rewrite app_length, map_length. auto. }
      rewrite app_length in H. cbn [length] in H. unfold e. rewrite repeat_length. lia. }
    assert ((length (map (fun set => fold_left (fun acc a => acc && as_pub a) set true) r) =?
             length (rev e ++ rev (map as_priv i))) = true) as ->.
    { apply Nat.eqb_eq. rewrite map_length, app_length, !rev_length, map_length. auto. }
    cbn [oassert obind].
    assert (FA : forall l acc, fold_left (fun acc a => acc && as_pub a) l acc = acc && forallb (fun x => x) (map as_pub l)).
    { induction l as [|y l IHl]; intros acc; cbn; [rewrite andb_true_r; auto|]. rewrite IHl, andb_assoc. auto. }
    destruct Ei as (a & ri & Ei & Ha).
    assert (Hmul : fold_left (fun acc a => acc && as_pub a) i true = false).
    { rewrite FA, Ei. cbn. rewrite Ha. auto. }
    rewrite Hmul.
    (* the second subset is the first operand alone *)
    assert (Hr : exists r', r = [] :: [a] :: r').
    { rewrite Er in Es. rewrite Ei in Es. cbn [map app] in Es. destruct r as [|x [|y r']].
      - discriminate.
      - cbn in Lr. unfold e in Lr. lia.
      - injection Es as -> -> _. eauto. }
    destruct Hr as (r' & ->). cbn [map fold_left]. rewrite Ha.
    assert (Hd : exists d0 d1 dr, rev e ++ rev (map as_priv i) = d0 :: d1 :: dr).
    { assert (2 <= length (rev e ++ rev (map as_priv i))) by (rewrite app_length, !rev_length, map_length; lia).
      destruct (rev e ++ rev (map as_priv i)) as [|d0 [|d1 dr]]; cbn in H; try lia. eauto. }
    destruct Hd as (d0 & d1 & dr & ->). cbn [combine fold_left fst snd andb].
    assert (FF : forall (l : list (bool * bool)), fold_left (fun acc pd => acc && fst pd && snd pd) l false = false).
    { induction l as [|y l IHl]; auto. }
    rewrite !andb_false_r. cbn [andb]. rewrite FF. reflexivity. }
  exists (repeat true (S k)), i0, i1, e, e, (AS false false), (AS false false).
  exists (AS false false), (AS false false).
  split; [rewrite repeat_length; auto|]. split; [|split; [|split; [|split]]].
  - unfold i0, i1. cbn [repeat]. constructor; [split; auto|]. clear. induction k; cbn; constructor; auto. split; auto.
  - split; auto.
    set (L := zip_with (fun a b => xorb (as_priv a) (as_priv b)) i0 i1).
    assert (EL : L = true :: repeat false k).
    { unfold L, i0, i1. cbn. f_equal. clear. induction k; cbn; f_equal; auto. }
    assert (Z : forall m, zip_with xorb (repeat false m) (repeat false m) = repeat false m).
    { induction m; cbn; f_equal; auto. }
    unfold e. rewrite Z. rewrite EL.
    assert (LB : length (big_subsets i0) = length (big_subsets (true :: repeat false k))).
    { replace (true :: repeat false k) with (map as_priv i0) by (unfold i0; cbn; f_equal; clear; induction k; cbn; f_equal; auto).
      rewrite big_subsets_map, map_length. auto. }
    rewrite LB.
    assert (AF : forall s, In s (big_subsets (true :: repeat false k)) -> forallb (fun b => b) s = false).
    { intros s Hin. pose proof (big_subsets_length _ _ Hin) as Hlen.
      rewrite big_subsets_from in Hin. unfold subsets_from in Hin. apply in_concat in Hin.
      destruct Hin as (t & Ht & Hst). apply in_map_iff in Ht. destruct Ht as (j & <- & Hj).
      assert (AF0 : forall j s, In s (combinations (S j) (repeat false k)) -> forallb (fun b => b) s = false).
      { clear. induction k as [|k IH]; intros j s H; cbn [repeat combinations] in H; [destruct H|].
        apply in_app_or in H. destruct H as [H|H]; [|eapply IH; eauto].
        apply in_map_iff in H. destruct H as (t & <- & H). reflexivity. }
      pose proof (combinations_length _ _ _ Hst) as Hjl. destruct j as [|[|j]]; [lia|lia|].
      cbn [combinations] in Hst. apply in_app_or in Hst. destruct Hst as [Hst|Hst]; [|eapply AF0; eauto].
      apply in_map_iff in Hst. destruct Hst as (t & <- & Hst). cbn. eapply AF0; eauto. }
    clear - AF. induction (big_subsets (true :: repeat false k)) as [|s r IH]; cbn; auto.
    rewrite AF by (cbn; auto). f_equal. apply IH. intros; apply AF; cbn; auto.
  - clear. induction (S k); cbn; auto.
  - rewrite (and_run_eq (S k) i0 i1 e e _ _ false false); auto.
  - split; auto.
Qed.
Print Assumptions C41_fan_in_three_refuted.

(** ** C41: executions *)

(** Both parties run [setup_gate_outputs], share their inputs, and execute with setup data that
    satisfies [eval_ok] for the masks of their gates. *)
Lemma aby_run_ok : forall c m os priv0 priv1 joint,
  main_ok aby_ops c -> c_simd c = None -> aby_operands c ->
  omap m (c_inputs c) = Some os ->
  exists ec s t s1 t1 go0 go1 l0 l1,
    ec_of_base aby_ops c = Some ec /\
    ds_new 0 priv0 joint (by_map 0 m) = Some s /\ ds_new 1 priv1 joint (by_map 1 m) = Some t /\
    setup_gate_outputs ec s = Some (s1, go0) /\ setup_gate_outputs ec t = Some (t1, go1) /\
    (forall g, ec_gate ec g <> None ->
       exists a b, go_get (pr:=aby2) go0 g = Some (@CS aby2 a) /\ go_get (pr:=aby2) go1 g = Some (@CS aby2 b) /\
         as_priv a = l0 g /\ as_priv b = l1 g) /\
    (forall g p, ec_gate ec g <> None -> In p (ec_parents ec g) -> ec_gate ec p <> None) /\
    aby_typed ec /\ NoDup (ec_int_iter ec) /\
    (forall g, In g (ec_int_iter ec) -> exists n, ec_gate ec g = Some (AAnd n) /\ In (AAnd n) (c_gates c)) /\
    forall xs0 xs1 sh0 d0 s' sh1 d1 t' E0 E1,
      (forall n, In (AAnd n) (c_gates c) -> n <= 2) ->
      length xs0 = owned ByP0 os -> length xs1 = owned ByP1 os ->
      ds_share s xs0 = (sh0, d0, s') -> ds_share t xs1 = (sh1, d1, t') ->
      all3 (eval_ok ec l0 l1) (ec_int_iter ec) E0 E1 ->
      exists v o0 o1 st,
        aby_plain c (merge os xs0 xs1) v /\
        ex2_run (pr:=aby2) aby_request ec
          (@IScalar aby2 (merge os sh0 (fst (ds_plain_delta_to_share s' d1))))
          (@IScalar aby2 (merge os (fst (ds_plain_delta_to_share t' d0)) sh1))
          ((go0, from_raw E0), (go1, from_raw E1)) = Some (@IScalar aby2 o0, @IScalar aby2 o1, st) /\
        ds_reconstruct o0 o1 = Some (map v (c_outputs c)).
Proof.
  intros c m os priv0 priv1 joint Hm Hs Ho Hos.
  destruct (base_sched aby_ops c Hm) as (ls & Els & Eec & HP & HS & HSO); [congruence|auto|].
  set (s := DS (Rng priv0 0) (Rng (joint 0) 0) (Rng (joint 1) 0) (by_map 0 m)).
  set (t := DS (Rng priv1 0) (Rng (joint 1) 0) (Rng (joint 0) 0) (by_map 1 m)).
  destruct (base_setup c Hm Hs Ho ls Els HS HP s) as (s1 & go0 & l0 & S0 & Sh0 & M0 & C0 & I0).
  destruct (base_setup c Hm Hs Ho ls Els HS HP t) as (t1 & go1 & l1 & S1 & Sh1 & M1 & C1 & I1).
  set (ec := ec_base c ls) in *.
  assert (HT : aby_typed ec) by (apply aby_base_typed; auto).
  exists ec, s, t, s1, t1, go0, go1, l0, l1.
  split; auto. split; [reflexivity|]. split; [reflexivity|]. split; auto. split; auto.
  assert (Hgo : forall g, ec_gate ec g <> None ->
       exists a b, go_get (pr:=aby2) go0 g = Some (@CS aby2 a) /\ go_get (pr:=aby2) go1 g = Some (@CS aby2 b) /\
         as_priv a = l0 g /\ as_priv b = l1 g).
  { intros g Hg. destruct (ec_gate ec g) as [gate|] eqn:Eg; [|congruence].
    destruct (C0 g gate Eg) as (a & A1 & A2). destruct (C1 g gate Eg) as (b & B1 & B2). eauto 8. }
  split; auto.
  assert (Hiter : forall g, ec_gate ec g <> None -> In g (ec_iter ec)).
  { intros [z g] Hg. unfold ec in *. rewrite ec_iter_base. cbn in Hg. destruct (Nat.eqb_spec z 0) as [->|]; [|congruence].
    apply in_pair0. apply (all_ids_In c ls HP). apply nth_error_Some. auto. }
  assert (Hpar : forall g p, ec_gate ec g <> None -> In p (ec_parents ec g) -> ec_gate ec p <> None).
  { intros g p Hg Hp. apply Hiter in Hg. destruct (in_split _ _ Hg) as (i1 & i2 & Ei).
    destruct (iter_order c ls HS HP _ _ _ Ei) as (_ & _ & Hincl). apply Hincl in Hp.
    destruct (in_split _ _ Hp) as (j1 & j2 & Ej). rewrite Ej, <- app_assoc in Ei. cbn [app] in Ei.
    destruct (iter_order c ls HS HP _ _ _ Ei) as ((gate & Eg) & _). unfold ec. congruence. }
  split; auto. split; auto.
  split. { unfold ec_int_iter. apply NoDup_filter. unfold ec. rewrite ec_iter_base.
    apply FinFun.Injective_map_NoDup; [intros x y E; injection E; auto|]. apply (all_ids_nodup c ls HP). }
  split. { intros g Hg. unfold ec_int_iter in Hg. apply filter_In in Hg. destruct Hg as [_ Hg].
    destruct (ec_gate ec g) as [gate|] eqn:Eg; [|discriminate]. destruct gate as [|fan| |]; try discriminate.
    exists fan. split; auto. cbn in Eg. destruct (fst g =? 0); [|discriminate]. eapply nth_error_In; eauto. }
  intros xs0 xs1 sh0 d0 s' sh1 d1 t' E0 E1 Hf L0 L1 X0 X1 HE.
  pose proof (omap_length _ _ _ Hos) as Los.
  destruct (aby_plain_exists c Hm Ho ls HS HP (merge os xs0 xs1)) as (v & Hv).
  { rewrite merge_length; auto. }
  exists v.
  assert (Rs : ds_remote s' = ds_local t).
  { rewrite ds_share_spec in X0. injection X0 as _ _ <-. reflexivity. }
  assert (Rt : ds_remote t' = ds_local s).
  { rewrite ds_share_spec in X1. injection X1 as _ _ <-. reflexivity. }
  destruct (share_all3 s xs0 sh0 d0 s' t' X0 Rt) as (A0 & P0 & Q0 & _).
  destruct (share_all3 t xs1 sh1 d1 t' s' X1 Rs) as (A1 & P1 & Q1 & _).
  set (r0 := fst (ds_plain_delta_to_share s' d1)) in *. set (r1 := fst (ds_plain_delta_to_share t' d0)) in *.
  assert (A1' : all3 carries xs1 r0 sh1).
  { clear - A1. induction A1 as [|x a b xs la lb [P Q] H IH]; constructor; auto. split; auto.
    rewrite P in Q. rewrite Q. f_equal. apply xorb_comm. }
  pose proof (merge_all3 carries os _ _ _ _ _ _ A0 A1') as AM.
  destruct (all3_length _ _ _ _ AM) as [LM0 LM1]. rewrite (merge_length os xs0 xs1 L0 L1) in LM0, LM1.
  assert (D0 : map as_priv (merge os sh0 r0) = map (fun i => l0 (0, i)) (c_inputs c)).
  { rewrite I0, (input_draws_merge m (c_inputs c) os _ _ 0 Hos) by auto. cbn [Nat.eqb].
    rewrite merge_map, P0, Q1, L0, L1. reflexivity. }
  assert (D1 : map as_priv (merge os r1 sh1) = map (fun i => l1 (0, i)) (c_inputs c)).
  { rewrite I1, (input_draws_merge m (c_inputs c) os _ _ 1 Hos) by auto. cbn [Nat.eqb].
    rewrite merge_map, P1, Q0, L0, L1. reflexivity. }
  destruct (aby_exec_sound ec (fun g => v (snd g)) l0 l1 (merge os xs0 xs1) HT) with
    (Todo := fun g : gid => fst g = 0) (go0 := go0) (go1 := go1) (s0 := merge os sh0 r0) (s1 := merge os r1 sh1)
    (t0 := from_raw E0) (t1 := from_raw E1) as (o0 & o1 & st & ER & AO); auto.
  - intros g n Hg. apply Hf. cbn in Hg. destruct (fst g =? 0); [|discriminate]. eapply nth_error_In; eauto.
  - apply aby_base_valuation; auto.
  - cbn. destruct Hm as (Ha & _). apply api_api_wf in Ha. rewrite (aw_inputs _ _ Ha). unfold ids_where. apply NoDup_filter, seq_NoDup.
  - intros i id x Hi Hx. cbn [ec_base ec_inputs ec] in Hi.
    destruct (all3_nth _ _ _ _ AM i x Hx) as (a & b & Ea & Eb & HC). exists a, b. split; auto. split; auto. split; auto.
    split.
    + pose proof (map_nth_error as_priv i _ Ea) as Y. rewrite D0, (map_nth_error _ _ _ Hi) in Y. congruence.
    + pose proof (map_nth_error as_priv i _ Eb) as Y. rewrite D1, (map_nth_error _ _ _ Hi) in Y. congruence.
  - cbn. lia.
  - cbn. lia.
  - intros g k0 k1 _ K0 K1 Hg. destruct (Hgo g Hg) as (a & b & G0 & G1 & Pa & Pb).
    pose proof (go_get_cell (pr:=aby2) go0 g (@CS aby2 a)) as U0. pose proof (go_get_cell (pr:=aby2) go1 g (@CS aby2 b)) as U1.
    rewrite (proj1 (U0 G0)) in K0. rewrite (proj1 (U1 G1)) in K1. injection K0 as <-. injection K1 as <-. auto.
  - exists E0, E1. split; auto. split; auto. unfold ec in *. rewrite <- int_iter_layers; auto.
  - exists o0, o1, st. split; auto. split; auto.
    assert (AO' : all3 carries (map v (c_outputs c)) o0 o1).
    { clear - AO. cbn [ec_base ec_outputs ec] in AO. revert o0 o1 AO.
      induction (c_outputs c) as [|x r IH]; intros o0 o1 AO; cbn [map] in *.
      - apply all3_nil_inv in AO. destruct AO as [-> ->]. constructor.
      - destruct (all3_cons_inv _ _ _ _ _ AO) as (a & b & ra & rb & -> & -> & [X _] & AO').
        constructor; auto. }
    apply C40_reconstruct; auto. destruct (all3_length _ _ _ _ AO'). congruence.
Qed.

(** Complete executions with the setup of the helper party ([AstraSetupHelper],
    [AstraSetupProvider]): for every circuit with binary AND gates, all seeds and all inputs of
    both parties the reconstructed outputs are the plain values of the circuit. *)
Theorem C41_astra_execution : forall c m os priv0 priv1 joint lam,
  main_ok aby_ops c -> c_simd c = None -> aby_operands c ->
  (forall n, In (AAnd n) (c_gates c) -> n = 2) ->
  omap m (c_inputs c) = Some os ->
  exists ec s t s1 t1 go0 go1 msg,
    ec_of_base aby_ops c = Some ec /\
    ds_new 0 priv0 joint (by_map 0 m) = Some s /\ ds_new 1 priv1 joint (by_map 1 m) = Some t /\
    setup_gate_outputs ec s = Some (s1, go0) /\ setup_gate_outputs ec t = Some (t1, go1) /\
    helper_setup ec m priv0 priv1 joint lam = Some msg /\
    forall xs0 xs1 sh0 d0 s' sh1 d1 t',
      length xs0 = owned ByP0 os -> length xs1 = owned ByP1 os ->
      ds_share s xs0 = (sh0, d0, s') -> ds_share t xs1 = (sh1, d1, t') ->
      exists v o0 o1 st,
        aby_plain c (merge os xs0 xs1) v /\
        ex2_run (pr:=aby2) aby_request ec
          (@IScalar aby2 (merge os sh0 (fst (ds_plain_delta_to_share s' d1))))
          (@IScalar aby2 (merge os (fst (ds_plain_delta_to_share t' d0)) sh1))
          ((go0, astra_p0 ec lam), (go1, astra_p1 msg)) = Some (@IScalar aby2 o0, @IScalar aby2 o1, st) /\
        ds_reconstruct o0 o1 = Some (map v (c_outputs c)).
Proof.
  intros c m os priv0 priv1 joint lam Hm Hs Ho Hf Hos.
  destruct (aby_run_ok c m os priv0 priv1 joint Hm Hs Ho) as
    (ec & s & t & s1 & t1 & go0 & go1 & l0 & l1 & Eec & Es & Et & S0 & S1 & Hgo & Hpar & HT & Hnd & Hint & Hrun); auto.
  assert (Hrec : forall g p, In g (ec_int_iter ec) -> In p (ec_parents ec g) -> helper_rec go0 go1 p = Some (xorb (l0 p) (l1 p))).
  { intros g p Hg Hp. destruct (Hint g Hg) as (n & Eg & _).
    destruct (Hgo p) as (a & b & G0 & G1 & Pa & Pb). { apply (Hpar g); auto. congruence. }
    pose proof (go_get_cell (pr:=aby2) go0 p (@CS aby2 a) G0) as [U0 _].
    pose proof (go_get_cell (pr:=aby2) go1 p (@CS aby2 b) G1) as [U1 _].
    unfold helper_rec. rewrite U0, U1. cbn. rewrite Pa, Pb. auto. }
  destruct (helper_msg_ok ec l0 l1 (helper_rec go0 go1) lam (ec_int_iter ec) 0) as (msg & Emsg & Hall).
  { intros g Hg. destruct (Hint g Hg) as (n & Eg & Hn). rewrite (Hf n Hn) in Eg. split; auto.
    pose proof (proj2 HT g _ Eg) as L. cbn in L. destruct (ec_parents ec g) as [|p [|q [|? ?]]]; try discriminate. eauto. }
  { auto. }
  exists ec, s, t, s1, t1, go0, go1, msg.
  split; auto. split; auto. split; auto. split; auto. split; auto. split.
  { unfold helper_setup, helper_outputs. rewrite Es, Et. cbn [obind]. rewrite S0, S1. cbn [obind]. auto. }
  intros xs0 xs1 sh0 d0 s' sh1 d1 t' L0 L1 X0 X1.
  apply (Hrun xs0 xs1 sh0 d0 s' sh1 d1 t' _ _ (fun n Hn => eq_ind_r (fun n => n <= 2) (le_n 2) (Hf n Hn)) L0 L1 X0 X1 Hall).
Qed.
Print Assumptions C41_astra_execution.

(** ** Concrete cases *)

(** x AND (NOT (y XOR z)) with x, z from party 0 and y from party 1. *)
Definition aby_demo : circuit aby_gate :=
  c_build aby_ops c_new_main
    [(ABase GInput, []); (ABase GInput, []); (ABase GInput, []); (AXor, [1; 2]); (AInv, [3]);
     (AAnd 2, [0; 4]); (ABase GOutput, [5]); (ABase GOutput, [4])].
Definition aby_demo_m (i : nat) : option input_by :=
  match i with 0 | 2 => Some ByP0 | 1 => Some ByP1 | _ => None end.

Example C41_case :
  main_ok aby_ops aby_demo /\ c_simd aby_demo = None /\ aby_operands aby_demo /\
  (forall n, In (AAnd n) (c_gates aby_demo) -> n = 2) /\
  omap aby_demo_m (c_inputs aby_demo) = Some [ByP0; ByP1; ByP0] /\
  forall x y z,
  exists v, aby_plain aby_demo [x; y; z] v /\
    map v (c_outputs aby_demo) = [x && negb (xorb y z); negb (xorb y z)].
Proof.
  split. { apply main_check_ok; [apply c_build_api; constructor|]; vm_compute; reflexivity. }
  split; [reflexivity|]. split.
  { intros g gate E. do 8 (destruct g as [|g]; [vm_compute in E; injection E as <-; vm_compute; auto|]).
    vm_compute in E. destruct g; discriminate. }
  split. { intros n Hn. vm_compute in Hn. repeat (destruct Hn as [Hn|Hn]; [try discriminate; injection Hn as <-; auto|]). destruct Hn. }
  split; [reflexivity|]. intros x y z.
  exists (fun g => nth g [x; y; z; xorb y z; negb (xorb y z); x && negb (xorb y z); x && negb (xorb y z); negb (xorb y z)] false).
  split; [|reflexivity].
  intros g gate E. do 8 (destruct g as [|g]; [vm_compute in E; injection E as <-; 
    solve [exists 0; split; reflexivity | exists 1; split; reflexivity | exists 2; split; reflexivity
          | vm_compute; destruct x, y, z; reflexivity]|]).
  vm_compute in E. destruct g; discriminate.
Qed.

Example C40_case :
  let s := DS (Rng Nat.odd 3) (Rng Nat.even 5) (Rng (fun i => i =? 2) 0) (fun _ => None) in
  let t := DS (Rng Nat.even 0) (Rng Nat.odd 0) (Rng Nat.even 5) (fun _ => None) in
  ds_remote t = ds_local s /\
  exists sh d s', ds_share s [true; false; true] = (sh, d, s') /\ In true d /\ In false d.
Proof. split; [reflexivity|]. eexists _, _, _. split; [reflexivity|]. vm_compute. auto. Qed.

(** The hypotheses on one AND gate: with masks that differ, and shares of their product. *)
Example C41_gate_case :
  let i0 := [AS true true; AS false true] in let i1 := [AS true false; AS false false] in
  all3 carries [false; true] i0 i1 /\ setup_for i0 i1 [false] [true] /\
  setup_for [AS true true; AS false true; AS true true] [AS true true; AS false true; AS true true]
    [false; true; false; true] [false; true; false; true].
Proof. split; [repeat constructor|]. split; split; reflexivity. Qed.
