(** C23: precomputed layers. *)
From Coq Require Import List Bool Arith Lia Permutation.
Require Import Verif.Prelude Verif.PreludeProofs Verif.GateModel Verif.CircuitModel Verif.CircuitSpec Verif.CircuitCheck
  Verif.BoolGmwModel Verif.ExecModel Verif.ConnModel Verif.ConnSpec Verif.ConnProofs2 Verif.ConnTheorems
  Verif.MultiModel Verif.MultiSpec Verif.MultiProofs Verif.MultiProofs2 Verif.MultiTheorems
  Verif.StaticModel Verif.StaticSpec Verif.StaticProofs Verif.StaticProofs2 Verif.StaticProofs3.
Import ListNotations.

(** ** C23 *)
(** The precomputation succeeds, and iterating over its result gives the layers
    of the original circuit, with the same gates and parents, as a whole and for
    the scalar and the SIMD circuits alone.  Partial: the circuits have to get
    their first layers in the order of their numbers and before copies of one
    circuit part, and parting copies have to be told apart by that layer.  Without
    this the claim is false, see the refutations below. *)
Theorem C23_same_layers_partial : forall {P G} (ops : gate_ops P G) geqb imax m h perm ls,
  (forall a b : G, geqb a b = true <-> a = b) ->
  circuits_ok ops (mc_get m) -> wires_ok ops (mc_get m) h -> wired_as imax m h -> rearranges perm ->
  mc_layers ops imax m perm = Some ls ->
  opens_in_order m ls -> opens_before_parting m h ls -> parts_cleanly m h ls ->
  exists s vs, st_precompute ops geqb imax m perm = Some s /\
    omap (omap (layer_view m imax)) ls = Some vs /\
    st_views imax s false false = Some vs /\
    st_views imax s true false = omap (omap (layer_view m imax)) (map scalar_part ls) /\
    st_views imax s false true = omap (omap (layer_view m imax)) (map simd_part ls) /\
    exists c0, mc_get m 0 = Some c0 /\ st_ins s = c_inputs c0 /\ st_outs s = c_outputs c0.
Proof.
  intros P G ops geqb imax m h perm ls Hg Hc Hw Hwd Hp Hls Ho Hop Hcl.
  destruct (pre_total ops m imax h Hc Hw Hwd perm Hp ls Hls) as (tls & Htls).
  destruct (precompute_final ops m imax h Hc Hw Hwd perm Hp ls Hls tls Htls geqb Hg Ho Hop Hcl) as (s & A & B & C & D & E).
  destruct (static_views ops m imax h Hc Hw Hwd perm Hp ls Hls tls Htls s B C D) as (vs & V1 & V2 & V3 & V4).
  exists s, vs. auto 10.
Qed.
Print Assumptions C23_same_layers_partial.

(** In particular when the copies of a circuit all run through alike layers. *)
Theorem C23_alike_partial : forall {P G} (ops : gate_ops P G) geqb imax m h perm ls,
  (forall a b : G, geqb a b = true <-> a = b) ->
  circuits_ok ops (mc_get m) -> wires_ok ops (mc_get m) h -> wired_as imax m h -> rearranges perm ->
  mc_layers ops imax m perm = Some ls ->
  opens_in_order m ls -> copies_alike m h ls ->
  exists s, st_precompute ops geqb imax m perm = Some s /\
    omap (omap (layer_view m imax)) ls = st_views imax s false false /\ st_views imax s false false <> None.
Proof.
  intros P G ops geqb imax m h perm ls Hg Hc Hw Hwd Hp Hls Ho Ha. destruct (alike_never_parts m h ls Ha) as [H1 H2].
  destruct (C23_same_layers_partial ops geqb imax m h perm ls Hg Hc Hw Hwd Hp Hls Ho H1 H2) as (s & vs & A & B & C & _).
  exists s. rewrite B, C. split; auto. split; auto. discriminate.
Qed.
Print Assumptions C23_alike_partial.

(** The counts are those of the original circuit, where every circuit is called
    and has a gate. *)
Theorem C23_same_counts_partial : forall {P G} (ops : gate_ops P G) geqb imax m h perm ls,
  (forall a b : G, geqb a b = true <-> a = b) ->
  circuits_ok ops (mc_get m) -> wires_ok ops (mc_get m) h -> wired_as imax m h -> rearranges perm ->
  mc_layers ops imax m perm = Some ls ->
  opens_in_order m ls -> opens_before_parting m h ls -> parts_cleanly m h ls ->
  all_callable ops (mc_get m) h ->
  (forall sc, sc < length (mc_map m) -> exists c, mc_get m sc = Some c /\ c_count c <> 0) ->
  exists s, st_precompute ops geqb imax m perm = Some s /\
    st_gate_counts s = Some (map (fun id => match mc_get m id with Some c => (c_count c, c_simd c) | None => (0, None) end)
                                 (seq 0 (length (mc_map m)))) /\
    st_gate_count s = Some (mc_count m) /\
    st_int_count s = Some (sum_list (map (fun id => match mc_get m id with Some c => c_icount c | None => 0 end)
                                         (seq 0 (length (mc_map m))))) /\
    st_int_count_simd s = Some (mc_int_count m).
Proof.
  intros P G ops geqb imax m h perm ls Hg Hc Hw Hwd Hp Hls Ho Hop Hcl Hcall Hgates.
  destruct (pre_total ops m imax h Hc Hw Hwd perm Hp ls Hls) as (tls & Htls).
  destruct (precompute_final ops m imax h Hc Hw Hwd perm Hp ls Hls tls Htls geqb Hg Ho Hop Hcl) as (s & A & B & C & D & E).
  exists s. split; auto.
  apply (static_counts ops m imax h Hc Hw Hwd perm Hp ls Hls tls Htls Hcall Hgates s B).
Qed.
Print Assumptions C23_same_counts_partial.

(** *** Deciding the conditions for a given program *)
Definition alike_b (h : list (gid * gid)) (sc1 : nat) (b1 : blayer) (sc2 : nat) (b2 : blayer) : bool :=
  list_eqb Nat.eqb (bl_ni b1) (bl_ni b2) && list_eqb Nat.eqb (bl_int b1) (bl_int b2) &&
  forallb (fun id => Bool.eqb (existsb (fun w => gid_eqb (snd w) (sc1, id)) h)
                              (existsb (fun w => gid_eqb (snd w) (sc2, id)) h)) (bl_ni b1 ++ bl_int b1).

Definition parted_b (h : list (gid * gid)) (sc1 sc2 : nat) (l : elayer) (d : nat) : bool :=
  let h1 := history sc1 [l] in let h2 := history sc2 [l] in
  forallb (fun j => match nth_error h1 j, nth_error h2 j with
                    | Some b1, Some b2 => alike_b h sc1 b1 sc2 b2 | _, _ => true end) (seq 0 d) &&
  match nth_error h1 d, nth_error h2 d with Some b1, Some b2 => negb (alike_b h sc1 b1 sc2 b2) | _, _ => false end.

Definition copies (m : list nat) (k : nat) : list nat :=
  filter (fun sc => match nth_error m sc with Some k' => k' =? k | None => false end) (seq 0 (length m)).

Definition step_check (h : list (gid * gid)) (mp : list nat) (l1 : elayer) (e : nat * option nat * blayer) : bool :=
  let sc := fst (fst e) in
  match nth_error mp sc with
  | None => false
  | Some k =>
      let p := length (history sc [l1]) in
      let opened k' := existsb (fun e' => match nth_error mp (fst (fst e')) with Some q => q =? k' | None => false end) l1 in
      forallb opened (seq 0 k) &&
      (opened k || forallb (fun k' => forallb (fun a => forallb (fun b => forallb (fun d => negb (parted_b h a b l1 d))
         (seq 0 (length l1))) (copies mp k')) (copies mp k')) mp) &&
      (negb (existsb (fun a => parted_b h sc a (l1 ++ [e]) p) (copies mp k)) ||
       forallb (fun b => negb (existsb (parted_b h sc b l1) (seq 0 (length l1))) ||
         match nth_error (history b [l1]) p with Some bl => negb (alike_b h sc (snd e) b bl) | None => false end) (copies mp k))
  end.

Fixpoint steps_check (h : list (gid * gid)) (mp : list nat) (l1 l2 : elayer) : bool :=
  match l2 with
  | [] => true
  | e :: r => step_check h mp l1 e && steps_check h mp (l1 ++ [e]) r
  end.

Lemma list_eqb_nat a b : list_eqb Nat.eqb a b = true <-> a = b.
Proof. apply list_eqb_spec. intros; apply Nat.eqb_eq. Qed.

Lemma existsb_wire h g : existsb (fun w => gid_eqb (snd w) g) h = true <-> exists p : gid, In (p, g) h.
Proof.
  rewrite existsb_exists. split.
  - intros ((p & t) & H & E). unfold gid_eqb in E. cbn [snd] in E. apply andb_true_iff in E. rewrite !Nat.eqb_eq in E.
    exists p. destruct E, t, g; cbn [fst snd] in *; subst; auto.
  - intros (p & H). exists (p, g). split; auto. unfold gid_eqb. cbn [snd]. rewrite !Nat.eqb_refl. auto.
Qed.

Lemma alike_b_spec h sc1 b1 sc2 b2 : alike_b h sc1 b1 sc2 b2 = true <-> alike h sc1 b1 sc2 b2.
Proof.
  unfold alike_b, alike. rewrite !andb_true_iff, !list_eqb_nat, forallb_forall.
  assert (X : forall id, Bool.eqb (existsb (fun w => gid_eqb (snd w) (sc1, id)) h) (existsb (fun w => gid_eqb (snd w) (sc2, id)) h) = true
    <-> ((exists p, In (p, (sc1, id)) h) <-> (exists p, In (p, (sc2, id)) h))).
  { intros id. rewrite <- !existsb_wire, Bool.eqb_true_iff.
    destruct (existsb (fun w => gid_eqb (snd w) (sc1, id)) h), (existsb (fun w => gid_eqb (snd w) (sc2, id)) h); split; try tauto; intros H;
      try discriminate; try (symmetry; apply H; reflexivity); apply H; reflexivity. }
  split.
  - intros [[A B] C]. split; auto. split; auto. intros id Hid. apply X. auto.
  - intros (A & B & C). split; auto. intros id Hid. apply X. auto.
Qed.

Lemma parted_b_ok h sc1 sc2 l d : parted h sc1 sc2 [l] d -> parted_b h sc1 sc2 l d = true.
Proof.
  intros (A & b1 & b2 & B1 & B2 & B3). unfold parted_b. apply andb_true_iff. split.
  - apply forallb_forall. intros j Hj. apply in_seq in Hj.
    destruct (nth_error (history sc1 [l]) j) as [x|] eqn:Ex; auto.
    destruct (nth_error (history sc2 [l]) j) as [y|] eqn:Ey; auto. apply alike_b_spec. apply (A j); auto. lia.
  - rewrite B1, B2. destruct (alike_b h sc1 b1 sc2 b2) eqn:E; auto. exfalso. apply B3. apply alike_b_spec. auto.
Qed.

Lemma history_length sc l : length (history sc [l]) <= length l.
Proof.
  unfold history. cbn [concat]. rewrite app_nil_r, map_length. induction l as [|e l IH]; simpl; auto.
  destruct (fst (fst e) =? sc); simpl; lia.
Qed.

Lemma parted_bound h sc1 sc2 l d : parted h sc1 sc2 [l] d -> d < length l.
Proof.
  intros (_ & b1 & b2 & B1 & _). apply Nat.lt_le_trans with (length (history sc1 [l])).
  - apply nth_error_Some. congruence.
  - apply history_length.
Qed.

Lemma copies_In mp sc k : nth_error mp sc = Some k -> In sc (copies mp k).
Proof.
  intros H. apply filter_In. split.
  - apply in_seq. assert (sc < length mp) by (apply nth_error_Some; congruence). lia.
  - rewrite H. apply Nat.eqb_refl.
Qed.

Lemma steps_split h mp : forall l2 l1 a e b, steps_check h mp l1 l2 = true -> l2 = a ++ e :: b ->
  step_check h mp (l1 ++ a) e = true.
Proof.
  induction l2 as [|x l2 IH]; intros l1 a e b H E; [destruct a; discriminate|].
  cbn [steps_check] in H. apply andb_true_iff in H. destruct H as [H1 H2]. destruct a as [|y a].
  - cbn [app] in E. injection E as <- <-. rewrite app_nil_r. auto.
  - cbn [app] in E. injection E as <- E. specialize (IH (l1 ++ [x]) a e b H2 E). rewrite <- app_assoc in IH. auto.
Qed.

Lemma steps_check_ok {G} (m : mcirc G) h ls : steps_check h (mc_map m) [] (concat ls) = true ->
  opens_in_order m ls /\ opens_before_parting m h ls /\ parts_cleanly m h ls.
Proof.
  intros H.
  assert (S : forall l1 e l2, concat ls = l1 ++ e :: l2 -> step_check h (mc_map m) l1 e = true)
    by (intros l1 e l2 E; exact (steps_split h (mc_map m) _ [] l1 e l2 H E)).
  assert (Op : forall l1 k, existsb (fun e' : nat * option nat * blayer => match nth_error (mc_map m) (fst (fst e')) with Some q => q =? k | None => false end) l1
      = true -> exists e', In e' l1 /\ copy_of m (fst (fst e')) k).
  { intros l1 k He. apply existsb_exists in He. destruct He as (e' & A & B). exists e'. split; auto. unfold copy_of.
    destruct (nth_error (mc_map m) (fst (fst e'))); [|discriminate]. apply Nat.eqb_eq in B. congruence. }
  split; [|split].
  - intros l1 e l2 k k' E Hk Hlt. specialize (S l1 e l2 E). unfold step_check in S. unfold copy_of in Hk. rewrite Hk in S.
    apply andb_true_iff in S. destruct S as [S _]. apply andb_true_iff in S. destruct S as [S _].
    rewrite forallb_forall in S. apply Op. apply S. apply in_seq. lia.
  - intros l1 e l2 k E Hk Hno sc1 sc2 k' d H1 H2 Hp. specialize (S l1 e l2 E). unfold step_check in S. unfold copy_of in *. rewrite Hk in S.
    apply andb_true_iff in S. destruct S as [S _]. apply andb_true_iff in S. destruct S as [_ S].
    apply orb_true_iff in S. destruct S as [S|S].
    + apply Op in S. destruct S as (e' & A & B). apply (Hno e' A B).
    + rewrite forallb_forall in S. specialize (S k' (nth_error_In _ _ H1)).
      rewrite forallb_forall in S. specialize (S sc1 (copies_In _ _ _ H1)).
      rewrite forallb_forall in S. specialize (S sc2 (copies_In _ _ _ H2)).
      rewrite forallb_forall in S. specialize (S d).
      rewrite (parted_b_ok _ _ _ _ _ Hp) in S. discriminate S. apply in_seq. apply parted_bound in Hp. lia.
  - intros l1 e l2 k sc1 sc2 d E Hk H1 H2 p Hp1 Hp2. subst p. specialize (S l1 e l2 E). unfold step_check in S. unfold copy_of in *. rewrite Hk in S.
    apply andb_true_iff in S. destruct S as [_ S]. cbv zeta in S. apply orb_true_iff in S. destruct S as [S|S].
    + apply negb_true_iff in S. exfalso. assert (X : existsb (fun a => parted_b h (fst (fst e)) a (l1 ++ [e]) (length (history (fst (fst e)) [l1]))) (copies (mc_map m) k) = true);
        [|exact (eq_true_false_abs _ X S)]. apply existsb_exists. exists sc1. split; [apply copies_In; auto|]. apply parted_b_ok. auto.
    + rewrite forallb_forall in S. specialize (S sc2 (copies_In _ _ _ H2)). apply orb_true_iff in S. destruct S as [S|S].
      * apply negb_true_iff in S. exfalso. assert (X : existsb (parted_b h (fst (fst e)) sc2 l1) (seq 0 (length l1)) = true); [|exact (eq_true_false_abs _ X S)].
        apply existsb_exists. exists d. split; [|apply parted_b_ok; auto]. apply in_seq. apply parted_bound in Hp2. lia.
      * revert S. match goal with |- context [match ?x with Some _ => _ | None => false end] => destruct x as [bl|] eqn:En end;
          intros S; [|discriminate]. exists bl. split; [exact En|]. intros Ha.
        apply alike_b_spec in Ha. rewrite Ha in S. discriminate.
Qed.

(** Programs given by their wires. *)
Definition single_calls (ws : list (gid * gid)) : list (call * circuit bool_gate) :=
  map (fun w => (Call [fst w] (fst (snd w)) [snd (snd w)], c_new)) ws.
Definition wire_conns (ws : list (gid * gid)) : conns :=
  match connect_calls (fun _ : bool_gate => 1) cn_empty (single_calls ws) with Some cn => cn | None => cn_empty end.
Definition program_of (cs : list (circuit bool_gate)) (mp : list nat) (ws : list (gid * gid)) : mcirc bool_gate :=
  MC cs mp (wire_conns ws).

Lemma wired_singles imax cs mp ws :
  connect_calls (fun _ : bool_gate => 1) cn_empty (single_calls ws) = Some (wire_conns ws) ->
  forallb (fun w : gid * gid => (snd (fst w) <=? imax) && (snd (snd w) <=? imax)) ws = true ->
  wired_as imax (program_of cs mp ws) ws.
Proof.
  intros Hc Hb. 
  assert (E : concat (map intended (map fst (single_calls ws))) = ws).
  { clear. induction ws as [|[f [k t]] ws IH]; auto. cbn [single_calls map concat fst snd]. unfold single_calls in IH. rewrite IH. auto. }
  rewrite <- E at 2.
  assert (N : forall f : gid * gid -> gid, no_nesting (map (fun w => (f w, f w)) ws)).
  { intros f r1 r2 H1 H2. apply in_map_iff in H1, H2. destruct H1 as (x & <- & _), H2 as (y & <- & _). cbn [fst snd]. unfold gid in *.
    intros; lia. }
  assert (EC : concat (map (fun w : gid * gid => [((fst w, fst w), (snd w, snd w))]) ws) = map (fun w => ((fst w, fst w), (snd w, snd w))) ws).
  { clear. induction ws; simpl; congruence. }
  refine (wired_as_ranges (fun _ => 1) imax (single_calls ws) (wire_conns ws)
    (map (fun w => [((fst w, fst w), (snd w, snd w))]) ws) cs mp Hc _ _ _ _ _).
  - apply Forall_forall. intros x _ t g _ _. auto.
  - clear. induction ws as [|[f [k t]] ws IH]; constructor; auto. apply call_single.
  - apply Forall_forall. intros x Hx. unfold single_calls in Hx. apply in_map_iff in Hx. destruct Hx as (w & <- & Hw).
    rewrite forallb_forall in Hb. specialize (Hb w Hw). apply andb_true_iff in Hb. rewrite !Nat.leb_le in Hb. cbn.
    split; [|split]; auto; constructor; try tauto; constructor.
  - refine (eq_ind_r no_nesting _ (f_equal (map fst) EC)). rewrite map_map. apply (N fst).
  - refine (eq_ind_r no_nesting _ (f_equal (map snd) EC)). rewrite map_map. apply (N snd).
Qed.

(** boolean_gmw.rs 33 and base.rs 6: the derived [PartialEq] of the gates. *)
Definition bool_gate_eqb (a b : bool_gate) : bool :=
  match a, b with
  | BXor, BXor | BAnd, BAnd | BInv, BInv => true
  | BBase x, BBase y =>
      match x, y with
      | GInput, GInput | GOutput, GOutput | GScInput, GScInput | GScOutput, GScOutput
      | GConnectToMain, GConnectToMain | GIdentity, GIdentity | GDebug, GDebug => true
      | GConnectToMainFromSimd i, GConnectToMainFromSimd j => i =? j
      | GConstant u, GConstant v => Bool.eqb u v
      | _, _ => false
      end
  | _, _ => false
  end.

Lemma bool_gate_eqb_spec a b : bool_gate_eqb a b = true <-> a = b.
Proof.
  split.
  - destruct a as [x| | |], b as [y| | |]; try discriminate; auto.
    destruct x, y; try discriminate; auto; simpl; intros H; [apply Nat.eqb_eq in H|apply Bool.eqb_prop in H]; congruence.
  - intros <-. destruct a as [x| | |]; auto. destruct x; simpl; auto; [apply Nat.eqb_refl|apply Bool.eqb_reflx].
Qed.

(** What the theorems above ask of a program, apart from the order of its layers. *)
Definition valid_program (m : mcirc bool_gate) (h : list (gid * gid)) : Prop :=
  circuits_ok bool_ops (mc_get m) /\ wires_ok bool_ops (mc_get m) h /\ wired_as 100 m h /\
  all_callable bool_ops (mc_get m) h.

Fixpoint nodup_b (l : list gid) : bool :=
  match l with [] => true | x :: r => negb (existsb (gid_eqb x) r) && nodup_b r end.

Lemma nodup_b_ok l : nodup_b l = true -> NoDup l.
Proof.
  induction l as [|x l IH]; intros H; constructor.
  - cbn [nodup_b] in H. apply andb_true_iff in H. destruct H as [H _]. apply negb_true_iff in H. intros Hin.
    assert (X : existsb (gid_eqb x) l = true); [|congruence]. apply existsb_exists. exists x. split; auto.
    unfold gid_eqb. rewrite !Nat.eqb_refl. auto.
  - apply IH. cbn [nodup_b] in H. apply andb_true_iff in H. tauto.
Qed.

Lemma valid_check cs mp ws rank : (exists c, mc_get (program_of cs mp ws) 0 = Some c) ->
  Forall (fun c => api bool_ops c /\ bc_check bool_ops c = true) cs ->
  nodup_b (map snd ws) = true -> wires_check bool_ops (program_of cs mp ws) ws = true ->
  connect_calls (fun _ : bool_gate => 1) cn_empty (single_calls ws) = Some (wire_conns ws) ->
  forallb (fun w : gid * gid => (snd (fst w) <=? 100) && (snd (snd w) <=? 100)) ws = true ->
  rank_check bool_ops (program_of cs mp ws) ws rank = true ->
  valid_program (program_of cs mp ws) ws.
Proof.
  intros H0 Hc Hn Hw Hcc Hb Hr. split; [|split; [|split]].
  - apply circuits_ok_list; auto.
  - apply wires_check_ok; auto. apply nodup_b_ok. auto.
  - apply wired_singles; auto.
  - apply rank_check_ok with (rank := rank). auto.
Qed.

(** The precomputation does not depend on the order of the hash map. *)
Lemma st_precompute_det {P G} (ops : gate_ops P G) geqb imax m perm : rearranges perm ->
  st_precompute ops geqb imax m perm = st_precompute ops geqb imax m (fun _ st => st).
Proof.
  intros H. unfold st_precompute. rewrite (mc_layers_det _ _ _ perm (fun _ st => st) H (fun _ st => Permutation_refl st)). auto.
Qed.

(** The ids of the gates in the views. *)
Definition view_ids (vs : list (list (view bool_gate))) : list gid :=
  concat (map (fun l => concat (map (fun '(sc, _, ni, it) => map (fun x => (sc, snd (fst x))) (ni ++ it)) l)) vs).
Definition static_ids (m : mcirc bool_gate) : option (list gid) :=
  s <- st_precompute bool_ops bool_gate_eqb 100 m (fun _ st => st) ;; option_map view_ids (st_views 100 s false false).

(** The precomputation of [m] succeeds, but the gate [g] of the original layers is
    missing from the result. *)
Definition loses (m : mcirc bool_gate) (g : gid) : Prop :=
  exists ls s vs, mc_layers bool_ops 100 m (fun _ st => st) = Some ls /\
    st_precompute bool_ops bool_gate_eqb 100 m (fun _ st => st) = Some s /\
    st_views 100 s false false = Some vs /\ In g (emitted ls) /\ ~ In g (view_ids vs).

Lemma loses_check m g :
  match mc_layers bool_ops 100 m (fun _ st => st), static_ids m with
  | Some ls, Some ids => existsb (gid_eqb g) (emitted ls) && negb (existsb (gid_eqb g) ids)
  | _, _ => false
  end = true -> loses m g.
Proof.
  unfold static_ids, loses. destruct (mc_layers bool_ops 100 m (fun _ st => st)) as [ls|]; [|discriminate].
  destruct (st_precompute bool_ops bool_gate_eqb 100 m (fun _ st => st)) as [s|]; [|discriminate]. cbn [obind].
  destruct (st_views 100 s false false) as [vs|] eqn:Ev; [|discriminate]. cbn [option_map]. intros H.
  apply andb_true_iff in H. destruct H as [H1 H2]. exists ls, s, vs. split; auto. split; auto. split; auto. split.
  - apply existsb_exists in H1. destruct H1 as (x & A & B). unfold gid_eqb in B. apply andb_true_iff in B. rewrite !Nat.eqb_eq in B.
    destruct B, g, x; cbn [fst snd] in *; subst; auto.
  - intros Hin. apply negb_true_iff in H2. assert (X : existsb (gid_eqb g) (view_ids vs) = true); [|congruence].
    apply existsb_exists. exists g. split; auto. unfold gid_eqb. rewrite !Nat.eqb_refl. auto.
Qed.

(** The AND of two inputs. *)
Definition and_sub : circuit bool_gate :=
  c_build bool_ops c_new [(BBase GScInput, []); (BBase GScInput, []); (BAnd, [0; 1]); (BBase GScOutput, [2])].

(** Two copies of [and_sub]; the second one has to wait for one of its inputs, so
    the copies part at their first layer.  The theorems above apply. *)
Definition part_main : circuit bool_gate :=
  c_build bool_ops c_new_main
    [(BBase GInput, []); (BBase GInput, []); (BAnd, [0; 1]); (BAnd, [2; 1]); (BBase GScInput, []); (BBase GScInput, []);
     (BBase GOutput, [4]); (BBase GOutput, [5])].
Definition part_wires : list (gid * gid) :=
  [((0, 0), (1, 0)); ((0, 1), (1, 1)); ((1, 3), (0, 4)); ((0, 0), (2, 0)); ((0, 3), (2, 1)); ((2, 3), (0, 5))].
Definition part_circuit : mcirc bool_gate := program_of [part_main; and_sub] [0; 1; 1] part_wires.
Definition part_rank (g : gid) : nat :=
  nth (snd g) (nth (fst g) [[0; 0; 1; 2; 10; 11; 12; 12]; [3; 3; 4; 5]; [3; 3; 4; 5]] []) 0.

Example C23_case :
  valid_program part_circuit part_wires /\
  (exists ls, mc_layers bool_ops 100 part_circuit (fun _ st => st) = Some ls /\
     opens_in_order part_circuit ls /\ opens_before_parting part_circuit part_wires ls /\
     parts_cleanly part_circuit part_wires ls /\
     map el_ids ls = [[(0, 0); (0, 1); (0, 2)]; [(0, 3); (1, 0); (1, 1); (1, 2); (2, 0)];
          [(1, 3); (2, 1); (2, 2)]; [(0, 4); (0, 6); (2, 3)]; [(0, 5); (0, 7)]]) /\
  (forall sc, sc < length (mc_map part_circuit) -> exists c, mc_get part_circuit sc = Some c /\ c_count c <> 0) /\
  option_map (fun s => map (fun x => length (ss_layers x)) (st_subs s))
    (st_precompute bool_ops bool_gate_eqb 100 part_circuit (fun _ st => st)) = Some [4; 2; 3].
Proof.
  split; [|split; [|split]].
  - apply valid_check with (rank := part_rank); try (vm_compute; reflexivity).
    + eexists. vm_compute. reflexivity.
    + constructor; [|constructor; [|constructor]]; (split; [apply c_build_api|vm_compute; reflexivity]); repeat constructor.
  - destruct (mc_layers bool_ops 100 part_circuit (fun _ st => st)) as [ls|] eqn:E; [|vm_compute in E; discriminate].
    exists ls. split; auto.
    assert (X : option_map (fun ls => (steps_check part_wires (mc_map part_circuit) [] (concat ls), map el_ids ls))
      (mc_layers bool_ops 100 part_circuit (fun _ st => st)) = Some (true, [[(0, 0); (0, 1); (0, 2)];
         [(0, 3); (1, 0); (1, 1); (1, 2); (2, 0)]; [(1, 3); (2, 1); (2, 2)]; [(0, 4); (0, 6); (2, 3)]; [(0, 5); (0, 7)]]))
      by (vm_compute; reflexivity).
    rewrite E in X. cbn [option_map] in X. apply some_inj in X. apply pair_equal_spec in X. destruct X as [X1 X2].
    destruct (steps_check_ok _ _ _ X1) as (A & B & C). auto.
  - intros sc Hsc. destruct sc as [|[|[|sc]]]; [| | |exfalso; cbn in Hsc; lia]; eexists; (split; [reflexivity|vm_compute; discriminate]).
  - vm_compute. reflexivity.
Qed.

(** Two circuits, the second of which is called first: it is given the layers of
    a new record, and the identity circuit then shares it.  The output of the
    inverting circuit is never computed. *)
Definition id_sub : circuit bool_gate := c_build bool_ops c_new [(BBase GScInput, []); (BBase GScOutput, [0])].
Definition inv_sub : circuit bool_gate :=
  c_build bool_ops c_new [(BBase GScInput, []); (BInv, [0]); (BBase GScOutput, [1])].
Definition order_main : circuit bool_gate :=
  c_build bool_ops c_new_main
    [(BBase GInput, []); (BAnd, [0; 0]); (BAnd, [0; 1]); (BBase GScInput, []); (BBase GScInput, []);
     (BBase GOutput, [3]); (BBase GOutput, [4])].
Definition order_wires : list (gid * gid) :=
  [((0, 2), (1, 0)); ((1, 1), (0, 3)); ((0, 0), (2, 0)); ((2, 2), (0, 4))].
Definition order_circuit : mcirc bool_gate := program_of [order_main; id_sub; inv_sub] [0; 1; 2] order_wires.
Definition order_rank (g : gid) : nat :=
  nth (snd g) (nth (fst g) [[0; 1; 2; 10; 10; 11; 11]; [3; 4]; [3; 4; 5]] []) 0.

Theorem C23_order_refuted : exists m h g, valid_program m h /\ loses m g.
Proof.
  exists order_circuit, order_wires, (2, 2). split.
  - apply valid_check with (rank := order_rank); try (vm_compute; reflexivity).
    + eexists. vm_compute. reflexivity.
    + constructor; [|constructor; [|constructor; [|constructor]]]; (split; [apply c_build_api|vm_compute; reflexivity]); repeat constructor.
  - apply loses_check. vm_compute. reflexivity.
Qed.
Print Assumptions C23_order_refuted.

(** A circuit with three inputs, called with arguments that become available in
    different orders. *)
Definition three_sub : circuit bool_gate :=
  c_build bool_ops c_new
    [(BBase GScInput, []); (BBase GScInput, []); (BBase GScInput, []);
     (BBase GScOutput, [0]); (BBase GScOutput, [1]); (BBase GScOutput, [2])].
Definition three_main : circuit bool_gate :=
  c_build bool_ops c_new_main
    [(BBase GInput, []); (BAnd, [0; 0]); (BAnd, [1; 1]); (BAnd, [2; 2])].
Definition three_wires (p q : nat * nat * nat) : list (gid * gid) :=
  let w sc a := [((0, fst (fst a)), (sc, 0)); ((0, snd (fst a)), (sc, 1)); ((0, snd a), (sc, 2))] in
  w 1 (0, 2, 3) ++ w 2 p ++ w 3 q.
Definition three_circuit (p q : nat * nat * nat) : mcirc bool_gate :=
  program_of [three_main; three_sub] [0; 1; 1; 1] (three_wires p q).
Definition three_rank (g : gid) : nat := fst g * 10 + snd g.

Lemma three_valid p q : In (p, q) [((0, 3, 2), (3, 0, 2)); ((3, 0, 2), (0, 3, 2))] ->
  valid_program (three_circuit p q) (three_wires p q).
Proof.
  intros [E|[E|[]]]; injection E as <- <-; (apply valid_check with (rank := three_rank); try (vm_compute; reflexivity);
    [eexists; vm_compute; reflexivity|
     constructor; [|constructor; [|constructor]]; (split; [apply c_build_api|vm_compute; reflexivity]); repeat constructor]).
Qed.

(** The third copy parts from the first one, the second one parts from it later:
    the search among the splits reads a layer the third copy does not have yet. *)
Theorem C23_panic_refuted : exists m h, valid_program m h /\
  (exists ls, mc_layers bool_ops 100 m (fun _ st => st) = Some ls) /\
  forall perm, rearranges perm -> st_precompute bool_ops bool_gate_eqb 100 m perm = None.
Proof.
  exists (three_circuit (0, 3, 2) (3, 0, 2)), (three_wires (0, 3, 2) (3, 0, 2)).
  split; [apply three_valid; simpl; auto|]. split.
  - eexists. vm_compute. reflexivity.
  - intros perm H. rewrite st_precompute_det by auto. vm_compute. reflexivity.
Qed.
Print Assumptions C23_panic_refuted.

(** The third copy is taken to be like the second one because of its second layer;
    its first layer then is that of the second copy. *)
Theorem C23_split_refuted : exists m h g, valid_program m h /\ loses m g.
Proof.
  exists (three_circuit (3, 0, 2) (0, 3, 2)), (three_wires (3, 0, 2) (0, 3, 2)), (3, 0).
  split; [apply three_valid; simpl; auto|]. apply loses_check. vm_compute. reflexivity.
Qed.
Print Assumptions C23_split_refuted.

(** A SIMD circuit called after two copies of another circuit have parted: the
    record of its number is that of a copy, its SIMD size is lost. *)
Definition late_sub : circuit bool_gate :=
  c_build bool_ops (c_set_simd c_new 2) [(BBase GScInput, []); (BInv, [0]); (BBase GScOutput, [1])].
Definition late_wires : list (gid * gid) := part_wires ++ [((0, 4), (3, 0))].
Definition late_circuit : mcirc bool_gate := program_of [part_main; and_sub; late_sub] [0; 1; 1; 2] late_wires.
Definition late_rank (g : gid) : nat := if fst g =? 3 then 20 + snd g else part_rank g.

Theorem C23_simd_refuted : exists m h sc c, valid_program m h /\ mc_get m sc = Some c /\ c_simd c = Some 2 /\
  exists s sub vs, st_precompute bool_ops bool_gate_eqb 100 m (fun _ st => st) = Some s /\
    st_get s sc = Some sub /\ ss_simd sub = None /\
    st_views 100 s false false = Some vs /\ (exists l ni it, In l vs /\ In (sc, None, ni, it) l).
Proof.
  exists late_circuit, late_wires, 3, late_sub. split; [|split; [|split]].
  - apply valid_check with (rank := late_rank); try (vm_compute; reflexivity).
    + eexists. vm_compute. reflexivity.
    + constructor; [|constructor; [|constructor; [|constructor]]]; (split; [|vm_compute; reflexivity]);
        [apply c_build_api; repeat constructor|apply c_build_api; repeat constructor|].
      apply c_build_api; repeat constructor.
  - vm_compute. reflexivity.
  - vm_compute. reflexivity.
  - do 3 eexists. split; [vm_compute; reflexivity|]. split; [vm_compute; reflexivity|]. split; [vm_compute; reflexivity|].
    split; [vm_compute; reflexivity|]. do 3 eexists. split; [right; right; right; right; left; reflexivity|]. right. left. reflexivity.
Qed.
Print Assumptions C23_simd_refuted.

(** A circuit without gates: the counts panic, or count the gates of a copy of
    another circuit. *)
Definition bare_main : circuit bool_gate := c_build bool_ops c_new_main [(BBase GInput, []); (BBase GOutput, [0])].
Definition bare_circuit : mcirc bool_gate := program_of [bare_main; c_new] [0; 1] [].

Theorem C23_empty_refuted : exists m h, valid_program m h /\
  exists s, st_precompute bool_ops bool_gate_eqb 100 m (fun _ st => st) = Some s /\
    st_gate_count s = None /\ st_gate_counts s = None /\ st_int_count_simd s = None /\ mc_count m = 2.
Proof.
  exists bare_circuit, []. split.
  - apply valid_check with (rank := snd); try (vm_compute; reflexivity).
    + eexists. vm_compute. reflexivity.
    + constructor; [|constructor; [|constructor]]; (split; [|vm_compute; reflexivity]);
        [apply c_build_api; repeat constructor|constructor].
  - eexists. split; [vm_compute; reflexivity|]. repeat split; vm_compute; reflexivity.
Qed.
Print Assumptions C23_empty_refuted.

Definition empty_circuit : mcirc bool_gate := program_of [part_main; and_sub; c_new] [0; 1; 1; 2] part_wires.

Theorem C23_count_refuted : exists m h, valid_program m h /\
  exists s, st_precompute bool_ops bool_gate_eqb 100 m (fun _ st => st) = Some s /\
    st_gate_count s = Some 20 /\ mc_count m = 16.
Proof.
  exists empty_circuit, part_wires. split.
  - apply valid_check with (rank := part_rank); try (vm_compute; reflexivity).
    + eexists. vm_compute. reflexivity.
    + constructor; [|constructor; [|constructor; [|constructor]]]; (split; [|vm_compute; reflexivity]);
        [apply c_build_api; repeat constructor|apply c_build_api; repeat constructor|constructor].
  - eexists. split; [vm_compute; reflexivity|]. split; vm_compute; reflexivity.
Qed.
Print Assumptions C23_count_refuted.
