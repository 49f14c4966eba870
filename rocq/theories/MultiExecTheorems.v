(** Property theorem C55: executing a program made of several circuits. *)
From Coq Require Import List Bool Arith Lia Permutation Sorting.Sorted.
Require Import Verif.Prelude Verif.PreludeProofs Verif.BitVecModel Verif.BitVecSpec Verif.GateModel
  Verif.ProtocolModel Verif.BoolGmwModel
  Verif.BoolGmwSpec Verif.CircuitModel Verif.CircuitSpec Verif.CircuitProofs Verif.CircuitProofs2
  Verif.CircuitProofs3 Verif.ExecModel Verif.ExecSpec Verif.ExecProofs Verif.ExecBoolSpec Verif.ExecBoolProofs
  Verif.ExecCircuitSpec Verif.ExecCircuitProofs Verif.ExecTheorems Verif.ConnModel Verif.ConnSpec
  Verif.ConnProofs Verif.ConnProofs2 Verif.ConnTheorems Verif.CircuitCheck
  Verif.MultiModel Verif.MultiSpec
  Verif.MultiProofs Verif.MultiTheorems Verif.MultiExecSpec Verif.MultiExecProofs Verif.MultiExecProofs2.
Import ListNotations.

Section Program.
Variable W : nat.
Hypothesis HW : 0 < W.
Variable m : mcirc bool_gate.
Variable imax : nat.
Variable h : list (gid * gid).
Variable cl : list (circuit bool_gate).
Variable simd : option nat.
Hypothesis Hcl : forall k, mc_get m k = nth_error cl k.
Hypothesis Hcirc : circuits_ok bool_ops (mc_get m).
Hypothesis Hwires : wires_ok bool_ops (mc_get m) h.
Hypothesis Hwired : wired_as imax m h.
Hypothesis Hcall : all_callable bool_ops (mc_get m) h.
Hypothesis Hprog : program_base W cl simd.

Let fl := inline_all bool_ops cl h.

Lemma gate_ex g : gate_exists (mc_get m) g <-> ex_in cl g.
Proof. unfold gate_exists, ex_in. rewrite Hcl. tauto. Qed.

Lemma cl_ranged : ranged cl.
Proof.
  intros k c Hk. rewrite <- Hcl in Hk. apply (aw_range bool_ops). apply api_api_wf. apply Hcirc in Hk. tauto.
Qed.

Lemma cl_main : exists c0, nth_error cl 0 = Some c0.
Proof. destruct Hcirc as [(c & H) _]. rewrite Hcl in H. eauto. Qed.

Lemma scin_target p k g : In (p, (k, g)) h -> exists c x, nth_error cl k = Some c /\
  nth_error (c_gates c) g = Some x /\ is_scin_gate bool_ops x = true /\ parents c g = [].
Proof.
  intros H. destruct (proj2 Hwires p (k, g) H) as (c & x & A & B & C). simpl in A, B.
  exists c, x. rewrite <- Hcl. repeat split; auto. destruct Hcirc as [_ HC]. destruct (HC k c A) as [_ HR].
  apply (HR g x B). rewrite C. apply orb_true_r.
Qed.

Lemma wire_ends p t : In (p, t) h -> ex_in cl p /\ ex_in cl t.
Proof.
  intros H. destruct t as [k g]. destruct (scin_target _ _ _ H) as (c & x & A & B & C & D).
  assert (Hg : g < c_count c) by (apply nth_error_Some; congruence).
  split; [|exists c; auto]. destruct Hcall as (rank & _ & R2). rewrite <- Hcl in A.
  destruct (R2 k c g x A B D) as [[_ E]|[(p' & E & F)|[E _]]].
  - destruct x as [[]| | |]; discriminate.
  - rewrite <- (single_source bool_ops m h Hwires _ _ _ E H). apply gate_ex; auto.
  - destruct x as [[]| | |]; discriminate.
Qed.

Lemma sources_short g : length (sources_of h g) <= 1.
Proof.
  destruct Hwires as [Hnd _]. clear - Hnd. unfold sources_of. rewrite map_length. induction h as [|[a b] l IH]; [simpl; lia|].
  simpl in *. inversion Hnd; subst. specialize (IH H2).
  destruct ((fst b =? fst g) && (snd b =? snd g)) eqn:E; auto. simpl.
  rewrite (filter_none _ l); [simpl; lia|]. intros [c d] Hin. simpl.
  destruct ((fst d =? fst g) && (snd d =? snd g)) eqn:E'; auto. exfalso. apply H1.
  rewrite andb_true_iff, !Nat.eqb_eq in E, E'. apply in_map_iff. exists (c, d). split; auto.
  destruct b, d, g. simpl in *. destruct E, E'. congruence.
Qed.

Lemma mc_parents_eq k c g : nth_error cl k = Some c ->
  mc_parents imax m (k, g) = map (pair k) (parents c g) ++ sources_of h (k, g).
Proof.
  intros Hk. unfold mc_parents. cbn [fst snd]. rewrite Hcl, Hk. f_equal.
  pose proof (proj2 (Hwired (k, g))) as HP. pose proof (sources_short (k, g)) as HL.
  destruct (sources_of h (k, g)) as [|a [|]]; [| |simpl in HL; lia].
  - apply Permutation_sym, Permutation_nil in HP. auto.
  - apply Permutation_sym, Permutation_length_1_inv in HP. auto.
Qed.

Lemma flat_parents' k c g : nth_error cl k = Some c -> g < c_count c ->
  parents fl (flat_id cl (k, g)) = map (flat_id cl) (mc_parents imax m (k, g)).
Proof.
  intros Hk Hg. destruct cl_main as (c0 & H0). rewrite (mc_parents_eq k c g Hk).
  apply (flat_parents bool_ops cl h c0); auto; [apply cl_ranged|apply wire_ends].
Qed.

Lemma flat_spec : exists c0, nth_error cl 0 = Some c0 /\ api bool_ops fl /\
  c_gates fl = concat (map c_gates cl) /\ c_simd fl = simd /\ c_simd c0 = simd.
Proof.
  destruct cl_main as (c0 & H0). exists c0. split; auto.
  destruct (inline_all_spec bool_ops cl h c0 H0 cl_ranged wire_ends) as (A & B & C & _).
  pose proof (po_simd _ _ _ Hprog 0 c0 H0) as E. rewrite E in C. auto.
Qed.

(** Where a gate of [fl] comes from. *)
Lemma flat_at x gate : nth_error (c_gates fl) x = Some gate -> exists k c g,
  nth_error cl k = Some c /\ nth_error (c_gates c) g = Some gate /\ x = flat_id cl (k, g) /\ g < c_count c.
Proof.
  destruct flat_spec as (c0 & _ & _ & E & _). rewrite E. intros H. apply flat_gate_inv in H.
  destruct H as (k & c & g & A & B & C). exists k, c, g. repeat split; auto. apply nth_error_Some. congruence.
Qed.

Lemma parents_exist k c g p : nth_error cl k = Some c -> In p (mc_parents imax m (k, g)) -> ex_in cl p.
Proof.
  intros Hk Hp. rewrite (mc_parents_eq k c g Hk) in Hp. apply in_app_or in Hp. destruct Hp as [Hp|Hp].
  - apply in_map_iff in Hp. destruct Hp as (y & <- & Hy). exists c. simpl. split; auto.
    apply (in_range_parents c y g (cl_ranged k c Hk)); auto.
  - apply (sources_In h) in Hp. apply wire_ends in Hp. tauto.
Qed.

Lemma wired_input k c g gate : nth_error cl k = Some c -> nth_error (c_gates c) g = Some gate ->
  is_scin_gate bool_ops gate = true -> parents c g = [] /\ exists p, sources_of h (k, g) = [p].
Proof.
  intros Hk Hg Hs. assert (Hp : parents c g = []).
  { destruct Hcirc as [_ HC]. rewrite <- Hcl in Hk. destruct (HC k c Hk) as [_ HR]. apply (HR g gate Hg).
    rewrite Hs. apply orb_true_r. }
  split; auto. destruct Hcall as (rank & _ & R2). rewrite <- Hcl in Hk.
  pose proof (sources_short (k, g)) as HL.
  destruct (R2 k c g gate Hk Hg Hp) as [[_ E]|[(p & E & F)|[E _]]].
  - destruct gate as [[]| | |]; discriminate.
  - apply (sources_In h) in E. destruct (sources_of h (k, g)) as [|a [|]]; [destruct E|eauto|simpl in HL; lia].
  - destruct gate as [[]| | |]; discriminate.
Qed.

Lemma not_wired k c g gate : nth_error cl k = Some c -> nth_error (c_gates c) g = Some gate ->
  is_scin_gate bool_ops gate = false -> sources_of h (k, g) = [].
Proof.
  intros Hk Hg Hs. destruct (sources_of h (k, g)) as [|p l] eqn:E; auto. exfalso.
  assert (Hin : In p (sources_of h (k, g))) by (rewrite E; simpl; auto). apply (sources_In h) in Hin.
  destruct (scin_target _ _ _ Hin) as (c' & x & A & B & C & _). congruence.
Qed.

Lemma flat_operands : operands_ok fl.
Proof.
  intros x gate Hx. destruct (flat_at _ _ Hx) as (k & c & g & Hk & Hg & -> & Hlt).
  rewrite (flat_parents' k c g Hk Hlt), map_length, (mc_parents_eq k c g Hk), app_length, map_length.
  pose proof (po_gates _ _ _ Hprog k c g gate Hk Hg) as PG. unfold program_gate in PG.
  destruct gate as [[]| | |]; auto;
    first [ destruct (wired_input k c g _ Hk Hg eq_refl) as [-> (p & ->)]; reflexivity
          | rewrite (not_wired k c g _ Hk Hg eq_refl); simpl; lia ].
Qed.

Lemma flat_main_ok : main_ok bool_ops fl.
Proof.
  destruct flat_spec as (c0 & H0 & Ha & Hgs & _). split; [exact Ha|]. split.
  - destruct Hcall as (rank & R1 & _). exists (fun x => rank (unflat cl 0 x)). intros p x Hp.
    assert (Hx : x < c_count fl).
    { apply api_api_wf in Ha. apply (in_range_parents fl p x (aw_range _ _ Ha)) in Hp. tauto. }
    destruct (nth_error (c_gates fl) x) as [gate|] eqn:Ex; [|apply nth_error_None in Ex; unfold c_count in Hx; lia].
    destruct (flat_at _ _ Ex) as (k & c & g & Hk & Hg & -> & Hlt).
    rewrite (flat_parents' k c g Hk Hlt) in Hp. apply in_map_iff in Hp. destruct Hp as (q & <- & Hq).
    rewrite (unflat_flat cl 0 q (parents_exist _ _ _ _ Hk Hq)).
    rewrite (unflat_flat cl 0 (k, g)) by (exists c; auto). cbn [fst snd plus].
    apply R1. rewrite (mc_parents_eq k c g Hk) in Hq. apply in_app_or in Hq. destruct Hq as [Hq|Hq].
    + apply in_map_iff in Hq. destruct Hq as (y & <- & Hy). right. exists c. rewrite Hcl. auto.
    + left. apply (sources_In h) in Hq. destruct q; auto.
  - intros x gate Hx. destruct (flat_at _ _ Hx) as (k & c & g & Hk & Hg & -> & Hlt).
    rewrite (flat_parents' k c g Hk Hlt), (mc_parents_eq k c g Hk).
    assert (Hroot : is_input_gate bool_ops gate || is_const_gate bool_ops gate = true -> parents c g = []).
    { intros E. destruct Hcirc as [_ HC]. rewrite <- Hcl in Hk. destruct (HC k c Hk) as [_ HR].
      apply (HR g gate Hg). rewrite E. auto. }
    split.
    + intros E. apply map_eq_nil in E. apply app_eq_nil in E. destruct E as [E1 E2]. apply map_eq_nil in E1.
      destruct Hcall as (rank & _ & R2). rewrite <- Hcl in Hk.
      destruct (R2 k c g gate Hk Hg E1) as [[_ E]|[(p & E & F)|[E _]]]; auto.
      * apply (sources_In h) in E. rewrite E2 in E. destruct E.
      * rewrite E. apply orb_true_r.
    + intros E. rewrite (Hroot E), (not_wired k c g gate Hk Hg); auto.
      destruct gate as [[]| | |]; auto; discriminate.
Qed.

Lemma ids_where_app_none {G} (f : G -> bool) a b : (forall x, In x b -> f x = false) ->
  ids_where f (a ++ b) = ids_where f a.
Proof.
  intros H. unfold ids_where. rewrite app_length, seq_app, filter_app.
  rewrite (filter_none _ (seq (0 + length a) (length b))).
  - rewrite app_nil_r. apply filter_ext_in. intros i Hi. apply in_seq in Hi.
    rewrite nth_error_app1 by lia. auto.
  - intros i Hi. apply in_seq in Hi. destruct (nth_error (a ++ b) i) as [x|] eqn:E; auto.
    rewrite nth_error_app2 in E by lia. apply H. eapply nth_error_In; eauto.
Qed.

Lemma flat_io : exists c0, nth_error cl 0 = Some c0 /\ c_inputs fl = c_inputs c0 /\ c_outputs fl = c_outputs c0.
Proof.
  destruct flat_spec as (c0 & H0 & Ha & Hgs & _). exists c0. split; auto.
  apply api_api_wf in Ha. rewrite (aw_inputs _ _ Ha), (aw_outputs _ _ Ha), Hgs.
  assert (Hc : api_wf bool_ops c0).
  { apply api_api_wf. destruct Hcirc as [_ HC]. specialize (HC 0 c0). rewrite Hcl in HC. apply HC; auto. }
  rewrite (aw_inputs _ _ Hc), (aw_outputs _ _ Hc).
  assert (Hrest : forall x, In x (concat (map c_gates (tl cl))) ->
    is_input_gate bool_ops x = false /\ is_output_gate bool_ops x = false).
  { intros x Hx. apply in_concat in Hx. destruct Hx as (l & Hl & Hx). apply in_map_iff in Hl.
    destruct Hl as (c & <- & Hc'). apply In_nth_error in Hc'. destruct Hc' as (k & Hk).
    apply In_nth_error in Hx. destruct Hx as (g & Hg).
    assert (Hk' : nth_error cl (S k) = Some c) by (destruct cl; [destruct k; discriminate|auto]).
    pose proof (po_gates _ _ _ Hprog (S k) c g x Hk' Hg) as PG. unfold program_gate in PG.
    destruct x as [[]| | |]; auto; try discriminate PG. destruct PG; discriminate. }
  destruct cl as [|c1 r]; [discriminate|]. simpl in H0. injection H0 as ->. cbn [map concat tl] in *.
  split; apply ids_where_app_none; intros x Hx; apply Hrest; auto.
Qed.

Lemma flat_simd_ok : program_ok W cl h simd -> simd_ok W fl.
Proof.
  intros Hfree.
  destruct flat_spec as (c0 & H0 & Ha & Hgs & Es & Es0). unfold simd_ok.
  destruct (c_simd fl) as [n|] eqn:En; auto. destruct (po_lanes _ _ _ Hprog n (eq_sym Es)) as [A B].
  split; auto. split; auto. intros o Ho. destruct flat_io as (c0' & H0' & _ & Eo). rewrite H0 in H0'.
  injection H0' as <-. rewrite Eo in Ho.
  destruct (po_outs _ _ _ _ Hfree c0 o ltac:(rewrite <- Es; discriminate) H0 Ho) as [C D].
  assert (Hlt : o < c_count c0).
  { assert (Hc : api_wf bool_ops c0).
    { apply api_api_wf. destruct Hcirc as [_ HC]. specialize (HC 0 c0). rewrite Hcl in HC. apply HC; auto. }
    rewrite (aw_outputs _ _ Hc) in Ho. apply ids_where_In in Ho. destruct Ho as (x & E & _).
    apply nth_error_Some. congruence. }
  pose proof (flat_children bool_ops cl h c0 0 c0 o H0 cl_ranged wire_ends H0 Hlt C D) as E.
  unfold flat_id in E. cbn [fst snd flat_off] in E. destruct cl; exact E.
Qed.

Lemma flat_main_id g : flat_id cl (0, g) = g.
Proof. unfold flat_id. cbn [fst snd]. destruct cl; reflexivity. Qed.

Lemma ec_simd_multi c0 ls k c : nth_error cl k = Some c -> ec_simd (ec_multi m imax c0 ls) k = simd.
Proof. intros Hk. cbn [ec_multi ec_simd]. rewrite Hcl, Hk. apply (po_simd _ _ _ Hprog k c Hk). Qed.

Lemma mc_gate_at g gate : mc_gate m g = Some gate -> exists c, nth_error cl (fst g) = Some c /\
  nth_error (c_gates c) (snd g) = Some gate /\ snd g < c_count c.
Proof.
  unfold mc_gate. rewrite Hcl. destruct (nth_error cl (fst g)) as [c|]; [|discriminate]. cbn [obind].
  intros H. exists c. repeat split; auto. apply nth_error_Some. congruence.
Qed.

Lemma multi_typed c0 ls : nth_error cl 0 = Some c0 -> typed (ec_multi m imax c0 ls).
Proof.
  intros H0 [k g] gate Hg. cbn [ec_multi ec_gate] in Hg. destruct (mc_gate_at _ _ Hg) as (c & Hk & Hgate & Hlt).
  cbn [fst snd] in *.
  assert (Hx : nth_error (c_gates fl) (flat_id cl (k, g)) = Some gate).
  { destruct flat_spec as (_ & _ & _ & E & _). rewrite E. apply (flat_gate cl k c g gate Hk Hgate). }
  pose proof (flat_operands _ _ Hx) as HO. rewrite (flat_parents' k c g Hk Hlt), map_length in HO.
  pose proof (po_gates _ _ _ Hprog k c g gate Hk Hgate) as PG. unfold program_gate in PG.
  assert (Hroot : is_input_gate bool_ops gate || is_const_gate bool_ops gate = true -> mc_parents imax m (k, g) = []).
  { intros E. rewrite (mc_parents_eq k c g Hk). rewrite (not_wired k c g gate Hk Hgate).
    - destruct Hcirc as [_ HC]. rewrite <- Hcl in Hk. destruct (HC k c Hk) as [_ HR].
      rewrite (HR g gate Hgate); auto. rewrite E. auto.
    - destruct gate as [[]| | |]; auto; discriminate. }
  assert (Hsame : Forall (fun p => ec_simd (ec_multi m imax c0 ls) (fst p) = ec_simd (ec_multi m imax c0 ls) k)
                    (mc_parents imax m (k, g))).
  { apply Forall_forall. intros p Hp. destruct (parents_exist _ _ _ _ Hk Hp) as (c' & Hp' & _).
    rewrite (ec_simd_multi c0 ls _ _ Hp'), (ec_simd_multi c0 ls _ _ Hk). auto. }
  unfold gate_typed. cbn [fst snd]. cbn [ec_multi ec_parents].
  change (EC (mc_gate m) (mc_parents imax m) ls _ _ _ _) with (ec_multi m imax c0 ls).
  destruct gate as [[]| | |]; auto; try contradiction.
  rewrite (ec_simd_multi c0 ls _ _ Hk), (ec_simd_multi c0 ls _ _ H0).
  rewrite (ec_simd_multi c0 ls _ _ Hk) in Hsame.
  destruct simd; split; auto.
Qed.

Lemma multi_valuation c0 ls ins v : nth_error cl 0 = Some c0 -> plain_value fl ins v ->
  valuation (ec_multi m imax c0 ls) ins (fun g => v (flat_id cl g)).
Proof.
  intros H0 Hv [k g] gate Hg. pose proof (multi_typed c0 ls H0 (k, g) gate Hg) as HT.
  cbn [ec_multi ec_gate] in Hg. destruct (mc_gate_at _ _ Hg) as (c & Hk & Hgate & Hlt). cbn [fst snd] in *.
  assert (Hx : nth_error (c_gates fl) (flat_id cl (k, g)) = Some gate).
  { destruct flat_spec as (_ & _ & _ & E & _). rewrite E. apply (flat_gate cl k c g gate Hk Hgate). }
  destruct (Hv _ _ Hx) as [HL HV]. destruct flat_spec as (c0' & H0' & _ & _ & Es & Es0).
  assert (Hlanes : lanes (ec_multi m imax c0 ls) (k, g) = c_lanes fl).
  { unfold lanes, c_lanes. cbn [fst]. rewrite (ec_simd_multi c0 ls _ _ Hk), Es. auto. }
  assert (Hmap : forall i, map (fun p => nth i (v (flat_id cl p)) false) (mc_parents imax m (k, g)) =
                 map (fun p => nth i (v p) false) (parents fl (flat_id cl (k, g)))).
  { intros i. rewrite (flat_parents' k c g Hk Hlt), map_map. auto. }
  assert (K : (forall i, i < c_lanes fl ->
      bool_gate_sem gate (map (fun p => nth i (v p) false) (parents fl (flat_id cl (k, g)))) =
        Some (nth i (v (flat_id cl (k, g))) false)) ->
    length (v (flat_id cl (k, g))) = lanes (ec_multi m imax c0 ls) (k, g) /\
    (forall i, i < lanes (ec_multi m imax c0 ls) (k, g) ->
      bool_gate_sem gate (map (fun p => nth i (v (flat_id cl p)) false) (mc_parents imax m (k, g))) =
        Some (nth i (v (flat_id cl (k, g))) false))).
  { intros B. rewrite Hlanes. split; auto. intros i Hi. rewrite Hmap. auto. }
  assert (Hcopy : is_scin_gate bool_ops gate = true -> (forall x, bool_gate_sem gate [x] = Some x) ->
    (forall i, i < c_lanes fl ->
      bool_gate_sem gate (map (fun p => nth i (v p) false) (parents fl (flat_id cl (k, g)))) =
        Some (nth i (v (flat_id cl (k, g))) false)) ->
    exists p, mc_parents imax m (k, g) = [p] /\ v (flat_id cl (k, g)) = v (flat_id cl p)).
  { intros Hs Hsem B. destruct (wired_input k c g gate Hk Hgate Hs) as [Ep (p & Eq)].
    assert (E : mc_parents imax m (k, g) = [p]) by (rewrite (mc_parents_eq k c g Hk), Ep, Eq; auto).
    exists p. split; auto.
    destruct (parents_exist k c g p Hk ltac:(rewrite E; simpl; auto)) as (cp & Hcp & Hp).
    assert (Hlp : length (v (flat_id cl p)) = c_lanes fl).
    { destruct p as [kp xp]. cbn [fst snd] in *.
      destruct (nth_error (c_gates cp) xp) as [gp|] eqn:Egp; [|apply nth_error_None in Egp; unfold c_count in Hp; lia].
      apply (Hv (flat_id cl (kp, xp)) gp). destruct flat_spec as (_ & _ & _ & E' & _). rewrite E'.
      apply (flat_gate cl kp cp xp gp Hcp Egp). }
    apply (list_ext false); [congruence|]. intros i Hi. rewrite HL in Hi. specialize (B i Hi).
    rewrite <- Hmap, E in B. cbn [map] in B. rewrite Hsem in B. congruence. }
  unfold gate_eq. cbn [fst snd]. cbn [ec_multi ec_parents ec_inputs].
  change (EC (mc_gate m) (mc_parents imax m) ls _ _ _ _) with (ec_multi m imax c0 ls).
  destruct gate as [[| | | | | | |b|]| | |]; auto.
  - destruct HV as (i & A & B). exists i. destruct flat_io as (c1 & H1 & Ei & _). rewrite H0 in H1. injection H1 as <-.
    rewrite Ei in A. destruct HT as [Hk0 _]. cbn [fst] in Hk0. subst k. rewrite flat_main_id in A, B |- *. auto.
  - rewrite (ec_simd_multi c0 ls _ _ H0), (ec_simd_multi c0 ls _ _ Hk).
    assert (HC := Hcopy eq_refl). assert (HE : exists p, mc_parents imax m (k, g) = [p] /\ v (flat_id cl (k, g)) = v (flat_id cl p)).
    { apply HC; auto. }
    destruct simd; exact HE.
  - exfalso. pose proof (po_gates _ _ _ Hprog k c g _ Hk Hgate) as PG. exact PG.
  - apply (list_ext false); rewrite ?repeat_length; [congruence|]. intros i Hi. rewrite HL in Hi.
    specialize (HV i Hi). simpl in HV. rewrite Hlanes.
    rewrite (nth_indep (repeat b _) false b) by (rewrite repeat_length; auto). rewrite nth_repeat_any. congruence.
Qed.

Lemma multi_shape_init c0 ls :
  shape_ok (pr:=bool_gmw W) (ec_multi m imax c0 ls) (go_init (pr:=bool_gmw W) (ec_multi m imax c0 ls)).
Proof.
  intros [k g] gate Hg. cbn [ec_multi ec_gate] in Hg. destruct (mc_gate_at _ _ Hg) as (c & Hk & Hgate & Hlt).
  cbn [fst snd] in *. unfold go_init, go_cell, kind_ok. cbn [ec_multi ec_counts ec_simd go_data fst snd].
  rewrite Hcl, Hk.
  assert (Hin : nth_error (seq 0 (length (mc_map m))) k = Some k).
  { pose proof Hk as Hk'. rewrite <- Hcl in Hk'. apply mc_get_range in Hk'. apply in_seq in Hk'.
    rewrite (nth_error_nth' _ 0) by (rewrite seq_length; lia). rewrite seq_nth by lia. auto. }
  rewrite !map_map. rewrite (map_nth_error _ _ _ Hin). rewrite Hcl, Hk.
  assert (R : forall A (d : A), nth_error (repeat d (c_count c)) g = Some d).
  { intros A d. rewrite (nth_error_nth' _ d) by (rewrite repeat_length; auto). rewrite nth_repeat_any. auto. }
  destruct (c_simd c); rewrite R; cbn [obind]; eexists; split; eauto; exact I.
Qed.

Lemma multi_pure c0 ls perm : mc_layers bool_ops imax m perm = Some ls -> rearranges perm ->
  pure_layers (ec_multi m imax c0 ls).
Proof.
  intros HL HP l Hl. cbn [ec_multi ec_layers] in Hl.
  destruct (C22_kinds_partial _ _ bool_ops m imax h perm ls Hcirc Hwires Hwired HP HL l Hl) as [_ HK].
  assert (Hall : forall sc s b, In (sc, s, b) l -> s = simd).
  { intros sc s b Hb. destruct (HK _ _ _ Hb) as (c & A & -> & _). rewrite Hcl in A.
    apply (po_simd _ _ _ Hprog sc c A). }
  clear - Hall. destruct simd as [n|].
  - left. assert (E : el_scalar l = []); [|rewrite E; auto]. unfold el_scalar. apply filter_none.
    intros [[sc s] b] Hb. rewrite (Hall _ _ _ Hb). auto.
  - right. assert (E : el_simd l = []); [|rewrite E; auto]. unfold el_simd. apply filter_none.
    intros [[sc s] b] Hb. rewrite (Hall _ _ _ Hb). auto.
Qed.

Lemma multi_ec perm : program_ok W cl h simd -> rearranges perm -> exists c0 ls, nth_error cl 0 = Some c0 /\
  ec_of_mc bool_ops imax m perm = Some (ec_multi m imax c0 ls) /\ pure_layers (ec_multi m imax c0 ls) /\
  sched_ok bool_ops (ec_multi m imax c0 ls) (fun _ => False) (fun _ => True) ls.
Proof.
  intros Hfree HP. destruct flat_spec as (c0 & H0 & _ & _ & Es & Es0).
  destruct (mc_layers_spec bool_ops m imax h Hcirc Hwires (fun g => proj1 (Hwired g)) perm HP)
    as (ls & A & B & C & D & F).
  exists c0, ls. split; auto. split; [|split; [eapply multi_pure; eauto|]].
  - unfold ec_of_mc. rewrite Hcl, H0. cbn [obind]. rewrite A. reflexivity.
  - apply (multi_sched_aux bool_ops m imax h) with (E := []); auto.
    + intros g. apply Hwired.
    + intros k c Hk. rewrite Hcl in Hk. rewrite (po_simd _ _ _ Hprog k c Hk). intros E.
      destruct (po_lanes _ _ _ Hprog 0 E). congruence.
    + intros p t c Hh Hk. rewrite Hcl in Hk. rewrite (po_simd _ _ _ Hprog _ c Hk).
      destruct simd eqn:En; [right|auto]. eapply (po_wires _ _ _ _ Hfree); eauto. discriminate.
    + rewrite Hcl. auto.
    + destruct (c_simd c0) eqn:En; [right|auto]. intros o Ho.
      apply (po_outs _ _ _ _ Hfree c0 o); auto. rewrite <- Es0. discriminate.
    + intros o Ho. cbn [app]. apply F. apply callable_runs; auto. apply gate_ex. exists c0. split; auto.
      assert (Hc : api_wf bool_ops c0).
      { apply api_api_wf. destruct Hcirc as [_ HC]. specialize (HC 0 c0). rewrite Hcl in HC. apply HC; auto. }
      rewrite (aw_outputs _ _ Hc) in Ho. apply ids_where_In in Ho. destruct Ho as (x & E & _).
      unfold c_count. cbn [snd]. apply nth_error_Some. rewrite E. discriminate.
Qed.
End Program.

(** ** C55 *)

(** Everything the theorem asks of a program: the circuits [cl] by id, wires [h]. *)
Record program (W imax : nat) (m : mcirc bool_gate) (cl : list (circuit bool_gate)) (h : list (gid * gid))
  (simd : option nat) : Prop := {
  pg_list : forall k, mc_get m k = nth_error cl k;
  pg_circuits : circuits_ok bool_ops (mc_get m);
  pg_wires : wires_ok bool_ops (mc_get m) h;
  pg_wired : wired_as imax m h;
  pg_callable : all_callable bool_ops (mc_get m) h;
  pg_ok : program_ok W cl h simd }.

(** Both parties' runs finish and give shares of the values that the circuit with
    every call inlined computes.  Missing: several wires into one sub-circuit
    input and circuits of different SIMD sizes (see C22_repeated_input_refuted),
    and SIMD programs outside [program_ok]. *)
Theorem C55_calls_as_inlined_partial :
  forall W imax m cl h simd perm, 0 < W -> program W imax m cl h simd -> rearranges perm ->
  exists ec, ec_of_mc bool_ops imax m perm = Some ec /\
  shape_ok (pr:=bool_gmw W) ec (go_init (pr:=bool_gmw W) ec) /\
  forall (Sv : Type) (req : Sv -> nat -> option (mul_triples * Sv)) J,
  serves req (bool_setup_ok W) J ->
  forall (i0 i1 : istore (bool_gmw W)) ins,
  shares_of W simd i0 i1 ins -> length ins = length (ec_inputs ec) ->
  forall (go0 go1 : gouts (bool_gmw W)) s0 s1 rest,
  shape_ok (pr:=bool_gmw W) ec go0 -> shape_ok (pr:=bool_gmw W) ec go1 ->
  J (requests ec ++ rest) s0 s1 ->
  exists v o0 o1 go0' go1' s0' s1',
    plain_value (inline_all bool_ops cl h) ins v /\
    ex2_run (pr:=bool_gmw W) req ec i0 i1 ((go0, s0), (go1, s1))
      = Some (o0, o1, ((go0', s0'), (go1', s1'))) /\
    shares_of W simd o0 o1 (map v (c_outputs (inline_all bool_ops cl h))) /\
    shape_ok (pr:=bool_gmw W) ec go0' /\ shape_ok (pr:=bool_gmw W) ec go1' /\ J rest s0' s1'.
Proof.
  intros W imax m cl h simd perm HW [H1 H2 H3 H4 H5 H6'] HP. pose proof (po_base _ _ _ _ H6') as H6.
  destruct (multi_ec W m imax h cl simd H1 H2 H3 H4 H5 H6 perm H6' HP) as (c0 & ls & H0 & Eec & Hpure & HS).
  exists (ec_multi m imax c0 ls). split; auto.
  split; [apply (multi_shape_init W HW m imax cl H1)|].
  intros Sv req J HJ i0 i1 ins Hin Hlen go0 go1 s0 s1 rest Sh0 Sh1 Hj.
  destruct (flat_spec W m h cl simd H1 H2 H3 H5 H6) as (c0' & H0' & _ & _ & Es & Es0).
  destruct (flat_io W HW m h cl simd H1 H2 H3 H5 H6) as (c1 & H01 & Ei & Eo).
  rewrite H0 in H0', H01. injection H0' as <-. injection H01 as <-.
  assert (Hm : main_ok bool_ops (inline_all bool_ops cl h))
    by (apply (flat_main_ok W HW m imax h cl simd); auto).
  assert (Hsh : shares_of W (c_simd (inline_all bool_ops cl h)) i0 i1 ins) by (rewrite Es; auto).
  destruct (plain_value_exists (inline_all bool_ops cl h) Hm ins) as (v & Hv).
  { apply (flat_operands W HW m imax h cl simd); auto. }
  { rewrite Ei. exact Hlen. }
  { apply (shares_lanes W _ HW i0 i1); auto. }
  exists v.
  assert (Hs0 : ec_simd (ec_multi m imax c0 ls) 0 = simd)
    by (apply (ec_simd_multi W m imax cl simd H1 H6 c0 ls 0 c0 H0)).
  destruct (bool_exec_sound W (ec_multi m imax c0 ls) ins (fun g => v (flat_id cl g)) Sv req J i0 i1 go0 go1 s0 s1 rest
     (fun _ => True) HW) as (o0 & o1 & go0' & go1' & s0' & s1' & E & R); auto.
  - apply (multi_typed W HW m imax h cl simd); auto.
  - intros sc n. cbn [ec_multi ec_simd]. rewrite H1. destruct (nth_error cl sc) as [c|] eqn:Ec; [|discriminate].
    rewrite (po_simd _ _ _ H6 sc c Ec). apply (po_lanes _ _ _ H6).
  - cbn [ec_multi ec_inputs]. rewrite <- Ei. apply base_inputs_nodup; auto.
  - apply (multi_valuation W HW m imax h cl simd); auto.
  - rewrite Hs0. auto.
  - rewrite Hs0 in R. exists o0, o1, go0', go1', s0', s1'. split; auto. split; auto. rewrite Eo.
    cbn [ec_multi ec_outputs] in R. erewrite map_ext in R; [exact R|]. intros o. f_equal. apply (flat_main_id W m h cl simd); auto.
Qed.
Print Assumptions C55_calls_as_inlined_partial.

(** The inlined circuit is itself one that C11 covers, and its plaintext values
    are unique, so both ways of executing the program give the same outputs. *)
Theorem C55_inlined_is_executable :
  forall W imax m cl h simd, 0 < W -> program W imax m cl h simd ->
  let c := inline_all bool_ops cl h in
  main_ok bool_ops c /\ operands_ok c /\ simd_ok W c /\ c_simd c = simd /\
  exists c0, mc_get m 0 = Some c0 /\ c_inputs c = c_inputs c0 /\ c_outputs c = c_outputs c0.
Proof.
  intros W imax m cl h simd HW [H1 H2 H3 H4 H5 H6'] c. pose proof (po_base _ _ _ _ H6') as H6.
  split; [apply (flat_main_ok W HW m imax h cl simd); auto|].
  split; [apply (flat_operands W HW m imax h cl simd); auto|].
  split; [apply (flat_simd_ok W HW m h cl simd); auto|].
  destruct (flat_spec W m h cl simd H1 H2 H3 H5 H6) as (c0' & H0' & _ & _ & Es & Es0).
  split; [exact Es|]. destruct (flat_io W HW m h cl simd H1 H2 H3 H5 H6) as (c1 & H01 & Ei & Eo).
  exists c1. rewrite H1. auto.
Qed.
Print Assumptions C55_inlined_is_executable.

(** Execution with calls and execution of the inlined circuit, on any shares of
    the same inputs and with any providers: the outputs reconstruct to the same
    values. *)
Theorem C55_same_outputs_partial :
  forall W imax m cl h simd perm, 0 < W -> program W imax m cl h simd -> rearranges perm ->
  exists ec eci, ec_of_mc bool_ops imax m perm = Some ec /\ ec_of_base bool_ops (inline_all bool_ops cl h) = Some eci /\
  forall (Sv Sv' : Type) (req : Sv -> nat -> option (mul_triples * Sv)) J
    (req' : Sv' -> nat -> option (mul_triples * Sv')) J',
  serves req (bool_setup_ok W) J -> serves req' (bool_setup_ok W) J' ->
  forall (i0 i1 j0 j1 : istore (bool_gmw W)) ins,
  shares_of W simd i0 i1 ins -> shares_of W simd j0 j1 ins -> length ins = length (ec_inputs ec) ->
  forall s0 s1 t0 t1, J (requests ec) s0 s1 -> J' (requests eci) t0 t1 ->
  exists o0 o1 st p0 p1 st' outs,
    ex2_run (pr:=bool_gmw W) req ec i0 i1 ((go_init (pr:=bool_gmw W) ec, s0), (go_init (pr:=bool_gmw W) ec, s1))
      = Some (o0, o1, st) /\
    ex2_run (pr:=bool_gmw W) req' eci j0 j1 ((go_init (pr:=bool_gmw W) eci, t0), (go_init (pr:=bool_gmw W) eci, t1))
      = Some (p0, p1, st') /\
    shares_of W simd o0 o1 outs /\ shares_of W simd p0 p1 outs.
Proof.
  intros W imax m cl h simd perm HW HPg HP.
  destruct (C55_calls_as_inlined_partial W imax m cl h simd perm HW HPg HP) as (ec & E1 & Sh & R1).
  destruct (C55_inlined_is_executable W imax m cl h simd HW HPg) as (M1 & M2 & M3 & M4 & c0 & G0 & Ei & Eo).
  destruct (C11_execution_computes_circuit W _ HW M1 M2 M3) as (eci & E2 & Sh2 & R2).
  exists ec, eci. split; auto. split; auto.
  intros Sv Sv' req J req' J' HJ HJ' i0 i1 j0 j1 ins Hi Hj Hlen s0 s1 t0 t1 HJs HJt.
  rewrite M4 in R2.
  assert (Hinp : ec_inputs ec = c_inputs c0).
  { unfold ec_of_mc in E1. rewrite G0 in E1. cbn [obind] in E1.
    destruct (mc_layers bool_ops imax m perm); [|discriminate]. cbn [obind] in E1. injection E1 as <-. auto. }
  rewrite <- (app_nil_r (requests ec)) in HJs. rewrite <- (app_nil_r (requests eci)) in HJt.
  destruct (R1 Sv req J HJ i0 i1 ins Hi Hlen _ _ s0 s1 [] Sh Sh HJs)
    as (v & o0 & o1 & ? & ? & ? & ? & V1 & X1 & O1 & _).
  destruct (R2 Sv' req' J' HJ' j0 j1 ins Hj ltac:(rewrite Ei, <- Hinp; auto) _ _ t0 t1 [] Sh2 Sh2 HJt)
    as (v' & p0 & p1 & ? & ? & ? & ? & V2 & X2 & O2 & _).
  rewrite <- (C11_plaintext_unique _ _ _ _ M1 V1 V2) in O2.
  do 6 eexists. exists (map v (c_outputs (inline_all bool_ops cl h))). split; [exact X1|]. split; [exact X2|].
  split; [exact O1|exact O2].
Qed.
Print Assumptions C55_same_outputs_partial.

(** Checks of the hypotheses, for concrete programs. *)
Definition program_gateb (k : nat) (c : circuit bool_gate) (g : nat) : bool :=
  match nth_error (c_gates c) g with
  | Some (BBase GInput) => k =? 0
  | Some (BBase GOutput) => (k =? 0) && (length (parents c g) =? 1)
  | Some (BBase (GConstant _)) | Some (BBase GScInput) | Some (BBase GConnectToMain) => true
  | Some (BBase (GConnectToMainFromSimd _)) => false
  | Some BAnd | Some BXor => length (parents c g) =? 2
  | _ => length (parents c g) =? 1
  end.

Lemma program_gateb_ok k c :
  forallb (program_gateb k c) (seq 0 (length (c_gates c))) = true ->
  forall g gate, nth_error (c_gates c) g = Some gate -> program_gate k c g gate.
Proof.
  rewrite forallb_forall. intros H g gate E.
  assert (Hg : g < length (c_gates c)) by (apply nth_error_Some; congruence).
  specialize (H g). rewrite in_seq in H. specialize (H ltac:(lia)). unfold program_gateb in H. rewrite E in H.
  destruct gate as [[]| | |]; simpl; auto; try discriminate; try (apply Nat.eqb_eq; auto).
  apply andb_true_iff in H. rewrite !Nat.eqb_eq in H. auto.
Qed.

Lemma program_gates_ok cl :
  forallb (fun k => match nth_error cl k with
    | Some c => forallb (program_gateb k c) (seq 0 (length (c_gates c))) | None => true end)
    (seq 0 (length cl)) = true ->
  forall k c g gate, nth_error cl k = Some c -> nth_error (c_gates c) g = Some gate -> program_gate k c g gate.
Proof.
  rewrite forallb_forall. intros H k c g gate Hk. apply program_gateb_ok. specialize (H k).
  assert (k < length cl) by (apply nth_error_Some; congruence). rewrite in_seq in H.
  specialize (H ltac:(lia)). rewrite Hk in H. auto.
Qed.

(** A SIMD program: the main circuit passes both of its inputs to a sub-circuit
    and negates the result. *)
Definition lanes_sub : circuit bool_gate := c_set_simd two_sub 16.
Definition lanes_main : circuit bool_gate := c_set_simd (
  c_build bool_ops c_new_main
    [(BBase GInput, []); (BBase GInput, []); (BBase GScInput, []); (BInv, [2]); (BBase GOutput, [3])]) 16.
Definition lanes_calls : list (call * circuit bool_gate) :=
  [(Call [(0, 0); (0, 1)] 1 [0; 1], lanes_sub); (Call [(1, 5)] 0 [2], lanes_main)].
Definition lanes_wires : list (gid * gid) := concat (map intended (map fst lanes_calls)).
Definition lanes_conns : conns :=
  match connect_calls (fun _ : bool_gate => 1) cn_empty lanes_calls with Some cn => cn | None => cn_empty end.
Definition lanes_circuit : mcirc bool_gate := MC [lanes_main; lanes_sub] [0; 1] lanes_conns.
Definition lanes_rank (g : gid) : nat :=
  nth (fst g) [nth (snd g) [0; 1; 20; 21; 22] 0; 5 + snd g] 0.

Lemma some_eq {A} (x y : A) : Some x = Some y -> y = x.
Proof. congruence. Qed.

Example C55_case :
  program 8 100 two_circuit [two_main; two_sub; two_sub] two_wires None /\
  program 8 100 lanes_circuit [lanes_main; lanes_sub] lanes_wires (Some 16) /\
  c_gates (inline_all bool_ops [two_main; two_sub; two_sub] two_wires) =
    [BBase GInput; BBase GInput; BBase GScInput; BXor; BBase GScInput; BBase GOutput;
     BBase GScInput; BBase GScInput; BBase (GConstant true); BAnd; BXor; BBase GScOutput;
     BBase GScInput; BBase GScInput; BBase (GConstant true); BAnd; BXor; BBase GScOutput] /\
  map (parents (inline_all bool_ops [two_main; two_sub; two_sub] two_wires)) (seq 0 18) =
    [[]; []; [11]; [0; 2]; [17]; [4]; [0]; [1]; []; [6; 7]; [9; 8]; [10];
     [2]; [3]; []; [12; 13]; [15; 14]; [16]].
Proof.
  split; [|split; [|split]].
  - destruct two_ok as (A & B & C & D). constructor; [|exact A|exact B|exact C|exact D|].
    + intros [|[|[|[|k]]]]; reflexivity.
    + constructor; [constructor|..].
      * apply program_gates_ok. vm_compute. reflexivity.
      * intros [|[|[|[|k]]]] c E; cbn [nth_error] in E;
          first [apply some_eq in E; subst c; vm_compute; reflexivity|discriminate E].
      * discriminate.
      * intros c o H. congruence.
      * intros p t c H. congruence.
  - constructor.
    + intros [|[|[|k]]]; reflexivity.
    + apply circuits_ok_list; [eexists; vm_compute; reflexivity|].
      constructor; [|constructor; [|constructor]]; (split; [apply api_simd, c_build_api|vm_compute; reflexivity]);
        repeat constructor.
    + apply wires_check_ok; [|vm_compute; reflexivity].
      vm_compute. repeat (constructor; [simpl; intuition congruence|]). constructor.
    + refine (wired_as_ranges (fun _ => 1) 100 lanes_calls lanes_conns
        [[(((0, 0), (0, 1)), ((1, 0), (1, 1)))]; [(((1, 5), (1, 5)), ((0, 2), (0, 2)))]] _ _ _ _ _ _ _ _).
      * vm_compute; reflexivity.
      * repeat constructor; intros ? ? _ _; auto.
      * repeat constructor; try apply call_single; apply call_pair.
      * repeat constructor; simpl; lia.
      * simpl. intros r1 r2 H1 H2. simpl in *. intuition subst; simpl in *; lia.
      * simpl. intros r1 r2 H1 H2. simpl in *. intuition subst; simpl in *; lia.
    + apply rank_check_ok with (rank := lanes_rank). vm_compute. reflexivity.
    + constructor; [constructor|..].
      * apply program_gates_ok. vm_compute. reflexivity.
      * intros [|[|[|k]]] c E; cbn [nth_error] in E;
          first [apply some_eq in E; subst c; vm_compute; reflexivity|discriminate E].
      * intros n E. injection E as <-. split; [discriminate|reflexivity].
      * intros c o _ E Ho. cbn [nth_error] in E. apply some_eq in E. subst c. vm_compute in Ho. destruct Ho as [<-|[]].
        split; [vm_compute; reflexivity|]. intros t Ht. vm_compute in Ht. intuition congruence.
      * intros p t c _ Hw E. vm_compute in Hw.
        destruct Hw as [H|[H|[H|[]]]]; injection H as <- <-; cbn [nth_error fst] in E; apply some_eq in E; subst c;
          vm_compute; reflexivity.
  - vm_compute. reflexivity.
  - vm_compute. reflexivity.
Qed.
