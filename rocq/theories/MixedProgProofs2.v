(** Programs over mixed shared values: their circuits and the values of the gates. *)
From Coq Require Import List Bool Arith ZArith Lia Permutation.
Require Import Verif.ParseModel Verif.Prelude Verif.PreludeProofs Verif.GateModel Verif.ProtocolModel
  Verif.CircuitModel Verif.CircuitSpec Verif.CircuitProofs Verif.CircuitProofs2 Verif.CircuitProofs3
  Verif.BoolGmwModel Verif.ArithGmwModel Verif.InlineModel Verif.InlineSpec Verif.InlineProofs Verif.AdderData
  Verif.MixedModel Verif.MixedSpec Verif.MixedProgSpec Verif.AdderProofs Verif.AdderProofs2 Verif.AdderProofs3 Verif.AdderTheorems
  Verif.MixedExecProofs Verif.ZMod Verif.MixedProgProofs.
Import ListNotations.
Open Scope nat_scope.

Section Prog.
Variables maxu cap w : nat.
Hypothesis Hmx : 1000 <= maxu.
Hypothesis Hcp : 2 <= cap.
Hypothesis Hw0 : 0 < w.

Lemma xor_cancel x r j : xorb (Z.testbit (Z.lxor x r) j) (Z.testbit r j) = Z.testbit x j.
Proof. rewrite Z.lxor_spec. destruct (Z.testbit x j), (Z.testbit r j); reflexivity. Qed.
Lemma xor_cancel' x r j : xorb (Z.testbit r j) (Z.testbit (Z.lxor x r) j) = Z.testbit x j.
Proof. rewrite Z.lxor_spec. destruct (Z.testbit x j), (Z.testbit r j); reflexivity. Qed.

Definition no_io (x : mixed_gate) : Prop := match x with MGBase (GInput | GOutput) => False | _ => True end.

Lemma a2b_grow c id : In w [8; 16; 32; 64] -> main_ok mixed_ops c -> id < c_count c ->
  exists c' outs, a2b maxu cap w c id = Some (c', outs) /\ grown no_io c c' /\ length outs = w /\
    Forall (fun g => g < c_count c') outs /\
    nth_error (c_gates c') (c_count c) = Some (MGConv CSnd) /\ nth_error (c_gates c') (S (c_count c)) = Some (MGConv CRcv) /\
    parents c' (c_count c) = [id] /\ parents c' (S (c_count c)) = [id] /\
    (forall g x, S (S (c_count c)) <= g -> nth_error (c_gates c') g = Some x -> quiet x) /\
    forall D ins V x0 x1, D (c_count c) = D (S (c_count c)) -> pvalued w D V ins c -> V id = VP x0 x1 ->
    exists V', (forall g, g < c_count c -> V' g = V g) /\ pvalued w D V' ins c' /\
      map V' outs = map VB (bits_of w (x0 + x1)).
Proof.
  intros Hw Hm Hid. unfold a2b.
  destruct (grow1 w c (MGConv CSnd) [id] Hm) as (c1 & E1 & G1 & C1 & N1 & P1 & _ & _ & V1); [constructor; auto|split; discriminate|].
  rewrite E1. cbn [obind].
  destruct (grow1 w c1 (MGConv CRcv) [id] (gr_main _ _ _ G1)) as (c2 & E2 & G2 & C2 & N2 & P2 & _ & _ & V2);
    [constructor; auto; lia|split; discriminate|].
  rewrite E2. cbn [obind].
  destruct (grow1 w c2 (MGConv CSelect) [c_count c; c_count c1] (gr_main _ _ _ G2)) as (c3 & E3 & G3 & C3 & N3 & P3 & _ & _ & V3);
    [repeat constructor; lia|split; discriminate|].
  rewrite E3. cbn [obind].
  destruct (grow1 w c3 (MGConv CSelect) [c_count c1; c_count c] (gr_main _ _ _ G3)) as (c4 & E4 & G4 & C4 & N4 & P4 & _ & _ & V4);
    [repeat constructor; lia|split; discriminate|].
  rewrite E4. cbn [obind].
  destruct (split_grow w w 0 c4 (c_count c2) (gr_main _ _ _ G4) ltac:(lia)) as (c5 & s0 & E5 & G5 & L5 & F5 & V5).
  rewrite E5. cbn [obind]. pose proof (grown_count _ _ _ G5) as C5.
  destruct (split_grow w w 0 c5 (c_count c3) (gr_main _ _ _ G5) ltac:(lia)) as (c6 & s1 & E6 & G6 & L6 & F6 & V6).
  rewrite E6. cbn [obind]. pose proof (grown_count _ _ _ G6) as C6.
  assert (F56 : Forall (fun i => i < c_count c6) (s0 ++ s1)).
  { apply Forall_app. split; auto. eapply Forall_impl; [|exact F5]. cbn. intros. lia. }
  destruct (add_grow w maxu cap c6 s0 s1 Hw Hmx Hcp (gr_main _ _ _ G6) L5 L6 F56) as (c7 & outs & E7 & G7 & L7 & F7 & V7).
  exists c7, outs. split; auto.
  assert (G27 : grown quiet c2 c7).
  { eapply grown_trans; [|exact G7]. eapply grown_trans; [|exact G6]. eapply grown_trans; [|exact G5].
    eapply grown_trans; [eapply grown_impl; [|exact G3]|eapply grown_impl; [|exact G4]]; intros x <-; exact I. }
  assert (Hq : forall x, quiet x -> no_io x) by (intros [[]| | |]; cbn; tauto).
  split.
  { eapply grown_trans; [eapply grown_impl; [|exact G1]; intros x <-; exact I|].
    eapply grown_trans; [eapply grown_impl; [|exact G2]; intros x <-; exact I|]. eapply grown_impl; [|exact G27]. auto. }
  split; auto. split; auto. rewrite C1 in *.
  split. { apply (grown_old _ _ _ _ _ G27). apply (grown_old _ _ _ _ _ G2). auto. }
  split. { apply (grown_old _ _ _ _ _ G27). auto. }
  split. { rewrite (gr_par _ _ _ G27), (gr_par _ _ _ G2) by lia. auto. }
  split. { rewrite (gr_par _ _ _ G27) by lia. auto. }
  split. { intros g x Hg Hx. refine (grown_new _ _ _ g x G27 _ Hx). lia. }
  intros D ins V x0 x1 HD HV E.
  set (n := c_count c) in *. set (d := D n) in *.
  pose (v1 := VP (Z.lxor x0 (cd_rho0 d)) (Z.lxor x1 (cd_rho1 d))). pose (v2 := VP (cd_rho1 d) (cd_rho0 d)).
  pose (v3 := VP (Z.lxor x0 (cd_rho0 d)) (cd_rho0 d)). pose (v4 := VP (cd_rho1 d) (Z.lxor x1 (cd_rho1 d))).
  assert (Y1 : pvalued w D (updV V n v1) ins c1).
  { apply V1; auto. cbn [map]. rewrite E. reflexivity. }
  assert (Y2 : pvalued w D (updV (updV V n v1) (S n) v2) ins c2).
  { apply V2; auto. cbn [map]. rewrite updV_old, E by lia. rewrite <- HD. reflexivity. }
  assert (Y3 : pvalued w D (updV (updV (updV V n v1) (S n) v2) (c_count c2) v3) ins c3).
  { apply V3; auto. cbn [map]. rewrite updV_new. rewrite (updV_old _ (S n)), updV_new by lia. reflexivity. }
  assert (Y4 : pvalued w D (updV (updV (updV (updV V n v1) (S n) v2) (c_count c2) v3) (c_count c3) v4) ins c4).
  { apply V4; auto. cbn [map]. rewrite (updV_old _ (c_count c2) _ (S n)), updV_new by lia.
    rewrite (updV_old _ (c_count c2) _ n), (updV_old _ (S n) _ n), updV_new by lia. reflexivity. }
  destruct (V5 D ins _ (Z.lxor x0 (cd_rho0 d)) (cd_rho0 d) (le_n _) Y4) as (U5 & A5 & B5 & M5).
  { rewrite (updV_old _ (c_count c3)) by lia. apply updV_new. }
  destruct (V6 D ins U5 (cd_rho1 d) (Z.lxor x1 (cd_rho1 d)) (le_n _) B5) as (U6 & A6 & B6 & M6).
  { rewrite A5 by lia. apply updV_new. }
  destruct (V7 D ins U6 (bits_of w x0) (bits_of w x1) B6) as (U7 & A7 & B7 & M7).
  - transitivity (map U5 s0).
    + apply map_ext_in. intros g Hg. rewrite Forall_forall in F5. apply A6. auto.
    + rewrite M5. unfold bits_of. rewrite map_map. apply map_ext. intros j. rewrite xor_cancel. auto.
  - rewrite M6. unfold bits_of. rewrite map_map. apply map_ext. intros j. rewrite xor_cancel'. auto.
  - exists U7. split; [|split; auto].
    + intros g Hg. rewrite A7, A6, A5 by lia. rewrite !updV_old by lia. auto.
    + rewrite M7. f_equal. rewrite !value_bits_of. rewrite <- bits_of_mod. rewrite <- Z.add_mod by (apply pow2_nz; lia).
      apply bits_of_mod.
Qed.

(** ** Instructions *)

Definition pv (m : mval) : pval := match m with VB b => PB b | VP x y => PA ((x + y) mod 2 ^ Z.of_nat w)%Z end.

(** Every sending half of an A2B is followed by its receiving half. *)
Definition paired (c : circuit mixed_gate) : Prop :=
  (forall s, nth_error (c_gates c) s = Some (MGConv CSnd) ->
     nth_error (c_gates c) (S s) = Some (MGConv CRcv) /\ parents c (S s) = parents c s) /\
  (forall r, nth_error (c_gates c) r = Some (MGConv CRcv) ->
     exists s, r = S s /\ nth_error (c_gates c) s = Some (MGConv CSnd)).

Record shape (c : circuit mixed_gate) (env : list nat) : Prop := {
  sh_main : main_ok mixed_ops c;
  sh_simd : c_simd c = None;
  sh_env : Forall (fun g => g < c_count c) env;
  sh_pair : paired c }.

Definition good_b2a (d : cdata) : Prop :=
  forall bits, length bits = w ->
  let t := Z.lxor (word_of_bits bits) (Z.lxor (cd_r0 d) (cd_r1 d)) in
  exists y0 y1, b2a_eval w 0 t (cd_a0 d) = Some y0 /\ b2a_eval w 1 t (cd_a1 d) = Some y1 /\
    ((y0 + y1) mod 2 ^ Z.of_nat w = bits_value bits mod 2 ^ Z.of_nat w)%Z.

(** The data assigned to the conversion gates of a circuit. *)
Definition dgood (D : nat -> cdata) (c : circuit mixed_gate) : Prop :=
  forall g gate, nth_error (c_gates c) g = Some gate ->
  match gate with MGConv CSnd => D g = D (S g) | MGConv CB2A => good_b2a (D g) | _ => True end.

Record vinv (D : nat -> cdata) (V : nat -> mval) (ins : list mval) (c : circuit mixed_gate) (env : list nat)
  (penv pouts pins : list pval) : Prop := {
  vi_val : pvalued w D V ins c;
  vi_env : map (fun g => pv (V g)) env = penv;
  vi_out : map (fun g => pv (V g)) (c_outputs c) = pouts;
  vi_in : map pv (skipn (length (c_inputs c)) ins) = pins }.

Lemma paired_grown Q c c' : paired c -> grown Q c c' ->
  (forall g x, c_count c <= g -> nth_error (c_gates c') g = Some x -> match x with MGConv (CSnd | CRcv) => False | _ => True end) ->
  paired c'.
Proof.
  intros [P1 P2] HG HN. split.
  - intros s Hs. destruct (Nat.lt_ge_cases s (c_count c)) as [Hl|Hl]; [|destruct (HN s _ Hl Hs)].
    rewrite (grown_old' _ _ _ _ HG Hl) in Hs. destruct (P1 s Hs) as [A B]. split; [apply (grown_old _ _ _ _ _ HG A)|].
    assert (S s < c_count c) by (apply nth_error_Some; congruence). rewrite !(gr_par _ _ _ HG); auto.
  - intros r Hr. destruct (Nat.lt_ge_cases r (c_count c)) as [Hl|Hl]; [|destruct (HN r _ Hl Hr)].
    rewrite (grown_old' _ _ _ _ HG Hl) in Hr. destruct (P2 r Hr) as (s & -> & Hs). exists s. split; auto.
    apply (grown_old _ _ _ _ _ HG Hs).
Qed.

Lemma outputs_lt c o : api mixed_ops c -> In o (c_outputs c) -> o < c_count c.
Proof.
  intros Ha Ho. rewrite (aw_outputs _ _ (api_api_wf _ _ Ha)) in Ho. apply ids_where_In in Ho. destruct Ho as (x & E & _).
  apply nth_error_Some. congruence.
Qed.

Lemma env_nth (V : nat -> mval) env penv a v : map (fun g => pv (V g)) env = penv -> nth_error penv a = Some v ->
  forall id, nth_error env a = Some id -> pv (V id) = v.
Proof.
  intros <- H id E. rewrite nth_error_map, E in H. cbn in H. congruence.
Qed.

Lemma omap_env env penv (l : list nat) : length env = length penv -> forall vs, omap (nth_error penv) l = Some vs ->
  exists ids, omap (nth_error env) l = Some ids /\ length ids = length vs /\ incl ids env /\
    forall V : nat -> mval, map (fun g => pv (V g)) env = penv -> map (fun g => pv (V g)) ids = vs.
Proof.
  intros HL. induction l as [|a l IH]; intros vs H; cbn in H.
  - injection H as <-. exists []. cbn. split; auto. split; auto. split; [intros ? []|auto].
  - destruct (nth_error penv a) as [v|] eqn:Ev; [|discriminate]. cbn [obind] in H.
    destruct (omap (nth_error penv) l) as [vs'|] eqn:Evs; [|discriminate]. cbn [obind] in H. injection H as <-.
    destruct (IH _ eq_refl) as (ids & E & L & I1 & HV).
    destruct (nth_error env a) as [id|] eqn:Eid.
    2:{ apply nth_error_None in Eid. assert (a < length penv) by (apply nth_error_Some; congruence). lia. }
    exists (id :: ids). cbn [omap]. rewrite Eid. cbn [obind]. rewrite E. cbn [obind]. split; auto. split; [cbn; auto|].
    split. { intros x [<-|Hx]; [eapply nth_error_In; eauto|auto]. }
    intros V Hm. cbn [map]. f_equal; auto. eapply env_nth; eauto.
Qed.

(** An instruction that adds one gate, which computes [v] from [vs]. *)
Lemma one_gate c env penv pouts pins (g : mixed_gate) (l : list nat) vs v :
  shape c env -> length env = length penv -> omap (nth_error penv) l = Some vs ->
  (l = [] <-> source g = true) ->
  match g with MGBase (GInput | GOutput) | MGConv (CSnd | CRcv) => False | _ => True end ->
  (forall d ms, good_b2a d \/ g <> MGConv CB2A -> map pv ms = vs -> exists m, msem w d g ms = Some m /\ pv m = v) ->
  exists ids c', omap (nth_error env) l = Some ids /\ add_wired_gate mixed_ops c g ids = Some (c', c_count c) /\
    shape c' (env ++ [c_count c]) /\ grown (fun _ => True) c c' /\
    forall D V ins, dgood D c' -> vinv D V ins c env penv pouts pins ->
    exists V', vinv D V' ins c' (env ++ [c_count c]) (penv ++ [v]) pouts pins.
Proof.
  intros [Hm Hsd He Hp] HL Hl Hs Hg Hsem.
  destruct (omap_env env penv l HL vs Hl) as (ids & Ei & Li & Ii & HVs).
  assert (HF : Forall (fun i => i < c_count c) ids).
  { apply Forall_forall. intros x Hx. rewrite Forall_forall in He. auto. }
  assert (Hs' : ids = [] <-> source g = true).
  { rewrite <- Hs. apply omap_length in Hl. split; intros ->; [destruct l; auto; cbn in *; lia|destruct ids; auto; cbn in *; lia]. }
  destruct (grow1 w c g ids Hm HF Hs') as (c' & E & HG & C & N & P & EI & EO & HV).
  exists ids, c'. split; auto. split; auto.
  assert (Hpair : paired c').
  { apply (paired_grown _ c c' Hp HG). intros x y Hx Hy. rewrite <- (grown_new _ _ _ _ _ HG Hx Hy). destruct g as [[]| | |[]]; tauto. }
  assert (HG' : grown (fun _ => True) c c') by (eapply grown_impl; [|exact HG]; auto).
  split.
  { constructor; auto; [apply (gr_main _ _ _ HG)|rewrite (gr_simd _ _ _ HG); auto|].
    apply Forall_app. rewrite C. split; [eapply Forall_impl; [|exact He]; cbn; intros; lia|repeat constructor]. }
  split; auto. intros D V ins HD [VV VE VO VI].
  assert (Hb : good_b2a (D (c_count c)) \/ g <> MGConv CB2A).
  { specialize (HD _ _ N). destruct g as [[]| | |[]]; auto; right; discriminate. }
  destruct (Hsem (D (c_count c)) (map V ids) Hb) as (m & Em & Epv); [rewrite map_map; apply HVs; auto|].
  exists (updV V (c_count c) m).
  assert (EI' : c_inputs c' = c_inputs c) by (rewrite EI; destruct g as [[]| | |]; try tauto; cbn; apply app_nil_r).
  assert (EO' : c_outputs c' = c_outputs c) by (rewrite EO; destruct g as [[]| | |]; try tauto; cbn; apply app_nil_r).
  constructor.
  - apply HV; auto. destruct g as [[]| | |]; auto; tauto.
  - rewrite map_app. cbn [map]. rewrite updV_new, Epv. f_equal. rewrite <- VE. apply map_ext_in. intros x Hx.
    rewrite Forall_forall in He. rewrite updV_old; auto.
  - rewrite EO', <- VO. apply map_ext_in. intros x Hx. rewrite updV_old; auto. apply outputs_lt; auto. apply Hm.
  - rewrite EI'. auto.
Qed.

Lemma pv_bit ms : forall bits, omap pbit (map pv ms) = Some bits -> omap mval_bit ms = Some bits.
Proof.
  induction ms as [|[b|x y] ms IH]; intros bits H; cbn in *; try discriminate; auto.
  destruct (omap pbit (map pv ms)) as [r|]; [|discriminate]. cbn in H. injection H as <-. rewrite (IH r); auto.
Qed.

Lemma step_ok i c env penv pouts pins penv' pouts' pins' :
  (match i with IA2B _ => In w [8; 16; 32; 64] | _ => True end) ->
  shape c env -> length env = length penv -> prun1 w i penv pouts pins = Some (penv', pouts', pins') ->
  exists c' env', comp1 maxu cap w i c env = Some (c', env') /\ shape c' env' /\ length env' = length penv' /\
    grown (fun _ => True) c c' /\
    forall D V ins, dgood D c' -> vinv D V ins c env penv pouts pins ->
    exists V', vinv D V' ins c' env' penv' pouts' pins'.
Proof.
  intros Hw HS HL H.
  assert (P2 : forall g a b v u, nth_error penv a = Some v -> nth_error penv b = Some u -> source g = false ->
    match g with MGBase (GInput | GOutput) | MGConv (CSnd | CRcv | CB2A) => False | _ => True end ->
    forall r, (forall d ms, map pv ms = [v; u] -> exists m, msem w d g ms = Some m /\ pv m = r) ->
    exists c' env', (ids <- omap (nth_error env) [a; b] ;; '(c', id) <- add_wired_gate mixed_ops c g ids ;; Some (c', env ++ [id])) = Some (c', env') /\
      shape c' env' /\ length env' = length (penv ++ [r]) /\ grown (fun _ => True) c c' /\
      forall D V ins, dgood D c' -> vinv D V ins c env penv pouts pins ->
      exists V', vinv D V' ins c' env' (penv ++ [r]) pouts pins).
  { intros g a b v u Ea Eb Hsrc Hk r Hsem.
    destruct (one_gate c env penv pouts pins g [a; b] [v; u] r HS HL) as (ids & c' & E1 & E2 & S' & G' & V').
    - cbn. rewrite Ea, Eb. reflexivity.
    - rewrite Hsrc. split; discriminate.
    - destruct g as [[]| | |[]]; auto.
    - intros d ms _. apply Hsem.
    - exists c', (env ++ [c_count c]). rewrite E1. cbn [obind]. rewrite E2. cbn [obind]. rewrite !app_length, HL. cbn. auto 10. }
  destruct i as [|[b|x]|a b|a b|a|a b|a b|a b|a|l|a|a]; cbn [prun1 comp1] in H |- *.
  - (* In *)
    destruct pins as [|v r]; [discriminate|]. injection H as <- <- <-. destruct HS as [Hm Hsd He Hp].
    destruct (grow1 w c (MGBase GInput) [] Hm) as (c' & E & HG & C & N & P & EI & EO & HV); [constructor|split; auto|].
    exists c', (env ++ [c_count c]). cbn [omap obind]. rewrite E. cbn [obind]. split; auto. split.
    { constructor; [apply (gr_main _ _ _ HG)|rewrite (gr_simd _ _ _ HG); auto| |].
      - apply Forall_app. rewrite C. split; [eapply Forall_impl; [|exact He]; cbn; intros; lia|repeat constructor].
      - apply (paired_grown _ c c' Hp HG). intros y z Hy Hz. rewrite <- (grown_new _ _ _ _ _ HG Hy Hz). exact I. }
    split; [rewrite !app_length, HL; auto|]. split; [eapply grown_impl; [|exact HG]; auto|].
    intros D V ins HD [VV VE VO VI].
    destruct (skipn (length (c_inputs c)) ins) as [|m ms] eqn:Es; [discriminate|]. cbn in VI. injection VI as VI1 VI2.
    assert (Hn : nth_error ins (length (c_inputs c)) = Some m).
    { rewrite <- (firstn_skipn (length (c_inputs c)) ins), Es. rewrite nth_error_app2; rewrite firstn_length_le; try lia.
      - rewrite Nat.sub_diag. reflexivity.
      - destruct (Nat.le_gt_cases (length (c_inputs c)) (length ins)); auto. rewrite skipn_all2 in Es by lia. discriminate.
      - destruct (Nat.le_gt_cases (length (c_inputs c)) (length ins)); auto. rewrite skipn_all2 in Es by lia. discriminate. }
    exists (updV V (c_count c) m). cbn [is_input_gate is_output_gate mixed_ops g_base mixed_as_base] in EI, EO. rewrite app_nil_r in EO.
    constructor.
    + apply HV; auto.
    + rewrite map_app. cbn [map]. rewrite updV_new, VI1. f_equal. rewrite <- VE. apply map_ext_in. intros y Hy.
      rewrite Forall_forall in He. rewrite updV_old; auto.
    + rewrite EO, <- VO. apply map_ext_in. intros y Hy. rewrite updV_old; auto. apply outputs_lt; auto. apply Hm.
    + rewrite EI, app_length. cbn [length]. rewrite <- VI2. f_equal.
      rewrite Nat.add_1_r. clear - Es. revert ins Es. induction (length (c_inputs c)) as [|n IH]; intros [|y ins] Es; cbn in *; try discriminate.
      * injection Es as -> ->. reflexivity.
      * apply IH. auto.
  - injection H as <- <- <-.
    destruct (one_gate c env penv pouts pins (MGBase (GConstant (MBool b))) [] [] (PB b) HS HL) as (ids & c' & E1 & E2 & S' & G' & V'); auto.
    + split; auto.
    + intros d [|? ?] _ Hms; [|discriminate]. eexists. split; reflexivity.
    + exists c', (env ++ [c_count c]). rewrite E1. cbn [obind]. rewrite E2. cbn [obind]. rewrite !app_length, HL. auto 10.
  - injection H as <- <- <-.
    destruct (one_gate c env penv pouts pins (MGBase (GConstant (MArith x))) [] [] (PA (x mod 2 ^ Z.of_nat w)%Z) HS HL) as (ids & c' & E1 & E2 & S' & G' & V'); auto.
    + split; auto.
    + intros d [|? ?] _ Hms; [|discriminate]. eexists. split; [reflexivity|]. cbn. rewrite Z.add_0_r. reflexivity.
    + exists c', (env ++ [c_count c]). rewrite E1. cbn [obind]. rewrite E2. cbn [obind]. rewrite !app_length, HL. auto 10.
  - destruct (nth_error penv a) as [[x|]|] eqn:Ea; try discriminate. destruct (nth_error penv b) as [[y|]|] eqn:Eb; try discriminate.
    injection H as <- <- <-. eapply (P2 _ a b); eauto; try exact I.
    intros d ms Hms. destruct ms as [|[p|] [|[q|] [|? ?]]]; try discriminate. injection Hms as -> ->. eexists. split; reflexivity.
  - destruct (nth_error penv a) as [[x|]|] eqn:Ea; try discriminate. destruct (nth_error penv b) as [[y|]|] eqn:Eb; try discriminate.
    injection H as <- <- <-. eapply (P2 _ a b); eauto; try exact I.
    intros d ms Hms. destruct ms as [|[p|] [|[q|] [|? ?]]]; try discriminate. injection Hms as -> ->. eexists. split; reflexivity.
  - destruct (nth_error penv a) as [[x|]|] eqn:Ea; try discriminate. injection H as <- <- <-.
    destruct (one_gate c env penv pouts pins (MGBool BInv) [a] [PB x] (PB (negb x)) HS HL) as (ids & c' & E1 & E2 & S' & G' & V'); auto.
    + cbn. rewrite Ea. reflexivity.
    + split; discriminate.
    + intros d ms _ Hms. destruct ms as [|[p|] [|? ?]]; try discriminate. injection Hms as ->. eexists. split; reflexivity.
    + exists c', (env ++ [c_count c]). rewrite E1. cbn [obind]. rewrite E2. cbn [obind]. rewrite !app_length, HL. auto 10.
  - destruct (nth_error penv a) as [[|x]|] eqn:Ea; try discriminate. destruct (nth_error penv b) as [[|y]|] eqn:Eb; try discriminate.
    injection H as <- <- <-. eapply (P2 _ a b); eauto; try exact I.
    intros d ms Hms. destruct ms as [|[p|p0 p1] [|[q|q0 q1] [|? ?]]]; try discriminate. injection Hms as <- <-. eexists. split; [reflexivity|].
    cbn. f_equal. unfold wadd. zmod (2 ^ Z.of_nat w)%Z.
  - destruct (nth_error penv a) as [[|x]|] eqn:Ea; try discriminate. destruct (nth_error penv b) as [[|y]|] eqn:Eb; try discriminate.
    injection H as <- <- <-. eapply (P2 _ a b); eauto; try exact I.
    intros d ms Hms. destruct ms as [|[p|p0 p1] [|[q|q0 q1] [|? ?]]]; try discriminate. injection Hms as <- <-. eexists. split; [reflexivity|].
    cbn. f_equal. unfold wsub. zmod (2 ^ Z.of_nat w)%Z.
  - destruct (nth_error penv a) as [[|x]|] eqn:Ea; try discriminate. destruct (nth_error penv b) as [[|y]|] eqn:Eb; try discriminate.
    injection H as <- <- <-. eapply (P2 _ a b); eauto; try exact I.
    intros d ms Hms. destruct ms as [|[p|p0 p1] [|[q|q0 q1] [|? ?]]]; try discriminate. injection Hms as <- <-. eexists. split; [reflexivity|].
    cbn. f_equal. zmod (2 ^ Z.of_nat w)%Z.
  - (* A2B *)
    destruct (nth_error penv a) as [[|x]|] eqn:Ea; try discriminate. injection H as <- <- <-.
    destruct HS as [Hm Hsd He Hp].
    destruct (nth_error env a) as [id|] eqn:Eid.
    2:{ apply nth_error_None in Eid. assert (a < length penv) by (apply nth_error_Some; congruence). lia. }
    assert (Hid : id < c_count c) by (rewrite Forall_forall in He; apply He; eapply nth_error_In; eauto).
    cbn [obind]. destruct (a2b_grow c id Hw Hm Hid) as (c' & outs & E & HG & LO & FO & NS & NR & PS & PR & HQ & HV).
    exists c', (env ++ outs). rewrite E. cbn [obind]. split; auto. pose proof (grown_count _ _ _ HG) as HC.
    assert (Hpair : paired c').
    { destruct Hp as [Q1 Q2]. split.
      - intros s Hs. destruct (Nat.lt_ge_cases s (c_count c)) as [Hl|Hl].
        + rewrite (grown_old' _ _ _ _ HG Hl) in Hs. destruct (Q1 s Hs) as [A B]. split; [apply (grown_old _ _ _ _ _ HG A)|].
          assert (S s < c_count c) by (apply nth_error_Some; congruence). rewrite !(gr_par _ _ _ HG); auto.
        + destruct (Nat.eq_dec s (c_count c)) as [->|]; [rewrite NR, PS, PR; auto|].
          destruct (Nat.eq_dec s (S (c_count c))) as [->|]; [congruence|]. destruct (HQ s _ ltac:(lia) Hs).
      - intros r Hr. destruct (Nat.lt_ge_cases r (c_count c)) as [Hl|Hl].
        + rewrite (grown_old' _ _ _ _ HG Hl) in Hr. destruct (Q2 r Hr) as (s & -> & Hs). exists s. split; auto.
          apply (grown_old _ _ _ _ _ HG Hs).
        + destruct (Nat.eq_dec r (c_count c)) as [->|]; [congruence|].
          destruct (Nat.eq_dec r (S (c_count c))) as [->|]; [eauto|]. destruct (HQ r _ ltac:(lia) Hr). }
    split.
    { constructor; auto; [apply (gr_main _ _ _ HG)|rewrite (gr_simd _ _ _ HG); auto|].
      apply Forall_app. split; auto. eapply Forall_impl; [|exact He]. cbn. intros. lia. }
    split. { rewrite !app_length, map_length, HL, LO. unfold bits_of. rewrite map_length, seq_length. auto. }
    split; [eapply grown_impl; [|exact HG]; auto|].
    intros D V ins HD [VV VE VO VI].
    pose proof (env_nth V env penv a _ VE Ea id Eid) as Hpv. destruct (V id) as [|x0 x1] eqn:EV; [discriminate|].
    injection Hpv as Hpv.
    destruct (HV D ins V x0 x1 (HD _ _ NS) VV EV) as (V' & A & B & M). exists V'.
    assert (HGi : grown (fun x => match x with MGBase (GInput | GOutput) => False | _ => True end) c c') by exact HG.
    destruct (grown_io c c' Hm HGi) as [EI EO]. constructor; auto.
    + rewrite map_app. f_equal.
      * rewrite <- VE. apply map_ext_in. intros y Hy. rewrite Forall_forall in He. rewrite A; auto.
      * rewrite <- (map_map V' pv), M, map_map. rewrite <- Hpv, bits_of_mod. reflexivity.
    + rewrite EO, <- VO. apply map_ext_in. intros y Hy. rewrite A; auto. apply outputs_lt; auto. apply Hm.
    + rewrite EI. auto.
  - (* B2A *)
    destruct (omap (nth_error penv) l) as [vs|] eqn:Evs; [|discriminate]. cbn [obind] in H.
    destruct (omap pbit vs) as [bits|] eqn:Eb; [|discriminate]. cbn [obind] in H.
    destruct (Nat.eqb_spec (length bits) w) as [Lb|]; [|discriminate]. cbn [oassert obind] in H. injection H as <- <- <-.
    destruct (one_gate c env penv pouts pins (MGConv CB2A) l vs (PA (bits_value bits)) HS HL Evs) as (ids & c' & E1 & E2 & S' & G' & V'); auto.
    + apply omap_length in Evs, Eb. split; [|discriminate]. intros ->. cbn in *. lia.
    + intros d ms [Hd|Hd] Hms; [|congruence]. subst vs. apply pv_bit in Eb. cbn [msem]. rewrite Eb. cbn [obind].
      rewrite Lb, Nat.eqb_refl. cbn [oassert obind]. destruct (Hd bits Lb) as (y0 & y1 & B0 & B1 & Hsum).
      rewrite B0, B1. cbn [obind]. eexists. split; [reflexivity|]. cbn [pv]. rewrite Hsum. f_equal.
      apply Z.mod_small. rewrite <- Lb. apply bits_value_range.
    + exists c', (env ++ [c_count c]). rewrite E1. cbn [obind]. rewrite E2. cbn [obind]. rewrite !app_length, HL. auto 10.
  - (* Out *)
    destruct (nth_error penv a) as [v|] eqn:Ea; try discriminate. injection H as <- <- <-. destruct HS as [Hm Hsd He Hp].
    destruct (nth_error env a) as [id|] eqn:Eid.
    2:{ apply nth_error_None in Eid. assert (a < length penv) by (apply nth_error_Some; congruence). lia. }
    assert (Hid : id < c_count c) by (rewrite Forall_forall in He; apply He; eapply nth_error_In; eauto).
    destruct (grow1 w c (MGBase GOutput) [id] Hm) as (c' & E & HG & C & N & P & EI & EO & HV); [constructor; auto|split; discriminate|].
    exists c', env. cbn [obind]. rewrite E. cbn [obind]. split; auto. split.
    { constructor; [apply (gr_main _ _ _ HG)|rewrite (gr_simd _ _ _ HG); auto| |].
      - rewrite C. eapply Forall_impl; [|exact He]; cbn; intros; lia.
      - apply (paired_grown _ c c' Hp HG). intros y z Hy Hz. rewrite <- (grown_new _ _ _ _ _ HG Hy Hz). exact I. }
    split; auto. split; [eapply grown_impl; [|exact HG]; auto|].
    intros D V ins HD [VV VE VO VI]. exists (updV V (c_count c) (V id)).
    cbn [is_input_gate is_output_gate mixed_ops g_base mixed_as_base] in EI, EO. rewrite app_nil_r in EI.
    constructor.
    + apply HV; auto.
    + rewrite <- VE. apply map_ext_in. intros y Hy. rewrite Forall_forall in He. rewrite updV_old; auto.
    + rewrite EO, map_app. cbn [map]. rewrite updV_new. rewrite (env_nth V env penv a v VE Ea id Eid). f_equal.
      rewrite <- VO. apply map_ext_in. intros y Hy. rewrite updV_old; auto. apply outputs_lt; auto. apply Hm.
    + rewrite EI. auto.
  - (* Identity *)
    destruct (nth_error penv a) as [v|] eqn:Ea; try discriminate. injection H as <- <- <-.
    destruct (one_gate c env penv pouts pins (MGBase GIdentity) [a] [v] v HS HL) as (ids & c' & E1 & E2 & S' & G' & V'); auto.
    + cbn. rewrite Ea. reflexivity.
    + split; discriminate.
    + intros d ms _ Hms. destruct ms as [|m [|? ?]]; try discriminate. injection Hms as <-. eexists. split; reflexivity.
    + exists c', (env ++ [c_count c]). rewrite E1. cbn [obind]. rewrite E2. cbn [obind]. rewrite !app_length, HL. auto 10.
Qed.

Lemma comp_ok prog : forall c env penv pouts pins penv' pouts' pins',
  (forall a, In (IA2B a) prog -> In w [8; 16; 32; 64]) ->
  shape c env -> length env = length penv -> prun w prog penv pouts pins = Some (penv', pouts', pins') ->
  exists c' env', comp maxu cap w prog c env = Some (c', env') /\ shape c' env' /\
    grown (fun _ => True) c c' /\
    forall D V ins, dgood D c' -> vinv D V ins c env penv pouts pins ->
    exists V', vinv D V' ins c' env' penv' pouts' pins'.
Proof.
  induction prog as [|i prog IH]; intros c env penv pouts pins penv' pouts' pins' Hw HS HL H; cbn [prun comp] in *.
  - injection H as <- <- <-. exists c, env. split; auto. split; auto. split; [|eauto].
    destruct HS. constructor; auto. exists []. rewrite app_nil_r. auto.
  - destruct (prun1 w i penv pouts pins) as [[[e1 o1] i1]|] eqn:E1; [|discriminate]. cbn [obind] in H.
    destruct (step_ok i c env penv pouts pins e1 o1 i1) as (c1 & env1 & C1 & S1 & L1 & G1 & V1); auto.
    { destruct i; auto. eapply Hw. cbn. eauto. }
    destruct (IH c1 env1 e1 o1 i1 penv' pouts' pins') as (c2 & env2 & C2 & S2 & G2 & V2); auto.
    { intros a Ha. apply (Hw a). cbn; auto. }
    exists c2, env2. rewrite C1. cbn [obind]. split; auto. split; auto. split; [eapply grown_trans; eauto|].
    intros D V ins HD HV. destruct (V1 D V ins) as (V' & HV'); auto; [|eapply V2; eauto].
    intros g gate Hg. apply (HD g gate). apply (grown_old _ _ _ _ _ G2 Hg).
Qed.
End Prog.
