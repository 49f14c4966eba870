(** The CBC circuit. *)
From Coq Require Import List Bool Arith Lia Permutation.
Require Import Verif.Prelude Verif.PreludeProofs Verif.GateModel Verif.CircuitModel Verif.CircuitSpec Verif.CircuitProofs
  Verif.CircuitProofs2 Verif.CircuitProofs3 Verif.ExecModel Verif.BoolGmwModel Verif.BoolGmwSpec Verif.InlineModel Verif.InlineSpec
  Verif.InlineProofs Verif.InlineTheorems Verif.BristolProofs Verif.BristolTheorems Verif.ConnModel Verif.BuilderModel Verif.BuilderSpec
  Verif.BuilderProofs Verif.BuilderProofs2 Verif.CbcModel Verif.CbcSpec.
Import ListNotations.

Definition bval (c : circuit bool_gate) (v : nat -> bool) : Prop := valued bool_ops bool_gate_sem c v.

Lemma ids_where_none {G} (f : G -> bool) l gs : Forall (fun x => f x = false) gs -> ids_where f (l ++ gs) = ids_where f l.
Proof.
  induction gs as [|x gs IH] using rev_ind; intros H; [rewrite app_nil_r; auto|].
  apply Forall_app in H. destruct H as [H1 H2]. inversion H2 as [|? ? Hx _]; subst.
  rewrite app_assoc, ids_where_snoc, Hx, app_nil_r. auto.
Qed.

(** What the inlining keeps. *)
Record ext (c c' : circuit bool_gate) (os : list nat) : Prop := {
  ex_built : built c';
  ex_gates : exists gs, c_gates c' = c_gates c ++ gs;
  ex_in : c_inputs c' = c_inputs c;
  ex_out : c_outputs c' = c_outputs c ++ os;
  ex_sc : c_scins c' = c_scins c;
  ex_val : forall v, bval c' v -> bval c v }.

Lemma ext_refl c : built c -> ext c c [].
Proof. intros B. constructor; auto; [exists []|]; rewrite app_nil_r; auto. Qed.
Lemma ext_trans a b c o1 o2 : ext a b o1 -> ext b c o2 -> ext a c (o1 ++ o2).
Proof.
  intros [B1 (g1 & G1) I1 O1 S1 V1] [B2 (g2 & G2) I2 O2 S2 V2]. constructor; auto; try congruence.
  - exists (g1 ++ g2). rewrite G2, G1, app_assoc. auto.
  - rewrite O2, O1, app_assoc. auto.
Qed.
Lemma ext_count a b o : ext a b o -> c_count a <= c_count b.
Proof. intros [_ (g & G) _ _ _ _]. unfold c_count. rewrite G, app_length. lia. Qed.

Lemma inline_built nin c sub inputs : built c -> br_shape LoadSub nin sub -> nin <= length inputs ->
  Forall (fun i => i < c_count c) inputs ->
  exists c' outs, add_sub_circuit bool_ops c sub inputs = Some (c', outs) /\ ext c c' [] /\
    Forall (fun o => o < c_count c') outs /\ length outs = length (c_scouts sub) /\
    forall v, bval c' v -> exists w, bval sub w /\ map w (c_scins sub) = map v (firstn nin inputs) /\ map v outs = map w (c_scouts sub).
Proof.
  intros HB HS HL HR. destruct (shape_sub _ _ HS) as [Hcall Har].
  assert (Hsc : c_scins sub = seq 0 nin) by (pose proof (bs_in _ _ _ HS) as H; exact H).
  assert (HL' : length (c_scins sub) <= length inputs) by (rewrite Hsc, seq_length; auto).
  destruct (inline_structure bool_ops c sub inputs (bt_api _ HB) Hcall HL' HR) as (c' & outs & order & f & E & HI).
  destruct (C15_boolean_inlining c sub inputs (bt_api _ HB) Hcall Har HL' HR) as (c'' & outs' & E' & HC & _).
  rewrite E in E'. injection E' as <- <-.
  destruct HC as (_ & HV & _). destruct (in_gates _ _ _ _ _ _ _ _ HI) as (gs & Eg & F).
  assert (Hkind : forall g, g < c_count sub -> exists y, nth_error (c_gates sub) g = Some y).
  { intros g Hg. destruct (nth_error (c_gates sub) g) eqn:Ey; eauto. apply nth_error_None in Ey. unfold c_count in Hg. lia. }
  assert (Hnew : Forall (fun x => arity x = Some 1 \/ arity x = Some 2) gs /\ Forall (fun x : bool_gate => x = BAnd \/ x = BXor \/ x = BInv \/ x = BBase GIdentity) gs).
  { assert (Hb : forall g x, conv bool_ops sub g x -> x = BAnd \/ x = BXor \/ x = BInv \/ x = BBase GIdentity).
    { intros g x (y & Ey & ->). destruct (bs_gate _ _ _ HS g y Ey) as [(_ & -> & _)|(_ & [([->| ->] & _)|([->| ->] & _)])]; cbn; auto. }
    assert (Hf : Forall (fun x : bool_gate => x = BAnd \/ x = BXor \/ x = BInv \/ x = BBase GIdentity) gs).
    { clear -F Hb. induction F as [|g x order gs H F IH]; constructor; eauto. }
    split; auto. eapply Forall_impl; [|exact Hf]. cbn beta. intros x [->|[->|[->| ->]]]; cbn; auto. }
  destruct Hnew as [_ Hnew].
  assert (Hcnt : c_count c' = c_count c + c_count sub).
  { unfold c_count at 1. rewrite Eg, app_length, <- (Forall2_len _ _ _ F). rewrite (Permutation_length (in_perm _ _ _ _ _ _ _ _ HI)), seq_length. auto. }
  assert (Hpos : forall h, h < c_count c' -> c_count c <= h ->
     exists g, nth_error order (h - c_count c) = Some g /\ h = f g /\ g < c_count sub).
  { intros h Hh Hc. destruct (nth_error order (h - c_count c)) as [g|] eqn:Eo.
    - exists g. split; auto. split; [rewrite (in_f _ _ _ _ _ _ _ _ HI _ _ Eo); lia|].
      apply nth_error_In in Eo. apply (Permutation_in _ (in_perm _ _ _ _ _ _ _ _ HI)) in Eo. apply in_seq in Eo. lia.
    - exfalso. apply nth_error_None in Eo. rewrite (Permutation_length (in_perm _ _ _ _ _ _ _ _ HI)), seq_length in Eo. lia. }
  assert (Hfr : forall g, g < c_count sub -> f g < c_count c').
  { intros g Hg. assert (Hin : In g order) by (apply (Permutation_in _ (Permutation_sym (in_perm _ _ _ _ _ _ _ _ HI))); apply in_seq; lia).
    apply In_nth_error in Hin. destruct Hin as (j & Hj). rewrite (in_f _ _ _ _ _ _ _ _ HI _ _ Hj).
    assert (j < length order) by (apply nth_error_Some; congruence).
    rewrite (Permutation_length (in_perm _ _ _ _ _ _ _ _ HI)), seq_length in H. lia. }
  assert (Hold : forall p h, h < c_count c -> In p (parents c' h) -> p < h).
  { intros p h Hh Hp. rewrite (in_old _ _ _ _ _ _ _ _ HI h Hh) in Hp. apply (bt_older _ HB). auto. }
  assert (HB' : built c').
  { constructor.
    - apply (in_api _ _ _ _ _ _ _ _ HI).
    - intros p h Hp. pose proof (aw_range _ _ (api_api_wf bool_ops c' (in_api _ _ _ _ _ _ _ _ HI))) as Hr'.
      destruct (in_range_parents c' p h Hr' Hp) as [_ Hh]. destruct (Nat.lt_ge_cases h (c_count c)) as [Hlt|Hge]; [auto|].
      destruct (Hpos h Hh Hge) as (g & Hg & Eh & Hgs). destruct (in_dec Nat.eq_dec g (c_scins sub)) as [Hin|Hni].
      + apply In_nth_error in Hin. destruct Hin as (i & Hi). destruct (in_sc _ _ _ _ _ _ _ _ HI i g Hi) as (a & Hai & Ep).
        rewrite Eh, Ep in Hp. destruct Hp as [<-|[]]. apply nth_error_In in Hai. rewrite Forall_forall in HR. apply HR in Hai. lia.
      + rewrite Eh, (in_new _ _ _ _ _ _ _ _ HI g Hgs Hni) in Hp. apply in_rev in Hp. apply in_map_iff in Hp. destruct Hp as (q & <- & Hq).
        destruct (nth_error_split _ _ Hg) as (l1 & l2 & El & Hl1).
        pose proof (in_ord _ _ _ _ _ _ _ _ HI _ _ _ El q Hq) as Hq'. simpl in Hq'.
        apply In_nth_error in Hq'. destruct Hq' as (k & Hk).
        assert (k < length l1) by (apply nth_error_Some; congruence).
        assert (Ek : nth_error order k = Some q) by (rewrite El, nth_error_app1; auto).
        rewrite (in_f _ _ _ _ _ _ _ _ HI _ _ Ek). lia.
    - intros h x Hx. assert (Hh : h < c_count c') by (apply nth_error_Some; congruence).
      destruct (Nat.lt_ge_cases h (c_count c)) as [Hlt|Hge].
      + rewrite (in_old _ _ _ _ _ _ _ _ HI h Hlt). rewrite Eg, nth_error_app1 in Hx by auto. apply (bt_arity _ HB). auto.
      + destruct (Hpos h Hh Hge) as (g & Hg & Eh & Hgs). rewrite Eg, nth_error_app2 in Hx by auto.
        assert (Hcv : conv bool_ops sub g x).
        { clear -F Hg Hx. fold (c_count c) in Hx. revert Hg Hx. generalize (h - c_count c). induction F as [|a b order gs H F IH]; intros [|i] Hg Hx; try discriminate.
          - injection Hg as <-. injection Hx as <-. auto.
          - apply (IH i); auto. }
        destruct Hcv as (y & Ey & ->). destruct (in_dec Nat.eq_dec g (c_scins sub)) as [Hin|Hni].
        * pose proof Hin as Hin'. apply In_nth_error in Hin. destruct Hin as (i & Hi). destruct (in_sc _ _ _ _ _ _ _ _ HI i g Hi) as (a & Hai & Ep).
          rewrite Eh, Ep. rewrite Hsc in Hin'. apply in_seq in Hin'.
          destruct (bs_gate _ _ _ HS g y Ey) as [(_ & -> & _)|(Hlt & _)]; [reflexivity|lia].
        * rewrite Eh, (in_new _ _ _ _ _ _ _ _ HI g Hgs Hni), rev_length, map_length.
          destruct (bs_gate _ _ _ HS g y Ey) as [(Hlt & _)|(_ & [([->| ->] & EL)|([->| ->] & EL)])]; rewrite ?EL; try reflexivity.
          exfalso. apply Hni. rewrite Hsc. apply in_seq. lia.
    - rewrite (in_simd _ _ _ _ _ _ _ _ HI). apply HB. }
  exists c', outs. split; auto. split.
  - constructor; auto.
    + eauto.
    + rewrite (aw_inputs _ _ (api_api_wf _ _ (bt_api _ HB'))), (aw_inputs _ _ (api_api_wf _ _ (bt_api _ HB))), Eg. apply ids_where_none.
      eapply Forall_impl; [|exact Hnew]. cbn beta. intros x [->|[->|[->| ->]]]; reflexivity.
    + rewrite (aw_outputs _ _ (api_api_wf _ _ (bt_api _ HB'))), (aw_outputs _ _ (api_api_wf _ _ (bt_api _ HB))), Eg, app_nil_r. apply ids_where_none.
      eapply Forall_impl; [|exact Hnew]. cbn beta. intros x [->|[->|[->| ->]]]; reflexivity.
    + rewrite (aw_scins _ _ (api_api_wf _ _ (bt_api _ HB'))), (aw_scins _ _ (api_api_wf _ _ (bt_api _ HB))), Eg. apply ids_where_none.
      eapply Forall_impl; [|exact Hnew]. cbn beta. intros x [->|[->|[->| ->]]]; reflexivity.
    + intros v Hv. apply (HV v Hv).
  - assert (Hso : forall o, In o (c_scouts sub) -> o < c_count sub).
    { intros o Ho. rewrite (aw_scouts _ _ (api_api_wf _ _ (bs_api _ _ _ HS))) in Ho. apply ids_where_In in Ho.
      destruct Ho as (x & Ex & _). apply nth_error_Some. congruence. }
    split; [|split].
    + rewrite (in_outs _ _ _ _ _ _ _ _ HI). apply Forall_forall. intros o Ho. apply in_map_iff in Ho. destruct Ho as (g & <- & Hg). auto.
    + rewrite (in_outs _ _ _ _ _ _ _ _ HI), map_length. auto.
    + intros v Hv. destruct (HV v Hv) as (_ & w & W1 & W2 & W3). exists w. split; auto. split; auto.
      rewrite W2, Hsc, seq_length. auto.
Qed.

(** ** The chunks *)

Notation one c := (BD [c] [0] cn_empty).
Definition sok (c : circuit bool_gate) (s : secret) : Prop := fst s = 0 /\ snd s < c_count c.
Definition bv (v : nat -> bool) (l : list secret) : list bool := map (fun s : secret => v (snd s)) l.

Lemma sok_ext a b o l : ext a b o -> Forall (sok a) l -> Forall (sok b) l.
Proof. intros E H. eapply Forall_impl; [|exact H]. intros s [F L]. split; auto. pose proof (ext_count _ _ _ E). unfold gid in *. lia. Qed.

Lemma xor_spec : forall chunk state c, built c -> Forall (sok c) chunk -> Forall (sok c) state -> length chunk = length state ->
  exists c' zs, cbc_xor (one c) chunk state = Some (one c', zs) /\ ext c c' [] /\ Forall (sok c') zs /\ length zs = length chunk /\
    forall v, bval c' v -> bv v zs = bits_xor (bv v chunk) (bv v state).
Proof.
  induction chunk as [|d chunk IH]; intros [|s state] c HB HC HS HL; try discriminate.
  - exists c, []. split; [reflexivity|]. split; [apply ext_refl; auto|]. split; auto.
  - inversion HC as [|? ? [D0 D1] HC']; subst. inversion HS as [|? ? [S0 S1] HS']; subst. injection HL as HL.
    cbn [cbc_xor]. unfold sec_bin. rewrite D0, S0. cbn [Nat.eqb oassert obind].
    assert (Hf : forall f, In f [snd d; snd s] -> f < c_count c) by (intros f [<-|[<-|[]]]; auto).
    rewrite b_wired_one by auto. cbn [obind].
    set (c1 := put_gate bool_ops c BXor (rev [snd d; snd s])).
    assert (B1 : built c1) by (apply put_built; auto).
    assert (Hc : c_count c1 = S (c_count c)) by (unfold c_count, c1; simpl; rewrite app_length; simpl; lia).
    assert (E1 : ext c c1 []).
    { constructor; auto; try reflexivity.
      - exists [BXor]. reflexivity.
      - rewrite app_nil_r. reflexivity.
      - intros v Hv. apply put_gate_valued in Hv; [apply Hv|apply HB|auto]. }
    destruct (IH state c1 B1 (sok_ext _ _ _ _ E1 HC') (sok_ext _ _ _ _ E1 HS') HL) as (c' & zs & E & X & K & L & V).
    rewrite E. cbn [obind]. exists c', ((0, c_count c) :: zs). split; [reflexivity|].
    split; [exact (ext_trans _ _ _ [] [] E1 X)|]. split.
    + constructor; auto. split; auto. pose proof (ext_count _ _ _ X). cbn [snd]. lia.
    + split; [cbn; congruence|]. intros v Hv. cbn [bv map]. fold (bv v zs). rewrite (V v Hv). unfold bits_xor. cbn [bv map zip_with snd].
      f_equal. pose proof (ex_val _ _ _ X v Hv) as Hv1. apply put_gate_valued in Hv1; [|apply HB|auto].
      destruct Hv1 as [_ H]. specialize (H eq_refl). cbn in H. congruence.
Qed.

Lemma outputs_ext l c : built c -> Forall (sok c) l ->
  exists c' os, sec_outputs (one c) l = Some (one c', os) /\ ext c c' os /\
    forall v, bval c' v -> map v os = bv v l.
Proof.
  intros HB HL. destruct (sec_outputs_spec l c cn_empty HB HL) as (c' & os & E & B & Eos & G & I & O & S & V).
  exists c', os. split; auto. split.
  - constructor; auto; [eexists; exact G|]. intros v Hv. apply (V v Hv).
  - intros v Hv. apply (V v Hv).
Qed.

Section CBC.
Variables (n : nat) (sub : circuit bool_gate) (E : list bool -> list bool -> list bool).
Hypothesis Hshape : br_shape LoadSub (n + n) sub.
Hypothesis Hscouts : length (c_scouts sub) = n.
Hypothesis HE : forall x k, length x = n -> length k = n -> forall w, bval sub w -> map w (c_scins sub) = x ++ k ->
  map w (c_scouts sub) = E x k.

Lemma bv_length v l : length (bv v l) = length l.
Proof. apply map_length. Qed.

Lemma aes_spec c key inp : built c -> Forall (sok c) key -> Forall (sok c) inp -> length key = n -> length inp = n ->
  exists c' out, cbc_aes128 sub (one c) key inp = Some (one c', out) /\ ext c c' [] /\ Forall (sok c') out /\ length out = n /\
    forall v, bval c' v -> bv v out = E (bv v inp) (bv v key).
Proof.
  intros HB HK HI LK LI. unfold cbc_aes128.
  assert (Hall : Forall (sok c) (inp ++ key)) by (apply Forall_app; auto).
  assert (Ha : forallb (fun s : secret => 0 =? fst s) (inp ++ key) = true).
  { apply forallb_forall. intros s Hs. rewrite Forall_forall in Hall. destruct (Hall s Hs) as [-> _]. reflexivity. }
  rewrite Ha. cbn [oassert obind b_cell b_ids b_cells nth_error].
  destruct (inline_built (n + n) c sub (map snd (inp ++ key)) HB Hshape) as (c' & outs & E1 & X & K & L & V).
  { rewrite map_length, app_length. lia. }
  { apply Forall_forall. intros i Hi. apply in_map_iff in Hi. destruct Hi as (s & <- & Hs). rewrite Forall_forall in Hall. apply (Hall s Hs). }
  rewrite E1. cbn [obind b_set b_cells upd b_ids b_cn].
  exists c', (map (pair 0) outs). split; [reflexivity|]. split; auto. split; [|split].
  - apply Forall_forall. intros s Hs. apply in_map_iff in Hs. destruct Hs as (o & <- & Ho). rewrite Forall_forall in K. split; auto.
  - rewrite map_length. congruence.
  - intros v Hv. destruct (V v Hv) as (w & W1 & W2 & W3). assert (Eb : bv v (map (pair 0) outs) = map v outs) by (unfold bv; rewrite map_map; apply map_ext; intros; reflexivity).
    rewrite Eb, W3.
    apply HE; auto; try (rewrite bv_length; auto).
    rewrite W2, firstn_all2 by (rewrite map_length, app_length; lia). rewrite map_map, map_app. reflexivity.
Qed.

Lemma chunks_spec key : length key = n -> forall cs c state outs, built c -> Forall (sok c) key -> Forall (sok c) state -> length state = n ->
  Forall (Forall (sok c)) cs -> Forall (fun l => length l = n) cs ->
  exists c' state' os, ofold (cbc_chunk sub key) (one c, (state, outs)) cs = Some (one c', (state', outs ++ os)) /\ ext c c' os /\
    forall v, bval c' v -> map v os = concat (cbc_blocks E (bv v key) (bv v state) (map (bv v) cs)).
Proof.
  intros LK. induction cs as [|chunk cs IH]; intros c state outs HB HK HS LS HC HL.
  - exists c, state, []. cbn [ofold]. rewrite app_nil_r. split; [reflexivity|]. split; [apply ext_refl; auto|]. auto.
  - pose proof (Forall_inv HC) as C1. pose proof (Forall_inv_tail HC) as C2. pose proof (Forall_inv HL) as L1. pose proof (Forall_inv_tail HL) as L2.
    cbn beta in L1. cbn [ofold cbc_chunk].
    destruct (xor_spec chunk state c HB C1 HS) as (c1 & inp & E1 & X1 & K1 & N1 & V1); [congruence|]. rewrite E1. cbn [obind].
    destruct (aes_spec c1 key inp (ex_built _ _ _ X1) (sok_ext _ _ _ _ X1 HK) K1) as (c2 & out & E2 & X2 & K2 & N2 & V2); [congruence|congruence|].
    rewrite E2. cbn [obind]. rewrite (proj2 (Nat.eqb_eq _ _)) by congruence. cbn [oassert obind].
    destruct (outputs_ext out c2 (ex_built _ _ _ X2) K2) as (c3 & os & E3 & X3 & V3). rewrite E3. cbn [obind].
    pose proof (ext_trans _ _ _ [] [] X1 X2) as X12. pose proof (ext_trans _ _ _ [] os X12 X3) as X13. cbn [app] in X12, X13.
    assert (K3 : Forall (sok c3) key) by (exact (sok_ext _ _ _ _ X13 HK)).
    assert (O3 : Forall (sok c3) out) by (exact (sok_ext _ _ _ _ X3 K2)).
    assert (C3 : Forall (Forall (sok c3)) cs) by (eapply Forall_impl; [|exact C2]; intros l; apply (sok_ext _ _ _ _ X13)).
    destruct (IH c3 out (outs ++ os) (ex_built _ _ _ X13) K3 O3 N2 C3 L2) as (c4 & st & os' & E4 & X4 & V4).
    exists c4, st, (os ++ os'). rewrite E4, app_assoc. split; auto. split; [eapply ext_trans; eauto|].
      intros v Hv. pose proof (ex_val _ _ _ X4 v Hv) as Hv3. pose proof (ex_val _ _ _ X3 v Hv3) as Hv2. pose proof (ex_val _ _ _ X2 v Hv2) as Hv1.
      cbn [map cbc_blocks concat]. rewrite map_app, (V4 v Hv), (V3 v Hv3), (V2 v Hv2), (V1 v Hv1). reflexivity.
Qed.

Lemma inputs_ext m c : built c ->
  exists c', sec_inputs m (one c) = Some (one c', map (pair 0) (seq (c_count c) m)) /\ built c' /\ c_count c' = c_count c + m /\
    c_gates c' = c_gates c ++ repeat (BBase GInput) m /\ c_inputs c' = c_inputs c ++ seq (c_count c) m /\
    c_outputs c' = c_outputs c /\ c_scins c' = c_scins c.
Proof.
  intros HB. destruct (sec_inputs_spec m c cn_empty HB) as (c' & E1 & B & G & I & O & S). exists c'. split; auto. split; auto.
  split; [|auto]. unfold c_count. rewrite G, app_length, repeat_length. reflexivity.
Qed.

Lemma chunks_exact_map {A B} (f : A -> B) m l : map (map f) (chunks_exact m l) = chunks_exact m (map f l).
Proof.
  unfold chunks_exact. rewrite map_map, map_length. apply map_ext. intros i. rewrite <- firstn_map, <- skipn_map. reflexivity.
Qed.

Lemma build_spec k : 0 < n ->
  exists c os, cbc_build_n n sub (n * k) = Some (one c, os) /\ built c /\ c_scins c = [] /\ c_outputs c = os /\
    c_inputs c = seq 0 (n + n + n * k) /\ (forall g, g < n + n + n * k -> nth_error (c_gates c) g = Some (BBase GInput)) /\
    n + n + n * k <= c_count c /\
    forall v, bval c v ->
      map v os = concat (cbc_blocks E (map v (seq 0 n)) (map v (seq n n)) (chunks_exact n (map v (seq (n + n) (n * k))))).
Proof.
  intros Hn. unfold cbc_build_n. rewrite (Nat.mul_comm n k), Nat.mod_mul by lia. cbn [Nat.eqb oassert obind].
  change b_new with (one (@c_new bool_gate)).
  destruct (inputs_ext n c_new built_new) as (c1 & E1 & B1 & N1 & G1 & I1 & O1 & S1). rewrite E1. cbn [obind].
  destruct (inputs_ext n c1 B1) as (c2 & E2 & B2 & N2 & G2 & I2 & O2 & S2). rewrite E2. cbn [obind].
  destruct (inputs_ext (k * n) c2 B2) as (c3 & E3 & B3 & N3 & G3 & I3 & O3 & S3). rewrite E3. cbn [obind].
  change (c_count (@c_new bool_gate)) with 0 in *. cbn [Nat.add] in N1, I1. rewrite N1 in *. rewrite N2 in *.
  cbn [c_new c_inputs c_gates c_outputs c_scins app] in *.
  assert (Hfresh : forall a m, a + m <= n + n + k * n -> Forall (sok c3) (map (pair 0) (seq a m))).
  { intros a m H. apply Forall_forall. intros s Hs. apply in_map_iff in Hs. destruct Hs as (g & <- & Hg). apply in_seq in Hg.
    split; auto. cbn [snd]. lia. }
  set (data := map (pair 0) (seq (n + n) (k * n))).
  assert (Ld : length data = k * n) by (unfold data; rewrite map_length, seq_length; auto).
  destruct (chunks_spec (map (pair 0) (seq 0 n))) with (cs := chunks_exact n data) (c := c3) (state := map (pair 0) (seq n n)) (outs := @nil nat)
    as (c4 & st & os & E4 & X4 & V4); auto; try (rewrite map_length, seq_length; auto); try (apply Hfresh; lia).
  { assert (Hd : Forall (sok c3) data) by (apply Hfresh; lia).
    unfold chunks_exact. apply Forall_forall. intros l Hl. apply in_map_iff in Hl. destruct Hl as (i & <- & _).
    rewrite Forall_forall in *. intros s Hs. apply Hd. rewrite <- (firstn_skipn (i * n) data). apply in_or_app. right.
    rewrite <- (firstn_skipn n (skipn (i * n) data)). apply in_or_app. auto. }
  { unfold chunks_exact. apply Forall_forall. intros l Hl. apply in_map_iff in Hl. destruct Hl as (i & <- & Hi). apply in_seq in Hi.
    rewrite Ld, Nat.div_mul in Hi by lia. rewrite firstn_length, skipn_length, Ld. apply Nat.min_l.
    assert (S i * n <= k * n) by (apply Nat.mul_le_mono_r; lia). cbn in H. lia. }
  match type of E4 with ?L = ?R => match goal with |- context [ofold ?f ?x ?l] => replace (ofold f x l) with R by (symmetry; exact E4) end end.
  cbn [obind app].
  assert (Hc3 : c_gates c3 = repeat (BBase GInput) (n + n + k * n)).
  { rewrite G3, G2, G1, !repeat_app. reflexivity. }
  destruct X4 as [B4 (gs & G4) I4 O4 S4 _].
  exists c4, os. split; [reflexivity|]. split; auto. split; [congruence|]. split; [rewrite O4, O3, O2, O1; reflexivity|].
  split; [rewrite I4, I3, I2, I1, !seq_app; reflexivity|].
  split.
  { intros g Hg. rewrite G4, Hc3, nth_error_app1 by (rewrite repeat_length; lia).
    rewrite (nth_error_nth' _ (BBase GInput)) by (rewrite repeat_length; lia). f_equal. apply nth_repeat. }
  split; [unfold c_count; rewrite G4, Hc3, app_length, repeat_length; lia|].
  intros v Hv. rewrite (V4 v Hv). unfold bv. rewrite chunks_exact_map. unfold data. rewrite !map_map. reflexivity.
Qed.
End CBC.
