(** C25, C26, C27: triple storage in files, the trusted dealer and seed-compressed
    triples. *)
From Coq Require Import ZArith List Bool Arith Lia Permutation.
Require Import Verif.Prelude Verif.PreludeProofs Verif.BitVecModel Verif.BitVecSpec Verif.BitVecProofs Verif.GateModel
  Verif.BoolGmwModel Verif.BoolGmwSpec Verif.BoolGmwProofs Verif.BoolGmwProofs2
  Verif.ArithGmwModel Verif.ArithGmwSpec Verif.ArithGmwProofs Verif.OtModel Verif.TripleModel Verif.TripleSpec Verif.TripleProofs.
Import ListNotations.
Open Scope nat_scope.

(** ** C25 *)

(** Boolean triples: with the same batch structure in both files, every history of
    calls has the same outcomes for both parties and every request delivers matching
    triples, exactly as many as requested. *)
Theorem C25_matching_bool :
  forall W f0 f1 ops, 0 < W -> Forall2 (bool_batch W) f0 f1 ->
  let o0 := fst (mtf_run (bool_setup W) (mtf_open (bool_setup W) f0) ops) in
  let o1 := fst (mtf_run (bool_setup W) (mtf_open (bool_setup W) f1) ops) in
  length o0 = length ops /\ length o1 = length ops /\
  forall i, i < length ops ->
    fout_rel mts_iter (bool_batch W) (nth i ops (FPre 0)) (nth i o0 (FoPre RPanic)) (nth i o1 (FoPre RPanic)).
Proof.
  intros W f0 f1 ops HW HF. cbv zeta.
  pose proof (run_rel (bool_setup W) (mts_ok W) mts_iter false triple_ok (bool_laws W HW) ops
    (mtf_open (bool_setup W) f0) (mtf_open (bool_setup W) f1)) as Q.
  destruct (mtf_run (bool_setup W) (mtf_open (bool_setup W) f0) ops) as [o0 m0].
  destruct (mtf_run (bool_setup W) (mtf_open (bool_setup W) f1) ops) as [o1 m1].
  destruct Q as (_ & A & B & C).
  - split; [|exact HF]. pose proof (sl_default _ _ _ _ (bool_laws W HW)) as (D & E). unfold mtf_open; cbn [mf_stored].
    split; auto. split; auto. rewrite E. constructor.
  - auto.
Qed.
Print Assumptions C25_matching_bool.

(** The outcome of every request: success exactly as long as enough is left; nothing
    is lost and nothing is handed out twice. *)
Theorem C25_conserved_bool :
  forall W f ops, 0 < W -> Forall (mts_ok W) f ->
  let '(outs, m) := mtf_run (bool_setup W) (mtf_open (bool_setup W) f) ops in
  Permutation (flat_map (fout_items mts_iter) outs ++ mtf_left mts_iter m) (flat_map mts_iter f) /\
  map (option_map (@length triple)) (delivered mts_iter outs) = served (length (flat_map mts_iter f)) ops /\
  Forall (fun o => match o with FoReq RPanic | FoPre RPanic => False | _ => True end) outs.
Proof.
  intros W f ops HW HF.
  pose proof (run_conserves (bool_setup W) (mts_ok W) mts_iter false (bool_laws W HW) ops (mtf_open (bool_setup W) f)) as Q.
  destruct (mtf_run (bool_setup W) (mtf_open (bool_setup W) f) ops) as [outs m].
  pose proof (sl_default _ _ _ _ (bool_laws W HW)) as (D & E).
  destruct Q as (_ & A & B & C & _); [split; auto|].
  unfold mtf_left in A at 2, B. cbn [mtf_open mf_stored mf_file] in *. rewrite E in *. auto.
Qed.
Print Assumptions C25_conserved_bool.

(** Arithmetic triples: only the streams of triples in the files have to match, the
    batch sizes may differ.  The requests get successive pieces of the stream. *)
Theorem C25_matching_arith :
  forall w f0 f1 ops, Forall amts_ok f0 -> Forall amts_ok f1 ->
  Forall2 (atriple_ok w) (flat_map amts_iter f0) (flat_map amts_iter f1) ->
  let o0 := fst (mtf_run arith_setup (mtf_open arith_setup f0) ops) in
  let o1 := fst (mtf_run arith_setup (mtf_open arith_setup f1) ops) in
  delivered amts_iter o0 = serve (flat_map amts_iter f0) ops /\
  delivered amts_iter o1 = serve (flat_map amts_iter f1) ops /\
  Forall2 (fun a b => match a, b with
                      | Some l, Some l' => Forall2 (atriple_ok w) l l'
                      | None, None => True
                      | _, _ => False
                      end) (delivered amts_iter o0) (delivered amts_iter o1).
Proof.
  intros w f0 f1 ops H0 H1 HR. cbv zeta.
  assert (G : forall f, Forall amts_ok f ->
    delivered amts_iter (fst (mtf_run arith_setup (mtf_open arith_setup f) ops)) = serve (flat_map amts_iter f) ops).
  { intros f HF. pose proof (run_conserves arith_setup amts_ok amts_iter true arith_laws ops (mtf_open arith_setup f)) as Q.
    destruct (mtf_run arith_setup (mtf_open arith_setup f) ops) as [outs m].
    destruct Q as (_ & _ & _ & _ & Q); [split; [apply arith_laws|auto]|]. cbn [fst]. rewrite (Q eq_refl). reflexivity. }
  rewrite (G f0 H0), (G f1 H1). split; auto. split; auto. apply serve_rel. exact HR.
Qed.
Print Assumptions C25_matching_arith.

Theorem C25_conserved_arith :
  forall f ops, Forall amts_ok f ->
  let '(outs, m) := mtf_run arith_setup (mtf_open arith_setup f) ops in
  Permutation (flat_map (fout_items amts_iter) outs ++ mtf_left amts_iter m) (flat_map amts_iter f) /\
  map (option_map (@length atriple)) (delivered amts_iter outs) = served (length (flat_map amts_iter f)) ops /\
  Forall (fun o => match o with FoReq RPanic | FoPre RPanic => False | _ => True end) outs.
Proof.
  intros f ops HF.
  pose proof (run_conserves arith_setup amts_ok amts_iter true arith_laws ops (mtf_open arith_setup f)) as Q.
  destruct (mtf_run arith_setup (mtf_open arith_setup f) ops) as [outs m].
  destruct Q as (_ & A & B & C & _); [split; [apply arith_laws|auto]|]. auto.
Qed.
Print Assumptions C25_conserved_arith.

(** Files written with [store_mts] by two providers that answer with matching triples
    have the structure required above and contain at least [count] triples. *)
Theorem C25_written :
  forall W (P0 P1 : Type) (req0 : P0 -> nat -> result mul_triples * P0) (req1 : P1 -> nat -> result mul_triples * P1)
    (inv : P0 -> P1 -> Prop) bs count p0 p1, 0 < bs ->
  (forall p0 p1 n, inv p0 p1 ->
    exists t u p0' p1', req0 p0 n = (ROk t, p0') /\ req1 p1 n = (ROk u, p1') /\
      bool_batch W t u /\ n <= length (mts_iter t) /\ inv p0' p1') ->
  inv p0 p1 ->
  exists f0 f1 p0' p1', store_mts req0 bs count p0 = (ROk tt, f0, p0') /\ store_mts req1 bs count p1 = (ROk tt, f1, p1') /\
    Forall2 (bool_batch W) f0 f1 /\ count <= length (flat_map mts_iter f0).
Proof.
  intros W P0 P1 req0 req1 inv bs count p0 p1 Hbs Hreq Hi.
  destruct (store_rel (mts_ok W) mts_iter triple_ok req0 req1 inv Hreq bs count p0 p1 Hbs Hi)
    as (f0 & f1 & p0' & p1' & A & B & C & D & _).
  exists f0, f1, p0', p1'. auto.
Qed.
Print Assumptions C25_written.

(** Boolean triples written from one stream with different batch sizes (which
    [set_batch_size] allows) are not aligned: the storage hands out the last triples
    of what was read. *)
Definition bmts (l : list triple) : mul_triples :=
  MTS (bv_of_bits 8 (map mt_a l)) (bv_of_bits 8 (map mt_b l)) (bv_of_bits 8 (map mt_c l)).
Theorem C25_batch_sizes_refuted :
  exists f0 f1 ops, Forall (mts_ok 8) f0 /\ Forall (mts_ok 8) f1 /\
    triples_ok (flat_map mts_iter f0) (flat_map mts_iter f1) /\
    exists t u, fst (mtf_run (bool_setup 8) (mtf_open (bool_setup 8) f0) ops) = [FoReq (ROk t)] /\
      fst (mtf_run (bool_setup 8) (mtf_open (bool_setup 8) f1) ops) = [FoReq (ROk u)] /\
      ~ triples_ok (mts_iter t) (mts_iter u).
Proof.
  exists [bmts [MT false false false; MT false false true]],
    [bmts [MT true true true]; bmts [MT true true false]], [FReq 1].
  assert (K : forall l, mts_ok 8 (bmts l)).
  { intros l. exists 0, (length l). unfold bmts, mts_wf; cbn [ts_a ts_b ts_c].
    repeat split; try (apply bv_copy_wf; lia); unfold bv_of_bits, bv_copy; cbn [bv_len]; apply map_length. }
  split; [repeat constructor; auto|]. split; [repeat constructor; auto|]. split.
  - cbn. repeat constructor.
  - eexists _, _. split; [vm_compute; reflexivity|]. split; [vm_compute; reflexivity|].
    intros H. vm_compute in H. inversion H as [|? ? ? ? Hx]; subst. vm_compute in Hx. discriminate.
Qed.
Print Assumptions C25_batch_sizes_refuted.

(** Two batches of two triples; three requests cross the batch boundary, the last one
    fails. *)
Example C25_case :
  let f0 := [bmts [MT true false true; MT false true false]; bmts [MT true true false; MT true false false]] in
  let f1 := [bmts [MT true true true; MT true true false]; bmts [MT false true false; MT false true true]] in
  Forall2 (fun t u => triples_ok (mts_iter t) (mts_iter u)) f0 f1 /\
  map (fun o => length (fout_items mts_iter o)) (fst (mtf_run (bool_setup 8) (mtf_open (bool_setup 8) f0) [FReq 1; FPre 1; FReq 3; FReq 1]))
  = [1; 0; 3; 0] /\
  nth 3 (fst (mtf_run (bool_setup 8) (mtf_open (bool_setup 8) f0) [FReq 1; FPre 1; FReq 3; FReq 1])) (FoPre RPanic) = FoReq RErr.
Proof. cbv zeta. split; [repeat constructor; vm_compute; repeat constructor|]. split; vm_compute; reflexivity. Qed.

(** ** C26 *)

(** Whatever the order of arrival, as long as no party is ever two requests ahead
    (this holds when both parties wait for the other between requests): the k-th
    replies of the parties are the two parts of one deal and valid triples.  Deal [k]
    gives each party one part only, so no party gets both. *)
Theorem C26_balanced_partial :
  forall (S : Type) (fill : S -> nat -> list bool * S), (forall s n, length (fst (fill s n)) = n) ->
  forall W s0 reqs, 0 < W -> two_parties reqs ->
  exists rs tab s deals, dealer_run (triple_gen fill W) [] s0 reqs = Some (rs, tab, s) /\
    chain (triple_gen fill W) s0 deals s /\
    forall id, balanced id reqs ->
    (forall p, p < 2 -> Forall2 (gets p) (got p id reqs rs) (firstn (length (got p id reqs rs)) (deals_of id deals))) /\
    forall k a0 r0 a1 r1,
      nth_error (got 0 id reqs rs) k = Some (a0, r0) -> nth_error (got 1 id reqs rs) k = Some (a1, r1) ->
      bool_batch W (triple_client r0) (triple_client r1) /\
      (length (mts_iter (triple_client r0)) = a0 \/ length (mts_iter (triple_client r0)) = a1).
Proof.
  intros S fill Hfill W s0 reqs HW H2.
  assert (Ht : forall n s, exists t u s', triple_gen fill W n s = Some (t, u, s')).
  { intros n s. destruct (mts_random_pair_ok S fill Hfill W n s HW) as (t & u & s' & E & _). eauto. }
  destruct (dealer_inv (triple_gen fill W) Ht s0 reqs H2) as (rs & tab & s & l & E & HC & HI).
  exists rs, tab, s, l. split; auto. split; auto. intros id Hb. specialize (HI id Hb). split.
  - intros p Hp. destruct HI as (HF & [(_ & G0 & G1)|(d & ds' & q & Eds & Hq & Hf & _ & G1 & G2)]).
    + destruct p as [|[|p]]; [| |lia].
      * rewrite (F2_length _ _ _ G0), firstn_all. auto.
      * rewrite (F2_length _ _ _ G1), firstn_all. auto.
    + destruct (Nat.eq_dec p q) as [->|Hne].
      * rewrite (F2_length _ _ _ G1), firstn_all. auto.
      * assert (p = 1 - q) by lia. subst p. rewrite (F2_length _ _ _ G2), Eds, firstn_app_exact; auto.
  - intros k a0 r0 a1 r1 E0 E1.
    destruct (dinv_pair id reqs rs tab (deals_of id l) k a0 r0 a1 r1 HI E0 E1) as (d & Hd & -> & -> & Hf & A0 & A1).
    apply nth_error_In in Hd. unfold deals_of in Hd. apply in_map_iff in Hd. destruct Hd as ([i d'] & Ed & Hin).
    cbn [snd] in Ed. subst d'. apply filter_In in Hin. destruct Hin as (Hin & _).
    destruct (chain_in _ _ _ _ HC _ _ Hin) as (s1 & s2 & Eg).
    unfold triple_gen in Eg. destruct (mts_random_pair_ok S fill Hfill W (dl_amount d) s1 HW) as (t & u & s' & Eg' & W0 & W1 & Hok).
    rewrite Eg in Eg'. inversion Eg'; subst t u s'. unfold share_of, bool_batch.
    assert (K0 : mts_ok W (dl_put d)) by (eexists _, _; eauto).
    assert (K1 : mts_ok W (dl_reply d)) by (eexists _, _; eauto).
    destruct (dl_first d) as [|[|x]]; [| |lia]; cbn [Nat.eqb triple_client].
    + split; [split; auto; split; auto; apply triples_ok_sym; auto|]. left.
      rewrite (mts_iter_length _ _ _ _ W1). rewrite A0; auto.
    + split; [split; auto; split; auto|]. right. rewrite (mts_iter_length _ _ _ _ W0). rewrite A1; auto.
Qed.
Print Assumptions C26_balanced_partial.

(** The same for seeds, when the two parties ask for the same amounts. *)
Theorem C26_seed_balanced_partial :
  forall (S D R : Type) (draw : S -> D * S) (from_seed : D -> R) (fill : R -> nat -> list bool * R),
  (forall r n, length (fst (fill r n)) = n) ->
  forall W s0 reqs, 0 < W -> two_parties reqs ->
  exists rs tab s, dealer_run (seed_gen draw from_seed fill W) [] s0 reqs = Some (rs, tab, s) /\
    forall id, balanced id reqs ->
    forall k a r0 r1,
      nth_error (got 0 id reqs rs) k = Some (a, r0) -> nth_error (got 1 id reqs rs) k = Some (a, r1) ->
      exists t0 t1, seed_client from_seed fill W a r0 = Some t0 /\ seed_client from_seed fill W a r1 = Some t1 /\
        bool_batch W t0 t1 /\ length (mts_iter t0) = a.
Proof.
  intros S D R draw from_seed fill Hfill W s0 reqs HW H2.
  assert (Ht : forall n s, exists t u s', seed_gen draw from_seed fill W n s = Some (t, u, s')).
  { intros n s. destruct (seed_gen_ok draw from_seed fill Hfill W HW n s) as (d1 & d2 & c & s' & E & _). eauto. }
  destruct (dealer_inv (seed_gen draw from_seed fill W) Ht s0 reqs H2) as (rs & tab & s & l & E & HC & HI).
  exists rs, tab, s. split; auto. intros id Hb k a r0 r1 E0 E1. specialize (HI id Hb).
  destruct (dinv_pair id reqs rs tab (deals_of id l) k a r0 a r1 HI E0 E1) as (d & Hd & -> & -> & Hf & A0 & A1).
  apply nth_error_In in Hd. unfold deals_of in Hd. apply in_map_iff in Hd. destruct Hd as ([i d'] & Ed & Hin).
  cbn [snd] in Ed. subst d'. apply filter_In in Hin. destruct Hin as (Hin & _).
  destruct (chain_in _ _ _ _ HC _ _ Hin) as (s1 & s2 & Eg).
  destruct (seed_gen_ok draw from_seed fill Hfill W HW (dl_amount d) s1) as (d1 & d2 & c & s' & Eg' & t0 & t1 & C0 & C1 & W0 & W1 & Hok).
  rewrite Eg in Eg'. inversion Eg'; subst d1 s'. unfold share_of, bool_batch.
  assert (Ha : a = dl_amount d) by (destruct (dl_first d) as [|[|x]]; [auto|auto|lia]). subst a.
  assert (K0 : mts_ok W t0) by (eexists _, _; eauto).
  assert (K1 : mts_ok W t1) by (eexists _, _; eauto).
  rewrite H1. destruct (dl_first d) as [|[|x]]; [| |lia]; cbn [Nat.eqb].
  - exists t0, t1. split; auto. split; auto. split; [auto|]. apply (mts_iter_length _ _ _ _ W0).
  - exists t1, t0. split; auto. split; auto. split; [split; auto; split; auto; apply triples_ok_sym; auto|]. apply (mts_iter_length _ _ _ _ W1).
Qed.
Print Assumptions C26_seed_balanced_partial.

(** A generator that delivers the bits of a counter, for concrete cases. *)
Definition toy_fill (s n : nat) : list bool * nat := (map (fun i => Nat.testbit (s * 7 + 3) i) (seq 0 n), S s).

(** A party that asks twice before the other one asks gets both parts of the batch,
    and the other party's triples do not match. *)
Theorem C26_refuted :
  exists reqs rs tab s r0 r1 r2,
    dealer_run (triple_gen toy_fill 8) [] 0 reqs = Some (rs, tab, s) /\
    got 0 0 reqs rs = [(8, r0); (8, r1)] /\ got 1 0 reqs rs = [(8, r2)] /\
    triples_ok (mts_iter (triple_client r0)) (mts_iter (triple_client r1)) /\
    ~ triples_ok (mts_iter (triple_client r0)) (mts_iter (triple_client r2)).
Proof.
  exists [DReq 0 0 8; DReq 0 0 8; DReq 1 0 8]. eexists _, _, _, _, _, _.
  split; [vm_compute; reflexivity|]. split; [vm_compute; reflexivity|]. split; [vm_compute; reflexivity|].
  split; [vm_compute; repeat constructor|]. vm_compute. intros H.
  destruct (F2_nth_error _ _ _ H 2 _ eq_refl) as (y & E & P). inversion E; subst y. vm_compute in P. discriminate.
Qed.
Print Assumptions C26_refuted.

(** Interleaved requests of two providers (ids 0 and 1), different first askers. *)
Example C26_case :
  let reqs := [DReq 0 0 3; DReq 1 1 2; DReq 1 0 3; DReq 1 0 4; DReq 0 1 2; DReq 0 0 4] in
  two_parties reqs /\ balanced 0 reqs /\ balanced 1 reqs /\
  exists rs tab s, dealer_run (triple_gen toy_fill 8) [] 0 reqs = Some (rs, tab, s) /\
    length (got 0 0 reqs rs) = 2 /\ length (got 1 0 reqs rs) = 2.
Proof.
  cbv zeta. split; [intros q H; cbn in H; repeat (destruct H as [<-|H]; [cbn; lia|]); destruct H|].
  assert (B : forall id, id < 2 -> balanced id [DReq 0 0 3; DReq 1 1 2; DReq 1 0 3; DReq 1 0 4; DReq 0 1 2; DReq 0 0 4]).
  { intros id Hid k. destruct id as [|[|id]]; [| |lia]; do 7 (destruct k as [|k]; [cbn; lia|]);
      rewrite firstn_all2 by (simpl; lia); cbn; lia. }
  split; [apply B; lia|]. split; [apply B; lia|].
  eexists _, _, _. split; [vm_compute; reflexivity|]. split; vm_compute; reflexivity.
Qed.

(** ** C27 *)

(** For every generator and source of seeds, the expansions of the two replies are
    valid triples, exactly as many as asked for. *)
Theorem C27_seed_triples :
  forall (S D R : Type) (draw : S -> D * S) (from_seed : D -> R) (fill : R -> nat -> list bool * R),
  (forall r n, length (fst (fill r n)) = n) ->
  forall W n s, 0 < W ->
  exists d1 d2 c s', seed_gen draw from_seed fill W n s = Some (d1, (d2, c), s') /\
    exists t0 t1, seed_client from_seed fill W n (RepFirst (d2, c)) = Some t0 /\
      seed_client from_seed fill W n (RepSecond d1) = Some t1 /\
      mts_wf W 0 n t0 /\ mts_wf W 0 n t1 /\ triples_ok (mts_iter t0) (mts_iter t1).
Proof.
  intros S D R draw from_seed fill Hfill W n s HW.
  destruct (seed_gen_ok draw from_seed fill Hfill W HW n s) as (d1 & d2 & c & s' & E & t0 & t1 & C0 & C1 & W0 & W1 & Hok).
  exists d1, d2, c, s'. split; auto. exists t0, t1. split; auto.
Qed.
Print Assumptions C27_seed_triples.

Example C27_case :
  exists d1 d2 c s', seed_gen (fun s => (s * 5 + 1, S s)) (fun d => d) toy_fill 8 11 3 = Some (d1, (d2, c), s') /\
    existsb (fun b => b) (bv_bits c) = true /\ bv_len c = 11.
Proof. eexists _, _, _, _. split; [vm_compute; reflexivity|]. split; vm_compute; reflexivity. Qed.
