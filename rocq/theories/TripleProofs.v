(** Proofs about the file storage and the trusted dealer. *)
From Coq Require Import ZArith List Bool Arith Lia Permutation.
Require Import Verif.Prelude Verif.PreludeProofs Verif.BitVecModel Verif.BitVecSpec Verif.BitVecProofs Verif.GateModel
  Verif.BoolGmwModel Verif.BoolGmwSpec Verif.BoolGmwProofs Verif.BoolGmwProofs2
  Verif.ArithGmwModel Verif.ArithGmwSpec Verif.ArithGmwProofs Verif.OtModel Verif.OtProofs Verif.TripleModel Verif.TripleSpec.
Import ListNotations.
Open Scope nat_scope.

(** ** The two storages *)

Lemma mts_len_iter W t : mts_ok W t -> mts_len t = length (mts_iter t).
Proof.
  intros (h & n & Hwf). rewrite (mts_iter_length _ _ _ _ Hwf).
  destruct Hwf as (_ & _ & _ & _ & _ & _ & L & _). exact L.
Qed.

Lemma bool_laws W : 0 < W -> setup_laws (bool_setup W) (mts_ok W) mts_iter false.
Proof.
  intros HW. split.
  - split.
    + exists 0, 0. unfold bool_setup, su_default, mts_wf. cbn [ts_a ts_b ts_c].
      pose proof (bv_copy_wf W 0 [] HW) as HC. repeat split; auto; try apply HC.
    + reflexivity.
  - intros t Hok. apply mts_len_iter with W; auto.
  - intros t u (h & n & Ht) (h' & n' & Hu). destruct (mts_append_spec W h n h' n' t u HW Ht Hu) as (A & B).
    split; auto. eexists _, _; eauto.
  - intros t n (h & m & Hwf) Hn. rewrite (mts_iter_length _ _ _ _ Hwf) in *.
    destruct (mts_split_off_last_spec W h m t n HW Hwf Hn) as (r & u & E & Wr & Wu & Ir & Iu & _).
    exists r, u. split; [exact E|]. split; [eexists _, _; eauto|]. split; [eexists _, _; eauto|]. auto.
Qed.

Lemma arith_laws : setup_laws arith_setup amts_ok amts_iter true.
Proof.
  split.
  - split; [exists 0; repeat split|reflexivity].
  - intros t (n & Hwf). rewrite (amts_iter_length _ _ Hwf). destruct Hwf as (A & _). exact A.
  - intros t u (n & Ht) (n' & Hu). destruct (amts_append_spec n n' t u Ht Hu) as (A & B). split; auto. eexists; eauto.
  - intros t n (m & Hwf) Hn. rewrite (amts_iter_length _ _ Hwf) in *.
    destruct (amts_remove_spec m t n Hwf Hn) as (r & u & E & Wr & Wu & Iu & Ir).
    exists r, u. split; [exact E|]. split; [eexists; eauto|]. split; [eexists; eauto|]. auto.
Qed.

(** ** One party *)
Section One.
Context {T I : Type} (su : setup_ops T) (ok : T -> Prop) (items : T -> list I) (front : bool).
Hypothesis L : setup_laws su ok items front.

Definition mok (m : mtfile T) : Prop := ok (mf_stored m) /\ Forall ok (mf_file m).

Lemma loop_spec amount file : forall added stored, ok stored -> Forall ok file ->
  let '(r, m) := mtf_loop su amount added file stored in
  mok m /\ mtf_left items m = mtf_left items (MtFile file stored) /\
  (exists read, file = read ++ mf_file m /\ items (mf_stored m) = items stored ++ flat_map items read /\
     (r = ROk tt /\ amount <= added + length (flat_map items read)
      \/ r = RErr /\ mf_file m = [] /\ added + length (flat_map items read) < amount)).
Proof.
  induction file as [|b file IH]; intros added stored Hs Hf; cbn [mtf_loop].
  - destruct (Nat.ltb_spec added amount) as [H|H].
    + split; [split; auto|]. split; auto. exists []. cbn. rewrite app_nil_r. repeat split; auto. right. repeat split; auto. lia.
    + split; [split; auto|]. split; auto. exists []. cbn. rewrite app_nil_r. repeat split; auto. left. split; auto. lia.
  - inversion Hf as [|? ? Hb Hf']; subst. destruct (Nat.ltb_spec added amount) as [H|H].
    + destruct (sl_append su ok items front L stored b Hs Hb) as (A & B).
      specialize (IH (added + su_len su b) (su_append su stored b) A Hf').
      destruct (mtf_loop su amount (added + su_len su b) file (su_append su stored b)) as [r m].
      destruct IH as (M1 & M2 & read & E & I1 & R). split; auto. split.
      * rewrite M2. unfold mtf_left. cbn [mf_stored mf_file flat_map]. rewrite B, app_assoc. auto.
      * exists (b :: read). cbn [app flat_map]. split; [rewrite E; auto|]. rewrite I1, B, app_assoc. split; auto.
        rewrite (sl_len su ok items front L b Hb) in R. rewrite app_length.
        destruct R as [(R1 & R2)|(R1 & R2 & R3)]; [left|right]; repeat split; auto; lia.
    + split; [split; auto|]. split; auto. exists []. cbn. rewrite app_nil_r. repeat split; auto. left. split; auto. lia.
Qed.

(** The outcome of a request depends only on how many triples are left. *)
Lemma request_spec m n : mok m ->
  let '(r, m') := mtf_request su m n in
  mok m' /\
  match r with
  | ROk t => n <= length (mtf_left items m) /\ length (items t) = n /\ ok t /\
             Permutation (items t ++ mtf_left items m') (mtf_left items m) /\
             (front = true -> items t = firstn n (mtf_left items m) /\ mtf_left items m' = skipn n (mtf_left items m))
  | RErr => length (mtf_left items m) < n /\ mtf_left items m' = mtf_left items m
  | RPanic => False
  end.
Proof.
  intros (Hs & Hf). unfold mtf_request.
  assert (Hpre : exists r1 m1, (if su_len su (mf_stored m) <? n then mtf_precompute su m (n - su_len su (mf_stored m)) else (ROk tt, m)) = (r1, m1) /\
    mok m1 /\ mtf_left items m1 = mtf_left items m /\
    (r1 = ROk tt /\ n <= length (items (mf_stored m1)) \/ r1 = RErr /\ length (mtf_left items m) < n)).
  { rewrite (sl_len su ok items front L _ Hs). destruct (Nat.ltb_spec (length (items (mf_stored m))) n) as [H|H].
    - unfold mtf_precompute. pose proof (loop_spec (n - length (items (mf_stored m))) (mf_file m) 0 (mf_stored m) Hs Hf) as Q.
      destruct (mtf_loop su (n - length (items (mf_stored m))) 0 (mf_file m) (mf_stored m)) as [r1 m1].
      destruct Q as (M1 & M2 & read & E & I1 & R). exists r1, m1. split; auto. split; auto.
      assert (M2' : mtf_left items m1 = mtf_left items m) by (rewrite M2; destruct m; auto).
      split; auto. destruct R as [(R1 & R2)|(R1 & R2 & R3)]; [left|right]; (split; [exact R1|]).
      + rewrite I1, app_length. lia.
      + unfold mtf_left. rewrite E, R2, app_nil_r, app_length. lia.
    - exists (ROk tt), m. split; auto. split; [split; auto|]. split; auto. }
  destruct Hpre as (r1 & m1 & -> & (Hs1 & Hf1) & E1 & [(-> & Hn)|(-> & Hn)]).
  - destruct (sl_remove su ok items front L (mf_stored m1) n Hs1 Hn) as (r & u & -> & Hr & Hu & Hpart).
    split; [split; auto|]. cbn [mf_stored mf_file] in *. rewrite <- E1.
    unfold mtf_left; cbn [mf_stored mf_file]. rewrite app_length.
    assert (HP : length (items u) = n /\ Permutation (items u ++ items r) (items (mf_stored m1)) /\
      (front = true -> items u = firstn n (items (mf_stored m1)) /\ items r = skipn n (items (mf_stored m1)))).
    { destruct front; destruct Hpart as (Hp1 & Hp2).
      - rewrite Hp1, Hp2, firstn_length, firstn_skipn. repeat split; auto. lia.
      - split; [rewrite Hp2, skipn_length; lia|]. split; [|discriminate].
        rewrite Hp1, Hp2. rewrite Permutation_app_comm, firstn_skipn. auto. }
    destruct HP as (Hl & HP & HF). repeat split; auto; try lia.
    + rewrite app_assoc. apply Permutation_app_tail. auto.
    + destruct (HF H) as (A & B). rewrite A, firstn_app.
      replace (n - length (items (mf_stored m1))) with 0 by lia. cbn. rewrite app_nil_r. auto.
    + destruct (HF H) as (A & B). rewrite B, skipn_app.
      replace (n - length (items (mf_stored m1))) with 0 by lia. cbn. auto.
  - split; [split; auto|]. auto.
Qed.

Lemma precompute_spec m n : mok m ->
  let '(r, m') := mtf_precompute su m n in
  mok m' /\ mtf_left items m' = mtf_left items m /\ (r = ROk tt \/ r = RErr).
Proof.
  intros (Hs & Hf). unfold mtf_precompute. pose proof (loop_spec n (mf_file m) 0 (mf_stored m) Hs Hf) as Q.
  destruct (mtf_loop su n 0 (mf_file m) (mf_stored m)) as [r m']. destruct Q as (A & B & read & _ & _ & R).
  split; auto. split; [rewrite B; destruct m; auto|]. destruct R as [(R1 & _)|(R1 & _)]; auto.
Qed.

(** Nothing is lost, nothing is handed out twice, and requests succeed exactly when
    enough is left. *)
Theorem run_conserves ops : forall m, mok m ->
  let '(outs, m') := mtf_run su m ops in
  mok m' /\
  Permutation (flat_map (fout_items items) outs ++ mtf_left items m') (mtf_left items m) /\
  map (option_map (@length I)) (delivered items outs) = served (length (mtf_left items m)) ops /\
  Forall (fun o => match o with FoReq RPanic | FoPre RPanic => False | _ => True end) outs /\
  (front = true -> delivered items outs = serve (mtf_left items m) ops).
Proof.
  induction ops as [|o ops IH]; intros m Hm; cbn [mtf_run].
  - repeat split; auto; apply Hm.
  - destruct o as [n|n]; cbn [mtf_step].
    + pose proof (precompute_spec m n Hm) as Q. destruct (mtf_precompute su m n) as [r m1].
      destruct Q as (M1 & E1 & R). specialize (IH m1 M1). destruct (mtf_run su m1 ops) as [outs m'].
      destruct IH as (A & B & C & D & F). cbn [delivered flat_map fout_items app]. rewrite E1 in *.
      cbn [served serve]. fold (delivered items outs).
      split; auto. split; auto. split; auto. split; auto. constructor; auto. destruct R; subst; auto.
    + pose proof (request_spec m n Hm) as Q. destruct (mtf_request su m n) as [r m1].
      destruct Q as (M1 & Q). specialize (IH m1 M1). destruct (mtf_run su m1 ops) as [outs m'].
      destruct IH as (A & B & C & D & F). split; auto. cbn [served serve].
      destruct r as [t| |]; [|destruct Q as (Q1 & Q2)|destruct Q].
      * destruct Q as (Q1 & Q2 & Q3 & Q4 & Q5).
        destruct (Nat.leb_spec n (length (mtf_left items m))); [|lia].
        unfold delivered; cbn [flat_map fout_items app map option_map]. fold (delivered items outs).
        pose proof (Permutation_length Q4) as Q6. rewrite app_length, Q2 in Q6.
        split; [rewrite <- app_assoc; rewrite B; auto|].
        split; [rewrite Q2, C; do 3 f_equal; lia|]. split; [constructor; auto|].
        intros Hfr. destruct (Q5 Hfr) as (Q7 & Q8). rewrite (F Hfr), Q7, Q8. auto.
      * destruct (Nat.leb_spec n (length (mtf_left items m))); [lia|].
        unfold delivered; cbn [flat_map fout_items app map option_map]. fold (delivered items outs).
        rewrite <- Q2. split; auto. split; [rewrite C; auto|]. split; [constructor; auto|].
        intros Hfr. rewrite (F Hfr). auto.
Qed.
End One.

(** ** Two parties with the same batch structure *)
Section Two.
Context {T I : Type} (su : setup_ops T) (ok : T -> Prop) (items : T -> list I) (front : bool) (R : I -> I -> Prop).
Hypothesis L : setup_laws su ok items front.

Definition brel (t u : T) : Prop := ok t /\ ok u /\ Forall2 R (items t) (items u).
Definition mrel (m0 m1 : mtfile T) : Prop :=
  brel (mf_stored m0) (mf_stored m1) /\ Forall2 brel (mf_file m0) (mf_file m1).

Lemma F2_length {A B} (P : A -> B -> Prop) l l' : Forall2 P l l' -> length l = length l'.
Proof. induction 1; simpl; auto. Qed.
Lemma F2_firstn {A B} (P : A -> B -> Prop) n : forall l l', Forall2 P l l' -> Forall2 P (firstn n l) (firstn n l').
Proof. induction n; intros l l' H; [constructor|]. destruct H; simpl; constructor; auto. Qed.
Lemma F2_skipn {A B} (P : A -> B -> Prop) n : forall l l', Forall2 P l l' -> Forall2 P (skipn n l) (skipn n l').
Proof. induction n; intros l l' H; auto. destruct H; simpl; auto. Qed.

Lemma brel_len t u : brel t u -> su_len su t = su_len su u.
Proof.
  intros (A & B & C). rewrite !(sl_len su ok items front L) by auto. eapply F2_length; eauto.
Qed.

Lemma brel_append t u t' u' : brel t u -> brel t' u' -> brel (su_append su t t') (su_append su u u').
Proof.
  intros (A & B & C) (A' & B' & C').
  destruct (sl_append su ok items front L t t' A A') as (D & E).
  destruct (sl_append su ok items front L u u' B B') as (D' & E').
  split; auto. split; auto. rewrite E, E'. apply Forall2_app; auto.
Qed.

Lemma loop_rel amount f0 f1 : Forall2 brel f0 f1 -> forall added s0 s1, brel s0 s1 ->
  let '(r0, m0) := mtf_loop su amount added f0 s0 in
  let '(r1, m1) := mtf_loop su amount added f1 s1 in
  r0 = r1 /\ mrel m0 m1.
Proof.
  induction 1 as [|b0 b1 f0 f1 Hb HF IH]; intros added s0 s1 Hs; cbn [mtf_loop].
  - destruct (added <? amount); split; auto; split; cbn [mf_stored mf_file]; auto.
  - destruct (added <? amount).
    + rewrite (brel_len b0 b1 Hb). apply IH. apply brel_append; auto.
    + split; auto. split; cbn [mf_stored mf_file]; auto.
Qed.

Lemma remove_rel t u n : brel t u -> n <= length (items t) ->
  exists r0 u0 r1 u1, su_remove_first su t n = Some (r0, u0) /\ su_remove_first su u n = Some (r1, u1) /\
    brel r0 r1 /\ brel u0 u1 /\ length (items u0) = n /\ length (items u1) = n.
Proof.
  intros (A & B & C) Hn. pose proof (F2_length _ _ _ C) as HL.
  destruct (sl_remove su ok items front L t n A Hn) as (r0 & u0 & E0 & K0 & K0' & P0).
  destruct (sl_remove su ok items front L u n B ltac:(lia)) as (r1 & u1 & E1 & K1 & K1' & P1).
  exists r0, u0, r1, u1. split; auto. split; auto. unfold brel. rewrite <- HL in P1.
  destruct front; destruct P0 as (a & b); destruct P1 as (c & d); rewrite a, b, c, d;
    repeat split; auto using F2_firstn, F2_skipn; rewrite ?firstn_length, ?skipn_length; lia.
Qed.

Theorem run_rel ops : forall m0 m1, mrel m0 m1 ->
  let '(o0, m0') := mtf_run su m0 ops in
  let '(o1, m1') := mtf_run su m1 ops in
  mrel m0' m1' /\ length o0 = length ops /\ length o1 = length ops /\
  forall i, i < length ops -> fout_rel items brel (nth i ops (FPre 0)) (nth i o0 (FoPre RPanic)) (nth i o1 (FoPre RPanic)).
Proof.
  induction ops as [|o ops IH]; intros m0 m1 Hm; cbn [mtf_run].
  - repeat split; auto; try apply Hm. simpl. intros; lia.
  - assert (Hst : let '(r0, n0) := mtf_step su m0 o in let '(r1, n1) := mtf_step su m1 o in
      fout_rel items brel o r0 r1 /\ mrel n0 n1).
    { destruct Hm as (Hs & Hf).
      assert (HF0 : Forall ok (mf_file m0))
        by (clear - Hf; induction Hf as [|x y l l' Hxy Hf IH]; constructor; auto; apply Hxy).
      destruct o as [n|n]; cbn [mtf_step].
      - unfold mtf_precompute. pose proof (loop_rel n _ _ Hf 0 _ _ Hs) as Q.
        destruct Hs as (K0 & K1 & KF).
        pose proof (loop_spec su ok items front L n (mf_file m0) 0 (mf_stored m0) K0 HF0) as Q2.
        destruct (mtf_loop su n 0 (mf_file m0) (mf_stored m0)) as [r0 n0].
        destruct (mtf_loop su n 0 (mf_file m1) (mf_stored m1)) as [r1 n1].
        destruct Q as (-> & Q). split; auto.
        destruct Q2 as (_ & _ & read & _ & _ & R1).
        destruct R1 as [(-> & _)|(-> & _)]; constructor.
      - unfold mtf_request. rewrite <- (brel_len _ _ Hs).
        assert (H0 : let pre m := if su_len su (mf_stored m0) <? n then mtf_precompute su m (n - su_len su (mf_stored m0)) else (ROk tt, m) in
          let '(r0, n0) := pre m0 in let '(r1, n1) := pre m1 in
          mrel n0 n1 /\ ((r0 = ROk tt /\ r1 = ROk tt /\ n <= length (items (mf_stored n0))) \/ (r0 = RErr /\ r1 = RErr))).
        { cbv zeta. destruct Hs as (K0 & K1 & KF). rewrite (sl_len su ok items front L _ K0).
          destruct (Nat.ltb_spec (length (items (mf_stored m0))) n) as [H|H].
          - unfold mtf_precompute.
            pose proof (loop_rel (n - length (items (mf_stored m0))) _ _ Hf 0 _ _ (conj K0 (conj K1 KF))) as Q.
            pose proof (loop_spec su ok items front L (n - length (items (mf_stored m0))) (mf_file m0) 0 (mf_stored m0) K0 HF0) as Q2.
            destruct (mtf_loop su (n - length (items (mf_stored m0))) 0 (mf_file m0) (mf_stored m0)) as [r0 n0].
            destruct (mtf_loop su (n - length (items (mf_stored m0))) 0 (mf_file m1) (mf_stored m1)) as [r1 n1].
            destruct Q as (-> & Q). split; auto.
            destruct Q2 as (_ & _ & read & _ & I1 & R1).
            destruct R1 as [(-> & R2)|(-> & _)]; auto. left. repeat split; auto. rewrite I1, app_length. lia.
          - split; [split; [split|]; auto|]. left; repeat split; auto. }
        cbv zeta in H0.
        destruct (if su_len su (mf_stored m0) <? n then mtf_precompute su m0 (n - su_len su (mf_stored m0)) else (ROk tt, m0)) as [r0 n0].
        destruct (if su_len su (mf_stored m0) <? n then mtf_precompute su m1 (n - su_len su (mf_stored m0)) else (ROk tt, m1)) as [r1 n1].
        destruct H0 as (Hmr & [(-> & -> & Hn)|(-> & ->)]).
        + destruct Hmr as (Hs' & Hf'). destruct (remove_rel _ _ n Hs' Hn) as (a & b & c & d & E0 & E1 & B1 & B2 & L1 & L2).
          rewrite E0, E1. split; [constructor; auto|]. split; auto.
        + split; [constructor|auto]. }
    destruct (mtf_step su m0 o) as [r0 n0]. destruct (mtf_step su m1 o) as [r1 n1]. destruct Hst as (Hr & Hn).
    specialize (IH n0 n1 Hn). destruct (mtf_run su n0 ops) as [o0 m0']. destruct (mtf_run su n1 ops) as [o1 m1'].
    destruct IH as (A & B & C & D). split; auto. split; [simpl; lia|]. split; [simpl; lia|].
    intros [|i] Hi; cbn [nth]; auto. apply D. simpl in Hi. lia.
Qed.

(** Serving related streams gives related answers. *)
Lemma serve_rel ops : forall s0 s1 : list I, Forall2 R s0 s1 ->
  Forall2 (fun a b => match a, b with Some l, Some l' => Forall2 R l l' | None, None => True | _, _ => False end)
    (serve s0 ops) (serve s1 ops).
Proof.
  induction ops as [|[n|n] ops IH]; intros s0 s1 H; cbn [serve]; auto.
  rewrite (F2_length _ _ _ H). destruct (n <=? length s1); constructor; auto using F2_firstn, F2_skipn.
Qed.

(** ** Writing *)
Context {P0 P1 : Type} (req0 : P0 -> nat -> result T * P0) (req1 : P1 -> nat -> result T * P1) (inv : P0 -> P1 -> Prop).
Hypothesis Hreq : forall p0 p1 n, inv p0 p1 ->
  exists t u p0' p1', req0 p0 n = (ROk t, p0') /\ req1 p1 n = (ROk u, p1') /\
    brel t u /\ n <= length (items t) /\ inv p0' p1'.

Lemma store_loop_rel bs n : forall p0 p1, inv p0 p1 ->
  exists f0 f1 p0' p1', store_loop req0 bs n p0 = (ROk tt, f0, p0') /\ store_loop req1 bs n p1 = (ROk tt, f1, p1') /\
    Forall2 brel f0 f1 /\ n * bs <= length (flat_map items f0) /\ inv p0' p1'.
Proof.
  induction n as [|n IH]; intros p0 p1 Hi; cbn [store_loop].
  - exists [], [], p0, p1. repeat split; auto.
  - destruct (Hreq p0 p1 bs Hi) as (t & u & q0 & q1 & -> & -> & Hb & Hl & Hi').
    destruct (IH q0 q1 Hi') as (f0 & f1 & p0' & p1' & -> & -> & HF & HL & Hi2).
    exists (t :: f0), (u :: f1), p0', p1'. repeat split; auto. cbn [flat_map]. rewrite app_length. simpl. lia.
Qed.

Lemma store_rel bs count p0 p1 : 0 < bs -> inv p0 p1 ->
  exists f0 f1 p0' p1', store_mts req0 bs count p0 = (ROk tt, f0, p0') /\ store_mts req1 bs count p1 = (ROk tt, f1, p1') /\
    Forall2 brel f0 f1 /\ count <= length (flat_map items f0) /\ inv p0' p1'.
Proof.
  intros Hbs Hi. unfold store_mts. destruct (Nat.eqb_spec bs 0); [lia|].
  destruct (store_loop_rel bs ((count + (bs - 1)) / bs) p0 p1 Hi) as (f0 & f1 & p0' & p1' & E0 & E1 & HF & HL & Hi').
  exists f0, f1, p0', p1'. repeat split; auto.
  pose proof (Nat.div_mod (count + (bs - 1)) bs ltac:(lia)) as D.
  pose proof (Nat.mod_upper_bound (count + (bs - 1)) bs ltac:(lia)). nia.
Qed.
End Two.

(** ** Dealer *)
Section Dealer.
Context {S T U : Type} (gen : nat -> S -> option (T * U * S)).
Hypothesis gen_total : forall n s, exists t u s', gen n s = Some (t, u, s').

Lemma dealer_run_snoc reqs q : forall tab s,
  dealer_run gen tab s (reqs ++ [q]) =
  ('(rs, tab1, s1) <- dealer_run gen tab s reqs ;;
   '(r, tab2, s2) <- dealer_handle gen tab1 s1 (dq_id q) (dq_amount q) ;;
   Some (rs ++ [r], tab2, s2)).
Proof.
  induction reqs as [|p reqs IH]; intros tab s; cbn [app dealer_run obind].
  - destruct (dealer_handle gen tab s (dq_id q) (dq_amount q)) as [[[r t2] s2]|]; reflexivity.
  - destruct (dealer_handle gen tab s (dq_id p) (dq_amount p)) as [[[r t1] s1]|]; [|reflexivity]. cbn [obind].
    rewrite IH. destruct (dealer_run gen t1 s1 reqs) as [[[rs t2] s2]|]; [|reflexivity]. cbn [obind].
    destruct (dealer_handle gen t2 s2 (dq_id q) (dq_amount q)) as [[[r' t3] s3]|]; reflexivity.
Qed.

Lemma dealer_run_length reqs : forall tab s rs tab' s',
  dealer_run gen tab s reqs = Some (rs, tab', s') -> length rs = length reqs.
Proof.
  induction reqs as [|q reqs IH]; intros tab s rs tab' s'; cbn [dealer_run].
  - intros E; inversion E; auto.
  - destruct (dealer_handle gen tab s (dq_id q) (dq_amount q)) as [[[r t1] s1]|]; cbn [obind]; [|discriminate].
    destruct (dealer_run gen t1 s1 reqs) as [[[rs0 t2] s2]|] eqn:E1; cbn [obind]; [|discriminate].
    intros E; inversion E; subst. simpl. f_equal. eauto.
Qed.

Lemma combine_snoc {A B} (l : list A) (l' : list B) x y : length l = length l' ->
  combine (l ++ [x]) (l' ++ [y]) = combine l l' ++ [(x, y)].
Proof.
  revert l'; induction l as [|a l IH]; intros [|b l'] H; simpl in *; try lia; auto. rewrite IH by lia. auto.
Qed.

Lemma got_snoc p id reqs rs q (r : reply T U) : length reqs = length rs ->
  got p id (reqs ++ [q]) (rs ++ [r]) = got p id reqs rs ++ (if mine p id q then [(dq_amount q, r)] else []).
Proof.
  intros H. unfold got. rewrite combine_snoc by auto. rewrite filter_app, map_app. f_equal.
  cbn [filter fst]. destruct (mine p id q); auto.
Qed.

Lemma filter_snoc_len p id reqs q :
  length (filter (mine p id) (reqs ++ [q])) = length (filter (mine p id) reqs) + (if mine p id q then 1 else 0).
Proof. rewrite filter_app, app_length. cbn [filter]. destruct (mine p id q); auto. Qed.

Lemma balanced_init id reqs q : balanced id (reqs ++ [q]) -> balanced id reqs.
Proof.
  intros H k. specialize (H (min k (length reqs))). rewrite firstn_app in H.
  replace (min k (length reqs) - length reqs) with 0 in H by lia. cbn [firstn] in H. rewrite app_nil_r in H.
  destruct (Nat.le_gt_cases k (length reqs)).
  - rewrite Nat.min_l in H by auto. exact H.
  - rewrite Nat.min_r in H by lia. rewrite firstn_all in H. rewrite firstn_all2 by lia. exact H.
Qed.

Lemma dealer_get_cons id i (t : T) tab : dealer_get id ((i, t) :: tab) = if i =? id then Some t else dealer_get id tab.
Proof. unfold dealer_get. cbn [find fst]. destruct (i =? id); auto. Qed.

Lemma dealer_get_remove id i (tab : list (nat * T)) :
  dealer_get id (dealer_remove i tab) = if i =? id then None else dealer_get id tab.
Proof.
  induction tab as [|[j t] tab IH]; cbn [dealer_remove filter fst].
  - destruct (i =? id); auto.
  - fold (dealer_remove i tab). destruct (Nat.eqb_spec j i) as [->|Hj]; cbn [negb].
    + rewrite IH, dealer_get_cons. destruct (i =? id); auto.
    + rewrite !dealer_get_cons, IH. destruct (Nat.eqb_spec j id) as [->|]; auto.
      destruct (Nat.eqb_spec i id); auto. congruence.
Qed.

Lemma deals_snoc id i (d : deal T U) l : deals_of id (l ++ [(i, d)]) = deals_of id l ++ (if i =? id then [d] else []).
Proof. unfold deals_of. rewrite filter_app, map_app. f_equal. cbn [filter fst]. destruct (i =? id); auto. Qed.

(** State of the dealer for one id: nothing put aside and both parties served from the
    same deals, or one party is one deal ahead. *)
Definition dinv (id : nat) (reqs : list dreq) (rs : list (reply T U)) (tab : list (nat * T)) (ds : list (deal T U)) : Prop :=
  Forall (fun d => dl_first d < 2) ds /\
  (dealer_get id tab = None /\ Forall2 (gets 0) (got 0 id reqs rs) ds /\ Forall2 (gets 1) (got 1 id reqs rs) ds
   \/ exists d ds' p, ds = ds' ++ [d] /\ p < 2 /\ dl_first d = p /\ dealer_get id tab = Some (dl_put d) /\
        Forall2 (gets p) (got p id reqs rs) ds /\ Forall2 (gets (1 - p)) (got (1 - p) id reqs rs) ds').

Lemma got_length p id reqs rs : length reqs = length rs ->
  length (@got T U p id reqs rs) = length (filter (mine p id) reqs).
Proof.
  intros H. unfold got. rewrite map_length. revert rs H.
  induction reqs as [|q reqs IH]; intros [|r rs] H; simpl in *; try lia; auto.
  destruct (mine p id q); simpl; rewrite IH; auto.
Qed.

Lemma mine_other p id q : dq_id q <> id -> mine p id q = false.
Proof. intros H. unfold mine. destruct (Nat.eqb_spec (dq_id q) id); [contradiction|]. apply andb_false_r. Qed.
Lemma mine_self q : mine (dq_party q) (dq_id q) q = true.
Proof. unfold mine. rewrite !Nat.eqb_refl. auto. Qed.
Lemma mine_opp p q : dq_party q <> p -> mine p (dq_id q) q = false.
Proof. intros H. unfold mine. destruct (Nat.eqb_spec (dq_party q) p); [contradiction|]. auto. Qed.

Lemma F2_snoc {A B} (P : A -> B -> Prop) l l' x y : Forall2 P l l' -> P x y -> Forall2 P (l ++ [x]) (l' ++ [y]).
Proof. intros. apply Forall2_app; auto. Qed.

Theorem dealer_inv s0 reqs : two_parties reqs ->
  exists rs tab s l, dealer_run gen [] s0 reqs = Some (rs, tab, s) /\ chain gen s0 l s /\
    forall id, balanced id reqs -> dinv id reqs rs tab (deals_of id l).
Proof.
  induction reqs as [|q reqs IH] using rev_ind; intros H2.
  - exists [], [], s0, []. split; [reflexivity|]. split; [constructor|]. intros id _.
    split; [constructor|]. left. split; [reflexivity|]. split; constructor.
  - destruct IH as (rs & tab & s & l & E & HC & HI).
    { intros x Hx. apply H2. apply in_or_app. auto. }
    pose proof (dealer_run_length _ _ _ _ _ _ E) as HL. symmetry in HL.
    assert (Hq : dq_party q < 2) by (apply H2; apply in_or_app; right; left; auto).
    rewrite dealer_run_snoc, E. cbn [obind]. unfold dealer_handle.
    destruct (dealer_get (dq_id q) tab) as [t|] eqn:Eg.
    + cbn [obind]. exists (rs ++ [RepSecond t]), (dealer_remove (dq_id q) tab), s, l.
      split; [reflexivity|]. split; auto. intros id Hb. pose proof (HI id (balanced_init _ _ _ Hb)) as Hd.
      unfold dinv. rewrite !got_snoc by auto. rewrite dealer_get_remove.
      destruct Hd as (HF & Hd). split; auto.
      destruct (Nat.eqb_spec (dq_id q) id) as [<-|Hne].
      * left. split; auto. destruct Hd as [(Hn & _)|(d & ds' & p & Eds & Hp & Hf & Hg & G1 & G2)]; [congruence|].
        assert (t = dl_put d) by congruence. subst t.
        (* the party that is ahead cannot ask again *)
        assert (Hpq : dq_party q = 1 - p).
        { destruct (Nat.eq_dec (dq_party q) p) as [Epq|]; [|lia].
          specialize (Hb (length (reqs ++ [q]))). rewrite firstn_all in Hb. cbv beta zeta in Hb. rewrite !filter_snoc_len in Hb.
          pose proof (F2_length _ _ _ G1) as L1. pose proof (F2_length _ _ _ G2) as L2.
          rewrite got_length in L1, L2 by auto. rewrite Eds, app_length in L1. cbn [length] in L1.
          assert (mine p (dq_id q) q = true) by (rewrite <- Epq; apply mine_self).
          assert (mine (1 - p) (dq_id q) q = false) by (apply mine_opp; lia).
          destruct p as [|[|p]]; [| |lia]; cbn [Nat.sub] in *; rewrite H, H0 in Hb; lia. }
        assert (M1 : mine p (dq_id q) q = false) by (apply mine_opp; lia).
        assert (M2 : mine (1 - p) (dq_id q) q = true) by (rewrite <- Hpq; apply mine_self).
        assert (Hnew : gets (1 - p) (dq_amount q, RepSecond (dl_put d)) d).
        { split; [|intros; lia]. unfold share_of. destruct (Nat.eqb_spec (dl_first d) (1 - p)); [lia|]. auto. }
        destruct p as [|[|p]]; [| |lia]; cbn [Nat.sub] in *; rewrite M1, M2, app_nil_r; rewrite Eds in *;
          (split; [|]); auto using F2_snoc.
      * rewrite !mine_other by auto. rewrite !app_nil_r.
        destruct Hd as [?|(d & ds' & p & Eds & Hp & Hf & Hg & G1 & G2)]; [auto|].
        right. exists d, ds', p. rewrite !got_snoc by auto. rewrite !mine_other by auto. rewrite !app_nil_r.
        repeat split; auto.
    + destruct (gen_total (dq_amount q) s) as (t & u & s' & Egen). rewrite Egen. cbn [obind].
      exists (rs ++ [RepFirst u]), ((dq_id q, t) :: tab), s', (l ++ [(dq_id q, Deal (dq_party q) (dq_amount q) t u)]).
      split; [reflexivity|]. split; [econstructor; eauto|]. intros id Hb. pose proof (HI id (balanced_init _ _ _ Hb)) as Hd.
      unfold dinv. rewrite !got_snoc by auto. rewrite dealer_get_cons, deals_snoc.
      destruct Hd as (HF & Hd).
      destruct (Nat.eqb_spec (dq_id q) id) as [<-|Hne].
      * split; [apply Forall_app; split; auto|].
        destruct Hd as [(Hn & G0 & G1)|(d & ds' & p & Eds & Hp & Hf & Hg & G1 & G2)]; [|congruence].
        right. eexists _, (deals_of (dq_id q) l), (dq_party q). split; [reflexivity|]. split; [lia|].
        cbn [dl_first dl_put]. split; auto. split; auto. rewrite !got_snoc by auto. rewrite mine_self.
        rewrite mine_opp by lia. rewrite app_nil_r.
        assert (Hnew : gets (dq_party q) (dq_amount q, RepFirst u) (Deal (dq_party q) (dq_amount q) t u)).
        { split; auto. unfold share_of. cbn [dl_first dl_reply]. rewrite Nat.eqb_refl. auto. }
        destruct (dq_party q) as [|[|p]]; [| |lia]; cbn [Nat.sub]; split; auto using F2_snoc.
      * rewrite app_nil_r. split; auto. rewrite !mine_other by auto. rewrite !app_nil_r.
        destruct Hd as [?|(d & ds' & p & Eds & Hp & Hf & Hg & G1 & G2)]; [auto|].
        right. exists d, ds', p. rewrite !got_snoc by auto. rewrite !mine_other by auto. rewrite !app_nil_r.
        repeat split; auto.
Qed.
End Dealer.

(** ** Seeds *)

Lemma compute_c_ok W size a1 b1 c1 a2 b2 : 0 < W -> mts_wf W 0 size (MTS a1 b1 c1) ->
  bv_wf W a2 -> bv_head a2 = 0 -> bv_len a2 = size -> bv_wf W b2 -> bv_head b2 = 0 -> bv_len b2 = size ->
  let c2 := mts_compute_c W (MTS a1 b1 c1) a2 b2 in
  mts_wf W 0 size (MTS a2 b2 c2) /\ triples_ok (mts_iter (MTS a2 b2 c2)) (mts_iter (MTS a1 b1 c1)).
Proof.
  intros HW (P1 & U1 & X1 & P2 & U2 & X2 & P3 & U3 & X3) Q1 Q2 Q3 V1 V2 V3 c2. cbn [ts_a ts_b ts_c] in *.
  assert (E : bv_bits c2 = zip_with xorb (zip_with andb (zip_with xorb (bv_bits a2) (bv_bits a1))
      (zip_with xorb (bv_bits b2) (bv_bits b1))) (bv_bits c1)).
  { unfold c2, mts_compute_c; cbn [ts_a ts_b ts_c].
    assert (Z1 : bv_wf W (bv_xor W a2 a1)) by (apply bv_xor_wf; auto).
    assert (Z2 : bv_wf W (bv_xor W b2 b1)) by (apply bv_xor_wf; auto).
    assert (Z3 : bv_wf W (bv_and W (bv_xor W a2 a1) (bv_xor W b2 b1))) by (apply bv_and_wf; auto).
    rewrite bv_xor_bits; auto; [| rewrite bv_and_len, bv_xor_len; auto; congruence].
    rewrite bv_and_bits; auto; [| rewrite !bv_xor_len; auto; congruence].
    rewrite !bv_xor_bits; auto; congruence. }
  assert (Wc : bv_wf W c2).
  { unfold c2, mts_compute_c. apply bv_xor_wf. apply bv_and_wf. apply bv_xor_wf. auto. }
  assert (Hc : bv_head c2 = 0) by (unfold c2, mts_compute_c, bv_xor, bv_and; simpl; auto).
  assert (Lc : bv_len c2 = size).
  { rewrite <- (bv_bits_length W c2 Wc), E, !zip_with_length, !(bv_bits_length W) by auto. lia. }
  split; [unfold mts_wf; cbn [ts_a ts_b ts_c]; tauto|].
  pose proof (bv_bits_length W a1 P1). pose proof (bv_bits_length W a2 Q1).
  pose proof (bv_bits_length W b1 U1). pose proof (bv_bits_length W b2 V1).
  pose proof (bv_bits_length W c1 X1). unfold mts_iter; cbn [ts_a ts_b ts_c]. rewrite E.
  assert (LL : length (bv_bits a2) = length (bv_bits a1) /\ length (bv_bits b1) = length (bv_bits a1)
     /\ length (bv_bits b2) = length (bv_bits a1) /\ length (bv_bits c1) = length (bv_bits a1)) by lia.
  clear - LL. revert LL.
  generalize (bv_bits a1) (bv_bits a2) (bv_bits b1) (bv_bits b2) (bv_bits c1).
  intros l; induction l as [|w l IH]; intros [|w2 l2] [|v1 m1] [|v2 m2] [|u k]; simpl;
    intros (L1 & L2 & L3 & L4); try discriminate; constructor.
  - unfold triple_ok; simpl. destruct w, w2, v1, v2, u; reflexivity.
  - apply IH. repeat split; lia.
Qed.

Lemma triples_ok_sym l l' : triples_ok l l' -> triples_ok l' l.
Proof.
  induction 1 as [|x y l l' H HF IH]; constructor; auto. unfold triple_ok in *.
  rewrite xorb_comm, (xorb_comm (mt_a y)), (xorb_comm (mt_b y)). auto.
Qed.

Section Seeds.
Context {S D R : Type} (draw : S -> D * S) (from_seed : D -> R) (fill : R -> nat -> list bool * R).
Hypothesis Hfill : forall r n, length (fst (fill r n)) = n.
Variable W : nat.
Hypothesis HW : 0 < W.

Lemma mts_random_ok n r : exists m r', mts_random fill W n r = Some (m, r') /\ mts_wf W 0 n m.
Proof.
  unfold mts_random. pose proof (rand_bitvec_spec R fill Hfill W n) as RS.
  pose proof (RS r HW) as (P1 & P2 & P3 & _). destruct (rand_bitvec fill W n r) as [a1 s1]; cbn [fst] in *.
  pose proof (RS s1 HW) as (Q1 & Q2 & Q3 & _). destruct (rand_bitvec fill W n s1) as [a2 s2]; cbn [fst] in *.
  pose proof (RS s2 HW) as (U1 & U2 & U3 & _). destruct (rand_bitvec fill W n s2) as [b1 s3]; cbn [fst] in *.
  unfold mts_from_raw. rewrite P3, Q3, U3, Nat.eqb_refl. cbn [andb obind]. eexists _, _; split; [reflexivity|].
  unfold mts_wf; cbn [ts_a ts_b ts_c]. tauto.
Qed.

Theorem seed_gen_ok n s :
  exists d1 d2 c s', seed_gen draw from_seed fill W n s = Some (d1, (d2, c), s') /\
    exists t0 t1, (forall m, seed_client from_seed fill W m (RepFirst (d2, c)) = Some t0) /\
      seed_client from_seed fill W n (RepSecond d1) = Some t1 /\
      mts_wf W 0 n t0 /\ mts_wf W 0 n t1 /\ triples_ok (mts_iter t0) (mts_iter t1).
Proof.
  unfold seed_gen. destruct (draw s) as [d1 s1]. destruct (draw s1) as [d2 s2].
  destruct (mts_random_ok n (from_seed d1)) as (m1 & r1 & E1 & W1). rewrite E1. cbn [obind].
  pose proof (rand_bitvec_spec R fill Hfill W n) as RS.
  pose proof (RS (from_seed d2) HW) as (P1 & P2 & P3 & _).
  destruct (rand_bitvec fill W n (from_seed d2)) as [a r2] eqn:Ea; cbn [fst] in *.
  pose proof (RS r2 HW) as (Q1 & Q2 & Q3 & _).
  destruct (rand_bitvec fill W n r2) as [b r3] eqn:Eb; cbn [fst] in *.
  eexists _, _, _, _. split; [reflexivity|]. destruct m1 as [a1 b1 c1].
  destruct (compute_c_ok W n a1 b1 c1 a b HW W1 P1 P2 P3 Q1 Q2 Q3) as (W2 & HT).
  set (c := mts_compute_c W (MTS a1 b1 c1) a b) in *.
  exists (MTS a b c), (MTS a1 b1 c1). split.
  - intros m. unfold seed_client, mts_random_with_fixed_c.
    assert (Lc : bv_len c = n) by apply W2. rewrite Lc, Ea, Eb. unfold mts_from_raw. rewrite P3, Q3, Lc, Nat.eqb_refl. reflexivity.
  - split; [unfold seed_client; rewrite E1; reflexivity|]. auto.
Qed.
End Seeds.

(** ** What the parties obtain from the dealer *)

Lemma F2_nth_error {A B} (P : A -> B -> Prop) l l' : Forall2 P l l' -> forall k x, nth_error l k = Some x ->
  exists y, nth_error l' k = Some y /\ P x y.
Proof.
  induction 1; intros [|k] x0 E; simpl in *; try discriminate; eauto. inversion E; subst; eauto.
Qed.

Lemma nth_error_app_l {A} (l : list A) x k y : nth_error l k = Some y -> nth_error (l ++ [x]) k = Some y.
Proof. intros H. rewrite nth_error_app1; auto. apply nth_error_Some. congruence. Qed.

Lemma chain_in {S T U} (gen : nat -> S -> option (T * U * S)) s l s' : chain gen s l s' ->
  forall id d, In (id, d) l -> exists s1 s2, gen (dl_amount d) s1 = Some (dl_put d, dl_reply d, s2).
Proof.
  induction 1; intros i e Hin; [destruct Hin|]. apply in_app_or in Hin. destruct Hin as [Hin|[Hin|[]]]; eauto.
  inversion Hin; subst. eauto.
Qed.

(** The k-th replies of the two parties are the two parts of one deal. *)
Lemma dinv_pair {T U} id reqs rs (tab : list (nat * T)) (ds : list (deal T U)) k a0 r0 a1 r1 :
  dinv id reqs rs tab ds ->
  nth_error (got 0 id reqs rs) k = Some (a0, r0) -> nth_error (got 1 id reqs rs) k = Some (a1, r1) ->
  exists d, nth_error ds k = Some d /\ r0 = share_of 0 d /\ r1 = share_of 1 d /\ dl_first d < 2 /\
    (dl_first d = 0 -> a0 = dl_amount d) /\ (dl_first d = 1 -> a1 = dl_amount d).
Proof.
  intros (HF & H) E0 E1.
  assert (exists d, nth_error ds k = Some d /\ gets 0 (a0, r0) d /\ gets 1 (a1, r1) d).
  { destruct H as [(_ & G0 & G1)|(d & ds' & p & Eds & Hp & Hf & _ & G1 & G2)].
    - destruct (F2_nth_error _ _ _ G0 _ _ E0) as (d & N0 & H0). destruct (F2_nth_error _ _ _ G1 _ _ E1) as (d' & N1 & H1).
      exists d. rewrite N0 in N1. inversion N1; subst. auto.
    - destruct p as [|[|p]]; [| |lia]; cbn [Nat.sub] in *.
      + destruct (F2_nth_error _ _ _ G1 _ _ E0) as (x & N0 & H0). destruct (F2_nth_error _ _ _ G2 _ _ E1) as (y & N1 & H1).
        exists x. pose proof (nth_error_app_l ds' d k y N1) as N2. rewrite <- Eds, N0 in N2. inversion N2; subst x. auto.
      + destruct (F2_nth_error _ _ _ G2 _ _ E0) as (x & N0 & H0). destruct (F2_nth_error _ _ _ G1 _ _ E1) as (y & N1 & H1).
        exists y. pose proof (nth_error_app_l ds' d k x N0) as N2. rewrite <- Eds, N1 in N2. inversion N2; subst y. auto. }
  destruct H0 as (d & Hd & (A & A') & (B & B')). exists d. cbn [fst snd] in *. split; auto. split; auto. split; auto.
  split; [|split; auto]. rewrite Forall_forall in HF. apply HF. eapply nth_error_In; eauto.
Qed.
