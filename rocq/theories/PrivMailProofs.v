(** The private mail search circuit, gate by gate. *)
From Coq Require Import List Bool Arith Lia NArith.
Require Import Verif.Prelude Verif.PreludeProofs Verif.GateModel Verif.CircuitModel Verif.CircuitSpec Verif.ExecModel
  Verif.BoolGmwModel Verif.BoolGmwSpec Verif.InlineSpec Verif.ConnModel Verif.BuilderModel Verif.BuilderSpec Verif.ReduceProofs
  Verif.BuilderProofs Verif.BuilderProofs2 Verif.PrivMailModel Verif.PrivMailSpec.
Import ListNotations.

(** ** Building in the main circuit *)

Definition Inv (b : builder) : Prop := b_wf b /\ b_ids b = [0].
Definition ins (b : builder) (s : secret) : Prop := sec_ok b s /\ fst s = 0.
Definition sv (v : nat -> nat -> bool) (s : secret) : bool := v 0 (snd s).

Definition mk {A} (b : builder) (m : option (builder * A)) (Q : builder -> A -> Prop)
  (R : (nat -> nat -> bool) -> A -> Prop) : Prop :=
  exists b' a, m = Some (b', a) /\ grows b b' /\ Inv b' /\ Q b' a /\ forall v, bvalued b' v -> R v a.

Lemma ins_mono b b' s : grows b b' -> ins b s -> ins b' s.
Proof. intros G [H F]. split; auto. eapply grows_ok; eauto. Qed.
Lemma inss_mono b b' l : grows b b' -> Forall (ins b) l -> Forall (ins b') l.
Proof. intros G H. eapply Forall_impl; [|exact H]. intros s. apply ins_mono. auto. Qed.
Lemma insss_mono b b' l : grows b b' -> Forall (Forall (ins b)) l -> Forall (Forall (ins b')) l.
Proof. intros G H. eapply Forall_impl; [|exact H]. intros s. apply inss_mono. auto. Qed.
Lemma inssss_mono b b' l : grows b b' -> Forall (Forall (Forall (ins b))) l -> Forall (Forall (Forall (ins b'))) l.
Proof. intros G H. eapply Forall_impl; [|exact H]. intros s. apply insss_mono. auto. Qed.

Lemma sv_val b v s : Inv b -> ins b s -> sec_val b v s = sv v s.
Proof. intros [_ Hi] [_ F]. unfold sec_val, sv. rewrite Hi, F. reflexivity. Qed.

Lemma mk_ret {A} b (a : A) (Q : builder -> A -> Prop) (R : (nat -> nat -> bool) -> A -> Prop) :
  Inv b -> Q b a -> (forall v, R v a) -> mk b (Some (b, a)) Q R.
Proof. intros HI HQ HR. exists b, a. split; auto. split; [apply grows_refl|]. auto. Qed.

Lemma mk_bind {A B} b m (f : builder -> A -> option (builder * B)) Q1 R1 Q2 (R2 : (nat -> nat -> bool) -> B -> Prop) :
  mk b m Q1 R1 ->
  (forall b1 a, grows b b1 -> Inv b1 -> Q1 b1 a -> mk b1 (f b1 a) Q2 (fun v x => R1 v a -> R2 v x)) ->
  mk b ('(b1, a) <- m ;; f b1 a) Q2 R2.
Proof.
  intros (b1 & a & E & G & I1 & H1 & V1) HF. destruct (HF b1 a G I1 H1) as (b2 & x & E2 & G2 & I2 & H2 & V2).
  exists b2, x. rewrite E. cbn [obind]. split; auto. split; [eapply grows_trans; eauto|]. split; auto. split; auto.
  intros v Hv. apply V2; auto. apply V1. apply (gr_restrict _ _ G2). auto.
Qed.

Lemma mk_weak {A} b (m : option (builder * A)) Q R (Q' : builder -> A -> Prop) (R' : (nat -> nat -> bool) -> A -> Prop) :
  mk b m Q R -> (forall b' a, Q b' a -> Q' b' a) -> (forall v a, R v a -> R' v a) -> mk b m Q' R'.
Proof. intros (b' & a & E & G & I & H & V) HQ HR. exists b', a. repeat (split; auto). Qed.

Lemma mk_bin o b s t : Inv b -> ins b s -> ins b t ->
  mk b (do_bin o b s t) ins (fun v r => sv v r = bop_fun o (sv v s) (sv v t)).
Proof.
  intros HI Hs Ht. destruct HI as [Hw Hi]. pose proof (do_bin_spec o b s t Hw (proj1 Hs) (proj1 Ht)) as H.
  destruct Hs as [Os Fs], Ht as [Ot Ft]. rewrite Fs, Ft in H. cbn [Nat.eqb] in H.
  destruct H as (b' & r & E & G & W & O & F & V). exists b', r. split; auto. split; auto.
  assert (HI : Inv b) by (split; auto).
  assert (HI' : Inv b') by (split; auto; rewrite (gr_ids _ _ G); auto). split; auto. split; [split; auto|].
  intros v Hv. specialize (V v Hv). rewrite (sv_val b' v r), (sv_val b v s), (sv_val b v t) in V; auto; split; auto.
Qed.

Lemma mk_not b s : Inv b -> ins b s -> mk b (sec_not b s) ins (fun v r => sv v r = negb (sv v s)).
Proof.
  intros HI Hs. destruct HI as [Hw Hi]. destruct (not_spec b s Hw (proj1 Hs)) as (b' & r & E & G & W & O & F & V).
  assert (HI : Inv b) by (split; auto).
  assert (HI' : Inv b') by (split; auto; rewrite (gr_ids _ _ G); auto).
  assert (Hr : ins b' r) by (split; auto; rewrite F; apply Hs).
  exists b', r. split; auto. split; auto. split; auto. split; auto.
  intros v Hv. specialize (V v Hv). rewrite (sv_val b' v r), (sv_val b v s) in V; auto.
Qed.

Lemma mk_const b x : Inv b -> mk b (sec_const b 0 x) ins (fun v r => sv v r = x).
Proof.
  intros [Hw Hi]. pose proof (const_spec b 0 x Hw) as H. rewrite Hi in H. cbn [nth_error] in H.
  destruct H as (b' & r & E & G & W & O & F & V).
  assert (HI' : Inv b') by (split; auto; rewrite (gr_ids _ _ G); auto).
  assert (Hr : ins b' r) by (split; auto).
  exists b', r. split; auto. split; auto. split; auto. split; auto.
  intros v Hv. specialize (V v Hv). rewrite (sv_val b' v r) in V; auto.
Qed.

Lemma mk_reduce o b l : Inv b -> Forall (ins b) l -> l <> [] ->
  mk b (pm_reduce o b l) ins (fun v r => combine_all (bop_fun o) (map (sv v) l) = Some (sv v r)).
Proof.
  intros HI Hl Hn. destruct HI as [Hw Hi]. assert (HI : Inv b) by (split; auto).
  assert (Hf : forall b0 x y, b_wf b0 -> sec_ok b0 x -> sec_ok b0 y ->
    if fst x =? fst y then exists b' z, do_bin o b0 x y = Some (b', z) /\ (grows b0 b' /\ b_wf b') /\ sec_ok b' z /\ fst z = fst x /\
      forall v, (bvalued b' v /\ b_ids b' = b_ids b) -> sec_val b v z = bop_fun o (sec_val b v x) (sec_val b v y)
    else do_bin o b0 x y = None).
  { intros b0 x y W0 O0 O1. pose proof (do_bin_spec o b0 x y W0 O0 O1) as H. destruct (fst x =? fst y); auto.
    destruct H as (b' & z & E & G & W & O & F & V). exists b', z. split; auto. split; auto. split; auto. split; auto.
    intros v [Hv Hid]. specialize (V v Hv). unfold sec_val in *. rewrite (gr_ids _ _ G) in *. rewrite Hid in V. auto. }
  assert (Hk : all_key secret fst 0 l) by (eapply Forall_impl; [|exact Hl]; intros s [_ F]; exact F).
  assert (Hok : Forall (sec_ok b) l) by (eapply Forall_impl; [|exact Hl]; intros s [F _]; exact F).
  destruct (reduce_stateful builder secret (nat -> nat -> bool) bool (do_bin o) fst b_wf
             (fun a b' => grows a b' /\ b_wf b') sec_ok (fun b' v => bvalued b' v /\ b_ids b' = b_ids b) (sec_val b) (bop_fun o))
    with (l := l) (b := b) (k := 0) as (b' & z & E & (G & W) & O & F & V); auto.
  - intros b0 W0. split; [apply grows_refl|auto].
  - intros a1 a2 a3 [A1 _] [A2 A3]. split; [eapply grows_trans; eauto|auto].
  - intros a1 a2 _ [_ A]. auto.
  - intros a1 a2 x [A _]. apply grows_ok. auto.
  - intros a1 a2 v [A _] [B1 B2]. split; [apply (gr_restrict _ _ A); auto|]. rewrite <- B2. symmetry. apply (gr_ids _ _ A).
  - apply bop_assoc.
  - exists b', z. unfold pm_reduce. rewrite E. cbn [obind]. split; auto. split; auto.
    assert (HI' : Inv b') by (split; auto; rewrite (gr_ids _ _ G); auto). split; auto.
    assert (Hz : ins b' z) by (split; auto). split; auto.
    intros v Hv. assert (V' := V v (conj Hv (gr_ids _ _ G))).
    assert (Ez : sec_val b v z = sv v z).
    { rewrite <- (sv_val b' v z) by auto. symmetry. apply grows_val. auto. }
    assert (El : map (sec_val b v) l = map (sv v) l).
    { apply map_ext_in. intros s Hs. rewrite Forall_forall in Hl. apply sv_val; auto. }
    rewrite Ez, El in V'. exact V'.
Qed.

(** ** The functions of the example *)

Lemma mk_xor_loop : forall x y b, Inv b -> Forall (ins b) x -> Forall (ins b) y -> length x = length y ->
  mk b (pm_xor_loop b x y) (fun b' z => Forall (ins b') z /\ length z = length x)
    (fun v z => map (sv v) z = zip_with xorb (map (sv v) x) (map (sv v) y)).
Proof.
  induction x as [|s x IH]; intros [|t y] b HI Hx Hy HL; try discriminate.
  - apply mk_ret; auto.
  - inversion Hx as [|? ? Hs Hx']; subst. inversion Hy as [|? ? Ht Hy']; subst. cbn [pm_xor_loop].
    eapply mk_bind; [apply (mk_bin OXor); auto|]. intros b1 r G1 I1 H1. cbn beta in H1.
    eapply mk_bind; [apply (IH y b1); eauto using inss_mono|]. intros b2 z G2 I2 [H2 L2]. cbn beta.
    apply mk_ret; auto.
    + split; [constructor; auto; eapply ins_mono; eauto|]. cbn. congruence.
    + intros v E2 E1. cbn [map zip_with]. cbn [bop_fun] in E1. rewrite E1, E2. reflexivity.
Qed.

Lemma mk_xor_inplace x y b : Inv b -> Forall (ins b) x -> Forall (ins b) y -> length x = length y ->
  mk b (pm_xor_inplace b x y) (fun b' z => Forall (ins b') z /\ length z = length x)
    (fun v z => map (sv v) z = zip_with xorb (map (sv v) x) (map (sv v) y)).
Proof.
  intros. unfold pm_xor_inplace. rewrite (proj2 (Nat.eqb_eq _ _)) by auto. cbn [oassert obind]. apply mk_xor_loop; auto.
Qed.

Lemma mk_nots : forall x b, Inv b -> Forall (ins b) x ->
  mk b (pm_nots b x) (fun b' z => Forall (ins b') z /\ length z = length x) (fun v z => map (sv v) z = map negb (map (sv v) x)).
Proof.
  induction x as [|s x IH]; intros b HI Hx.
  - apply mk_ret; auto.
  - inversion Hx as [|? ? Hs Hx']; subst. cbn [pm_nots].
    eapply mk_bind; [apply mk_not; auto|]. intros b1 r G1 I1 H1. cbn beta in H1.
    eapply mk_bind; [apply (IH b1); eauto using inss_mono|]. intros b2 z G2 I2 [H2 L2]. cbn beta.
    apply mk_ret; auto.
    + split; [constructor; auto; eapply ins_mono; eauto|]. cbn. congruence.
    + intros v E2 E1. cbn [map]. rewrite E1, E2. reflexivity.
Qed.

(** Characters of eight secrets. *)
Definition chars (b : builder) (t : list pm_char) : Prop := Forall (Forall (ins b)) t /\ Forall (fun c => length c = 8) t.
Lemma chars_mono b b' t : grows b b' -> chars b t -> chars b' t.
Proof. intros G [H L]. split; auto. eapply insss_mono; eauto. Qed.

Definition split6 {A} : list (list A) -> list A := flat_map (firstn 6).
Lemma split6_length {A} (t : list (list A)) : Forall (fun c => length c = 8) t -> length (split6 t) = 6 * length t.
Proof.
  induction 1 as [|c t H HF IH]; auto. unfold split6 in *. cbn [flat_map length]. rewrite app_length, IH, firstn_length, H. simpl. lia.
Qed.
Lemma split6_map {A B} (f : A -> B) t : map f (split6 t) = split6 (map (map f) t).
Proof.
  induction t as [|c t IH]; auto. unfold split6 in *. cbn [flat_map map]. rewrite map_app, IH, firstn_map. reflexivity.
Qed.
Lemma split6_ins b t : Forall (Forall (ins b)) t -> Forall (ins b) (split6 t).
Proof.
  induction 1 as [|c t H HF IH]; [constructor|]. unfold split6 in *. cbn [flat_map]. apply Forall_app. split; auto.
  clear -H. rewrite Forall_forall in *. intros x Hx. apply H. rewrite <- (firstn_skipn 6 c). apply in_or_app. auto.
Qed.

Lemma Forall_firstn_ {A} (P : A -> Prop) n l : Forall P l -> Forall P (firstn n l).
Proof. intros H. revert n. induction H; intros [|n]; cbn; auto. Qed.
Lemma Forall_skipn_ {A} (P : A -> Prop) n l : Forall P l -> Forall P (skipn n l).
Proof. intros H. revert n. induction H; intros [|n]; cbn; auto. Qed.

(** Bit-level meaning. *)
Definition eq6 (k here : list (list bool)) : bool :=
  forallb (fun x => x) (map negb (zip_with xorb (split6 k) (split6 here))).
Definition at_pos (k t : list (list bool)) (pos : nat) : bool := eq6 k (firstn (length k) (skipn pos t)).
Definition bfound (k t : list (list bool)) : bool :=
  if length k <=? length t then existsb (at_pos k t) (seq 0 (length t - length k + 1)) else false.

Definition vals (v : nat -> nat -> bool) (t : list pm_char) : list (list bool) := map (map (sv v)) t.

Lemma mk_compare b k t pos : Inv b -> chars b k -> chars b t -> pos + length k <= length t ->
  mk b (pm_compare b k t pos) (fun b' z => Forall (ins b') z /\ length z = 6 * length k)
    (fun v z => map (sv v) z =
       map negb (zip_with xorb (split6 (vals v k)) (split6 (firstn (length k) (skipn pos (vals v t)))))).
Proof.
  intros HI [Hk Lk] [Ht Lt] HP. unfold pm_compare. rewrite (proj2 (Nat.leb_le _ _)) by lia. cbn [oassert obind].
  change (flat_map (fun c : pm_char => firstn 6 c)) with (@split6 secret).
  set (u := firstn (length k) (skipn pos t)).
  assert (Lu : length (split6 u) = length (split6 k)).
  { rewrite !split6_length; auto; [|apply Forall_firstn_, Forall_skipn_; auto]. f_equal. unfold u. rewrite firstn_length, skipn_length.
    clear -HP. revert HP. generalize (@length (list secret) k) (@length (list secret) t). intros; lia. }
  eapply mk_bind; [apply mk_xor_inplace; auto; apply split6_ins; auto; apply Forall_firstn_, Forall_skipn_; auto|].
  intros b1 z G1 I1 [H1 L1]. cbn beta in *.
  eapply mk_weak; [apply mk_nots; auto| |].
  - intros b' a [A1 A2]. split; auto. rewrite A2, L1, split6_length; auto.
  - intros v a E1 E2. cbn beta in *. rewrite E1, E2, !split6_map. do 3 f_equal. unfold u, vals.
    rewrite <- firstn_map, <- skipn_map. reflexivity.
Qed.

Lemma mk_compares k t : forall ks b, Inv b -> chars b k -> chars b t -> Forall (fun p => p + length k <= length t) ks ->
  mk b (pm_compares b k t ks)
    (fun b' zs => Forall (Forall (ins b')) zs /\ Forall (fun z => length z = 6 * length k) zs /\ length zs = length ks)
    (fun v zs => map (map (sv v)) zs =
       map (fun p => map negb (zip_with xorb (split6 (vals v k)) (split6 (firstn (length k) (skipn p (vals v t)))))) ks).
Proof.
  induction ks as [|p ks IH]; intros b HI Hk Ht HP.
  - apply mk_ret; auto.
  - inversion HP as [|? ? P1 P2]; subst. cbn [pm_compares]. eapply mk_bind; [apply mk_compare; auto|].
    intros b1 z G1 I1 [H1 L1]. cbn beta in *.
    eapply mk_bind; [apply (IH b1); eauto using chars_mono|]. intros b2 zs G2 I2 (H2 & L2 & N2). cbn beta in *.
    apply mk_ret; auto.
    + split; [constructor; auto; eapply inss_mono; eauto|]. split; [constructor; auto|]. cbn. congruence.
    + intros v E2 E1. cbn [map]. rewrite E1, E2. reflexivity.
Qed.

Lemma and_all l : l <> [] -> combine_all andb l = Some (forallb (fun x => x) l).
Proof.
  destruct l as [|x l]; [congruence|]. intros _. cbn [combine_all forallb]. f_equal. revert x.
  induction l as [|y l IH]; intros x; cbn [fold_left forallb]; [rewrite andb_true_r; auto|]. rewrite IH. destruct x, y; auto.
Qed.
Lemma or_all l : l <> [] -> combine_all orb l = Some (existsb (fun x => x) l).
Proof.
  destruct l as [|x l]; [congruence|]. intros _. cbn [combine_all existsb]. f_equal. revert x.
  induction l as [|y l IH]; intros x; cbn [fold_left existsb]; [rewrite orb_false_r; auto|]. rewrite IH. destruct x, y; auto.
Qed.

Lemma map_nonempty {A B} (f : A -> B) l : l <> [] -> map f l <> [].
Proof. destruct l; [congruence|discriminate]. Qed.

Lemma mk_ands : forall l b, Inv b -> Forall (Forall (ins b)) l -> Forall (fun z => z <> []) l ->
  mk b (pm_ands b l) (fun b' z => Forall (ins b') z /\ length z = length l)
    (fun v z => map (sv v) z = map (fun x => forallb (fun y => y) (map (sv v) x)) l).
Proof.
  induction l as [|x l IH]; intros b HI Hl Hn.
  - apply mk_ret; auto.
  - inversion Hl as [|? ? Hx Hl']; subst. inversion Hn as [|? ? Nx Nl]; subst. cbn [pm_ands].
    eapply mk_bind; [apply (mk_reduce OAnd); auto|]. intros b1 r G1 I1 H1. cbn beta in *.
    eapply mk_bind; [apply (IH b1); eauto using insss_mono|]. intros b2 z G2 I2 [H2 L2]. cbn beta in *.
    apply mk_ret; auto.
    + split; [constructor; auto; eapply ins_mono; eauto|]. cbn. congruence.
    + intros v E2 E1. cbn [map]. cbn [bop_fun] in E1. rewrite and_all in E1 by (apply map_nonempty; auto). injection E1 as E1.
      rewrite E1, E2. reflexivity.
Qed.

Lemma existsb_map_id {A} (f : A -> bool) l : existsb (fun x => x) (map f l) = existsb f l.
Proof. induction l; cbn; congruence. Qed.

Lemma mk_search b k t : Inv b -> chars b k -> chars b t -> k <> [] -> length k <= length t ->
  mk b (pm_search b k t) ins (fun v r => sv v r = bfound (vals v k) (vals v t)).
Proof.
  intros HI Hk Ht Hn HL. unfold pm_search. rewrite (proj2 (Nat.leb_le _ _)) by lia. cbn [oassert obind].
  eapply mk_bind; [apply mk_compares; auto|].
  { apply Forall_forall. intros p Hp. apply in_seq in Hp. lia. }
  intros b1 zs G1 I1 (H1 & L1 & N1). cbn beta in *.
  assert (Hzs : zs <> []) by (destruct zs; [rewrite seq_length in N1; cbn in N1; lia|discriminate]).
  eapply mk_bind; [apply mk_ands; auto|].
  { eapply Forall_impl; [|exact L1]. intros z Hz. destruct z; [destruct k; [congruence|cbn in Hz; lia]|discriminate]. }
  intros b2 z G2 I2 (H2 & L2). cbn beta in *.
  assert (Hz : z <> []) by (destruct z; [destruct zs; [congruence|discriminate]|discriminate]).
  eapply mk_weak; [apply (mk_reduce OOr); auto|auto|].
  intros v r E3 E2 E1. cbn [bop_fun] in E3. rewrite or_all in E3 by (apply map_nonempty; auto). injection E3 as E3.
  rewrite <- E3, E2. rewrite <- (map_map (map (sv v)) (fun x => forallb (fun y => y) x)), E1, map_map, existsb_map_id.
  unfold bfound, vals. rewrite !map_length. rewrite (proj2 (Nat.leb_le _ _)) by lia. unfold at_pos, eq6. rewrite map_length. reflexivity.
Qed.

Definition bchaining (prev new o n : bool) : bool := xorb (andb (xorb prev o) (xorb (xorb new n) o)) o.

Lemma mk_chaining b p f o n : Inv b -> ins b p -> ins b f -> ins b o -> ins b n ->
  mk b (pm_chaining b p f o n) ins (fun v r => sv v r = bchaining (sv v p) (sv v f) (sv v o) (sv v n)).
Proof.
  intros HI Hp Hf Ho Hn. unfold pm_chaining.
  eapply mk_bind; [apply (mk_bin OXor); auto|]. intros b1 x G1 I1 H1. cbn beta in *.
  eapply mk_bind; [apply (mk_bin OXor); eauto using ins_mono|]. intros b2 y G2 I2 H2. cbn beta in *.
  assert (G12 : grows b b2) by (eapply grows_trans; eauto).
  eapply mk_bind; [apply (mk_bin OXor); eauto using ins_mono|]. intros b3 z G3 I3 H3. cbn beta in *.
  assert (G13 : grows b b3) by (eapply grows_trans; eauto). assert (G23 : grows b1 b3) by (eapply grows_trans; eauto).
  eapply mk_bind; [apply (mk_bin OAnd); eauto using ins_mono|]. intros b4 a G4 I4 H4. cbn beta in *.
  assert (G14 : grows b b4) by (eapply grows_trans; eauto).
  eapply mk_weak; [apply (mk_bin OXor); eauto using ins_mono|auto|].
  intros v r E5 E4 E3 E2 E1. cbn [bop_fun] in *. unfold bchaining. rewrite E5, E4, E3, E2, E1. reflexivity.
Qed.

Lemma mk_per_mail b k t : Inv b -> chars b k -> chars b t -> k <> [] ->
  mk b (pm_per_mail b k t) ins (fun v r => sv v r = bfound (vals v k) (vals v t)).
Proof.
  intros HI Hk Ht Hn. unfold pm_per_mail. eapply mk_bind; [apply mk_const; auto|]. intros b1 f G1 I1 H1. cbn beta in *.
  destruct (Nat.leb_spec (length k) (length t)) as [HL|HL].
  - eapply mk_weak; [apply mk_search; eauto using chars_mono|auto|]. auto.
  - apply mk_ret; auto. intros v E. unfold bfound, vals. rewrite !map_length.
    rewrite (proj2 (Nat.leb_gt _ _)) by lia. auto.
Qed.

(** ** The loops *)

Definition bstep (m : list bool) (j : nat) (k : list (list bool)) (t : list (list bool)) (prev : bool) : bool :=
  match j with
  | 0 => xorb (bfound k t) (nth 0 m false)
  | S _ => bchaining prev (bfound k t) (nth (2 * j - 1) m false) (nth (2 * j) m false)
  end.

Lemma nth_error_sv v (m : list secret) i s : nth_error m i = Some s -> nth i (map (sv v) m) false = sv v s.
Proof. intros H. apply nth_error_nth. rewrite nth_error_map, H. reflexivity. Qed.

Lemma nth_error_ins b m i s : Forall (ins b) m -> nth_error m i = Some s -> ins b s.
Proof. intros H E. rewrite Forall_forall in H. apply H. eapply nth_error_In; eauto. Qed.

Definition res_ok (b : builder) (l : list secret) : Prop := Forall (ins b) l.

Lemma mk_inner_first m k : m <> [] -> k <> [] -> forall ts b res, Inv b -> Forall (ins b) m -> chars b k -> Forall (chars b) ts ->
  Forall (ins b) res ->
  mk b (ofold (pm_round m 0 k) (b, res) (combine (seq (length res) (length ts)) ts))
    (fun b' l => Forall (ins b') l /\ length l = length res + length ts)
    (fun v l => map (sv v) l = map (sv v) res ++ map (fun t => bstep (map (sv v) m) 0 (vals v k) (vals v t) false) ts).
Proof.
  intros Hm Hk. induction ts as [|t ts IH]; intros b res HI HM HK HT HR.
  - cbn. apply mk_ret; auto. intros v. rewrite app_nil_r. auto.
  - inversion HT as [|? ? Ht HT']; subst. cbn [length seq combine ofold pm_round].
    destruct m as [|m0 m]; [congruence|]. inversion HM as [|? ? Hm0 _]; subst.
    destruct (mk_per_mail b k t HI HK Ht Hk) as (b1 & r & E1 & G1 & I1 & H1 & V1). rewrite E1. cbn [obind nth_error].
    destruct (mk_bin OXor b1 r m0 I1 H1 (ins_mono _ _ _ G1 Hm0)) as (b2 & x & E2 & G2 & I2 & H2 & V2).
    cbn [do_bin] in E2. rewrite E2. cbn [obind]. assert (G12 : grows b b2) by (eapply grows_trans; eauto).
    specialize (IH b2 (res ++ [x]) I2 (inss_mono _ _ _ G12 HM) (chars_mono _ _ _ G12 HK)).
    rewrite app_length in IH. cbn [length] in IH. rewrite Nat.add_1_r in IH.
    destruct IH as (b3 & l & E3 & G3 & I3 & (H3 & L3) & V3).
    { eapply Forall_impl; [|exact HT']. intros ? ?. eapply chars_mono; eauto. }
    { apply Forall_app. split; [eapply inss_mono; eauto|auto]. }
    exists b3, l. split; [exact E3|]. split; [eapply grows_trans; eauto|]. split; auto. split; [split; auto; lia|].
    intros v Hv. rewrite (V3 v Hv). assert (Hv2 := gr_restrict _ _ G3 v Hv). assert (Hv1 := gr_restrict _ _ G2 v Hv2).
    rewrite map_app, <- app_assoc. cbn [map app]. rewrite (V2 v Hv2), (V1 v Hv1). reflexivity.
Qed.

Lemma upd_app_here {A} (l : list A) x r y : upd (length l) y (l ++ x :: r) = l ++ y :: r.
Proof. induction l as [|a l IH]; cbn; [reflexivity|]. f_equal. exact IH. Qed.

Lemma mk_inner_next m k j o n : nth_error m (2 * S j - 1) = Some o -> nth_error m (2 * S j) = Some n -> k <> [] ->
  forall ts b done todo, Inv b -> Forall (ins b) m -> chars b k -> Forall (chars b) ts ->
  Forall (ins b) done -> Forall (ins b) todo -> length todo = length ts ->
  mk b (ofold (pm_round m (S j) k) (b, done ++ todo) (combine (seq (length done) (length ts)) ts))
    (fun b' l => Forall (ins b') l /\ length l = length done + length ts)
    (fun v l => map (sv v) l = map (sv v) done ++
       zip_with (fun p t => bstep (map (sv v) m) (S j) (vals v k) (vals v t) p) (map (sv v) todo) ts).
Proof.
  intros Ho Hn Hk. induction ts as [|t ts IH]; intros b done todo HI HM HK HT HD HR HL.
  - destruct todo; [|discriminate]. cbn. apply mk_ret; auto; [split; [apply Forall_app; auto|rewrite app_length; auto]|].
    intros v. rewrite map_app. auto.
  - destruct todo as [|p todo]; [discriminate|]. injection HL as HL. inversion HT as [|? ? Ht HT']; subst.
    inversion HR as [|? ? Hp HR']; subst. cbn [length seq combine ofold pm_round].
    destruct (mk_per_mail b k t HI HK Ht Hk) as (b1 & r & E1 & G1 & I1 & H1 & V1). rewrite E1. cbn [obind].
    rewrite nth_error_app2 by lia. rewrite Nat.sub_diag. cbn [nth_error obind]. rewrite Ho. cbn [obind]. rewrite Hn. cbn [obind].
    assert (Io := nth_error_ins _ _ _ _ HM Ho). assert (In_ := nth_error_ins _ _ _ _ HM Hn).
    destruct (mk_chaining b1 p r o n I1 (ins_mono _ _ _ G1 Hp) H1 (ins_mono _ _ _ G1 Io) (ins_mono _ _ _ G1 In_))
      as (b2 & x & E2 & G2 & I2 & H2 & V2).
    rewrite E2. cbn [obind]. assert (G12 : grows b b2) by (eapply grows_trans; eauto).
    rewrite upd_app_here. replace (done ++ x :: todo) with ((done ++ [x]) ++ todo) by (rewrite <- app_assoc; reflexivity).
    specialize (IH b2 (done ++ [x]) todo I2 (inss_mono _ _ _ G12 HM) (chars_mono _ _ _ G12 HK)).
    rewrite app_length in IH. cbn [length] in IH. rewrite Nat.add_1_r in IH.
    destruct IH as (b3 & l & E3 & G3 & I3 & (H3 & L3) & V3); auto.
    { eapply Forall_impl; [|exact HT']. intros ? ?. eapply chars_mono; eauto. }
    { apply Forall_app. split; [eapply inss_mono; eauto|auto]. }
    { eapply inss_mono; eauto. }
    exists b3, l. split; [exact E3|]. split; [eapply grows_trans; eauto|]. split; auto. split; [split; auto; lia|].
    intros v Hv. rewrite (V3 v Hv). assert (Hv2 := gr_restrict _ _ G3 v Hv). assert (Hv1 := gr_restrict _ _ G2 v Hv2).
    rewrite map_app, <- app_assoc. cbn [map app zip_with]. rewrite (V2 v Hv2), (V1 v Hv1). unfold bstep.
    rewrite (nth_error_sv v m _ o Ho), (nth_error_sv v m _ n Hn). reflexivity.
Qed.

Definition bchain (m : list bool) (jks : list (nat * list (list bool))) (t : list (list bool)) (init : bool) : bool :=
  fold_left (fun prev jk => bstep m (fst jk) (snd jk) t prev) jks init.

Lemma mk_outer_next m : forall ks j ts b res, Inv b -> Forall (ins b) m -> Forall (chars b) ks -> Forall (fun k => k <> []) ks ->
  2 * (S j + length ks) - 1 <= length m ->
  Forall (chars b) ts -> Forall (ins b) res -> length res = length ts ->
  mk b (ofold (fun st (jk : nat * list pm_char) => ofold (pm_round m (fst jk) (snd jk)) st (enumerate ts)) (b, res)
          (combine (seq (S j) (length ks)) ks))
    (fun b' l => Forall (ins b') l /\ length l = length ts)
    (fun v l => map (sv v) l =
       zip_with (fun p t => bchain (map (sv v) m) (combine (seq (S j) (length ks)) (map (vals v) ks)) (vals v t) p) (map (sv v) res) ts).
Proof.
  induction ks as [|k ks IH]; intros j ts b res HI HM HK HN HL HT HR EL.
  - cbn. apply mk_ret; auto. intros v. clear -EL. revert ts EL. induction res as [|r res IH]; intros [|t ts] EL; try discriminate; auto.
    cbn. f_equal. apply IH. auto.
  - inversion HK as [|? ? Hk HK']; subst. inversion HN as [|? ? Nk HN']; subst. cbn [length seq combine ofold fst snd].
    cbn [length] in HL.
    destruct (nth_error m (2 * S j - 1)) as [o|] eqn:Eo; [|apply nth_error_None in Eo; lia].
    destruct (nth_error m (2 * S j)) as [n|] eqn:En; [|apply nth_error_None in En; lia].
    destruct (mk_inner_next m k j o n Eo En Nk ts b [] res) as (b1 & l1 & E1 & G1 & I1 & (H1 & L1) & V1); auto.
    unfold enumerate at 1. cbn [app length] in E1, L1. cbn [Nat.add] in L1. rewrite E1. cbn [obind].
    destruct (IH (S j) ts b1 l1) as (b2 & l & E2 & G2 & I2 & (H2 & L2) & V2); auto.
    { eapply inss_mono; eauto. }
    { eapply Forall_impl; [|exact HK']. intros ? ?. eapply chars_mono; eauto. }
    { lia. }
    { eapply Forall_impl; [|exact HT]. intros ? ?. eapply chars_mono; eauto. }
    exists b2, l. split; [exact E2|]. split; [eapply grows_trans; eauto|]. split; auto. split; auto.
    intros v Hv. rewrite (V2 v Hv), (V1 v (gr_restrict _ _ G2 v Hv)). cbn [map app].
    clear -EL. revert ts EL. generalize (map (sv v) m) as M. induction res as [|r res IH]; intros M [|t ts] EL; try discriminate; auto.
    cbn [map zip_with]. f_equal. apply IH. auto.
Qed.

Lemma mk_loops m ks ts b : Inv b -> Forall (ins b) m -> ks <> [] -> Forall (chars b) ks -> Forall (fun k => k <> []) ks ->
  2 * length ks - 1 <= length m -> Forall (chars b) ts ->
  mk b (pm_loops m ks ts b) (fun b' l => Forall (ins b') l /\ length l = length ts)
    (fun v l => map (sv v) l = map (fun t => bchain (map (sv v) m) (enumerate (map (vals v) ks)) (vals v t) false) ts).
Proof.
  intros HI HM HK0 HK HN HL HT. destruct ks as [|k ks]; [congruence|]. cbn [length] in HL.
  assert (Hm : m <> []) by (destruct m; [cbn in HL; lia|discriminate]).
  inversion HK as [|? ? Hk HK']; subst. inversion HN as [|? ? Nk HN']; subst.
  unfold pm_loops. unfold enumerate at 2. cbn [length seq combine ofold fst snd].
  destruct (mk_inner_first m k Hm Nk ts b [] HI HM Hk HT (Forall_nil _)) as (b1 & l1 & E1 & G1 & I1 & (H1 & L1) & V1).
  unfold enumerate at 1. cbn [app length] in E1, L1. cbn [Nat.add] in L1. rewrite E1. cbn [obind].
  destruct (mk_outer_next m ks 0 ts b1 l1) as (b2 & l & E2 & G2 & I2 & (H2 & L2) & V2); auto.
  { eapply inss_mono; eauto. }
  { eapply Forall_impl; [|exact HK']. intros ? ?. eapply chars_mono; eauto. }
  { eapply Forall_impl; [|exact HT]. intros ? ?. eapply chars_mono; eauto. }
  exists b2, l. split; [exact E2|]. split; [eapply grows_trans; eauto|]. split; auto. split; auto.
  intros v Hv. rewrite (V2 v Hv), (V1 v (gr_restrict _ _ G2 v Hv)). cbn [map app].
  unfold enumerate. cbn [length seq combine map]. rewrite map_length. unfold bchain. cbn [fold_left fst snd].
  clear. generalize (map (sv v) m) as M. induction ts as [|t ts IH]; intros M; auto. cbn [map zip_with]. f_equal. apply IH.
Qed.
