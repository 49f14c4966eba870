(** C30, C31, C32, C33: oblivious transfer. *)
From Coq Require Import List Bool Arith Permutation Lia ZArith.
Require Import Verif.Prelude Verif.PreludeProofs Verif.BitVecModel Verif.BitVecSpec Verif.BitVecProofs
  Verif.OtModel Verif.OtSpec Verif.OtProofs.
Import ListNotations.
Open Scope nat_scope.

(** ** C33 *)

(** An honest run: the parties exchange exactly the three messages and the receiver's
    i-th key is the sender's i-th pair at the i-th choice; for every group with the
    laws of [group_laws], all scalars, hash functions and numbers of OTs. *)
Theorem C33_keys {G S C B K} (o : group_ops G S) (rom : B -> C) ceqb (romp : G -> nat -> B -> K) choices a seed bs :
  group_laws o -> (forall c, ceqb c c = true) -> length bs = length choices ->
  exists first second third pairs keys,
    base_send o rom romp (length choices) a seed [second] = ([first; third], ROk pairs) /\
    base_receive o rom ceqb romp choices bs [first; third] = ([second], ROk keys) /\
    ot_correct choices pairs keys.
Proof.
  intros Hg Hceq HL.
  set (A := g_mul o a (g_base o)).
  set (Bs := zip_with (fun (c : bool) b => let B0 := g_mul o b (g_base o) in if c then g_add o A B0 else B0) choices bs).
  assert (HBs : length Bs = length choices) by (unfold Bs; rewrite zip_with_length; lia).
  exists (BFirst A (rom seed)), (BSecond Bs), (BThird seed). do 2 eexists.
  cbn [base_send base_receive]. rewrite HBs, Nat.eqb_refl, Hceq. cbn [negb]. split; [reflexivity|]. split; [reflexivity|].
  split; [rewrite map_length, combine_length, seq_length, HBs; lia|].
  pose proof (base_keys o romp a seed choices Hg bs 0 HL) as E. cbn zeta in E. fold A in E. fold Bs in E. rewrite HBs in E. exact E.
Qed.

(** The receiver only returns keys when it got a first message and an opening of its
    commitment; everything else is an error. *)
Theorem C33_receiver_rejects {G S C B K} (o : group_ops G S) (rom : B -> C) ceqb (romp : G -> nat -> B -> K) choices bs evs sent r :
  base_receive o rom ceqb romp choices bs evs = (sent, r) ->
  r <> RPanic /\
  (r <> RErr -> exists A comm seed rest, evs = BFirst A comm :: BThird seed :: rest /\ ceqb comm (rom seed) = true).
Proof.
  unfold base_receive. intros E.
  destruct evs as [|[A comm| |seed|] evs]; try (injection E as <- <-; split; [discriminate|congruence]).
  destruct evs as [|[|p|seed|] evs]; try (injection E as <- <-; split; [discriminate|congruence]).
  destruct (ceqb comm (rom seed)) eqn:Ec; cbn [negb] in E; injection E as <- <-; split; try discriminate; try congruence.
  intros _. exists A, comm, seed, evs. auto.
Qed.

(** The sender only returns keys for exactly the requested number of points. *)
Theorem C33_sender_rejects {G S C B K} (o : group_ops G S) (rom : B -> C) (romp : G -> nat -> B -> K) count a seed evs sent r :
  base_send o rom romp count a seed evs = (sent, r) ->
  r <> RPanic /\
  (r <> RErr -> exists points rest pairs, evs = BSecond points :: rest /\ length points = count /\ r = ROk pairs /\ length pairs = count).
Proof.
  unfold base_send. intros E. destruct evs as [|[|points| |] evs]; try (injection E as <- <-; split; [discriminate|congruence]).
  destruct (Nat.eqb_spec count (length points)) as [Ec|Ec]; cbn [negb] in E; injection E as <- <-; split; try discriminate; try congruence.
  intros _. exists points, evs. eexists. split; auto. split; auto. split; [reflexivity|].
  rewrite map_length, combine_length, seq_length. lia.
Qed.

(** The opening is only sent after the points have arrived. *)
Theorem C33_opening_last {G S C B K} (o : group_ops G S) (rom : B -> C) (romp : G -> nat -> B -> K) count a seed evs sent r :
  base_send o rom romp count a seed evs = (sent, r) -> In (BThird seed) sent ->
  exists points rest, evs = BSecond points :: rest.
Proof.
  unfold base_send. intros E Hin. destruct evs as [|[|points| |] evs]; try (injection E as <- <-; destruct Hin as [Hin|[]]; discriminate).
  exists points, evs. auto.
Qed.

(** The integers with base point 1. *)
Definition z_group : group_ops Z Z := GroupOps Z Z 1%Z Z.add Z.sub Z.mul.
Lemma z_group_laws : group_laws z_group.
Proof. split; intros; cbn [g_mul g_base g_add g_sub z_group]; lia. Qed.

Example C33_case :
  let romp := fun (p : Z) (i : nat) (s : Z) => (p * 100 + Z.of_nat i * 10 + s)%Z in
  base_send z_group (fun s : Z => (s + 1)%Z) romp 3 7%Z 4%Z [BSecond [2; 7 + 3; 5]%Z]
    = ([BFirst 7 5; BThird 4]%Z,
       ROk [(1404, 1404 - 4900); (7014, 2114); (3524, 3524 - 4900)]%Z) /\
  base_receive z_group (fun s : Z => (s + 1)%Z) Z.eqb romp [false; true; false] [2; 3; 5]%Z [BFirst 7 5; BThird 4]%Z
    = ([BSecond [2; 7 + 3; 5]]%Z, ROk [1404; 2114; 3524]%Z) /\
  base_receive z_group (fun s : Z => (s + 1)%Z) Z.eqb romp [false; true; false] [2; 3; 5]%Z [BFirst 7 5; BThird 3]%Z
    = ([BSecond [2; 7 + 3; 5]]%Z, RErr).
Proof. vm_compute. auto. Qed.

(** ** C30 *)

(** One extension: for every number of OTs divisible by 8, all choices (a bit vector
    starting at a word boundary), all base OT states, generators and hash functions,
    and every arrival order of the receiver's rows. *)
Theorem C30_extension {R} k W (fill : R -> nat -> list bool * R) H ss rs choices order rest :
  0 < k -> 0 < W -> fills fill -> base_ok k ss rs ->
  bv_wf W choices -> bv_head choices = 0 -> bv_len choices mod 8 = 0 ->
  Permutation order (seq 0 k) ->
  exists sots routs msgs ss' rs',
    ext_receive W fill H rs choices = (ROk routs, msgs, rs') /\
    ext_send k fill H ss (bv_len choices) (deliver order msgs ++ rest) = (ROk sots, ss') /\
    ot_correct (bv_bits choices) sots routs /\ base_ok k ss' rs'.
Proof. intros Hk HW Hf. apply ext_correct; auto. Qed.

(** Several extensions one after the other on the same base OTs. *)
Theorem C30_history {R} k W (fill : R -> nat -> list bool * R) H ss rs rounds :
  0 < k -> 0 < W -> fills fill -> base_ok k ss rs ->
  Forall (fun r => bv_wf W (fst r) /\ bv_head (fst r) = 0 /\ bv_len (fst r) mod 8 = 0 /\ Permutation (snd r) (seq 0 k)) rounds ->
  Forall2 (fun r o => exists sots routs, o = (ROk sots, ROk routs) /\ ot_correct (bv_bits (fst r)) sots routs)
    rounds (ext_rounds k W fill H ss rs rounds).
Proof. intros Hk HW Hf. apply ext_rounds_ok; auto. Qed.

(** The base OTs of C33 give such a state ([AesRng::from_seed] of every key). *)
Theorem C30_base_state {K R} (from_seed : K -> R) k choices pairs keys :
  length choices = k -> ot_correct choices pairs keys ->
  base_ok k (Ots (map from_seed keys) choices)
            (Otr (map (fun p => (from_seed (fst p), from_seed (snd p))) pairs)).
Proof.
  intros Hk (HL & ->). split; [cbn [or_rngs]; rewrite map_length; lia|]. split; [cbn [or_rngs os_choices]; rewrite map_length; auto|].
  cbn [os_rngs os_choices or_rngs]. clear Hk. revert pairs HL. induction choices as [|c cs IH]; intros [|p ps] HL; simpl in HL; try lia; auto.
  cbn [zip_with map]. f_equal; [destruct c; auto|]. apply IH. lia.
Qed.

(** A choice slice that does not start at a word boundary gives wrong outputs:
    [to_bitvec] keeps the offset and the raw bytes are used. *)
Theorem C30_offset_refuted : exists (k W : nat) (fill : nat -> nat -> list bool * nat) H ss rs choices order,
  fills fill /\ base_ok k ss rs /\ bv_wf W choices /\ bv_len choices mod 8 = 0 /\ Permutation order (seq 0 k) /\
  exists sots routs msgs ss' rs',
    ext_receive W fill H rs choices = (ROk routs, msgs, rs') /\
    ext_send k fill H ss (bv_len choices) (deliver order msgs) = (ROk sots, ss') /\
    ~ ot_correct (bv_bits choices) sots routs.
Proof.
  exists 1, 8, (fun r n => (repeat (Nat.odd r) n, r)), (fun x => x), (Ots [1] [true]), (Otr [(0, 1)]),
    (bv_copy 8 1 [true; true; true; true; true; true; true; true]), [0].
  split; [intros r n; apply repeat_length|].
  split; [split; [auto|split; auto]|].
  split; [split; [simpl; lia|reflexivity]|].
  split; [reflexivity|]. split; [apply Permutation_refl|].
  do 5 eexists. split; [vm_compute; reflexivity|]. split; [vm_compute; reflexivity|].
  intros (_ & E). vm_compute in E. discriminate.
Qed.

(** ** C31 *)

(** Whatever strict prefix of the rows arrives before the channel is closed, the
    sender does not report an error: the claim fails at every crash point. *)
Theorem C31_never_reported {R} k (fill : R -> nat -> list bool * R) H ss count rows :
  count mod 8 = 0 -> length (os_rngs ss) = k -> length (os_choices ss) = k ->
  length rows < k -> Forall (fun iu => fst iu < k) rows ->
  exists sots ss', ext_send k fill H ss count (map (fun iu => EvRow (fst iu) (snd iu)) rows) = (ROk sots, ss').
Proof.
  intros H8 Hr Hc Hl HF. unfold ext_send. rewrite H8. cbn [Nat.eqb negb].
  set (m := map fst (map (fun r => fill r count) (os_rngs ss))). assert (Hm : length m = k) by (unfold m; rewrite !map_length; auto).
  assert (E : forall l mm got, length mm = k -> got + length l < k -> Forall (fun iu => fst iu < k) l ->
     exists v, recv_rows k (os_choices ss) mm got (map (fun iu => EvRow (fst iu) (snd iu)) l) = ROk v).
  { induction l as [|[i u] l IH]; intros mm got Hmm Hg Hl'; [exists mm; auto|]. cbn [map recv_rows fst snd].
    pose proof (Forall_inv Hl') as Hi. pose proof (Forall_inv_tail Hl') as Hl''. cbn [fst] in Hi.
    rewrite (nth_error_nth' (os_choices ss) false), (nth_error_nth' mm []) by lia. cbn [length] in Hg.
    destruct (Nat.eqb_spec (S got) k); [lia|]. apply IH; auto; [rewrite upd_length; auto|lia]. }
  destruct (E rows m 0 Hm) as [v Ev]; [lia|auto|]. rewrite Ev. do 2 eexists. reflexivity.
Qed.

(** And the outputs are then not those of the receiver. *)
Theorem C31_refuted : exists (k W : nat) (fill : nat -> nat -> list bool * nat) H ss rs choices,
  fills fill /\ base_ok k ss rs /\ bv_wf W choices /\ bv_head choices = 0 /\ bv_len choices mod 8 = 0 /\
  exists sots routs msgs ss' rs',
    ext_receive W fill H rs choices = (ROk routs, msgs, rs') /\
    ext_send k fill H ss (bv_len choices) (deliver [1] msgs) = (ROk sots, ss') /\
    ~ ot_correct (bv_bits choices) sots routs.
Proof.
  exists 2, 8, (fun r n => (repeat (Nat.odd r) n, r)), (fun x => x), (Ots [1; 2] [true; false]), (Otr [(0, 1); (2, 3)]),
    (bv_of_bits 8 [true; false; true; false; true; true; true; true]).
  split; [intros r n; apply repeat_length|].
  split; [split; [auto|split; auto]|].
  split; [split; [simpl; lia|reflexivity]|].
  split; [reflexivity|]. split; [reflexivity|].
  do 5 eexists. split; [vm_compute; reflexivity|]. split; [vm_compute; reflexivity|].
  intros (_ & E). vm_compute in E. discriminate.
Qed.

(** Partial: a receive error or a message that is not a row, before all rows arrived,
    is reported.  Missing: the closed channel (refuted above). *)
Theorem C31_errors_partial {R} k (fill : R -> nat -> list bool * R) H ss count rows ev rest :
  count mod 8 = 0 -> length (os_rngs ss) = k -> length (os_choices ss) = k ->
  length rows < k -> Forall (fun iu => fst iu < k) rows -> (ev = EvOther \/ ev = EvRecvErr) ->
  exists ss', ext_send k fill H ss count (map (fun iu => EvRow (fst iu) (snd iu)) rows ++ ev :: rest) = (RErr, ss').
Proof.
  intros H8 Hr Hc Hl HF Hev. unfold ext_send. rewrite H8. cbn [Nat.eqb negb].
  set (m := map fst (map (fun r => fill r count) (os_rngs ss))). assert (Hm : length m = k) by (unfold m; rewrite !map_length; auto).
  assert (E : forall l mm got, length mm = k -> got + length l < k -> Forall (fun iu => fst iu < k) l ->
     recv_rows k (os_choices ss) mm got (map (fun iu => EvRow (fst iu) (snd iu)) l ++ ev :: rest) = RErr).
  { induction l as [|[i u] l IH]; intros mm got Hmm Hg Hl'; [destruct Hev; subst; auto|]. cbn [map app recv_rows fst snd].
    pose proof (Forall_inv Hl') as Hi. pose proof (Forall_inv_tail Hl') as Hl''. cbn [fst] in Hi.
    rewrite (nth_error_nth' (os_choices ss) false), (nth_error_nth' mm []) by lia. cbn [length] in Hg.
    destruct (Nat.eqb_spec (S got) k); [lia|]. apply IH; auto; [rewrite upd_length; auto|lia]. }
  rewrite (E rows m 0 Hm) by (auto; lia). eexists. reflexivity.
Qed.

(** ** C32 *)

(** Correlated OT on top of any correct random OT: the sender holds [x], the receiver
    holds [x] or [f i x]; for every correlation function and width. *)
Theorem C32_correlated L k f choices ots routs : 0 < L -> L <= k ->
  ot_correct choices ots routs ->
  Forall (fun o => length (fst o) = k /\ length (snd o) = k) ots ->
  (forall i x, length x = L -> length (f i x) = L) ->
  let '(xs, m) := corr_send L f ots in
  length xs = length choices /\
  corr_receive L choices routs (CvCorrelated m) =
  ROk (map (fun ix => let '(i, x) := ix in if nth i choices false then f i x else x)
           (combine (seq 0 (length xs)) xs)).
Proof. apply corr_correct. Qed.

(** Together with the extension protocol. *)
Theorem C32_extension {R} k W L (fill : R -> nat -> list bool * R) H f ss rs choices order rest :
  0 < k -> 0 < W -> 0 < L -> L <= k -> fills fill -> base_ok k ss rs ->
  (forall x, length x = k -> length (H x) = k) ->
  (forall i x, length x = L -> length (f i x) = L) ->
  bv_wf W choices -> bv_head choices = 0 -> bv_len choices mod 8 = 0 ->
  Permutation order (seq 0 k) ->
  exists sots routs msgs ss' rs',
    ext_receive W fill H rs choices = (ROk routs, msgs, rs') /\
    ext_send k fill H ss (bv_len choices) (deliver order msgs ++ rest) = (ROk sots, ss') /\
    base_ok k ss' rs' /\
    let '(xs, m) := corr_send L f sots in
    length xs = bv_len choices /\ 
    corr_receive L (bv_bits choices) routs (CvCorrelated m) =
    ROk (map (fun ix => let '(i, x) := ix in if nth i (bv_bits choices) false then f i x else x)
             (combine (seq 0 (length xs)) xs)).
Proof.
  intros Hk HW HL HLk Hf Hb HH Hfl Hwf Hh H8 HP.
  destruct (ext_correct k W fill H Hk HW Hf ss rs choices order rest Hb Hwf Hh H8 HP) as (sots & routs & msgs & ss' & rs' & E1 & E2 & Hok & Hb').
  exists sots, routs, msgs, ss', rs'. split; auto. split; auto. split; auto.
  assert (HF : Forall (fun o => length (fst o) = k /\ length (snd o) = k) sots).
  { unfold ext_send in E2. rewrite H8 in E2. cbn [Nat.eqb negb] in E2.
    destruct (recv_rows _ _ _ _ _) as [v| |] eqn:Ev; try discriminate. injection E2 as <- _.
    destruct Hb as (Hl1 & Hl2 & Hl3).
    assert (Hv : length v = k).
    { assert (Hm0 : length (map fst (map (fun r => fill r (bv_len choices)) (os_rngs ss))) = k).
      { rewrite !map_length, Hl3, zip_with_length. lia. }
      revert Ev Hm0. generalize (map fst (map (fun r => fill r (bv_len choices)) (os_rngs ss))) as m.
      generalize 0 as got. generalize (deliver order msgs ++ rest) as evs.
      induction evs as [|[i u| |] evs IH]; intros got m Ev Hm; cbn [recv_rows] in Ev; try discriminate; [injection Ev as <-; auto|].
      destruct (nth_error (os_choices ss) i); [|discriminate]. destruct (nth_error m i); [|discriminate].
      destruct (S got =? k); [injection Ev as <-; rewrite upd_length; auto|]. eapply IH; eauto. rewrite upd_length. auto. }
    apply Forall_forall. intros o Ho. apply in_map_iff in Ho. destruct Ho as (q & <- & Hq). cbn [fst snd].
    unfold columns in Hq. apply in_map_iff in Hq. destruct Hq as (j & <- & _).
    split; apply HH; [rewrite map_length; auto|rewrite zip_with_length, map_length; lia]. }
  pose proof (corr_correct L k f (bv_bits choices) sots routs HL HLk Hok HF Hfl) as Hc.
  destruct (corr_send L f sots) as [xs m]. rewrite (bv_bits_length W) in Hc by auto. exact Hc.
Qed.

(** Anything but the correlation message is an error. *)
Theorem C32_no_message L choices routs ev : (forall m, ev <> CvCorrelated m) -> corr_receive L choices routs ev = RErr.
Proof. destruct ev as [m| |]; intros Hn; auto. exfalso. apply (Hn m). auto. Qed.

(** 128 base OTs, two extensions of 8 and 16 OTs, rows in reverse order. *)
Definition ex_fill (r n : nat) : list bool * nat := (map (fun i => Nat.odd ((r * r + i * r + i * i / 3) / 3)) (seq 0 n), S r).
Definition ex_choices : list bool := map (fun i => Nat.odd (i / 3)) (seq 0 128).
Definition ex_rs : otr_state nat := Otr (map (fun i => (i, i + 200)) (seq 0 128)).
Definition ex_ss : ots_state nat := Ots (zip_with chosen ex_choices (or_rngs ex_rs)) ex_choices.
Definition ex_rounds : list (bitvec * list nat) :=
  [(bv_of_bits 64 [true; false; false; true; true; false; true; false], rev (seq 0 128));
   (bv_of_bits 64 (map Nat.odd (seq 3 16)), seq 0 128)].

Example C30_case :
  base_ok 128 ex_ss ex_rs /\ fills ex_fill /\
  Forall (fun r => bv_wf 64 (fst r) /\ bv_head (fst r) = 0 /\ bv_len (fst r) mod 8 = 0 /\ Permutation (snd r) (seq 0 128)) ex_rounds /\
  map (fun o => match fst o, snd o with ROk s, ROk r => (length s, length r) | _, _ => (0, 0) end)
      (ext_rounds 128 64 ex_fill (fun x => x) ex_ss ex_rs ex_rounds) = [(8, 8); (16, 16)].
Proof.
  split; [split; [reflexivity|split; reflexivity]|]. split; [intros r n; unfold ex_fill; cbn [fst]; rewrite map_length, seq_length; auto|].
  split; [|vm_compute; reflexivity].
  repeat constructor; cbn [fst snd]; try reflexivity; try (simpl; lia).
  symmetry. apply Permutation_rev.
Qed.

Example C32_case :
  let f := fun (i : nat) (x : list bool) => map negb x in
  corr_send 2 f [([true; false; true], [false; false; true]); ([true; true; false], [false; true; true])]
    = ([[true; false]; [true; true]], [false; true; false; true]) /\
  corr_receive 2 [true; false] [[false; false; true]; [true; true; false]] (CvCorrelated [false; true; false; true])
    = ROk [[false; true]; [true; true]].
Proof. vm_compute. auto. Qed.

Print Assumptions C33_keys.
Print Assumptions C33_receiver_rejects.
Print Assumptions C33_sender_rejects.
Print Assumptions C33_opening_last.
Print Assumptions C30_extension.
Print Assumptions C30_history.
Print Assumptions C30_base_state.
Print Assumptions C30_offset_refuted.
Print Assumptions C31_never_reported.
Print Assumptions C31_refuted.
Print Assumptions C31_errors_partial.
Print Assumptions C32_correlated.
Print Assumptions C32_extension.
Print Assumptions C32_no_message.
