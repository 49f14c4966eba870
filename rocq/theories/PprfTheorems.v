(** C34, C35: the puncturable PRF and the gap positions of silent OT. *)
From Coq Require Import ZArith List Bool Arith NArith Lia Permutation.
Require Import Verif.Prelude Verif.PreludeProofs Verif.ZapUtilModel Verif.ZapUtilTheorems Verif.PprfModel Verif.PprfSpec Verif.PprfProofs Verif.PprfProofs2.
Import ListNotations.
Open Scope nat_scope.

(** ** C34 *)

Lemma sizes_widths c f : sizes_ok c f ->
  2 <= pc_depth c /\ (forall d, d + 1 < pc_depth c -> level_width c f d = 2 ^ (d + 1)) /\
  (level_width c f (pc_depth c - 1) mod 2 = 0 /\ level_width c f (pc_depth c - 1) <= 2 ^ pc_depth c).
Proof.
  intros (_ & Hd & Hf). destruct f; cbn [level_width].
  - split; [lia|]. split; auto. replace (pc_depth c - 1 + 1) with (pc_depth c) by lia. split; [|lia].
    replace (pc_depth c) with (S (pc_depth c - 1)) by lia. cbn [Nat.pow]. rewrite Nat.mul_comm. apply Nat.mod_mul. lia.
  - split; [lia|]. replace (pc_depth c - 1 + 1) with (pc_depth c) by lia. rewrite Nat.eqb_refl. split; [|split; [apply Hf|lia]].
    intros d Hlt. replace (d + 1 =? pc_depth c) with false by (symmetry; apply Nat.eqb_neq; lia). auto.
Qed.

(** The receiver's point is the leaf whose digits are the negated choices. *)
Theorem C34_point choices : active_path choices = punctured choices.
Proof. apply active_path_ok. Qed.
Print Assumptions C34_point.

(** One tree: for every pair of one-way functions, hash, value, seed, base OTs, choices
    and sizes the leaves agree except at the point, where they differ by the value. *)
Theorem C34_tree : forall enc H c f value root sots choices rots,
  sizes_ok c f -> length choices = pc_depth c -> ots_match sots choices rots ->
  (f = Interleaved -> punctured choices < pc_domain c) ->
  exists m leaves, send_tree enc H c f value root sots = Some (m, leaves) /\
    exists leaves', recv_tree enc H c f choices rots m = Some leaves' /\
      differ_at (punctured choices) value leaves leaves'.
Proof.
  intros enc H c f value root sots choices rots Hsz Lc (Ls & Er) Hp. destruct (sizes_widths c f Hsz) as (W1 & W2 & W3).
  destruct (tree_ok enc H c f W1 W2 W3 choices sots Lc ltac:(lia) value root) as (m & leaves & E1 & L1 & leaves' & E2 & D).
  { rewrite active_path_ok. destruct f; cbn [level_width]; replace (pc_depth c - 1 + 1) with (pc_depth c) by lia.
    - rewrite <- Lc. apply punctured_lt.
    - rewrite Nat.eqb_refl. auto. }
  exists m, leaves. split; auto. exists leaves'. subst rots. rewrite <- active_path_ok. auto.
Qed.
Print Assumptions C34_tree.

(** All trees: for every order in which the sender's threads process the groups and every
    order in which the messages are taken, the outputs have the dimensions of the format
    and differ by the value exactly at
    the points the receiver reports. *)
Theorem C34_expand : forall enc H c f umax value roots sots choices rots order,
  sizes_ok c f ->
  length roots = pc_count c -> length sots = pc_count c -> length choices = pc_count c -> length rots = pc_count c ->
  (forall t, t < pc_count c ->
     length (nth t choices []) = pc_depth c /\ ots_match (nth t sots []) (nth t choices []) (nth t rots []) /\
     (f = Interleaved -> punctured (nth t choices []) < pc_domain c)) ->
  Permutation order (seq 0 (pc_count c / 8)) ->
  exists ms outS, sender_expand enc H c f value roots sots order = Some (ms, outS) /\ shape c f outS /\
    forall ms', Permutation ms ms' ->
    exists outR, receiver_expand enc H c f choices rots ms' = Some outR /\ shape c f outR /\
    forall p r, p < out_positions (pc_count c) (pc_domain c) f -> r < 128 ->
      xorb (out_bit outS p r) (out_bit outR p r)
      = existsb (Nat.eqb p) (recv_points umax c f choices) && N.testbit value (N.of_nat r).
Proof.
  intros enc H c f umax value roots sots choices rots order Hsz Lr Ls Lc Lro Ht Hord.
  destruct (sizes_widths c f Hsz) as (W1 & W2 & W3).
  pose (P := fun t (x : tree_msg * list N * list N) =>
    send_tree enc H c f value (nth t roots 0%N) (nth t sots []) = Some (fst x) /\
    recv_tree enc H c f (nth t choices []) (nth t rots []) (fst (fst x)) = Some (snd x) /\
    length (snd (fst x)) = leaf_len c f /\ differ_at (punctured (nth t choices [])) value (snd (fst x)) (snd x)).
  destruct (choose_list (TreeMsg [] ((0, 0), (0, 0)), [], [])%N (pc_count c) P) as [g Hg].
  { intros t Hlt. destruct (Ht t Hlt) as (Lt & (L2 & E2) & Hp).
    destruct (tree_ok enc H c f W1 W2 W3 (nth t choices []) (nth t sots []) Lt ltac:(lia) value (nth t roots 0%N))
      as (m & leaves & E1 & L1 & leaves' & E3 & D).
    { rewrite active_path_ok. destruct f; cbn [level_width]; replace (pc_depth c - 1 + 1) with (pc_depth c) by lia.
      - rewrite <- Lt. apply punctured_lt.
      - rewrite Nat.eqb_refl. auto. }
    exists (m, leaves, leaves'). unfold P. cbn [fst snd]. rewrite E2. rewrite <- active_path_ok. auto. }
  destruct (expand_ok enc H c f value roots sots choices rots (fun t => fst (fst (g t))) (fun t => snd (fst (g t))) (fun t => snd (g t))
              Hsz Lr Ls Lc Lro) with (order := order) as (ms & outS & ES & SS & HR); auto.
  { intros t Hlt. destruct (Hg t Hlt) as (A & _). rewrite A. destruct (g t) as [[? ?] ?]. auto. }
  { intros t Hlt. apply (Hg t Hlt). }
  { intros t Hlt. apply (Hg t Hlt). }
  { intros t Hlt. destruct (Hg t Hlt) as (_ & _ & A & (B & _)). rewrite <- B. auto. }
  exists ms, outS. split; auto. split; auto. intros ms' Pm. destruct (HR ms' Pm) as (outR & ER & SR & Bits).
  exists outR. split; auto. split; auto. intros p r Hp Hr. destruct (Bits p r Hp Hr) as [B1 B2]. rewrite B1, B2.
  assert (H8 : pc_count c mod 8 = 0) by apply Hsz.
  destruct (pos_bound c f p H8 Hp) as [Hg1 Hl1].
  assert (Htr : ptree c f p < pc_count c).
  { unfold ptree. pose proof (Nat.mod_upper_bound p 8 ltac:(lia)). pose proof (Nat.div_mod (pc_count c) 8 ltac:(lia)). lia. }
  destruct (Hg _ Htr) as (_ & _ & A3 & (L4 & P4 & D4)).
  assert (Hmem : existsb (Nat.eqb p) (recv_points umax c f choices) = (pleaf c f p =? punctured (nth (ptree c f p) choices []))).
  { apply eq_true_iff_eq. rewrite existsb_exists, Nat.eqb_eq. unfold recv_points. rewrite Lc. split.
    - intros (x & Hin & Ex). apply Nat.eqb_eq in Ex. subst x. apply in_map_iff in Hin. destruct Hin as ([t ch] & E & Hin).
      cbn [fst snd] in E. apply (In_nth _ _ (0, [])) in Hin. destruct Hin as (i & Hi & Ei).
      rewrite combine_length, seq_length in Hi. rewrite combine_nth in Ei by (rewrite seq_length; lia).
      rewrite seq_nth in Ei by lia. cbn in Ei. inversion Ei. subst t ch.
      destruct (decode_encode c f umax i (active_path (nth i choices [])) H8 ltac:(lia)) as [D1 D2].
      { rewrite active_path_ok. intros F. apply (Ht i); auto. lia. }
      rewrite E in D1, D2. rewrite D1, D2. apply active_path_ok.
    - intros E. exists p. split; [|apply Nat.eqb_refl]. apply in_map_iff.
      exists (ptree c f p, nth (ptree c f p) choices []). cbn [fst snd]. split.
      + rewrite active_path_ok, <- E. apply encode_decode; auto.
      + replace (ptree c f p, nth (ptree c f p) choices []) with (nth (ptree c f p) (combine (seq 0 (pc_count c)) choices) (0, [])).
        * apply nth_In. rewrite combine_length, seq_length. lia.
        * rewrite combine_nth by (rewrite seq_length; lia). rewrite seq_nth by auto. auto. }
  rewrite Hmem.
  destruct (Nat.ltb_spec (pleaf c f p) (length (snd (fst (g (ptree c f p)))))) as [Hlt|Hge].
  - rewrite D4 by auto. destruct (pleaf c f p =? punctured (nth (ptree c f p) choices [])).
    + rewrite N.lxor_spec. cbn [andb]. rewrite <- xorb_assoc, xorb_nilpotent. apply xorb_false_l.
    + cbn [andb]. apply xorb_nilpotent.
  - rewrite !nth_overflow by lia. rewrite N.bits_0.
    replace (pleaf c f p =? punctured (nth (ptree c f p) choices [])) with false; auto.
    symmetry. apply Nat.eqb_neq. lia.
Qed.
Print Assumptions C34_expand.

(** Configurations made by [PprfConfig::new] have a sufficient depth. *)
Theorem C34_depth bits domain count c : (N.of_nat domain < 2 ^ N.of_nat bits)%N -> pprf_conf_new bits domain count = Some c ->
  pc_count c = count /\ pc_domain c = domain /\ pc_domain c <= 2 ^ pc_depth c.
Proof.
  intros Hb E. unfold pprf_conf_new in E.
  destruct (log2_ceil bits (N.of_nat domain)) as [d|] eqn:El; [|discriminate]. cbn [obind] in E. inversion E; subst c.
  cbn [pc_count pc_domain pc_depth]. split; auto. split; auto.
  destruct (N.eq_dec (N.of_nat domain) 0) as [Z|Z]; [lia|].
  destruct (C52_ceil bits (N.of_nat domain) ltac:(lia) Hb) as (d' & Ed & Hd & _).
  rewrite Ed in El. inversion El; subst d'. clear - Hd.
  assert (P : N.of_nat (2 ^ d) = (2 ^ N.of_nat d)%N).
  { clear Hd. induction d as [|d IH]; [reflexivity|]. rewrite Nat.pow_succ_r', Nat2N.inj_mul, IH, (Nat2N.inj_succ d), N.pow_succ_r'. reflexivity. }
  lia.
Qed.
Print Assumptions C34_depth.

(** The sizes that are not accepted: with a domain of two elements the receiver panics,
    with an odd domain (format [Interleaved]) the sender panics. *)
Theorem C34_domain_two_refuted : forall enc H c f value root sots choices rots, pc_depth c = 1 ->
  forall m leaves, send_tree enc H c f value root sots = Some (m, leaves) -> recv_tree enc H c f choices rots m = None.
Proof.
  intros enc H c f value root sots choices rots Hd m leaves E. unfold send_tree in E. rewrite Hd in E.
  replace (1 <=? 1) with true in E by reflexivity. cbn [oassert obind] in E.
  destruct (send_levels enc c f 1 0 [root]) as [[lv ss]|]; cbn [obind] in E; [|inversion E].
  destruct (1 <=? length sots); cbn [oassert obind] in E; [|inversion E].
  destruct (nth_error ss (1 - 1)) as [[s0 s1]|]; cbn [obind] in E; [|inversion E].
  destruct (nth_error sots (1 - 1)) as [[o0 o1]|]; cbn [obind] in E; [|inversion E].
  inversion E; subst m. cbn [Nat.sub firstn zip_with].
  unfold recv_tree. cbn [tm_sums]. destruct (nth_error choices 0); auto. cbn [obind]. destruct (nth_error rots 0); auto.
Qed.
Print Assumptions C34_domain_two_refuted.

Theorem C34_odd_domain_refuted : forall enc H c value root sots, pc_domain c mod 2 = 1 ->
  send_tree enc H c Interleaved value root sots = None.
Proof.
  intros enc H c value root sots Ho. unfold send_tree. destruct (Nat.leb_spec 1 (pc_depth c)); auto. cbn [oassert obind].
  assert (G : forall n d l, d + S n = pc_depth c -> send_levels enc c Interleaved (S n) d l = None).
  { induction n as [|n IH]; intros d l E.
    - cbn [send_levels level_width]. replace (d + 1 =? pc_depth c) with true by (symmetry; apply Nat.eqb_eq; lia).
      unfold expand_level. rewrite Ho. reflexivity.
    - remember (S n) as n1. cbn [send_levels]. destruct (expand_level _ _ _); auto. cbn [obind]. subst n1.
      rewrite IH by lia. reflexivity. }
  destruct (pc_depth c) as [|n] eqn:Ed; [lia|]. rewrite (G n 0) by lia. reflexivity.
Qed.
Print Assumptions C34_odd_domain_refuted.

(** Sixteen trees of domain 6 (depth 3), two groups, processed and received in opposite
    orders. *)
Definition c34_enc (k : bool) (x : N) : N := ((x * (if k then 7 else 5) + 13) mod 251)%N.
Definition c34_conf := PprfConf 16 6 3.
Definition c34_choices : list (list bool) :=
  map (fun t => nth (t mod 5) [[true; true; true]; [true; false; true]; [false; true; true]; [true; true; false]; [false; true; false]] []) (seq 0 16).
Definition c34_sots : list (list (N * N)) :=
  map (fun t => map (fun d => (N.of_nat (t * 3 + d), N.of_nat (t + 100 * d))) (seq 0 3)) (seq 0 16).
Definition c34_rots : list (list N) :=
  zip_with (fun s ch => zip_with (fun (p : N * N) (b : bool) => if b then snd p else fst p) s ch) c34_sots c34_choices.

Example C34_case :
  pprf_conf_new 64 6 16 = Some c34_conf /\ sizes_ok c34_conf Interleaved /\
  (forall t, t < 16 -> length (nth t c34_choices []) = 3 /\ ots_match (nth t c34_sots []) (nth t c34_choices []) (nth t c34_rots []) /\
     punctured (nth t c34_choices []) < 6) /\
  match sender_expand c34_enc (fun x => N.lxor x 3) c34_conf Interleaved 170%N (map N.of_nat (seq 20 16)) c34_sots [1; 0] with
  | Some (ms, OInter outS) =>
      match receiver_expand c34_enc (fun x => N.lxor x 3) c34_conf Interleaved c34_choices c34_rots (rev ms) with
      | Some (OInter outR) =>
          map (fun t => nth (nth t (recv_points 0 c34_conf Interleaved c34_choices) 0) (zip_with N.lxor outS outR) 0%N) (seq 0 16)
            = repeat 170%N 16 /\
          length (filter (fun x => negb (x =? 0)%N) (zip_with N.lxor outS outR)) = 16 /\ length outS = 96 /\
          length (filter (fun x => negb (x =? 0)%N) outS) > 80
      | _ => False
      end
  | _ => False
  end.
Proof.
  split; [reflexivity|]. split; [cbv; repeat split; lia|]. split.
  { intros t Ht. do 16 (destruct t as [|t]; [cbv; repeat split; lia|]). lia. }
  vm_compute. repeat split. lia.
Qed.

(** ** C35 *)

(** The gap positions satisfy the correlation for both choices. *)
Theorem C35_correct : forall aes gap_ots choices delta rots, ots_match gap_ots choices rots ->
  gap_receive aes rots choices (snd (gap_send aes gap_ots delta))
  = zip_with (fun b (c : bool) => if c then N.lxor b delta else b) (fst (gap_send aes gap_ots delta)) choices.
Proof.
  intros aes gap_ots choices delta rots (L & E). subst rots. unfold gap_receive, gap_send. cbn [fst snd].
  revert choices L. induction gap_ots as [|[a b] l IH]; intros [|c cs] L; try discriminate; auto.
  cbn [map zip_with combine fst snd]. cbn [length] in L. rewrite <- (IH cs) by lia. destruct c; f_equal; apply N.lxor_0_l.
Qed.
Print Assumptions C35_correct.

(** The message reveals the value: a receiver with choice 0 at one gap position computes
    it from its own string. *)
Theorem C35_leak : forall aes gap_ots choices delta rots i, ots_match gap_ots choices rots ->
  nth_error choices i = Some false ->
  N.lxor (nth i (snd (gap_send aes gap_ots delta)) 0%N) (nth i rots 0%N) = delta.
Proof.
  intros aes gap_ots choices delta rots i (L & E) Hc. subst rots. unfold gap_send. cbn [snd].
  revert choices i L Hc. induction gap_ots as [|[a b] l IH]; intros [|c cs] [|i] L Hc; try discriminate; cbn [nth_error] in Hc.
  - inversion Hc; subst. cbn [map zip_with nth fst]. rewrite N.lxor_0_l, N.lxor_comm, <- N.lxor_assoc, N.lxor_nilpotent. apply N.lxor_0_l.
  - cbn [map zip_with nth]. cbn [length] in L. apply IH; auto.
Qed.
Print Assumptions C35_leak.

Theorem C35_secrecy_refuted : forall aes gap_ots choices delta, length gap_ots = length choices -> In false choices ->
  ~ gap_hides aes gap_ots choices delta.
Proof.
  intros aes gap_ots choices delta L Hin Hh. destruct (In_nth_error _ _ Hin) as [i Hi].
  destruct (Hh (N.succ delta)) as (g' & E1 & E2).
  assert (L' : length g' = length choices).
  { apply (f_equal (@length N)) in E2. unfold gap_send in E2. cbn [snd] in E2. rewrite !map_length in E2. lia. }
  pose proof (C35_leak aes gap_ots choices delta _ i (conj L eq_refl) Hi) as A.
  pose proof (C35_leak aes g' choices (N.succ delta) _ i (conj L' eq_refl) Hi) as B.
  rewrite E1, E2, A in B. lia.
Qed.
Print Assumptions C35_secrecy_refuted.

Example C35_case : let ots := [(5, 9); (12, 3); (7, 7)]%N in let ch := [true; false; true] in
  ots_match ots ch [9; 12; 7]%N /\ In false ch /\
  gap_receive N.add [9; 12; 7]%N ch (snd (gap_send N.add ots 100)) = [97; 12; 99]%N /\
  snd (gap_send N.add ots 100) = [97; 104; 99]%N.
Proof. repeat split; vm_compute; auto. Qed.
