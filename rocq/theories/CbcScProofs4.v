(** The CBC circuit with sub-circuit calls: it is a program that can be executed,
    and what its gates carry. *)
From Coq Require Import List Bool Arith Lia.
Require Import Verif.Prelude Verif.PreludeProofs Verif.GateModel Verif.CircuitModel Verif.CircuitSpec Verif.CircuitProofs
  Verif.CircuitProofs2 Verif.CircuitProofs3 Verif.ExecModel Verif.BoolGmwModel Verif.BoolGmwSpec Verif.InlineModel Verif.InlineSpec
  Verif.BristolSpec Verif.BristolProofs Verif.ExecCircuitSpec Verif.BristolTheorems Verif.ConnModel Verif.ConnSpec Verif.ConnProofs Verif.ConnProofs2
  Verif.BuilderModel Verif.BuilderSpec Verif.BuilderProofs Verif.BuilderProofs2 Verif.CbcModel Verif.CbcSpec Verif.CbcProofs
  Verif.MultiModel Verif.MultiSpec Verif.SubCircModel Verif.MultiExecSpec Verif.MultiExecProofs Verif.MultiExecProofs2 Verif.MultiExecTheorems
  Verif.CbcScModel Verif.CbcScProofs Verif.CbcScProofs2 Verif.CbcScProofs3.
Import ListNotations.

(** ** The called circuit's outputs are consecutive *)

Lemma br_inputs_scouts m : forall i st, c_scouts (fst (br_inputs bool_ops LoadSub m i st)) = c_scouts (fst st).
Proof. induction m as [|m IH]; intros i [c wm]; [reflexivity|]. cbn [br_inputs add_gate]. rewrite IH. reflexivity. Qed.

Lemma br_wire_scouts {G} id wm : forall ins (c c' : circuit G), br_wire_in ins id wm c = Some (Some c') -> c_scouts c' = c_scouts c.
Proof.
  induction ins as [|w r IH]; intros c c' H; cbn [br_wire_in] in H; [injection H as <-; auto|].
  destruct (nth_error wm w) as [x|]; [|discriminate]. unfold add_wire in H.
  destruct ((x <? c_count c) && (id <? c_count c)); [|discriminate]. cbn [obind] in H. apply IH in H. rewrite H. reflexivity.
Qed.

Lemma br_gates_scouts : forall gs c wm c' wm', br_gates_loop bool_ops bool_from_br gs c wm = Some (Some (c', wm')) -> c_scouts c' = c_scouts c.
Proof.
  induction gs as [|g r IH]; intros c wm c' wm' H; cbn [br_gates_loop] in H; [injection H as <- _; auto|].
  destruct (add_gate bool_ops c (bool_from_br (br_op g))) as [c1 id] eqn:E1.
  destruct (br_map_out (br_out g) id wm) as [wm1|]; [|discriminate].
  destruct (br_wire_in (br_in g) id wm1 c1) as [[c2|]|] eqn:E2; cbn [obind] in H; try discriminate.
  apply IH in H. apply br_wire_scouts in E2. rewrite H, E2.
  unfold add_gate in E1. injection E1 as <- _. destruct (br_op g); reflexivity.
Qed.

Lemma br_outputs_scouts : forall ws c c', br_outputs bool_ops LoadSub ws c = Some c' ->
  c_scouts c' = c_scouts c ++ seq (c_count c) (length ws) /\ c_count c' = c_count c + length ws.
Proof.
  induction ws as [|w r IH]; intros c c' H; cbn [br_outputs] in H.
  - injection H as <-. cbn. rewrite app_nil_r. auto.
  - destruct (add_gate bool_ops c (g_wrap bool_ops (load_out LoadSub))) as [c1 id] eqn:E1.
    unfold add_wire in H. destruct ((w <? c_count c1) && (id <? c_count c1)); [|discriminate]. cbn [obind] in H.
    apply IH in H. destruct H as [H1 H2]. rewrite H1, H2. unfold add_gate in E1. injection E1 as <- _.
    unfold c_count. cbn. rewrite app_length. cbn [length]. rewrite Nat.add_1_r, <- app_assoc. split; [reflexivity|lia].
Qed.

Lemma bristol_scouts b sub : from_bristol bool_ops bool_from_br b LoadSub = Some (Some sub) ->
  exists o, c_scouts sub = seq o (length (c_scouts sub)) /\ c_count sub = o + length (c_scouts sub).
Proof.
  unfold from_bristol. destruct (br_total_in b <=? bh_wires (bc_header b)); [|discriminate]. cbn [oassert obind].
  destruct (br_inputs bool_ops LoadSub (br_total_in b) 0 (c_new, repeat 0 (bh_wires (bc_header b)))) as [c0 wm0] eqn:E0.
  destruct (br_gates_loop bool_ops bool_from_br (bc_gates b) c0 wm0) as [[[c1 wm]|]|] eqn:E1; cbn [obind]; try discriminate.
  destruct (br_total_out b <=? bh_wires (bc_header b)); [|discriminate]. cbn [oassert obind].
  destruct (br_outputs bool_ops LoadSub (skipn (bh_wires (bc_header b) - br_total_out b) wm) c1) as [c2|] eqn:E2; cbn [obind]; [|discriminate].
  intros H. injection H as <-. apply br_gates_scouts in E1.
  pose proof (br_inputs_scouts (br_total_in b) 0 (c_new, repeat 0 (bh_wires (bc_header b)))) as HI. rewrite E0 in HI. cbn [fst] in HI.
  rewrite HI in E1. cbn [c_new c_scouts] in E1. apply br_outputs_scouts in E2. destruct E2 as [H1 H2]. rewrite E1 in H1. cbn [app] in H1.
  exists (c_count c1). rewrite H1, seq_length. auto.
Qed.

(** ** Leaving the builder *)

Lemma into_rest k : forall heap circuits cmap,
  sc_into (@c_new bool_gate) (repeat 1 k) heap [(1, 1); (0, 0)] circuits cmap = (heap, circuits, cmap ++ repeat 1 k).
Proof.
  induction k as [|k IH]; intros heap circuits cmap; cbn [repeat sc_into]; [rewrite app_nil_r; auto|].
  cbn [ptr_get Nat.eqb]. rewrite IH, <- app_assoc. reflexivity.
Qed.

Lemma into_cells c sub k cn : b_into (BD [c; sub] (0 :: repeat 1 k) cn) =
  match k with
  | 0 => (MC [c] [0] cn, [c_new; sub])
  | S _ => (MC [c; sub] (0 :: repeat 1 k) cn, [c_new; c_new])
  end.
Proof.
  destruct k as [|k]; [reflexivity|]. unfold b_into. cbn [b_ids b_cells b_cn repeat sc_into ptr_get Nat.eqb length app nth upd].
  rewrite into_rest. reflexivity.
Qed.

Lemma into_get c sub k cn j : mc_get (fst (b_into (BD [c; sub] (0 :: repeat 1 k) cn))) j = nth_error (c :: repeat sub k) j.
Proof.
  rewrite into_cells. destruct k as [|k]; cbn [fst]; unfold mc_get; cbn [mc_map mc_circuits].
  - destruct j as [|[|j]]; reflexivity.
  - destruct j as [|j]; [reflexivity|]. cbn [nth_error].
    destruct (Nat.ltb_spec j (S k)) as [H|H].
    + rewrite (nth_error_nth' (repeat 1 (S k)) 1), (nth_error_nth' (repeat sub (S k)) sub) by (rewrite repeat_length; auto).
      rewrite !nth_repeat. reflexivity.
    + rewrite (proj2 (nth_error_None (repeat 1 (S k)) j)), (proj2 (nth_error_None (repeat sub (S k)) j)) by (rewrite repeat_length; auto). reflexivity.
Qed.
Lemma into_conns c sub k cn : mc_conns (fst (b_into (BD [c; sub] (0 :: repeat 1 k) cn))) = cn.
Proof. rewrite into_cells. destruct k; reflexivity. Qed.

(** ** What the gates of an executed program carry *)

Section Flat.
Variables (W imax : nat) (m : mcirc bool_gate) (cl : list (circuit bool_gate)) (h : list (gid * gid)).
Hypothesis HP : program W imax m cl h None.
Hypothesis HW : 0 < W.
Variables (ins : list (list bool)) (v : nat -> list bool).
Hypothesis Hv : plain_value (inline_all bool_ops cl h) ins v.
Let w (k g : nat) : bool := nth 0 (v (flat_id cl (k, g))) false.

Lemma prog_gate k c g x : nth_error cl k = Some c -> nth_error (c_gates c) g = Some x -> x <> BBase GInput ->
  length (v (flat_id cl (k, g))) = 1 /\
  bool_gate_sem x (map (fun p : gid => w (fst p) (snd p)) (map (pair k) (parents c g) ++ sources_of h (k, g))) = Some (w k g).
Proof.
  intros Hk Hg Hx. destruct HP as [P1 P2 P3 P4 P5 P6]. pose proof (po_base _ _ _ _ P6) as P7.
  destruct (flat_spec W m h cl None P1 P2 P3 P5 P7) as (c0 & _ & _ & Eg & Es & _).
  pose proof (flat_gate cl k c g x Hk Hg) as Hf. rewrite <- Eg in Hf. destruct (Hv _ _ Hf) as [HL HV].
  unfold c_lanes in *. rewrite Es in *. split; auto.
  assert (Hlt : g < c_count c) by (apply nth_error_Some; congruence).
  assert (HS : bool_gate_sem x (map (fun p => nth 0 (v p) false) (parents (inline_all bool_ops cl h) (flat_id cl (k, g)))) = Some (w k g)).
  { destruct x as [[]| | |]; try (apply HV; lia). congruence. }
  rewrite (flat_parents' W HW m imax h cl P1 P2 P3 P4 P5 k c g Hk Hlt), map_map in HS.
  rewrite (mc_parents_eq W HW m imax h cl P1 P3 P4 k c g Hk) in HS. rewrite <- HS. reflexivity.
Qed.

Lemma prog_valued k c : nth_error cl k = Some c -> bval c (w k).
Proof.
  intros Hk g x Hx Hs. destruct HP as [P1 P2 P3 P4 P5 P6].
  assert (Hn : x <> BBase GInput) by (intros ->; discriminate).
  destruct (prog_gate k c g x Hk Hx Hn) as [_ H].
  rewrite (not_wired m h cl P1 P2 P3 k c g x Hk Hx), app_nil_r, map_map in H; [exact H|].
  destruct x as [[]| | |]; try discriminate; reflexivity.
Qed.

Lemma prog_wire p t : In (p, t) h -> w (fst t) (snd t) = w (fst p) (snd p).
Proof.
  intros Hin. destruct HP as [P1 P2 P3 P4 P5 P6]. destruct t as [k g]. cbn [fst snd].
  destruct (scin_target m h cl P1 P2 P3 p k g Hin) as (c & x & Hk & Hg & Hs & Hp).
  destruct (prog_gate k c g x Hk Hg) as [_ H]; [intros ->; discriminate|].
  pose proof (sources_short m h P3 (k, g)) as HL. apply (sources_In h) in Hin. rewrite Hp in H. cbn [map app] in H.
  destruct (sources_of h (k, g)) as [|q [|]]; [destruct Hin| |cbn [length] in HL; lia].
  destruct Hin as [->|[]]. cbn [map] in H. destruct x as [[]| | |]; try discriminate; cbn in H; congruence.
Qed.
End Flat.

(** ** The program *)

Section Prog.
Variables (n k o : nat) (sub c : circuit bool_gate) (cn : conns).
Let B := n + n + n * k.
Let xa := xat n B.
Hypothesis Hn : 0 < n.
Hypothesis Hsh : br_shape LoadSub (n + n) sub.
Hypothesis Hso : c_count sub = o + n.
Hypothesis HC : built c.
Hypothesis Hgs : c_gates c = repeat (BBase GInput) B ++ concat (repeat (block_gates n) k).
Hypothesis Hsc : c_scins c = concat (map (fun j => seq (xa j + n) n) (seq 0 k)).
Hypothesis Hcn : cn_rep cn (hist n B o k) [].
Let cl := c :: repeat sub k.
Let h := all_wires n B o k.
Let m := fst (b_into (BD [c; sub] (0 :: repeat 1 k) cn)).

Lemma le_nB : n <= B.
Proof. clear. unfold B. lia. Qed.

Lemma count_main : c_count c = xa k.
Proof.
  unfold c_count, xa, xat. rewrite Hgs, app_length, repeat_length. f_equal.
  clear. induction k as [|j IH]; [cbn; lia|]. cbn [repeat concat]. rewrite app_length, IH.
  unfold block_gates. rewrite !app_length, !repeat_length. lia.
Qed.

(** The wires one by one. *)
Inductive wire_at (i : nat) : gid -> gid -> Prop :=
| wa_block j : j < n -> wire_at i (0, xa i + j) (S i, j)
| wa_key j : j < n -> wire_at i (0, j) (S i, n + j)
| wa_back j : j < n -> wire_at i (S i, o + j) (0, xa i + n + j).

Lemma combine_seq (a b ka kb len : nat) (p t : gid) : In (p, t) (combine (map (pair ka) (seq a len)) (map (pair kb) (seq b len))) <->
  exists j, j < len /\ p = (ka, a + j) /\ t = (kb, b + j).
Proof.
  clear. revert a b. induction len as [|len IH]; intros a b; cbn [seq map combine].
  - split; [intros []|intros (j & H & _); lia].
  - split.
    + intros [E|H]; [injection E as <- <-; exists 0; rewrite !Nat.add_0_r; split; [lia|auto]|].
      apply IH in H. destruct H as (j & Hj & -> & ->). exists (S j). split; [lia|]. split; f_equal; lia.
    + intros ([|j] & Hj & -> & ->); [left; rewrite !Nat.add_0_r; auto|]. right. apply IH. exists j. split; [lia|]. split; f_equal; lia.
Qed.
Lemma combine_app_eq {X Y} (a a' : list X) (b b' : list Y) : length a = length b -> combine (a ++ a') (b ++ b') = combine a b ++ combine a' b'.
Proof. clear. revert b. induction a as [|x a IH]; intros [|y b] H; try discriminate; auto. cbn. f_equal. auto. Qed.

Lemma in_wires i p t : In (p, t) (wires n B o i) <-> wire_at i p t.
Proof.
  unfold wires. rewrite seq_app, !map_app, combine_app_eq by (rewrite !map_length, !seq_length; auto).
  rewrite !in_app_iff, !combine_seq. cbn [Nat.add]. split.
  - intros [[(j & Hj & -> & ->)|(j & Hj & -> & ->)]|(j & Hj & -> & ->)]; constructor; auto.
  - intros H. destruct H as [j Hj|j Hj|j Hj]; [left; left|left; right|right]; exists j; auto.
Qed.
Lemma in_all p t : In (p, t) h <-> exists i, i < k /\ wire_at i p t.
Proof.
  unfold h, all_wires. split.
  - intros H. apply in_concat in H. destruct H as (l & Hl & H). apply in_map_iff in Hl. destruct Hl as (i & <- & Hi).
    apply in_seq in Hi. apply in_wires in H. exists i. split; [lia|auto].
  - intros (i & Hi & H). apply in_concat. exists (wires n B o i). split; [apply in_map; apply in_seq; lia|]. apply in_wires. auto.
Qed.

Lemma nodup_pair (a : nat) (l : list nat) : NoDup l -> NoDup (map (pair a) l).
Proof.
  clear. intros H. induction H as [|x l Hx H IH]; cbn; constructor; auto. intros Hin. apply in_map_iff in Hin.
  destruct Hin as (y & E & Hy). injection E as ->. auto.
Qed.
Lemma combine_snd {X Y} (a : list X) (b : list Y) : length a = length b -> map snd (combine a b) = b.
Proof. clear. revert b. induction a as [|x a IH]; intros [|y b] H; try discriminate; auto. cbn. f_equal. auto. Qed.

Lemma targets_wires i : map snd (wires n B o i) = map (pair (S i)) (seq 0 (n + n)) ++ map (pair 0) (seq (xa i + n) n).
Proof.
  unfold wires. rewrite map_app, !combine_snd; [reflexivity| |]; rewrite ?map_length, ?app_length, ?seq_length; auto.
Qed.

Lemma targets_nodup : NoDup (map snd h).
Proof.
  unfold h. clear Hgs Hsc Hcn Hsh Hso cl m. generalize k at 1. intros q. induction q as [|q IH]; [constructor|].
  rewrite all_wires_S, map_app. apply NoDup_app_intro; auto.
  - rewrite targets_wires. apply NoDup_app_intro; [apply nodup_pair, seq_NoDup|apply nodup_pair, seq_NoDup|].
    intros x H1 H2. apply in_map_iff in H1. apply in_map_iff in H2. destruct H1 as (a & <- & _). destruct H2 as (b & E & _). discriminate.
  - intros x H1 H2. rewrite targets_wires in H2. apply in_map_iff in H1. destruct H1 as ([p t] & <- & H1). cbn [snd] in H2.
    unfold all_wires in H1. apply in_concat in H1. destruct H1 as (l & Hl & H1). apply in_map_iff in Hl. destruct Hl as (i & <- & Hi).
    apply in_seq in Hi. apply in_wires in H1. pose proof (xat_lt n B Hn le_nB i q ltac:(lia)) as HX.
    apply in_app_or in H2. destruct H2 as [H2|H2]; apply in_map_iff in H2; destruct H2 as (y & <- & Hy); apply in_seq in Hy; unfold xa in *;
      inversion H1; subst; unfold xa in *; lia.
Qed.

Lemma sub_scin j : j < n + n -> nth_error (c_gates sub) j = Some (BBase GScInput).
Proof.
  intros Hj. pose proof (bs_nin _ _ _ Hsh) as HN. destruct (nth_error (c_gates sub) j) as [x|] eqn:E; [|apply nth_error_None in E; unfold c_count in HN; lia].
  destruct (bs_gate _ _ _ Hsh j x E) as [(_ & -> & _)|(H & _)]; [reflexivity|lia].
Qed.
Lemma main_scin g x : nth_error (c_gates c) g = Some x -> (is_scin_gate bool_ops x = true <-> exists i j, i < k /\ j < n /\ g = xa i + n + j).
Proof.
  intros Hx. assert (HI : In g (c_scins c) <-> is_scin_gate bool_ops x = true).
  { rewrite (aw_scins _ _ (api_api_wf _ _ (bt_api _ HC))), ids_where_In. split; [intros (y & E & Hy); congruence|eauto]. }
  rewrite <- HI, Hsc. split.
  - intros H. apply in_concat in H. destruct H as (l & Hl & H). apply in_map_iff in Hl. destruct Hl as (i & <- & Hi). apply in_seq in Hi. apply in_seq in H.
    exists i, (g - (xa i + n)). lia.
  - intros (i & j & Hi & Hj & ->). apply in_concat. exists (seq (xa i + n) n). split; [|apply in_seq; lia].
    apply (in_map (fun j => seq (xa j + n) n)). apply in_seq. lia.
Qed.
Lemma xa_in i j : i < k -> j < n + n + n -> xa i + j < c_count c.
Proof. intros Hi Hj. rewrite count_main. pose proof (xat_lt n B Hn le_nB i k Hi). unfold xa. lia. Qed.
Lemma main_at i j : i < k -> j < n -> exists x, nth_error (c_gates c) (xa i + n + j) = Some x /\ is_scin_gate bool_ops x = true.
Proof.
  intros Hi Hj. pose proof (xa_in i (n + j) Hi ltac:(lia)) as HL. rewrite Nat.add_assoc in HL. unfold c_count in HL.
  destruct (nth_error (c_gates c) (xa i + n + j)) as [x|] eqn:E; [|apply nth_error_None in E; lia].
  exists x. split; auto. apply (main_scin _ x E). exists i, j. auto.
Qed.

Lemma get_sub i : i < k -> nth_error cl (S i) = Some sub.
Proof. intros H. unfold cl. cbn [nth_error]. rewrite (nth_error_nth' _ sub) by (rewrite repeat_length; auto). f_equal. apply nth_repeat. Qed.
Lemma get_inv q d : nth_error cl q = Some d -> (q = 0 /\ d = c) \/ (exists i, q = S i /\ i < k /\ d = sub).
Proof.
  unfold cl. destruct q as [|i]; cbn [nth_error]; [intros H; injection H as <-; auto|]. intros H. right. exists i.
  assert (Hi : i < k) by (rewrite <- (repeat_length sub k); apply nth_error_Some; congruence).
  rewrite (nth_error_nth' _ sub) in H by (rewrite repeat_length; auto). rewrite nth_repeat in H. injection H as <-. auto.
Qed.
Lemma get_m q : mc_get m q = nth_error cl q.
Proof. apply into_get. Qed.

Lemma cbc_circuits : circuits_ok bool_ops (mc_get m).
Proof.
  split; [exists c; rewrite get_m; reflexivity|]. intros q d Hd. rewrite get_m in Hd. destruct (get_inv q d Hd) as [[-> ->]|(i & -> & Hi & ->)].
  - split; [apply HC|]. intros g x Hx Hk. pose proof (bt_arity _ HC g x Hx) as HA. apply length_zero_iff_nil.
    destruct x as [[]| | |]; try discriminate; cbn in HA; congruence.
  - split; [apply Hsh|]. intros g x Hx Hk. destruct (bs_gate _ _ _ Hsh g x Hx) as [(_ & _ & E)|(_ & [([->| ->] & _)|([->| ->] & _)])]; auto; discriminate.
Qed.
Lemma cbc_wires : wires_ok bool_ops (mc_get m) h.
Proof.
  split; [apply targets_nodup|]. intros p t H. apply in_all in H. destruct H as (i & Hi & H).
  destruct H as [j Hj|j Hj|j Hj]; cbn [fst snd]; rewrite get_m.
  - exists sub, (BBase GScInput). rewrite get_sub, sub_scin by lia. auto.
  - exists sub, (BBase GScInput). rewrite get_sub, sub_scin by lia. auto.
  - destruct (main_at i j Hi Hj) as (x & E & Hs). exists c, x. auto.
Qed.

Let N := c_count sub + 2.
Let rank (g : gid) : nat := match fst g with 0 => snd g * N | S i => (xa i + n - 1) * N + 1 + snd g end.

Lemma cbc_callable : all_callable bool_ops (mc_get m) h.
Proof.
  pose proof le_nB as HnB.
  exists rank. split.
  - intros [a p] [b g] [H|(d & Hd & Ef & Hp)].
    + apply in_all in H. destruct H as (i & Hi & H). pose proof (xat_B n B Hn le_nB i) as HX. fold xa in HX.
      inversion H; subst; unfold rank; cbn [fst snd].
      * assert ((xa i + g) * N <= (xa i + n - 1) * N) by (apply Nat.mul_le_mono_r; lia). lia.
      * assert (p * N <= (xa i + n - 1) * N) by (apply Nat.mul_le_mono_r; lia). lia.
      * assert ((xa i + n - 1 + 1) * N <= (xa i + n + j) * N) by (apply Nat.mul_le_mono_r; lia).
        rewrite Nat.mul_add_distr_r, Nat.mul_1_l in H0. unfold N in *. lia.
    + cbn [fst snd] in *. subst b. rewrite get_m in Hd. unfold rank. cbn [fst snd]. destruct (get_inv a d Hd) as [[-> ->]|(i & -> & Hi & ->)].
      * pose proof (bt_older _ HC p g Hp). apply Nat.mul_lt_mono_pos_r; auto. unfold N. lia.
      * pose proof (bs_topo _ _ _ Hsh p g Hp). lia.
  - intros q d g x Hd Hx Hp. rewrite get_m in Hd. destruct (get_inv q d Hd) as [[-> ->]|(i & -> & Hi & ->)].
    + pose proof (bt_arity _ HC g x Hx) as HA. rewrite Hp in HA. cbn [length] in HA.
      destruct x as [[]| | |]; try discriminate; auto.
      right. left. destruct (proj1 (main_scin g _ Hx) eq_refl) as (i & j & Hi & Hj & ->).
      exists (S i, o + j). split; [apply in_all; exists i; split; auto; constructor; auto|].
      exists sub. cbn [fst snd]. rewrite get_m, get_sub by auto. split; auto. lia.
    + right. left. destruct (bs_gate _ _ _ Hsh g x Hx) as [(Hg & _ & _)|(_ & [(_ & E)|(_ & E)])]; try (rewrite Hp in E; discriminate).
      destruct (Nat.ltb_spec g n) as [H|H].
      * exists (0, xa i + g). split; [apply in_all; exists i; split; auto; constructor; auto|]. exists c. cbn [fst snd]. rewrite get_m. split; auto. apply xa_in; lia.
      * exists (0, g - n). split; [apply in_all; exists i; split; auto; replace g with (n + (g - n)) at 2 by lia; constructor; lia|].
        exists c. cbn [fst snd]. rewrite get_m. split; auto. pose proof (xa_in i 0 Hi ltac:(lia)) as HL. pose proof (xat_B n B Hn le_nB i). unfold xa in *. lia.
Qed.

Lemma cbc_program W imax : xa k <= imax -> o + n <= imax -> program W imax m cl h None.
Proof.
  intros Hi1 Hi2. constructor.
  - apply get_m.
  - apply cbc_circuits.
  - apply cbc_wires.
  - pose proof (into_conns c sub k cn) as E. fold m in E. destruct m as [cs mp cn']. cbn [mc_conns] in E. subst cn'.
    apply wired_cbc; auto; [apply le_nB|]. pose proof le_nB. pose proof (xat_B n B Hn le_nB k). unfold xa in *. unfold B in *. lia.
  - apply cbc_callable.
  - constructor; [|congruence|congruence]. constructor; [|intros q d Hd|discriminate].
    + intros q d g x Hd Hx. destruct (get_inv q d Hd) as [[-> ->]|(i & -> & Hi & ->)].
      * pose proof (bt_arity _ HC g x Hx) as HA. destruct x as [[]| | |]; try discriminate; cbn in HA |- *; auto; injection HA as HA; auto.
      * destruct (bs_gate _ _ _ Hsh g x Hx) as [(_ & -> & _)|(_ & [([->| ->] & E)|([->| ->] & E)])]; cbn; auto.
    + destruct (get_inv q d Hd) as [[-> ->]|(i & -> & Hi & ->)]; [apply HC|apply Hsh].
Qed.
End Prog.
