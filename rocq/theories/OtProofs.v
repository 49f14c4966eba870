(** Proofs about oblivious transfer. *)
From Coq Require Import List Bool Arith Permutation Lia.
Require Import Verif.Prelude Verif.PreludeProofs Verif.BitVecModel Verif.BitVecSpec Verif.BitVecProofs
  Verif.OtModel Verif.OtSpec.
Import ListNotations.

(** ** Base OT *)


Lemma base_keys {G S B K} (o : group_ops G S) (romp : G -> nat -> B -> K) a seed choices : group_laws o ->
  forall bs n, length bs = length choices ->
  let A := g_mul o a (g_base o) in
  let Bs := zip_with (fun (c : bool) b => let B0 := g_mul o b (g_base o) in if c then g_add o A B0 else B0) choices bs in
  map (fun ib => romp (g_mul o (snd ib) A) (fst ib) seed) (combine (seq n (length bs)) bs) =
  zip_with chosen choices
    (map (fun ip => let aB := g_mul o a (snd ip) in (romp aB (fst ip) seed, romp (g_sub o aB (g_mul o a A)) (fst ip) seed))
         (combine (seq n (length Bs)) Bs)).
Proof.
  intros [Hc Hd Hs]. cbn zeta. induction choices as [|c cs IH]; intros [|b bs] n HL; simpl in HL; try lia; auto.
  cbn [zip_with length seq combine map fst snd]. f_equal; [|apply IH; lia].
  destruct c; cbn [chosen fst snd]; unfold chosen; cbn [fst snd]; [rewrite Hd, Hs|]; rewrite Hc; auto.
Qed.

(** ** Rows *)

Definition row_step (choices : list bool) (m : list (list bool)) (iu : nat * list bool) : list (list bool) :=
  let c := nth (fst iu) choices false in
  let u := if c then snd iu else map (fun _ => false) (snd iu) in
  upd (fst iu) (raw_zip xorb (nth (fst iu) m []) u) m.

Lemma row_step_length choices m iu : length (row_step choices m iu) = length m.
Proof. unfold row_step. apply upd_length. Qed.

Lemma fold_row_length choices l : forall m, length (fold_left (row_step choices) l m) = length m.
Proof. induction l; intros m; simpl; auto. rewrite IHl. apply row_step_length. Qed.

Lemma recv_rows_fold rows choices l : forall m got rest,
  got + length l = rows -> l <> [] -> length choices = length m ->
  Forall (fun iu => fst iu < length m) l ->
  recv_rows rows choices m got (map (fun iu => EvRow (fst iu) (snd iu)) l ++ rest) =
  ROk (fold_left (row_step choices) l m).
Proof.
  induction l as [|[i u] l IH]; intros m got rest Hn Hne Hlen HF; [congruence|].
  inversion HF as [|? ? Hi HF']; subst. cbn [map app recv_rows fst snd] in *.
  rewrite (nth_error_nth' choices false), (nth_error_nth' m []) by lia.
  destruct (Nat.eqb_spec (S got) (got + length ((i, u) :: l))) as [E|E].
  - destruct l; [|simpl in E; lia]. reflexivity.
  - cbn [fold_left]. change (upd i _ m) with (row_step choices m (i, u)).
    apply IH; auto.
    + simpl in *. lia.
    + intros ->. simpl in E. lia.
    + rewrite row_step_length. auto.
    + rewrite Forall_forall in *. intros x Hx. rewrite row_step_length. auto.
Qed.

Lemma fold_row_nth choices l : forall m i, NoDup (map fst l) -> i < length m ->
  nth i (fold_left (row_step choices) l m) [] =
  match find (fun iu => fst iu =? i) l with
  | Some (_, u) => raw_zip xorb (nth i m []) (if nth i choices false then u else map (fun _ => false) u)
  | None => nth i m []
  end.
Proof.
  induction l as [|[k u] l IH]; intros m i HN Hi; auto. cbn [fold_left map fst] in *. inversion HN as [|? ? Hn HN']; subst.
  rewrite IH by (auto; rewrite row_step_length; auto). cbn [find fst].
  destruct (Nat.eqb_spec k i) as [->|Hne].
  - destruct (find _ l) as [[k' u']|] eqn:E.
    + apply find_some in E. destruct E as [Hin Hk]. cbn [fst] in Hk. apply Nat.eqb_eq in Hk. subst.
      exfalso. apply Hn. apply in_map_iff. exists (i, u'). auto.
    + unfold row_step. cbn [fst snd]. rewrite upd_nth, Nat.eqb_refl. destruct (Nat.ltb_spec i (length m)); [auto|lia].
  - assert (E : nth i (row_step choices m (k, u)) [] = nth i m []).
    { unfold row_step. cbn [fst snd]. rewrite upd_nth. destruct (Nat.eqb_spec k i); [congruence|]. auto. }
    rewrite E. auto.
Qed.

(** Delivered rows in any order: every row is applied to its own position. *)
Lemma deliver_rows choices us order m rest k :
  Permutation order (seq 0 k) -> length us = k -> length m = k -> length choices = k -> 0 < k ->
  exists r, recv_rows k choices m 0 (deliver order (combine (seq 0 (length us)) us) ++ rest) = ROk r /\
    length r = k /\
    forall i, i < k -> nth i r [] =
      raw_zip xorb (nth i m []) (if nth i choices false then nth i us [] else map (fun _ => false) (nth i us [])).
Proof.
  intros HP Hus Hm Hc Hk.
  set (msgs := combine (seq 0 (length us)) us).
  assert (Hlm : length msgs = k) by (unfold msgs; rewrite combine_length, seq_length; lia).
  assert (Hnth : forall i, i < k -> nth i msgs (0, []) = (i, nth i us [])).
  { intros i Hi. unfold msgs. rewrite combine_nth by (rewrite seq_length; auto). rewrite seq_nth by lia. auto. }
  set (l := map (fun i => nth i msgs (0, [])) order).
  replace (deliver order msgs) with (map (fun iu => EvRow (fst iu) (snd iu)) l)
    by (unfold l, deliver; rewrite map_map; reflexivity).
  assert (Hord : forall i, In i order <-> i < k).
  { intros i. split; intros Hi.
    - apply (Permutation_in _ HP) in Hi. apply in_seq in Hi. lia.
    - apply (Permutation_in _ (Permutation_sym HP)). apply in_seq. lia. }
  assert (Hfst : map fst l = order).
  { unfold l. rewrite map_map. rewrite <- (map_id order) at 2. apply map_ext_in. intros i Hi. rewrite Hnth by (apply Hord; auto). auto. }
  assert (HlL : length l = k).
  { unfold l. rewrite map_length. rewrite (Permutation_length HP), seq_length. auto. }
  assert (HN : NoDup (map fst l)).
  { rewrite Hfst. apply (Permutation_NoDup (Permutation_sym HP)). apply seq_NoDup. }
  exists (fold_left (row_step choices) l m). split; [|split].
  - apply recv_rows_fold; auto; [|lia|].
    + intros E. rewrite E in HlL. simpl in HlL. lia.
    + apply Forall_forall. intros iu Hin. apply (in_map fst) in Hin. rewrite Hfst in Hin. apply Hord in Hin. lia.
  - rewrite fold_row_length. auto.
  - intros i Hi. rewrite fold_row_nth by (auto; lia).
    destruct (find (fun iu => fst iu =? i) l) as [[j u]|] eqn:E.
    + apply find_some in E. destruct E as [Hin Hj]. cbn [fst] in Hj. apply Nat.eqb_eq in Hj. subst j.
      unfold l in Hin. apply in_map_iff in Hin. destruct Hin as (i' & E & Hi'). rewrite Hnth in E by (apply Hord; auto).
      injection E as -> <-. auto.
    + exfalso. apply find_none with (x := (i, nth i us [])) in E; [cbn [fst] in E; rewrite Nat.eqb_refl in E; discriminate|].
      unfold l. apply in_map_iff. exists i. split; [apply Hnth; auto|apply Hord; auto].
Qed.

Lemma columns_length n mat : length (columns n mat) = n.
Proof. unfold columns. rewrite map_length, seq_length. auto. Qed.

Lemma columns_nth n mat j : j < n -> nth j (columns n mat) [] = map (fun row => nth j row false) mat.
Proof.
  intros Hj. unfold columns. erewrite nth_error_nth; [reflexivity|].
  rewrite (map_nth_error (fun j => map (fun row => nth j row false) mat) j (seq 0 n) (d := j)); auto.
  rewrite (nth_error_nth' _ 0) by (rewrite seq_length; auto). rewrite seq_nth by auto. auto.
Qed.

Lemma nth_map_any {A B} (f : A -> B) l i da db : i < length l -> nth i (map f l) db = f (nth i l da).
Proof. intros H. rewrite (nth_indep _ db (f da)) by (rewrite map_length; auto). apply map_nth. Qed.

(** ** Extension *)

Section Ext.
Context {R : Type} (k W : nat) (fill : R -> nat -> list bool * R) (H : list bool -> list bool).
Hypothesis Hk : 0 < k.
Hypothesis HW : 0 < W.
Hypothesis Hfill : fills fill.

Lemma aligned_raw v : bv_wf W v -> bv_head v = 0 ->
  forall j, j < bv_len v -> nth j (bv_raw (bv_copy W (bv_head v) (bv_bits v))) false = nth j (bv_bits v) false.
Proof.
  intros Hwf H0 j Hj. rewrite H0. pose proof (bv_bits_length W v Hwf) as HL.
  rewrite bv_copy_raw_nth.
  - cbn [Nat.ltb Nat.leb]. rewrite Nat.sub_0_r. auto.
  - rewrite HL. pose proof (bv_words_ge W 0 (bv_len v) HW). lia.
Qed.

(** The sender may ask for fewer OTs than the receiver has choices. *)
Theorem ext_prefix ss rs choices count order rest :
  base_ok k ss rs -> bv_wf W choices -> bv_head choices = 0 -> bv_len choices mod 8 = 0 ->
  count mod 8 = 0 -> count <= bv_len choices ->
  (forall r, fst (fill r count) = firstn count (fst (fill r (bv_len choices)))) ->
  Permutation order (seq 0 k) ->
  exists sots routs msgs ss' rs',
    ext_receive W fill H rs choices = (ROk routs, msgs, rs') /\
    ext_send k fill H ss count (deliver order msgs ++ rest) = (ROk sots, ss') /\
    length routs = bv_len choices /\
    ot_correct (firstn count (bv_bits choices)) sots (firstn count routs) /\
    (count = bv_len choices -> base_ok k ss' rs').
Proof.
  intros Hb Hwf Hh H8 Hc8 Hcn Hpre HP. set (n := bv_len choices) in *.
  assert (Hcl : length (bv_bits choices) = n) by (apply (bv_bits_length W); auto).
  destruct Hb as (Hrl & Hcl' & Hrng) eqn:Eb. clear Eb.
  assert (Hcl2 : length (os_choices ss) = k) by lia.
  assert (Hsl : length (os_rngs ss) = k) by (rewrite Hrng, zip_with_length; lia).
  unfold ext_receive. fold n. rewrite H8. cbn [Nat.eqb negb].
  set (ch := bv_raw (bv_copy W (bv_head choices) (bv_bits choices))).
  set (rows := map (ext_row fill n ch) (or_rngs rs)).
  set (us := map (fun r => snd (fst r)) rows).
  assert (Hlr : length rows = k) by (unfold rows; rewrite map_length; auto).
  assert (Hus : length us = k) by (unfold us; rewrite map_length; auto).
  unfold ext_send. rewrite Hc8. cbn [Nat.eqb negb].
  set (filled := map (fun r => fill r count) (os_rngs ss)).
  assert (Hfl : length filled = k) by (unfold filled; rewrite map_length; auto).
  assert (Hml : length (map fst filled) = k) by (rewrite map_length; auto).
  destruct (deliver_rows (os_choices ss) us order (map fst filled) rest k HP Hus Hml Hcl2 Hk) as (v & Ev & Hvl & Hv).
  rewrite Hus in Ev. rewrite Hlr.
  do 5 eexists. split; [reflexivity|]. split; [rewrite Ev; reflexivity|].
  split; [rewrite map_length, columns_length; auto|].
  (* the generators *)
  assert (Hdp : exists dp : R * R, True) by (destruct (or_rngs rs) as [|p ?]; [simpl in Hrl; lia|exists p; auto]).
  destruct Hdp as [dp _].
  assert (Hrow : forall i dr, i < k -> nth i rows dr = ext_row fill n ch (nth i (or_rngs rs) dp)).
  { intros i dr Hi. unfold rows. apply nth_map_any. lia. }
  assert (Hsr : forall i, i < k -> nth i (os_rngs ss) (fst dp) = chosen (nth i (os_choices ss) false) (nth i (or_rngs rs) dp)).
  { intros i Hi. rewrite Hrng. apply zip_with_nth; lia. }
  assert (Hrest : count = n -> base_ok k (Ots (map snd filled) (os_choices ss)) (Otr (map snd rows))).
  { intros Hcnt. split; [cbn [or_rngs]; rewrite map_length; auto|]. split; [cbn [or_rngs os_choices]; rewrite map_length; lia|].
    cbn [os_rngs os_choices or_rngs]. apply (list_ext (fst dp)).
    - rewrite zip_with_length, !map_length. lia.
    - intros i Hi. rewrite map_length in Hi. rewrite Hfl in Hi.
      rewrite (zip_with_nth _ _ _ i false dp) by (try rewrite map_length; lia).
      rewrite (nth_map_any snd filled i (fill (fst dp) n)) by lia. unfold filled at 1. rewrite (nth_map_any _ _ i (fst dp)) by lia.
      rewrite Hsr by auto. rewrite (nth_map_any snd rows i (([], []), dp)) by lia. rewrite Hrow by auto. rewrite Hcnt.
      unfold ext_row. destruct (nth i (or_rngs rs) dp) as [r0 r1]. cbn [fst snd]. destruct (fill r0 n) as [t0 r0'] eqn:E0. destruct (fill r1 n) as [t1 r1'] eqn:E1.
      cbn [snd]. destruct (nth i (os_choices ss) false); cbn [chosen fst snd]; [rewrite E1|rewrite E0]; auto. }
  split; [|exact Hrest].
  (* outputs *)
  assert (Hfb : length (firstn count (bv_bits choices)) = count) by (rewrite firstn_length; lia).
  split; [rewrite map_length, columns_length; lia|].
  apply (list_ext []).
  { rewrite zip_with_length, firstn_length, !map_length, !columns_length. lia. }
  intros j Hj. rewrite firstn_length, map_length, columns_length in Hj. assert (Hjc : j < count) by lia. assert (Hjn : j < n) by lia. clear Hj.
  rewrite (zip_with_nth _ _ _ j false ([], [])) by (try rewrite map_length, columns_length; lia).
  rewrite !nth_firstn by auto.
  rewrite !(nth_map_any _ (columns _ _) j []) by (rewrite columns_length; auto).
  rewrite !columns_nth by auto.
  (* the column of the sender *)
  assert (Hcol : forall i, i < k ->
      nth j (nth i v []) false = xorb (nth j (nth i (map (fun r => fst (fst r)) rows) []) false)
                                      (andb (nth j (bv_bits choices) false) (nth i (os_choices ss) false))).
  { intros i Hi. rewrite Hv by auto. rewrite (nth_map_any fst filled i (fill (fst dp) n)) by lia.
    unfold filled at 1. rewrite (nth_map_any _ _ i (fst dp)) by lia. rewrite Hsr by auto. rewrite Hpre.
    unfold us. rewrite (nth_map_any (fun r => snd (fst r)) rows i (([], []), dp)) by lia.
    rewrite (nth_map_any (fun r => fst (fst r)) rows i (([], []), dp)) by lia. rewrite Hrow by auto.
    unfold ext_row. destruct (nth i (or_rngs rs) dp) as [r0 r1]. cbn [fst snd].
    pose proof (Hfill r0 n) as L0. pose proof (Hfill r1 n) as L1.
    destruct (fill r0 n) as [t0 r0'] eqn:E0. destruct (fill r1 n) as [t1 r1'] eqn:E1. cbn [fst snd] in *.
    assert (Hchl : n <= length ch).
    { unfold ch. rewrite Hh. cbn [bv_copy bv_raw]. rewrite pad_words_length, Hcl. destruct (Nat.eq_dec n 0); [lia|].
      pose proof (bv_words_ge W 0 n HW). lia. }
    assert (Hz : length (zip_with xorb t0 ch) = n) by (rewrite zip_with_length; lia).
    destruct (nth i (os_choices ss) false); cbn [chosen fst snd].
    - rewrite E1. cbn [fst]. rewrite raw_zip_nth by (try rewrite raw_zip_length; rewrite ?firstn_length; lia).
      rewrite nth_firstn by auto.
      rewrite raw_zip_nth by lia. rewrite (zip_with_nth _ _ _ j false false) by lia.
      unfold ch at 1. rewrite aligned_raw by auto. rewrite andb_true_r.
      destruct (nth j t1 false), (nth j t0 false), (nth j (bv_bits choices) false); reflexivity.
    - rewrite E0. cbn [fst]. rewrite raw_zip_nth by (try rewrite map_length, raw_zip_length; rewrite ?firstn_length; lia).
      rewrite nth_firstn by auto.
      rewrite (nth_map_any _ _ j false) by (rewrite raw_zip_length; lia). rewrite andb_false_r. auto. }
  set (q := map (fun row => nth j row false) v).
  set (t := map (fun row => nth j row false) (map (fun r => fst (fst r)) rows)).
  assert (Hq : nth j (bv_bits choices) false = false -> q = t).
  { intros Hc. apply (list_ext false); [unfold q, t; rewrite !map_length; lia|]. unfold q, t. rewrite map_length. intros i Hi.
    rewrite (nth_map_any _ v i []) by auto. rewrite (nth_map_any _ (map _ rows) i []) by (rewrite map_length; lia).
    rewrite Hcol by lia. rewrite Hc. apply xorb_false_r. }
  assert (Hq1 : nth j (bv_bits choices) false = true -> zip_with xorb q (os_choices ss) = t).
  { intros Hc. apply (list_ext false); [unfold q, t; rewrite zip_with_length, !map_length; lia|]. unfold q, t. rewrite zip_with_length, map_length.
    intros i Hi. rewrite (zip_with_nth _ _ _ i false false) by (try rewrite map_length; lia).
    rewrite (nth_map_any _ v i []) by lia. rewrite (nth_map_any _ (map _ rows) i []) by (rewrite map_length; lia).
    rewrite Hcol by lia. rewrite Hc. rewrite andb_true_l, xorb_assoc, xorb_nilpotent, xorb_false_r. auto. }
  cbn [chosen fst snd]. unfold chosen. destruct (nth j (bv_bits choices) false); cbn [fst snd].
  - rewrite Hq1; auto.
  - rewrite Hq; auto.
Qed.

Theorem ext_correct ss rs choices order rest :
  base_ok k ss rs -> bv_wf W choices -> bv_head choices = 0 -> bv_len choices mod 8 = 0 ->
  Permutation order (seq 0 k) ->
  exists sots routs msgs ss' rs',
    ext_receive W fill H rs choices = (ROk routs, msgs, rs') /\
    ext_send k fill H ss (bv_len choices) (deliver order msgs ++ rest) = (ROk sots, ss') /\
    ot_correct (bv_bits choices) sots routs /\ base_ok k ss' rs'.
Proof.
  intros Hb Hwf Hh H8 HP.
  destruct (ext_prefix ss rs choices (bv_len choices) order rest Hb Hwf Hh H8 H8 (le_n _)) as (sots & routs & msgs & ss' & rs' & E1 & E2 & L & O & B); auto.
  { intros r. rewrite firstn_all2; auto. rewrite Hfill. auto. }
  exists sots, routs, msgs, ss', rs'. split; auto. split; auto. split; auto.
  rewrite !firstn_all2 in O; auto; [lia|]. rewrite (bv_bits_length W); auto.
Qed.

Lemma ext_rounds_ok rounds : forall ss rs, base_ok k ss rs ->
  Forall (fun r => bv_wf W (fst r) /\ bv_head (fst r) = 0 /\ bv_len (fst r) mod 8 = 0 /\ Permutation (snd r) (seq 0 k)) rounds ->
  Forall2 (fun r o => exists sots routs, o = (ROk sots, ROk routs) /\ ot_correct (bv_bits (fst r)) sots routs)
    rounds (ext_rounds k W fill H ss rs rounds).
Proof.
  induction rounds as [|[ch order] rounds IH]; intros ss rs Hb HF; [constructor|].
  inversion HF as [|? ? (A & B & C & D) HF']; subst. cbn [fst snd] in *.
  destruct (ext_correct ss rs ch order [] Hb A B C D) as (sots & routs & msgs & ss' & rs' & E1 & E2 & Hok & Hb').
  rewrite app_nil_r in E2. cbn [ext_rounds]. rewrite E1, E2. constructor; [|apply IH; auto].
  exists sots, routs. auto.
Qed.

End Ext.

(** ** Correlated OT *)

Lemma chunks_concat L l : 0 < L -> Forall (fun x => length x = L) l -> chunks (length l) L (concat l) = l.
Proof.
  intros HL HF. induction HF as [|x l Hx HF IH]; auto. cbn [length chunks concat].
  rewrite firstn_app_exact by auto. rewrite skipn_app_exact by auto. rewrite IH. auto.
Qed.

Lemma concat_length_const {A} L (l : list (list A)) : Forall (fun x => length x = L) l -> length (concat l) = length l * L.
Proof. induction 1 as [|x l Hx HF IH]; auto. cbn [concat length]. rewrite app_length, IH, Hx. lia. Qed.

Lemma cast_arrays_concat L l : 0 < L -> Forall (fun x => length x = L) l -> cast_arrays L (concat l) = Some l.
Proof.
  intros HL HF. unfold cast_arrays. destruct (Nat.eqb_spec L 0); [lia|]. rewrite (concat_length_const L) by auto.
  rewrite Nat.mod_mul, Nat.div_mul by lia. cbn [Nat.eqb]. rewrite chunks_concat; auto.
Qed.

Lemma xor_twice a : forall b, length a = length b -> zip_with xorb a (zip_with xorb a b) = b.
Proof.
  induction a as [|x a IH]; intros [|y b] HL; simpl in HL; try lia; auto. cbn [zip_with].
  rewrite IH by lia. f_equal. destruct x, y; auto.
Qed.

Theorem corr_correct L k f choices ots routs : 0 < L -> L <= k ->
  ot_correct choices ots routs ->
  Forall (fun o => length (fst o) = k /\ length (snd o) = k) ots ->
  (forall i x, length x = L -> length (f i x) = L) ->
  let '(xs, m) := corr_send L f ots in
  length xs = length choices /\
  corr_receive L choices routs (CvCorrelated m) =
  ROk (map (fun ix => let '(i, x) := ix in if nth i choices false then f i x else x)
           (combine (seq 0 (length xs)) xs)).
Proof.
  intros HL HLk (Hlen & ->) HF Hf. unfold corr_send, corr_receive. split; [rewrite map_length; lia|].
  set (cs := map _ (combine _ _)).
  assert (Hcs : Forall (fun x => length x = L) cs).
  { unfold cs. apply Forall_forall. intros x Hx. apply in_map_iff in Hx. destruct Hx as ([i [o0 o1]] & <- & Hin).
    apply in_combine_r in Hin. rewrite Forall_forall in HF. destruct (HF _ Hin) as [A B]. cbn [fst snd] in *.
    rewrite zip_with_length, firstn_length, Hf by (rewrite firstn_length; lia). lia. }
  rewrite cast_arrays_concat by auto. f_equal. unfold cs. clear Hcs cs. rewrite map_length.
  assert (Hgen : forall off chs ots, length ots = length chs ->
     Forall (fun o => length (fst o) = k /\ length (snd o) = k) ots ->
     zip_with (fun rc (c : bool) => if c then zip_with xorb (firstn L (fst rc)) (snd rc) else firstn L (fst rc))
       (combine (zip_with chosen chs ots)
          (map (fun io => zip_with xorb (firstn L (snd (snd io))) (f (fst io) (firstn L (fst (snd io))))) (combine (seq off (length ots)) ots))) chs
     = map (fun ix => let '(i, x) := ix in if nth (i - off) chs false then f i x else x)
           (combine (seq off (length ots)) (map (fun o => firstn L (fst o)) ots))).
  { clear - HL HLk Hf. intros off chs. revert off. induction chs as [|c chs IH]; intros off [|[o0 o1] ots] Hl HF; simpl in Hl; try lia; auto.
    inversion HF as [|? ? [A B] HF']; subst. cbn [fst snd] in *.
    cbn [zip_with length seq combine map fst snd]. f_equal.
    - rewrite Nat.sub_diag. cbn [nth]. unfold chosen. destruct c; cbn [fst snd]; auto.
      rewrite xor_twice; auto. rewrite Hf, firstn_length; rewrite ?firstn_length; lia.
    - rewrite IH by (auto; lia). apply map_ext_in. intros [i x] Hin. apply in_combine_l in Hin. apply in_seq in Hin.
      replace (i - off) with (S (i - S off)) by lia. auto. }
  rewrite Hgen by auto. apply map_ext. intros [i x]. rewrite Nat.sub_0_r. auto.
Qed.
