(** C38, C39: transposition and multiplication of bit matrices. *)
From Coq Require Import ZArith List Bool Arith NArith Lia.
From Coq Require Import ZifyBool ZifyNat ZifyN.
Require Import Verif.Prelude Verif.PreludeProofs Verif.ZapUtilModel Verif.ZapUtilProofs Verif.BitMatModel Verif.BitMatSpec Verif.BitMatProofs.
Require Import Verif.PprfModel Verif.PprfProofs2.
Import ListNotations.
Open Scope nat_scope.

(** ** C38 *)

(** The fast transpose: for all accepted dimensions and contents no access leaves the
    buffers and bit (r, c) is placed at (c, r). *)
Theorem C38_fast : forall nrows ncols input,
  nrows mod 8 = 0 -> ncols mod 8 = 0 -> 16 <= nrows -> 16 <= ncols -> length input * 8 = nrows * ncols ->
  Forall (fun b => (b < 256)%N) input ->
  exists o, fast_transpose nrows ncols input = Some o /\ length o = length input /\ Forall (fun b => (b < 256)%N) o /\
    forall r c, r < nrows -> c < ncols -> byte_bit o (c * nrows + r) = byte_bit input (r * ncols + c).
Proof.
  intros nrows ncols input Mr Mc Hr Hc L F.
  assert (Er : nrows = 8 * (nrows / 8)) by (pose proof (Nat.div_mod nrows 8 ltac:(lia)); lia).
  assert (Ec : ncols = 8 * (ncols / 8)) by (pose proof (Nat.div_mod ncols 8 ltac:(lia)); lia).
  set (R := nrows / 8) in *. set (C := ncols / 8) in *. clearbody R C. subst nrows ncols.
  destruct (fast_ok R C input ltac:(lia) ltac:(lia) ltac:(lia) F) as (o & E & Lo & K).
  exists o. split; auto. split; [lia|]. split.
  - apply Forall_forall. intros x Hx. apply (In_nth _ _ 0%N) in Hx. destruct Hx as (i & Hi & <-). rewrite K by lia.
    unfold want. apply (num_lt _ 8). rewrite map_length, seq_length. auto.
  - intros r c Hlr Hlc. unfold byte_bit at 1.
    pose proof (Nat.div_mod r 8 ltac:(lia)). pose proof (Nat.mod_upper_bound r 8 ltac:(lia)).
    replace ((c * (8 * R) + r) / 8) with (c * R + r / 8) by (apply (Nat.div_unique _ 8 _ (r mod 8)); lia).
    replace ((c * (8 * R) + r) mod 8) with (r mod 8) by (apply (Nat.mod_unique _ 8 (c * R + r / 8)); lia).
    assert (r / 8 < R) by (apply Nat.div_lt_upper_bound; lia).
    rewrite K by (apply (idx_bound R C input); auto; lia). rewrite want_bit by (auto; lia).
    replace ((c * R + r / 8) / R) with c by (apply (Nat.div_unique _ R c (r / 8)); lia).
    replace ((c * R + r / 8) mod R) with (r / 8) by (apply (Nat.mod_unique _ R c (r / 8)); lia).
    f_equal. lia.
Qed.
Print Assumptions C38_fast.

(** Dimensions that are not accepted panic before any access. *)
Theorem C38_rejects : forall nrows ncols input,
  ~ (nrows mod 8 = 0 /\ ncols mod 8 = 0 /\ 16 <= nrows /\ 16 <= ncols /\ length input * 8 = nrows * ncols) ->
  fast_transpose nrows ncols input = None.
Proof.
  intros nrows ncols input H. unfold fast_transpose.
  destruct (Nat.eqb_spec (nrows mod 8) 0); cbn [oassert obind]; auto. destruct (Nat.eqb_spec (ncols mod 8) 0); cbn [oassert obind]; auto.
  destruct (Nat.leb_spec 16 ncols); cbn [oassert obind]; auto. destruct (Nat.leb_spec 16 nrows); cbn [oassert obind]; auto.
  destruct (Nat.eqb_spec (ncols * nrows) (length input * 8)); cbn [oassert obind]; auto. exfalso. apply H. repeat split; auto. lia.
Qed.
Print Assumptions C38_rejects.

Lemma of_bytes_length bs : length (of_bytes bs) = 8 * length bs.
Proof. induction bs as [|b bs IH]; auto. unfold of_bytes in *. cbn [flat_map]. rewrite app_length, map_length, seq_length, IH. cbn [length]. lia. Qed.

Lemma of_bytes_nth bs : forall j, nth j (of_bytes bs) false = byte_bit bs j.
Proof.
  unfold byte_bit. induction bs as [|b bs IH]; intros j.
  - cbn [of_bytes flat_map]. destruct (j / 8), j; cbn [nth]; rewrite N.bits_0; auto.
  - unfold of_bytes in *. cbn [flat_map]. destruct (Nat.ltb_spec j 8).
    + rewrite app_nth1 by (rewrite map_length, seq_length; auto). rewrite nth_mapseq by auto. rewrite Nat.div_small, Nat.mod_small by auto. auto.
    + rewrite app_nth2 by (rewrite map_length, seq_length; auto). rewrite map_length, seq_length. rewrite IH.
      replace (j / 8) with (S ((j - 8) / 8)). 2:{ replace j with (j - 8 + 1 * 8) at 2 by lia. rewrite Nat.div_add by lia. lia. }
      cbn [nth]. do 2 f_equal. replace j with (j - 8 + 1 * 8) at 2 by lia. rewrite Nat.mod_add by lia. auto.
Qed.

Lemma to_bytes_length l : length (to_bytes l) = length l / 8.
Proof. unfold to_bytes. rewrite map_length, seq_length. auto. Qed.

Lemma to_bytes_ok l : Forall (fun b => (b < 256)%N) (to_bytes l).
Proof.
  unfold to_bytes. apply Forall_map, Forall_forall. intros k _. apply (num_lt _ 8). rewrite firstn_length. lia.
Qed.

Lemma to_bytes_bit l j : j < 8 * (length l / 8) -> byte_bit (to_bytes l) j = nth j l false.
Proof.
  intros Hj. unfold byte_bit, to_bytes. pose proof (Nat.div_mod j 8 ltac:(lia)). pose proof (Nat.mod_upper_bound j 8 ltac:(lia)).
  rewrite nth_mapseq by lia. rewrite num_testbit. rewrite nth_firstn by auto. rewrite nth_skipn. f_equal. lia.
Qed.

(** The simple transpose. *)
Lemma simple_ok rows cols input : length input = rows * cols -> exists d, simple_transpose input rows cols = Some d /\
  length d = rows * cols /\ forall r c, r < rows -> c < cols -> nth (c * rows + r) d false = nth (r * cols + c) input false.
Proof.
  intros L. unfold simple_transpose. rewrite L, Nat.eqb_refl. cbn [oassert obind].
  set (ok := fun (D : nat -> Prop) (o : list bool) => length o = rows * cols /\
    forall r c, r < rows -> c < cols -> D (c * rows + r) -> nth (c * rows + r) o false = nth (r * cols + c) input false).
  destruct (ofold_cover (simple_step rows cols input) ok (fun rc i => i = snd rc * rows + fst rc)
    ltac:(intros D D' s H [A B]; split; auto) (flat_map (fun r => map (fun c => (r, c)) (seq 0 cols)) (seq 0 rows))) with (D := fun _ : nat => False) (s := repeat false (rows * cols))
    as (d & E & A & B).
  - intros D o [r c] Hin [A B]. apply in_flat_map in Hin. destruct Hin as (r' & Hr & Hc). apply in_map_iff in Hc. destruct Hc as (c' & Ep & Hc).
    inversion Ep; subst r' c'. apply in_seq in Hr, Hc. unfold simple_step. cbn [fst snd].
    assert (r * cols + c < rows * cols) by nia. assert (c * rows + r < rows * cols) by nia.
    rewrite (nth_error_nth' input false) by lia. cbn [obind]. rewrite A. destruct (Nat.ltb_spec (c * rows + r) (rows * cols)); [|lia]. cbn [oassert obind].
    eexists. split; [reflexivity|]. split; [rewrite upd_length; auto|]. intros r1 c1 Hr1 Hc1 HD. rewrite nth_upd by lia.
    destruct (Nat.eqb_spec (c1 * rows + r1) (c * rows + r)) as [Eq|Ne].
    + assert (c1 = c /\ r1 = r) as [-> ->]; auto.
      assert (c1 = c).
      { rewrite (Nat.div_unique (c1 * rows + r1) rows c1 r1) by lia. rewrite Eq. symmetry. apply (Nat.div_unique _ rows c r); lia. }
      subst c1. split; auto. lia.
    + apply B; auto. destruct HD; auto. contradiction.
  - split; [rewrite repeat_length; auto|tauto].
  - exists d. split; auto. split; auto. intros r c Hr Hc. apply B; auto. right. exists (r, c). split; auto.
    apply in_flat_map. exists r. split; [apply in_seq; lia|]. apply in_map. apply in_seq. lia.
Qed.

Lemma fast_matrix m : exact m -> can_do_sse m = true -> exists d, view_fast_transpose m = Some (BitMat (bm_cols m) (bm_rows m) d) /\
  length d = bm_rows m * bm_cols m /\
  forall r c, r < bm_rows m -> c < bm_cols m -> nth (c * bm_rows m + r) d false = entry m r c.
Proof.
  intros Hx Hd. unfold can_do_sse in Hd. repeat rewrite andb_true_iff in Hd. destruct Hd as [[[A B] D] E].
  apply Nat.eqb_eq in A, B. apply Nat.leb_le in D, E.
  assert (M : length (bm_data m) = 8 * (length (bm_data m) / 8)).
  { apply Nat.div_exact; [lia|]. unfold exact in Hx. rewrite Hx. rewrite <- Nat.mul_mod_idemp_l by lia. rewrite A. auto. }
  destruct (C38_fast (bm_rows m) (bm_cols m) (to_bytes (bm_data m)) A B D E) as (o & Eo & Lo & _ & Bits).
  { rewrite to_bytes_length. unfold exact in Hx. lia. }
  { apply to_bytes_ok. }
  unfold view_fast_transpose. rewrite Eo. cbn [obind]. exists (of_bytes o). split; auto. rewrite to_bytes_length in Lo.
  split; [rewrite of_bytes_length; unfold exact in Hx; lia|]. intros r c Hr Hc. rewrite of_bytes_nth, Bits by auto. unfold entry.
  apply to_bytes_bit. rewrite <- M, Hx. nia.
Qed.

(** [transpose] of every matrix. *)
Theorem C38_transpose : forall m, exact m -> exists m', transpose m = Some m' /\ bm_rows m' = bm_cols m /\ bm_cols m' = bm_rows m /\
  exact m' /\ forall r c, r < bm_rows m -> c < bm_cols m -> entry m' c r = entry m r c.
Proof.
  intros m Hx. destruct (can_do_sse m) eqn:Hd.
  - destruct (fast_matrix m Hx Hd) as (d & E & L & B). exists (BitMat (bm_cols m) (bm_rows m) d). split.
    { unfold transpose. rewrite Hd. unfold view_fast_transpose in E.
      destruct (fast_transpose (bm_rows m) (bm_cols m) (to_bytes (bm_data m))) as [bs|]; cbn [obind] in *; [|discriminate]. auto. }
    cbn [bm_rows bm_cols]. split; auto. split; auto. split; [unfold exact; cbn [bm_rows bm_cols bm_data]; lia|]. intros r c Hr Hc. unfold entry at 1. cbn [bm_cols bm_data]. auto.
  - destruct (simple_ok (bm_rows m) (bm_cols m) (bm_data m) Hx) as (d & E & L & B). exists (BitMat (bm_cols m) (bm_rows m) d).
    split; [unfold transpose; rewrite Hd, E; auto|].
    cbn [bm_rows bm_cols]. split; auto. split; auto. split; [unfold exact; cbn [bm_rows bm_cols bm_data]; lia|]. intros r c Hr Hc. unfold entry at 1. cbn [bm_cols bm_data]. rewrite B by auto. reflexivity.
Qed.
Print Assumptions C38_transpose.

Lemma matrix_ext m1 m2 : exact m1 -> exact m2 -> bm_rows m1 = bm_rows m2 -> bm_cols m1 = bm_cols m2 ->
  (forall r c, r < bm_rows m1 -> c < bm_cols m1 -> entry m1 r c = entry m2 r c) -> m1 = m2.
Proof.
  intros X1 X2 Er Ec H. destruct m1 as [r1 c1 d1], m2 as [r2 c2 d2]. unfold exact, entry in *. cbn [bm_rows bm_cols bm_data] in *. subst r2 c2.
  f_equal. apply (list_ext false); [lia|]. intros i Hi. rewrite X1 in Hi. assert (c1 <> 0) by nia.
  specialize (H (i / c1) (i mod c1) ltac:(apply Nat.div_lt_upper_bound; lia) ltac:(apply Nat.mod_upper_bound; auto)).
  replace (i / c1 * c1 + i mod c1) with i in H by (rewrite Nat.mul_comm; apply Nat.div_mod; auto). auto.
Qed.

(** Where both are defined the fast and the simple transpose are the same function. *)
Theorem C38_agree : forall m, exact m -> can_do_sse m = true ->
  view_fast_transpose m = (d <- simple_transpose (bm_data m) (bm_rows m) (bm_cols m) ;; Some (BitMat (bm_cols m) (bm_rows m) d)).
Proof.
  intros m Hx Hd. destruct (fast_matrix m Hx Hd) as (d & E & L & B). destruct (simple_ok _ _ _ Hx) as (d2 & E2 & L2 & B2).
  rewrite E, E2. cbn [obind]. f_equal.
  apply matrix_ext; unfold exact; cbn [bm_rows bm_cols bm_data]; auto; try lia.
  intros r c Hr Hc. unfold entry. cbn [bm_cols bm_data]. rewrite B by auto. rewrite B2 by auto. reflexivity.
Qed.
Print Assumptions C38_agree.

Theorem C38_involution : forall m, exact m -> exists m', transpose m = Some m' /\ transpose m' = Some m.
Proof.
  intros m Hx. destruct (C38_transpose m Hx) as (m' & E & A & B & X & K). exists m'. split; auto.
  destruct (C38_transpose m' X) as (m2 & E2 & A2 & B2 & X2 & K2). rewrite E2. f_equal.
  apply matrix_ext; auto; try congruence. intros r c Hr Hc. rewrite A2 in Hr. rewrite B2 in Hc. rewrite K2 by congruence. apply K; congruence.
Qed.
Print Assumptions C38_involution.

Lemma square_transpose n bl : 8 * 16 = n -> length bl = n -> 
  exists o, fast_transpose n n (bytes_of bl) = Some o /\ length o = 16 * n /\ bytes_ok o /\
    forall r i, r < n -> i < n -> byte_bit o (r * n + i) = N.testbit (nth i bl 0%N) (N.of_nat r).
Proof.
  intros Hn L. assert (Hl : length (bytes_of bl) * 8 = n * n) by (rewrite bytes_of_length; nia).
  assert (M : n mod 8 = 0) by (subst n; reflexivity).
  destruct (C38_fast n n (bytes_of bl) M M ltac:(lia) ltac:(lia) Hl (bytes_of_ok bl)) as (o & E & Lo & F & B).
  exists o. split; auto. split; [rewrite Lo, bytes_of_length; lia|]. split; auto. intros r i Hr Hi. rewrite B by auto.
  change (byte_bit (bytes_of bl) (i * n + r)) with (bbit (bytes_of bl) (i * n + r)). rewrite bbit_bytes_of. unfold ZapUtilSpec.bit.
  replace 128 with n by lia.
  replace ((i * n + r) / n) with i by (apply (Nat.div_unique _ n i r); lia).
  replace ((i * n + r) mod n) with r by (apply (Nat.mod_unique _ n i r); lia). auto.
Qed.

(** The transposed blocks in the output of the puncturable PRF (C34) are the rows of the
    fast transpose of the 128 blocks. *)
Theorem C38_pprf_block : forall trees k,
  exists o, fast_transpose 128 128 (bytes_of (map (fun b => nth (16 * k + b / 8) (nth (b mod 8) trees []) 0%N) (seq 0 128))) = Some o /\
    forall r, r < 128 -> blk_of_bytes (firstn 16 (skipn (16 * r) o)) = transposed_block trees k r.
Proof.
  intros trees k. unfold transposed_block. remember 128 as n eqn:En. set (bl := map _ (seq 0 n)).
  assert (Lb : length bl = n) by (unfold bl; rewrite map_length, seq_length; auto).
  destruct (square_transpose n bl ltac:(lia) Lb) as (o & E & Lo & F & B). exists o. split; auto. intros r Hr.
  assert (Fs : bytes_ok (firstn 16 (skipn (16 * r) o))) by (apply bytes_ok_firstn, bytes_ok_skipn; auto).
  assert (Ls : length (firstn 16 (skipn (16 * r) o)) = 16) by (rewrite firstn_length, skipn_length; lia).
  apply N.bits_inj. intros m. rewrite <- (N2Nat.id m). set (i := N.to_nat m). rewrite blk_testbit.
  rewrite blk_of_bytes_bit by auto. unfold bbit. destruct (Nat.ltb_spec i n).
  - pose proof (Nat.div_mod i 8 ltac:(lia)). pose proof (Nat.mod_upper_bound i 8 ltac:(lia)).
    rewrite nth_firstn by lia. rewrite nth_skipn.
    assert (Bo : N.testbit (nth (16 * r + i / 8) o 0%N) (N.of_nat (i mod 8)) = byte_bit o (r * n + i)).
    { unfold byte_bit. replace ((r * n + i) / 8) with (16 * r + i / 8) by (apply (Nat.div_unique _ 8 _ (i mod 8)); lia).
      replace ((r * n + i) mod 8) with (i mod 8) by (apply (Nat.mod_unique _ 8 (16 * r + i / 8)); lia). auto. }
    rewrite Bo, B by auto. rewrite nth_mapseq by auto. unfold bl. rewrite nth_mapseq by auto. auto.
  - rewrite (nth_overflow (firstn 16 _)) by (rewrite Ls; apply Nat.div_le_lower_bound; lia). rewrite N.bits_0.
    symmetry. apply nth_overflow. rewrite map_length, seq_length. lia.
Qed.
Print Assumptions C38_pprf_block.

(** * C39: multiplication *)
Lemma xor_sum_ext n f g : (forall k, k < n -> f k = g k) -> xor_sum n f = xor_sum n g.
Proof. induction n as [|n IH]; intros H; cbn [xor_sum]; auto. rewrite IH by (intros; apply H; lia). rewrite H by lia. auto. Qed.
Lemma fold_xor_init l : forall x, fold_left xorb l x = xorb x (fold_left xorb l false).
Proof.
  induction l as [|y l IH]; intros x; cbn [fold_left]; [destruct x; auto|].
  rewrite (IH (xorb x y)), (IH (xorb false y)). destruct x, y, (fold_left xorb l false); auto.
Qed.
Lemma xor_sum_shift n f : xor_sum (S n) f = xorb (f 0) (xor_sum n (fun k => f (S k))).
Proof.
  induction n as [|n IH]; [cbn [xor_sum]; destruct (f 0); auto|]. change (xor_sum (S (S n)) f) with (xorb (xor_sum (S n) f) (f (S n))).
  rewrite IH. cbn [xor_sum]. destruct (f 0), (xor_sum n (fun k => f (S k))), (f (S n)); auto.
Qed.
Lemma fold_xor_sum l : fold_left xorb l false = xor_sum (length l) (fun k => nth k l false).
Proof.
  induction l as [|x l IH]; auto. cbn [length]. rewrite xor_sum_shift. cbn [fold_left nth]. rewrite fold_xor_init, IH. destruct x; auto.
Qed.
Lemma dotp_ok l r : length r = length l -> 1 <= length l ->
  dotp l r = Some (xor_sum (length l) (fun k => nth k l false && nth k r false)).
Proof.
  intros L H. unfold dotp. rewrite L, Nat.sub_diag. cbn [repeat]. rewrite app_nil_r.
  set (z := zip_with andb l r). assert (Lz : length z = length l) by (unfold z; rewrite zip_with_length; lia).
  assert (E : fold_left xorb z false = xor_sum (length l) (fun k => nth k l false && nth k r false)).
  { rewrite fold_xor_sum, Lz. apply xor_sum_ext. intros k Hk. unfold z. rewrite (zip_with_nth _ _ _ _ false false) by lia. auto. }
  rewrite <- E. destruct z as [|x z']; cbn [length] in Lz; [lia|]. cbn [fold_left]. destruct x; auto.
Qed.

Lemma concat_nth {A} (d : A) c : forall rows i j, (forall l, In l rows -> length l = c) -> i < length rows -> j < c ->
  nth (i * c + j) (concat rows) d = nth j (nth i rows []) d.
Proof.
  induction rows as [|l rows IH]; intros i j H Hi Hj; cbn [length] in Hi; [lia|]. cbn [concat].
  assert (length l = c) by (apply H; left; auto). destruct i as [|i].
  - rewrite app_nth1 by lia. auto.
  - rewrite app_nth2 by lia. replace (S i * c + j - length l) with (i * c + j) by lia. apply IH; auto; try lia. intros; apply H; right; auto.
Qed.
Lemma concat_len {A} c : forall rows : list (list A), (forall l, In l rows -> length l = c) -> length (concat rows) = length rows * c.
Proof.
  induction rows as [|l rows IH]; intros H; auto. cbn [concat length]. rewrite app_length, IH by (intros; apply H; right; auto).
  rewrite (H l) by (left; auto). lia.
Qed.

Lemma iter_rows_ok m : 1 <= bm_cols m -> exists l, iter_rows m = Some l /\ length l = length (bm_data m) / bm_cols m /\
  (forall x, In x l -> length x = bm_cols m) /\
  forall r c, r < length (bm_data m) / bm_cols m -> c < bm_cols m -> nth c (nth r l []) false = entry m r c.
Proof.
  intros H. unfold iter_rows. destruct (Nat.leb_spec 1 (bm_cols m)); [|lia]. cbn [oassert obind]. eexists. split; [reflexivity|].
  assert (Q : forall r, r < length (bm_data m) / bm_cols m -> r * bm_cols m + bm_cols m <= length (bm_data m)).
  { intros r Hr. pose proof (Nat.mul_div_le (length (bm_data m)) (bm_cols m) ltac:(lia)). nia. }
  split; [rewrite map_length, seq_length; auto|]. split.
  - intros x Hx. apply in_map_iff in Hx. destruct Hx as (r & <- & Hr). apply in_seq in Hr.
    rewrite firstn_length, skipn_length. specialize (Q r ltac:(lia)). lia.
  - intros r c Hr Hc. rewrite nth_mapseq by auto. rewrite nth_firstn by auto. rewrite nth_skipn. auto.
Qed.

Lemma omap_total {A B} (f : A -> option B) g l : (forall x, In x l -> f x = Some (g x)) -> omap f l = Some (map g l).
Proof. induction l as [|x l IH]; intros H; auto. cbn [omap map]. rewrite H by (left; auto). cbn [obind]. rewrite IH by (intros; apply H; right; auto). auto. Qed.

(** The product of two matrices of all dimensions: the left one may carry dead bits behind its entries. *)
Theorem C39_product : forall W junk a b, 1 <= W -> covers a -> exact b -> bm_cols a = bm_rows b -> 1 <= bm_cols a ->
  exists m, mat_mul W junk a b = Some m /\ bm_rows m = bm_rows a /\ bm_cols m = bm_cols b /\ covers m /\
    forall i j, i < bm_rows a -> j < bm_cols b -> entry m i j = xor_sum (bm_cols a) (fun k => entry a i k && entry b k j).
Proof.
  intros W junk a b HW Ca Xb Ed H1. unfold mat_mul. rewrite (proj2 (Nat.eqb_eq _ _) Ed). cbn [oassert obind].
  destruct (C38_transpose b Xb) as (t & Et & Tr & Tc & Tx & Te). rewrite Et. cbn [obind].
  destruct (iter_rows_ok a H1) as (la & Ea & La & Lla & Na). rewrite Ea. cbn [obind].
  destruct (iter_rows_ok t ltac:(lia)) as (lb & Eb & Lb & Llb & Nb). rewrite Eb. cbn [obind].
  assert (Lt : length lb = bm_cols b) by (rewrite Lb, Tx, Nat.div_mul; lia). rewrite Lb in Lt.
  assert (Ra : bm_rows a <= length (bm_data a) / bm_cols a) by (apply Nat.div_le_lower_bound; unfold covers in Ca; lia).
  set (h := fun l r => xor_sum (bm_cols a) (fun k => nth k l false && nth k r false)).
  assert (Er : omap (fun l => omap (fun r => dotp l r) lb) la = Some (map (fun l => map (h l) lb) la)).
  { apply omap_total. intros l Hl. apply omap_total. intros r Hr. rewrite dotp_ok; rewrite ?(Lla l Hl), ?(Llb r Hr); auto. lia. }
  rewrite Er. cbn [obind]. eexists. split; [reflexivity|]. cbn [bm_rows bm_cols bm_data].
  set (rows := map (fun l => map (h l) lb) la).
  assert (Lr : forall x, In x rows -> length x = bm_cols b).
  { intros x Hx. apply in_map_iff in Hx. destruct Hx as (l & <- & _). rewrite map_length. lia. }
  assert (Lc : length (concat rows) = length (bm_data a) / bm_cols a * bm_cols b).
  { rewrite (concat_len (bm_cols b)) by auto. unfold rows. rewrite map_length, La. auto. }
  split; [auto|]. split; [auto|]. split.
  - unfold covers. cbn [bm_rows bm_cols bm_data]. unfold into_vec. rewrite app_length, Lc, Tr. nia.
  - intros i j Hi Hj. unfold entry at 1. cbn [bm_cols bm_data]. rewrite Tr. unfold into_vec.
    rewrite app_nth1 by (rewrite Lc; nia).
    rewrite concat_nth by (auto; unfold rows; rewrite map_length, La; lia).
    unfold rows. rewrite (nth_indep _ [] (map (h []) lb)) by (rewrite map_length, La; lia).
    rewrite (map_nth (fun l => map (h l) lb)). rewrite (nth_indep _ false (h (nth i la []) [])) by (rewrite map_length; lia).
    rewrite map_nth. unfold h. apply xor_sum_ext. intros k Hk. rewrite Na by lia. rewrite Nb by (try rewrite Lt; lia).
    f_equal. apply Te; lia.
Qed.
Print Assumptions C39_product.

(** A product is an exact matrix again when the left operand is exact and the number of
    entries fills whole elements; then products can be chained. *)
Theorem C39_exact : forall W junk a b m, 1 <= W -> exact a -> exact b -> 1 <= bm_cols a -> (bm_rows a * bm_cols b) mod W = 0 ->
  mat_mul W junk a b = Some m -> exact m.
Proof.
  intros W junk a b m HW Xa Xb H1 Hm E. unfold mat_mul in E.
  destruct (Nat.eqb_spec (bm_cols a) (bm_rows b)) as [Ed|]; [|discriminate]. cbn [oassert obind] in E.
  destruct (C38_transpose b Xb) as (t & Et & Tr & Tc & Tx & Te). rewrite Et in E. cbn [obind] in E.
  destruct (iter_rows_ok a H1) as (la & Ea & La & Lla & Na). rewrite Ea in E. cbn [obind] in E.
  destruct (iter_rows_ok t ltac:(lia)) as (lb & Eb & Lb & Llb & Nb). rewrite Eb in E. cbn [obind] in E.
  destruct (omap _ la) as [rows|] eqn:Er; [|discriminate]. cbn [obind] in E. injection E as <-.
  set (h := fun l r => xor_sum (bm_cols a) (fun k => nth k l false && nth k r false)) in *.
  assert (Er' : omap (fun l => omap (fun r => dotp l r) lb) la = Some (map (fun l => map (h l) lb) la)).
  { apply omap_total. intros l Hl. apply omap_total. intros r Hr. rewrite dotp_ok; rewrite ?(Lla l Hl), ?(Llb r Hr); auto. lia. }
  rewrite Er' in Er. injection Er as <-. unfold exact. cbn [bm_rows bm_cols bm_data]. unfold into_vec.
  rewrite app_length, map_length, seq_length. rewrite (concat_len (bm_cols b)).
  - rewrite map_length, La, Xa, Nat.div_mul by lia. rewrite Hm, Nat.sub_0_r, Nat.mod_same by lia. rewrite Tr. lia.
  - intros x Hx. apply in_map_iff in Hx. destruct Hx as (l & <- & _). rewrite map_length, Lb, Tx, Nat.div_mul by lia. auto.
Qed.
Print Assumptions C39_exact.

(** Multiplication by the identity. *)
Lemma set_diag_ok size : forall fuel s l, length l = size * size -> s * (size + 1) + fuel * (size + 1) >= size * size ->
  length (set_diag size fuel (s * (size + 1)) l) = size * size /\
  forall i, i < size * size -> nth i (set_diag size fuel (s * (size + 1)) l) false =
    (nth i l false || ((s * (size + 1) <=? i) && (i mod (size + 1) =? 0))).
Proof.
  induction fuel as [|fuel IH]; intros s l L H; cbn [set_diag].
  - split; auto. intros i Hi. destruct (Nat.leb_spec (s * (size + 1)) i); [lia|]. cbn [andb]. rewrite orb_false_r. auto.
  - destruct (Nat.ltb_spec (s * (size + 1)) (size * size)).
    + replace (s * (size + 1) + (size + 1)) with (S s * (size + 1)) by lia.
      destruct (IH (S s) (upd (s * (size + 1)) true l)) as [A B]; [rewrite upd_length; auto|lia|]. split; auto. intros i Hi. rewrite B by auto.
      rewrite upd_nth. rewrite ?L.
      pose proof (Nat.div_mod i (size + 1) ltac:(lia)). pose proof (Nat.mod_upper_bound i (size + 1) ltac:(lia)).
      destruct (Nat.eqb_spec (s * (size + 1)) i) as [<-|Hne].
      * destruct (Nat.ltb_spec (s * (size + 1)) (size * size)); [|lia]. cbn [andb orb]. rewrite Nat.leb_refl, Nat.mod_mul by lia. cbn [Nat.eqb andb].
        rewrite orb_true_r. auto.
      * cbn [andb]. f_equal. destruct (Nat.eqb_spec (i mod (size + 1)) 0) as [E0|]; [|rewrite !andb_false_r; auto]. rewrite !andb_true_r.
        destruct (Nat.leb_spec (S s * (size + 1)) i), (Nat.leb_spec (s * (size + 1)) i); auto; try lia.
        exfalso. rewrite E0 in H1. assert (s < i / (size + 1) \/ i / (size + 1) <= s) as [|] by lia; nia.
    + split; auto. intros i Hi. destruct (Nat.leb_spec (s * (size + 1)) i); [lia|]. cbn [andb]. rewrite orb_false_r. auto.
Qed.

Lemma identity_ok W size : 1 <= W -> (size * size) mod W = 0 -> exists m, identity W size = Some m /\ bm_rows m = size /\ bm_cols m = size /\ exact m /\
  forall r c, r < size -> c < size -> entry m r c = (r =? c).
Proof.
  intros HW Hm. unfold identity. rewrite Hm, Nat.eqb_refl. cbn [oassert obind]. eexists. split; [reflexivity|].
  destruct (set_diag_ok size (size * size) 0 (repeat false (size * size))) as [A B]; [apply repeat_length|nia|]. cbn [Nat.mul] in A, B.
  split; [auto|]. split; [auto|]. split; [exact A|]. intros r c Hr Hc. unfold entry. cbn [bm_cols bm_data]. rewrite B by nia.
  rewrite nth_repeat. cbn [orb]. destruct (Nat.leb_spec 0 (r * size + c)); [|lia]. cbn [andb].
  destruct (Nat.eqb_spec r c) as [<-|Hne].
  - apply Nat.eqb_eq. replace (r * size + r) with (r * (size + 1)) by lia. apply Nat.mod_mul. lia.
  - apply Nat.eqb_neq. intros E. pose proof (Nat.div_mod (r * size + c) (size + 1) ltac:(lia)) as D. rewrite E in D.
    set (q := (r * size + c) / (size + 1)) in *. assert (q = r \/ q < r \/ r < q) as [->|[|]] by lia; nia.
Qed.

Lemma xor_sum_single n i f : i < n -> xor_sum n (fun k => (i =? k) && f k) = f i.
Proof.
  intros H. assert (Z : forall n, n <= i -> xor_sum n (fun k => (i =? k) && f k) = false).
  { intros n0. induction n0 as [|n0 IH]; intros Hn; auto. cbn [xor_sum]. rewrite IH by lia. destruct (Nat.eqb_spec i n0); [lia|]. auto. }
  induction n as [|n IH]; [lia|]. cbn [xor_sum]. destruct (Nat.eqb_spec i n) as [<-|].
  - rewrite Z by lia. destruct (f i); auto.
  - rewrite IH by lia. destruct (f i); auto.
Qed.

Theorem C39_identity : forall W junk b, 1 <= W -> exact b -> 1 <= bm_rows b ->
  (bm_rows b * bm_rows b) mod W = 0 -> (bm_rows b * bm_cols b) mod W = 0 ->
  exists e, identity W (bm_rows b) = Some e /\ mat_mul W junk e b = Some b.
Proof.
  intros W junk b HW Xb H1 Hm Hm2. destruct (identity_ok W (bm_rows b) HW Hm) as (e & Ee & Er & Ec & Xe & En). exists e. split; auto.
  destruct (C39_product W junk e b HW) as (m & Em & Mr & Mc & Cm & Mn); auto; [unfold covers; rewrite Xe; lia|lia|].
  rewrite Em. f_equal. apply matrix_ext; auto; try congruence.
  - apply (C39_exact W junk e b m); auto; try lia. rewrite Er. auto.
  - intros r c Hr Hc. rewrite Mn by congruence. rewrite Ec. rewrite <- (xor_sum_single (bm_rows b) r (fun k => entry b k c)) by congruence.
    apply xor_sum_ext. intros k Hk. rewrite En by congruence. auto.
Qed.
Print Assumptions C39_identity.

(** Wrong dimensions are rejected. *)
Theorem C39_rejects : forall W junk a b, bm_cols a <> bm_rows b -> mat_mul W junk a b = None.
Proof. intros W junk a b H. unfold mat_mul. destruct (Nat.eqb_spec (bm_cols a) (bm_rows b)); [lia|]. auto. Qed.

(** Not every product can be used as a right operand: a 3x8 matrix times an 8x1 matrix
    is padded to eight bits, and an 8x3 matrix cannot be multiplied with it. *)
Theorem C39_chain_refuted : exists a b c p, forall junk, 
  exact a /\ exact b /\ exact c /\ bm_cols a = bm_rows b /\ bm_cols c = bm_rows a /\
  mat_mul 8 (fun _ => false) a b = Some p /\ mat_mul 8 junk c p = None.
Proof.
  exists (BitMat 3 8 (repeat true 24)), (BitMat 8 1 (repeat true 8)), (BitMat 8 3 (repeat true 24)), (BitMat 3 1 (repeat false 8)).
  intros junk. repeat split; vm_compute; reflexivity.
Qed.
Print Assumptions C39_chain_refuted.

(** Instances. *)
Definition sample_matrix (r c : nat) : bitmat := BitMat r c (map (fun i => (i * i + i / 3) mod 5 <? 2) (seq 0 (r * c))).
Example C38_case : exact (sample_matrix 16 24) /\ can_do_sse (sample_matrix 16 24) = true /\
  (exists m, transpose (sample_matrix 16 24) = Some m /\ bm_data m <> bm_data (sample_matrix 16 24)) /\
  exact (sample_matrix 3 8) /\ can_do_sse (sample_matrix 3 8) = false.
Proof.
  split; [reflexivity|]. split; [reflexivity|]. split; [|split; reflexivity].
  destruct (C38_transpose (sample_matrix 16 24) eq_refl) as (m & E & _). exists m. split; auto. intros H.
  assert (K : option_map bm_data (transpose (sample_matrix 16 24)) = Some (bm_data (sample_matrix 16 24))) by (rewrite E; cbn [option_map]; congruence).
  vm_compute in K. discriminate K.
Qed.
Example C39_case : exact (sample_matrix 4 6) /\ exact (sample_matrix 6 2) /\ (4 * 2) mod 8 = 0 /\
  mat_mul 8 (fun _ => true) (sample_matrix 4 6) (sample_matrix 6 2) <> Some (BitMat 4 2 (repeat false 8)) /\
  mat_mul 8 (fun _ => true) (sample_matrix 4 6) (sample_matrix 6 2) <> None.
Proof. repeat split; vm_compute; discriminate. Qed.
