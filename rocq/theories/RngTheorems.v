(** C66: the AES generator, the AES hash and block conversions. *)
From Coq Require Import List Bool Arith NArith ZArith Lia FinFun.
Require Import Verif.Prelude Verif.PreludeProofs Verif.ZapUtilModel Verif.ZapUtilProofs Verif.RngModel Verif.RngSpec Verif.RngProofs.
Import ListNotations.
Ltac Zify.zify_post_hook ::= Z.div_mod_to_equations.

(** Any history of calls on any generators gives exactly the bytes of the key
    streams, and panics exactly at the end of a stream. *)
Theorem C66_stream : forall enc seeds h,
  do_calls enc h (map from_seed seeds) = s_calls enc h (map (fun k => (k, 0%N)) seeds).
Proof.
  intros. apply do_calls_ok. induction seeds; constructor; auto. apply at_st_fresh.
Qed.

(** The same as a statement about stretches of key stream: each call of a
    completed history is answered from its stretch, keys of new generators are
    their parents' stretches. *)
Theorem C66_stretches : forall enc seeds h r,
  do_calls enc h (map from_seed seeds) = Some r ->
  exists keys,
    keys = seeds ++ child_keys enc keys (combine (map snd h) (stretches h (fun _ => 0%N)))
    /\ length r = length h
    /\ forall a i c, nth_error h a = Some (i, c) ->
         exists k p, nth_error keys i = Some k
           /\ nth_error (stretches h (fun _ => 0%N)) a = Some (i, p, want c)
           /\ nth_error r a = Some (answer_of c (kbytes enc k p (want c))).
Proof.
  intros enc seeds h r E. rewrite C66_stream in E.
  destruct (s_calls_stretches enc h (map (fun k => (k, 0%N)) seeds) (fun _ => 0%N) r) as (new & H1 & H2 & H3).
  - intros j st Hj. apply nth_error_In, in_map_iff in Hj. destruct Hj as (k & <- & _). reflexivity.
  - auto.
  - exact E.
  - cbv zeta in *. assert (M : map fst (map (fun k : N => (k, 0%N)) seeds) = seeds) by (rewrite map_map; apply map_id).
    rewrite M in *. exists (seeds ++ new). split; [|auto]. f_equal. apply H1. reflexivity.
Qed.

(** No part of a key stream is used by two calls. *)
Theorem C66_no_reuse : forall h a b g p n q m, a < b ->
  nth_error (stretches h (fun _ => 0%N)) a = Some (g, p, n) ->
  nth_error (stretches h (fun _ => 0%N)) b = Some (g, q, m) ->
  (p + N.of_nat n <= q)%N.
Proof. intros h a b g p n q m. apply stretches_sorted. Qed.

Lemma blocks_run enc k n : (forall x, (x < 2 ^ 128)%N -> (enc k x < 2 ^ 128)%N) -> forall b, (b + N.of_nat n <= M128 - 8)%N ->
  s_calls enc (repeat (0, CBlock) n) [(k, (16 * b)%N)] = Some (map (fun j => ANum (enc k (b + N.of_nat j)%N)) (seq 0 n)).
Proof.
  intros HE. induction n as [|n IH]; intros b HB; [reflexivity|].
  cbn [repeat s_calls nth_error]. unfold s_call. cbn [want].
  assert (A : after (16 * b) 16 = (16 * (b + 1))%N) by (unfold after; lia). rewrite A, stream_end_eq.
  destruct (N.leb_spec (16 * (b + 1)) (16 * (M128 - 8))); [|lia].
  cbn [firstn skipn app]. rewrite IH by lia. rewrite kbytes_block, blk_bytes_le by (apply HE; rewrite M128_eq; lia).
  cbn [seq map]. rewrite N.add_0_r. do 2 f_equal. rewrite <- seq_shift, map_map. apply map_ext. intros j. do 2 f_equal. lia.
Qed.

(** The blocks drawn from a fresh generator are [enc k 0], [enc k 1], ...; for a
    cipher without collisions they are different. *)
Theorem C66_blocks : forall enc k n,
  (forall x, (x < 2 ^ 128)%N -> (enc k x < 2 ^ 128)%N) ->
  (N.of_nat n <= 2 ^ 128 - 8)%N ->
  do_calls enc (repeat (0, CBlock) n) [from_seed k] = Some (map (fun j => ANum (enc k (N.of_nat j))) (seq 0 n))
  /\ ((forall x y, (x < 2 ^ 128)%N -> (y < 2 ^ 128)%N -> enc k x = enc k y -> x = y) ->
      NoDup (map (fun j => ANum (enc k (N.of_nat j))) (seq 0 n))).
Proof.
  intros enc k n HE HN. split.
  - change [from_seed k] with (map from_seed [k]). rewrite C66_stream. cbn [map].
    change (k, 0%N) with (k, (16 * 0)%N). rewrite (blocks_run enc k n HE); [reflexivity|]. rewrite M128_eq in HN. lia.
  - intros HI. rewrite <- (map_map N.of_nat (fun b => ANum (enc k b))).
    rewrite M128_eq in *. destruct M128_mod as (q & Hq & Hq').
    assert (L : forall x, In x (map N.of_nat (seq 0 n)) -> (x < M128)%N).
    { intros x Hx. apply in_map_iff in Hx. destruct Hx as (j & <- & Hj). apply in_seq in Hj. lia. }
    assert (D : NoDup (map N.of_nat (seq 0 n))).
    { apply FinFun.Injective_map_NoDup; [|apply seq_NoDup]. intros x y E. apply Nat2N.inj. exact E. }
    induction D as [|x l Hx D IH]; cbn; constructor.
    + intros Hin. apply in_map_iff in Hin. destruct Hin as (y & E & Hy). injection E as E. apply Hx.
      rewrite <- (HI y x); auto; apply L; cbn; auto.
    + apply IH. intros y Hy. apply L. cbn. auto.
Qed.

Lemma firstn_In {A} (x : A) n l : In x (firstn n l) -> In x l.
Proof. intros H. rewrite <- (firstn_skipn n l). apply in_or_app. auto. Qed.
Lemma skipn_In {A} (x : A) n l : In x (skipn n l) -> In x l.
Proof. intros H. rewrite <- (firstn_skipn n l). apply in_or_app. auto. Qed.

Lemma split_run enc i a b : a mod 4 = 0 -> forall h sts R,
  Forall (fun st => (snd st mod 4 = 0)%N) sts ->
  s_calls enc (h ++ [(i, CFill a); (i, CFill b)]) sts = Some R ->
  exists r x y, R = r ++ [ABytes x; ABytes y] /\ s_calls enc (h ++ [(i, CFill (a + b))]) sts = Some (r ++ [ABytes (x ++ y)]).
Proof.
  intros Ha. induction h as [|[j c] h IH]; intros sts R F E; cbn [app s_calls] in *.
  - destruct (nth_error sts i) as [[k p]|] eqn:Ei; [|discriminate]. unfold s_call in E at 1. cbn [want] in E.
    assert (P : (p mod 4 = 0)%N) by (rewrite Forall_forall in F; exact (F _ (nth_error_In _ _ Ei))).
    destruct (N.leb_spec (after p a) stream_end); [|discriminate]. rewrite app_nil_r in E.
    assert (LF : length (firstn i sts) = i) by (rewrite firstn_length; apply Nat.min_l, Nat.lt_le_incl, nth_error_Some; congruence).
    rewrite nth_error_app2 in E by lia. rewrite LF, Nat.sub_diag in E. cbn [nth_error] in E.
    unfold s_call in E. cbn [want] in E.
    destruct (N.leb_spec (after (after p a) b) stream_end) as [L|L]; [|discriminate]. injection E as <-.
    exists [], (kbytes enc k p a), (kbytes enc k (after p a) b). split; [reflexivity|].
    unfold s_call. cbn [want].
    assert (Q : after (after p a) b = after p (a + b)) by (unfold after; lia). rewrite Q in L. apply N.leb_le in L. rewrite L.
    assert (Q' : after p a = (p + N.of_nat a)%N) by (unfold after; lia). rewrite Q', <- kbytes_app. reflexivity.
  - destruct (nth_error sts j) as [[k p]|] eqn:Ej; [|discriminate].
    destruct (s_call enc c (k, p)) as [[[an st'] new]|] eqn:Ec; [|discriminate].
    destruct (s_calls enc (h ++ [(i, CFill a); (i, CFill b)]) _) as [R'|] eqn:E'; [|discriminate]. injection E as <-.
    apply IH in E'.
    + destruct E' as (r & x & y & -> & E2). rewrite E2. exists (an :: r), x, y. auto.
    + apply Forall_app. split; [apply Forall_forall; intros z Hz; rewrite Forall_forall in F; apply F; eapply firstn_In; eauto|].
      unfold s_call in Ec. destruct (after p (want c) <=? stream_end)%N; [|discriminate]. injection Ec as <- <- <-.
      constructor; [cbn [snd]; unfold after; lia|]. apply Forall_app. split.
      * apply Forall_forall. intros z Hz. rewrite Forall_forall in F. apply F. eapply skipn_In; eauto.
      * destruct c; repeat constructor.
Qed.

(** Filling a buffer in two calls gives the same bytes as one call if the first
    part is a multiple of four bytes; at any time, for any generator. *)
Theorem C66_split : forall enc seeds h i a b R,
  a mod 4 = 0 ->
  do_calls enc (h ++ [(i, CFill a); (i, CFill b)]) (map from_seed seeds) = Some R ->
  exists r x y, R = r ++ [ABytes x; ABytes y]
    /\ do_calls enc (h ++ [(i, CFill (a + b))]) (map from_seed seeds) = Some (r ++ [ABytes (x ++ y)]).
Proof.
  intros enc seeds h i a b R Ha E. rewrite C66_stream in *. apply split_run; auto.
  apply Forall_forall. intros z Hz. apply in_map_iff in Hz. destruct Hz as (k & <- & _). reflexivity.
Qed.

(** A small stand-in for AES in the examples. *)
Definition toy (k x : N) : N := ((k + x * 0x0123456789abcdef0123456789abcdef) mod 2 ^ 128)%N.

(** Otherwise the rest of the last word is lost and the bytes differ. *)
Theorem C66_split_refuted : exists enc k a b x y,
  do_calls enc [(0, CFill a); (0, CFill b)] [from_seed k] = Some [ABytes x; ABytes y]
  /\ do_calls enc [(0, CFill (a + b))] [from_seed k] <> Some [ABytes (x ++ y)].
Proof.
  exists toy, 0x0f0e0d0c0b0a09080706050403020100%N, 1, 3, [0%N], [4; 5; 6]%N. split; [reflexivity|].
  intros E. assert (T : do_calls toy [(0, CFill (1 + 3))] [from_seed 0x0f0e0d0c0b0a09080706050403020100%N]
    = Some [ABytes [0; 1; 2; 3]%N]) by reflexivity. rewrite T in E. discriminate.
Qed.

(** Hashing many blocks, into a new array or in place, hashes each block. *)
Theorem C66_hash : forall enc key xs,
  cr_hash_blocks enc key xs = map (cr_hash_block enc key) xs
  /\ cr_hash_slice_mut enc key xs = map (cr_hash_block enc key) xs.
Proof.
  intros enc key xs. split.
  - induction xs as [|x xs IH]; auto. unfold cr_hash_blocks, cr_hash_block in *. cbn [map zip_with]. rewrite IH, N.lxor_comm. reflexivity.
  - induction xs as [|x xs IH]; auto. unfold cr_hash_slice_mut, cr_hash_block in *. cbn [map zip_with]. rewrite IH. reflexivity.
Qed.

(** Blocks survive the conversion to bytes and to halves; other lengths are
    errors, also longer ones. *)
Theorem C66_block_bytes : forall b bytes,
  (b < 2 ^ 128)%N ->
  block_try_from (blk_bytes b) = Some b
  /\ (let (lo, hi) := block_halves b in b = (lo + 2 ^ 64 * hi)%N /\ (lo < 2 ^ 64)%N)
  /\ (length bytes <> 16 -> block_try_from bytes = None).
Proof.
  intros b bytes H. pose proof (blk_bytes_le b H) as L. split; [|split].
  - unfold block_try_from. rewrite blk_bytes_length. change (16 =? 16) with true. cbv iota. f_equal. exact L.
  - unfold block_halves. split.
    + rewrite <- L at 1. rewrite <- (firstn_skipn 8 (blk_bytes b)) at 1. rewrite le_num_app.
      rewrite firstn_length, blk_bytes_length. reflexivity.
    + change (blk_of_bytes (firstn 8 (blk_bytes b))) with (le_num (firstn 8 (blk_bytes b))).
      eapply N.lt_le_trans; [apply le_num_lt|rewrite firstn_length, blk_bytes_length; vm_compute; discriminate].
      apply Forall_forall. intros z Hz. apply firstn_In in Hz. unfold blk_bytes in Hz. apply in_map_iff in Hz.
      destruct Hz as (j & <- & _). apply N.mod_lt. discriminate.
  - intros NE. unfold block_try_from. apply Nat.eqb_neq in NE. rewrite NE. reflexivity.
Qed.

(** Different threads of the PPRF expansion use different keys. *)
Theorem C66_thread_keys : forall seed s t, thread_key seed s = thread_key seed t -> s = t.
Proof.
  intros seed s t E. unfold thread_key in E. apply Nat2N.inj.
  apply (f_equal (N.lxor seed)) in E. rewrite <- !N.lxor_assoc, N.lxor_nilpotent, !N.lxor_0_l in E. exact E.
Qed.

(** ** Cases *)

Example C66_stream_case :
  do_calls toy [(0, CU32); (0, CFill 5); (0, CU64); (0, CFork); (1, CBlock); (1, CU32); (0, CFromRng); (2, CU32)]
    (map from_seed [0x0f0e0d0c0b0a09080706050403020100%N])
  = Some [ANum 0x03020100; ABytes [4; 5; 6; 7; 8]; ANum 10136985862425939212; ANew;
          ANum 29708311977239383578537559998968973931; ANum 2446661722; ANew; ANum 156012499]%N.
Proof. vm_compute. reflexivity. Qed.

Example C66_no_reuse_case :
  stretches [(0, CU32); (0, CFill 5); (0, CU64); (0, CFork); (1, CBlock); (1, CU32); (0, CFromRng); (2, CU32)] (fun _ => 0%N)
  = [(0, 0%N, 4); (0, 4%N, 5); (0, 12%N, 8); (0, 20%N, 16); (1, 0%N, 16); (1, 16%N, 4); (0, 36%N, 16); (2, 0%N, 4)].
Proof. reflexivity. Qed.

(** An addition modulo [2^128] meets the conditions of [C66_blocks]. *)
Example C66_blocks_case : let enc := fun k x => ((k + x) mod 2 ^ 128)%N in
  do_calls enc (repeat (0, CBlock) 9) [from_seed 7]
    = Some (map (fun j => ANum (enc 7%N (N.of_nat j))) (seq 0 9))
  /\ NoDup (map (fun j => ANum (enc 7%N (N.of_nat j))) (seq 0 9)).
Proof.
  cbv zeta. destruct (C66_blocks (fun k x => ((k + x) mod 2 ^ 128)%N) 7 9) as [A B].
  - intros x _. apply N.mod_lt. discriminate.
  - vm_compute. discriminate.
  - split; [exact A|]. apply B. intros x y. change (2 ^ 128)%N with 340282366920938463463374607431768211456%N. lia.
Qed.

Example C66_split_case :
  do_calls toy [(0, CU32); (0, CFill 8); (0, CFill 3)] [from_seed 5] = Some [ANum 5; ABytes [0; 0; 0; 0; 0; 0; 0; 0]; ABytes [0; 0; 0]]%N
  /\ do_calls toy [(0, CU32); (0, CFill 11)] [from_seed 5] = Some [ANum 5; ABytes [0; 0; 0; 0; 0; 0; 0; 0; 0; 0; 0]]%N.
Proof. split; reflexivity. Qed.

Example C66_hash_case : cr_hash_slice_mut toy 3 [1; 5]%N = [N.lxor 1 (toy 3 1); N.lxor 5 (toy 3 5)].
Proof. reflexivity. Qed.

Example C66_block_bytes_case :
  block_try_from (blk_bytes 0x0102030405060708090a0b0c0d0e0f10) = Some 0x0102030405060708090a0b0c0d0e0f10%N
  /\ block_halves 0x0102030405060708090a0b0c0d0e0f10 = (0x090a0b0c0d0e0f10, 0x0102030405060708)%N
  /\ block_try_from (repeat 1%N 24) = None.
Proof. repeat split. Qed.

Example C66_thread_keys_case : thread_key 6 3 = 5%N /\ thread_key 6 4 = 2%N.
Proof. split; reflexivity. Qed.

Print Assumptions C66_stream.
Print Assumptions C66_stretches.
Print Assumptions C66_no_reuse.
Print Assumptions C66_blocks.
Print Assumptions C66_split.
Print Assumptions C66_split_refuted.
Print Assumptions C66_hash.
Print Assumptions C66_block_bytes.
Print Assumptions C66_thread_keys.
