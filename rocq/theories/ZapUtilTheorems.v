(** C36, C37 and C52: small functions of zappot. *)
From Coq Require Import List Bool Arith NArith ZArith Lia ZifyBool ZifyNat ZifyN.
Require Import Verif.Prelude Verif.PreludeProofs Verif.ZapUtilModel Verif.ZapUtilSpec Verif.ZapUtilProofs.
Import ListNotations.
Ltac Zify.zify_post_hook ::= Z.div_mod_to_equations.

(** ** C52 *)

(** For every positive machine integer, [log2_floor] is the exponent of the largest
    power of two not above it. *)
Theorem C52_floor bits v : (0 < v)%N -> (v < 2 ^ N.of_nat bits)%N ->
  exists f, log2_floor bits v = Some f /\ (2 ^ N.of_nat f <= v)%N /\ (v < 2 ^ N.of_nat (S f))%N.
Proof.
  intros H0 Hv. exists (N.to_nat (N.log2 v)). split; [apply log2_floor_eq; auto; lia|].
  pose proof (N.log2_spec v H0) as [A B].
  replace (N.of_nat (S (N.to_nat (N.log2 v)))) with (N.succ (N.log2 v)) by lia. rewrite N2Nat.id. auto.
Qed.

(** [log2_ceil] is the exponent of the smallest power of two not below it. *)
Theorem C52_ceil bits v : (0 < v)%N -> (v < 2 ^ N.of_nat bits)%N ->
  exists c, log2_ceil bits v = Some c /\ (v <= 2 ^ N.of_nat c)%N /\
    forall k, (v <= 2 ^ N.of_nat k)%N -> c <= k.
Proof.
  intros H0 Hv. destruct (C52_floor bits v H0 Hv) as (f & Ef & Hlo & Hhi). unfold log2_ceil. rewrite Ef. cbn [obind].
  assert (Hf : f < bits).
  { destruct (Nat.lt_ge_cases f bits); auto. exfalso.
    assert (2 ^ N.of_nat bits <= 2 ^ N.of_nat f)%N by (apply N.pow_le_mono_r; lia). lia. }
  destruct (Nat.ltb_spec f bits); [|lia]. cbn [oassert obind]. eexists. split; [reflexivity|].
  rewrite N.shiftl_1_l. destruct (N.ltb_spec (2 ^ N.of_nat f) v) as [Hlt|Hge].
  - split; [replace (f + 1) with (S f) by lia; lia|]. intros k Hk. destruct (Nat.le_gt_cases (f + 1) k); auto. exfalso.
    assert (2 ^ N.of_nat k <= 2 ^ N.of_nat f)%N by (apply N.pow_le_mono_r; lia). lia.
  - split; auto. intros k Hk. destruct (Nat.le_gt_cases f k); auto. exfalso.
    assert (2 ^ N.of_nat k < 2 ^ N.of_nat f)%N by (apply N.pow_lt_mono_r; lia). lia.
Qed.

(** Zero panics (both are [debug_assert]s on a positive argument). *)
Theorem C52_zero bits : log2_floor bits 0 = None /\ log2_ceil bits 0 = None.
Proof. split; reflexivity. Qed.

Example C52_case :
  map (log2_floor 64) [1; 2; 3; 4; 5; 2 ^ 63; 2 ^ 64 - 1]%N = map Some [0; 1; 1; 2; 2; 63; 63] /\
  map (log2_ceil 64) [1; 2; 3; 4; 5; 2 ^ 63; 2 ^ 64 - 1]%N = map Some [0; 1; 2; 2; 3; 63; 64].
Proof. vm_compute. auto. Qed.

(** ** C36 *)

(** Partial: the full statement has no condition on chunks (see [C36_panic]).
    When no later chunk of several blocks starts at a block boundary, [modp] is the
    remainder of the input polynomial modulo x^p - 1, for every modulus, every input
    length and all bits; bits from [p] on are cleared. *)
Theorem C36_remainder_partial dest inp p : blocks_ok inp -> 1 <= p -> p <= 128 * length dest -> p <= 128 * length inp ->
  ~ aligned_chunk (length inp) p ->
  exists d, modp dest inp p = Some d /\ length d = length dest /\ blocks_ok d /\
    forall j, j < 128 * length dest -> bit d j = if j <? p then residue_xor inp p j else false.
Proof. apply modp_spec. Qed.

Lemma odd_halve a m b : a * (2 * m + 1) = 2 * b -> exists a', a = 2 * a' /\ a' * (2 * m + 1) = b.
Proof. intros H. exists (b - a * m). assert (a = 2 * (b - a * m)) by nia. split; [auto|]. nia. Qed.

(** With an odd modulus and not more blocks than the modulus there is no such chunk:
    the library uses an odd prime modulus and two chunks. *)
Theorem C36_odd n p : Nat.odd p = true -> n <= p -> ~ aligned_chunk n p.
Proof.
  intros Hodd Hn (i & Hi & H0 & Hp & Hlt). apply Nat.odd_spec in Hodd. destruct Hodd as [m ->].
  assert (Hq : exists q, i * (2 * m + 1) = 128 * q).
  { apply Nat.mod_divide in H0; [|lia]. destruct H0 as [q Hq]. exists q. lia. }
  destruct Hq as [q Hq].
  destruct (odd_halve i m (64 * q)) as (i1 & E1 & H1); [lia|]. destruct (odd_halve i1 m (32 * q)) as (i2 & E2 & H2); [lia|].
  destruct (odd_halve i2 m (16 * q)) as (i3 & E3 & H3); [lia|]. destruct (odd_halve i3 m (8 * q)) as (i4 & E4 & H4); [lia|].
  destruct (odd_halve i4 m (4 * q)) as (i5 & E5 & H5); [lia|]. destruct (odd_halve i5 m (2 * q)) as (i6 & E6 & H6); [lia|].
  destruct (odd_halve i6 m q) as (i7 & E7 & H7); [lia|]. assert (i = 128 * i7) by lia. assert (128 * (2 * m + 1) <= i * (2 * m + 1)) by (apply Nat.mul_le_mono_r; lia). lia.
Qed.

(** Otherwise it panics: the statement of C36 fails for such moduli. *)
Theorem C36_panic dest inp p : 1 <= p -> p <= 128 * length dest -> p <= 128 * length inp ->
  aligned_chunk (length inp) p -> modp dest inp p = None.
Proof.
  intros Hp Hd Hi (i & Hi1 & H0 & Hp2 & Hlt). unfold modp. cbn zeta.
  destruct (Nat.leb_spec 1 p); [|lia]. destruct (Nat.leb_spec ((p + 127) / 128) (length dest)); [|lia].
  destruct (Nat.leb_spec ((p + 127) / 128) (length inp)); [|lia]. cbn [oassert obind].
  rewrite (modp_steps_panic inp p i H0 Hp2 Hlt); auto.
  - destruct dest; [simpl in Hd; lia|]. discriminate.
  - assert (Hnz : p <> 0) by lia. pose proof (Nat.div_mod (length inp * 128 + p - 1) p Hnz).
    pose proof (Nat.mod_upper_bound (length inp * 128 + p - 1) p Hnz).
    set (q := (length inp * 128 + p - 1) / p) in *. set (r := (length inp * 128 + p - 1) mod p) in *. clearbody q r. nia.
Qed.

Theorem C36_refuted : exists dest inp p, blocks_ok inp /\ 1 <= p /\ p <= 128 * length dest /\ p <= 128 * length inp /\
  modp dest inp p = None.
Proof.
  exists [0; 0]%N, [1; 2; 3; 4]%N, (64 * 4). split; [repeat constructor|]. split; [simpl; lia|]. split; [simpl; lia|]. split; [simpl; lia|].
  vm_compute. reflexivity.
Qed.

(** Bits 0, 3, 127, 128, 130 modulo x^5 - 1, and with bit 262 modulo x^131 - 1. *)
Example C36_case :
  modp [0]%N [2 ^ 127 + 9; 5]%N 5 = Some [2 ^ 2]%N /\
  modp [7; 7]%N [2 ^ 127 + 9; 5; 2 ^ 6; 0]%N 131 = Some [2 ^ 127 + 8; 5]%N /\
  ~ aligned_chunk 4 131.
Proof. split; [|split]; [vm_compute; auto..|]. apply C36_odd; [reflexivity|lia]. Qed.

(** ** C37 *)

(** Different (tree, leaf) pairs never collide. *)
Theorem C37_injective umax total domain f t1 p1 t2 p2 :
  total mod 8 = 0 -> t1 < total -> t2 < total -> p1 < domain -> p2 < domain ->
  interleave_point umax p1 t1 total domain f = interleave_point umax p2 t2 total domain f ->
  t1 = t2 /\ p1 = p2.
Proof.
  intros H8 Ht1 Ht2 Hp1 Hp2 E. destruct f; cbn [interleave_point] in E.
  - set (n := total / 8) in *. assert (Hn1 : t1 / 8 < n) by (unfold n; lia). assert (Hn2 : t2 / 8 < n) by (unfold n; lia).
    assert (E1 : p1 / 16 * n + t1 / 8 = p2 / 16 * n + t2 / 8) by lia.
    assert (E2 : t1 mod 8 + 8 * (p1 mod 16) = t2 mod 8 + 8 * (p2 mod 16)) by lia.
    assert (p1 / 16 = p2 / 16) by nia. assert (t1 / 8 = t2 / 8) by nia. lia.
  - destruct (Nat.leb_spec domain p1); [lia|]. destruct (Nat.leb_spec domain p2); [lia|].
    assert (E1 : t1 / 8 * domain + p1 = t2 / 8 * domain + p2) by lia.
    assert (t1 / 8 = t2 / 8) by nia. nia.
Qed.

(** Partial: the full statement has no condition on the domain (see [C37_refuted]).
    Positions are inside the output for the plain interleaving, and for the transposed
    interleaving when the domain is a multiple of 16. *)
Theorem C37_inside_partial umax total domain f t p :
  total mod 8 = 0 -> t < total -> p < domain -> (f = InterleavedTransposed -> domain mod 16 = 0) ->
  interleave_point umax p t total domain f < out_positions total domain f.
Proof.
  intros H8 Ht Hp Hf. destruct f; cbn [interleave_point out_positions].
  - specialize (Hf eq_refl). set (n := total / 8). assert (En : total = 8 * n) by (unfold n; lia).
    set (d := domain / 16). assert (Ed : domain = 16 * d) by (unfold d; lia).
    assert (p / 16 < d) by lia. assert (t / 8 < n) by lia.
    assert (Hb : (p / 16) * n + t / 8 < d * n) by nia.
    replace (total * domain) with (128 * (d * n)) by (rewrite En, Ed; lia). lia.
  - destruct (Nat.leb_spec domain p); [lia|]. set (n := total / 8). assert (En : total = 8 * n) by (unfold n; lia).
    assert (t / 8 < n) by lia. rewrite En. nia.
Qed.

(** With another domain positions of the transposed format can lie outside the
    output. *)
Theorem C37_refuted : exists umax total domain t p, total mod 8 = 0 /\ t < total /\ p < domain /\
  out_positions total domain InterleavedTransposed <= interleave_point umax p t total domain InterleavedTransposed.
Proof. exists 0, 16, 24, 15, 23. repeat split; simpl; lia. Qed.

(** Every position of the output belongs to exactly one pair in the aligned case:
    with injectivity, the noisy vector has exactly one noisy position per tree. *)
Theorem C37_surjective_partial umax total domain f x :
  total mod 8 = 0 -> (f = InterleavedTransposed -> domain mod 16 = 0) ->
  x < out_positions total domain f ->
  exists t p, t < total /\ p < domain /\ interleave_point umax p t total domain f = x.
Proof.
  intros H8 Hf Hx. set (n := total / 8). assert (En : total = 8 * n) by (unfold n; lia).
  destruct f; cbn [out_positions] in Hx.
  - specialize (Hf eq_refl). set (d := domain / 16). assert (Ed : domain = 16 * d) by (unfold d; lia).
    replace (total * domain) with (128 * (d * n)) in Hx by (rewrite En, Ed; lia).
    assert (Hx' : x / 128 < d * n) by lia. assert (n <> 0) by (intros ->; lia).
    pose proof (Nat.div_mod (x / 128) n H) as Dm. pose proof (Nat.mod_upper_bound (x / 128) n H) as Dr.
    set (q := x / 128 / n) in *. set (r := (x / 128) mod n) in *.
    assert (q < d) by nia.
    exists (8 * r + x mod 8), (16 * q + (x mod 128) / 8). split; [lia|]. split; [lia|]. cbn [interleave_point]. fold n.
    replace ((8 * r + x mod 8) / 8) with r by lia. replace ((8 * r + x mod 8) mod 8) with (x mod 8) by lia.
    replace ((16 * q + x mod 128 / 8) / 16) with q by lia. replace ((16 * q + x mod 128 / 8) mod 16) with (x mod 128 / 8) by lia.
    assert (Hqn : q * n = n * q) by lia. rewrite Hqn. lia.
  - assert (Hd : domain <> 0) by (intros ->; lia). assert (Hx' : x / 8 < n * domain) by nia.
    pose proof (Nat.div_mod (x / 8) domain Hd) as Dm. pose proof (Nat.mod_upper_bound (x / 8) domain Hd) as Dr.
    set (q := x / 8 / domain) in *. set (r := (x / 8) mod domain) in *.
    assert (q < n) by nia.
    exists (8 * q + x mod 8), r. split; [lia|]. split; [lia|]. cbn [interleave_point]. destruct (Nat.leb_spec domain r); [lia|].
    replace ((8 * q + x mod 8) / 8) with q by lia. replace ((8 * q + x mod 8) mod 8) with (x mod 8) by lia. lia.
Qed.

Example C37_case : map (fun tp => interleave_point 0 (snd tp) (fst tp) 16 32 InterleavedTransposed) [(0, 0); (9, 1); (15, 31)]
  = [0; 128 + 1 + 8; 3 * 128 + 7 + 120].
Proof. vm_compute. reflexivity. Qed.

Print Assumptions C52_floor.
Print Assumptions C52_ceil.
Print Assumptions C52_zero.
Print Assumptions C36_remainder_partial.
Print Assumptions C36_odd.
Print Assumptions C36_panic.
Print Assumptions C36_refuted.
Print Assumptions C37_injective.
Print Assumptions C37_inside_partial.
Print Assumptions C37_surjective_partial.
Print Assumptions C37_refuted.
