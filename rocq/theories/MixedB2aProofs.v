(** The arithmetic of the B2A conversion. *)
From Coq Require Import List Bool Arith ZArith Lia Zpow_facts.
Require Import Verif.ParseModel Verif.Prelude Verif.PreludeProofs Verif.ArithGmwModel Verif.MixedModel Verif.MixedSpec Verif.MixedProgSpec Verif.ZMod.
Import ListNotations.
Open Scope Z_scope.

Definition zsum (l : list Z) : Z := fold_right Z.add 0 l.

Lemma fold_wadd z r : forall x, zeqm (2 ^ z) (fold_left (wadd z) r x) (x + zsum r).
Proof.
  induction r as [|y r IH]; intros x; cbn [fold_left zsum fold_right]; [unfold zeqm; f_equal; lia|].
  etransitivity; [apply IH|]. unfold wadd. etransitivity; [zstrip (2 ^ z)|]. unfold zeqm. f_equal. unfold zsum. lia.
Qed.

Lemma pow_two z i : 0 <= z -> 0 <= i -> zeqm (2 ^ z) (wadd z 1 1 ^ i mod 2 ^ z) (2 ^ i).
Proof.
  intros Hz Hi. unfold zeqm, wadd. rewrite Z.mod_mod by (apply pow2_nz; auto).
  rewrite <- Zpower_mod by (apply Z.pow_pos_nonneg; lia). reflexivity.
Qed.

Lemma term0 w t k a : zeqm (2 ^ Z.of_nat w) (b2a_term w 0 t k a)
  (2 ^ Z.of_nat k * (Z.b2z (Z.testbit t (Z.of_nat k)) + a - 2 * Z.b2z (Z.testbit t (Z.of_nat k)) * a)).
Proof.
  unfold b2a_term. set (ti := if Z.testbit t (Z.of_nat k) then 1 else 0).
  replace (Z.b2z (Z.testbit t (Z.of_nat k))) with ti by (unfold ti; destruct (Z.testbit t _); reflexivity).
  unfold wmul at 1. etransitivity; [apply zeqm_mod|].
  apply zeqm_mul; [apply pow_two; lia|]. unfold wsub, wadd, wmul. etransitivity; [zstrip (2 ^ Z.of_nat w)|].
  unfold zeqm; f_equal; ring.
Qed.

Lemma term1 w t k a : zeqm (2 ^ Z.of_nat w) (b2a_term w 1 t k a)
  (2 ^ Z.of_nat k * (a - 2 * Z.b2z (Z.testbit t (Z.of_nat k)) * a)).
Proof.
  unfold b2a_term. set (ti := if Z.testbit t (Z.of_nat k) then 1 else 0).
  replace (Z.b2z (Z.testbit t (Z.of_nat k))) with ti by (unfold ti; destruct (Z.testbit t _); reflexivity).
  unfold wmul at 1. etransitivity; [apply zeqm_mod|].
  apply zeqm_mul; [apply pow_two; lia|]. unfold wsub, wadd, wmul. etransitivity; [zstrip (2 ^ Z.of_nat w)|].
  unfold zeqm; f_equal; ring.
Qed.

Lemma terms_sum w t bits : forall k a0 a1, length a0 = length bits -> length a1 = length bits ->
  (forall i, (i < length bits)%nat -> zeqm (2 ^ Z.of_nat w) (nth i a0 0 + nth i a1 0)
     (Z.b2z (xorb (nth i bits false) (Z.testbit t (Z.of_nat (k + i)))))) ->
  zeqm (2 ^ Z.of_nat w)
    (zsum (zip_with (fun i r => b2a_term w 0 t i r) (seq k (length bits)) a0) +
     zsum (zip_with (fun i r => b2a_term w 1 t i r) (seq k (length bits)) a1))
    (2 ^ Z.of_nat k * bits_value bits).
Proof.
  induction bits as [|b bits IH]; intros k [|x0 a0] [|x1 a1] L0 L1 H; try discriminate.
  - cbn. rewrite Z.mul_0_r. reflexivity.
  - injection L0 as L0. injection L1 as L1. cbn [length seq zip_with zsum fold_right].
    specialize (IH (S k) a0 a1 L0 L1).
    assert (H' : forall i, (i < length bits)%nat -> zeqm (2 ^ Z.of_nat w) (nth i a0 0 + nth i a1 0)
     (Z.b2z (xorb (nth i bits false) (Z.testbit t (Z.of_nat (S k + i)))))).
    { intros i Hi. specialize (H (S i)). cbn [nth length] in H. replace (S k + i)%nat with (k + S i)%nat by lia. apply H. lia. }
    specialize (IH H'). specialize (H 0%nat ltac:(cbn; lia)). cbn [nth] in H. rewrite Nat.add_0_r in H.
    set (ti := Z.testbit t (Z.of_nat k)) in *.
    set (S0 := fold_right Z.add 0 (zip_with (fun i r => b2a_term w 0 t i r) (seq (S k) (length bits)) a0)) in *.
    set (S1 := fold_right Z.add 0 (zip_with (fun i r => b2a_term w 1 t i r) (seq (S k) (length bits)) a1)) in *.
    change (zeqm (2 ^ Z.of_nat w) (S0 + S1) (2 ^ Z.of_nat (S k) * bits_value bits)) in IH.
    transitivity ((b2a_term w 0 t k x0 + b2a_term w 1 t k x1) + (S0 + S1)); [unfold zeqm; f_equal; ring|].
    transitivity (2 ^ Z.of_nat k * Z.b2z b + 2 ^ Z.of_nat (S k) * bits_value bits).
    + apply zeqm_add; [|exact IH].
      etransitivity; [apply zeqm_add; [apply term0|apply term1]|]. fold ti.
      transitivity (2 ^ Z.of_nat k * (Z.b2z ti + (1 - 2 * Z.b2z ti) * (x0 + x1))); [unfold zeqm; f_equal; ring|].
      etransitivity; [apply zeqm_mul; [reflexivity|]; apply zeqm_add; [reflexivity|]; apply zeqm_mul; [reflexivity|exact H]|].
      unfold zeqm. f_equal. destruct ti, b; cbn; ring.
    + unfold zeqm. f_equal. cbn [bits_value fold_right]. fold (bits_value bits). rewrite Nat2Z.inj_succ, Z.pow_succ_r by lia.
      destruct b; cbn [Z.b2z]; ring.
Qed.

Lemma word_bits bits : forall i, (i < length bits)%nat -> Z.testbit (word_of_bits bits) (Z.of_nat i) = nth i bits false.
Proof.
  induction bits as [|b bits IH]; intros i Hi; cbn in Hi; [lia|]. cbn [word_of_bits]. rewrite Z.add_comm.
  destruct i as [|i]; cbn [nth].
  - change (Z.of_nat 0) with 0. apply Z.testbit_0_r.
  - rewrite Nat2Z.inj_succ, Z.testbit_succ_r by lia. apply IH. lia.
Qed.

Lemma b2a_some w party t q a : (0 < w)%nat -> length a = w ->
  exists y, b2a_eval w party t (q ++ rev a) = Some y /\
    zeqm (2 ^ Z.of_nat w) y (zsum (zip_with (fun i r => b2a_term w party t i r) (seq 0 w) a)).
Proof.
  intros Hw La. unfold b2a_eval. rewrite app_length, rev_length, La.
  replace (w <=? length q + w)%nat with true by (symmetry; apply Nat.leb_le; lia). cbn [oassert obind].
  replace (length q + w - w)%nat with (length q) by lia. rewrite skipn_app, skipn_all, Nat.sub_diag. cbn [skipn app].
  rewrite rev_involutive. destruct a as [|x a]; [cbn in La; lia|]. destruct w as [|w]; [lia|].
  cbn [seq zip_with]. eexists. split; [reflexivity|]. cbn [zsum fold_right]. apply fold_wadd.
Qed.

(** The two B2A outputs add up to the number denoted by the bits. *)
Theorem b2a_value w bits st0 st1 : (0 < w)%nat -> length bits = w -> shared_bits_ok w st0 st1 ->
  exists y0 y1,
    b2a_eval w 0 (Z.lxor (word_of_bits bits) (Z.lxor (hd 0 (rev (st_sb_bool st0))) (hd 0 (rev (st_sb_bool st1))))) (st_sb_arith st0) = Some y0 /\
    b2a_eval w 1 (Z.lxor (word_of_bits bits) (Z.lxor (hd 0 (rev (st_sb_bool st0))) (hd 0 (rev (st_sb_bool st1))))) (st_sb_arith st1) = Some y1 /\
    (y0 + y1) mod 2 ^ Z.of_nat w = bits_value bits mod 2 ^ Z.of_nat w.
Proof.
  intros Hw Lb (p0 & p1 & r0 & r1 & q0 & q1 & a0 & a1 & -> & -> & -> & -> & L0 & L1 & H).
  rewrite !rev_app_distr. cbn [rev app hd]. set (t := Z.lxor (word_of_bits bits) (Z.lxor r0 r1)).
  destruct (b2a_some w 0 t q0 a0 Hw L0) as (y0 & E0 & Z0). destruct (b2a_some w 1 t q1 a1 Hw L1) as (y1 & E1 & Z1).
  exists y0, y1. split; auto. split; auto. change (zeqm (2 ^ Z.of_nat w) (y0 + y1) (bits_value bits)).
  etransitivity; [apply zeqm_add; [exact Z0|exact Z1]|]. rewrite <- Lb at 2 3.
  etransitivity; [apply terms_sum; try lia|].
  - intros i Hi. rewrite Nat.add_0_l. unfold zeqm. rewrite H by lia. f_equal. f_equal.
    unfold t. rewrite !Z.lxor_spec, word_bits by auto. destruct (nth i bits false), (Z.testbit r0 _), (Z.testbit r1 _); reflexivity.
  - unfold zeqm. f_equal. change (Z.of_nat 0) with 0. rewrite Z.pow_0_r. ring.
Qed.
