(** Congruence modulo [m] on [Z] as a setoid, and a tactic for equations between
    wrapping expressions.  No model content. *)
From Coq Require Import ZArith Setoid Morphisms Lia.
Open Scope Z_scope.

Definition zeqm (m a b : Z) : Prop := a mod m = b mod m.

#[export] Instance zeqm_equiv m : Equivalence (zeqm m).
Proof. split; red; unfold zeqm; intros; congruence. Qed.
#[export] Instance zeqm_add m : Proper (zeqm m ==> zeqm m ==> zeqm m) Z.add.
Proof. intros a a' H b b' H'. unfold zeqm in *. rewrite Zplus_mod, H, H', <- Zplus_mod. auto. Qed.
#[export] Instance zeqm_sub m : Proper (zeqm m ==> zeqm m ==> zeqm m) Z.sub.
Proof. intros a a' H b b' H'. unfold zeqm in *. rewrite Zminus_mod, H, H', <- Zminus_mod. auto. Qed.
#[export] Instance zeqm_mul m : Proper (zeqm m ==> zeqm m ==> zeqm m) Z.mul.
Proof. intros a a' H b b' H'. unfold zeqm in *. rewrite Zmult_mod, H, H', <- Zmult_mod. auto. Qed.
#[export] Instance zeqm_opp m : Proper (zeqm m ==> zeqm m) Z.opp.
Proof. intros a a' H. rewrite <- (Z.sub_0_l a), <- (Z.sub_0_l a'). apply zeqm_sub; [reflexivity|auto]. Qed.

Lemma zeqm_mod m a : zeqm m (a mod m) a.
Proof. unfold zeqm. apply Zmod_mod. Qed.

(** Solves [zeqm m e ?x]: strips every inner [mod m] of [e]. *)
Ltac zstrip m :=
  lazymatch goal with
  | |- zeqm _ (_ + _) _ => apply zeqm_add; zstrip m
  | |- zeqm _ (_ - _) _ => apply zeqm_sub; zstrip m
  | |- zeqm _ (_ * _) _ => apply zeqm_mul; zstrip m
  | |- zeqm _ (- _) _ => apply zeqm_opp; zstrip m
  | |- zeqm _ (?a mod m) _ => transitivity a; [apply zeqm_mod | zstrip m]
  | |- _ => reflexivity
  end.

Ltac zmod_push m :=
  lazymatch goal with |- ?a mod _ = ?b mod _ => change (zeqm m a b) end;
  etransitivity; [zstrip m|]; symmetry; etransitivity; [zstrip m|]; symmetry.

(** Goal [a mod m = b mod m] where [a], [b] may contain inner [mod m]. *)
Ltac zmod m := zmod_push m; unfold zeqm; f_equal; ring.

Lemma mod_eq_iff m a b : m <> 0 -> (a mod m = b mod m <-> exists k, a = b + k * m).
Proof.
  intros Hm; split.
  - intros H. exists (a / m - b / m). rewrite (Z.div_mod a m Hm), (Z.div_mod b m Hm) at 1. lia.
  - intros (k & ->). apply Z.mod_add; auto.
Qed.

Lemma pow2_nz w : 0 <= w -> 2 ^ w <> 0.
Proof. intros. apply Z.pow_nonzero; lia. Qed.
