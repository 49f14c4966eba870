(** Lemmas for the messages of arithmetic multiplication layers. *)
From Coq Require Import List Bool Arith ZArith Lia Znumtheory.
Require Import Verif.Prelude Verif.PreludeProofs Verif.GateModel Verif.ArithGmwModel Verif.ArithGmwSpec
  Verif.ArithGmwProofs Verif.ArithPrivSpec.
Import ListNotations.
Open Scope Z_scope.

Lemma storage_iter us : amts_iter (storage_of us) = us.
Proof.
  unfold amts_iter, storage_of. cbn [as_a as_b as_c]. induction us as [|[a b c] us IH]; [reflexivity|]. cbn in *. now rewrite IH.
Qed.

(** One gate. *)
Definition sends1 (w : Z) (g : gate_view) (u : atriple) : Prop :=
  triple_in_ring w u /\ atriple_ok w (gv_t g) u /\ wsub w (gv_x g) (at_a u) = gv_d g /\ wsub w (gv_y g) (at_c u) = gv_e g.

Lemma sends_each w gs us : sends w gs us <-> Forall2 (sends1 w) gs us.
Proof.
  split.
  - intros (R & V & M). specialize (M O []).
    assert (L : length us = length gs).
    { assert (X : forall (l : list atriple) l', Forall2 (atriple_ok w) l l' -> length l' = length l) by (induction 1; cbn; auto).
      apply X in V. rewrite map_length in V. exact V. }
    unfold arith_compute_msg in M. rewrite storage_iter in M.
    rewrite <- (map_length (fun g => (gv_x g, gv_y g)) gs) in M at 1. rewrite arith_msg_loop_spec in M by (rewrite map_length; lia).
    cbn [obind] in M. injection M as ME MD. revert us R V L ME MD.
    induction gs as [|g gs IH]; intros [|u us] R V L ME MD; try discriminate; [constructor|].
    cbn in *. inversion R; inversion V; subst. injection ME as E1 E2. injection MD as D1 D2.
    constructor; [repeat split; auto; apply H1 || idtac|apply IH; auto].
    all: try apply H1.
  - intros F. split; [|split].
    + induction F as [|g u gs us (H & _) _ IH]; constructor; auto.
    + induction F as [|g u gs us (_ & H & _) _ IH]; cbn; constructor; auto.
    + intros party outs. unfold arith_compute_msg. rewrite storage_iter.
      rewrite <- (map_length (fun g => (gv_x g, gv_y g)) gs) at 1.
      rewrite arith_msg_loop_spec.
      2:{ rewrite map_length. clear -F. induction F; cbn; lia. }
      cbn [obind]. f_equal. f_equal. f_equal.
      * induction F as [|g u gs us (_ & _ & _ & H) _ IH]; cbn; [reflexivity|]. now rewrite H, IH.
      * induction F as [|g u gs us (_ & _ & H & _) _ IH]; cbn; [reflexivity|]. now rewrite H, IH.
Qed.

Section One.
Variable w : Z.
Hypothesis Hw : 0 <= w.
Notation M := (2 ^ w).

Lemma M_pos : 0 < M.
Proof. apply Z.pow_pos_nonneg; lia. Qed.

Lemma wsub_solve x a d : in_ring w a -> in_ring w d -> (wsub w x a = d <-> a = (x - d) mod M).
Proof.
  intros Ha Hd. unfold wsub, in_ring in *. pose proof M_pos. split.
  - intros <-. rewrite Zminus_mod_idemp_r. replace (x - (x - a)) with a by lia. rewrite Z.mod_small; auto.
  - intros ->. rewrite Zminus_mod_idemp_r. replace (x - (x - d)) with d by lia. apply Z.mod_small; auto.
Qed.

Lemma mod_ring x : in_ring w (x mod M).
Proof. unfold in_ring. apply Z.mod_pos_bound, M_pos. Qed.

Lemma cong_eq x y : x mod M = y mod M <-> exists k, x = y + k * M.
Proof.
  pose proof M_pos. split.
  - intros E. exists (x / M - y / M). pose proof (Z.div_mod x M ltac:(lia)). pose proof (Z.div_mod y M ltac:(lia)). nia.
  - intros (k & ->). apply Z.mod_add. lia.
Qed.

(** The condition on [b]. *)
Lemma sends1_b g u : sent_in_ring w g -> 
  (sends1 w g u <-> triple_in_ring w u /\ at_a u = (gv_x g - gv_d g) mod M /\ at_c u = (gv_y g - gv_e g) mod M
     /\ exists k, at_c (gv_t g) + gv_y g - gv_e g = fixed_a g * (at_b (gv_t g) + at_b u) + k * M).
Proof.
  intros (Hd & He). unfold sends1. split.
  - intros ((Ra & Rb & Rc) & V & D & E). apply wsub_solve in D; auto. apply wsub_solve in E; auto.
    split; [repeat split; auto; apply Ra || apply Rb || apply Rc|]. split; auto. split; auto.
    unfold atriple_ok in V. rewrite D, E in V. rewrite Zplus_mod_idemp_r in V. rewrite Zmult_mod, Zplus_mod_idemp_r, <- Zmult_mod in V.
    apply cong_eq in V. destruct V as (k & V). exists k. unfold fixed_a.
    replace (at_c (gv_t g) + gv_y g - gv_e g) with (at_c (gv_t g) + (gv_y g - gv_e g)) by lia. rewrite V. ring.
  - intros ((Ra & Rb & Rc) & D & E & k & K). split; [repeat split; auto; apply Ra || apply Rb || apply Rc|]. split; [|split; apply wsub_solve; auto].
    unfold atriple_ok. rewrite D, E. rewrite Zplus_mod_idemp_r. rewrite (Zmult_mod (at_a _ + _)), Zplus_mod_idemp_r, <- Zmult_mod.
    apply cong_eq. exists k. unfold fixed_a in K.
    replace (at_c (gv_t g) + (gv_y g - gv_e g)) with (at_c (gv_t g) + gv_y g - gv_e g) by lia. rewrite K. ring.
Qed.

Lemma sends1_exact g : sent_in_ring w g ->
  ((exists u, sends1 w g u) <-> (Z.gcd (fixed_a g) M | at_c (gv_t g) + gv_y g - gv_e g)).
Proof.
  intros H. pose proof M_pos as P. split.
  - intros (u & S). apply (sends1_b g u H) in S. destruct S as (_ & _ & _ & k & ->).
    apply Z.divide_add_r; [apply Z.divide_mul_l, Z.gcd_divide_l|apply Z.divide_mul_r, Z.gcd_divide_r].
  - intros (q & Q). destruct (Z.gcd_bezout (fixed_a g) M (Z.gcd (fixed_a g) M) eq_refl) as (r & s & B).
    set (b := (r * q - at_b (gv_t g)) mod M).
    exists (AT ((gv_x g - gv_d g) mod M) b ((gv_y g - gv_e g) mod M)). apply (sends1_b g _ H). cbn [at_a at_b at_c].
    split; [repeat split; apply mod_ring|]. split; [reflexivity|]. split; [reflexivity|].
    assert (X : exists j, b = r * q - at_b (gv_t g) + j * M).
    { exists (- ((r * q - at_b (gv_t g)) / M)). unfold b. pose proof (Z.div_mod (r * q - at_b (gv_t g)) M ltac:(lia)). nia. }
    destruct X as (j & ->). exists (q * s - fixed_a g * j). rewrite Q, <- B. ring.
Qed.

Lemma odd_gcd a : 0 < w -> Z.odd a = true -> Z.gcd a M = 1.
Proof.
  intros W1 O. apply Zgcd_1_rel_prime. apply Zpow_facts.rel_prime_Zpower_r; [lia|].
  apply rel_prime_sym, prime_rel_prime; [exact prime_2|]. intros (k & K). rewrite K in O. rewrite Z.odd_mul in O. cbn in O. rewrite andb_false_r in O. discriminate.
Qed.

Lemma sends1_unique g u u' : sent_in_ring w g -> Z.gcd (fixed_a g) M = 1 -> sends1 w g u -> sends1 w g u' -> u = u'.
Proof.
  intros H G S S'. apply (sends1_b g u H) in S. apply (sends1_b g u' H) in S'.
  destruct S as ((_ & Rb & _) & Ea & Ec & k & K), S' as ((_ & Rb' & _) & Ea' & Ec' & k' & K').
  assert (B : at_b u = at_b u').
  { rewrite K in K'. assert (D : (M | at_b u - at_b u')).
    { apply (Z.gauss M (fixed_a g)); [|rewrite Z.gcd_comm; exact G]. exists (k' - k). nia. }
    unfold in_ring in *. destruct D as (z & Z). pose proof M_pos. assert (z = 0) by nia. lia. }
  destruct u, u'. cbn in *. congruence.
Qed.
End One.
