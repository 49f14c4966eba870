(** Specification vocabulary for silent OT (C57) and the triples made from it (C58). *)
From Coq Require Import List Bool Arith NArith Permutation ZArith Znumtheory.
Require Import Verif.Prelude Verif.ZapUtilModel Verif.ZapUtilSpec Verif.PprfModel Verif.PprfSpec Verif.SilentModel.
Import ListNotations.
Open Scope nat_scope.

(** The sparse vector with ones at the given positions. *)
Definition noise (S : list nat) (p : nat) : bool := existsb (Nat.eqb p) S.

(** Coefficient [x] of f_0 + a_1 f_1 + ... + a_(s-1) f_(s-1), where [f_i] is the [i]-th
    piece of [w] coefficients of [f] and the products are products of polynomials over
    GF(2). *)
Definition piece (w : nat) (f : nat -> bool) (i k : nat) : bool := if k <? w then f (i * w + k) else false.
Definition poly_prod (g h : nat -> bool) (x : nat) : bool := xor_upto (S x) (fun k => g k && h (x - k)).
Definition qc_sum (w scaler : nat) (a : list (list N)) (f : nat -> bool) (x : nat) : bool :=
  xorb (piece w f 0 x)
       (xor_upto (scaler - 1) (fun s => poly_prod (bit (nth s a [])) (piece w f (S s)) x)).
(** ... modulo x^P - 1. *)
Definition qc_word (w scaler P : nat) (a : list (list N)) (f : nat -> bool) (i : nat) : bool :=
  xor_upto (2 * w) (fun x => if x mod P =? i then qc_sum w scaler a f x else false).

(** A row of a matrix times a vector. *)
Definition row_word (row : list bool) (f : nat -> bool) : bool :=
  xor_upto (length row) (fun j => nth j row false && f j).

(** Position [i] of the codeword of the sparse vector [f].  ExConv leaves the positions
    from its code size on as they are. *)
Definition code_word (e : encoder) (f : nat -> bool) (i : nat) : bool :=
  match e with
  | EQc c a => qc_word (128 * qc_nblocks c) (qc_scaler c) (qc_P c) a f i
  | ELib ExConv c M => if i <? lc_code c then row_word (nth i M []) f else f i
  | ELib _ c M => row_word (nth i M []) f
  end.

(** The number of OTs that come out: the requested number except for ExConv. *)
Definition out_count (e : encoder) : nat :=
  match e with ELib ExConv c _ => lc_N2 c | _ => enc_req e end.

(** Encoders whose parameters fit together. *)
Definition enc_ok (e : encoder) : Prop :=
  enc_N2 e = enc_per e * enc_parts e + enc_gap e /\ enc_parts e mod 8 = 0 /\ enc_per e mod 8 = 0 /\ 0 < enc_per e /\
  match e with
  | EQc c a =>
      8 < qc_per c /\ 2 <= qc_scaler c /\ length a = qc_scaler c - 1 /\ Nat.odd (qc_P c) = true /\
      qc_P c <= 128 * qc_nblocks c /\ 2 * qc_nblocks c <= qc_P c /\ qc_req c <= qc_P c /\
      qc_N2 c mod 128 = 0 /\ qc_scaler c * qc_nblocks c * 128 <= qc_N2 c
  | ELib Silver c M => 0 < lc_gap c /\ length M = lc_N2 c /\ lc_req c <= lc_N2 c /\ Forall (fun row => length row = lc_N2 c) M
  | ELib ExAcc c M => length M = lc_req c /\ lc_code c <= lc_N2 c /\ Forall (fun row => length row = lc_code c) M
  | ELib ExConv c M => length M = lc_code c /\ lc_code c <= lc_N2 c /\ Forall (fun row => length row = lc_code c) M
  end.

(** The inputs of a run: base OTs that match the receiver's choices, seeds, an order of
    the groups, and points inside of the sparse vector. *)
Record inputs_ok (bits umax : nat) (e : encoder) (pc : pprf_conf) (sbase : list (N * N)) (rbase : list N)
  (choices : list (list bool)) (gap_choices : list bool) (roots : list N) (order : list nat) : Prop := {
  io_bits : (N.of_nat (enc_per e) < 2 ^ N.of_nat bits)%N;
  io_umax : enc_N2 e <= umax;
  io_pprf : enc_pprf bits e = Some pc;
  io_choices : length choices = enc_parts e;
  io_rows : Forall (fun row => length row = pc_depth pc) choices;
  io_gap : length gap_choices = enc_gap e;
  io_base : ots_match sbase (concat choices ++ gap_choices) rbase;
  io_roots : length roots = enc_parts e;
  io_order : Permutation order (seq 0 (enc_parts e / 8));
  io_points : Forall (fun p => p < enc_N2 e) (recv_points umax pc (enc_format e) choices) }.

(** a_i = b_i + c_i * delta on all 128 bits of the [n] blocks. *)
Definition correlated (n : nat) (delta : N) (a b : list N) (c : nat -> bool) : Prop :=
  length a = n /\ length b = n /\
  forall i r, i < n -> r < 128 ->
    N.testbit (nth i a 0%N) (N.of_nat r) = xorb (N.testbit (nth i b 0%N) (N.of_nat r)) (c i && N.testbit delta (N.of_nat r)).
(** The same without the least significant bit, which is the choice. *)
Definition correlated_packed (n : nat) (delta : N) (a b : list N) (c : nat -> bool) : Prop :=
  length a = n /\ length b = n /\
  forall i, i < n -> N.testbit (nth i a 0%N) 0 = c i /\
    forall r, 1 <= r < 128 ->
      N.testbit (nth i a 0%N) (N.of_nat r) = xorb (N.testbit (nth i b 0%N) (N.of_nat r)) (c i && N.testbit delta (N.of_nat r)).

(** The least prime above a number. *)
Definition is_next_prime (n p : N) : Prop :=
  (n < p)%N /\ prime (Z.of_N p) /\ forall q, (n < q < p)%N -> ~ prime (Z.of_N q).

(** Two triples (a, b, c) that share a product (C58). *)
Definition triples_match (t u : bool * bool * bool) : Prop :=
  let '(a, b, c) := t in let '(a', b', c') := u in xorb c c' = (xorb a a' && xorb b b')%bool.
(** The first component. *)
Definition tr_a (t : bool * bool * bool) : bool := fst (fst t).
