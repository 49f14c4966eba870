(** C79: the sharing of test inputs and the execution helpers of the tests. *)
From Coq Require Import List Bool Arith NArith Lia.
Require Import Verif.Prelude Verif.PreludeProofs Verif.BitVecModel Verif.BitVecSpec Verif.BitVecProofs Verif.GateModel Verif.CircuitModel Verif.CircuitSpec
  Verif.ProtocolModel Verif.BoolGmwModel Verif.BoolGmwSpec Verif.BoolGmwProofs Verif.BoolGmwProofs2 Verif.InlineModel Verif.InlineSpec Verif.BristolSpec Verif.BristolProofs Verif.BristolTheorems
  Verif.ExecModel Verif.ExecSpec Verif.ExecCircuitSpec Verif.ExecBoolSpec Verif.ExecBoolProofs Verif.ExecTheorems Verif.BenchModel Verif.BenchTheorems Verif.TestUtilModel.
Import ListNotations.

(** ** Specification *)

(** The bits of a value: a truth value is one bit, an integer of [w] bits has its binary
    digits, least significant first. *)
Inductive item_bits : titem -> list bool -> Prop :=
| ib_bool b : item_bits (TBool b) [b]
| ib_uint w v l : length l = w -> (forall i, i < w -> nth i l false = N.testbit v (N.of_nat i)) -> item_bits (TUint w v) l.

(** The bits of several values in order. *)
Inductive items_bits : list titem -> list bool -> Prop :=
| is_nil : items_bits [] []
| is_cons x l a b : item_bits x a -> items_bits l b -> items_bits (x :: l) (a ++ b).

(** The bits of an input. *)
Definition input_bits (W : nat) (i : tinput) (l : list bool) : Prop :=
  match i with
  | TOne x | TTup1 x => item_bits x l
  | TTup2 x y => items_bits [x; y] l
  | TTup3 x y z => items_bits [x; y; z] l
  | TVec xs => items_bits xs l
  | TShares a b => bv_wf W a /\ bv_wf W b /\ bv_len a = bv_len b /\ l = bits_xor (bv_bits a) (bv_bits b)
  end.

(** ** Sharing *)

Lemma store_length w : forall v, length (store_bits w v) = w.
Proof. induction w; intros v; cbn; auto. Qed.

Lemma store_nth w : forall v i, i < w -> nth i (store_bits w v) false = N.testbit v (N.of_nat i).
Proof.
  induction w as [|w IH]; intros v i Hi; [lia|]. cbn [store_bits]. destruct i as [|i]; cbn [nth].
  - symmetry. apply N.bit0_odd.
  - rewrite IH by lia. rewrite Nat2N.inj_succ. symmetry. apply N.testbit_succ_r_div2. apply N.le_0_l.
Qed.

Lemma item_bits_store w v l : item_bits (TUint w v) l -> l = store_bits w v.
Proof.
  intros H. inversion H as [|w' v' l' HL HN]; subst. apply (nth_ext _ _ false false); [rewrite store_length; auto|].
  intros i Hi. rewrite HN, store_nth; auto.
Qed.

(** Two shares of the same length of the bits [l]. *)
Definition two_shares (W : nat) (l : list bool) (p : bitvec * bitvec) : Prop :=
  bv_wf W (fst p) /\ bv_wf W (snd p) /\ length (bv_bits (fst p)) = length l /\ length (bv_bits (snd p)) = length l /\
  bits_xor (bv_bits (fst p)) (bv_bits (snd p)) = l.

Lemma xor_app a : forall b c d, length a = length b -> bits_xor (a ++ c) (b ++ d) = bits_xor a b ++ bits_xor c d.
Proof. induction a as [|x a IH]; intros [|y b] c d H; try discriminate; auto. cbn in *. f_equal. apply IH. lia. Qed.

Lemma extend_shares W l m p q : 0 < W -> two_shares W l p -> two_shares W m q ->
  two_shares W (l ++ m) (bv_extend W (fst p) (bv_bits (fst q)), bv_extend W (snd p) (bv_bits (snd q))).
Proof.
  intros HW (A1 & A2 & A3 & A4 & A5) (B1 & B2 & B3 & B4 & B5). unfold two_shares. cbn [fst snd].
  rewrite !bv_extend_bits by auto. split; [apply bv_extend_wf; auto|]. split; [apply bv_extend_wf; auto|].
  rewrite !app_length. split; [lia|]. split; [lia|]. rewrite xor_app by lia. congruence.
Qed.

Section Inputs.
Context {S : Type}.
Variables (fill : S -> nat -> list bool * S) (W : nat).
Hypothesis HF : forall s n, length (fst (fill s n)) = n.
Hypothesis HW : 0 < W.

Lemma of_bits_wf l : bv_wf W (bv_of_bits W l).
Proof. apply bv_copy_wf. exact HW. Qed.

Lemma item_shares s x l : item_bits x l -> two_shares W l (fst (into_shares fill W s x)).
Proof.
  intros H. destruct x as [b|w v].
  - inversion H; subst. cbn [into_shares fst]. unfold two_shares. cbn [fst snd]. rewrite !bv_of_bits_bits by exact HW.
    split; [apply of_bits_wf|]. split; [apply of_bits_wf|]. split; [reflexivity|]. split; [reflexivity|]. cbn. destruct b; reflexivity.
  - rewrite (item_bits_store _ _ _ H). cbn [into_shares]. set (x := bv_of_bits W (store_bits w v)).
    assert (Hx : bv_wf W x) by apply of_bits_wf.
    assert (Ex : bv_bits x = store_bits w v) by (apply bv_of_bits_bits; exact HW).
    pose proof (xor_sharing_roundtrip S fill HF W s x HW Hx) as R.
    unfold xor_share in *. pose proof (rand_bitvec_spec S fill HF W (bv_len x) s HW) as (R1 & _ & R3 & _).
    destruct (rand_bitvec fill W (bv_len x) s) as [r s']. cbn [fst snd] in *. destruct R as (E & _ & L1).
    assert (W2 : bv_wf W (bv_xor W x r)) by (apply bv_xor_wf; exact Hx).
    unfold two_shares. cbn [fst snd]. rewrite <- Ex. rewrite !(bv_bits_length W) by assumption.
    split; [exact R1|]. split; [exact W2|]. split; [exact R3|]. split; [exact L1|].
    rewrite <- E. unfold xor_reconstruct. symmetry. apply bv_xor_bits; auto. congruence.
Qed.

Lemma vec_shares xs : forall l, items_bits xs l -> forall s p1 p2 m, two_shares W m (p1, p2) ->
  two_shares W (m ++ l) (fst (vec_input fill W s p1 p2 xs)).
Proof.
  induction xs as [|x xs IH]; intros l H s p1 p2 m HM; inversion H; subst.
  - rewrite app_nil_r. exact HM.
  - cbn [vec_input]. pose proof (item_shares s x a H2) as HI. destruct (into_shares fill W s x) as [[s1 s2] s']. cbn [fst] in HI.
    rewrite app_assoc. apply IH; [assumption|]. exact (extend_shares W m a (p1, p2) (s1, s2) HW HM HI).
Qed.

Lemma input_shares s i l : input_bits W i l -> two_shares W l (fst (into_input fill W s i)).
Proof.
  destruct i as [x|x|x y|x y z|xs|a b]; cbn [input_bits into_input].
  - apply item_shares.
  - apply item_shares.
  - intros H. inversion H as [|x0 l0 a r0 Ha H1]; subst. inversion H1 as [|x1 l1 b r1 Hb H2]; subst. inversion H2; subst. rewrite app_nil_r.
    pose proof (item_shares s x a Ha) as A. destruct (into_shares fill W s x) as [[p1 p2] s1]. cbn [fst] in A.
    pose proof (item_shares s1 y b Hb) as B. destruct (into_shares fill W s1 y) as [[q1 q2] s2]. cbn [fst] in *.
    exact (extend_shares W a b (p1, p2) (q1, q2) HW A B).
  - intros H. inversion H as [|x0 l0 a r0 Ha H1]; subst. inversion H1 as [|x1 l1 b r1 Hb H2]; subst. inversion H2 as [|x2 l2 c r2 Hc H3]; subst. inversion H3; subst. rewrite app_nil_r.
    pose proof (item_shares s x a Ha) as A. destruct (into_shares fill W s x) as [[p1 p2] s1]. cbn [fst] in A.
    pose proof (item_shares s1 y b Hb) as B. destruct (into_shares fill W s1 y) as [[q1 q2] s2]. cbn [fst] in B.
    pose proof (item_shares s2 z c Hc) as C. destruct (into_shares fill W s2 z) as [[t1 t2] s3]. cbn [fst] in *.
    rewrite app_assoc. exact (extend_shares W (a ++ b) c _ (t1, t2) HW (extend_shares W a b (p1, p2) (q1, q2) HW A B) C).
  - intros H. apply (vec_shares xs l H s _ _ []). unfold two_shares. cbn [fst snd]. rewrite !bv_of_bits_bits by exact HW.
    split; [apply of_bits_wf|]. split; [apply of_bits_wf|]. auto.
  - intros (A & B & L & ->). unfold two_shares. cbn [fst snd]. split; [exact A|]. split; [exact B|].
    unfold bits_xor. rewrite zip_with_length, !(bv_bits_length W) by assumption. rewrite L, Nat.min_id. auto.
Qed.
End Inputs.

(** Every input is split into two shares of its length that reconstruct to its bits,
    whatever the generator delivers. *)
Theorem C79_inputs :
  forall (S : Type) (fill : S -> nat -> list bool * S) W, 0 < W -> (forall s n, length (fst (fill s n)) = n) ->
  forall s i l, input_bits W i l ->
  let '(a, b, _) := into_input fill W s i in
  bv_len a = length l /\ bv_len b = length l /\ bv_bits (xor_reconstruct W a b) = l.
Proof.
  intros S fill W HW HF s i l H. pose proof (input_shares fill W HF HW s i l H) as R.
  destruct (into_input fill W s i) as [[a b] s']. destruct R as (A & B & LA & LB & X). cbn [fst snd] in *.
  rewrite (bv_bits_length W) in LA, LB by assumption. split; [exact LA|]. split; [exact LB|].
  unfold xor_reconstruct. rewrite bv_xor_bits; auto. congruence.
Qed.
Print Assumptions C79_inputs.

(** The share of an integer for the first party does not depend on the integer.  That
    is not so for truth values: the second party gets the value itself. *)
Theorem C79_hidden_refuted :
  (forall (S : Type) (fill : S -> nat -> list bool * S) W s w v v', 0 < W ->
     fst (fst (into_shares fill W s (TUint w v))) = fst (fst (into_shares fill W s (TUint w v')))) /\
  exists b b', forall (S : Type) (fill : S -> nat -> list bool * S) W s, 0 < W ->
     forall s', bv_bits (snd (fst (into_shares fill W s (TBool b)))) <> bv_bits (snd (fst (into_shares fill W s' (TBool b')))).
Proof.
  split.
  - intros S fill W s w v v' HW. cbn [into_shares]. unfold xor_share.
    assert (E : bv_len (bv_of_bits W (store_bits w v)) = bv_len (bv_of_bits W (store_bits w v'))).
    { unfold bv_of_bits, bv_copy. cbn [bv_len]. rewrite !store_length. reflexivity. }
    rewrite E. destruct (rand_bitvec fill W _ s). reflexivity.
  - exists true, false. intros S fill W s HW s'. cbn [into_shares fst snd]. rewrite !bv_of_bits_bits by exact HW. discriminate.
Qed.
Print Assumptions C79_hidden_refuted.

(** ** Execution *)

Section Run.
Context {S Sp : Type}.
Variables (fill : S -> nat -> list bool * S) (pfill : Sp -> nat -> list bool * Sp) (W : nat).
Hypothesis HF : forall s n, length (fst (fill s n)) = n.
Hypothesis HP : forall s n, length (fst (pfill s n)) = n.
Hypothesis HW : 0 < W.

Lemma run_result s42 s ec i l (outs : list (list bool)) : input_bits W i l ->
  (forall (i0 i1 : istore (bool_gmw W)), shares_of W None i0 i1 (lane1 l) ->
    exists o0 o1 st, ex2_run (pr:=bool_gmw W) (ip_request pfill s42 W) ec i0 i1
      ((go_init (pr:=bool_gmw W) ec, None), (go_init (pr:=bool_gmw W) ec, None)) = Some (o0, o1, st) /\ shares_of W None o0 o1 outs) ->
  exists r, execute_circuit fill W pfill s42 s ec i = Some r /\ lane1 (bv_bits r) = outs.
Proof.
  intros H R. pose proof (input_shares fill W HF HW s i l H) as Q. unfold execute_circuit.
  destruct (into_input fill W s i) as [[a b] s']. destruct Q as (A & B & LA & LB & X). cbn [fst snd] in *.
  destruct (R (@IScalar (bool_gmw W) (bv_bits a)) (@IScalar (bool_gmw W) (bv_bits b))) as (o0 & o1 & st & E & SO).
  { split; [exact (eq_trans LA (eq_sym LB))|]. unfold lane1. rewrite X. reflexivity. }
  rewrite E. cbn [obind]. destruct o0 as [l0|l0], o1 as [l1|l1]; cbn [shares_of] in SO; try contradiction.
  destruct SO as [L ->]. eexists. split; [reflexivity|]. unfold xor_reconstruct, lane1.
  rewrite bv_xor_bits; auto; try (apply of_bits_wf; exact HW).
  rewrite !bv_of_bits_bits by exact HW. reflexivity.
Qed.
End Run.

(** The result of [execute_circuit] are the values of the circuit on the inputs, for every
    circuit with scalar gates; an input of another length is rejected. *)
Theorem C79_execute_circuit :
  forall (S Sp : Type) (fill : S -> nat -> list bool * S) (pfill : Sp -> nat -> list bool * Sp) W, 0 < W ->
  (forall s n, length (fst (fill s n)) = n) -> (forall s n, length (fst (pfill s n)) = n) ->
  forall c, main_ok bool_ops c -> operands_ok c -> c_simd c = None ->
  exists ec, ec_of_base bool_ops c = Some ec /\
  forall s42 s i l, input_bits W i l ->
    (length l = length (c_inputs c) ->
       exists v r, plain_value c (lane1 l) v /\ execute_circuit fill W pfill s42 s ec i = Some r /\
         lane1 (bv_bits r) = map v (c_outputs c)) /\
    (length l <> length (c_inputs c) -> execute_circuit fill W pfill s42 s ec i = None).
Proof.
  intros S Sp fill pfill W HW HF HP c HM HO CS.
  destruct (C11_execution_computes_circuit W c HW HM HO) as (ec & E & SH & R); [unfold simd_ok; rewrite CS; exact I|].
  exists ec. split; [exact E|]. intros s42 s i l H. rewrite CS in R. split.
  - intros HL.
    assert (HL1 : length (lane1 l) = length (c_inputs c)) by (unfold lane1; rewrite map_length; exact HL).
    pose proof (ip_serves Sp pfill s42 W HP HW) as SV.
    assert (J0 : ip_same W (requests ec ++ []) None None) by (split; auto).
    pose proof (input_shares fill W HF HW s i l H) as Q. unfold execute_circuit.
    destruct (into_input fill W s i) as [[a b] s']. destruct Q as (A & B & LA & LB & X). cbn [fst snd] in *.
    destruct (R ip_state _ _ SV (@IScalar (bool_gmw W) (bv_bits a)) (@IScalar (bool_gmw W) (bv_bits b)) (lane1 l)) with (go0 := go_init (pr:=bool_gmw W) ec) (go1 := go_init (pr:=bool_gmw W) ec) (s0 := @None mul_triples) (s1 := @None mul_triples) (rest := @nil nat)
      as (v & o0 & o1 & g0 & g1 & t0 & t1 & PV & RUN & SO & _); [split; [exact (eq_trans LA (eq_sym LB))|unfold lane1; rewrite X; reflexivity]|exact HL1|exact SH|exact SH|exact J0|].
    assert (RUN2 : ex2_run (pr:=bool_gmw W) (ip_request pfill s42 W) ec (@IScalar (bool_gmw W) (bv_bits a)) (@IScalar (bool_gmw W) (bv_bits b))
      ((go_init (pr:=bool_gmw W) ec, None), (go_init (pr:=bool_gmw W) ec, None)) = Some (o0, o1, ((g0, t0), (g1, t1)))) by exact RUN.
    rewrite RUN2. cbn [obind]. destruct o0 as [l0|l0], o1 as [l1|l1]; cbn [shares_of] in SO; try contradiction.
    destruct SO as [L EV]. exists v. eexists. split; [exact PV|]. split; [reflexivity|]. rewrite EV. unfold xor_reconstruct, lane1.
    rewrite bv_xor_bits; auto; try (apply of_bits_wf; exact HW).
    rewrite !bv_of_bits_bits by exact HW. reflexivity.
  - intros HL. pose proof (input_shares fill W HF HW s i l H) as Q. unfold execute_circuit.
    destruct (into_input fill W s i) as [[a b] s']. destruct Q as (A & B & LA & LB & X). cbn [fst snd] in *.
    unfold ex2_run. change (istore_len (@IScalar (bool_gmw W) (bv_bits a))) with (length (bv_bits a)). rewrite LA.
    assert (EI : length (ec_inputs ec) = length (c_inputs c)).
    { unfold ec_of_base in E. destruct (c_layers bool_ops c); [|discriminate]. cbn [obind] in E.
      apply (f_equal (fun o => match o with Some x => length (ec_inputs x) | None => 0 end)) in E. symmetry. exact E. }
    match goal with |- context [length l =? ?k] => change k with (length (ec_inputs ec)) end.
    rewrite EI, (proj2 (Nat.eqb_neq _ _) HL). reflexivity.
Qed.
Print Assumptions C79_execute_circuit.

(** [execute_bristol] gives the value of the function that the file describes. *)
Theorem C79_execute_bristol :
  forall (S Sp : Type) (fill : S -> nat -> list bool * S) (pfill : Sp -> nat -> list bool * Sp) W, 0 < W ->
  (forall s n, length (fst (fill s n)) = n) -> (forall s n, length (fst (pfill s n)) = n) ->
  forall f, br_header_ok f -> br_wires_ok f -> br_no_self f ->
  forall s42 s i l outs, input_bits W i l -> length l = br_total_in f -> br_eval f l = Some outs ->
  exists r, execute_bristol fill W pfill s42 s f i = Some r /\ bv_bits r = outs.
Proof.
  intros S Sp fill pfill W HW HF HP f H1 H2 H3 s42 s i l outs HI HL HE.
  destruct (C16_bristol_execution_partial W f HW H1 H2 H3 l outs HL HE) as (c & ec & EC & EE & R).
  unfold execute_bristol. change (from_br_kind BAnd BXor BInv) with bool_from_br. rewrite EC. cbn [obind]. rewrite EE. cbn [obind].
  destruct (run_result fill pfill W HF HW s42 s ec i l (lane1 outs) HI) as (r & E & Q).
  - intros i0 i1 HS. apply (R ip_state _ _ (ip_serves Sp pfill s42 W HP HW) i0 i1 HS None None []). split; auto.
  - exists r. split; [exact E|]. unfold lane1 in Q. apply (f_equal (map (fun x => nth 0 x false))) in Q.
    rewrite !map_map in Q. cbn [nth] in Q. rewrite !map_id in Q. exact Q.
Qed.
Print Assumptions C79_execute_bristol.

(** A generator that delivers alternating bits. *)
Definition alt_fill (s : bool) (n : nat) : list bool * bool := (map (fun i => xorb s (Nat.odd i)) (seq 0 n), negb s).

(** The bits of the pair of the byte 5 and [true], and a file executed on four truth
    values. *)
Example C79_case :
  (forall s n, length (fst (alt_fill s n)) = n) /\
  input_bits 8 (TTup2 (TUint 8 5) (TBool true)) [true; false; true; false; false; false; false; false; true] /\
  bv_bits (let '(a, b, _) := into_input alt_fill 8 true (TTup2 (TUint 8 5) (TBool true)) in xor_reconstruct 8 a b)
    = [true; false; true; false; false; false; false; false; true] /\
  input_bits 8 (TVec [TBool true; TBool true; TBool false; TBool true]) [true; true; false; true] /\
  match execute_bristol alt_fill 8 alt_fill true false ex_bristol (TVec [TBool true; TBool true; TBool false; TBool true]) with
  | Some r => bv_bits r = [true; false]
  | None => False
  end.
Proof.
  split; [intros s n; unfold alt_fill; cbn [fst]; rewrite map_length, seq_length; reflexivity|]. split; [|split; [|split]].
  - cbn [input_bits]. apply (is_cons _ _ [true; false; true; false; false; false; false; false] [true]).
    + constructor; [reflexivity|]. intros i Hi. do 8 (destruct i as [|i]; [reflexivity|]). lia.
    + apply (is_cons _ _ [true] []); constructor.
  - vm_compute. reflexivity.
  - cbn [input_bits]. apply (is_cons _ _ [true] [true; false; true]); [constructor|]. apply (is_cons _ _ [true] [false; true]); [constructor|].
    apply (is_cons _ _ [false] [true]); [constructor|]. apply (is_cons _ _ [true] []); constructor.
  - vm_compute. reflexivity.
Qed.
