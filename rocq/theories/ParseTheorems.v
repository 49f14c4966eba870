(** Property theorems about the Bristol parser: C17. *)
From Coq Require Import Bool Arith Lia Ascii String List.
From Coq Require Import DecimalNat.
Require Import Verif.Prelude Verif.InlineModel Verif.ParseModel Verif.ParseSpec Verif.ParseProofs
  Verif.GateModel Verif.CircuitModel Verif.CircuitSpec Verif.ProtocolModel Verif.BoolGmwModel Verif.BoolGmwSpec
  Verif.BristolSpec Verif.BristolProofs Verif.ExecCircuitSpec
  Verif.ExecModel Verif.ExecSpec Verif.ExecBoolSpec Verif.BristolTheorems.
Import ListNotations.

(** The wire counts of every gate can be allocated. *)
Definition counts_fit (cap : nat) (c : br_circuit) : Prop :=
  forall g, In g (bc_gates c) -> List.length (br_in g) <= cap /\ List.length (br_out g) <= cap.

Lemma nums_app a b : nums_of (a ++ b) = nums_of a ++ nums_of b.
Proof. unfold nums_of. apply flat_map_app. Qed.

Lemma nums_map l : nums_of (map TNum l) = l.
Proof. induction l; simpl; auto. unfold nums_of in *. simpl. f_equal; auto. Qed.

Lemma gates_fit_nums maxu cap gs :
  (forall g, In g gs -> List.length (br_in g) <= cap /\ List.length (br_out g) <= cap) ->
  Forall (fun n => n <= maxu) (nums_of (concat (map gate_toks gs))) -> Forall (gate_fits maxu cap) gs.
Proof.
  induction gs as [|g gs IH]; intros HC HF; constructor.
  - cbn [map concat] in HF. rewrite nums_app in HF. apply Forall_app in HF. destruct HF as [HF _].
    unfold gate_toks in HF. simpl in HF. inversion HF as [|? ? A HF1]; subst. inversion HF1 as [|? ? B HF2]; subst.
    fold (nums_of (map TNum (br_in g) ++ map TNum (br_out g) ++ [TOp (br_op g)])) in HF2.
    rewrite !nums_app, !nums_map in HF2. apply Forall_app in HF2. destruct HF2 as [C HF2].
    apply Forall_app in HF2. destruct HF2 as [D _]. destruct (HC g (or_introl eq_refl)). repeat split; auto.
  - apply IH; [intros; apply HC; simpl; auto|]. cbn [map concat] in HF. rewrite nums_app in HF. apply Forall_app in HF. tauto.
Qed.

Lemma written_st toks txt : written toks txt -> St toks txt.
Proof.
  intros (sp & body & Hsp & -> & Hr). unfold St. rewrite skip_ws_app by auto.
  rewrite (renders_skip _ _ Hr). auto.
Qed.

Lemma st_written toks txt : St toks txt -> written toks txt.
Proof. intros H. destruct (skip_ws_sound txt) as (sp & E & Hsp & _). exists sp, (skip_ws txt). auto. Qed.

(** C17 for the Bristol fashion format: every text whose tokens are those of the
    circuit, however spaced, is parsed to exactly that circuit. *)
Theorem C17_fashion_text_parses :
  forall maxu cap c txt,
  bh_gates (bc_header c) = List.length (bc_gates c) ->
  Forall (fun n => n <= maxu) (nums_of (fashion_toks c)) -> counts_fit cap c ->
  written (fashion_toks c) txt ->
  p_circuit maxu cap txt = POk c [].
Proof.
  intros maxu cap c txt Hg HF HC Hw. apply written_st in Hw.
  unfold fashion_toks in HF. simpl in HF.
  inversion HF as [|? ? A1 HF1]; subst. inversion HF1 as [|? ? A2 HF2]; subst. inversion HF2 as [|? ? A3 HF3]; subst.
  match type of HF3 with Forall _ ?X => change X with
    (nums_of (map TNum (bh_ins (bc_header c)) ++ TNum (List.length (bh_outs (bc_header c))) ::
     map TNum (bh_outs (bc_header c)) ++ concat (map gate_toks (bc_gates c)))) in HF3 end.
  rewrite nums_app, nums_map in HF3. apply Forall_app in HF3. destruct HF3 as [A4 HF3].
  simpl in HF3. inversion HF3 as [|? ? A5 HF4]; subst.
  match type of HF4 with Forall _ ?X => change X with
    (nums_of (map TNum (bh_outs (bc_header c)) ++ concat (map gate_toks (bc_gates c)))) in HF4 end.
  rewrite nums_app, nums_map in HF4. apply Forall_app in HF4. destruct HF4 as [A6 HF5].
  apply circuit_fashion; auto.
  - repeat split; auto.
  - apply gates_fit_nums; auto.
Qed.

(** Whatever the parser accepts is a text of the returned circuit in one of the
    two formats, and nothing is left over. *)
Theorem C17_accepted_text :
  forall maxu cap c txt rest, p_circuit maxu cap txt = POk c rest ->
  rest = [] /\ bh_gates (bc_header c) = List.length (bc_gates c) /\
  (written (fashion_toks c) txt \/
   written (basic_toks c) txt /\ List.length (bh_ins (bc_header c)) = 2 /\
   List.length (bh_outs (bc_header c)) = 1).
Proof.
  intros maxu cap c txt rest H. destruct (circuit_sound _ _ _ _ _ H) as (A & _ & B & _ & C).
  split; auto. split; auto. destruct C as [C|(C & D & E)]; auto using st_written.
Qed.

(** The fashion format itself is unambiguous. *)
Lemma bounded_list (l : list nat) : exists m, Forall (fun n => n <= m) l.
Proof.
  induction l as [|n l [m H]]; [exists 0; auto|]. exists (max n m). constructor; [lia|].
  eapply Forall_impl; [|exact H]. simpl. intros. lia.
Qed.

Lemma bounded_counts c : exists cap, counts_fit cap c.
Proof.
  destruct (bounded_list (map (fun g => List.length (br_in g) + List.length (br_out g)) (bc_gates c))) as [m H].
  exists m. intros g Hg. rewrite Forall_forall in H.
  specialize (H _ (in_map (fun g => List.length (br_in g) + List.length (br_out g)) _ _ Hg)). simpl in H. lia.
Qed.

Theorem C17_fashion_unambiguous :
  forall c d txt, bh_gates (bc_header c) = List.length (bc_gates c) ->
  bh_gates (bc_header d) = List.length (bc_gates d) ->
  written (fashion_toks c) txt -> written (fashion_toks d) txt -> c = d.
Proof.
  intros c d txt Hc Hd Wc Wd.
  destruct (bounded_list (nums_of (fashion_toks c))) as [m1 M1].
  destruct (bounded_list (nums_of (fashion_toks d))) as [m2 M2].
  destruct (bounded_counts c) as [k1 K1]. destruct (bounded_counts d) as [k2 K2].
  assert (E1 : p_circuit (max m1 m2) (max k1 k2) txt = POk c []).
  { apply C17_fashion_text_parses; auto.
    - eapply Forall_impl; [|exact M1]. simpl. intros. lia.
    - intros g Hg. destruct (K1 g Hg). lia. }
  assert (E2 : p_circuit (max m1 m2) (max k1 k2) txt = POk d []).
  { apply C17_fashion_text_parses; auto.
    - eapply Forall_impl; [|exact M2]. simpl. intros. lia.
    - intros g Hg. destruct (K2 g Hg). lia. }
  congruence.
Qed.

(** *** A concrete printer: decimal numbers, one separator after each token *)

Fixpoint uint_text (u : Decimal.uint) : list ascii :=
  match u with
  | Decimal.Nil => []
  | Decimal.D0 u => "0"%char :: uint_text u | Decimal.D1 u => "1"%char :: uint_text u
  | Decimal.D2 u => "2"%char :: uint_text u | Decimal.D3 u => "3"%char :: uint_text u
  | Decimal.D4 u => "4"%char :: uint_text u | Decimal.D5 u => "5"%char :: uint_text u
  | Decimal.D6 u => "6"%char :: uint_text u | Decimal.D7 u => "7"%char :: uint_text u
  | Decimal.D8 u => "8"%char :: uint_text u | Decimal.D9 u => "9"%char :: uint_text u
  end.

Definition show_nat (n : nat) : list ascii := uint_text (Nat.to_uint n).

Definition show_tok (t : tok) : list ascii :=
  match t with
  | TNum n => show_nat n ++ [" "%char]
  | TOp k => list_ascii_of_string match k with BrAnd => "AND" | BrXor => "XOR" | BrInv => "INV" end
             ++ [ascii_of_nat 10]
  end.

Definition print_toks (l : list tok) : list ascii := concat (map show_tok l).

Lemma uint_decimal u : forall a, decimal_acc a (uint_text u) (Nat.of_uint_acc u a).
Proof.
  induction u; intros a; [exact (da_nil a)| ..]; cbn [uint_text Nat.of_uint_acc];
    rewrite Nat.tail_mul_spec;
    match goal with |- decimal_acc _ (?c :: _) _ =>
      let d := eval vm_compute in (nat_of_ascii c - 48) in
      apply (da_cons a c d); [split; [lia|reflexivity]|] end;
    match goal with |- decimal_acc ?x _ (Nat.of_uint_acc _ ?y) => replace x with y by lia end; apply IHu.
Qed.

Lemma show_nat_decimal n : decimal (show_nat n) n.
Proof.
  split.
  - unfold show_nat. destruct (Nat.to_uint n) eqn:E; try discriminate.
    exfalso. pose proof (Unsigned.of_to n) as H. rewrite E in H. simpl in H. subst n. discriminate.
  - unfold show_nat. rewrite <- (Unsigned.of_to n) at 2. apply uint_decimal.
Qed.

Lemma print_renders l : renders l (print_toks l).
Proof.
  induction l as [|t l IH]; [constructor|]. unfold print_toks. simpl. destruct t as [n|k]; simpl.
  - rewrite <- app_assoc. apply rn_tok; auto; [apply show_nat_decimal| |discriminate].
    constructor; auto. unfold blank. simpl. auto.
  - rewrite <- app_assoc. apply (rn_tok (TOp k)); auto; [reflexivity| |discriminate].
    constructor; auto. unfold blank. simpl. auto.
Qed.

Lemma print_written l : written l (print_toks l).
Proof. exists [], (print_toks l). split; auto. split; auto. apply print_renders. Qed.

(** C17: printing and parsing gives the circuit back. *)
Theorem C17_print_parse :
  forall maxu cap c, bh_gates (bc_header c) = List.length (bc_gates c) ->
  Forall (fun n => n <= maxu) (nums_of (fashion_toks c)) -> counts_fit cap c ->
  p_circuit maxu cap (print_toks (fashion_toks c)) = POk c [].
Proof. intros. apply C17_fashion_text_parses; auto. apply print_written. Qed.

(** C17 for the older format, when the size of the first input is at least the
    number of numbers that follow it before the first gate name.  Missing: small
    first inputs, for which the statement is false (next theorems). *)
Theorem C17_basic_text_parses_partial :
  forall maxu cap c txt i1 i2 o,
  bh_ins (bc_header c) = [i1; i2] -> bh_outs (bc_header c) = [o] ->
  bh_gates (bc_header c) = List.length (bc_gates c) ->
  Forall (fun n => n <= maxu) (nums_of (basic_toks c)) -> counts_fit cap c ->
  (match bc_gates c with
   | [] => 2
   | g :: _ => 4 + List.length (br_in g) + List.length (br_out g)
   end) <= i1 ->
  written (basic_toks c) txt ->
  p_circuit maxu cap txt = POk c [].
Proof.
  intros maxu cap c txt i1 i2 o Ei Eo Hg HF HC Hrun Hw. apply written_st in Hw.
  unfold basic_toks in HF. rewrite Ei, Eo in HF. simpl in HF.
  inversion HF as [|? ? A1 HF1]; subst. inversion HF1 as [|? ? A2 HF2]; subst. inversion HF2 as [|? ? A3 HF3]; subst.
  inversion HF3 as [|? ? A4 HF4]; subst. inversion HF4 as [|? ? A5 HF5]; subst.
  apply (circuit_basic maxu cap c txt i1 i2 o); auto.
  - split; auto. split; auto. rewrite Ei, Eo. auto.
  - apply gates_fit_nums; auto.
  - unfold basic_run. destruct (bc_gates c); lia.
Qed.

(** For small inputs the old format is read as the new one.  The text
      1 4 / 1 1 1 / 2 1 1 0 3 AND
    describes one AND gate of the wires 1 and 0; the parser returns, without an
    error, a circuit with a single one-bit input and a gate with a single
    operand. *)
Definition basic_witness : br_circuit :=
  BrCircuit (BrHeader 1 4 [1; 1] [1]) [BrGate BrAnd [1; 0] [3]].

Theorem C17_basic_misread_refuted :
  forall maxu cap, 4 <= maxu -> 2 <= cap ->
  written (basic_toks basic_witness) (print_toks (basic_toks basic_witness)) /\
  p_circuit maxu cap (print_toks (basic_toks basic_witness)) =
    POk (BrCircuit (BrHeader 1 4 [1] [2]) [BrGate BrAnd [0] [3]]) [].
Proof.
  intros maxu cap Hm Hc. split; [apply print_written|].
  replace maxu with (4 + (maxu - 4)) by lia. replace cap with (2 + (cap - 2)) by lia.
  generalize (maxu - 4) (cap - 2). intros m k. vm_compute. reflexivity.
Qed.

(** Another small circuit of the old format is rejected. *)
Theorem C17_basic_rejected_refuted :
  forall maxu cap, 3 <= maxu -> 2 <= cap ->
  let c := BrCircuit (BrHeader 1 3 [1; 1] [1]) [BrGate BrAnd [0; 1] [2]] in
  p_circuit maxu cap (print_toks (basic_toks c)) = PErr.
Proof.
  intros maxu cap Hm Hc.
  replace maxu with (3 + (maxu - 3)) by lia. replace cap with (2 + (cap - 2)) by lia.
  generalize (maxu - 3) (cap - 2). intros m k. vm_compute. reflexivity.
Qed.

(** A gate line announcing more wires than can be allocated makes the parser
    panic instead of returning an error; the text needs only the number. *)
Theorem C17_huge_count_panics_refuted :
  forall maxu cap, 1 <= maxu -> cap < maxu ->
  exists txt, written ([TNum 1; TNum 0; TNum 0; TNum 0; TNum (S cap); TNum 0]) txt /\
    p_circuit maxu cap txt = PPanic.
Proof.
  intros maxu cap H1 H2. eexists. split; [apply print_written|].
  match goal with |- p_circuit _ _ ?t = _ =>
    assert (S0 : St [TNum 1; TNum 0; TNum 0; TNum 0; TNum (S cap); TNum 0] t) by (apply written_st, print_written);
    generalize dependent t end.
  intros t S0.
  destruct (int_ok maxu _ _ _ H1 S0) as (i1 & E1 & R1). apply st_exact in R1.
  destruct (int_ok maxu _ _ _ (Nat.le_0_l _) R1) as (i2 & E2 & R2). apply st_exact in R2.
  destruct (int_ok maxu _ _ _ (Nat.le_0_l _) R2) as (i3 & E3 & R3). apply st_exact in R3.
  destruct (int_ok maxu _ _ _ (Nat.le_0_l _) R3) as (i4 & E4 & R4). apply st_exact in R4.
  assert (Hle : S cap <= maxu) by lia.
  destruct (int_ok maxu _ _ _ Hle R4) as (i5 & E5 & R5). apply st_exact in R5.
  destruct (int_ok maxu _ _ _ (Nat.le_0_l _) R5) as (i6 & E6 & R6).
  unfold p_circuit, p_header, p_alt, p_length_count, p_pair.
  rewrite E1. cbn [pbind]. rewrite E2. cbn [pbind fst snd]. rewrite E3. cbn [pbind p_count].
  rewrite E4. cbn [pbind p_count fst snd bh_gates]. unfold ParseModel.p_gate, p_pair.
  rewrite E5. cbn [pbind].
  rewrite E6. cbn [pbind fst snd].
  assert (F : (S cap <=? cap) = false) by (apply Nat.leb_gt; lia). rewrite F. reflexivity.
Qed.

(** From text to result: a well-formed circuit description written in the
    fashion format is parsed, loaded and executed by the two parties to the
    outputs the description denotes. *)
Theorem C17_text_to_execution_partial :
  forall W maxu cap b txt, 0 < W -> br_header_ok b -> br_wires_ok b -> br_no_self b ->
  bh_gates (bc_header b) = List.length (bc_gates b) ->
  Forall (fun n => n <= maxu) (nums_of (fashion_toks b)) -> counts_fit cap b ->
  written (fashion_toks b) txt ->
  forall ins outs, List.length ins = br_total_in b -> br_eval b ins = Some outs ->
  exists b' c ec, p_circuit maxu cap txt = POk b' [] /\
    from_bristol bool_ops bool_from_br b' LoadCircuit = Some (Some c) /\
    ec_of_base bool_ops c = Some ec /\
    forall (Sv : Type) (req : Sv -> nat -> option (mul_triples * Sv)) J,
    serves req (bool_setup_ok W) J ->
    forall (i0 i1 : istore (bool_gmw W)), shares_of W None i0 i1 (lane1 ins) ->
    forall s0 s1 rest, J (requests ec ++ rest) s0 s1 ->
    exists o0 o1 st',
      ex2_run (pr:=bool_gmw W) req ec i0 i1
        ((go_init (pr:=bool_gmw W) ec, s0), (go_init (pr:=bool_gmw W) ec, s1)) = Some (o0, o1, st') /\
      shares_of W None o0 o1 (lane1 outs).
Proof.
  intros W maxu cap b txt HW H1 H2 H3 Hg HF HC Hw ins outs Hl He.
  destruct (C16_bristol_execution_partial W b HW H1 H2 H3 ins outs Hl He) as (c & ec & E1 & E2 & E3).
  exists b, c, ec. split; [apply C17_fashion_text_parses; auto|]. auto.
Qed.

(** *** A concrete case: a half adder *)

Definition half_adder : br_circuit :=
  BrCircuit (BrHeader 3 5 [1; 1] [1; 1])
    [BrGate BrXor [0; 1] [3]; BrGate BrAnd [0; 1] [4]; BrGate BrInv [4] [2]].

(** The same tokens, spaced differently. *)
Definition half_adder_text : list ascii :=
  list_ascii_of_string (String (ascii_of_nat 10) "3 05 2 1  1 2 1 1
2 1 0 1 3XOR 2 1 0 1 4 AND1 1 4 2 INV").

Example C17_case :
  bh_gates (bc_header half_adder) = List.length (bc_gates half_adder) /\
  Forall (fun n => n <= 100) (nums_of (fashion_toks half_adder)) /\ counts_fit 4 half_adder /\
  p_circuit 100 4 half_adder_text = POk half_adder [] /\
  written (fashion_toks half_adder) half_adder_text /\
  br_eval half_adder [true; true] = Some [false; true].
Proof.
  assert (E : p_circuit 100 4 half_adder_text = POk half_adder []) by (vm_compute; reflexivity).
  split; auto. split; [|split; [|split; [|split]]].
  - unfold half_adder, fashion_toks, nums_of. simpl. repeat constructor; lia.
  - intros g [<-|[<-|[<-|[]]]]; simpl; lia.
  - exact E.
  - destruct (C17_accepted_text _ _ _ _ _ E) as (_ & _ & [H|(_ & H & H')]); auto. discriminate.
  - vm_compute. reflexivity.
Qed.

(** A circuit in the old format with large inputs. *)
Example C17_basic_case :
  let c := BrCircuit (BrHeader 1 20 [8; 8] [1]) [BrGate BrAnd [1; 9] [19]] in
  (4 + 2 + 1 <= 8) /\ p_circuit 100 4 (print_toks (basic_toks c)) = POk c [].
Proof. split; [lia|]. vm_compute. reflexivity. Qed.

Print Assumptions C17_fashion_text_parses.
Print Assumptions C17_accepted_text.
Print Assumptions C17_fashion_unambiguous.
Print Assumptions C17_print_parse.
Print Assumptions C17_basic_text_parses_partial.
Print Assumptions C17_basic_misread_refuted.
Print Assumptions C17_basic_rejected_refuted.
Print Assumptions C17_huge_count_panics_refuted.
Print Assumptions C17_text_to_execution_partial.
