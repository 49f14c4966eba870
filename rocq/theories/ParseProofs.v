(** Proofs about the Bristol parser. *)
From Coq Require Import Bool Arith Lia Ascii String List.
Require Import Verif.Prelude Verif.InlineModel Verif.ParseModel Verif.ParseSpec.
Import ListNotations.

(** ** Characters *)

Lemma ascii_code_eq a b : nat_of_ascii a = nat_of_ascii b -> a = b.
Proof. intros H. rewrite <- (ascii_nat_embedding a), <- (ascii_nat_embedding b). congruence. Qed.

Lemma is_ws_blank c : is_ws c = true <-> blank c.
Proof.
  unfold is_ws, blank. rewrite !orb_true_iff, !Ascii.eqb_eq. simpl. split.
  - intros [[[->| ->]| ->]| ->]; vm_compute; auto.
  - intros [H|[H|[H|[H|[]]]]]; [left; left; left|left; left; right|left; right|right];
      apply ascii_code_eq; rewrite <- H; reflexivity.
Qed.

Lemma is_digit_of c : is_digit c = true <-> digit_of c (nat_of_ascii c - 48).
Proof.
  unfold is_digit, digit_of. rewrite andb_true_iff, !Nat.leb_le. split; lia.
Qed.

Lemma digit_not_ws c : is_digit c = true -> is_ws c = false.
Proof.
  intros H. destruct (is_ws c) eqn:E; auto. apply is_ws_blank in E. unfold blank in E.
  unfold is_digit in H. rewrite andb_true_iff, !Nat.leb_le in H. simpl in E. lia.
Qed.

Lemma digit_of_unique c d : digit_of c d -> d = nat_of_ascii c - 48 /\ is_digit c = true.
Proof.
  intros [H1 H2]. split; [lia|]. unfold is_digit. rewrite andb_true_iff, !Nat.leb_le. lia.
Qed.

(** ** Digit strings *)

Lemma decimal_acc_fold : forall s a n, decimal_acc a s n <->
  Forall (fun c => is_digit c = true) s /\
  n = fold_left (fun acc c => 10 * acc + (nat_of_ascii c - 48)) s a.
Proof.
  induction s as [|c s IH]; intros a n; split.
  - intros H. inversion H; subst. auto.
  - intros [_ ->]. constructor.
  - intros H. inversion H as [|a' c' d s' n' Hc Hs]; subst. destruct (digit_of_unique _ _ Hc) as [-> Hd].
    apply IH in Hs. destruct Hs as [HF ->]. split; [constructor; auto|]. cbn [fold_left].
    f_equal. lia.
  - intros [HF ->]. inversion HF; subst. econstructor; [apply is_digit_of; eauto|].
    apply IH. split; auto. cbn [fold_left]. f_equal. lia.
Qed.

Lemma decimal_iff s n : decimal s n <->
  s <> [] /\ Forall (fun c => is_digit c = true) s /\ n = digits_value s.
Proof. unfold decimal, digits_value. rewrite decimal_acc_fold. tauto. Qed.

Definition starts_digit (i : text) : Prop := match i with c :: _ => is_digit c = true | [] => False end.
Definition starts_ws (i : text) : Prop := match i with c :: _ => is_ws c = true | [] => False end.

Lemma take_digits_app d : forall rest, Forall (fun c => is_digit c = true) d -> ~ starts_digit rest ->
  take_digits (d ++ rest) = (d, rest).
Proof.
  induction d as [|c d IH]; intros rest HF Hn; simpl.
  - destruct rest as [|c r]; auto. simpl in *. destruct (is_digit c); auto. exfalso; auto.
  - inversion HF; subst. rewrite H1, IH; auto.
Qed.

Lemma take_digits_sound i : forall d rest, take_digits i = (d, rest) ->
  i = d ++ rest /\ Forall (fun c => is_digit c = true) d /\ ~ starts_digit rest.
Proof.
  induction i as [|c i IH]; simpl; intros d rest H.
  - injection H as <- <-. simpl. auto.
  - destruct (is_digit c) eqn:E.
    + destruct (take_digits i) as [d' r'] eqn:E'. injection H as <- <-.
      destruct (IH _ _ eq_refl) as (-> & A & B). simpl. auto.
    + injection H as <- <-. simpl. rewrite E. repeat split; auto.
Qed.

Lemma skip_ws_app sp : forall r, Forall blank sp -> skip_ws (sp ++ r) = skip_ws r.
Proof.
  induction sp as [|c sp IH]; intros r H; simpl; auto. inversion H; subst.
  apply is_ws_blank in H2. rewrite H2. auto.
Qed.

Lemma skip_ws_id r : ~ starts_ws r -> skip_ws r = r.
Proof. destruct r as [|c r]; simpl; auto. destruct (is_ws c); tauto. Qed.

Lemma skip_ws_sound i : exists sp, i = sp ++ skip_ws i /\ Forall blank sp /\ ~ starts_ws (skip_ws i).
Proof.
  induction i as [|c i (sp & E & HF & Hn)]; simpl.
  - exists []. simpl. auto.
  - destruct (is_ws c) eqn:Ec.
    + exists (c :: sp). simpl. rewrite <- E. repeat split; auto. constructor; auto. apply is_ws_blank; auto.
    + exists []. simpl. rewrite Ec. repeat split; auto.
Qed.

(** ** Rendered texts *)

Lemma op_text_head k : exists c r, list_ascii_of_string match k with BrAnd => "AND" | BrXor => "XOR" | BrInv => "INV" end
  = c :: r /\ is_digit c = false /\ is_ws c = false.
Proof. destruct k; simpl; eexists; eexists; repeat split. Qed.

Lemma renders_head toks txt : renders toks txt ->
  match toks with
  | [] => txt = []
  | TNum _ :: _ => starts_digit txt
  | TOp _ :: _ => ~ starts_digit txt
  end /\ ~ starts_ws txt.
Proof.
  intros H. destruct H as [|t s sp toks txt Ht Hsp Hg Hr]; [simpl; auto|].
  destruct t as [n|k]; simpl in Ht.
  - apply decimal_iff in Ht. destruct Ht as (Hne & HF & _). destruct s as [|c s]; [congruence|].
    inversion HF; subst. simpl. rewrite (digit_not_ws c) by auto. auto.
  - destruct (op_text_head k) as (c & r & E & Ed & Ew). rewrite Ht, E. simpl. rewrite Ed, Ew.
    split; discriminate.
Qed.

Lemma renders_skip toks txt : renders toks txt -> skip_ws txt = txt.
Proof. intros H. apply skip_ws_id. apply (renders_head _ _ H). Qed.

Section Parser.
Variables maxu cap : nat.

Definition St (toks : list tok) (i : text) : Prop := renders toks (skip_ws i).

Lemma st_exact toks i : renders toks i -> St toks i.
Proof. intros H. unfold St. rewrite (renders_skip _ _ H). auto. Qed.

Lemma int_ok n toks i : n <= maxu -> St (TNum n :: toks) i ->
  exists i', p_integer_ws maxu i = POk n i' /\ renders toks i'.
Proof.
  intros Hn H. unfold St in H. unfold p_integer_ws, p_ws.
  inversion H as [|t s sp toks' txt Ht Hsp Hg Hr Et Etx]; subst. simpl in Ht.
  apply decimal_iff in Ht. destruct Ht as (Hne & HF & En).
  assert (Hd : ~ starts_digit (sp ++ txt)).
  { destruct sp as [|c sp].
    - simpl. destruct (renders_head _ _ Hr) as [Hh _]. destruct toks as [|[m|k] toks]; simpl in *.
      + subst. simpl. auto.
      + exfalso. apply Hg; auto.
      + auto.
    - simpl. inversion Hsp; subst. intros Hd. apply digit_not_ws in Hd. apply is_ws_blank in H2. congruence. }
  unfold p_integer. rewrite take_digits_app by auto. destruct s as [|c s]; [congruence|].
  unfold parse_usize. rewrite <- En. assert (Hle : (n <=? maxu) = true) by (apply Nat.leb_le; auto).
  rewrite Hle. cbn [pbind]. rewrite skip_ws_app by auto. rewrite (renders_skip _ _ Hr).
  exists txt. auto.
Qed.

Lemma int_sound n i i' : p_integer_ws maxu i = POk n i' ->
  n <= maxu /\ forall toks, renders toks i' -> St (TNum n :: toks) i.
Proof.
  unfold p_integer_ws, p_ws, p_integer. destruct (take_digits (skip_ws i)) as [d rest] eqn:E.
  destruct (take_digits_sound _ _ _ E) as (Ei & HF & Hn). destruct d as [|c d]; [discriminate|].
  unfold parse_usize. destruct (Nat.leb_spec (digits_value (c :: d)) maxu) as [Hle|]; [|discriminate].
  cbn [pbind]. intros H. injection H as <- <-. split; auto. intros toks Hr.
  destruct (skip_ws_sound rest) as (sp & Er & Hsp & _). unfold St. rewrite Ei, Er.
  apply rn_tok; auto.
  - simpl. apply decimal_iff. split; [discriminate|]. auto.
  - intros Hg. destruct toks as [|[m|k] toks]; try discriminate. destruct sp; [|discriminate].
    exfalso. simpl in Er. destruct (renders_head _ _ Hr) as [Hh _]. rewrite <- Er in Hh. auto.
Qed.

Lemma int_fail toks i : St toks i -> (match toks with TNum _ :: _ => False | _ => True end) ->
  p_integer_ws maxu i = PErr.
Proof.
  intros H Hk. unfold St in H. unfold p_integer_ws, p_ws, p_integer.
  destruct (renders_head _ _ H) as [Hh _].
  assert (Hd : ~ starts_digit (skip_ws i)).
  { destruct toks as [|[m|k] toks]; try tauto. rewrite Hh. simpl. auto. }
  pose proof (take_digits_app [] (skip_ws i) (Forall_nil _) Hd) as E. cbn [app] in E. rewrite E. reflexivity.
Qed.

Lemma ints_ok l : forall toks i, Forall (fun n => n <= maxu) l -> St (map TNum l ++ toks) i ->
  exists i', p_count (p_integer_ws maxu) (List.length l) i = POk l i' /\ St toks i' /\
    (l <> [] -> renders toks i').
Proof.
  induction l as [|n l IH]; intros toks i HF H.
  - exists i. simpl. repeat split; auto; try congruence.
  - inversion HF; subst. simpl in H. destruct (int_ok n (map TNum l ++ toks) i) as (i1 & E & Hr); auto.
    cbn [p_count List.length]. rewrite E. cbn [pbind].
    destruct (IH toks i1) as (i2 & E2 & H2' & H3'); auto using st_exact. rewrite E2. cbn [pbind].
    exists i2. split; auto. split; auto. intros _. destruct l as [|m l]; [|apply H3'; discriminate].
    simpl in E2, Hr. injection E2 as <-. auto.
Qed.

Lemma ints_sound k : forall l i i', p_count (p_integer_ws maxu) k i = POk l i' ->
  k = List.length l /\ Forall (fun n => n <= maxu) l /\ (l <> [] -> ~ starts_ws i') /\
  (forall toks, St toks i' -> St (map TNum l ++ toks) i).
Proof.
  induction k as [|k IH]; simpl; intros l i i' H.
  - injection H as <- <-. repeat split; auto; try congruence.
  - destruct (p_integer_ws maxu i) as [| |n i1] eqn:E; try discriminate. cbn [pbind] in H.
    destruct (p_count (p_integer_ws maxu) k i1) as [| |l' i2] eqn:E2; try discriminate. cbn [pbind] in H.
    injection H as <- <-. destruct (int_sound _ _ _ E) as [Hn Hs].
    destruct (IH _ _ _ E2) as (-> & HF & Hns & Ht).
    assert (Hi1 : skip_ws i1 = i1).
    { unfold p_integer_ws, p_ws in E. destruct (p_integer maxu (skip_ws i)) as [| |a r]; try discriminate.
      cbn [pbind] in E. injection E as _ <-. destruct (skip_ws_sound r) as (sp & _ & _ & Hw).
      apply skip_ws_id; auto. }
    split; auto. split; [constructor; auto|]. split.
    + intros _. destruct l' as [|m l']; [|apply Hns; discriminate]. simpl in E2. injection E2 as <-.
      rewrite <- Hi1. destruct (skip_ws_sound i1) as (_ & _ & _ & Hw). auto.
    + intros toks Hst. simpl. apply Hs. specialize (Ht toks Hst). unfold St in Ht. rewrite Hi1 in Ht. auto.
Qed.

Lemma ints_fail l : forall k toks i, Forall (fun n => n <= maxu) l -> St (map TNum l ++ toks) i ->
  (match toks with TNum _ :: _ => False | _ => True end) -> List.length l < k ->
  p_count (p_integer_ws maxu) k i = PErr.
Proof.
  induction l as [|n l IH]; intros k toks i HF H Ht Hk.
  - destruct k; [simpl in Hk; lia|]. cbn [p_count]. rewrite (int_fail toks i); auto.
  - destruct k; [simpl in Hk; lia|]. inversion HF; subst. simpl in H.
    destruct (int_ok n _ _ H2 H) as (i1 & E & Hr). cbn [p_count]. rewrite E. cbn [pbind].
    rewrite (IH k toks i1); auto using st_exact. simpl in Hk. lia.
Qed.

(** ** Gates *)

Lemma strip_app t i : strip t (t ++ i) = Some i.
Proof. induction t as [|c t IH]; simpl; auto. rewrite Ascii.eqb_refl. auto. Qed.

Lemma strip_sound t : forall i r, strip t i = Some r -> i = t ++ r.
Proof.
  induction t as [|c t IH]; intros [|d i] r H; simpl in *; try congruence.
  destruct (Ascii.eqb_spec c d); [|discriminate]. subst. f_equal. auto.
Qed.

Lemma op_ok k toks i : renders (TOp k :: toks) i -> exists i', p_op i = POk k i' /\ St toks i'.
Proof.
  intros H. inversion H as [|t s sp toks' txt Ht Hsp Hg Hr Et Etx]; subst. simpl in Ht.
  exists (sp ++ txt). split.
  - unfold p_op. subst s. destruct k; reflexivity.
  - unfold St. rewrite skip_ws_app by auto. rewrite (renders_skip _ _ Hr). auto.
Qed.

Lemma op_sound k i i' : p_op i = POk k i' -> forall toks, St toks i' -> renders (TOp k :: toks) i.
Proof.
  intros H toks Hst.
  assert (E : i = op_text k ++ i').
  { unfold p_op in H. destruct (strip (op_text BrAnd) i) eqn:E1; [injection H as <- <-; apply strip_sound; auto|].
    destruct (strip (op_text BrXor) i) eqn:E2; [injection H as <- <-; apply strip_sound; auto|].
    destruct (strip (op_text BrInv) i) eqn:E3; [injection H as <- <-; apply strip_sound; auto|discriminate]. }
  rewrite E. destruct (skip_ws_sound i') as (sp & Es & Hsp & _). rewrite Es.
  apply rn_tok; auto; [reflexivity|]. destruct toks as [|[]]; discriminate.
Qed.

Definition gate_fits (g : br_gate) : Prop :=
  List.length (br_in g) <= maxu /\ List.length (br_out g) <= maxu /\
  List.length (br_in g) <= cap /\ List.length (br_out g) <= cap /\
  Forall (fun n => n <= maxu) (br_in g) /\ Forall (fun n => n <= maxu) (br_out g).

Lemma gate_ok g toks i : gate_fits g -> St (gate_toks g ++ toks) i ->
  exists i', p_gate maxu cap i = POk g i' /\ St toks i'.
Proof.
  intros (F1 & F2 & F3 & F4 & F5 & F6) H. unfold gate_toks in H. simpl in H.
  destruct (int_ok _ _ _ F1 H) as (i1 & E1 & R1). apply st_exact in R1.
  destruct (int_ok _ _ _ F2 R1) as (i2 & E2 & R2).
  unfold p_gate, p_pair. rewrite E1. cbn [pbind]. rewrite E2. cbn [pbind fst snd].
  apply Nat.leb_le in F3, F4. rewrite F3, F4. cbn [andb].
  rewrite <- !app_assoc in R2.
  destruct (ints_ok (br_in g) _ i2 F5 (st_exact _ _ R2)) as (i3 & E3 & S3 & R3).
  rewrite E3. cbn [pbind].
  assert (R3' : renders (map TNum (br_out g) ++ [TOp (br_op g)] ++ toks) i3).
  { destruct (br_in g) as [|m l]; [|apply R3; discriminate]. simpl in E3. injection E3 as <-.
    exact R2. }
  destruct (ints_ok (br_out g) ([TOp (br_op g)] ++ toks) i3 F6 (st_exact _ _ R3')) as (i4 & E4 & S4 & R4).
  rewrite E4. cbn [pbind].
  assert (R4' : renders ([TOp (br_op g)] ++ toks) i4).
  { destruct (br_out g) as [|m l]; [|apply R4; discriminate]. simpl in E4. injection E4 as <-. auto. }
  simpl in R4'. destruct (op_ok _ _ _ R4') as (i5 & E5 & S5). rewrite E5. cbn [pbind].
  exists i5. split; auto. destruct g; auto.
Qed.

Lemma int_ws_no_ws n i i' : p_integer_ws maxu i = POk n i' -> skip_ws i' = i'.
Proof.
  unfold p_integer_ws, p_ws. destruct (p_integer maxu (skip_ws i)) as [| |a r]; try discriminate.
  cbn [pbind]. intros E. injection E as _ <-. destruct (skip_ws_sound r) as (sp & _ & _ & Hw).
  apply skip_ws_id; auto.
Qed.

Lemma gate_sound g i i' : p_gate maxu cap i = POk g i' ->
  gate_fits g /\ forall toks, St toks i' -> St (gate_toks g ++ toks) i.
Proof.
  unfold p_gate, p_pair.
  destruct (p_integer_ws maxu i) as [| |n i1] eqn:E1; try discriminate. cbn [pbind].
  destruct (p_integer_ws maxu i1) as [| |m i2] eqn:E2; try discriminate. cbn [pbind fst snd].
  destruct ((n <=? cap) && (m <=? cap)) eqn:Ec; [|discriminate].
  apply andb_true_iff in Ec. destruct Ec as [C1 C2]. apply Nat.leb_le in C1, C2.
  destruct (p_count (p_integer_ws maxu) n i2) as [| |ins i3] eqn:E3; try discriminate. cbn [pbind].
  destruct (p_count (p_integer_ws maxu) m i3) as [| |outs i4] eqn:E4; try discriminate. cbn [pbind].
  destruct (p_op i4) as [| |k i5] eqn:E5; try discriminate. cbn [pbind].
  intros H. injection H as <- <-.
  destruct (int_sound _ _ _ E1) as [N1 S1]. destruct (int_sound _ _ _ E2) as [N2 S2].
  destruct (ints_sound _ _ _ _ E3) as (-> & F3 & W3 & S3). destruct (ints_sound _ _ _ _ E4) as (-> & F4 & W4 & S4).
  split; [repeat split; auto|].
  intros toks Hst. pose proof (op_sound _ _ _ E5 _ Hst) as R4.
  pose proof (S3 _ (S4 _ (st_exact _ _ R4))) as St2. unfold St in St2. rewrite (int_ws_no_ws _ _ _ E2) in St2.
  pose proof (S2 _ St2) as St1. unfold St in St1. rewrite (int_ws_no_ws _ _ _ E1) in St1.
  pose proof (S1 _ St1) as St0. unfold gate_toks. simpl. rewrite <- app_assoc. simpl.
  rewrite <- app_assoc. exact St0.
Qed.

Lemma gates_ok gs : forall i, Forall gate_fits gs -> St (concat (map gate_toks gs)) i ->
  exists i', p_count (p_gate maxu cap) (List.length gs) i = POk gs i' /\ skip_ws i' = [].
Proof.
  induction gs as [|g gs IH]; intros i HF H.
  - exists i. split; auto. unfold St in H. inversion H. auto.
  - inversion HF; subst. simpl in H. destruct (gate_ok g _ i H2 H) as (i1 & E & S1).
    cbn [p_count List.length]. rewrite E. cbn [pbind]. destruct (IH i1 H3 S1) as (i2 & E2 & W).
    rewrite E2. cbn [pbind]. eauto.
Qed.

Lemma gates_sound k : forall gs i i', p_count (p_gate maxu cap) k i = POk gs i' ->
  k = List.length gs /\ Forall gate_fits gs /\
  forall toks, St toks i' -> St (concat (map gate_toks gs) ++ toks) i.
Proof.
  induction k as [|k IH]; simpl; intros gs i i' H.
  - injection H as <- <-. auto.
  - destruct (p_gate maxu cap i) as [| |g i1] eqn:E; try discriminate. cbn [pbind] in H.
    destruct (p_count (p_gate maxu cap) k i1) as [| |gs' i2] eqn:E2; try discriminate. cbn [pbind] in H.
    injection H as <- <-. destruct (gate_sound _ _ _ E) as [F S]. destruct (IH _ _ _ E2) as (-> & F' & S').
    split; auto. split; auto. intros toks Hst. simpl. rewrite <- app_assoc. apply S. auto.
Qed.

(** ** Headers and circuits *)

Definition lcnt := p_length_count (p_integer_ws maxu) (p_integer_ws maxu).

Lemma lcnt_ok l toks i : List.length l <= maxu -> Forall (fun n => n <= maxu) l ->
  St (TNum (List.length l) :: map TNum l ++ toks) i ->
  exists i', lcnt i = POk l i' /\ renders toks i'.
Proof.
  intros Hl HF H. destruct (int_ok _ _ _ Hl H) as (i1 & E & R). unfold lcnt, p_length_count.
  rewrite E. cbn [pbind]. destruct (ints_ok l toks i1 HF (st_exact _ _ R)) as (i2 & E2 & S2 & R2).
  exists i2. split; auto. destruct l as [|m l]; [|apply R2; discriminate]. simpl in E2, R. injection E2 as <-. auto.
Qed.

Lemma lcnt_sound l i i' : lcnt i = POk l i' ->
  List.length l <= maxu /\ Forall (fun n => n <= maxu) l /\ skip_ws i' = i' /\
  forall toks, St toks i' -> St (TNum (List.length l) :: map TNum l ++ toks) i.
Proof.
  unfold lcnt, p_length_count. destruct (p_integer_ws maxu i) as [| |n i1] eqn:E; try discriminate.
  cbn [pbind]. intros H. destruct (int_sound _ _ _ E) as [Hn Hs].
  destruct (ints_sound _ _ _ _ H) as (-> & F & W & S). split; auto. split; auto. split.
  - destruct l as [|m l]; [simpl in H; injection H as <-; apply (int_ws_no_ws _ _ _ E)|].
    apply skip_ws_id. apply W. discriminate.
  - intros toks Hst. apply Hs. specialize (S _ Hst). unfold St in S. rewrite (int_ws_no_ws _ _ _ E) in S. auto.
Qed.

Definition header_fits (h : br_header) : Prop :=
  bh_gates h <= maxu /\ bh_wires h <= maxu /\
  Forall (fun n => n <= maxu) (bh_ins h) /\ Forall (fun n => n <= maxu) (bh_outs h).

Lemma circuit_fashion c i :
  header_fits (bc_header c) -> List.length (bh_ins (bc_header c)) <= maxu ->
  List.length (bh_outs (bc_header c)) <= maxu -> bh_gates (bc_header c) = List.length (bc_gates c) ->
  Forall gate_fits (bc_gates c) -> St (fashion_toks c) i ->
  p_circuit maxu cap i = POk c [].
Proof.
  intros (F1 & F2 & F3 & F4) L1 L2 Hg HF H. unfold fashion_toks in H.
  destruct (int_ok _ _ _ F1 H) as (i1 & E1 & R1). apply st_exact in R1.
  destruct (int_ok _ _ _ F2 R1) as (i2 & E2 & R2). apply st_exact in R2.
  destruct (lcnt_ok _ _ _ L1 F3 R2) as (i3 & E3 & R3). apply st_exact in R3.
  destruct (lcnt_ok _ _ _ L2 F4 R3) as (i4 & E4 & R4). apply st_exact in R4.
  unfold p_circuit, p_header, p_alt. unfold p_pair at 1. rewrite E1. cbn [pbind]. rewrite E2. cbn [pbind fst snd].
  unfold p_pair at 1. fold lcnt. rewrite E3. cbn [pbind]. rewrite E4. cbn [pbind fst snd bh_gates].
  rewrite Hg. destruct (gates_ok _ _ HF R4) as (i5 & E5 & W5). rewrite E5. cbn [pbind]. rewrite W5.
  rewrite <- Hg. destruct c as [[]]; reflexivity.
Qed.

(** Numbers before the first gate name, after the header line of the old
    format. *)
Definition basic_run (c : br_circuit) : nat :=
  2 + match bc_gates c with
      | [] => 0
      | g :: _ => 2 + List.length (br_in g) + List.length (br_out g)
      end.

Lemma circuit_basic c i i1n i2n on :
  bh_ins (bc_header c) = [i1n; i2n] -> bh_outs (bc_header c) = [on] ->
  header_fits (bc_header c) -> bh_gates (bc_header c) = List.length (bc_gates c) ->
  Forall gate_fits (bc_gates c) -> basic_run c <= i1n -> St (basic_toks c) i ->
  p_circuit maxu cap i = POk c [].
Proof.
  intros Ei Eo (F1 & F2 & F3 & F4) Hg HF Hrun H. unfold basic_toks in H. rewrite Ei, Eo in *.
  cbn [map app] in H.
  destruct (int_ok _ _ _ F1 H) as (j1 & E1 & R1). apply st_exact in R1.
  destruct (int_ok _ _ _ F2 R1) as (j2 & E2 & R2). apply st_exact in R2.
  inversion F3 as [|? ? N1 F3']; subst. inversion F3' as [|? ? N2 _]; subst. inversion F4 as [|? ? N3 _]; subst.
  destruct (int_ok _ _ _ N1 R2) as (j3 & E3 & R3). apply st_exact in R3.
  destruct (int_ok _ _ _ N2 R3) as (j4 & E4 & R4). apply st_exact in R4.
  destruct (int_ok _ _ _ N3 R4) as (j5 & E5 & R5). apply st_exact in R5.
  (* the fashion parser fails *)
  assert (Hfail : p_pair lcnt lcnt j2 = PErr).
  { set (nums := match bc_gates c with [] => [] | g :: _ =>
        List.length (br_in g) :: List.length (br_out g) :: br_in g ++ br_out g end).
    set (rest := match bc_gates c with [] => [] | g :: gs => TOp (br_op g) :: concat (map gate_toks gs) end).
    assert (Esplit : TNum i2n :: TNum on :: concat (map gate_toks (bc_gates c)) =
                     map TNum (i2n :: on :: nums) ++ rest).
    { unfold nums, rest. destruct (bc_gates c) as [|g gs]; simpl; auto. unfold gate_toks. simpl.
      rewrite map_app, <- !app_assoc. reflexivity. }
    assert (Hlen : List.length (i2n :: on :: nums) = basic_run c).
    { unfold nums, basic_run. destruct (bc_gates c); simpl; auto. rewrite app_length. lia. }
    assert (HFn : Forall (fun n => n <= maxu) (i2n :: on :: nums)).
    { constructor; auto. constructor; auto. unfold nums. destruct (bc_gates c) as [|g gs]; auto.
      inversion HF as [|? ? (G1 & G2 & _ & _ & G5 & G6) _]; subst. constructor; auto. constructor; auto.
      apply Forall_app. auto. }
    assert (Hrest : match rest with TNum _ :: _ => False | _ => True end).
    { unfold rest. destruct (bc_gates c); auto. }
    unfold p_pair, lcnt, p_length_count. rewrite E3. cbn [pbind].
    rewrite Esplit in R3.
    destruct (Nat.eq_dec i1n (basic_run c)) as [Eq|Ne].
    - destruct (ints_ok (i2n :: on :: nums) rest j3 HFn R3) as (j & Ej & Sj & Rj).
      rewrite Hlen in Ej. rewrite Eq, Ej. cbn [pbind]. rewrite (int_fail rest j); auto.
    - rewrite (ints_fail (i2n :: on :: nums) i1n rest j3); auto. lia. }
  unfold p_circuit, p_header, p_alt. unfold p_pair at 1. rewrite E1. cbn [pbind]. rewrite E2. cbn [pbind fst snd].
  fold lcnt. rewrite Hfail. unfold p_pair. cbn [p_count]. rewrite E3. cbn [pbind]. rewrite E4. cbn [pbind].
  rewrite E5. cbn [pbind fst snd bh_gates]. rewrite Hg.
  destruct (gates_ok _ _ HF R5) as (j6 & E6 & W6). rewrite E6. cbn [pbind]. rewrite W6.
  rewrite <- Hg. destruct c as [[]]; simpl in *; subst; reflexivity.
Qed.

Lemma circuit_sound c i r : p_circuit maxu cap i = POk c r ->
  r = [] /\ header_fits (bc_header c) /\ bh_gates (bc_header c) = List.length (bc_gates c) /\
  Forall gate_fits (bc_gates c) /\
  (St (fashion_toks c) i \/
   St (basic_toks c) i /\ List.length (bh_ins (bc_header c)) = 2 /\ List.length (bh_outs (bc_header c)) = 1).
Proof.
  unfold p_circuit, p_header. unfold p_pair at 1.
  destruct (p_integer_ws maxu i) as [| |n i1] eqn:E1; try discriminate. cbn [pbind].
  destruct (p_integer_ws maxu i1) as [| |m i2] eqn:E2; try discriminate. cbn [pbind fst snd]. fold lcnt.
  destruct (p_alt (p_pair lcnt lcnt) (p_pair (p_count (p_integer_ws maxu) 2) (p_count (p_integer_ws maxu) 1)) i2)
    as [| |[is os] i3] eqn:E3; try discriminate. cbn [pbind fst snd bh_gates].
  destruct (p_count (p_gate maxu cap) n i3) as [| |gs i4] eqn:E4; try discriminate. cbn [pbind].
  destruct (skip_ws i4) eqn:E5; [|discriminate]. intros H. injection H as <- <-. cbn [bc_header bc_gates].
  destruct (int_sound _ _ _ E1) as [N1 S1]. destruct (int_sound _ _ _ E2) as [N2 S2].
  destruct (gates_sound _ _ _ _ E4) as (-> & HF & Sg).
  assert (Hst3 : St (concat (map gate_toks gs)) i3).
  { rewrite <- (app_nil_r (concat _)). apply Sg. unfold St. rewrite E5. constructor. }
  split; auto. unfold p_alt in E3.
  assert (Hpre : forall toks, St toks i2 -> St (TNum (List.length gs) :: TNum m :: toks) i).
  { intros toks Hst. apply S1. unfold St in Hst. rewrite (int_ws_no_ws _ _ _ E2) in Hst.
    specialize (S2 _ Hst). unfold St in S2. rewrite (int_ws_no_ws _ _ _ E1) in S2. auto. }
  destruct (p_pair lcnt lcnt i2) as [| |[is' os'] i3'] eqn:E6; try discriminate.
  - unfold p_pair in E3.
    destruct (p_count (p_integer_ws maxu) 2 i2) as [| |l1 j1] eqn:E7; try discriminate. cbn [pbind] in E3.
    destruct (p_count (p_integer_ws maxu) 1 j1) as [| |l2 j2] eqn:E8; try discriminate. cbn [pbind] in E3.
    injection E3 as <- <- <-. destruct (ints_sound _ _ _ _ E7) as (L1 & F1 & _ & T1).
    destruct (ints_sound _ _ _ _ E8) as (L2 & F2 & _ & T2).
    split; [repeat split; auto|]. split; auto. split; auto. right. split; [|simpl; auto].
    unfold basic_toks. simpl. apply Hpre. apply T1, T2. auto.
  - injection E3 as <- <- <-. unfold p_pair in E6.
    destruct (lcnt i2) as [| |l1 j1] eqn:E7; try discriminate. cbn [pbind] in E6.
    destruct (lcnt j1) as [| |l2 j2] eqn:E8; try discriminate. cbn [pbind] in E6.
    injection E6 as <- <- <-. destruct (lcnt_sound _ _ _ E7) as (L1 & F1 & W1 & T1).
    destruct (lcnt_sound _ _ _ E8) as (L2 & F2 & W2 & T2).
    split; [repeat split; auto|]. split; auto. split; auto. left.
    unfold fashion_toks. simpl. apply Hpre. apply T1, T2. auto.
Qed.
End Parser.
