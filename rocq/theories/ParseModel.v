(** Model of crates/seec/src/parse/mod.rs and crates/seec/src/parse/bristol.rs:
    the Bristol parser.  No proofs here.

    The nom combinators are modelled after their documentation (nom 7); the
    input is a list of characters.  Error positions and error kinds are dropped:
    every error used here is the recoverable [Err::Error]. *)
From Coq Require Import List Bool Arith Ascii String.
Require Import Verif.Prelude Verif.InlineModel.
Import ListNotations.

(** The input [&str] of parse/mod.rs 13-33. *)
Definition text := list ascii.

(** [IResult]: a panic, a recoverable error, or a value and the rest of the
    input. Return type of parse/mod.rs 13-33 and parse/bristol.rs 67-128. *)
Inductive pres (A : Type) := PPanic | PErr | POk (a : A) (rest : text).
Arguments PPanic {A}. Arguments PErr {A}. Arguments POk {A} a rest.

(** The [?] operator in parse/bristol.rs 67-128. *)
Definition pbind {A B} (r : pres A) (f : A -> text -> pres B) : pres B :=
  match r with PPanic => PPanic | PErr => PErr | POk a i => f a i end.

(** nom [multispace0]: skips spaces, tabs, carriage returns and line feeds. Used at
    parse/mod.rs 32, parse/bristol.rs 112. *)
Definition is_ws (c : ascii) : bool :=
  (c =? " ")%char || (c =? ascii_of_nat 9)%char || (c =? ascii_of_nat 13)%char || (c =? ascii_of_nat 10)%char.

(** nom [multispace0], parse/mod.rs 32. *)
Fixpoint skip_ws (i : text) : text :=
  match i with c :: r => if is_ws c then skip_ws r else i | [] => [] end.

(** nom [digit1]: the longest non-empty run of ASCII digits. Used at parse/mod.rs 16. *)
Definition is_digit (c : ascii) : bool :=
  (48 <=? nat_of_ascii c) && (nat_of_ascii c <=? 57).

(** nom [digit1], parse/mod.rs 16. *)
Fixpoint take_digits (i : text) : text * text :=
  match i with
  | c :: r => if is_digit c then let '(d, rest) := take_digits r in (c :: d, rest) else ([], i)
  | [] => ([], [])
  end.

(** [str::parse::<usize>] on a digit string; [None] on overflow.  [maxu] is
    [usize::MAX]. parse/mod.rs 16. *)
Definition digits_value (ds : text) : nat :=
  fold_left (fun acc c => 10 * acc + (nat_of_ascii c - 48)) ds 0.
(** [str::parse::<usize>], parse/mod.rs 16. *)
Definition parse_usize (maxu : nat) (ds : text) : option nat :=
  if digits_value ds <=? maxu then Some (digits_value ds) else None.

(** parse/mod.rs 13-17 [integer]. *)
Definition p_integer (maxu : nat) (i : text) : pres nat :=
  let '(d, rest) := take_digits i in
  match d with
  | [] => PErr
  | _ => match parse_usize maxu d with Some n => POk n rest | None => PErr end
  end.

(** parse/mod.rs 28-33 [ws]. *)
Definition p_ws {A} (p : text -> pres A) (i : text) : pres A :=
  pbind (p (skip_ws i)) (fun a rest => POk a (skip_ws rest)).

(** parse/mod.rs 19-23 [integer_ws]. *)
Definition p_integer_ws (maxu : nat) : text -> pres nat := p_ws (p_integer maxu).

(** nom [count] and [fill]: [n] results of [p]. parse/bristol.rs 76, 94-95, 111. *)
Fixpoint p_count {A} (p : text -> pres A) (n : nat) (i : text) : pres (list A) :=
  match n with
  | 0 => POk [] i
  | S n' => pbind (p i) (fun a i1 => pbind (p_count p n' i1) (fun l i2 => POk (a :: l) i2))
  end.

(** nom [length_count]. parse/bristol.rs 73. *)
Definition p_length_count {A} (pn : text -> pres nat) (p : text -> pres A) (i : text)
  : pres (list A) := pbind (pn i) (fun n i1 => p_count p n i1).

(** nom [alt]: the second alternative only after a recoverable error. parse/bristol.rs 78, 100. *)
Definition p_alt {A} (p q : text -> pres A) (i : text) : pres A :=
  match p i with PErr => q i | r => r end.

(** nom [tuple] of two parsers. parse/bristol.rs 70, 74, 76, 91. *)
Definition p_pair {A B} (p : text -> pres A) (q : text -> pres B) (i : text) : pres (A * B) :=
  pbind (p i) (fun a i1 => pbind (q i1) (fun b i2 => POk (a, b) i2)).

(** nom [tag]. parse/bristol.rs 100. *)
Fixpoint strip (t i : text) : option text :=
  match t, i with
  | [], _ => Some i
  | a :: t', b :: i' => if (a =? b)%char then strip t' i' else None
  | _ :: _, [] => None
  end.

(** parse/bristol.rs 67-87 [header]. *)
Definition p_header (maxu : nat) (i : text) : pres br_header :=
  let int_ws := p_integer_ws maxu in
  pbind (p_pair int_ws int_ws i) (fun gw i1 =>
  let len_cnt := p_length_count int_ws int_ws in
  let fashion := p_pair len_cnt len_cnt in
  let basic := p_pair (p_count int_ws 2) (p_count int_ws 1) in
  pbind (p_alt fashion basic i1) (fun io i2 =>
  POk (BrHeader (fst gw) (snd gw) (fst io) (snd io)) i2)).

(** The gate names. parse/bristol.rs 100. *)
Definition op_text (k : br_kind) : text :=
  list_ascii_of_string match k with BrAnd => "AND" | BrXor => "XOR" | BrInv => "INV" end.

(** parse/bristol.rs 100: [alt((tag("AND"), tag("XOR"), tag("INV")))] and the
    match on the result. *)
Definition p_op (i : text) : pres br_kind :=
  match strip (op_text BrAnd) i with
  | Some r => POk BrAnd r
  | None => match strip (op_text BrXor) i with
            | Some r => POk BrXor r
            | None => match strip (op_text BrInv) i with Some r => POk BrInv r | None => PErr end
            end
  end.

(** parse/bristol.rs 89-107 [gate].  [SmallVec::from_elem(0, n)] panics when [n]
    exceeds the capacity limit [cap]. *)
Definition p_gate (maxu cap : nat) (i : text) : pres br_gate :=
  let int_ws := p_integer_ws maxu in
  pbind (p_pair int_ws int_ws i) (fun nm i1 =>
  if (fst nm <=? cap) && (snd nm <=? cap) then
    pbind (p_count int_ws (fst nm) i1) (fun ins i2 =>
    pbind (p_count int_ws (snd nm) i2) (fun outs i3 =>
    pbind (p_op i3) (fun k i4 => POk (BrGate k ins outs) i4)))
  else PPanic).

(** parse/bristol.rs 109-114 [circuit]; [all_consuming(multispace0)] requires
    that only whitespace is left. *)
Definition p_circuit (maxu cap : nat) (i : text) : pres br_circuit :=
  pbind (p_header maxu i) (fun h i1 =>
  pbind (p_count (p_gate maxu cap) (bh_gates h) i1) (fun gs i2 =>
  match skip_ws i2 with [] => POk (BrCircuit h gs) [] | _ => PErr end)).
