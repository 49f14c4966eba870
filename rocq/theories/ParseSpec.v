(** Specification of the Bristol text formats: token sequences and their
    renderings as text.  Independent of the parser. *)
From Coq Require Import Bool Arith Ascii String List.
Require Import Verif.Prelude Verif.InlineModel.
Import ListNotations.

Inductive tok := TNum (n : nat) | TOp (k : br_kind).

(** Blanks, and the decimal digits with their values. *)
Definition blank (c : ascii) : Prop := In (nat_of_ascii c) [32; 9; 13; 10].
Definition digit_of (c : ascii) (d : nat) : Prop := d < 10 /\ nat_of_ascii c = 48 + d.

(** [decimal s n]: the non-empty digit string [s] denotes [n]; leading zeros are
    allowed. *)
Inductive decimal_acc : nat -> list ascii -> nat -> Prop :=
| da_nil a : decimal_acc a [] a
| da_cons a c d s n : digit_of c d -> decimal_acc (a * 10 + d) s n -> decimal_acc a (c :: s) n.
Definition decimal (s : list ascii) (n : nat) : Prop := s <> [] /\ decimal_acc 0 s n.

Definition tok_text (t : tok) (s : list ascii) : Prop :=
  match t with
  | TNum n => decimal s n
  | TOp k => s = list_ascii_of_string match k with BrAnd => "AND" | BrXor => "XOR" | BrInv => "INV" end
  end.

(** Two numbers in a row need at least one blank between them. *)
Definition needs_gap (t : tok) (next : list tok) : bool :=
  match t, next with TNum _, TNum _ :: _ => true | _, _ => false end.

Inductive renders : list tok -> list ascii -> Prop :=
| rn_nil : renders [] []
| rn_tok t s sp toks txt :
    tok_text t s -> Forall blank sp -> (needs_gap t toks = true -> sp <> []) ->
    renders toks txt -> renders (t :: toks) (s ++ sp ++ txt).

(** Tokens of a gate line: number of inputs, number of outputs, input wires,
    output wires, name. *)
Definition gate_toks (g : br_gate) : list tok :=
  [TNum (List.length (br_in g)); TNum (List.length (br_out g))] ++
  map TNum (br_in g) ++ map TNum (br_out g) ++ [TOp (br_op g)].

(** Bristol fashion: the input and output sizes are preceded by their number. *)
Definition fashion_toks (c : br_circuit) : list tok :=
  let h := bc_header c in
  [TNum (bh_gates h); TNum (bh_wires h)] ++
  TNum (List.length (bh_ins h)) :: map TNum (bh_ins h) ++
  TNum (List.length (bh_outs h)) :: map TNum (bh_outs h) ++
  concat (map gate_toks (bc_gates c)).

(** The older format: two input sizes and one output size. *)
Definition basic_toks (c : br_circuit) : list tok :=
  let h := bc_header c in
  [TNum (bh_gates h); TNum (bh_wires h)] ++ map TNum (bh_ins h) ++ map TNum (bh_outs h) ++
  concat (map gate_toks (bc_gates c)).

(** A text is written in one of the formats: optional leading blanks, then the
    tokens. *)
Definition written (toks : list tok) (txt : list ascii) : Prop :=
  exists sp body, Forall blank sp /\ txt = sp ++ body /\ renders toks body.

(** All numbers of the circuit fit. *)
Definition nums_of (toks : list tok) : list nat :=
  flat_map (fun t => match t with TNum n => [n] | TOp _ => [] end) toks.
