(** Specification vocabulary for the ABY2 properties. *)
From Coq Require Import List Bool Arith Permutation.
Require Import Verif.Prelude Verif.GateModel Verif.ProtocolModel Verif.CircuitModel Verif.ExecModel Verif.Aby2Model.
Import ListNotations.

(** The two shares [a], [b] carry the bit [x]: both know the same masked value, the mask is
    the XOR of the private parts. *)
Definition carries (x : bool) (a b : ashare) : Prop :=
  as_pub a = as_pub b /\ x = xorb (as_pub a) (xorb (as_priv a) (as_priv b)).

(** What a gate computes on plain bits.  [None]: not a function of the operands. *)
Definition aby_sem (g : aby_gate) (xs : list bool) : option bool :=
  match g with
  | ABase GInput => None
  | ABase (GConnectToMainFromSimd _) => None
  | ABase (GConstant c) => Some c
  | ABase _ => match xs with [x] => Some x | _ => None end
  | AAnd n => if length xs =? n then Some (forallb (fun x => x) xs) else None
  | AXor => match xs with [x; y] => Some (xorb x y) | _ => None end
  | AInv => match xs with [x] => Some (negb x) | _ => None end
  end.

(** The mask of a gate output from those of the operands; [None]: a fresh mask. *)
Definition mask_sem (g : aby_gate) (ls : list bool) : option bool :=
  match g with
  | ABase GInput | AAnd _ => None
  | ABase (GConstant _) => Some false
  | ABase (GConnectToMainFromSimd _) => None
  | AXor => match ls with [x; y] => Some (xorb x y) | _ => None end
  | _ => match ls with [x] => Some x | _ => None end
  end.

(** Every gate has the operands it needs; there are no SIMD circuits. *)
Definition aby_gate_typed (ec : ecirc aby_gate) (g : gid) (gate : aby_gate) : Prop :=
  match gate with
  | ABase GInput => fst g = 0 /\ In (snd g) (ec_inputs ec)
  | ABase (GConstant _) => True
  | ABase (GConnectToMainFromSimd _) => False
  | AAnd n => length (ec_parents ec g) = n
  | AXor => length (ec_parents ec g) = 2
  | _ => length (ec_parents ec g) = 1
  end.
Definition aby_typed (ec : ecirc aby_gate) : Prop :=
  (forall sc, ec_simd ec sc = None) /\
  forall g gate, ec_gate ec g = Some gate -> aby_gate_typed ec g gate.

(** AND gates have at most two operands. *)
Definition fan_in_two (ec : ecirc aby_gate) : Prop :=
  forall g n, ec_gate ec g = Some (AAnd n) -> n <= 2.

(** [v] assigns to every gate its plain value when the input gates carry [ins]. *)
Definition aby_valuation (ec : ecirc aby_gate) (ins : list bool) (v : gid -> bool) : Prop :=
  forall g gate, ec_gate ec g = Some gate ->
  match gate with
  | ABase GInput => exists i, nth_error (ec_inputs ec) i = Some (snd g) /\ nth_error ins i = Some (v g)
  | _ => aby_sem gate (map v (ec_parents ec g)) = Some (v g)
  end.

(** [l] assigns to every gate the private part of one party: linear gates propagate it. *)
Definition aby_masks (ec : ecirc aby_gate) (l : gid -> bool) : Prop :=
  forall g gate, ec_gate ec g = Some gate ->
  match mask_sem gate (map l (ec_parents ec g)) with
  | Some b => l g = b
  | None => True
  end.

(** The setup data of one AND gate: shares of the products of the masks of all subsets of at
    least two operands, in some order of the operands. *)
Definition big_subsets {A} (l : list A) : list (list A) := skipn (S (length l)) (powerset l).
Definition eval_ok (ec : ecirc aby_gate) (l0 l1 : gid -> bool) (g : gid) (e0 e1 : list bool) : Prop :=
  exists ps, Permutation ps (ec_parents ec g) /\ length e0 = length e1 /\
    zip_with xorb e0 e1 = map (forallb (fun p => xorb (l0 p) (l1 p))) (big_subsets ps).

(** Two lists merged by the owner of every position. *)
Fixpoint merge {A} (os : list input_by) (a b : list A) : list A :=
  match os with
  | [] => []
  | ByP0 :: os => match a with x :: a => x :: merge os a b | [] => [] end
  | ByP1 :: os => match b with x :: b => x :: merge os a b | [] => [] end
  end.
Definition owned (o : input_by) (os : list input_by) : nat :=
  length (filter (fun x => match x, o with ByP0, ByP0 | ByP1, ByP1 => true | _, _ => false end) os).

(** The same at the level of one circuit: operand counts and plain values of its gates. *)
Definition aby_operands (c : circuit aby_gate) : Prop :=
  forall g gate, nth_error (c_gates c) g = Some gate ->
  match gate with
  | ABase GInput | ABase (GConstant _) => True
  | ABase (GConnectToMainFromSimd _) => False
  | AAnd n => length (parents c g) = n
  | AXor => length (parents c g) = 2
  | _ => length (parents c g) = 1
  end.
Definition aby_plain (c : circuit aby_gate) (ins : list bool) (v : nat -> bool) : Prop :=
  forall g gate, nth_error (c_gates c) g = Some gate ->
  match gate with
  | ABase GInput => exists i, nth_error (c_inputs c) i = Some g /\ nth_error ins i = Some (v g)
  | _ => aby_sem gate (map v (parents c g)) = Some (v g)
  end.
