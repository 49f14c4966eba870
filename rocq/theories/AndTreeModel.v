(** Model of the tree of AND gates of crates/seec/src/private_test_utils.rs.  No proofs
    here. *)
From Coq Require Import List Bool Arith.
Require Import Verif.Prelude Verif.GateModel Verif.CircuitModel Verif.ExecModel Verif.BoolGmwModel.
Import ListNotations.

(** private_test_utils.rs 73-75: the input gates. *)
Fixpoint and_inputs (k : nat) (c : circuit bool_gate) : circuit bool_gate * list nat :=
  match k with
  | 0 => (c, [])
  | S k' =>
      let '(c, i) := add_gate bool_ops c (BBase GInput) in
      let '(c, is) := and_inputs k' c in
      (c, i :: is)
  end.

(** private_test_utils.rs 78-82: one layer; [tuples] drops an incomplete pair. *)
Fixpoint and_pairs (c : circuit bool_gate) (l : list nat) : option (circuit bool_gate * list nat) :=
  match l with
  | a :: b :: r =>
      '(c, i) <- add_wired_gate bool_ops c BAnd [a; b] ;;
      '(c, is) <- and_pairs c r ;;
      Some (c, i :: is)
  | _ => Some (c, [])
  end.

(** private_test_utils.rs 76-83: the loop; [fuel] bounds the number of layers. *)
Fixpoint and_layers (fuel count : nat) (c : circuit bool_gate) (l : list nat) : option (circuit bool_gate * list nat) :=
  match fuel with
  | 0 => None
  | S fuel =>
      if 1 <? count then '(c, l) <- and_pairs c l ;; and_layers fuel (count / 2) c l
      else Some (c, l)
  end.

(** private_test_utils.rs 68-90 [create_and_tree].  [2_u32.pow(depth)] overflows from 32
    on (panics in the debug profile). *)
Definition create_and_tree (depth : nat) : option (circuit bool_gate) :=
  _ <- oassert (depth <? 32) ;;
  let count := 2 ^ depth / 2 in
  let '(c, l) := and_inputs count c_new in
  '(c, l) <- and_layers (S depth) count c l ;;
  _ <- oassert (length l =? 1) ;;
  a <- nth_error l 0 ;;
  '(c, _) <- add_wired_gate bool_ops c (BBase GOutput) [a] ;;
  Some c.
