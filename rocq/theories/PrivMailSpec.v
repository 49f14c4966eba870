(** Specification vocabulary for the private mail search: what a query means, in
    terms of bytes only. *)
From Coq Require Import List Bool Arith NArith.
Import ListNotations.

(** The PrivMail encoding has six bits per character. *)
Definition same_char (x y : N) : Prop := N.modulo x 64 = N.modulo y 64.

(** The keyword occurs in the text. *)
Definition occurs (keyword text : list N) : Prop :=
  exists before here after, text = before ++ here ++ after /\ Forall2 same_char keyword here.

(** The answers of a query of several keywords for one text.  The first bit of the
    chain inverts the first answer; every further keyword comes with an OR bit
    (OR if set, AND otherwise) and a bit that inverts its answer. *)
Inductive answer (text : list N) : list (list N) -> list bool -> bool -> Prop :=
| answer_first k (inv found : bool) bits :
    (found = true <-> occurs k text) ->
    answer text [k] (inv :: bits) (if inv then negb found else found)
| answer_next ks bits k (is_or inv found prev : bool) rest :
    (found = true <-> occurs k text) ->
    length bits = 2 * length ks - 1 ->
    answer text ks bits prev ->
    answer text (ks ++ [k]) (bits ++ is_or :: inv :: rest)
      (let a := if inv then negb found else found in if is_or then prev || a else prev && a).

(** Bit [i] of a sequence of bytes, least significant bit first. *)
Definition bit_of (bytes : list N) (i : nat) : bool := N.testbit_nat (nth (i / 8) bytes 0%N) (i mod 8).
Definition bits_of (bytes : list N) : list bool := map (bit_of bytes) (seq 0 (8 * length bytes)).

(** The text [n] times. *)
Definition times (n : nat) (text : list N) : list N := concat (repeat text n).

(** Byte-wise recombination of two XOR shares. *)
Fixpoint unshare (x y : list N) : list N :=
  match x, y with a :: r, b :: q => N.lxor a b :: unshare r q | _, _ => [] end.
