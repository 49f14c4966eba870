(** Model of crates/seec/examples/privmail.rs: the circuit of the private mail
    search.  No proofs here.

    The base64 decoding of [base64_string_to_input] and the reading of the query
    and mail files are external: the functions take the decoded bytes.  Bytes are
    of type [N].  The thread-local builder is passed as an argument and returned.
    A panic is [None]. *)
From Coq Require Import List Bool Arith NArith.
Require Import Verif.Prelude Verif.GateModel Verif.CircuitModel Verif.ExecModel Verif.BoolGmwModel Verif.ConnModel
  Verif.BuilderModel.
Import ListNotations.

(** privmail.rs 176-178: [[Secret; 8]], one character. *)
Notation pm_char := (list secret).

(** privmail.rs 179-180: [BitVec::from_vec] of bytes, least significant bit
    first. *)
Definition byte_bits (x : N) : list bool := map (N.testbit_nat x) (seq 0 8).

(** privmail.rs 175: [decoded.repeat(duplication_factor)]. *)
Fixpoint pm_repeat {A} (l : list A) (n : nat) : list A :=
  match n with 0 => [] | S k => l ++ pm_repeat l k end.

(** privmail.rs 176-178: one [inputs(8)] per byte. *)
Fixpoint pm_chars (b : builder) (n : nat) : option (builder * list pm_char) :=
  match n with
  | 0 => Some (b, [])
  | S k => '(b1, c) <- sec_inputs 8 b ;; '(b2, cs) <- pm_chars b1 k ;; Some (b2, c :: cs)
  end.

(** privmail.rs 170-182 [base64_string_to_input] after the decoding. *)
Definition pm_to_input (b : builder) (decoded : list N) (dup : nat)
  : option (builder * (list bool * list pm_char)) :=
  let duplicated := pm_repeat decoded dup in
  '(b1, shares) <- pm_chars b (length duplicated) ;;
  Some (b1, (flat_map byte_bits duplicated, shares)).

(** privmail.rs 67-75 and 79-88: the closures extend [input] and return the
    shares. *)
Fixpoint pm_decode_all (b : builder) (input : list bool) (l : list (list N)) (dup : nat)
  : option (builder * (list bool * list (list pm_char))) :=
  match l with
  | [] => Some (b, (input, []))
  | x :: r =>
      '(b1, (bits, shares)) <- pm_to_input b x dup ;;
      '(b2, (input', rest)) <- pm_decode_all b1 (input ++ bits) r dup ;;
      Some (b2, (input', shares :: rest))
  end.

(** privmail.rs 184-194 [xor_inplace]: the loop of 190-192. *)
Fixpoint pm_xor_loop (b : builder) (dst other : list secret) : option (builder * list secret) :=
  match dst, other with
  | x :: r, y :: q => '(b1, z) <- sec_bin BXor b x y ;; '(b2, zs) <- pm_xor_loop b1 r q ;; Some (b2, z :: zs)
  | _, _ => Some (b, dst)
  end.
(** privmail.rs 184-194 [xor_inplace]. *)
Definition pm_xor_inplace (b : builder) (dst other : list secret) : option (builder * list secret) :=
  _ <- oassert (length dst =? length other) ;; pm_xor_loop b dst other.

(** privmail.rs 166: the [for_each] with [Not]. *)
Fixpoint pm_nots (b : builder) (l : list secret) : option (builder * list secret) :=
  match l with
  | [] => Some (b, [])
  | x :: r => '(b1, z) <- sec_not b x ;; '(b2, zs) <- pm_nots b1 r ;; Some (b2, z :: zs)
  end.

(** privmail.rs 149-168 [create_comparison_circuit]; the slice index panics out of
    range. *)
Definition pm_compare (b : builder) (keyword text : list pm_char) (pos : nat) : option (builder * list secret) :=
  let split := flat_map (fun c : pm_char => firstn 6 c) in
  _ <- oassert (pos + length keyword <=? length text) ;;
  '(b1, res) <- pm_xor_inplace b (split keyword) (split (firstn (length keyword) (skipn pos text))) ;;
  pm_nots b1 res.

(** privmail.rs 137-139: all comparisons, collected. *)
Fixpoint pm_compares (b : builder) (keyword text : list pm_char) (ks : list nat)
  : option (builder * list (list secret)) :=
  match ks with
  | [] => Some (b, [])
  | k :: r =>
      '(b1, c) <- pm_compare b keyword text k ;;
      '(b2, cs) <- pm_compares b1 keyword text r ;;
      Some (b2, c :: cs)
  end.

(** [low_depth_reduce(..).expect("Reduce returned None")]: privmail.rs 143, 146. *)
Definition pm_reduce (o : bop) (b : builder) (l : list secret) : option (builder * secret) :=
  '(b1, r) <- low_depth_reduce (do_bin o) b l ;; match r with Some s => Some (b1, s) | None => None end.

(** privmail.rs 141-144: the AND trees; the iterator is consumed by the [collect]
    at the start of the OR reduction. *)
Fixpoint pm_ands (b : builder) (l : list (list secret)) : option (builder * list secret) :=
  match l with
  | [] => Some (b, [])
  | x :: r => '(b1, s) <- pm_reduce OAnd b x ;; '(b2, ss) <- pm_ands b1 r ;; Some (b2, s :: ss)
  end.

(** privmail.rs 127-147 [create_search_circuit]; the subtraction of 136 panics if
    the keyword is longer. *)
Definition pm_search (b : builder) (keyword text : list pm_char) : option (builder * secret) :=
  _ <- oassert (length keyword <=? length text) ;;
  '(b1, cs) <- pm_compares b keyword text (seq 0 (length text - length keyword + 1)) ;;
  '(b2, bits) <- pm_ands b1 cs ;;
  pm_reduce OOr b2 bits.

(** privmail.rs 117-125 [create_chaining_circuit]. *)
Definition pm_chaining (b : builder) (prev new or_bit not_bit : secret) : option (builder * secret) :=
  '(b1, x) <- sec_bin BXor b prev or_bit ;;
  '(b2, y) <- sec_bin BXor b1 new not_bit ;;
  '(b3, z) <- sec_bin BXor b2 y or_bit ;;
  '(b4, a) <- sec_bin BAnd b3 x z ;;
  sec_bin BXor b4 a or_bit.

(** privmail.rs 94-97: the result of one keyword in one mail. *)
Definition pm_per_mail (b : builder) (keyword text : list pm_char) : option (builder * secret) :=
  '(b1, f) <- sec_const b 0 false ;;
  if length keyword <=? length text then pm_search b1 keyword text else Some (b1, f).

(** privmail.rs 93-108: one round of the inner loop; indexing panics out of
    range. *)
Definition pm_round (modifier : list secret) (j : nat) (keyword : list pm_char)
  (st : builder * list secret) (it : nat * list pm_char) : option (builder * list secret) :=
  let '(b, results) := st in
  let '(i, text) := it in
  '(b1, r) <- pm_per_mail b keyword text ;;
  match j with
  | 0 =>
      m <- nth_error modifier 0 ;;
      '(b2, x) <- sec_bin BXor b1 r m ;;
      Some (b2, results ++ [x])
  | S _ =>
      prev <- nth_error results i ;;
      o <- nth_error modifier (2 * j - 1) ;;
      n <- nth_error modifier (2 * j) ;;
      '(b2, x) <- pm_chaining b1 prev r o n ;;
      Some (b2, upd i x results)
  end.

(** Rust's [enumerate]: privmail.rs 92-93. *)
Definition enumerate {A} (l : list A) : list (nat * A) := combine (seq 0 (length l)) l.

(** privmail.rs 92-109: the two loops. *)
Definition pm_loops (modifier : list secret) (keywords texts : list (list pm_char)) (b : builder)
  : option (builder * list secret) :=
  ofold (fun st (jk : nat * list pm_char) =>
           ofold (pm_round modifier (fst jk) (snd jk)) st (enumerate texts))
    (b, []) (enumerate keywords).

(** privmail.rs 56-115 [priv_mail_search]; [2 * len - 1] underflows for an empty
    query (without overflow checks the assertion fails, which is a panic as
    well). *)
Definition priv_mail_search (b : builder) (queries : list (list N)) (modifier_chain : list N) (mails : list (list N)) (dup : nat)
  : option (builder * (list bool * list nat)) :=
  '(b1, (input1, mod_chars)) <- pm_to_input b modifier_chain 1 ;;
  let modifier := concat mod_chars in
  '(b2, (input2, keywords)) <- pm_decode_all b1 input1 queries 1 ;;
  _ <- oassert (1 <=? 2 * length keywords) ;;
  _ <- oassert (2 * length keywords - 1 <=? length modifier) ;;
  '(b3, (input3, texts)) <- pm_decode_all b2 input2 mails dup ;;
  '(b4, results) <- pm_loops modifier keywords texts b3 ;;
  '(b5, outs) <- sec_outputs b4 results ;;
  Some (b5, (input3, outs)).
