(** Model of the parts of the external crate bitvec 1.0.1 that SEEC uses, and of
    crates/seec/src/utils.rs lines 75-132.

    A [BitVec<T>] is a word buffer, a head offset and a length.  The word size
    [W] (8 for u8, 64 for usize on 64 bit targets) is a parameter.  The buffer
    is written as the list of all its bits, in [Lsb0] order (the default order
    of bitvec and hence of crates/seec/src/common.rs lines 2-4). *)
From Coq Require Import List Bool Arith.
Require Import Verif.Prelude.
Import ListNotations.

(** crates/seec/src/common.rs 4: [BitVec<T>].  [bv_raw] holds exactly the words
    that [as_raw_slice] returns, as bits. *)
Record bitvec := BV { bv_head : nat; bv_len : nat; bv_raw : list bool }.

(** The live bits (what indexing, iteration and comparison see). E.g.
    protocols/boolean_gmw.rs 197-201 [into_iter]. *)
Definition bv_bits (v : bitvec) : list bool :=
  firstn (bv_len v) (skipn (bv_head v) (bv_raw v)).

(** Number of words for [n] bits starting at head [h]: [BitSpan::elements];
    crates/seec/src/utils.rs 89 [div_ceil] for [h = 0]. *)
Definition bv_words (W h n : nat) : nat :=
  if n =? 0 then 0 else (h + n + W - 1) / W.

(** Fill the last word with zeros. Auxiliary for the library type used at common.rs 2-4. *)
Definition pad_words (W h n : nat) (l : list bool) : list bool :=
  firstn (W * bv_words W h n) (l ++ repeat false (W * bv_words W h n)).

(** [BitSlice::to_bitvec] of a slice with head offset [h] and live bits [l]
    (bitvec 1.0.1 [from_bitslice]): whole words are copied, bits outside of the
    slice are cleared, and the head offset is kept. Used at protocols/boolean_gmw.rs
    164-165, 260. *)
Definition bv_copy (W h : nat) (l : list bool) : bitvec :=
  BV h (length l) (pad_words W h (length l) (repeat false h ++ l)).

(** [BitVec::new] + pushes, [collect], [extend_from_bitslice] into a new vector,
    [BitVec::repeat]: head offset 0. Used at protocols/boolean_gmw.rs 122, 152-160, 250. *)
Definition bv_of_bits (W : nat) (l : list bool) : bitvec := bv_copy W 0 l.

(** [v[from..].to_bitvec()], used by crates/seec/src/protocols/boolean_gmw.rs
    162-165 and 260. *)
Definition bv_slice_from (W : nat) (v : bitvec) (from : nat) : bitvec :=
  bv_copy W ((bv_head v + from) mod W) (skipn from (bv_bits v)).

(** [v[..n].to_bitvec()] of a vector with head [h]. Used at protocols/boolean_gmw.rs 260. *)
Definition bv_slice_range (W : nat) (v : bitvec) (from n : nat) : bitvec :=
  bv_copy W ((bv_head v + from) mod W) (firstn n (skipn from (bv_bits v))).

(** [BitVec::from_vec] of whole words. Used at protocols/boolean_gmw.rs 187-188, 199-200,
    223-235 and utils.rs 92. *)
Definition bv_from_vec (raw : list bool) : bitvec := BV 0 (length raw) raw.

(** [BitVec::into_vec]: the words, without moving bits to the front. Used at
    protocols/boolean_gmw.rs 138-139, 170-171. *)
Definition bv_into_vec (v : bitvec) : list bool := bv_raw v.

(** [BitVec::split_off(at)]: panics if [at > len]; the tail is copied with
    [from_bitslice], the vector itself is shortened in place. Used at
    mul_triple/boolean/mod.rs 223-225. *)
Definition bv_split_off (W : nat) (v : bitvec) (at_ : nat) : option (bitvec * bitvec) :=
  if at_ <=? bv_len v then
    Some (BV (bv_head v) at_ (firstn (W * bv_words W (bv_head v) at_) (bv_raw v)),
          bv_slice_from W v at_)
  else None.

(** [BitVec::extend_from_bitslice] / [append].  Simplified: the dead bits before
    the head and after the new end are zero in the model (they may be stale in
    the library). Used at mul_triple/boolean/mod.rs 132-134, 230-232. *)
Definition bv_extend (W : nat) (v : bitvec) (l : list bool) : bitvec :=
  bv_copy W (bv_head v) (bv_bits v ++ l).

(** Word-wise in-place combination; the rest of [a] is unchanged when the other
    operand has fewer words. The [zip] of utils.rs 114-119, 124-129. *)
Fixpoint raw_zip (f : bool -> bool -> bool) (a b : list bool) : list bool :=
  match a, b with
  | x :: a', y :: b' => f x y :: raw_zip f a' b'
  | _, _ => a
  end.

(** crates/seec/src/utils.rs 113-121 [fast_bit_xor_mut] (and 102-105). *)
Definition fast_bit_xor (a b : bitvec) : bitvec :=
  BV (bv_head a) (bv_len a) (raw_zip xorb (bv_raw a) (bv_raw b)).

(** crates/seec/src/utils.rs 123-131 [fast_bit_and_mut] (and 106-109). *)
Definition fast_bit_and (a b : bitvec) : bitvec :=
  BV (bv_head a) (bv_len a) (raw_zip andb (bv_raw a) (bv_raw b)).

(** [!v] on a [BitVec]: all words are negated. Used at protocols/boolean_gmw.rs 103-109. *)
Definition bv_not (v : bitvec) : bitvec :=
  BV (bv_head v) (bv_len v) (map negb (bv_raw v)).

(** The operators [a ^ b] and [a & b] of bitvec on live bits (the head of the
    left operand is kept).  Simplified: used on equal lengths only; dead bits of
    the result are zero. Used at mul_triple/boolean/mod.rs 175. *)
Definition bv_xor (W : nat) (a b : bitvec) : bitvec :=
  bv_copy W (bv_head a) (raw_zip xorb (bv_bits a) (bv_bits b)).
(** [a & b] of bitvec, used at mul_triple/boolean/mod.rs 175; simplified as [bv_xor]. *)
Definition bv_and (W : nat) (a b : bitvec) : bitvec :=
  bv_copy W (bv_head a) (raw_zip andb (bv_bits a) (bv_bits b)).

(** crates/seec/src/utils.rs 83-95 [rand_bitvec]: fill whole words from the
    generator, then truncate.  [fill s n] delivers [n] bits and the next
    generator state; [truncate] drops trailing whole words (there are none). *)
Definition rand_bitvec {S} (fill : S -> nat -> list bool * S) (W size : nat) (s : S)
  : bitvec * S :=
  let '(raw, s') := fill s (W * bv_words W 0 size) in
  (BV 0 size raw, s').
