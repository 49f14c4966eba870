(** Model of small functions of crates/zappot: util/mod.rs, the reduction of
    silent_ot/quasi_cyclic_encode.rs and the point positions of
    silent_ot/pprf.rs.  No proofs here.

    A [Block] (util/block.rs, one [u128]) is an [N] below [2^128]; bit [j] of the
    number is bit [j] of its little-endian bytes.  Overflowing arithmetic and
    out-of-range accesses panic ([None]), as in builds with overflow checks. *)
From Coq Require Import List Bool Arith NArith.
Require Import Verif.Prelude.
Import ListNotations.

(** [usize::leading_zeros] for [bits] bits (a primitive of the language). util/mod.rs 11,
    bitpolymul lib.rs 117. *)
Fixpoint leading_zeros (bits : nat) (v : N) : nat :=
  match bits with
  | 0 => 0
  | S b => if N.testbit v (N.of_nat b) then 0 else S (leading_zeros b v)
  end.

(** zappot util/mod.rs 9-12 and bitpolymul lib.rs 115-118 [log2_floor]; [bits] is
    [usize::BITS]. *)
Definition log2_floor (bits : nat) (v : N) : option nat :=
  _ <- oassert (0 <? v)%N ;;
  _ <- oassert (leading_zeros bits v + 1 <=? bits) ;;
  Some (bits - leading_zeros bits v - 1).

(** zappot util/mod.rs 15-22 and bitpolymul lib.rs 120-127 [log2_ceil]. *)
Definition log2_ceil (bits : nat) (v : N) : option nat :=
  f <- log2_floor bits v ;;
  _ <- oassert (f <? bits) ;;
  Some (if (N.shiftl 1 (N.of_nat f) <? v)%N then f + 1 else f).

(** ** quasi_cyclic_encode.rs *)

(** util/block.rs 211-222: [u128] shifts; a shift by 128 or more panics. *)
Definition blk_shl (x : N) (k : nat) : option N :=
  _ <- oassert (k <? 128) ;; Some (N.shiftl x (N.of_nat k) mod 2 ^ 128)%N.
(** util/block.rs 224-235: [>>]. *)
Definition blk_shr (x : N) (k : nat) : option N :=
  _ <- oassert (k <? 128) ;; Some (N.shiftr x (N.of_nat k)).

(** quasi_cyclic_encode.rs 290-297: the zipped loop. *)
Fixpoint bsx_loop (dest inp off : list N) (k : nat) : option (list N) :=
  match dest, inp, off with
  | d :: ds, x :: xs, y :: ys =>
      a <- blk_shr x k ;;
      b <- blk_shl y (128 - k) ;;
      r <- bsx_loop ds xs ys k ;;
      Some (N.lxor d (N.lor a b) :: r)
  | _, _, _ => Some dest
  end.

(** quasi_cyclic_encode.rs 287-302 [bit_shift_xor]. *)
Definition bit_shift_xor (dest inp : list N) (k : nat) : option (list N) :=
  _ <- oassert (k <=? 127) ;;
  _ <- oassert (1 <=? length inp) ;;
  d1 <- bsx_loop dest inp (skipn 1 inp) k ;;
  if length inp <=? length d1 then
    x <- nth_error inp (length inp - 1) ;;
    y <- nth_error d1 (length inp - 1) ;;
    a <- blk_shr x k ;;
    Some (upd (length inp - 1) (N.lxor y a) d1)
  else Some d1.

(** [bytemuck::cast_slice] between blocks and bytes (little endian), at quasi_cyclic_encode.rs 257-258, 273. *)
Definition blk_bytes (x : N) : list N :=
  map (fun i => (N.shiftr x (N.of_nat (8 * i)) mod 256)%N) (seq 0 16).
(** [cast_slice] of blocks to bytes (quasi_cyclic_encode.rs 257-258, 273). *)
Definition bytes_of (l : list N) : list N := flat_map blk_bytes l.
(** A block from its little endian bytes (util/block.rs 127-134). *)
Definition blk_of_bytes (bs : list N) : N :=
  fold_right (fun b acc => (b + 256 * acc)%N) 0%N bs.
(** [cast_slice] of bytes to blocks (quasi_cyclic_encode.rs 257, 273, where the changed bytes are those of [dest]). *)
Fixpoint blocks_of (n : nat) (bs : list N) : list N :=
  match n with
  | 0 => []
  | S k => blk_of_bytes (firstn 16 bs) :: blocks_of k (skipn 16 bs)
  end.

(** quasi_cyclic_encode.rs 262-272: one iteration. *)
Definition modp_step (inp : list N) (p : nat) (dest : list N) (i : nat) : option (list N) :=
  let begin := i * p in
  let begin_block := begin / 128 in
  let end_block := (min (i * p + p) (length inp * 128) + 127) / 128 in
  _ <- oassert (end_block <=? length inp) ;;
  _ <- oassert (begin_block <=? end_block) ;;
  bit_shift_xor dest (firstn (end_block - begin_block) (skipn begin_block inp)) (begin mod 128).

(** quasi_cyclic_encode.rs 247-285 [modp]; [& 7], [& 127] are written [mod]. *)
Definition modp (dest inp : list N) (p : nat) : option (list N) :=
  _ <- oassert (1 <=? p) ;;
  let p_blocks := (p + 127) / 128 in
  let p_bytes := (p + 7) / 8 in
  _ <- oassert (p_blocks <=? length dest) ;;
  _ <- oassert (p_blocks <=? length inp) ;;
  let count := (length inp * 128 + p - 1) / p in
  let d0 := blocks_of (length dest)
              (firstn p_bytes (bytes_of inp) ++ skipn p_bytes (bytes_of dest)) in
  d1 <- ofold (modp_step inp p) d0 (seq 1 (count - 1)) ;;
  let bs := bytes_of d1 in
  bs1 <- (if p mod 8 =? 0 then Some bs
          else x <- nth_error bs (p / 8) ;;
               Some (upd (p / 8) (N.land x (N.shiftl 1 (N.of_nat (p mod 8)) - 1)) bs)) ;;
  Some (blocks_of (length dest) (firstn p_bytes bs1 ++ repeat 0%N (length bs1 - p_bytes))).

(** ** pprf.rs *)

(** pprf.rs 51-56 [PprfOutputFormat] without [Plain], on which
    [interleave_point] panics. *)
Inductive pprf_format := InterleavedTransposed | Interleaved.

(** pprf.rs 706-741 [interleave_point]; [umax] is [usize::MAX]. *)
Definition interleave_point (umax point tree_idx total_trees domain : nat) (f : pprf_format) : nat :=
  match f with
  | InterleavedTransposed =>
      let num_sets := total_trees / 8 in
      let set_offset := tree_idx / 8 * 128 in
      let sub_offset := tree_idx mod 8 + 8 * (point mod 16) in
      let sec_offset := point / 16 * num_sets * 128 in
      set_offset + sub_offset + sec_offset
  | Interleaved =>
      if domain <=? point then umax
      else (tree_idx / 8 * domain + point) * 8 + tree_idx mod 8
  end.

(** pprf.rs 58-71 [out_dims]: number of positions of the output ([rows*cols] with
    128 positions per block of a row). *)
Definition out_positions (total_trees domain : nat) (f : pprf_format) : nat :=
  match f with
  | InterleavedTransposed => (total_trees * domain + 127) / 128 * 128
  | Interleaved => total_trees * domain
  end.
