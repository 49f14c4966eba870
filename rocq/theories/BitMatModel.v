(** Model of crates/seec-bitmatrix.  No proofs here.

    The storage of a matrix is seen in two ways: as its bits in [Lsb0] order (what
    [bitvec] shows), and as bytes (what [bytemuck::cast_slice] shows on the
    little-endian targets of the fast paths).  An unchecked access outside of a buffer is
    undefined behaviour; here it is [None], so a result [Some] means that there is none. *)
From Coq Require Import List Bool Arith NArith.
Require Import Verif.Prelude Verif.ZapUtilModel.
Import ListNotations.
Open Scope nat_scope.

(** ** Sixteen-byte vectors (Intel intrinsics; portable_transpose.rs 126-137) *)

(** The number whose binary digits are given, least significant first (the mask of
    [_mm_movemask_epi8]). Used for sse2_transpose.rs 62 and portable_transpose.rs 126-131. *)
Fixpoint num_of_bits (l : list bool) : N :=
  match l with [] => 0%N | b :: l => (N.b2n b + 2 * num_of_bits l)%N end.

(** [_mm_movemask_epi8], portable_transpose.rs 126-131: the most significant bit of every byte. *)
Definition movemask (v : list N) : N := num_of_bits (map (fun b => N.testbit b 7) v).

(** sse2_transpose.rs 62 [i32::to_le_bytes] (the two upper bytes are not used),
    portable_transpose.rs 50 [u16::to_le_bytes]. *)
Definition le_bytes (m : N) : N * N := ((m mod 256)%N, (N.shiftr m 8 mod 256)%N).

(** [_mm_slli_epi64::<1>], portable_transpose.rs 133-137: both 64-bit lanes shifted by one. *)
Definition lane_shl (l : list N) : list N :=
  let x := (2 * blk_of_bytes l mod 2 ^ 64)%N in
  map (fun i => (N.shiftr x (N.of_nat (8 * i)) mod 256)%N) (seq 0 8).
(** portable_transpose.rs 133-137 [_mm_slli_epi64::<1>] on both lanes. *)
Definition slli1 (v : list N) : list N := lane_shl (firstn 8 v) ++ lane_shl (skipn 8 v).

(** sse2_transpose.rs 44-66 [get_unchecked], [get_unchecked_mut]. *)
Definition get_u (buf : list N) (i : nat) : option N := nth_error buf i.
(** sse2_transpose.rs 65-66, 95-96, 116-117, 131 [get_unchecked_mut] and assignment. *)
Definition set_u (buf : list N) (i : nat) (x : N) : option (list N) :=
  _ <- oassert (i <? length buf) ;; Some (upd i x buf).

(** ** Fast transpose (sse2_transpose.rs, portable_transpose.rs) *)

Section Transpose.
Variables (nrows ncols : nat) (input : list N).

(** sse2_transpose.rs 34-35 / portable_transpose.rs 22-23: the closures [inp], [out]. *)
Definition inp (x y : nat) : nat := x * ncols / 8 + y / 8.
(** sse2_transpose.rs 35 / portable_transpose.rs 23: the closure [out]. *)
Definition out (x y : nat) : nat := y * nrows / 8 + x / 8.

(** sse2_transpose.rs 61-69 / portable_transpose.rs 49-57: eight masks of a vector of
    sixteen rows; [i] runs from 7 to 0. *)
Definition write16 (rr cc : nat) (s : list N * list N) (i : nat) : option (list N * list N) :=
  let '(v, o) := s in
  let '(h0, h1) := le_bytes (movemask v) in
  o <- set_u o (out rr (cc + i)) h0 ;;
  o <- set_u o (out rr (cc + i) + 1) h1 ;;
  Some (slli1 v, o).

(** sse2_transpose.rs 43-69 / portable_transpose.rs 31-57: a block of sixteen rows and
    eight columns. *)
Definition block16 (rr : nat) (o : list N) (cc : nat) : option (list N) :=
  v <- omap (fun k => get_u input (inp (rr + k) cc)) (seq 0 16) ;;
  '(_, o) <- ofold (write16 rr cc) (v, o) (rev (seq 0 8)) ;;
  Some o.

(** sse2_transpose.rs 41-71 / portable_transpose.rs 29-59: [while cc < ncols] with step 8. *)
Definition rows16 (o : list N) (rr : nat) : option (list N) :=
  ofold (block16 rr) o (map (fun k => 8 * k) (seq 0 ((ncols + 7) / 8))).

(** sse2_transpose.rs 91-99, 114-119 / portable_transpose.rs 79-87, 102-107: the masks of a pair of 8 by 8
    blocks. *)
Definition write8x2 (rr cc : nat) (s : list N * list N) (i : nat) : option (list N * list N) :=
  let '(v, o) := s in
  let '(h0, h1) := le_bytes (movemask v) in
  o <- set_u o (out rr (cc + i)) h0 ;;
  o <- set_u o (out rr (cc + i + 8)) h1 ;;
  Some (slli1 v, o).

(** sse2_transpose.rs 85-101 / portable_transpose.rs 73-89: one pair; the two-byte read at
    [inp(rr + i, cc)] reads this byte and the next one.  The state is [tmp] and the
    output. *)
Definition pair8 (rr : nat) (s : list N * list N) (cc : nat) : option (list N * list N) :=
  let '(_, o) := s in
  lo <- omap (fun i => get_u input (inp (rr + i) cc)) (seq 0 8) ;;
  hi <- omap (fun i => get_u input (inp (rr + i) cc + 1)) (seq 0 8) ;;
  ofold (write8x2 rr cc) (lo ++ hi, o) (rev (seq 0 8)).

(** sse2_transpose.rs 103-121 / portable_transpose.rs 91-109: the other variant of the
    pair.  The vector holds the sixteen bytes row by row ([_mm_set_epi16] takes the last
    row first). *)
Definition pair8_fancy (rr : nat) (o : list N) (cc : nat) : option (list N) :=
  v <- omap (fun i => get_u input (inp (rr + i / 2) cc + i mod 2)) (seq 0 16) ;;
  '(_, o) <- ofold (write8x2 rr cc) (v, o) (rev (seq 0 8)) ;;
  Some o.

(** sse2_transpose.rs 129-133 / portable_transpose.rs 117-121: the last block. *)
Definition write8 (rr cc : nat) (s : list N * list N) (i : nat) : option (list N * list N) :=
  let '(v, o) := s in
  o <- set_u o (out rr (cc + i)) (fst (le_bytes (movemask v))) ;;
  Some (slli1 v, o).

(** sse2_transpose.rs 126-133 / portable_transpose.rs 114-121: with the first eight bytes of
    [tmp] overwritten. *)
Definition last8 (rr cc : nat) (tmp o : list N) : option (list N) :=
  lo <- omap (fun i => get_u input (inp (rr + i) cc)) (seq 0 8) ;;
  '(_, o) <- ofold (write8 rr cc) (lo ++ skipn 8 tmp, o) (rev (seq 0 8)) ;;
  Some o.

(** sse2_transpose.rs 20-136 / portable_transpose.rs 8-124 [transpose] on the bytes of the
    storage.  [while rr <= nrows - 16] runs [(nrows - 16) / 16 + 1] times. *)
Definition fast_transpose : option (list N) :=
  _ <- oassert (nrows mod 8 =? 0) ;;
  _ <- oassert (ncols mod 8 =? 0) ;;
  _ <- oassert (16 <=? ncols) ;;
  _ <- oassert (16 <=? nrows) ;;
  _ <- oassert (ncols * nrows =? length input * 8) ;;
  let o := repeat 0%N (length input) in
  let n := (nrows - 16) / 16 + 1 in
  o <- ofold rows16 o (map (fun k => 16 * k) (seq 0 n)) ;;
  let rr := 16 * n in
  if rr =? nrows then Some o
  else
    let m := (ncols - 16) / 16 + 1 in
    let ccs := map (fun k => 16 * k) (seq 0 m) in
    let tmp := repeat 0%N 16 in
    '(tmp, o) <- (if negb (ncols mod 16 =? 0) || negb (nrows mod 16 =? 0)
                  then ofold (pair8 rr) (tmp, o) ccs
                  else o <- ofold (pair8_fancy rr) o ccs ;; Some (tmp, o)) ;;
    let cc := 16 * m in
    if cc =? ncols then Some o else last8 rr cc tmp o.

End Transpose.

(** ** Matrices (lib.rs) *)

(** lib.rs 30-34 [BitMatrix], 37-41 [BitMatrixView]: the bits of [data]. *)
Record bitmat := BitMat { bm_rows : nat; bm_cols : nat; bm_data : list bool }.

(** sse2_transpose.rs 31-32 [bytemuck::cast_slice]: the bytes of a storage and back. *)
Definition to_bytes (l : list bool) : list N :=
  map (fun k => num_of_bits (firstn 8 (skipn (8 * k) l))) (seq 0 (length l / 8)).
(** sse2_transpose.rs 32 [bytemuck::cast_slice_mut]: bytes seen as bits. *)
Definition of_bytes (bs : list N) : list bool :=
  flat_map (fun b => map (fun i => N.testbit b (N.of_nat i)) (seq 0 8)) bs.

(** simple.rs 9-26 [transpose]. *)
Definition simple_step (rows cols : nat) (input : list bool) (o : list bool) (rc : nat * nat) : option (list bool) :=
  let idx := fst rc * cols + snd rc in
  bit <- nth_error input idx ;;
  let t_idx := snd rc * rows + fst rc in
  _ <- oassert (t_idx <? length o) ;;
  Some (upd t_idx bit o).
(** simple.rs 9-26 [transpose]: the assertion and the loops. *)
Definition simple_transpose (input : list bool) (rows cols : nat) : option (list bool) :=
  _ <- oassert (rows * cols =? length input) ;;
  ofold (simple_step rows cols input) (repeat false (rows * cols))
        (flat_map (fun r => map (fun c => (r, c)) (seq 0 cols)) (seq 0 rows)).

(** lib.rs 262-264 [can_do_sse_trans]. *)
Definition can_do_sse (m : bitmat) : bool :=
  (bm_rows m mod 8 =? 0) && (bm_cols m mod 8 =? 0) && (16 <=? bm_rows m) && (16 <=? bm_cols m).

(** lib.rs 282-299 [transpose], on a target with one of the fast paths. *)
Definition transpose (m : bitmat) : option bitmat :=
  d <- (if can_do_sse m
        then bs <- fast_transpose (bm_rows m) (bm_cols m) (to_bytes (bm_data m)) ;; Some (of_bytes bs)
        else simple_transpose (bm_data m) (bm_rows m) (bm_cols m)) ;;
  Some (BitMat (bm_cols m) (bm_rows m) d).

(** lib.rs 239-254 [fast_transpose]. *)
Definition view_fast_transpose (m : bitmat) : option bitmat :=
  bs <- fast_transpose (bm_rows m) (bm_cols m) (to_bytes (bm_data m)) ;;
  Some (BitMat (bm_cols m) (bm_rows m) (of_bytes bs)).

(** lib.rs 273-278 [row], 418-427 [Rows::next]: rows are yielded until the slice leaves the
    data; the number of rows of the matrix is not looked at.  The loop over a matrix
    without columns does not end ([None]). *)
Definition iter_rows (m : bitmat) : option (list (list bool)) :=
  _ <- oassert (1 <=? bm_cols m) ;;
  Some (map (fun r => firstn (bm_cols m) (skipn (r * bm_cols m) (bm_data m))) (seq 0 (length (bm_data m) / bm_cols m))).

(** lib.rs 221 [BitVec::into_vec] for elements of [W] bits: the last element is filled up with dead
    bits, whose contents [junk] are not specified. *)
Definition into_vec (W : nat) (junk : nat -> bool) (l : list bool) : list bool :=
  l ++ map junk (seq (length l) ((W - length l mod W) mod W)).

(** lib.rs 210-213 [dotp]; [&] of a vector and a slice keeps the length of the vector
    ([bitvec] masks by the slice and clears the rest).  [reduce] of nothing panics. *)
Definition dotp (l r : list bool) : option bool :=
  match zip_with andb l (r ++ repeat false (length l - length r)) with
  | [] => None
  | x :: xs => Some (fold_left xorb xs x)
  end.

(** lib.rs 203-222 [mat_mul] for elements of [W] bits. *)
Definition mat_mul (W : nat) (junk : nat -> bool) (a b : bitmat) : option bitmat :=
  _ <- oassert (bm_cols a =? bm_rows b) ;;
  t <- transpose b ;;
  la <- iter_rows a ;;
  lb <- iter_rows t ;;
  rows <- omap (fun l => omap (fun r => dotp l r) lb) la ;;
  Some (BitMat (bm_rows a) (bm_rows t) (into_vec W junk (concat rows))).

(** lib.rs 181-190 [from_bits] for elements of [W] bits. *)
Definition from_bits (W : nat) (bits : list bool) (rows cols : nat) : option bitmat :=
  _ <- oassert (length bits mod W =? 0) ;;
  _ <- oassert (length bits =? rows * cols) ;;
  Some (BitMat rows cols bits).

(** lib.rs 192-201 [identity]: the loop sets every [size + 1]-th bit; [fuel] bounds it. *)
Fixpoint set_diag (size fuel idx : nat) (l : list bool) : list bool :=
  match fuel with
  | 0 => l
  | S fuel => if idx <? size * size then set_diag size fuel (idx + (size + 1)) (upd idx true l) else l
  end.
(** lib.rs 192-201 [identity]. *)
Definition identity (W : nat) (size : nat) : option bitmat :=
  _ <- oassert ((size * size) mod W =? 0) ;;
  Some (BitMat size size (set_diag size (size * size) 0 (repeat false (size * size)))).

(** lib.rs 157-174 [scalar_and], 331-361 [bitxor], 322-329 [not]: on the
    elements, hence on the bits (also the dead ones). *)
Definition scalar_and (a b : bitmat) : option bitmat :=
  _ <- oassert ((bm_rows a =? bm_rows b) && (bm_cols a =? bm_cols b)) ;;
  Some (BitMat (bm_rows a) (bm_cols a) (zip_with andb (bm_data a) (bm_data b))).
(** lib.rs 331-361 [bitxor]. *)
Definition bm_xor (a b : bitmat) : option bitmat :=
  _ <- oassert ((bm_rows a =? bm_rows b) && (bm_cols a =? bm_cols b)) ;;
  Some (BitMat (bm_rows a) (bm_cols a) (zip_with xorb (bm_data a) (bm_data b) ++ skipn (length (bm_data b)) (bm_data a))).
(** lib.rs 322-329 [not]. *)
Definition bm_not (a : bitmat) : bitmat := BitMat (bm_rows a) (bm_cols a) (map negb (bm_data a)).
