(** Model of crates/zappot/src/util/aes_rng.rs (the generator all OT extensions
    draw their pseudo-random columns and seeds from), aes_hash.rs and the byte
    conversions of block.rs.  No proofs here.

    AES is the parameter [enc key block].  Blocks, keys, words and bytes are
    natural numbers; a 16-byte AES block is the number with these little-endian
    bytes.  The memory view of line 116 ([u32; 32] as eight AES blocks) is that
    of a little-endian machine.  The buffering generator [BlockRng] is not in the
    repository (crate rand_core 0.6, block.rs); it is modelled from that source.
    Exceeding the counter panics ([None]), as in builds with overflow checks. *)
From Coq Require Import List Bool Arith NArith.
Require Import Verif.Prelude Verif.ZapUtilModel.
Import ListNotations.

Section Rng.
Variable enc : N -> N -> N.

(** aes_rng.rs 90-93 [AesRngCore]; the AES instance is its key. *)
Record rng_core := { rc_key : N; rc_state : N }.

(** rand_core block.rs [BlockRng], used by aes_rng.rs 28. *)
Record rng := { r_core : rng_core; r_results : list N; r_index : nat }.

(** aes_rng.rs 105: [Results = [u32; 32]]. *)
Definition results_len : nat := 32.

(** aes_rng.rs 116: the four [u32] of a 16-byte block in memory. *)
Definition blk_words (b : N) : list N :=
  map (fun j => (N.shiftr b (32 * N.of_nat j) mod 2 ^ 32)%N) (seq 0 4).

(** aes_rng.rs 117-120: write the counter to [n] blocks, counting up. *)
Fixpoint count_blocks (n : nat) (state : N) : option (list N * N) :=
  match n with
  | 0 => Some ([], state)
  | S n' =>
      _ <- oassert (state + 1 <? 2 ^ 128)%N ;;
      ' (bs, st) <- count_blocks n' (state + 1)%N ;;
      Some (state :: bs, st)
  end.

(** aes_rng.rs 109-122 [generate]. *)
Definition generate (c : rng_core) : option (list N * rng_core) :=
  ' (bs, st) <- count_blocks 8 (rc_state c) ;;
  Some (flat_map blk_words (map (enc (rc_key c)) bs), {| rc_key := rc_key c; rc_state := st |}).

(** rand_core [BlockRng::new] (called by aes_rng.rs 54, 58 and 144): an empty buffer, marked as used up. *)
Definition block_rng_new (c : rng_core) : rng :=
  {| r_core := c; r_results := repeat 0%N results_len; r_index := results_len |}.

(** aes_rng.rs 53-55 and 129-136 [from_seed]. *)
Definition from_seed (seed : N) : rng :=
  block_rng_new {| rc_key := seed; rc_state := 0%N |}.

(** rand_core [BlockRng::generate_and_set] (behind aes_rng.rs 33, 37, 41). *)
Definition generate_and_set (g : rng) (i : nat) : option rng :=
  _ <- oassert (i <? results_len) ;;
  ' (ws, c) <- generate (r_core g) ;;
  Some {| r_core := c; r_results := ws; r_index := i |}.

(** aes_rng.rs 32-34 [next_u32] (rand_core [BlockRng::next_u32]). *)
Definition next_u32 (g : rng) : option (N * rng) :=
  g <- (if results_len <=? r_index g then generate_and_set g 0 else Some g) ;;
  v <- nth_error (r_results g) (r_index g) ;;
  Some (v, {| r_core := r_core g; r_results := r_results g; r_index := r_index g + 1 |}).

(** rand_core: the closure [read_u64] of [BlockRng::next_u64] (behind aes_rng.rs 37). *)
Definition read_u64 (ws : list N) (i : nat) : option N :=
  lo <- nth_error ws i ;;
  hi <- nth_error ws (i + 1) ;;
  Some (N.lor (N.shiftl hi 32) lo).

(** aes_rng.rs 36-38 [next_u64] (rand_core [BlockRng::next_u64]). *)
Definition next_u64 (g : rng) : option (N * rng) :=
  let i := r_index g in
  if i <? results_len - 1 then
    v <- read_u64 (r_results g) i ;;
    Some (v, {| r_core := r_core g; r_results := r_results g; r_index := i + 2 |})
  else if results_len <=? i then
    g <- generate_and_set g 2 ;;
    v <- read_u64 (r_results g) 0 ;;
    Some (v, g)
  else
    x <- nth_error (r_results g) (results_len - 1) ;;
    g <- generate_and_set g 1 ;;
    y <- nth_error (r_results g) 0 ;;
    Some (N.lor (N.shiftl y 32) x, g).

(** The little-endian bytes of a [u32] (rand_core [fill_via_u32_chunks], behind aes_rng.rs 41). *)
Definition u32_bytes (w : N) : list N :=
  map (fun j => (N.shiftr w (8 * N.of_nat j) mod 256)%N) (seq 0 4).

(** rand_core [fill_via_u32_chunks] (behind aes_rng.rs 41) for [n] bytes of room: the number of words
    used up and the bytes written. *)
Definition fill_chunk (src : list N) (n : nat) : nat * list N :=
  let size_u8 := Nat.min (length src * 4) n in
  let words := (size_u8 + 3) / 4 in
  (words, firstn size_u8 (flat_map u32_bytes (firstn words src))).

(** rand_core [BlockRng::fill_bytes] (called by aes_rng.rs 41): the [while] loop; [fuel] bounds the number
    of rounds and is never used up for [fuel > n] (each round fills a byte). *)
Fixpoint fill_loop (fuel n : nat) (g : rng) : option (list N * rng) :=
  match n with
  | 0 => Some ([], g)
  | _ =>
      match fuel with
      | 0 => None
      | S fuel =>
          g <- (if results_len <=? r_index g then generate_and_set g 0 else Some g) ;;
          let (used, bytes) := fill_chunk (skipn (r_index g) (r_results g)) n in
          ' (rest, g) <- fill_loop fuel (n - length bytes)
            {| r_core := r_core g; r_results := r_results g; r_index := r_index g + used |} ;;
          Some (bytes ++ rest, g)
      end
  end.

(** aes_rng.rs 40-42 [fill_bytes]; 44-46 [try_fill_bytes] is the same with [Ok]. *)
Definition fill_bytes (n : nat) (g : rng) : option (list N * rng) :=
  fill_loop (n + 1) n g.

(** block.rs 84-88: a random block is a random [u128], which rand draws as two
    [u64], the low one first. *)
Definition gen_block (g : rng) : option (N * rng) :=
  ' (lo, g) <- next_u64 g ;;
  ' (hi, g) <- next_u64 g ;;
  Some (N.lor (N.shiftl hi 64) lo, g).

(** aes_rng.rs 75-78 [fork]: the new generator and the advanced old one. *)
Definition fork (g : rng) : option (rng * rng) :=
  ' (seed, g) <- gen_block g ;;
  Some (from_seed seed, g).

(** aes_rng.rs 57-59 [from_rng] on an [AesRng] (rand_core's default: the seed's
    bytes, block.rs 237-243, are filled from the generator; mul_triple/boolean/
    ot_ext.rs 83-84 use it on the provider's generator). *)
Definition from_rng (g : rng) : option (rng * rng) :=
  ' (bytes, g) <- fill_bytes 16 g ;;
  Some (from_seed (blk_of_bytes bytes), g).

(** The calls a user of a generator can make (aes_rng.rs 30-59, 75-78, block.rs 84-88). *)
Inductive call :=
| CU32
| CU64
| CFill (n : nat)
| CBlock
| CFork
| CFromRng.

(** What a call gives back (aes_rng.rs 30-59, 75-78); a new generator gets the next free number. *)
Inductive answer :=
| ANum (v : N)
| ABytes (bs : list N)
| ANew.

(** One call on one generator; aes_rng.rs 30-59, 75-78. *)
Definition do_call (c : call) (g : rng) : option (answer * rng * list rng) :=
  match c with
  | CU32 => ' (v, g) <- next_u32 g ;; Some (ANum v, g, [])
  | CU64 => ' (v, g) <- next_u64 g ;; Some (ANum v, g, [])
  | CFill n => ' (b, g) <- fill_bytes n g ;; Some (ABytes b, g, [])
  | CBlock => ' (v, g) <- gen_block g ;; Some (ANum v, g, [])
  | CFork => ' (child, g) <- fork g ;; Some (ANew, g, [child])
  | CFromRng => ' (child, g) <- from_rng g ;; Some (ANew, g, [child])
  end.

(** A history of calls on the generators of a process, which are numbered in the
    order of their creation (the lists of generators of ot_ext/mod.rs 27, 33). *)
Fixpoint do_calls (h : list (nat * call)) (gs : list rng) : option (list answer) :=
  match h with
  | [] => Some []
  | (i, c) :: h =>
      g <- nth_error gs i ;;
      ' (a, g, new) <- do_call c g ;;
      r <- do_calls h (upd i g gs ++ new) ;;
      Some (a :: r)
  end.

(** aes_hash.rs 26-30 [cr_hash_block]; [key] is the key of the hash. *)
Definition cr_hash_block (key x : N) : N := N.lxor x (enc key x).

(** aes_hash.rs 36-45 [cr_hash_blocks]. *)
Definition cr_hash_blocks (key : N) (xs : list N) : list N :=
  zip_with N.lxor (map (enc key) xs) xs.

(** aes_hash.rs 47-55 [cr_hash_slice_mut]; both slices have the same length, so
    [encrypt_blocks_b2b] does not fail. *)
Definition cr_hash_slice_mut (key : N) (xs : list N) : list N :=
  zip_with N.lxor xs (map (enc key) xs).
End Rng.

(** block.rs 118-134 [TryFrom] for a bit vector or slice given by its bytes. *)
Definition block_try_from (bytes : list N) : option N :=
  if length bytes =? 16 then Some (blk_of_bytes bytes) else None.

(** block.rs 148-155: the halves of a block. *)
Definition block_halves (b : N) : N * N :=
  (blk_of_bytes (firstn 8 (blk_bytes b)), blk_of_bytes (skipn 8 (blk_bytes b))).

(** silent_ot/pprf.rs 118: the key of the generator of a thread. *)
Definition thread_key (seed : N) (thread_idx : nat) : N := N.lxor seed (N.of_nat thread_idx).
