(** Model of crates/seec/examples/aes_cbc.rs: the circuit for CBC encryption and
    the preparation of its inputs.  No proofs here.

    The AES circuit is any circuit [sub] loaded from a Bristol file.  Modelled is
    the variant without [--use-sc].  The thread-local builder is passed as an
    argument and returned.  A panic is [None]. *)
From Coq Require Import List Bool Arith NArith.
Require Import Verif.Prelude Verif.GateModel Verif.CircuitModel Verif.ExecModel Verif.BoolGmwModel Verif.ConnModel
  Verif.BuilderModel Verif.InlineModel Verif.PrivMailModel.
Import ListNotations.

(** aes_cbc.rs 414-418: [zip] and XOR; stops at the shorter list. *)
Fixpoint cbc_xor (b : builder) (chunk state : list secret) : option (builder * list secret) :=
  match chunk, state with
  | d :: r, c :: q =>
      '(b1, z) <- sec_bin BXor b d c ;;
      '(b2, zs) <- cbc_xor b1 r q ;;
      Some (b2, z :: zs)
  | _, _ => Some (b, [])
  end.

(** aes_cbc.rs 426-464 [aes128] with [use_sc = false].  Simplified: the assertion
    about the circuit id is made for all secrets, in the code only for those that
    [add_sub_circuit] takes. *)
Definition cbc_aes128 (sub : circuit bool_gate) (b : builder) (key chunk : list secret) : option (builder * list secret) :=
  let inp := chunk ++ key in
  _ <- oassert (forallb (fun s : secret => 0 =? fst s) inp) ;;
  '(k, c) <- b_cell b 0 ;;
  '(c', outs) <- add_sub_circuit bool_ops c sub (map snd inp) ;;
  Some (b_set b k c', map (pair 0) outs).

(** aes_cbc.rs 408-424 [aes_cbc_chunk]; [clone_from_slice] panics for different
    lengths.  [outs] are the ids of the output gates so far. *)
Definition cbc_chunk (sub : circuit bool_gate) (key : list secret) (st : builder * (list secret * list nat)) (chunk : list secret)
  : option (builder * (list secret * list nat)) :=
  let '(b, (state, outs)) := st in
  '(b1, inp) <- cbc_xor b chunk state ;;
  '(b2, output) <- cbc_aes128 sub b1 key inp ;;
  _ <- oassert (length state =? length output) ;;
  '(b3, os) <- sec_outputs b2 output ;;
  Some (b3, (output, outs ++ os)).

(** Rust's [chunks_exact]: aes_cbc.rs 398. *)
Definition chunks_exact {A} (n : nat) (l : list A) : list (list A) :=
  map (fun i => firstn n (skipn (i * n) l)) (seq 0 (length l / n)).

(** aes_cbc.rs 382-406 [build_enc_circuit] up to the conversion of the builder;
    [n] is the constant 128. *)
Definition cbc_build_n (n : nat) (sub : circuit bool_gate) (data_size_bits : nat) : option (builder * list nat) :=
  _ <- oassert (data_size_bits mod n =? 0) ;;
  '(b1, key) <- sec_inputs n b_new ;;
  '(b2, iv) <- sec_inputs n b1 ;;
  '(b3, data) <- sec_inputs data_size_bits b2 ;;
  '(b4, (_, outs)) <- ofold (cbc_chunk sub key) (b3, (iv, [])) (chunks_exact n data) ;;
  Some (b4, outs).
(** aes_cbc.rs 382-406 [build_enc_circuit]. *)
Definition build_enc_circuit := cbc_build_n 128.

(** Rust's [reverse_bits] on a number of [w] bits: aes_cbc.rs 185, 187, 341. *)
Definition reverse_bits (w : nat) (x : N) : N :=
  fold_right (fun i acc => N.lor acc (if N.testbit_nat x i then N.shiftl 1 (N.of_nat (w - 1 - i)) else 0)) 0%N (seq 0 w).

(** The bits of a word of [w] bits in a [BitVec<usize>], least significant bit
    first: aes_cbc.rs 185, 187, 236. *)
Definition word_bits (w : nat) (x : N) : list bool := map (N.testbit_nat x) (seq 0 w).

(** [bytemuck::cast] of 8 bytes to a [usize] on a little-endian 64-bit machine:
    aes_cbc.rs 180, 235. *)
Fixpoint le_word (bytes : list N) : N :=
  match bytes with [] => 0 | x :: r => N.lor x (N.shiftl (le_word r) 8) end%N.

(** aes_cbc.rs 180-185: the bits of the key that are shared; 186-187 does the same
    with the IV. *)
Definition cbc_key_bits (key : list N) : list bool :=
  flat_map (fun word => word_bits 64 (reverse_bits 64 (le_word word))) (chunks_exact 8 key).

(** aes_cbc.rs 331-344 [get_data] for any data. *)
Definition cbc_pad (data : list N) : list N :=
  let padding := 16 - length data mod 16 in
  map (reverse_bits 8) (data ++ repeat (N.of_nat padding) padding).
(** aes_cbc.rs 233-236: the padded data as bits. *)
Definition cbc_data_bits (data : list N) : list bool :=
  flat_map (fun word => word_bits 64 (le_word word)) (chunks_exact 8 (cbc_pad data)).

(** aes_cbc.rs 358-360: the input of the executor. *)
Definition cbc_input (key iv data : list bool) : list bool := key ++ iv ++ data.
