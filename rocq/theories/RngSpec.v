(** Specification vocabulary for the AES generator: a generator is a key and a
    position in the key stream [enc key 0, enc key 1, ...] read as bytes. *)
From Coq Require Import List Bool Arith NArith.
Require Import Verif.RngModel.
Import ListNotations.

(** Byte [i] of the key stream of [k] (aes_rng.rs 109-122: counter mode from 0). *)
Definition kbyte (enc : N -> N -> N) (k i : N) : N :=
  (N.shiftr (enc k (i / 16)) (8 * (i mod 16)) mod 256)%N.

(** [n] bytes of the key stream from [pos] on (aes_rng.rs 109-122). *)
Definition kbytes (enc : N -> N -> N) (k pos : N) (n : nat) : list N :=
  map (fun j => kbyte enc k (pos + N.of_nat j)%N) (seq 0 n).

(** The number with given little-endian bytes (block.rs 61-66). *)
Fixpoint le_num (bs : list N) : N :=
  match bs with
  | [] => 0
  | b :: bs => b + 256 * le_num bs
  end%N.

(** How many bytes a call uses (aes_rng.rs 30-59, 75-78, block.rs 84-88). *)
Definition want (c : call) : nat :=
  match c with
  | CU32 => 4
  | CU64 => 8
  | CFill n => n
  | CBlock | CFork | CFromRng => 16
  end.

(** A reader stops at a multiple of four bytes (aes_rng.rs 102: items are [u32]). *)
Definition after (pos : N) (n : nat) : N := (4 * ((pos + N.of_nat n + 3) / 4))%N.

(** The end of the stream: the counter ends before the last eight blocks (aes_rng.rs 117-120). *)
Definition stream_end : N := (16 * (2 ^ 128 - 8))%N.

(** The answer to a call on a generator with key and position. aes_rng.rs 30-59, 75-78. *)
Definition s_call (enc : N -> N -> N) (c : call) (st : N * N) : option (answer * (N * N) * list (N * N)) :=
  let (k, pos) := st in
  let bs := kbytes enc k pos (want c) in
  if (after pos (want c) <=? stream_end)%N then
    Some (match c with
          | CU32 | CU64 | CBlock => ANum (le_num bs)
          | CFill _ => ABytes bs
          | CFork | CFromRng => ANew
          end,
          (k, after pos (want c)),
          match c with
          | CFork | CFromRng => [(le_num bs, 0%N)]
          | _ => []
          end)
  else None.

(** A history of calls (ot_ext/mod.rs 27, 33: lists of generators). *)
Fixpoint s_calls (enc : N -> N -> N) (h : list (nat * call)) (sts : list (N * N)) : option (list answer) :=
  match h with
  | [] => Some []
  | (i, c) :: h =>
      match nth_error sts i with
      | None => None
      | Some st =>
          match s_call enc c st with
          | None => None
          | Some (a, st', new) =>
              match s_calls enc h (firstn i sts ++ st' :: skipn (S i) sts ++ new) with
              | None => None
              | Some r => Some (a :: r)
              end
          end
      end
  end.

(** The stretches of key stream the calls of a history use: generator, first byte
    and number of bytes (aes_rng.rs 30-59, 75-78). *)
Fixpoint stretches (h : list (nat * call)) (pos : nat -> N) : list (nat * N * nat) :=
  match h with
  | [] => []
  | (i, c) :: h =>
      (i, pos i, want c) :: stretches h (fun j => if j =? i then after (pos i) (want c) else pos j)
  end.

(** The answer made of the bytes of its stretch (aes_rng.rs 30-59, 75-78, block.rs 84-88). *)
Definition answer_of (c : call) (bs : list N) : answer :=
  match c with
  | CU32 | CU64 | CBlock => ANum (le_num bs)
  | CFill _ => ABytes bs
  | CFork | CFromRng => ANew
  end.

(** The keys of the generators created by calls with the given stretches
    (aes_rng.rs 57-59, 75-78); [keys] are the keys of all generators. *)
Definition child_keys (enc : N -> N -> N) (keys : list N) (calls : list (call * (nat * N * nat))) : list N :=
  flat_map (fun x =>
    match x with
    | (CFork, (i, p, n)) | (CFromRng, (i, p, n)) => [le_num (kbytes enc (nth i keys 0%N) p n)]
    | _ => []
    end) calls.
