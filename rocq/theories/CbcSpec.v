(** Specification vocabulary for CBC encryption. *)
From Coq Require Import List Bool Arith NArith.
Require Import Verif.BoolGmwSpec.
Import ListNotations.

(** Ciphertext blocks: [C i = E key (P i xor C (i-1))], [C (-1) = iv]. *)
Fixpoint cbc_blocks (E : list bool -> list bool -> list bool) (key prev : list bool) (plain : list (list bool)) : list (list bool) :=
  match plain with
  | [] => []
  | p :: r => let c := E (bits_xor p prev) key in c :: cbc_blocks E key c r
  end.

(** The bits of a byte, most significant bit first; of a sequence of bytes. *)
Definition msb_byte (x : N) : list bool := map (N.testbit_nat x) [7; 6; 5; 4; 3; 2; 1; 0].
Definition msb_bits (bytes : list N) : list bool := concat (map msb_byte bytes).

(** PKCS#7 padding to blocks of 16 bytes: RFC 5652, section 6.3. *)
Definition padded (data out : list N) : Prop :=
  exists n, 1 <= n <= 16 /\ out = data ++ repeat (N.of_nat n) n /\ exists k, length out = 16 * k.
