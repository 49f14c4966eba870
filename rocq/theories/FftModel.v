(** Model of the polynomials in the frequency domain (crates/bitpolymul/src/lib.rs)
    and of their use by the quasi-cyclic encoder.  No proofs here.

    The functions of the C library are parameters.  Two words of 64 bits of a
    transformed polynomial are one element of the type [E] (16 bytes, as used by
    [gf2ext128_mul_sse]).  A call that would make the C code access memory outside of a
    buffer is [OutOfBounds]. *)
From Coq Require Import List Bool Arith NArith.
Require Import Verif.Prelude.
Import ListNotations.

(** How a call ends: lib.rs 26-112. *)
Inductive outcome (A : Type) := Fine (a : A) | Panics | OutOfBounds.
Arguments Fine {A} a. Arguments Panics {A}. Arguments OutOfBounds {A}.
(** Sequencing of calls, lib.rs 26-112. *)
Definition then_do {A B} (x : outcome A) (f : A -> outcome B) : outcome B :=
  match x with Fine a => f a | Panics => Panics | OutOfBounds => OutOfBounds end.
(** [assert!], slice bounds, [expect]: lib.rs 49, 68, 73-75, 85, 100, 105, 111, 116. *)
Definition check (b : bool) : outcome unit := if b then Fine tt else Panics.
(** What the C code needs of a buffer: lib.rs 50-54, 106-110. *)
Definition need (b : bool) : outcome unit := if b then Fine tt else OutOfBounds.
Notation "x <~ e ;; f" := (then_do e (fun x => f)) (at level 61, e at next level, right associativity).
Notation "' p <~ e ;; f" := (then_do e (fun p => f)) (at level 61, p pattern, e at next level, right associativity).

(** lib.rs 115-118 [log2_floor] after its assertion. *)
Definition log2_floor (v : nat) : nat := Nat.log2 v.
(** lib.rs 120-127 [log2_ceil] for positive numbers. *)
Definition log2_ceil (v : nat) : nat := if 2 ^ log2_floor v <? v then log2_floor v + 1 else log2_floor v.

(** aligned-vec/src/lib.rs 171-179 [resize]. *)
Definition vec_resize {A} (l : list A) (n : nat) (x : A) : list A := firstn n l ++ repeat x (n - length l).

(** The C functions called in lib.rs 51-53, 72, 107-109 (bitpolymul-sys), and the xor of 91. *)
Record fft_lib (E : Type) := FftLib {
  fl_zero : E;                      (* 16 zero bytes *)
  fl_fft : list N -> list E;        (* lib.rs 51-53: bc_to_lch_2_unit256, encode_128_half_input_zero, btfy_128 *)
  fl_mul : E -> E -> E;             (* lib.rs 72: gf2ext128_mul_sse *)
  fl_add : E -> E -> E;             (* lib.rs 91: xor *)
  fl_dec : list E -> list N }.      (* lib.rs 107-109: i_btfy_128, decode_128, bc_to_mono_2_unit256 *)
Arguments FftLib {E} _ _ _ _ _. Arguments fl_zero {E} _. Arguments fl_fft {E} _ _.
Arguments fl_mul {E} _ _ _. Arguments fl_add {E} _ _ _. Arguments fl_dec {E} _ _.

(** lib.rs 9-14 [FftPoly]. *)
Record fft_poly (E : Type) := FP { fp_n : nat; fp_pow : nat; fp_poly : list E }.
Arguments FP {E} _ _ _. Arguments fp_n {E} _. Arguments fp_pow {E} _. Arguments fp_poly {E} _.

Section Fft.
Context {E : Type} (L : fft_lib E).

(** lib.rs 22-24 [new]. *)
Definition fp_new : fft_poly E := FP 0 0 [].

(** lib.rs 26-39 [resize]. *)
Definition fp_resize (p : fft_poly E) (n : nat) : fft_poly E :=
  if fp_n p =? n then p
  else if n =? 0 then FP 0 0 []
  else let pow := Nat.max (2 ^ log2_ceil n) 256 in FP n pow (vec_resize (fp_poly p) pow (fl_zero L)).

(** The conversion to [u32] in lib.rs 49 and 105, and the product in 109. *)
Definition fits_u32 (n : nat) : bool := (N.of_nat n <? 2 ^ 32)%N.

(** lib.rs 41-55 [encode]. *)
Definition fp_encode (p : fft_poly E) (data : list N) : outcome (fft_poly E) :=
  let p := fp_resize p (length data) in
  if fp_n p =? 0 then Fine p
  else
    _ <~ check (negb (fp_pow p =? 0)) ;;
    let temp := vec_resize data (fp_pow p) 0%N in
    _ <~ check (fits_u32 (fp_pow p)) ;;
    _ <~ need ((fp_pow p <=? length temp) && (fp_pow p <=? length (fp_poly p))) ;;
    Fine (FP (fp_n p) (fp_pow p) (fl_fft L (firstn (fp_pow p) temp) ++ skipn (fp_pow p) (fp_poly p))).

(** The loop in lib.rs 71-77: the products from element [i] on. *)
Fixpoint mul_loop (k i : nat) (this a b : list E) : outcome (list E) :=
  match k with
  | 0 => Fine []
  | S k' =>
      match nth_error this i, nth_error a i, nth_error b i with
      | Some _, Some x, Some y => r <~ mul_loop k' (S i) this a b ;; Fine (fl_mul L x y :: r)
      | _, _, _ => Panics
      end
  end.

(** lib.rs 67-79 [mult]. *)
Definition fp_mult (p a b : fft_poly E) : outcome (fft_poly E) :=
  _ <~ check (fp_pow a =? fp_pow b) ;;
  let p := fp_resize p (fp_n a) in
  r <~ mul_loop (fp_pow p) 0 (fp_poly p) (fp_poly a) (fp_poly b) ;;
  Fine (FP (fp_n p) (fp_pow p) (r ++ skipn (fp_pow p) (fp_poly p))).
(** lib.rs 63-65 [mult_eq]. *)
Definition fp_mult_eq (p a : fft_poly E) : outcome (fft_poly E) := fp_mult p p a.

(** lib.rs 84-92 [add]. *)
Definition fp_add (p a b : fft_poly E) : outcome (fft_poly E) :=
  _ <~ check (fp_pow a =? fp_pow b) ;;
  let p := fp_resize p (fp_n a) in
  let z := firstn (length (fp_poly p)) (zip_with (fl_add L) (fp_poly a) (fp_poly b)) in
  Fine (FP (fp_n p) (fp_pow p) (z ++ skipn (length z) (fp_poly p))).
(** lib.rs 80-82 [add_eq]. *)
Definition fp_add_eq (p a : fft_poly E) : outcome (fft_poly E) := fp_add p p a.

(** lib.rs 99-112 [decode_with_cache]: the destination of [dest] words and the cache
    (16-19 [DecodeCache]).  An overflow of [2 * n_pow2] (debug profile) panics. *)
Definition fp_decode (p : fft_poly E) (cache : list N) (dest : nat) : outcome (list N * list N) :=
  _ <~ check (dest =? 2 * fp_n p) ;;
  let cache := if length cache <? 2 * length (fp_poly p) then vec_resize cache (2 * length (fp_poly p)) 0%N else cache in
  _ <~ check (negb (fp_pow p =? 0)) ;;
  _ <~ check (fits_u32 (2 * fp_pow p)) ;;
  _ <~ need ((fp_pow p <=? length (fp_poly p)) && (2 * fp_pow p <=? length cache)) ;;
  let cache := fl_dec L (firstn (fp_pow p) (fp_poly p)) ++ skipn (2 * fp_pow p) cache in
  _ <~ check (dest <=? length cache) ;;
  Fine (firstn dest cache, cache).

(** ** The quasi-cyclic encoder *)

(** zappot/src/silent_ot/quasi_cyclic_encode.rs 79-90 [init_a_polynomials]; the words of the
    generator are given. *)
Fixpoint init_a (ws : list (list N)) : outcome (list (fft_poly E)) :=
  match ws with
  | [] => Fine []
  | w :: ws => p <~ fp_encode fp_new w ;; r <~ init_a ws ;; Fine (p :: r)
  end.

(** quasi_cyclic_encode.rs 223-234: the loop, from [s] on; [b] are the words of the row. *)
Fixpoint reduce_loop (k s n64 : nat) (aps : list (fft_poly E)) (b : list N) (bp cp : fft_poly E)
  : outcome (fft_poly E * fft_poly E) :=
  match k with
  | 0 => Fine (bp, cp)
  | S k' =>
      match nth_error aps (s - 1) with
      | None => Panics
      | Some ap =>
          _ <~ check ((s + 1) * n64 <=? length b) ;;
          bp1 <~ fp_encode bp (firstn n64 (skipn (s * n64) b)) ;;
          '(bp2, cp2) <~
            (if s =? 1 then c <~ fp_mult cp ap bp1 ;; Fine (bp1, c)
             else b2 <~ fp_mult_eq bp1 ap ;; c <~ fp_add_eq cp b2 ;; Fine (b2, c)) ;;
          reduce_loop k' (s + 1) n64 aps b bp2 cp2
      end
  end.

(** quasi_cyclic_encode.rs 220-235: [MultAddReducer::reduce] up to the decoding.  [bp]
    and [cache] are what earlier rows left in the reducer (202-207).  The words decoded
    and the state left. *)
Definition fft_reduce (scaler n64 : nat) (aps : list (fft_poly E)) (b : list N) (bp : fft_poly E) (cache : list N)
  : outcome (list N * fft_poly E * list N) :=
  '(bp, cp) <~ reduce_loop (scaler - 1) 1 n64 aps b bp fp_new ;;
  '(d, cache) <~ fp_decode cp cache (2 * n64) ;;
  Fine (d, bp, cache).
End Fft.
