(** Model of crates/zappot/src/silent_ot/mod.rs, quasi_cyclic_encode.rs (without
    [modp], see ZapUtilModel) and of the configurations in silver_code.rs,
    ex_acc_code.rs, ex_conv_code.rs, and of
    crates/seec/src/mul_triple/boolean/silent_ot.rs.  No proofs here.

    The PPRF is PprfModel.  External code is a parameter: the FFT polynomial library is
    represented by the product of GF(2) polynomials it computes, the libOTe encoders by
    an arbitrary matrix over GF(2) ([rows] of output positions), prime search and the
    floating point noise weight by their results.  Channels, thread pools and the
    parallel iterators are not modelled. *)
From Coq Require Import List Bool Arith NArith.
Require Import Verif.Prelude Verif.ZapUtilModel Verif.PprfModel.
Import ListNotations.
Open Scope nat_scope.

(** [num_integer::Integer::next_multiple_of]. quasi_cyclic_encode.rs 56, 139; mod.rs 876;
    silver_code.rs 39. *)
Definition next_mult (x m : nat) : nat := (x + m - 1) / m * m.

(** Bit [j] of a slice of blocks ([BitSlice<_, Lsb0>] of the cast slice); false outside. mod.rs 648, quasi_cyclic_encode.rs 69. *)
Definition pbit (l : list N) (j : nat) : bool :=
  N.testbit (nth (j / 128) l 0%N) (N.of_nat (j mod 128)).

(** A slice of [n] blocks with the given bits. Auxiliary for the slices of
    quasi_cyclic_encode.rs 64-110. *)
Definition blocks_from (n : nat) (f : nat -> bool) : list N :=
  map (fun q => blk_of_bits (map (fun j => f (128 * q + j)) (seq 0 128))) (seq 0 n).

(** ** The quasi-cyclic code *)

(** quasi_cyclic_encode.rs 114-129 [QuasiCyclicConf]. *)
Record qc_conf := QcConf {
  qc_P : nat; qc_req : nat; qc_N : nat; qc_N2 : nat; qc_scaler : nat; qc_per : nat; qc_parts : nat }.

(** quasi_cyclic_encode.rs 135-151 [configure].  [next_prime] is the prime search;
    [weight] is [get_reg_noise_weight(0.2, sec_param)] (mod.rs 872-877, floating point;
    176 for the security parameter 128).  Written with binary numbers. *)
Definition qc_configure (next_prime : N -> N) (weight num_ots scaler : N) : option qc_conf :=
  _ <- oassert (negb (weight =? 0)%N) ;;
  _ <- oassert (negb (scaler =? 0)%N) ;;
  let P := next_prime (N.max num_ots (128 * 128)) in
  let ss := ((P * scaler + weight - 1) / weight)%N in
  let per := ((ss + 7) / 8 * 8)%N in
  let n2 := (per * weight)%N in
  Some (QcConf (N.to_nat P) (N.to_nat num_ots) (N.to_nat (n2 / scaler)) (N.to_nat n2)
               (N.to_nat scaler) (N.to_nat per) (N.to_nat weight)).

(** quasi_cyclic_encode.rs 153-155 [n_blocks]. *)
Definition qc_nblocks (c : qc_conf) : nat := qc_N c / 128.
(** quasi_cyclic_encode.rs 157-159 [n2_blocks]. *)
Definition qc_n2blocks (c : qc_conf) : nat := qc_N2 c / 128.

(** [FftPoly::mult] and [decode]: the product of two polynomials over GF(2), here by its
    coefficients. Used at quasi_cyclic_encode.rs 229-235. *)
Definition poly_bit (a b : list N) (k : nat) : bool :=
  fold_right xorb false (map (fun i => pbit a i && pbit b (k - i)) (seq 0 (S k))).
(** quasi_cyclic_encode.rs 229-235: the product as a slice of blocks. *)
Definition poly_mul (n : nat) (a b : list N) : list N := blocks_from n (poly_bit a b).

(** quasi_cyclic_encode.rs 220-245 [MultAddReducer::reduce] on a fresh [dest] of
    [n_blocks] zero blocks; [a] are the public polynomials (79-90
    [init_a_polynomials], from a fixed random generator; here any).  The slices of 64-bit
    words are slices of blocks ([n64 = 2 * n_blocks]).  With a scaler below 2 the code
    decodes a polynomial that was never written; this is not modelled (panic here). *)
Definition qc_reduce (c : qc_conf) (a : list (list N)) (b : list N) : option (list N) :=
  let nb := qc_nblocks c in
  _ <- oassert (2 <=? qc_scaler c) ;;
  acc <- ofold (fun acc s =>
           ap <- nth_error a (s - 1) ;;
           _ <- oassert ((s + 1) * nb <=? length b) ;;
           Some (zip_with N.lxor acc (poly_mul (2 * nb) ap (firstn nb (skipn (s * nb) b)))))
         (repeat 0%N (2 * nb)) (seq 1 (qc_scaler c - 1)) ;;
  let temp := zip_with N.lxor (firstn nb acc) (firstn nb b) ++ skipn nb acc in
  modp (repeat 0%N nb) temp (qc_P c).

(** quasi_cyclic_encode.rs 38-60 [dual_encode], 92-109 [copy_out]: the rows are reduced,
    then every column of 128 blocks is transposed (the transposition is C38) and
    becomes 128 blocks of the result.  [rows] has 128 rows. *)
Definition qc_dual_encode (c : qc_conf) (a : list (list N)) (rows : list (list N)) : option (list N) :=
  rs <- omap (qc_reduce c a) (firstn 128 rows) ;;
  let num := next_mult (qc_req c) 128 in
  _ <- oassert (num <=? qc_N2 c) ;;
  cols <- omap (fun i =>
            _ <- oassert (i <? qc_nblocks c) ;;
            Some (map (fun j => blk_of_bits (map (fun row => N.testbit (nth i row 0%N) (N.of_nat j)) rs)) (seq 0 128)))
          (seq 0 (num / 128)) ;;
  Some (firstn (qc_req c) (concat cols)).

(** quasi_cyclic_encode.rs 62-76 [dual_encode_choice]; bytes are [N]. *)
Definition qc_dual_encode_choice (c : qc_conf) (a : list (list N)) (sb : list N) : option (list N) :=
  c128 <- qc_reduce c a sb ;;
  Some (map (fun i => N.b2n (pbit c128 i)) (seq 0 (qc_req c))).

(** mod.rs 638-653 [calc_sb_blocks]: the noise positions as bits.  Setting a bit outside
    of the slice and casting a slice that is not a number of blocks panic. *)
Definition calc_sb (n2 : nat) (S : list nat) : option (list N) :=
  _ <- oassert (n2 mod 16 =? 0) ;;
  _ <- oassert (forallb (fun i => i <? n2 / 8 * 8) S) ;;
  _ <- oassert ((n2 / 8) mod 16 =? 0) ;;
  Some (blocks_from (n2 / 8 / 16) (fun p => existsb (Nat.eqb p) S)).

(** ** The codes of libOTe *)

(** mod.rs 76-87 [Encoder]: the variants with a libOTe code. *)
Inductive lib_kind := Silver | ExAcc | ExConv.

(** silver_code.rs 12-27, ex_acc_code.rs 12-27, ex_conv_code.rs 13-28: the fields that are
    used after the configuration; [code_size] of Silver is unused. *)
Record lib_conf := LibConf {
  lc_req : nat; lc_gap : nat; lc_N2 : nat; lc_per : nat; lc_parts : nat; lc_code : nat }.

(** silver_code.rs 30-54, ex_acc_code.rs 30-57, ex_conv_code.rs 31-57 [configure], all
    with scaler 2; [weight] is the noise weight, [gap] is [code.gap()] of Silver and 0
    for the others. *)
Definition lib_configure (weight gap num_ots : nat) : option lib_conf :=
  _ <- oassert (1 <=? weight) ;;
  let per := next_mult ((num_ots * 2 + weight - 1) / weight) 8 in
  Some (LibConf num_ots gap (per * weight + gap) per weight (num_ots * 2)).

(** A libOTe encoder: every output is the sum of the inputs selected by a row. mod.rs 603,
    615, 624 [dual_encode]. *)
Definition lin_apply (M : list (list bool)) (v : list N) : list N :=
  map (fun row => fold_right N.lxor 0%N (zip_with (fun (b : bool) x => if b then x else 0%N) row v)) M.

(** mod.rs 600-627, 685-709: encoding of a vector of blocks.  Silver encodes the whole
    vector in place and truncates it; ExAcc encodes a prefix into a new vector of
    [requested_num_ots] blocks; ExConv encodes a prefix in place and does not truncate. *)
Definition lib_encode (k : lib_kind) (c : lib_conf) (M : list (list bool)) (v : list N) : option (list N) :=
  match k with
  | Silver => Some (firstn (lc_req c) (lin_apply M v))
  | ExAcc => _ <- oassert (lc_code c <=? length v) ;; Some (lin_apply M (firstn (lc_code c) v))
  | ExConv => _ <- oassert (lc_code c <=? length v) ;;
              Some (lin_apply M (firstn (lc_code c) v) ++ skipn (lc_code c) v)
  end.

(** mod.rs 725-763: encoding of the vector [c1] of choice bytes; for Silver it is not
    truncated. *)
Definition lib_encode_choice (k : lib_kind) (c : lib_conf) (M : list (list bool)) (v : list N) : option (list N) :=
  match k with
  | Silver => Some (lin_apply M v)
  | _ => lib_encode k c M v
  end.

(** ** Encoder *)

(** mod.rs 76-87 [Encoder]. *)
Inductive encoder :=
| EQc (c : qc_conf) (a : list (list N))
| ELib (k : lib_kind) (c : lib_conf) (M : list (list bool)).

(** mod.rs 805-816 [pprf_format]. *)
Definition enc_format (e : encoder) : pprf_format :=
  match e with EQc _ _ => InterleavedTransposed | ELib _ _ _ => Interleaved end.
(** mod.rs 832-843 [N2], 845-856 [num_partitions], 858-869 [size_per], 784-790 [gap]. *)
Definition enc_N2 (e : encoder) : nat := match e with EQc c _ => qc_N2 c | ELib _ c _ => lc_N2 c end.
(** mod.rs 845-856 [num_partitions]. *)
Definition enc_parts (e : encoder) : nat := match e with EQc c _ => qc_parts c | ELib _ c _ => lc_parts c end.
(** mod.rs 858-869 [size_per]. *)
Definition enc_per (e : encoder) : nat := match e with EQc c _ => qc_per c | ELib _ c _ => lc_per c end.
(** mod.rs 784-790 [gap]. *)
Definition enc_gap (e : encoder) : nat := match e with ELib Silver c _ => lc_gap c | _ => 0 end.
(** mod.rs 818-830 [requested_num_ots]. *)
Definition enc_req (e : encoder) : nat := match e with EQc c _ => qc_req c | ELib _ c _ => lc_req c end.
(** mod.rs 792-803 [pprf_conf]; [bits] is [usize::BITS]. *)
Definition enc_pprf (bits : nat) (e : encoder) : option pprf_conf := pprf_conf_new bits (enc_per e) (enc_parts e).

(** mod.rs 134-138 [ArrayOrVec]. *)
Inductive arr_or_vec := Arr (o : pprf_out) | Vec (v : list N).

(** mod.rs 289-297, 309-310 and 481-487, 506-507: [derandomize_gap] with the computed gap
    blocks [tail]; [none] says that there are no gap OTs. *)
Definition with_gap (e : encoder) (none : bool) (out : pprf_out) (tail : list N) : option arr_or_vec :=
  if none then match e with ELib Silver _ _ => None | _ => Some (Arr out) end
  else Some (Vec ((match out with OInter l => l | OTrans _ rows => concat rows end) ++ tail)).

(** mod.rs 595-630 [send_compress]. *)
Definition send_compress (e : encoder) (rt : arr_or_vec) : option (list N) :=
  match e, rt with
  | EQc c a, Arr (OTrans _ rows) => qc_dual_encode c a rows
  | ELib Silver c M, Vec v => lib_encode Silver c M v
  | ELib ExAcc c M, Arr (OInter v) => lib_encode ExAcc c M v
  | ELib ExConv c M, Arr (OInter v) => lib_encode ExConv c M v
  | _, _ => None
  end.

(** mod.rs 669-679: the choice bits are stored in the least significant bits; an index
    outside of the vector panics. *)
Definition pack_lsb (S : list nat) (v : list N) : option (list N) :=
  ofold (fun v i => x <- nth_error v i ;; Some (upd i (N.lor x 1) v)) (map (fun x => N.land x (N.lxor 1 blk_ones)) v) S.

(** mod.rs 655-681: the packing of [recv_compress].  For the quasi-cyclic code row 0 is
    overwritten ([n2_blocks] is not larger than the number of columns, a larger one would
    run into the next row; panic here). *)
Definition pack_choices (e : encoder) (S : list nat) (rt : arr_or_vec) : option arr_or_vec :=
  match e, rt with
  | EQc c _, Arr (OTrans n rows) =>
      sb <- calc_sb (qc_N2 c) S ;;
      match rows with
      | r0 :: rest =>
          _ <- oassert (length sb =? qc_n2blocks c) ;;
          _ <- oassert (qc_n2blocks c <=? length r0) ;;
          Some (Arr (OTrans n ((sb ++ skipn (qc_n2blocks c) r0) :: rest)))
      | [] => None
      end
  | ELib _ _ _, Arr (OInter v) => v <- pack_lsb S v ;; Some (Arr (OInter v))
  | ELib _ _ _, Vec v => v <- pack_lsb S v ;; Some (Vec v)
  | _, _ => None
  end.

(** mod.rs 726-729: the vector [c1]; an index outside panics. *)
Definition choice_bytes (n2 : nat) (S : list nat) : option (list N) :=
  _ <- oassert (forallb (fun i => i <? n2) S) ;;
  Some (map (fun p => N.b2n (existsb (Nat.eqb p) S)) (seq 0 n2)).

(** mod.rs 632-773 [recv_compress]. *)
Definition recv_compress (e : encoder) (rt : arr_or_vec) (S : list nat) (packed : bool)
  : option (list N * option (list N)) :=
  if packed then
    rt <- pack_choices e S rt ;;
    a <- send_compress e rt ;;
    Some (a, None)
  else
    a <- send_compress e rt ;;
    c <- match e with
         | EQc c pa => sb <- calc_sb (qc_N2 c) S ;; qc_dual_encode_choice c pa sb
         | ELib k c M => c1 <- choice_bytes (lc_N2 c) S ;; lib_encode_choice k c M c1
         end ;;
    Some (a, Some c).

(** ** Parties *)

(** [Array2::from_shape_vec((n, d), l)] (pprf.rs 79-84, 286-295). *)
Definition shape_rows {A} (n d : nat) (l : list A) : list (list A) :=
  map (fun t => firstn d (skipn (t * d) l)) (seq 0 n).

(** mod.rs 199-223 and 391-421 [new_with_silent_base_ots]: the last [gap] base OTs are for
    the gap positions. *)
Definition split_base {A} (pc : pprf_conf) (gap : nat) (base : list A) : option (list (list A) * list A) :=
  let n := pc_depth pc * pc_count pc in
  _ <- oassert (length base =? n + gap) ;;
  Some (shape_rows (pc_count pc) (pc_depth pc) (firstn n base), skipn n base).

(** mod.rs 405-412: [S]. *)
Definition noise_points (umax : nat) (pc : pprf_conf) (e : encoder) (choices : list (list bool)) (gap_choices : list bool)
  : list nat :=
  recv_points umax pc (enc_format e) choices
  ++ map fst (filter snd (combine (seq (enc_parts e * enc_per e) (length gap_choices)) gap_choices)).

(** mod.rs 250-280 [correlated_silent_send]: the messages of the PPRF, the gap values
    and the result; [roots] is the randomness of the PPRF and [order] the order of its
    threads. *)
Definition correlated_send (enc : bool -> N -> N) (H : N -> N) (aes : N -> N -> N) (bits : nat) (e : encoder)
  (base : list (N * N)) (delta : N) (roots : list N) (order : list nat)
  : option (list grp_msg * list N * list N) :=
  pc <- enc_pprf bits e ;;
  '(ots, gap_ots) <- split_base pc (enc_gap e) base ;;
  '(ms, out) <- sender_expand enc H pc (enc_format e) delta roots ots order ;;
  let '(tail, vals) := gap_send aes gap_ots delta in
  rt <- with_gap e (length gap_ots =? 0) out tail ;;
  b <- send_compress e rt ;;
  Some (ms, vals, b).

(** mod.rs 446-472 [correlated_silent_receive]; [vals] is the message with the gap values
    (none is received when there are no gap OTs). *)
Definition correlated_receive (enc : bool -> N -> N) (H : N -> N) (aes : N -> N -> N) (bits umax : nat) (e : encoder)
  (base : list N) (choices : list (list bool)) (gap_choices : list bool) (ms : list grp_msg) (vals : list N) (packed : bool)
  : option (list N * option (list N)) :=
  pc <- enc_pprf bits e ;;
  '(ots, gap_ots) <- split_base pc (enc_gap e) base ;;
  out <- receiver_expand enc H pc (enc_format e) choices ots ms ;;
  rt <- with_gap e (length gap_ots =? 0) out (gap_receive aes gap_ots gap_choices vals) ;;
  recv_compress e rt (noise_points umax pc e choices gap_choices) packed.

(** mod.rs 226-244 [random_silent_send]; [cr] is [FIXED_KEY_HASH.cr_hash_slice_mut]. *)
Definition random_send enc H aes cr bits e base delta roots order : option (list grp_msg * list N * list (N * N)) :=
  '(ms, vals, b) <- correlated_send enc H aes bits e base delta roots order ;;
  Some (ms, vals, silent_send_hash cr delta b).

(** mod.rs 428-441 [random_silent_receive]. *)
Definition random_receive enc H aes cr bits umax e base choices gap_choices ms vals : option (list N * list bool) :=
  '(a, _) <- correlated_receive enc H aes bits umax e base choices gap_choices ms vals true ;;
  Some (silent_recv_hash cr a).

(** pprf.rs 569-611 [sample_choice_bits] with mod.rs 525-540 for the interleaved formats.
    The random bits are a list of rows of [depth] bits; [None] is also the case of a list
    that is too short. *)
Fixpoint sample_row (umax : nat) (pc : pprf_conf) (f : pprf_format) (modulus i : nat) (rnd : list (list bool))
  : option (list bool * list (list bool)) :=
  match rnd with
  | [] => None
  | row :: rnd =>
      if interleave_point umax (active_path row) i (pc_count pc) (pc_domain pc) f <? modulus then Some (row, rnd)
      else sample_row umax pc f modulus i rnd
  end.
(** pprf.rs 569-611: the loop. *)
Fixpoint sample_rows umax pc f modulus (is_ : list nat) (rnd : list (list bool)) : option (list (list bool)) :=
  match is_ with
  | [] => Some []
  | i :: is_ =>
      _ <- oassert (interleave_point umax 0 i (pc_count pc) (pc_domain pc) f <? modulus) ;;
      '(row, rnd) <- sample_row umax pc f modulus i rnd ;;
      rows <- sample_rows umax pc f modulus is_ rnd ;;
      Some (row :: rows)
  end.
(** pprf.rs 569-611 [sample_choice_bits] as called at mod.rs 525-540. *)
Definition sample_choice_bits (umax bits : nat) (e : encoder) (rnd : list (list bool)) : option (list (list bool)) :=
  pc <- enc_pprf bits e ;;
  sample_rows umax pc (enc_format e) (enc_N2 e) (seq 0 (next_mult (pc_count pc) 8)) rnd.

(** ** Boolean triples (crates/seec/src/mul_triple/boolean/silent_ot.rs) *)

(** silent_ot.rs 92-130 [precompute_mts]: the triples (a, b, c) of a party from its
    messages as a sender and its messages and choices as a receiver. *)
Definition silent_triples (sent : list (N * N)) (received : list N * list bool) : list (bool * bool * bool) :=
  let b := map (fun m => xorb (N.testbit (fst m) 0) (N.testbit (snd m) 0)) sent in
  let v := map (fun m => N.testbit (fst m) 0) sent in
  let u := map (fun x => N.testbit x 0) (fst received) in
  let a := snd received in
  let c := zip_with (fun (abu : bool * bool * bool) (v : bool) =>
                       let '(a, b, u) := abu in xorb (xorb (a && b) u) v)
                    (combine (combine a b) u) v in
  combine (combine a b) c.

(** silent_ot.rs 165-171 [request_mts] on stored triples, with
    mul_triple/boolean/mod.rs 221-227 [split_off_last]: what is handed out and what is
    kept. *)
Definition silent_request {A} (stored : list A) (amount : nat) : option (list A * list A) :=
  _ <- oassert (amount <=? length stored) ;;
  Some (skipn (length stored - amount) stored, firstn (length stored - amount) stored).
