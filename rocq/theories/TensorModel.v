(** Model of crates/seec/src/protocols/tensor_aby2.rs, ABY2 with matrices.  No proofs here.

    The types [Share] and [ShareVec] come from aby2.rs ([ashare] in Aby2Model).  A pseudo random
    generator is the stream of its 32-bit words and a position in it. *)
From Coq Require Import List Bool Arith NArith.
Require Import Verif.Prelude Verif.GateModel Verif.ProtocolModel Verif.CircuitModel Verif.ExecModel Verif.BoolGmwModel
  Verif.BitMatModel Verif.Aby2Model.
Import ListNotations.
Open Scope nat_scope.

(** ** Random values *)

(** [ChaChaRng] (rand_chacha, outside of /repo): [next_u32] returns the words in order.
    Fields at aby2.rs 35-37, parameter at tensor_aby2.rs 337. *)
Record wrng := WRng { wr_words : nat -> N; wr_pos : nat }.

(** tensor_aby2.rs 353, 381, 786, 787, 819 [gen::<bool>()]: rand 0.8 takes the sign bit of a word. *)
Definition gen_bool (r : wrng) : bool * wrng :=
  (N.testbit (wr_words r (wr_pos r)) 31, WRng (wr_words r) (S (wr_pos r))).

(** The eight lowest bits of a word from bit [8 * k] on: the samples of [u8] in
    crates/seec-bitmatrix/src/lib.rs 81-84 and the bytes of [fill] in crates/seec/src/utils.rs 91. *)
Definition word_byte (w : N) (k : nat) : list bool :=
  map (fun i => N.testbit w (N.of_nat (8 * k + i))) (seq 0 8).

(** crates/seec-bitmatrix/src/lib.rs 76-86 [BitMatrix::<u8>::random]: [sample_iter(Standard)] takes one
    word for every byte (the truncated word). *)
Definition rand_matrix (r : wrng) (rows cols : nat) : option (bitmat * wrng) :=
  _ <- oassert ((rows * cols) mod 8 =? 0) ;;
  let n := rows * cols / 8 in
  Some (BitMat rows cols (concat (map (fun i => word_byte (wr_words r (wr_pos r + i)) 0) (seq 0 n))),
        WRng (wr_words r) (wr_pos r + n)).

(** crates/seec/src/utils.rs 83-95 [rand_bitvec] for bytes: [fill] uses the four bytes of every word and
    drops the rest of the last one. *)
Definition rand_bits (r : wrng) (size : nat) : list bool * wrng :=
  let bytes := (size + 7) / 8 in
  (firstn size (concat (map (fun i => word_byte (wr_words r (wr_pos r + i / 4)) (i mod 4)) (seq 0 bytes))),
   WRng (wr_words r) (wr_pos r + (bytes + 3) / 4)).

(** ** Shares *)

(** tensor_aby2.rs 43-47 [PartialShare]; also the plain values. *)
Inductive tval := TScalar (b : bool) | TVec (l : list bool) | TMatrix (m : bitmat).
(** tensor_aby2.rs 35-38 [ShareMatrix], 50-54 [TensorShare]. *)
Inductive tshare := SScalar (s : ashare) | SVec (pub priv : list bool) | SMatrix (pub priv : bitmat).

(** tensor_aby2.rs 528-541 [get_private], [get_public]. *)
Definition ts_priv (s : tshare) : tval :=
  match s with SScalar s => TScalar (as_priv s) | SVec _ q => TVec q | SMatrix _ q => TMatrix q end.
(** tensor_aby2.rs 535-541 [get_public]. *)
Definition ts_pub (s : tshare) : tval :=
  match s with SScalar s => TScalar (as_pub s) | SVec p _ => TVec p | SMatrix p _ => TMatrix p end.

(** tensor_aby2.rs 661-676 [set_public]. *)
Definition ts_set_public (s : tshare) (p : tval) : option tshare :=
  match s, p with
  | SScalar s, TScalar d => Some (SScalar (AS d (as_priv s)))
  | SVec _ q, TVec d => Some (SVec d q)
  | SMatrix _ q, TMatrix d => Some (SMatrix d q)
  | _, _ => None
  end.

(** crates/seec/src/utils.rs 113-121 [fast_bit_xor]: on the elements both have.  Vectors whose last byte
    carries dead bits of the longer one are not distinguished. *)
Definition vec_xor (a b : list bool) : list bool := zip_with xorb a b ++ skipn (length b) a.

(** tensor_aby2.rs 679-701 [BitXor for TensorShare]. *)
Definition ts_xor (a b : tshare) : option tshare :=
  match a, b with
  | SScalar a, SScalar b => Some (SScalar (as_xor a b))
  | SVec p q, SVec p' q' => Some (SVec (vec_xor p p') (vec_xor q q'))
  | SMatrix p q, SMatrix p' q' => x <- bm_xor p p' ;; y <- bm_xor q q' ;; Some (SMatrix x y)
  | _, _ => None
  end.

(** tensor_aby2.rs 703-713 [Not for TensorShare], 518-525 [Not for ShareMatrix]; aby2.rs 543-550, 608-617. *)
Definition ts_not (a : tshare) : tshare :=
  match a with
  | SScalar a => SScalar (as_not a)
  | SVec p q => SVec (map negb p) q
  | SMatrix p q => SMatrix (bm_not p) q
  end.

(** tensor_aby2.rs 746-775 [BitXor for PartialShare]. *)
Definition tv_xor (a b : tval) : option tval :=
  match a, b with
  | TScalar a, TScalar b => Some (TScalar (xorb a b))
  | TVec a, TVec b => _ <- oassert (length a =? length b) ;; Some (TVec (vec_xor a b))
  | TMatrix a, TMatrix b => x <- bm_xor a b ;; Some (TMatrix x)
  | _, _ => None
  end.

(** tensor_aby2.rs 737-743 [flatten]: the whole storage of a matrix. *)
Definition tv_flatten (v : tval) : list bool :=
  match v with TScalar b => [b] | TVec l => l | TMatrix m => bm_data m end.

(** ** Sharing and reconstruction *)

(** aby2.rs 33-40 [DeltaSharing] with streams of words; the map from gate ids is a function. *)
Record tsharing := TDS { td_priv : wrng; td_local : wrng; td_remote : wrng; td_map : nat -> option share_type }.

(** aby2.rs 620-638 [DeltaSharing::new]; [priv] is the stream of the private seed, [joint k] stream [k] of
    the joint seed. *)
Definition td_new (party : nat) (priv : nat -> N) (joint : nat -> nat -> N) (m : nat -> option share_type)
  : option tsharing :=
  _ <- oassert ((party =? 0) || (party =? 1)) ;;
  Some (TDS (WRng priv 0) (WRng (joint party) 0) (WRng (joint (1 - party)) 0) m).

(** tensor_aby2.rs 778-809 [share_tensor]: one value. *)
Definition td_share1 (s : tsharing) (x : tval) : option (tshare * tval * tsharing) :=
  match x with
  | TScalar bit =>
      let '(my, p) := gen_bool (td_priv s) in
      let '(other, l) := gen_bool (td_local s) in
      let plain_delta := xorb (xorb bit my) other in
      Some (SScalar (AS plain_delta my), TScalar plain_delta, TDS p l (td_remote s) (td_map s))
  | TVec _ => None
  | TMatrix plain =>
      '(my, p) <- rand_matrix (td_priv s) (bm_rows plain) (bm_cols plain) ;;
      '(other, l) <- rand_matrix (td_local s) (bm_rows plain) (bm_cols plain) ;;
      d <- bm_xor plain my ;;
      d <- bm_xor d other ;;
      Some (SMatrix d my, TMatrix d, TDS p l (td_remote s) (td_map s))
  end.

(** tensor_aby2.rs 778-809 [share_tensor]. *)
Fixpoint td_share (s : tsharing) (input : list tval) : option (list tshare * list tval * tsharing) :=
  match input with
  | [] => Some ([], [], s)
  | x :: r =>
      '(sh, d, s) <- td_share1 s x ;;
      '(shs, ds, s) <- td_share s r ;;
      Some (sh :: shs, d :: ds, s)
  end.

(** tensor_aby2.rs 811-834 [plain_delta_to_share_tensor]: one value; [Share::new] takes the private part
    first (aby2.rs 588-590). *)
Definition td_delta1 (s : tsharing) (d : tval) : option (tshare * tsharing) :=
  match d with
  | TScalar bit =>
      let '(x, r) := gen_bool (td_remote s) in
      Some (SScalar (AS bit x), TDS (td_priv s) (td_local s) r (td_map s))
  | TVec _ => None
  | TMatrix mat =>
      '(x, r) <- rand_matrix (td_remote s) (bm_rows mat) (bm_cols mat) ;;
      Some (SMatrix mat x, TDS (td_priv s) (td_local s) r (td_map s))
  end.

(** tensor_aby2.rs 811-834 [plain_delta_to_share_tensor]. *)
Fixpoint td_delta (s : tsharing) (ds : list tval) : option (list tshare * tsharing) :=
  match ds with
  | [] => Some ([], s)
  | d :: r =>
      '(sh, s) <- td_delta1 s d ;;
      '(shs, s) <- td_delta s r ;;
      Some (sh :: shs, s)
  end.

(** Derived [PartialEq] of [PartialShare] and [BitMatrix] (tensor_aby2.rs 41, seec-bitmatrix lib.rs 29). *)
Fixpoint bits_eqb (a b : list bool) : bool :=
  match a, b with [], [] => true | x :: a, y :: b => eqb x y && bits_eqb a b | _, _ => false end.
(** tensor_aby2.rs 41: derived [PartialEq] of [PartialShare]. *)
Definition tv_eqb (a b : tval) : bool :=
  match a, b with
  | TScalar a, TScalar b => eqb a b
  | TVec a, TVec b => bits_eqb a b
  | TMatrix a, TMatrix b =>
      (bm_rows a =? bm_rows b) && (bm_cols a =? bm_cols b) && bits_eqb (bm_data a) (bm_data b)
  | _, _ => false
  end.

(** tensor_aby2.rs 836-856 [reconstruct_tensor]; [zip] stops at the shorter storage. *)
Fixpoint td_reconstruct (a b : list tshare) : option (list tval) :=
  match a, b with
  | x :: a, y :: b =>
      _ <- oassert (tv_eqb (ts_pub x) (ts_pub y)) ;;
      v <- match x, y with
           | SScalar x, SScalar y => Some (TScalar (xorb (xorb (as_pub x) (as_priv x)) (as_priv y)))
           | SMatrix p q, SMatrix _ q' => m <- bm_xor p q ;; m <- bm_xor m q' ;; Some (TMatrix m)
           | _, _ => None
           end ;;
      r <- td_reconstruct a b ;;
      Some (v :: r)
  | _, _ => Some []
  end.

(** ** Gates *)

(** tensor_aby2.rs 68-84 [BooleanGate], [TensorGate]; the dimension of a base gate is kept beside it.
    [Combine] and [Select], which no function implements, are [TOther]. *)
Inductive tensor_gate :=
| TBase (b : base_gate tval) (dim : list nat)
| TAnd2 | TAnd3 | TAnd4 | TXor | TInv
| TMatMult (rows cols : nat)
| TOther.

(** tensor_aby2.rs 487-492 [is_interactive]. *)
Definition t_is_interactive (g : tensor_gate) : bool :=
  match g with TAnd2 | TAnd3 | TAnd4 | TMatMult _ _ => true | _ => false end.
(** tensor_aby2.rs 494-504 [input_size]; [todo!()] for [TOther] is [0]: it is only called for interactive
    gates. *)
Definition t_input_size (g : tensor_gate) : nat :=
  match g with
  | TBase _ _ | TInv => 1
  | TAnd2 | TXor | TMatMult _ _ => 2
  | TAnd3 => 3
  | TAnd4 => 4
  | TOther => 0
  end.
(** tensor_aby2.rs 506-511 [as_base_gate], 513-515 [wrap_base_gate]. *)
Definition t_as_base (g : tensor_gate) : option (base_gate tval) :=
  match g with TBase b _ => Some b | _ => None end.
(** tensor_aby2.rs 484-516 [impl Gate<PartialShare> for BooleanGate]: the part used by the circuit code. *)
Definition tensor_ops : gate_ops tval tensor_gate :=
  GateOps tval tensor_gate t_is_interactive t_as_base (fun b => TBase b []).

(** tensor_aby2.rs 136-153 [share_constant].  [Share::new(b, false)] makes [b] the private part
    (aby2.rs 588-590), [ShareVec::new(v, private)] makes [v] the public part (aby2.rs 461-463).  The check of
    the dimensions in [BitMatrix::zeros] is not modelled. *)
Definition t_share_constant (_party : nat) (_out : tshare) (val : tval) : tshare :=
  match val with
  | TScalar b => SScalar (AS false b)
  | TVec v => SVec v (repeat false (length v))
  | TMatrix m => SMatrix m (BitMat (bm_rows m) (bm_cols m) (repeat false (bm_rows m * bm_cols m)))
  end.

(** tensor_aby2.rs 155-181 [evaluate_non_interactive]. *)
Definition t_eval_ni (party : nat) (g : tensor_gate) (inputs : list tshare) : option tshare :=
  match g with
  | TBase b _ => default_evaluate b inputs
  | TXor => match inputs with a :: b :: _ => ts_xor a b | _ => None end
  | TInv => match inputs with a :: _ => Some (if party =? 0 then ts_not a else a) | [] => None end
  | _ => None
  end.

Section Tensor.
(** The contents of the dead bits of a product (see [into_vec] in BitMatModel). *)
Variable junk : nat -> bool.

(** tensor_aby2.rs 259-332 [compute_delta_share].  The setup data [st] is the vector [eval_shares]. *)
Definition t_delta_share (party : nat) (g : tensor_gate) (inputs : list tshare) (st : list tval) (out : tshare)
  : option (tval * list tval) :=
  _ <- oassert ((party =? 0) || (party =? 1)) ;;
  match g with
  | TAnd2 =>
      match inputs with
      | SScalar a :: SScalar b :: _ =>
          '(e, st) <- pop st ;;
          match e, out with
          | TScalar d, SScalar o =>
              Some (TScalar (xorb (xorb (xorb (xorb ((party =? 1) && (as_pub a && as_pub b))
                                                    (as_pub a && as_priv b))
                                              (as_pub b && as_priv a))
                                        d)
                                  (as_priv o)), st)
          | _, _ => None
          end
      | _ => None
      end
  | TMatMult rows cols =>
      match inputs with
      | SMatrix ap aq :: SMatrix bp bq :: _ =>
          '(e, st) <- pop st ;;
          match e, out with
          | TMatrix gd, SMatrix _ oq =>
              x <- mat_mul 8 junk ap bq ;;
              y <- mat_mul 8 junk aq bp ;;
              o <- bm_xor x y ;;
              o <- bm_xor o gd ;;
              o <- bm_xor o oq ;;
              o <- (if party =? 0 then z <- mat_mul 8 junk ap bp ;; bm_xor o z else Some o) ;;
              _ <- oassert ((bm_rows o =? rows) && (bm_cols o =? cols)) ;;
              Some (TMatrix o, st)
          | _, _ => None
          end
      | _ => None
      end
  | _ => None
  end.

(** tensor_aby2.rs 183-199 [compute_msg]. *)
Fixpoint t_compute_msg (party : nat) (gates : list tensor_gate) (outs inputs : list tshare) (st : list tval)
  : option (list tval * list tval) :=
  match gates, outs with
  | g :: gates, o :: outs =>
      let n := t_input_size g in
      '(d, st) <- t_delta_share party g (firstn n inputs) st o ;;
      '(ds, st) <- t_compute_msg party gates outs (skipn n inputs) st ;;
      Some (d :: ds, st)
  | _, _ => Some ([], st)
  end.

(** tensor_aby2.rs 201-220 [evaluate_interactive]; [zip] stops at the shortest. *)
Fixpoint t_eval_all (outs : list tshare) (mine other : list tval) : option (list tshare) :=
  match outs, mine, other with
  | o :: outs, a :: mine, b :: other =>
      d <- tv_xor a b ;;
      s <- ts_set_public o d ;;
      r <- t_eval_all outs mine other ;;
      Some (s :: r)
  | _, _, _ => Some []
  end.

(** tensor_aby2.rs 126-254 [impl Protocol for BoolTensorAby2]: [SIMD_SUPPORT] is the default [false], the
    SIMD methods are the defaults, which panic. *)
Definition tensor : protocol := {|
  p_plain := tval; p_share := tshare; p_simd := list tshare; p_gate := tensor_gate;
  p_msg := list tval; p_simdmsg := unit; p_setup := list tval;
  p_simd_support := false;
  p_simd_get := fun v i => nth_error v i;
  p_simd_collect := fun l => l;
  p_default_share := SScalar (AS false false);
  p_default_simd := [];
  p_is_interactive := t_is_interactive;
  p_input_size := t_input_size;
  p_as_base := t_as_base;
  p_share_constant := t_share_constant;
  p_share_constant_simd := fun _ _ _ _ => [];
  p_eval_ni := t_eval_ni;
  p_eval_ni_simd := fun _ _ _ => None;
  p_compute_msg := t_compute_msg;
  p_compute_msg_simd := fun _ _ _ _ _ => None;
  p_eval_int := fun _ _ outs mine other st => r <- t_eval_all outs mine other ;; Some (r, st);
  p_eval_int_simd := fun _ _ _ _ _ _ => None |}.

(** ** Setup of the gate outputs *)

(** seec-bitmatrix lib.rs 29-34: the derived [Default]. *)
Definition bm_default : bitmat := BitMat 0 0 [].

(** tensor_aby2.rs 334-424 [setup_output_share]: how many of the inputs are taken. *)
Definition t_setup_reads (g : tensor_gate) : nat :=
  match g with
  | TBase GInput _ | TBase (GConstant _) _ | TBase (GConnectToMainFromSimd _) _ => 0
  | TBase _ _ => 1
  | TXor | TMatMult _ _ => 2
  | _ => 0
  end.

(** tensor_aby2.rs 334-424 [setup_output_share]; [todo!()] and the panics are [None]. *)
Definition t_setup_output (g : tensor_gate) (inputs : list tshare) (r : wrng) : option (tshare * wrng) :=
  match g with
  | TBase GInput dim =>
      match dim with
      | [] => let '(b, r) := gen_bool r in Some (SScalar (AS false b), r)
      | [size] => let '(l, r) := rand_bits r size in Some (SVec [] l, r)
      | [rows; cols] => '(m, r) <- rand_matrix r rows cols ;; Some (SMatrix bm_default m, r)
      | _ => None
      end
  | TBase (GConstant _) _ => None
  | TBase (GConnectToMainFromSimd _) _ => None
  | TBase _ _ => match inputs with a :: _ => Some (a, r) | [] => None end
  | TAnd2 => let '(b, r) := gen_bool r in Some (SScalar (AS false b), r)
  | TXor =>
      match inputs with
      | SScalar a :: SScalar b :: _ => Some (SScalar (AS (as_pub a) (xorb (as_priv a) (as_priv b))), r)
      | _ => None
      end
  | TMatMult rows cols =>
      match inputs with
      | SMatrix _ a :: SMatrix _ b :: _ =>
          _ <- oassert (bm_rows a =? rows) ;;
          _ <- oassert (bm_cols b =? cols) ;;
          '(m, r) <- rand_matrix r rows cols ;;
          Some (SMatrix bm_default m, r)
      | _ => None
      end
  | _ => None
  end.

(** tensor_aby2.rs 236-250: one iteration.  The generator is chosen by the gate id alone. *)
Definition t_setup_gate (ec : ecirc tensor_gate) (s : tsharing * gouts tensor) (g : gid)
  : option (tsharing * gouts tensor) :=
  let '(ds, go) := s in
  gate <- ec_gate ec g ;;
  ins <- omap (fun p => c <- go_get (pr:=tensor) go p ;; cell_scalar c) (firstn (t_setup_reads gate) (ec_parents ec g)) ;;
  match td_map ds (snd g) with
  | Some STRemote =>
      '(o, r) <- t_setup_output gate ins (td_remote ds) ;;
      go <- go_put (pr:=tensor) go g (@CS tensor o) ;;
      Some (TDS (td_priv ds) (td_local ds) r (td_map ds), go)
  | _ =>
      '(o, r) <- t_setup_output gate ins (td_priv ds) ;;
      go <- go_put (pr:=tensor) go g (@CS tensor o) ;;
      Some (TDS r (td_local ds) (td_remote ds) (td_map ds), go)
  end.

(** tensor_aby2.rs 222-253 [setup_gate_outputs]. *)
Definition t_setup_gate_outputs (ec : ecirc tensor_gate) (ds : tsharing) : option (tsharing * gouts tensor) :=
  _ <- oassert (forallb (fun c => match snd c with None => true | Some _ => false end) (ec_counts ec)) ;;
  ofold (t_setup_gate ec) (ds, go_init (pr:=tensor) ec) (ec_iter ec).

(** tensor_aby2.rs 625-628 [from_raw], 648-652 [split_off_last], 981-983 [request_setup_output]. *)
Definition t_from_raw (l : list tval) : list tval := rev l.
(** tensor_aby2.rs 648-652 [split_off_last] as called at 981-983. *)
Definition t_request (s : list tval) (count : nat) : option (list tval * list tval) :=
  _ <- oassert (count <=? length s) ;;
  Some (skipn (length s - count) s, firstn (length s - count) s).

(** ** Setup by a GMW execution (tensor_aby2.rs 889-983) *)

(** dyn_layers.rs 80-83 [interactive_iter]. *)
Definition t_int_iter (ec : ecirc tensor_gate) : list gid :=
  filter (fun g => match ec_gate ec g with Some x => t_is_interactive x | None => false end) (ec_iter ec).

(** tensor_aby2.rs 894-908: the circuit under construction, the input gates of every parent
    ([input_sw_map]) and the parents in the order of their inputs ([circ_inputs]).  A [Secret] of the main
    circuit is its gate id. *)
Record tbuild := TB { tb_circ : circuit bool_gate; tb_map : list (gid * list nat); tb_ins : list gid }.

(** crates/seec/src/secret.rs 356-358 [inputs]. *)
Fixpoint add_inputs (c : circuit bool_gate) (n : nat) : circuit bool_gate * list nat :=
  match n with
  | 0 => (c, [])
  | S n =>
      let '(c, i) := add_gate bool_ops c (BBase GInput) in
      let '(c, is) := add_inputs c n in
      (c, i :: is)
  end.

(** tensor_aby2.rs 910-923: the secrets of one parent; [w p] is the number of bits of the flattened private
    part of the share of [p]. *)
Definition tb_parent (w : gid -> option nat) (s : tbuild) (p : gid) : option (tbuild * list nat) :=
  match assoc gid_eqb p (tb_map s) with
  | Some is => Some (s, is)
  | None =>
      n <- w p ;;
      let '(c, is) := add_inputs (tb_circ s) n in
      Some (TB c ((p, is) :: tb_map s) (tb_ins s ++ [p]), is)
  end.
(** tensor_aby2.rs 910-923: all parents of a gate. *)
Fixpoint tb_parents (w : gid -> option nat) (s : tbuild) (ps : list gid) : option (tbuild * list (list nat)) :=
  match ps with
  | [] => Some (s, [])
  | p :: ps =>
      '(s, is) <- tb_parent w s p ;;
      '(s, iss) <- tb_parents w s ps ;;
      Some (s, is :: iss)
  end.

(** tensor_aby2.rs 466-473: products of a row and a column, added up while they are made ([map] is lazy).
    [tail]: with the sum so far. *)
Fixpoint tb_dot_tail (c : circuit bool_gate) (acc : nat) (ab : list (nat * nat)) : option (circuit bool_gate * nat) :=
  match ab with
  | [] => Some (c, acc)
  | (a, b) :: ab =>
      '(c, p) <- add_wired_gate bool_ops c BAnd [a; b] ;;
      '(c, acc) <- add_wired_gate bool_ops c BXor [acc; p] ;;
      tb_dot_tail c acc ab
  end.
(** tensor_aby2.rs 466-473: one row and one column. *)
Definition tb_dot (c : circuit bool_gate) (ab : list (nat * nat)) : option (circuit bool_gate * nat) :=
  match ab with
  | [] => None
  | (a, b) :: ab =>
      '(c, p) <- add_wired_gate bool_ops c BAnd [a; b] ;;
      tb_dot_tail c p ab
  end.
(** tensor_aby2.rs 463-474: all rows and columns. *)
Fixpoint tb_dots (c : circuit bool_gate) (l : list (list (nat * nat))) : option (circuit bool_gate * list nat) :=
  match l with
  | [] => Some (c, [])
  | ab :: l =>
      '(c, i) <- tb_dot c ab ;;
      '(c, is) <- tb_dots c l ;;
      Some (c, i :: is)
  end.

(** [chunks_exact(k)] (k > 0). tensor_aby2.rs 463, 465. *)
Definition chunks_exact {A} (k : nat) (l : list A) : list (list A) :=
  map (fun i => firstn k (skipn (i * k) l)) (seq 0 (length l / k)).
(** [skip(k).step_by(r)] (r > 0). tensor_aby2.rs 461. *)
Definition strided {A} (k r : nat) (l : list A) : list A :=
  flat_map (fun i => match nth_error l (k + i * r) with Some x => [x] | None => [] end)
           (seq 0 ((length l - k + (r - 1)) / r)).

(** tensor_aby2.rs 453-475 [setup_data_circ] for [MatMult]: the pairs of a row of [a] and a column of [b].
    Division by zero, [chunks_exact(0)] and [step_by(0)] panic. *)
Definition tb_pairs (rows cols : nat) (a b : list nat) : option (list (list (nat * nat))) :=
  _ <- oassert (negb (rows =? 0)) ;;
  _ <- oassert (negb (cols =? 0)) ;;
  let a_cols := length a / rows in
  let b_rows := length b / cols in
  _ <- oassert (negb (a_cols =? 0)) ;;
  _ <- oassert (negb (b_rows =? 0)) ;;
  let b_trans := flat_map (fun k => strided k cols b) (seq 0 cols) in
  let bs := chunks_exact b_rows b_trans in
  let rs := flat_map (fun row => repeat row cols) (chunks_exact a_cols a) in
  match bs with
  | [] => Some []
  | _ => Some (map (fun ir => combine (snd ir) (nth (fst ir mod length bs) bs [])) (combine (seq 0 (length rs)) rs))
  end.

(** tensor_aby2.rs 426-481 [setup_data_circ], 909-929: one interactive gate. *)
Definition tb_gate (w : gid -> option nat) (ec : ecirc tensor_gate) (s : tbuild) (g : gid) : option (tbuild * list nat) :=
  gate <- ec_gate ec g ;;
  '(s, iss) <- tb_parents w s (ec_parents ec g) ;;
  match gate, iss with
  | TAnd2, (a :: _) :: (b :: _) :: _ =>
      '(c, i) <- add_wired_gate bool_ops (tb_circ s) BAnd [a; b] ;;
      Some (TB c (tb_map s) (tb_ins s), [i])
  | TMatMult rows cols, [a; b] =>
      abs <- tb_pairs rows cols a b ;;
      '(c, is) <- tb_dots (tb_circ s) abs ;;
      Some (TB c (tb_map s) (tb_ins s), is)
  | _, _ => None
  end.
(** tensor_aby2.rs 909-929: the loop. *)
Fixpoint tb_gates (w : gid -> option nat) (ec : ecirc tensor_gate) (s : tbuild) (gs : list gid)
  : option (tbuild * list (list nat)) :=
  match gs with
  | [] => Some (s, [])
  | g :: gs =>
      '(s, o) <- tb_gate w ec s g ;;
      '(s, os) <- tb_gates w ec s gs ;;
      Some (s, o :: os)
  end.

(** tensor_aby2.rs 914: the flattened private part of a gate output. *)
Definition t_private (go : gouts tensor) (p : gid) : option (list bool) :=
  c <- go_get (pr:=tensor) go p ;; s <- cell_scalar c ;; Some (tv_flatten (ts_priv s)).

(** tensor_aby2.rs 894-938: the setup circuit of one party, its inputs and the output gates of every
    interactive gate (930-933 [output], as in Aby2Model). *)
Definition t_setup_circuit (ec : ecirc tensor_gate) (go : gouts tensor)
  : option (circuit bool_gate * list gid * list (list nat)) :=
  '(s, oss) <- tb_gates (fun p => l <- t_private go p ;; Some (length l)) ec (TB c_new_main [] []) (t_int_iter ec) ;;
  '(c, iss) <- sb_all_outputs (tb_circ s) oss ;;
  Some (c, tb_ins s, iss).

(** tensor_aby2.rs 902, 917: the inputs of one party. *)
Definition t_setup_inputs (go : gouts tensor) (ins : list gid) : option (list bool) :=
  ls <- omap (t_private go) ins ;; Some (concat ls).

(** tensor_aby2.rs 951-977: the evaluation shares, read from the gate outputs of the GMW executor. *)
Definition t_collect1 {W} (go : gouts (bool_gmw W)) (gate : tensor_gate) (is : list nat) : option tval :=
  let get i := c <- go_cell (pr:=bool_gmw W) go (0, i) ;; cell_scalar c in
  match gate with
  | TAnd2 => match is with [i] => b <- get i ;; Some (TScalar b) | _ => None end
  | TMatMult rows cols => bv <- omap get is ;; m <- from_bits 8 bv rows cols ;; Some (TMatrix m)
  | _ => None
  end.
(** tensor_aby2.rs 951-977: all gates. *)
Definition t_collect {W} (ec : ecirc tensor_gate) (go : gouts (bool_gmw W)) (iss : list (list nat)) : option (list tval) :=
  r <- omap (fun gis => gate <- ec_gate ec (fst gis) ;; t_collect1 go gate (snd gis)) (combine (t_int_iter ec) iss) ;;
  Some (t_from_raw r).
End Tensor.
