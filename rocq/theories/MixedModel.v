(** Model of crates/seec/src/protocols/mixed_gmw.rs.  [w] is [R::BITS]; an element
    of [R] is an integer in [0, 2^w).  [W] is the number of bits of [usize].  No
    proofs here. *)
From Coq Require Import String.
From Coq Require Import List Bool Arith ZArith.
Require Import Verif.ParseModel Verif.Prelude Verif.BitVecModel Verif.GateModel Verif.ProtocolModel
  Verif.CircuitModel Verif.BoolGmwModel Verif.ArithGmwModel Verif.InlineModel Verif.AdderData.
Import ListNotations.
Open Scope Z_scope.

(** mixed_gmw.rs 52-56 [Mixed]. *)
Inductive mixed := MBool (b : bool) | MArith (r : Z).

(** mixed_gmw.rs 72-77 [unwrap_bool] and 78-83 [unwrap_arith]; the wrong kind
    panics. *)
Definition unwrap_bool (m : mixed) : option bool := match m with MBool b => Some b | MArith _ => None end.
(** mixed_gmw.rs 78-83 [unwrap_arith]; the wrong kind panics. *)
Definition unwrap_arith (m : mixed) : option Z := match m with MArith r => Some r | MBool _ => None end.

(** mixed_gmw.rs 101-114 [ConvGate]. *)
Inductive conv_gate := CSelect | CSnd | CRcv | CSelectBit (idx : nat) | CB2A.

(** mixed_gmw.rs 93-99 [MixedGate]. *)
Inductive mixed_gate :=
| MGBase (b : base_gate mixed) | MGBool (g : bool_gate) | MGArith (g : arith_gate) | MGConv (g : conv_gate).

(** ** Share storage *)

(** mixed_gmw.rs 117-122 [MixedShareStorage]; the bit vector is its list of bits. *)
Inductive mstore := SBool (l : list bool) | SArith (l : list Z) | SMixed (l : list mixed).

(** mixed_gmw.rs 167-185 [try_push]. *)
Definition ms_try_push (s : mstore) (x : mixed) : option mstore :=
  match s, x with
  | SBool l, MBool b => Some (SBool (l ++ [b]))
  | SArith l, MArith r => Some (SArith (l ++ [r]))
  | SMixed l, x => Some (SMixed (l ++ [x]))
  | SBool _, MArith _ => None
  | SArith _, MBool _ => None
  end.

(** mixed_gmw.rs 187-197 [as_mixed]. *)
Definition ms_as_mixed (s : mstore) : mstore :=
  match s with
  | SBool l => SMixed (map MBool l)
  | SArith l => SMixed (map MArith l)
  | SMixed l => SMixed l
  end.

(** mixed_gmw.rs 124-164 [extend].  The loops push one element per iteration;
    the recursive call through [rec_extend] continues on the rest of the
    iterator with a [Mixed] storage. *)
Fixpoint ms_extend (s : mstore) (xs : list mixed) : option mstore :=
  match s with
  | SMixed l => Some (SMixed (l ++ xs))
  | SBool l =>
      match xs with
      | [] => Some s
      | MBool b :: r => ms_extend (SBool (l ++ [b])) r
      | (MArith _ as a) :: r => s1 <- ms_try_push (ms_as_mixed s) a ;; ms_extend s1 r
      end
  | SArith l =>
      match xs with
      | [] => Some s
      | MArith x :: r => ms_extend (SArith (l ++ [x])) r
      | (MBool _ as b) :: r => s1 <- ms_try_push (ms_as_mixed s) b ;; ms_extend s1 r
      end
  end.

(** mixed_gmw.rs 204-210 [into_iter]. *)
Definition ms_iter (s : mstore) : list mixed :=
  match s with SBool l => map MBool l | SArith l => map MArith l | SMixed l => l end.

(** mixed_gmw.rs 226-230 [Default]. *)
Definition ms_default : mstore := SMixed [].

(** mixed_gmw.rs 214-223 [from_iter]. *)
Definition ms_from_iter (xs : list mixed) : option mstore :=
  match xs with
  | [] => Some ms_default
  | MBool b :: r => ofold ms_try_push (SBool [b]) r
  | MArith x :: r => ofold ms_try_push (SArith [x]) r
  end.

(** mixed_gmw.rs 233-239 [len]. *)
Definition ms_len (s : mstore) : nat :=
  match s with SBool l => length l | SArith l => length l | SMixed l => length l end.

(** mixed_gmw.rs 241-246 [repeat]. *)
Definition ms_repeat (x : mixed) (n : nat) : mstore :=
  match x with MBool b => SBool (repeat b n) | MArith r => SArith (repeat r n) end.

(** mixed_gmw.rs 248-267 [set]; out of range and a kind mismatch panic. *)
Definition ms_set (s : mstore) (i : nat) (x : mixed) : option mstore :=
  match s, x with
  | SBool l, MBool b => _ <- oassert (i <? length l)%nat ;; Some (SBool (upd i b l))
  | SArith l, MArith r => _ <- oassert (i <? length l)%nat ;; Some (SArith (upd i r l))
  | SMixed l, x => _ <- oassert (i <? length l)%nat ;; Some (SMixed (upd i x l))
  | SBool _, MArith _ => None
  | SArith _, MBool _ => None
  end.

(** mixed_gmw.rs 269-275 [get]; out of range panics. *)
Definition ms_get (s : mstore) (i : nat) : option mixed :=
  match s with
  | SBool l => b <- nth_error l i ;; Some (MBool b)
  | SArith l => r <- nth_error l i ;; Some (MArith r)
  | SMixed l => nth_error l i
  end.

(** mixed_gmw.rs 732-740 [MixedSharing::share]; [bsh] and [ash] are the [share]
    functions of the boolean and the arithmetic sharing.  A [Mixed] storage hits
    [todo!]. *)
Definition ms_share (bsh : list bool -> list bool * list bool) (ash : list Z -> list Z * list Z)
  (s : mstore) : option (mstore * mstore) :=
  match s with
  | SBool l => let '(a, b) := bsh l in Some (SBool a, SBool b)
  | SArith l => let '(a, b) := ash l in Some (SArith a, SArith b)
  | SMixed _ => None
  end.

(** mixed_gmw.rs 742-754 [MixedSharing::reconstruct] with the XOR and additive
    sharings (boolean_gmw.rs 334-337, arithmetic_gmw.rs 203-209). *)
Definition ms_reconstruct (w : Z) (s0 s1 : mstore) : option mstore :=
  match s0, s1 with
  | SBool a, SBool b => Some (SBool (zip_with xorb a b))
  | SArith a, SArith b => Some (SArith (additive_reconstruct w a b))
  | _, _ => None
  end.

(** ** Gates *)

(** mixed_gmw.rs 661-671 [is_interactive]. *)
Definition mixed_is_interactive (g : mixed_gate) : bool :=
  match g with
  | MGBool g => bool_is_interactive g
  | MGArith g => arith_is_interactive g
  | MGConv (CSnd | CRcv | CB2A) => true
  | MGConv (CSelectBit _ | CSelect) => false
  | MGBase _ => false
  end.

(** mixed_gmw.rs 673-685 [input_size]. *)
Definition mixed_input_size (w : nat) (g : mixed_gate) : nat :=
  match g with
  | MGBool g => bool_input_size g
  | MGArith g => arith_input_size g
  | MGBase _ => 1
  | MGConv (CSnd | CRcv | CSelectBit _) => 1
  | MGConv CSelect => 2
  | MGConv CB2A => w
  end.

(** mixed_gmw.rs 687-693 [as_base_gate]. *)
Definition mixed_as_base (g : mixed_gate) : option (base_gate mixed) :=
  match g with MGBase b => Some b | _ => None end.

(** mixed_gmw.rs 658-698 [impl Gate for MixedGate]. *)
Definition mixed_ops : gate_ops mixed mixed_gate :=
  GateOps mixed mixed_gate mixed_is_interactive mixed_as_base MGBase.

(** mixed_gmw.rs 700-708 [From<&bristol::Gate>]. *)
Definition mixed_from_br : br_kind -> mixed_gate :=
  from_br_kind (MGBool BAnd) (MGBool BXor) (MGBool BInv).

(** mixed_gmw.rs 374-384 [share_constant]. *)
Definition mixed_share_constant (party : nat) (_output : mixed) (val : mixed) : mixed :=
  match val with
  | MBool b => MBool (bool_share_constant party false b)
  | MArith a => MArith (arith_share_constant party 0 a)
  end.

(** protocols/mod.rs 382-385 [Ring::get_bit]; the shift overflows (a panic) from
    bit [BITS] on. *)
Definition get_bit (w : nat) (r : Z) (idx : nat) : option bool :=
  if (idx <? w)%nat then Some (Z.testbit r (Z.of_nat idx)) else None.

(** mixed_gmw.rs 386-439 [evaluate_non_interactive].  Simplification: the kind of
    all passed operands is checked, the code checks those it consumes (boolean
    and arithmetic gates are given exactly their operands). *)
Definition mixed_eval_ni (w : nat) (party : nat) (g : mixed_gate) (inputs : list mixed) : option mixed :=
  match g with
  | MGBase b => default_evaluate b inputs
  | MGBool g => xs <- omap unwrap_bool inputs ;; o <- bool_eval_ni party g xs ;; Some (MBool o)
  | MGArith g => xs <- omap unwrap_arith inputs ;; o <- arith_eval_ni (Z.of_nat w) party g xs ;; Some (MArith o)
  | MGConv (CSelectBit idx) =>
      match inputs with
      | MArith r :: _ => b <- get_bit w r idx ;; Some (MBool b)
      | _ => None
      end
  | MGConv CSelect =>
      match inputs with
      | a :: b :: _ => Some (match party with O => a | _ => b end)
      | _ => None
      end
  | MGConv (CSnd | CRcv | CB2A) => None
  end.

(** ** Interactive gates *)

(** mixed_gmw.rs 278-289 [MixedSetupStorage] and [SharedBits].  [st_rand] are the
    values that the calls of [random()] in [compute_msg] return, in order; they
    are part of the storage here only to make the model a function. *)
Record msetup := MSetup {
  st_bool : mul_triples; st_arith : amts; st_sb_bool : list Z; st_sb_arith : list Z; st_rand : list Z }.

(** mixed_gmw.rs 37-50 [Msg]. *)
Record mmsg := MMsg {
  mm_bool : bmsg; mm_arith : amsg; mm_b2a : list Z; mm_reshares : list Z; mm_own : list Z }.

(** mixed_gmw.rs 451-485: the interactive gates and their operands split by kind.
    [take] of an exhausted iterator yields fewer operands. *)
Record msplit := MSplit {
  sp_bg : list bool_gate; sp_bi : list bool; sp_ag : list arith_gate; sp_ai : list Z;
  sp_cg : list conv_gate; sp_ci : list mixed }.

(** mixed_gmw.rs 451-485: the loop. *)
Fixpoint mixed_split (w : nat) (gates : list mixed_gate) (inputs : list mixed) : option msplit :=
  match gates with
  | [] => Some (MSplit [] [] [] [] [] [])
  | g :: gs =>
      let n := mixed_input_size w g in
      match g with
      | MGBool b =>
          xs <- omap unwrap_bool (firstn n inputs) ;;
          r <- mixed_split w gs (skipn n inputs) ;;
          Some (MSplit (b :: sp_bg r) (xs ++ sp_bi r) (sp_ag r) (sp_ai r) (sp_cg r) (sp_ci r))
      | MGArith a =>
          xs <- omap unwrap_arith (firstn n inputs) ;;
          r <- mixed_split w gs (skipn n inputs) ;;
          Some (MSplit (sp_bg r) (sp_bi r) (a :: sp_ag r) (xs ++ sp_ai r) (sp_cg r) (sp_ci r))
      | MGConv c =>
          r <- mixed_split w gs (skipn n inputs) ;;
          Some (MSplit (sp_bg r) (sp_bi r) (sp_ag r) (sp_ai r) (c :: sp_cg r) (firstn n inputs ++ sp_ci r))
      | MGBase _ => None
      end
  end.

(** [BitArray::<_, Lsb0>]: bit [i] of the word is entry [i]; missing entries stay
    zero. mixed_gmw.rs 514. *)
Fixpoint word_of_bits (l : list bool) : Z :=
  match l with [] => 0 | b :: r => Z.b2z b + 2 * word_of_bits r end.

(** [Vec::pop] with [expect]. mixed_gmw.rs 523. *)
Definition vec_pop (l : list Z) : option (Z * list Z) :=
  match rev l with [] => None | x :: r => Some (x, rev r) end.

(** mixed_gmw.rs 503-535: the loop over the conversion gates.  Result: own
    reshares, reshares, B2A values and the remaining shared bits. *)
Fixpoint mixed_conv (w : nat) (gates : list conv_gate) (inputs : list mixed) (rands sb : list Z)
  : option (list Z * list Z * list Z * list Z) :=
  match gates with
  | [] => Some ([], [], [], sb)
  | CSnd :: gs =>
      match inputs, rands with
      | MArith r :: inputs', rand :: rands' =>
          '(own, res, b2a, sb') <- mixed_conv w gs inputs' rands' sb ;;
          Some (Z.lxor r rand :: own, rand :: res, b2a, sb')
      | _, _ => None
      end
  | CB2A :: gs =>
      bits <- omap unwrap_bool (firstn w inputs) ;;
      '(s, sb1) <- vec_pop sb ;;
      '(own, res, b2a, sb') <- mixed_conv w gs (skipn w inputs) rands sb1 ;;
      Some (own, res, Z.lxor (word_of_bits bits) s :: b2a, sb')
  | CRcv :: gs => mixed_conv w gs inputs rands sb
  | (CSelect | CSelectBit _) :: _ => None
  end.

(** mixed_gmw.rs 441-543 [compute_msg]. *)
Definition mixed_compute_msg (W w : nat) (party : nat) (gates : list mixed_gate)
  (_outputs inputs : list mixed) (st : msetup) : option (mmsg * msetup) :=
  sp <- mixed_split w gates inputs ;;
  '(bm, tb) <- bool_compute_msg W party (sp_bg sp) [] (sp_bi sp) (st_bool st) ;;
  '(am, ta) <- arith_compute_msg (Z.of_nat w) party (sp_ag sp) [] (sp_ai sp) (st_arith st) ;;
  '(own, res, b2a, sb) <- mixed_conv w (sp_cg sp) (sp_ci sp) (st_rand st) (st_sb_bool st) ;;
  Some (MMsg bm am b2a res own, MSetup tb ta sb (st_sb_arith st) (skipn (length res) (st_rand st))).

(** mixed_gmw.rs 602-615: the additive share of the [i]-th bit times [2^i]. *)
Definition b2a_term (w : nat) (party : nat) (t : Z) (i : nat) (ri : Z) : Z :=
  let z := Z.of_nat w in
  let ti := if Z.testbit t (Z.of_nat i) then 1 else 0 in
  let two := wadd z 1 1 in
  let lhs := match party with O => wadd z ti ri | _ => ri end in
  let rhs := wmul z (wmul z two ti) ri in
  wmul z ((two ^ Z.of_nat i) mod 2 ^ z) (wsub z lhs rhs).

(** mixed_gmw.rs 594-617: the B2A output; [reduce] of no terms is [None].  The
    arithmetic shared bits are read but not removed. *)
Definition b2a_eval (w : nat) (party : nat) (t : Z) (sb_arith : list Z) : option Z :=
  _ <- oassert (w <=? length sb_arith)%nat ;;
  let ri_a := rev (skipn (length sb_arith - w) sb_arith) in
  match zip_with (fun i ri => b2a_term w party t i ri) (seq 0 w) ri_a with
  | [] => None
  | x :: r => Some (fold_left (wadd (Z.of_nat w)) r x)
  end.

(** mixed_gmw.rs 579-624: the loop of [evaluate_interactive]; [next().expect()]
    on an exhausted iterator panics. *)
Fixpoint mixed_eval_loop (w : nat) (party : nat) (gates : list mixed_gate) (bs : list bool)
  (as_ own other ownb otherb sb_arith : list Z) : option (list mixed) :=
  match gates with
  | [] => Some []
  | g :: gs =>
      match g with
      | MGBase _ => None
      | MGBool _ =>
          match bs with
          | b :: bs' => r <- mixed_eval_loop w party gs bs' as_ own other ownb otherb sb_arith ;; Some (MBool b :: r)
          | [] => None
          end
      | MGArith _ =>
          match as_ with
          | a :: as' => r <- mixed_eval_loop w party gs bs as' own other ownb otherb sb_arith ;; Some (MArith a :: r)
          | [] => None
          end
      | MGConv CSnd =>
          match own with
          | a :: own' => r <- mixed_eval_loop w party gs bs as_ own' other ownb otherb sb_arith ;; Some (MArith a :: r)
          | [] => None
          end
      | MGConv CRcv =>
          match other with
          | a :: other' => r <- mixed_eval_loop w party gs bs as_ own other' ownb otherb sb_arith ;; Some (MArith a :: r)
          | [] => None
          end
      | MGConv CB2A =>
          match ownb, otherb with
          | a :: ownb', b :: otherb' =>
              x <- b2a_eval w party (Z.lxor a b) sb_arith ;;
              r <- mixed_eval_loop w party gs bs as_ own other ownb' otherb' sb_arith ;;
              Some (MArith x :: r)
          | _, _ => None
          end
      | MGConv (CSelectBit _ | CSelect) => None
      end
  end.

(** mixed_gmw.rs 545-626 [evaluate_interactive].  The result is a [Mixed] storage,
    here its list of shares. *)
Definition mixed_eval_int (W w : nat) (party : nat) (gates : list mixed_gate) (_outputs : list mixed)
  (own other : mmsg) (st : msetup) : option (list mixed * msetup) :=
  '(bs, tb) <- bool_eval_int W party [] [] (mm_bool own) (mm_bool other) (st_bool st) ;;
  '(as_, ta) <- arith_eval_int (Z.of_nat w) party [] [] (mm_arith own) (mm_arith other) (st_arith st) ;;
  out <- mixed_eval_loop w party gates bs as_ (mm_own own) (mm_reshares other) (mm_b2a own) (mm_b2a other)
           (st_sb_arith st) ;;
  Some (out, MSetup tb ta (st_sb_bool st) (st_sb_arith st) (st_rand st)).

(** mixed_gmw.rs 358-642 [impl Protocol for MixedGmw<R>].  SIMD is not supported.
    [setup_gate_outputs] (628-641) fills with [Mixed::default()] like the default
    method. *)
Definition mixed_gmw (W w : nat) : protocol := {|
  p_plain := mixed; p_share := mixed; p_simd := mstore; p_gate := mixed_gate;
  p_msg := mmsg; p_simdmsg := unit; p_setup := msetup;
  p_simd_support := false;
  p_simd_get := ms_get;
  p_simd_collect := fun l => match ms_from_iter l with Some s => s | None => ms_default end;
  p_default_share := MBool false;
  p_default_simd := ms_default;
  p_is_interactive := mixed_is_interactive;
  p_input_size := mixed_input_size w;
  p_as_base := mixed_as_base;
  p_share_constant := mixed_share_constant;
  p_share_constant_simd := fun party _ val n => ms_repeat (mixed_share_constant party (MBool false) val) n;
  p_eval_ni := mixed_eval_ni w;
  p_eval_ni_simd := fun _ _ _ => None;
  p_compute_msg := mixed_compute_msg W w;
  p_compute_msg_simd := fun _ _ _ _ _ => None;
  p_eval_int := mixed_eval_int W w;
  p_eval_int_simd := fun _ _ _ _ _ _ => None
|}.

(** mixed_gmw.rs 335-355 [InsecureMixedSetup::request_mts]: [sb n] are the [n]
    words sampled from the fixed seed, [zb n] the [n] triples of the insecure
    boolean provider (mul_triple/boolean/insecure_provider.rs), [rand] the values
    of [random()] as in [msetup]. *)
Definition insecure_mixed_request (w : nat) (zb : nat -> mul_triples) (sb : nat -> list Z)
  (rand : list Z) (amount : nat) : msetup :=
  MSetup (zb amount) (amts_zeros amount) (sb amount) (repeat 0 (amount * w)) rand.

(** ** Gadgets *)

(** mixed_gmw.rs 788-794: the text for the bit width; other widths panic. *)
Definition adder_text (w : nat) : option string :=
  if (w =? 8)%nat then Some bristol_add_8
  else if (w =? 16)%nat then Some bristol_add_16
  else if (w =? 32)%nat then Some bristol_add_32
  else if (w =? 64)%nat then Some bristol_add_64
  else None.

(** mixed_gmw.rs 787-798: the cached addition circuit.  The cache per type always
    holds the same circuit, so it is not modelled.  [maxu] and [cap] are the
    limits of the parser (see ParseModel.v). *)
Definition load_adder (maxu cap : nat) (w : nat) : option (circuit mixed_gate) :=
  txt <- adder_text w ;;
  match p_circuit maxu cap (list_ascii_of_string txt) with
  | POk b _ =>
      match from_bristol mixed_ops mixed_from_br b LoadSub with
      | Some (Some c) => Some c
      | _ => None
      end
  | _ => None
  end.

(** mixed_gmw.rs 773-800 [depth_optimized_add]. *)
Definition depth_optimized_add (maxu cap : nat) (w : nat) (bc : circuit mixed_gate) (a b : list nat)
  : option (circuit mixed_gate * list nat) :=
  _ <- oassert (w =? length a)%nat ;;
  _ <- oassert (w =? length b)%nat ;;
  adder <- load_adder maxu cap w ;;
  add_sub_circuit mixed_ops bc adder (a ++ b).

(** mixed_gmw.rs 763-767: the closure [split]. *)
Fixpoint a2b_split (n i : nat) (bc : circuit mixed_gate) (a : nat) : option (circuit mixed_gate * list nat) :=
  match n with
  | O => Some (bc, [])
  | S n' =>
      '(bc1, id) <- add_wired_gate mixed_ops bc (MGConv (CSelectBit i)) [a] ;;
      '(bc2, ids) <- a2b_split n' (S i) bc1 a ;;
      Some (bc2, id :: ids)
  end.

(** mixed_gmw.rs 757-771 [a2b]. *)
Definition a2b (maxu cap : nat) (w : nat) (bc : circuit mixed_gate) (a : nat)
  : option (circuit mixed_gate * list nat) :=
  '(bc, a2b0) <- add_wired_gate mixed_ops bc (MGConv CSnd) [a] ;;
  '(bc, a2b1) <- add_wired_gate mixed_ops bc (MGConv CRcv) [a] ;;
  '(bc, a2b0_sw) <- add_wired_gate mixed_ops bc (MGConv CSelect) [a2b0; a2b1] ;;
  '(bc, a2b1_sw) <- add_wired_gate mixed_ops bc (MGConv CSelect) [a2b1; a2b0] ;;
  '(bc, split0) <- a2b_split w 0 bc a2b0_sw ;;
  '(bc, split1) <- a2b_split w 0 bc a2b1_sw ;;
  depth_optimized_add maxu cap w bc split0 split1.
