(** Model of crates/seec/src/secret.rs and of the state of
    crates/seec/src/circuit/builder.rs [CircuitBuilder] for boolean circuits.
    No proofs here.

    The global builder is passed as an argument and returned.  Shared circuits
    ([Arc<Mutex<BaseCircuit>>]) are positions in a list of cells, so two circuit
    ids may name the same cell.  Locks are dropped; the one place where the code
    takes the same lock twice ([connect_to_main_circuit]) is not modelled.  A
    panic is [None]. *)
From Coq Require Import List Bool Arith.
Require Import Verif.Prelude Verif.GateModel Verif.CircuitModel Verif.ExecModel Verif.BoolGmwModel Verif.ConnModel.
Import ListNotations.

(** builder.rs 55-59 [CircuitBuilder]; the caches belong to the [sub_circuit]
    macro. *)
Record builder := BD { b_cells : list (circuit bool_gate); b_ids : list nat; b_cn : conns }.

(** builder.rs 289-296 [new]. *)
Definition b_new : builder := BD [c_new] [0] cn_empty.

(** secret.rs 20-28 [Secret]: (circuit id, gate id). *)
Definition secret : Type := gid.

(** builder.rs 306-308 [get_circuit]: the cell of a circuit id. *)
Definition b_cell (b : builder) (id : nat) : option (nat * circuit bool_gate) :=
  k <- nth_error (b_ids b) id ;; c <- nth_error (b_cells b) k ;; Some (k, c).

(** Locking a circuit and changing it. The [lock()] calls of secret.rs 51-297 and builder.rs 121, 234, 258-264. *)
Definition b_set (b : builder) (k : nat) (c : circuit bool_gate) : builder :=
  BD (upd k c (b_cells b)) (b_ids b) (b_cn b).

(** builder.rs 310-314 [push_circuit] of a new circuit, and of a circuit that is
    already shared. *)
Definition b_push_new (b : builder) (c : circuit bool_gate) : builder * nat :=
  (BD (b_cells b ++ [c]) (b_ids b ++ [length (b_cells b)]) (b_cn b), length (b_ids b)).
(** builder.rs 310-314 [push_circuit] of a circuit that is already shared. *)
Definition b_push_shared (b : builder) (k : nat) : builder * nat :=
  (BD (b_cells b) (b_ids b ++ [k]) (b_cn b), length (b_ids b)).

(** Adding a gate without operands to a circuit: secret.rs 46-65 [from_const],
    [input] and the constant gates of 150-238. *)
Definition b_add (b : builder) (id : nat) (g : bool_gate) : option (builder * secret) :=
  '(k, c) <- b_cell b id ;;
  let '(c', x) := add_gate bool_ops c g in
  Some (b_set b k c', (id, x)).

(** Adding a wired gate to a circuit: the [add_wired_gate] calls of secret.rs. E.g.
    secret.rs 132-148. *)
Definition b_wired (b : builder) (id : nat) (g : bool_gate) (from : list nat)
  : option (builder * secret) :=
  '(k, c) <- b_cell b id ;;
  '(c', x) <- add_wired_gate bool_ops c g from ;;
  Some (b_set b k c', (id, x)).

(** secret.rs 46-55 [from_const]. *)
Definition sec_const (b : builder) (id : nat) (v : bool) := b_add b id (BBase (GConstant v)).
(** secret.rs 57-65 [input]. *)
Definition sec_input (b : builder) (id : nat) := b_add b id (BBase GInput).
(** secret.rs 67-76 [sub_circuit_input] for a [SubCircuitInput] gate. *)
Definition sec_scin (b : builder) (id : nat) : option (builder * secret) :=
  '(k, c) <- b_cell b id ;;
  let '(c', x) := add_sc_input_gate bool_ops c (BBase GScInput) in
  Some (b_set b k c', (id, x)).
(** secret.rs 78-86 [sub_circuit_output]. *)
Definition sec_scout (b : builder) (s : secret) := b_wired b (fst s) (BBase GScOutput) [snd s].
(** secret.rs 88-96 [output]. *)
Definition sec_output (b : builder) (s : secret) := b_wired b (fst s) (BBase GOutput) [snd s].

(** secret.rs 132-148, 164-175 (xor), 186-202, 218-229 (and): the operator and the
    assignment form add the same gate. *)
Definition sec_bin (g : bool_gate) (b : builder) (s t : secret) : option (builder * secret) :=
  _ <- oassert (fst s =? fst t) ;;
  b_wired b (fst s) g [snd s; snd t].

(** secret.rs 150-162, 177-184 (xor), 204-216, 231-238 (and) with a constant. *)
Definition sec_bin_b (g : bool_gate) (b : builder) (s : secret) (v : bool) : option (builder * secret) :=
  '(b1, t) <- b_add b (fst s) (BBase (GConstant v)) ;;
  b_wired b1 (fst s) g [snd s; snd t].

(** secret.rs 240-252: [self.clone() ^ rhs.clone() ^ (self & rhs)]. *)
Definition sec_or (b : builder) (s t : secret) : option (builder * secret) :=
  _ <- oassert (fst s =? fst t) ;;
  '(b1, x) <- sec_bin BXor b s t ;;
  '(b2, a) <- sec_bin BAnd b1 s t ;;
  sec_bin BXor b2 x a.

(** secret.rs 254-262 [BitOr<bool>]. *)
Definition sec_or_b (b : builder) (s : secret) (v : bool) : option (builder * secret) :=
  '(b0, t) <- sec_const b (fst s) v ;;
  '(b1, x) <- sec_bin BXor b0 s t ;;
  '(b2, a) <- sec_bin BAnd b1 s t ;;
  sec_bin BXor b2 x a.

(** secret.rs 264-269 [BitOrAssign]: [*self ^= rhs.clone() ^ (self.clone() & rhs)]. *)
Definition sec_or_assign (b : builder) (s t : secret) : option (builder * secret) :=
  '(b1, a) <- sec_bin BAnd b s t ;;
  '(b2, x) <- sec_bin BXor b1 t a ;;
  sec_bin BXor b2 s x.

(** secret.rs 271-276 [BitOrAssign<bool>]. *)
Definition sec_or_assign_b (b : builder) (s : secret) (v : bool) : option (builder * secret) :=
  '(b0, t) <- sec_const b (fst s) v ;;
  sec_or_assign b0 s t.

(** secret.rs 278-301 [Not]. *)
Definition sec_not (b : builder) (s : secret) : option (builder * secret) :=
  b_wired b (fst s) BInv [snd s].

(** secret.rs 405-412: one pass of the loop over [tuples] of two, followed by the
    buffered odd element. *)
Fixpoint ldr_pass {B S} (f : B -> S -> S -> option (B * S)) (b : B) (l : list S) : option (B * list S) :=
  match l with
  | x :: y :: r =>
      '(b1, z) <- f b x y ;;
      '(b2, zs) <- ldr_pass f b1 r ;;
      Some (b2, z :: zs)
  | _ => Some (b, l)
  end.

(** secret.rs 404-413: [while buf.len() > 1]; [n] bounds the number of passes. *)
Fixpoint ldr_loop {B S} (f : B -> S -> S -> option (B * S)) (n : nat) (b : B) (l : list S)
  : option (B * list S) :=
  match n with
  | 0 => Some (b, l)
  | S k => if 1 <? length l then '(b1, l1) <- ldr_pass f b l ;; ldr_loop f k b1 l1 else Some (b, l)
  end.

(** secret.rs 393-416 [low_depth_reduce]; the [debug_assert] is an assertion. *)
Definition low_depth_reduce {B S} (f : B -> S -> S -> option (B * S)) (b : B) (l : list S)
  : option (B * option S) :=
  '(b1, r) <- ldr_loop f (length l) b l ;;
  _ <- oassert (length r <=? 1) ;;
  Some (b1, last (map Some r) None).

(** Straight-line programs over secrets: every operation of secret.rs appends its
    result to the environment [env] of secrets.  Not a function of the crate; it
    stands for user code calling the operators. The operators are secret.rs 132-302. *)
Inductive bop := OXor | OAnd | OOr | OOrAssign.
(** User code: one statement with an operator of secret.rs 132-302. *)
Inductive sop :=
| SBin (o : bop) (i j : nat)
| SBinB (o : bop) (i : nat) (v : bool)
| SNot (i : nat)
| SConst (id : nat) (v : bool)
| SReduce (o : bop) (is : list nat).

(** Which function of secret.rs 132-276 a binary operator is. *)
Definition do_bin (o : bop) : builder -> secret -> secret -> option (builder * secret) :=
  match o with OXor => sec_bin BXor | OAnd => sec_bin BAnd | OOr => sec_or | OOrAssign => sec_or_assign end.
(** Which function of secret.rs 150-276 an operator with a constant is. *)
Definition do_bin_b (o : bop) : builder -> secret -> bool -> option (builder * secret) :=
  match o with OXor => sec_bin_b BXor | OAnd => sec_bin_b BAnd | OOr => sec_or_b | OOrAssign => sec_or_assign_b end.

(** User code: one statement; calls the functions of secret.rs 46-302 and 393-416. *)
Definition run_op (st : builder * list secret) (o : sop) : option (builder * list secret) :=
  let '(b, env) := st in
  match o with
  | SBin o i j =>
      s <- nth_error env i ;; t <- nth_error env j ;;
      '(b', r) <- do_bin o b s t ;; Some (b', env ++ [r])
  | SBinB o i v =>
      s <- nth_error env i ;; '(b', r) <- do_bin_b o b s v ;; Some (b', env ++ [r])
  | SNot i => s <- nth_error env i ;; '(b', r) <- sec_not b s ;; Some (b', env ++ [r])
  | SConst id v => '(b', r) <- sec_const b id v ;; Some (b', env ++ [r])
  | SReduce o is =>
      ss <- omap (nth_error env) is ;;
      '(b', r) <- low_depth_reduce (do_bin o) b ss ;;
      match r with Some r => Some (b', env ++ [r]) | None => None end
  end.
(** User code: a sequence of calls of the functions of secret.rs 46-302 and 393-416. *)
Definition run_ops (b : builder) (env : list secret) (p : list sop) : option (builder * list secret) :=
  ofold run_op (b, env) p.

(** secret.rs 356-358 [inputs]: [n] input gates of the main circuit. *)
Fixpoint sec_inputs (n : nat) (b : builder) : option (builder * list secret) :=
  match n with
  | 0 => Some (b, [])
  | S k => '(b1, s) <- sec_input b 0 ;; '(b2, ss) <- sec_inputs k b1 ;; Some (b2, s :: ss)
  end.

(** Calling [output] on each of a list of secrets. User code, [output] is secret.rs 89-96. *)
Fixpoint sec_outputs (b : builder) (l : list secret) : option (builder * list nat) :=
  match l with
  | [] => Some (b, [])
  | s :: r => '(b1, o) <- sec_output b s ;; '(b2, os) <- sec_outputs b1 r ;; Some (b2, snd o :: os)
  end.
