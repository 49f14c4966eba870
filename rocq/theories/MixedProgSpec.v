(** Specification vocabulary for programs over mixed shared values: setup data,
    plaintext semantics and translation to circuits. *)
From Coq Require Import List Bool Arith ZArith.
Require Import Verif.Prelude Verif.GateModel Verif.CircuitModel Verif.BoolGmwModel Verif.BoolGmwSpec Verif.ArithGmwModel
  Verif.MixedModel Verif.MixedSpec.
Import ListNotations.
Open Scope nat_scope.

(** ** Setup data *)

(** The triples of a layer with [n] interactive gates: valid boolean triples and,
    as the only existing provider gives out, zero arithmetic triples. *)
Definition base_setup_ok (W n : nat) (st0 st1 : msetup) : Prop :=
  (exists m h0 h1, n <= m /\ mts_wf W h0 m (st_bool st0) /\ mts_wf W h1 m (st_bool st1) /\
     triples_ok (mts_iter (st_bool st0)) (mts_iter (st_bool st1))) /\
  (exists k, n <= k /\ st_arith st0 = amts_zeros k) /\ (exists k, n <= k /\ st_arith st1 = amts_zeros k).

(** The shared bits at the end of the vectors: XOR shares [r0], [r1] of a word
    and, for its bit [i], additive shares [nth i a0 0], [nth i a1 0]. *)
Definition shared_bits_ok (w : nat) (st0 st1 : msetup) : Prop :=
  exists p0 p1 r0 r1 q0 q1 a0 a1,
    st_sb_bool st0 = p0 ++ [r0] /\ st_sb_bool st1 = p1 ++ [r1] /\
    st_sb_arith st0 = q0 ++ rev a0 /\ st_sb_arith st1 = q1 ++ rev a1 /\
    length a0 = w /\ length a1 = w /\
    forall i, i < w ->
      ((nth i a0 0 + nth i a1 0) mod 2 ^ Z.of_nat w =
       Z.b2z (xorb (Z.testbit r0 (Z.of_nat i)) (Z.testbit r1 (Z.of_nat i))) mod 2 ^ Z.of_nat w)%Z.

(** Setup data for one layer. *)
Definition mixed_setup_ok (W w n : nat) (st0 st1 : msetup) : Prop :=
  base_setup_ok W n st0 st1 /\ shared_bits_ok w st0 st1 /\ st_rand st0 <> [] /\ st_rand st1 <> [].

(** ** Programs over shared values *)

(** Plaintext values: bits and ring elements. *)
Inductive pval := PB (b : bool) | PA (x : Z).

(** Instructions; operands are numbers of earlier wires.  [IA2B] defines [w]
    wires, [IOut] none, the others one. *)
Inductive instr :=
| IIn | IConst (m : mixed) | IXor (a b : nat) | IAnd (a b : nat) | IInv (a : nat)
| IAdd (a b : nat) | ISub (a b : nat) | IMul (a b : nat) | IA2B (a : nat) | IB2A (l : list nat) | IOut (a : nat)
| IId (a : nat).

Definition pbit (v : pval) : option bool := match v with PB b => Some b | PA _ => None end.

(** One instruction on plaintext: wires, outputs and remaining inputs. *)
Definition prun1 (w : nat) (i : instr) (env outs ins : list pval) : option (list pval * list pval * list pval) :=
  let z := Z.of_nat w in
  let def v := Some (env ++ [v], outs, ins) in
  match i with
  | IIn => match ins with v :: r => Some (env ++ [v], outs, r) | [] => None end
  | IConst (MBool b) => def (PB b)
  | IConst (MArith x) => def (PA (x mod 2 ^ z))
  | IXor a b => match nth_error env a, nth_error env b with Some (PB x), Some (PB y) => def (PB (xorb x y)) | _, _ => None end
  | IAnd a b => match nth_error env a, nth_error env b with Some (PB x), Some (PB y) => def (PB (x && y)) | _, _ => None end
  | IInv a => match nth_error env a with Some (PB x) => def (PB (negb x)) | _ => None end
  | IAdd a b => match nth_error env a, nth_error env b with Some (PA x), Some (PA y) => def (PA ((x + y) mod 2 ^ z)) | _, _ => None end
  | ISub a b => match nth_error env a, nth_error env b with Some (PA x), Some (PA y) => def (PA ((x - y) mod 2 ^ z)) | _, _ => None end
  | IMul a b => match nth_error env a, nth_error env b with Some (PA x), Some (PA y) => def (PA ((x * y) mod 2 ^ z)) | _, _ => None end
  | IA2B a => match nth_error env a with Some (PA x) => Some (env ++ map PB (bits_of w x), outs, ins) | _ => None end
  | IB2A l =>
      vs <- omap (nth_error env) l ;;
      bits <- omap pbit vs ;;
      _ <- oassert (length bits =? w)%nat ;;
      def (PA (bits_value bits))
  | IOut a => match nth_error env a with Some v => Some (env, outs ++ [v], ins) | None => None end
  | IId a => match nth_error env a with Some v => def v | None => None end
  end%Z.

Fixpoint prun (w : nat) (prog : list instr) (env outs ins : list pval) : option (list pval * list pval * list pval) :=
  match prog with
  | [] => Some (env, outs, ins)
  | i :: r => '(env', outs', ins') <- prun1 w i env outs ins ;; prun w r env' outs' ins'
  end.

(** The same instruction on a circuit, through [add_wired_gate] and [a2b]; [env]
    holds the gate of every wire. *)
Definition comp1 (maxu cap w : nat) (i : instr) (c : circuit mixed_gate) (env : list nat)
  : option (circuit mixed_gate * list nat) :=
  let add g from :=
    ids <- omap (nth_error env) from ;;
    '(c', id) <- add_wired_gate mixed_ops c g ids ;; Some (c', env ++ [id]) in
  match i with
  | IIn => add (MGBase GInput) []
  | IConst m => add (MGBase (GConstant m)) []
  | IXor a b => add (MGBool BXor) [a; b]
  | IAnd a b => add (MGBool BAnd) [a; b]
  | IInv a => add (MGBool BInv) [a]
  | IAdd a b => add (MGArith AAdd) [a; b]
  | ISub a b => add (MGArith ASub) [a; b]
  | IMul a b => add (MGArith AMul) [a; b]
  | IA2B a => id <- nth_error env a ;; '(c', outs) <- a2b maxu cap w c id ;; Some (c', env ++ outs)
  | IB2A l => add (MGConv CB2A) l
  | IOut a => id <- nth_error env a ;; '(c', _) <- add_wired_gate mixed_ops c (MGBase GOutput) [id] ;; Some (c', env)
  | IId a => add (MGBase GIdentity) [a]
  end.

Fixpoint comp (maxu cap w : nat) (prog : list instr) (c : circuit mixed_gate) (env : list nat)
  : option (circuit mixed_gate * list nat) :=
  match prog with
  | [] => Some (c, env)
  | i :: r => '(c', env') <- comp1 maxu cap w i c env ;; comp maxu cap w r c' env'
  end.

(** Two shares of a plaintext value. *)
Definition pshares (w : nat) (v : pval) (a b : mixed) : Prop :=
  match v with
  | PB x => exists p q, a = MBool p /\ b = MBool q /\ xorb p q = x
  | PA x => exists x0 x1, a = MArith x0 /\ b = MArith x1 /\ ((x0 + x1) mod 2 ^ Z.of_nat w = x)%Z
  end.

(** Number of conversions that a layer holds: sending halves of A2B, and B2A. *)
Definition conversions (c : circuit mixed_gate) (l : blayer) : nat :=
  length (filter (fun g => match nth_error (c_gates c) g with
                           | Some (MGConv (CSnd | CB2A)) => true | _ => false end) (bl_int l)).
