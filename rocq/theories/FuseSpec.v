(** Plain meaning of FUSE modules without calls, for C64. *)
From Coq Require Import List Bool Arith ZArith.
Require Import Verif.ParseModel Verif.Prelude Verif.MixedModel Verif.MixedSpec Verif.MixedProgSpec Verif.FuseModel.
Import ListNotations.
Open Scope nat_scope.

(** The outputs of a node by its id. *)
Fixpoint flook (id : nat) (env : list (nat * list pval)) : option (list pval) :=
  match env with
  | [] => None
  | (k, vs) :: r => if id =? k then Some vs else flook id r
  end.

(** The arguments of a node: from every input node the output at the offset
    (missing offsets are zero). *)
Fixpoint fargs (env : list (nat * list pval)) (ids offs : list nat) : option (list pval) :=
  match ids with
  | [] => Some []
  | id :: r =>
      vs <- flook id env ;;
      v <- nth_error vs (hd 0 offs) ;;
      rest <- fargs env r (tl offs) ;;
      Some (v :: rest)
  end.

(** The outputs of a node that is neither an input nor an output. *)
Definition fsem (w : nat) (op : fop) (payload : Z) (args : list pval) : option (list pval) :=
  let z := Z.of_nat w in
  match op, args with
  | FAnd, [PB x; PB y] => Some [PB (x && y)]
  | FXor, [PB x; PB y] => Some [PB (xorb x y)]
  | FNot, [PB x] => Some [PB (negb x)]
  | FAdd, [PA x; PA y] => Some [PA ((x + y) mod 2 ^ z)]
  | FSub, [PA x; PA y] => Some [PA ((x - y) mod 2 ^ z)]
  | FMul, [PA x; PA y] => Some [PA ((x * y) mod 2 ^ z)]
  | FConstant (None | Some FtBool), [] => Some [PB (negb (payload =? 0))]
  | FConstant (Some FtInt32), [] => Some [PA (payload mod 2 ^ z)]
  | FMerge, _ => bits <- omap pbit args ;; _ <- oassert (length bits =? w)%nat ;; Some [PA (bits_value bits)]
  | FSplit, [PA x] => Some (map PB (bits_of w x))
  | _, _ => None
  end%Z.

(** All nodes in order: values, outputs and remaining inputs. *)
Fixpoint feval (w : nat) (nodes : list fnode) (env : list (nat * list pval)) (outs ins : list pval)
  : option (list pval * list pval) :=
  match nodes with
  | [] => Some (outs, ins)
  | n :: r =>
      args <- fargs env (fn_inputs n) (fn_offsets n) ;;
      match fn_op n, args with
      | FInput, [] =>
          match ins with v :: ins' => feval w r ((fn_id n, [v]) :: env) outs ins' | [] => None end
      | FOutput, [v] => feval w r ((fn_id n, []) :: env) (outs ++ [v]) ins
      | FInput, _ | FOutput, _ => None
      | op, _ => vs <- fsem w op (fn_payload n) args ;; feval w r ((fn_id n, vs) :: env) outs ins
      end
  end.

(** A module of a single circuit, the entry point. *)
Definition single (ep : nat) (nodes : list fnode) : fmodule := FModule (Some ep) (Some [FCircuit ep nodes]).

(** Nodes that use neither offsets nor constants other than true and one. *)
Definition plain_node (n : fnode) : Prop :=
  Forall (eq 0) (fn_offsets n) /\ match fn_op n with FConstant _ => fn_payload n = 1%Z | _ => True end.

Definition is_conv (n : fnode) : bool := match fn_op n with FSplit | FMerge => true | _ => false end.
