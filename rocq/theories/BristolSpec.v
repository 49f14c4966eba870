(** Specification of Bristol circuits: running the gate list over a store of
    wires.  Independent of circuit graphs. *)
From Coq Require Import List Bool Arith.
Require Import Verif.Prelude Verif.InlineModel.
Import ListNotations.

(** Values of the wires computed so far. *)
Definition wire_store := nat -> option bool.

(** Truth tables of the three Bristol gates; a gate with another number of input
    wires has no meaning. *)
Definition br_sem (k : br_kind) (xs : list bool) : option bool :=
  match k, xs with
  | BrAnd, [x; y] => Some (x && y)
  | BrXor, [x; y] => Some (xorb x y)
  | BrInv, [x] => Some (negb x)
  | _, _ => None
  end.

Definition br_write (outs : list nat) (b : bool) (s : wire_store) : wire_store :=
  fun w => if existsb (Nat.eqb w) outs then Some b else s w.

(** Read the input wires, compute, write the output wires; gate by gate.  Reading
    a wire that has no value yet is an error. *)
Fixpoint br_run (gs : list br_gate) (s : wire_store) : option wire_store :=
  match gs with
  | [] => Some s
  | g :: r =>
      xs <- omap s (br_in g) ;;
      b <- br_sem (br_op g) xs ;;
      br_run r (br_write (br_out g) b s)
  end.

(** The function computed by a Bristol circuit: the input wires are the first
    ones, the output wires the last ones. *)
Definition br_eval (b : br_circuit) (ins : list bool) : option (list bool) :=
  s <- br_run (bc_gates b) (fun w => nth_error ins w) ;;
  omap s (seq (bh_wires (bc_header b) - br_total_out b) (br_total_out b)).

(** The header announces enough wires. *)
Definition br_header_ok (b : br_circuit) : Prop :=
  br_total_in b <= bh_wires (bc_header b) /\ br_total_out b <= bh_wires (bc_header b).

(** All wires are below the announced number. *)
Definition br_wires_ok (b : br_circuit) : Prop :=
  Forall (fun g => Forall (fun w => w < bh_wires (bc_header b)) (br_in g) /\
                   Forall (fun w => w < bh_wires (bc_header b)) (br_out g)) (bc_gates b).

(** No gate writes a wire that it reads. *)
Definition br_no_self (b : br_circuit) : Prop :=
  Forall (fun g => forall w, In w (br_in g) -> ~ In w (br_out g)) (bc_gates b).
