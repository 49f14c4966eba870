(** Specification vocabulary for secrets, programs over secrets and reductions. *)
From Coq Require Import List Bool Arith.
Require Import Verif.Prelude Verif.GateModel Verif.CircuitModel Verif.CircuitSpec Verif.ExecModel
  Verif.BoolGmwModel Verif.BoolGmwSpec Verif.InlineSpec Verif.ConnModel Verif.BuilderModel.
Import ListNotations.

(** ** Reductions *)

(** Left-to-right combination. *)
Definition combine_all {A} (f : A -> A -> A) (l : list A) : option A :=
  match l with [] => None | x :: r => Some (fold_left f r x) end.

(** How an operation was nested. *)
Inductive nest (A : Type) : Type := Leaf (x : A) | Node (l r : nest A).
Arguments Leaf {A} x. Arguments Node {A} l r.
Fixpoint leaves {A} (t : nest A) : list A :=
  match t with Leaf x => [x] | Node l r => leaves l ++ leaves r end.
Fixpoint nodes {A} (t : nest A) : nat :=
  match t with Leaf _ => 0 | Node l r => S (nodes l + nodes r) end.
Fixpoint depth {A} (t : nest A) : nat :=
  match t with Leaf _ => 0 | Node l r => S (max (depth l) (depth r)) end.

(** ** Programs over secrets *)

(** What each operator computes. *)
Definition bop_fun (o : bop) : bool -> bool -> bool :=
  match o with OXor => xorb | OAnd => andb | OOr | OOrAssign => orb end.

Definition op_sem (env : list bool) (o : sop) : option (list bool) :=
  r <- match o with
       | SBin o i j => x <- nth_error env i ;; y <- nth_error env j ;; Some (bop_fun o x y)
       | SBinB o i v => x <- nth_error env i ;; Some (bop_fun o x v)
       | SNot i => x <- nth_error env i ;; Some (negb x)
       | SConst _ v => Some v
       | SReduce o is => xs <- omap (nth_error env) is ;; combine_all (bop_fun o) xs
       end ;;
  Some (env ++ [r]).
Definition prog_sem (env : list bool) (p : list sop) : option (list bool) := ofold op_sem env p.

(** The circuit each result lives in; [None] when operands are missing or come
    from different circuits.  [n] is the number of circuits. *)
Definition op_circ (n : nat) (env : list nat) (o : sop) : option (list nat) :=
  r <- match o with
       | SBin _ i j =>
           x <- nth_error env i ;; y <- nth_error env j ;; if x =? y then Some x else None
       | SBinB _ i _ | SNot i => nth_error env i
       | SConst id _ => if id <? n then Some id else None
       | SReduce _ is =>
           xs <- omap (nth_error env) is ;;
           match xs with
           | [] => None
           | x :: r => if forallb (Nat.eqb x) r then Some x else None
           end
       end ;;
  Some (env ++ [r]).
Definition prog_circ (n : nat) (env : list nat) (p : list sop) : option (list nat) :=
  ofold (op_circ n) env p.

(** A builder whose circuits were made with the circuit API and whose ids name
    circuits. *)
Definition b_wf (b : builder) : Prop :=
  Forall (api bool_ops) (b_cells b) /\ Forall (fun k => k < length (b_cells b)) (b_ids b).

(** A secret of the builder. *)
Definition sec_ok (b : builder) (s : secret) : Prop :=
  exists k c, b_cell b (fst s) = Some (k, c) /\ snd s < c_count c.

(** Values of all gates of all circuits: [v k g] is the value of gate [g] of cell
    [k]. *)
Definition bvalued (b : builder) (v : nat -> nat -> bool) : Prop :=
  forall k c, nth_error (b_cells b) k = Some c -> valued bool_ops bool_gate_sem c (v k).
Definition sec_val (b : builder) (v : nat -> nat -> bool) (s : secret) : bool :=
  match nth_error (b_ids b) (fst s) with Some k => v k (snd s) | None => false end.

(** Number of in-circuit operands of a gate made through secrets or by inlining. *)
Definition arity (g : bool_gate) : option nat :=
  match g with
  | BBase GInput | BBase (GConstant _) | BBase GScInput => Some 0
  | BInv | BBase GOutput | BBase GScOutput | BBase GIdentity => Some 1
  | BAnd | BXor => Some 2
  | _ => None
  end.
(** Scalar circuits whose gates have the right number of operands, all of them
    older gates. *)
Record built (c : circuit bool_gate) : Prop := {
  bt_api : api bool_ops c;
  bt_older : forall p g, In p (parents c g) -> p < g;
  bt_arity : forall g x, nth_error (c_gates c) g = Some x -> arity x = Some (length (parents c g));
  bt_simd : c_simd c = None }.

(** Gates other than inputs, outputs and sub-circuit ports. *)
Definition plain_gate (g : bool_gate) : bool :=
  match g with BAnd | BXor | BInv | BBase (GConstant _) => true | _ => false end.

(** Circuit [c'] is [c] with gates added: old gates keep id, kind and operands;
    no inputs, outputs or sub-circuit ports appear. *)
Definition grows_c (c c' : circuit bool_gate) : Prop :=
  (exists gs, c_gates c' = c_gates c ++ gs /\ forallb plain_gate gs = true) /\
  (forall g, g < c_count c -> parents c' g = parents c g) /\
  c_inputs c' = c_inputs c /\ c_outputs c' = c_outputs c /\ c_scins c' = c_scins c /\
  c_scouts c' = c_scouts c /\ c_simd c' = c_simd c /\ c_is_main c' = c_is_main c.

(** Builder [b'] is [b] with gates added to its circuits: connections and ids
    stay, valuations restrict and extend. *)
Record grows (b b' : builder) : Prop := {
  gr_ids : b_ids b' = b_ids b;
  gr_cn : b_cn b' = b_cn b;
  gr_cells : Forall2 grows_c (b_cells b) (b_cells b');
  gr_built : Forall built (b_cells b) -> Forall built (b_cells b');
  gr_restrict : forall v, bvalued b' v -> bvalued b v;
  gr_extend : forall v, bvalued b v ->
    exists v', bvalued b' v' /\
      forall k c g, nth_error (b_cells b) k = Some c -> g < c_count c -> v' k g = v k g }.
