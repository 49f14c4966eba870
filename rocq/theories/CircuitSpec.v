(** Specification vocabulary for circuits and layers: which circuits the public
    API can build, and what a correct layering is.  Independent of the layer
    iterator. *)
From Coq Require Import List Bool Arith.
Require Import Verif.Prelude Verif.GateModel Verif.CircuitModel.
Import ListNotations.

(** The gate with id [g] exists and is interactive. *)
Definition is_int {P G} (ops : gate_ops P G) (c : circuit G) (g : nat) : bool :=
  match nth_error (c_gates c) g with Some x => g_inter ops x | None => false end.

Definition is_input_gate {P G} (ops : gate_ops P G) (x : G) : bool :=
  match g_base ops x with Some GInput => true | _ => false end.
Definition is_output_gate {P G} (ops : gate_ops P G) (x : G) : bool :=
  match g_base ops x with Some GOutput => true | _ => false end.
Definition is_const_gate {P G} (ops : gate_ops P G) (x : G) : bool :=
  match g_base ops x with Some (GConstant _) => true | _ => false end.
Definition is_scout_gate {P G} (ops : gate_ops P G) (x : G) : bool :=
  match g_base ops x with Some GScOutput => true | _ => false end.
Definition is_scin_gate {P G} (ops : gate_ops P G) (x : G) : bool :=
  match g_base ops x with
  | Some GScInput | Some GConnectToMain | Some (GConnectToMainFromSimd _) => true
  | _ => false
  end.

(** The ids of all gates of a circuit satisfying a predicate, in order. *)
Definition ids_where {G} (f : G -> bool) (gs : list G) : list nat :=
  filter (fun i => match nth_error gs i with Some x => f x | None => false end)
         (seq 0 (length gs)).

(** Circuits reachable through the public API: start empty, add gates, add wires
    between existing gates, set the SIMD size; in any order and number. *)
Inductive api {P G} (ops : gate_ops P G) : circuit G -> Prop :=
| api_new : api ops c_new
| api_main : api ops c_new_main
| api_simd c n : api ops c -> api ops (c_set_simd c n)
| api_gate c g : api ops c -> api ops (fst (add_gate ops c g))
| api_wire c f t c' : api ops c -> add_wire c f t = Some c' -> api ops c'.

(** There is a ranking of the gates that increases along every wire. *)
Definition acyclic {G} (c : circuit G) : Prop :=
  exists rank : nat -> nat, forall p g, In p (parents c g) -> rank p < rank g.

(** The gates without incoming wires are exactly those of the given kinds. *)
Definition roots_are {P G} (ops : gate_ops P G) (c : circuit G) (k : G -> bool) : Prop :=
  forall g x, nth_error (c_gates c) g = Some x -> (parents c g = [] <-> k x = true).

(** Hypotheses on a circuit that is executed on its own: inputs and constants
    are the only gates without parents. *)
Definition main_ok {P G} (ops : gate_ops P G) (c : circuit G) : Prop :=
  api ops c /\ acyclic c /\
  roots_are ops c (fun x => is_input_gate ops x || is_const_gate ops x).

(** Same for a circuit meant to be called: sub-circuit inputs are roots too. *)
Definition sub_ok {P G} (ops : gate_ops P G) (c : circuit G) : Prop :=
  api ops c /\ acyclic c /\
  roots_are ops c (fun x => is_input_gate ops x || is_const_gate ops x || is_scin_gate ops x).

(** Circuits made only by adding input and constant gates and by
    [add_wired_gate] of other gates onto existing ones; what the builder and the
    [Secret] operators do. *)
Inductive wired {P G} (ops : gate_ops P G) : circuit G -> Prop :=
| wired_new : wired ops c_new
| wired_main : wired ops c_new_main
| wired_simd c n : wired ops c -> wired ops (c_set_simd c n)
| wired_source c g : wired ops c ->
    is_input_gate ops g || is_const_gate ops g = true ->
    wired ops (fst (add_gate ops c g))
| wired_gate c g from c' id : wired ops c ->
    is_input_gate ops g || is_const_gate ops g = false ->
    from <> [] -> Forall (fun f => f < c_count c) from ->
    add_wired_gate ops c g from = Some (c', id) ->
    wired ops c'.

(** [before l a b] : [a] occurs in [l] before an occurrence of [b]. *)
Definition before {A} (l : list A) (a b : A) : Prop :=
  exists l1 l2 l3, l = l1 ++ a :: l2 ++ b :: l3.

(** Gate [g] is emitted in layer number [i]. *)
Definition in_layer (ls : list blayer) (i g : nat) : Prop :=
  exists l, nth_error ls i = Some l /\ In g (bl_ids l).

(** Number of interactive gates on some path that ends in (and excludes) [g]. *)
Inductive int_path {P G} (ops : gate_ops P G) (c : circuit G) : nat -> nat -> Prop :=
| ip_root g : parents c g = [] -> int_path ops c g 0
| ip_step p g k : In p (parents c g) -> int_path ops c p k ->
    int_path ops c g (if is_int ops c p then S k else k).

(** [d] is the multiplicative depth at [g]: the maximum over all such paths. *)
Definition mult_depth {P G} (ops : gate_ops P G) (c : circuit G) (g d : nat) : Prop :=
  int_path ops c g d /\ forall k, int_path ops c g k -> k <= d.

(** Multiplicative depth of the whole circuit: the largest number of interactive
    gates on any path. *)
Definition circuit_depth {P G} (ops : gate_ops P G) (c : circuit G) (d : nat) : Prop :=
  (d = 0 \/ exists g k, is_int ops c g = true /\ int_path ops c g k /\ d = S k) /\
  (forall g k, is_int ops c g = true -> int_path ops c g k -> S k <= d).

(** Number of layers that need a communication round. *)
Definition rounds (ls : list blayer) : nat :=
  length (filter (fun l => match bl_int l with [] => false | _ => true end) ls).
