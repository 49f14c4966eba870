(** Model of crates/seec/src/circuit/base_circuit.rs: the circuit graph, its
    construction API and the layer iterator.  No proofs here.

    Simplifications common to the file: gate ids and counters are unbounded
    naturals (the code uses [u32] indices, [u32] counters and [usize]
    counters); capacities, tracing and the wire weight type are dropped;
    subtraction below zero, which panics in debug builds, is [None]. *)
From Coq Require Import List Bool Arith.
Require Import Verif.Prelude Verif.GateModel.
Import ListNotations.

(** crates/seec/src/protocols/mod.rs 149-165, trait [Gate]: [is_interactive],
    [as_base_gate] and [wrap_base_gate]; only the methods used by the circuit
    code. *)
Record gate_ops (P G : Type) := GateOps {
  g_inter : G -> bool;
  g_base : G -> option (base_gate P);
  g_wrap : base_gate P -> G }.
Arguments g_inter {P G} _ _. Arguments g_base {P G} _ _. Arguments g_wrap {P G} _ _.

(** crates/seec/src/circuit/base_circuit.rs 35-46 [BaseCircuit].  The petgraph
    graph is the list of node weights plus the list of edges (source, target),
    newest edge first, which is petgraph's adjacency iteration order. *)
Record circuit (G : Type) := Circ {
  c_gates : list G;
  c_edges : list (nat * nat);
  c_is_main : bool;
  c_simd : option nat;
  c_icount : nat;
  c_inputs : list nat;
  c_outputs : list nat;
  c_consts : list nat;
  c_scouts : list nat;
  c_scins : list nat }.
Arguments Circ {G}. Arguments c_gates {G} _. Arguments c_edges {G} _.
Arguments c_is_main {G} _. Arguments c_simd {G} _. Arguments c_icount {G} _.
Arguments c_inputs {G} _. Arguments c_outputs {G} _. Arguments c_consts {G} _.
Arguments c_scouts {G} _. Arguments c_scins {G} _.

(** base_circuit.rs 85-98 [new]. *)
Definition c_new {G} : circuit G := Circ [] [] false None 0 [] [] [] [] [].

(** base_circuit.rs 100-104 [new_main]. *)
Definition c_new_main {G} : circuit G := Circ [] [] true None 0 [] [] [] [] [].

(** base_circuit.rs 160-162 [gate_count]. *)
Definition c_count {G} (c : circuit G) : nat := length (c_gates c).

(** base_circuit.rs 309-311 [set_simd_size]. *)
Definition c_set_simd {G} (c : circuit G) (n : nat) : circuit G :=
  Circ (c_gates c) (c_edges c) (c_is_main c) (Some n) (c_icount c) (c_inputs c)
       (c_outputs c) (c_consts c) (c_scouts c) (c_scins c).

(** base_circuit.rs 265-267 [is_simd]. *)
Definition c_is_simd {G} (c : circuit G) : bool :=
  match c_simd c with Some _ => true | None => false end.

(** base_circuit.rs 151-158 [parent_gates]: petgraph [neighbors_directed(id,
    Incoming)], newest edge first. *)
Definition parents {G} (c : circuit G) (g : nat) : list nat :=
  map fst (filter (fun e => snd e =? g) (c_edges c)).

(** petgraph [neighbors(id)] (outgoing), as used in base_circuit.rs 717. *)
Definition children {G} (c : circuit G) (g : nat) : list nat :=
  map snd (filter (fun e => fst e =? g) (c_edges c)).

(** base_circuit.rs 113-133 [add_gate]. *)
Definition add_gate {P G} (ops : gate_ops P G) (c : circuit G) (g : G)
  : circuit G * nat :=
  let id := length (c_gates c) in
  let psh (b : bool) (l : list nat) := if b then l ++ [id] else l in
  let b := g_base ops g in
  (Circ (c_gates c ++ [g]) (c_edges c) (c_is_main c) (c_simd c)
     (if g_inter ops g then S (c_icount c) else c_icount c)
     (psh (match b with Some GInput => true | _ => false end) (c_inputs c))
     (psh (match b with Some GOutput => true | _ => false end) (c_outputs c))
     (psh (match b with Some (GConstant _) => true | _ => false end) (c_consts c))
     (psh (match b with Some GScOutput => true | _ => false end) (c_scouts c))
     (psh (match b with
           | Some GScInput | Some GConnectToMain
           | Some (GConnectToMainFromSimd _) => true
           | _ => false end) (c_scins c)),
   id).

(** base_circuit.rs 136-144 [add_sc_input_gate]: pushes the id again unless the
    gate is a [SubCircuitInput]. *)
Definition add_sc_input_gate {P G} (ops : gate_ops P G) (c : circuit G) (g : G)
  : circuit G * nat :=
  let '(c', id) := add_gate ops c g in
  match g_base ops g with
  | Some GScInput => (c', id)
  | _ => (Circ (c_gates c') (c_edges c') (c_is_main c') (c_simd c') (c_icount c')
            (c_inputs c') (c_outputs c') (c_consts c') (c_scouts c')
            (c_scins c' ++ [id]), id)
  end.

(** base_circuit.rs 200-203 [add_wire]; petgraph [add_edge] panics when an
    endpoint does not exist. *)
Definition add_wire {G} (c : circuit G) (from to : nat) : option (circuit G) :=
  if (from <? c_count c) && (to <? c_count c) then
    Some (Circ (c_gates c) ((from, to) :: c_edges c) (c_is_main c) (c_simd c)
            (c_icount c) (c_inputs c) (c_outputs c) (c_consts c) (c_scouts c)
            (c_scins c))
  else None.

(** base_circuit.rs 205-213 [add_wired_gate]. *)
Definition add_wired_gate {P G} (ops : gate_ops P G) (c : circuit G) (g : G)
  (from : list nat) : option (circuit G * nat) :=
  let '(c1, id) := add_gate ops c g in
  c2 <- ofold (fun c f => add_wire c f id) c1 (rev from) ;;
  Some (c2, id).

(** base_circuit.rs 519-532 [BaseLayerIter].  [last_layer_size] (a capacity
    hint) is dropped; the [HashMap] [inputs_left_to_provide] is a list indexed
    by gate id with [None] for absent entries. *)
Record liter := LI {
  li_needed : list nat;
  li_prev : list nat;
  li_visit : list nat;
  li_next : list nat;
  li_left : list (option nat);
  li_produced : nat }.

(** base_circuit.rs 600-609 [CircuitLayer]; the cloned gates stored next to the
    ids are recovered by looking the id up in the circuit. *)
Record blayer := BL { bl_ni : list nat; bl_int : list nat; bl_free : list nat }.

(** base_circuit.rs 548-573 [new_uninit]. *)
Definition li_new_uninit {G} (c : circuit G) : liter :=
  LI (map (fun g => length (parents c g)) (seq 0 (c_count c)))
     [] [] (c_consts c) (repeat None (c_count c)) 0.

(** base_circuit.rs 591-593 [add_to_next_layer]. *)
Definition li_add_next (st : liter) (g : nat) : liter :=
  LI (li_needed st) (li_prev st) (li_visit st) (li_next st ++ [g]) (li_left st)
     (li_produced st).

(** base_circuit.rs 535-546 [new]. *)
Definition li_new {G} (c : circuit G) : liter :=
  let st := li_new_uninit c in
  LI (li_needed st) (li_prev st) (li_visit st) (li_next st ++ c_inputs c)
     (li_left st) (li_produced st).

(** base_circuit.rs 575-584 [visit_sc_inputs]. *)
Definition li_visit_sc {G} (c : circuit G) (st : liter) : liter :=
  LI (li_needed st) (li_prev st) (li_visit st) (li_next st ++ c_scins c)
     (li_left st) (li_produced st).

(** base_circuit.rs 595-597 [is_exhausted]. *)
Definition li_exhausted {G} (c : circuit G) (st : liter) : bool :=
  li_produced st =? c_count c.

(** base_circuit.rs 717-724: the loop of [update_queue] over the neighbours. *)
Fixpoint uq_loop (ch : list nat) (needed queue : list nat)
  : option (list nat * list nat) :=
  match ch with
  | [] => Some (needed, queue)
  | h :: r =>
      match nth_error needed h with
      | Some (S k) => uq_loop r (upd h k needed) (if k =? 0 then queue ++ [h] else queue)
      | _ => None
      end
  end.

(** base_circuit.rs 712-731 closure [update_queue]. *)
Definition update_queue {G} (c : circuit G) (node : nat) (needed : list nat)
  (left : list (option nat)) (queue : list nat)
  : option (list nat * list (option nat) * list nat) :=
  '(needed', queue') <- uq_loop (children c node) needed queue ;;
  Some (needed',
        if c_is_simd c then
          match nth_error left node with
          | Some None => upd node (Some (length (children c node))) left
          | _ => left
          end
        else left,
        queue').

(** base_circuit.rs 733-740: drain of [prev_interactive]. *)
Fixpoint li_drain {G} (c : circuit G) (prev : list nat) (needed : list nat)
  (left : list (option nat)) (queue : list nat)
  : option (list nat * list (option nat) * list nat) :=
  match prev with
  | [] => Some (needed, left, queue)
  | x :: r =>
      '(needed', left', queue') <- update_queue c x needed left queue ;;
      li_drain c r needed' left' queue'
  end.

(** base_circuit.rs 758-767: the loop over the parents of a visited gate in a
    SIMD circuit. *)
Fixpoint li_release (ps : list nat) (left : list (option nat)) (free : list nat)
  : option (list (option nat) * list nat) :=
  match ps with
  | [] => Some (left, free)
  | p :: r =>
      match nth_error left p with
      | Some (Some (S k)) =>
          li_release r (upd p (Some k) left) (if k =? 0 then free ++ [p] else free)
      | _ => None
      end
  end.

(** base_circuit.rs 742-769: the main [while] loop.  [fuel] bounds the number of
    iterations; exhausting it is [None] and is proved never to happen
    (CircuitProofs.v) for the fuel used in [li_next_layer]. *)
Fixpoint li_loop {P G} (ops : gate_ops P G) (c : circuit G) (fuel : nat)
  (needed : list nat) (left : list (option nat)) (queue prev : list nat) (l : blayer)
  : option (list nat * list (option nat) * list nat * blayer) :=
  match queue with
  | [] => Some (needed, left, prev, l)
  | x :: q =>
      match fuel with
      | 0 => None
      | S f =>
          g <- nth_error (c_gates c) x ;;
          '(needed1, left1, q1, prev1, l1) <-
             (if g_inter ops g then
                Some (needed, left, q, prev ++ [x], BL (bl_ni l) (bl_int l ++ [x]) (bl_free l))
              else
                '(needed1, left1, q1) <- update_queue c x needed left q ;;
                Some (needed1, left1, q1, prev, BL (bl_ni l ++ [x]) (bl_int l) (bl_free l))) ;;
          '(left2, free2) <-
             (if c_is_simd c then li_release (parents c x) left1 (bl_free l1)
              else Some (left1, bl_free l1)) ;;
          li_loop ops c f needed1 left2 q1 prev1 (BL (bl_ni l1) (bl_int l1) free2)
      end
  end.

(** base_circuit.rs 622-624 [CircuitLayer::is_empty]. *)
Definition bl_empty (l : blayer) : bool :=
  match bl_ni l, bl_int l with [], [] => true | _, _ => false end.

(** base_circuit.rs 702-777 [Iterator::next] of [BaseLayerIter].  The outer
    [None] is a panic, the inner one the end of the iteration. *)
Definition li_next_layer {P G} (ops : gate_ops P G) (c : circuit G) (st : liter)
  : option (option blayer * liter) :=
  let visit := li_next st in
  let nxt := li_visit st in
  '(needed1, left1, q1) <- li_drain c (li_prev st) (li_needed st) (li_left st) visit ;;
  '(needed2, left2, prev2, l) <-
     li_loop ops c (length q1 + c_count c) needed1 left1 q1 [] (BL [] [] []) ;;
  if bl_empty l then
    Some (None, LI needed2 prev2 [] nxt left2 (li_produced st))
  else
    Some (Some l, LI needed2 prev2 [] nxt left2
                     (li_produced st + (length (bl_int l) + length (bl_ni l)))).

(** Iteration of [next] until it returns [None], i.e. what a [for] loop or
    [collect] over the iterator does; [fuel] as above. As executor.rs 153 or base_circuit.rs
    191-196. *)
Fixpoint li_collect {P G} (ops : gate_ops P G) (c : circuit G) (fuel : nat) (st : liter)
  : option (list blayer) :=
  match fuel with
  | 0 => None
  | S f =>
      '(r, st') <- li_next_layer ops c st ;;
      match r with
      | None => Some []
      | Some l => ls <- li_collect ops c f st' ;; Some (l :: ls)
      end
  end.

(** base_circuit.rs 783-785 [layer_iter], collected. *)
Definition c_layers {P G} (ops : gate_ops P G) (c : circuit G) : option (list blayer) :=
  li_collect ops c (S (c_count c)) (li_new c).

(** base_circuit.rs 191-196 [layer_iter().visit_sc_inputs()], collected. *)
Definition c_layers_sc {P G} (ops : gate_ops P G) (c : circuit G) : option (list blayer) :=
  li_collect ops c (S (c_count c)) (li_visit_sc c (li_new c)).

(** base_circuit.rs 684-691 [into_iter] of a layer: non-interactive gates
    first. *)
Definition bl_ids (l : blayer) : list nat := bl_ni l ++ bl_int l.

(** base_circuit.rs 191-196 [iter], ids only. *)
Definition c_iter {P G} (ops : gate_ops P G) (c : circuit G) : option (list nat) :=
  ls <- c_layers_sc ops c ;; Some (concat (map bl_ids ls)).
