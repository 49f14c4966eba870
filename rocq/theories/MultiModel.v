(** Model of crates/seec/src/circuit/dyn_layers.rs: a circuit made of several
    base circuits and the layer iterator over all of them.  No proofs here. *)
From Coq Require Import List Bool Arith.
Require Import Verif.Prelude Verif.GateModel Verif.CircuitModel Verif.ExecModel Verif.ConnModel.
Import ListNotations.

(** dyn_layers.rs 25-29 [Circuit].  [circ_map] maps the circuit id to a position
    in [circuits]; its keys are [0..len], so it is a list. *)
Record mcirc (G : Type) := MC {
  mc_circuits : list (circuit G);
  mc_map : list nat;
  mc_conns : conns }.
Arguments MC {G}. Arguments mc_circuits {G} _. Arguments mc_map {G} _. Arguments mc_conns {G} _.

(** dyn_layers.rs 32-34 [get_circ]; [None] is the panic of an absent key. *)
Definition mc_get {G} (m : mcirc G) (id : nat) : option (circuit G) :=
  i <- nth_error (mc_map m) id ;; nth_error (mc_circuits m) i.

(** dyn_layers.rs 46-48 [get_gate]. *)
Definition mc_gate {G} (m : mcirc G) (g : gid) : option G :=
  c <- mc_get m (fst g) ;; nth_error (c_gates c) (snd g).

(** dyn_layers.rs 51-61 [parent_gates]; an absent circuit (a panic in the code)
    gives no parents. *)
Definition mc_parents {G} (imax : nat) (m : mcirc G) (g : gid) : list gid :=
  match mc_get m (fst g) with
  | Some c => map (pair (fst g)) (parents c (snd g)) ++ cn_parents imax (mc_conns m) g
  | None => []
  end.

(** dyn_layers.rs 63-65 [gate_count], over the circuit ids. *)
Definition mc_count {G} (m : mcirc G) : nat :=
  sum_list (map (fun id => match mc_get m id with Some c => c_count c | None => 0 end)
                (seq 0 (length (mc_map m)))).

(** dyn_layers.rs 179-183 [CircuitLayerIter]: the hash map [layer_iters] in the
    order in which it is iterated. *)
Definition miter : Type := list (nat * liter).

(** dyn_layers.rs 186-192 [new]. *)
Definition mi_new {G} (m : mcirc G) : option miter :=
  c <- mc_get m 0 ;; Some [(0, li_new c)].

(** dyn_layers.rs 214-223: [next] on every base iterator, keeping the layers that
    are not empty. *)
Fixpoint mi_step {P G} (ops : gate_ops P G) (m : mcirc G) (st : miter)
  : option (elayer * miter) :=
  match st with
  | [] => Some ([], [])
  | (id, it) :: r =>
      c <- mc_get m id ;;
      '(l, it') <- li_next_layer ops c it ;;
      '(ls, r') <- mi_step ops m r ;;
      Some (match l with Some b => (id, c_simd c, b) :: ls | None => ls end, (id, it') :: r')
  end.

(** dyn_layers.rs 225: [retain].  The circuits are those found in [mi_step]. *)
Definition mi_retain {G} (m : mcirc G) (st : miter) : miter :=
  filter (fun e => match mc_get m (fst e) with
                   | Some c => negb (li_exhausted c (snd e))
                   | None => true
                   end) st.

(** dyn_layers.rs 229 [sort_unstable_by_key] on the circuit id.  The ids are keys
    of a map, hence distinct, so every sort gives the same list; insertion sort
    here. *)
Fixpoint el_insert (e : nat * option nat * blayer) (l : elayer) : elayer :=
  match l with
  | [] => [e]
  | x :: r => if fst (fst e) <=? fst (fst x) then e :: l else x :: el_insert e r
  end.
(** dyn_layers.rs 229 [sort_unstable_by_key]: insertion sort. *)
Fixpoint el_sort (l : elayer) : elayer :=
  match l with [] => [] | x :: r => el_insert x (el_sort r) end.

(** base_circuit.rs 646-651 [iter_ids] of every circuit of a layer, in the order
    of dyn_layers.rs 230-233. *)
Definition el_ids (l : elayer) : list gid :=
  concat (map (fun '(sc, _, b) => map (pair sc) (bl_ids b)) l).

(** dyn_layers.rs 238-246: find or create the iterator of the target circuit and
    queue the target gate. *)
Fixpoint mi_add_in (st : miter) (g : gid) : option miter :=
  match st with
  | [] => None
  | (id, it) :: r =>
      if id =? fst g then Some ((id, li_add_next it (snd g)) :: r)
      else r' <- mi_add_in r g ;; Some ((id, it) :: r')
  end.
(** dyn_layers.rs 238-246: also creating the iterator. *)
Definition mi_add {G} (m : mcirc G) (st : miter) (g : gid) : option miter :=
  match mi_add_in st g with
  | Some st' => Some st'
  | None => c <- mc_get m (fst g) ;; Some (st ++ [(fst g, li_add_next (li_new_uninit c) (snd g))])
  end.

(** dyn_layers.rs 230-249: all outgoing wires of all gates of the layer. *)
Definition mi_wake {G} (imax : nat) (m : mcirc G) (st : miter) (gs : list gid) : option miter :=
  ofold (fun st g => ofold (mi_add m) st (cn_outgoing imax (mc_conns m) g)) st gs.

(** dyn_layers.rs 212-260 [next]; the outer [None] is a panic. *)
Definition mi_next {P G} (ops : gate_ops P G) (imax : nat) (m : mcirc G) (st : miter)
  : option (option elayer * miter) :=
  '(ls, st1) <- mi_step ops m st ;;
  let st2 := mi_retain m st1 in
  let ls' := el_sort ls in
  st3 <- mi_wake imax m st2 (el_ids ls') ;;
  Some (match ls' with [] => None | _ => Some ls' end, st3).

(** Iteration of [next] until it returns [None].  The hash map may be iterated in
    another order in every call: [perm] rearranges it before each call, [i] is the
    number of the call.  [fuel] bounds the number of calls; exhausting it is
    [None]. The loop is executor.rs 153 over dyn_layers.rs 212-260. *)
Fixpoint mi_collect {P G} (ops : gate_ops P G) (imax : nat) (m : mcirc G)
  (perm : nat -> miter -> miter) (fuel i : nat) (st : miter) : option (list elayer) :=
  match fuel with
  | 0 => None
  | S f =>
      '(r, st') <- mi_next ops imax m (perm i st) ;;
      match r with
      | None => Some []
      | Some l => ls <- mi_collect ops imax m perm f (S i) st' ;; Some (l :: ls)
      end
  end.

(** circuit/mod.rs 230-240 [layer_iter], collected.  There are at most as many
    non-empty layers as gates, hence the fuel. *)
Definition mc_layers {P G} (ops : gate_ops P G) (imax : nat) (m : mcirc G)
  (perm : nat -> miter -> miter) : option (list elayer) :=
  st <- mi_new m ;; mi_collect ops imax m perm (S (mc_count m)) 0 st.

(** dyn_layers.rs 140-146 [interactive_count_times_simd]. *)
Definition mc_int_count {G} (m : mcirc G) : nat :=
  sum_list (map (fun id => match mc_get m id with
                           | Some c => c_icount c * match c_simd c with Some n => n | None => 1 end
                           | None => 0
                           end) (seq 0 (length (mc_map m)))).

(** circuit/mod.rs 81-240: what the executor uses of such a circuit. *)
Definition ec_of_mc {P G} (ops : gate_ops P G) (imax : nat) (m : mcirc G)
  (perm : nat -> miter -> miter) : option (ecirc G) :=
  c <- mc_get m 0 ;;
  ls <- mc_layers ops imax m perm ;;
  Some (EC (mc_gate m) (mc_parents imax m) ls
           (fun id => match mc_get m id with Some c => c_simd c | None => None end)
           (c_inputs c) (c_outputs c)
           (map (fun id => match mc_get m id with
                           | Some c => (c_count c, c_simd c)
                           | None => (0, None)
                           end) (seq 0 (length (mc_map m))))).
