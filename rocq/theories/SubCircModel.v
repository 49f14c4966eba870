(** Model of the sub-circuit caches of crates/seec-macros/src/sub_circuit.rs and of the
    builders of crates/seec/src/circuit/builder.rs that share circuits through them.
    No proofs here.  Circuits are elements of an arbitrary type; shared circuits
    ([Arc<Mutex<..>>]) are cells of a heap; functions and input sizes are numbers.  The
    main circuit and the connections of a builder are not part of this model (see
    ConnModel). *)
From Coq Require Import List Bool Arith.
Require Import Verif.Prelude.
Import ListNotations.

(** builder.rs 55-59 [CircuitBuilder]: the pushed circuits after the main circuit, and
    the registered caches (one per function, sub_circuit.rs 76-83). *)
Record scb := SCB { sb_cells : list nat; sb_caches : list nat }.

(** builder.rs 289-296 [CircuitBuilder::new]. *)
Definition sb_new : scb := SCB [] [].

(** All state that the macro uses: the heap of shared circuits, the global builder
    (builder.rs 35-36), the builders returned by [install] (91-93), the static caches
    (sub_circuit.rs 76-83) and [EVALUATING_SUB_CIRCUIT] (builder.rs 47). *)
Record scw (C : Type) := SCW {
  sw_heap : list C; sw_global : scb; sw_saved : list scb; sw_cache : list ((nat * nat) * nat); sw_flag : bool }.
Arguments SCW {C}. Arguments sw_heap {C}. Arguments sw_global {C}. Arguments sw_saved {C}. Arguments sw_cache {C}. Arguments sw_flag {C}.

(** Program start: no builder used yet, empty caches, builder.rs 35-36, 47. *)
Definition sw_init {C} : scw C := SCW [] sb_new [] [] false.

(** The operations of a program on the global state, with the code they stand for. *)
Inductive scop :=
| OCall (f n : nat)            (* a call of a function marked #[sub_circuit], sub_circuit.rs 53-123 *)
| OInstall (k : option nat)    (* CircuitBuilder::install of a new or a kept builder, builder.rs 91-93 *)
| OFinish                      (* global_into_circuit, builder.rs 126-130 *)
| OFinishKept (k : nat)        (* into_circuit of a kept builder, builder.rs 340-373 *)
| ODrop (k : nat).             (* dropping a kept builder *)

(** What an operation delivers: nothing, a panic, or a circuit: the circuits and the map
    from circuit ids to positions in them (builder.rs 368-372; ids without the main
    circuit). *)
Inductive scres (C : Type) := RUnit | RPanicked | RCircuit (circuits : list C) (circ_map : list nat).
Arguments RUnit {C}. Arguments RPanicked {C}. Arguments RCircuit {C}.

(** [HashMap::get] of a cache, sub_circuit.rs 94. *)
Fixpoint cache_get (f n : nat) (m : list ((nat * nat) * nat)) : option nat :=
  match m with
  | [] => None
  | ((f', n'), cell) :: r => if (f =? f') && (n =? n') then Some cell else cache_get f n r
  end.

(** builder.rs 379-383 [clear_caches]: the entries of the registered functions. *)
Definition cache_clear (fs : list nat) (m : list ((nat * nat) * nat)) : list ((nat * nat) * nat) :=
  filter (fun e => negb (existsb (Nat.eqb (fst (fst e))) fs)) m.

(** [HashSet::insert], builder.rs 375-377. *)
Definition add_cache (f : nat) (fs : list nat) : list nat := if existsb (Nat.eqb f) fs then fs else f :: fs.

(** sub_circuit.rs 53-123: one call.  [body f n] is the circuit that the function
    builds for inputs of size [n], with the output gates; [None] is a panic while it
    is built, also that of a call of another such function (72-74).  A panic leaves
    the flag set and the pushed circuit behind. *)
Definition sc_call {C} (dflt : C) (body : nat -> nat -> option C) (s : scw C) (f n : nat) : scw C * scres C :=
  if sw_flag s then (s, RPanicked)
  else
    let fs := add_cache f (sb_caches (sw_global s)) in
    match cache_get f n (sw_cache s) with
    | Some cell =>
        (SCW (sw_heap s) (SCB (sb_cells (sw_global s) ++ [cell]) fs) (sw_saved s) (sw_cache s) false, RUnit)
    | None =>
        let cell := length (sw_heap s) in
        let b := SCB (sb_cells (sw_global s) ++ [cell]) fs in
        match body f n with
        | None => (SCW (sw_heap s ++ [dflt]) b (sw_saved s) (sw_cache s) true, RPanicked)
        | Some c => (SCW (sw_heap s ++ [c]) b (sw_saved s) (((f, n), cell) :: sw_cache s) false, RUnit)
        end
    end.

(** [HashMap::get] of [unwrapped_circuits_map], builder.rs 344-349. *)
Fixpoint ptr_get (p : nat) (m : list (nat * nat)) : option nat :=
  match m with [] => None | (p', i) :: r => if p =? p' then Some i else ptr_get p r end.

(** builder.rs 340-373 [into_circuit]: every shared circuit is taken out of its cell
    once ([mem::take]) and leaves the default circuit behind. *)
Fixpoint sc_into {C} (dflt : C) (cells : list nat) (heap : list C) (ptrs : list (nat * nat)) (circuits : list C) (cmap : list nat)
  : list C * list C * list nat :=
  match cells with
  | [] => (heap, circuits, cmap)
  | p :: r =>
      match ptr_get p ptrs with
      | Some i => sc_into dflt r heap ptrs circuits (cmap ++ [i])
      | None =>
          sc_into dflt r (upd p dflt heap) ((p, length circuits) :: ptrs) (circuits ++ [nth p heap dflt]) (cmap ++ [length circuits])
      end
  end.

(** One operation: sub_circuit.rs 53-123, builder.rs 91-93, 126-130, 340-373.  Operations on a
    kept builder that does not exist do nothing. *)
Definition sc_step {C} (dflt : C) (body : nat -> nat -> option C) (s : scw C) (o : scop) : scw C * scres C :=
  match o with
  | OCall f n => sc_call dflt body s f n
  | OInstall None => (SCW (sw_heap s) sb_new (sw_saved s ++ [sw_global s]) (sw_cache s) (sw_flag s), RUnit)
  | OInstall (Some k) =>
      match nth_error (sw_saved s) k with
      | Some b => (SCW (sw_heap s) b (firstn k (sw_saved s) ++ skipn (S k) (sw_saved s) ++ [sw_global s]) (sw_cache s) (sw_flag s), RUnit)
      | None => (s, RUnit)
      end
  | OFinish =>
      let b := sw_global s in
      let '(heap, circuits, cmap) := sc_into dflt (sb_cells b) (sw_heap s) [] [] [] in
      (SCW heap sb_new (sw_saved s) (cache_clear (sb_caches b) (sw_cache s)) (sw_flag s), RCircuit circuits cmap)
  | OFinishKept k =>
      match nth_error (sw_saved s) k with
      | Some b =>
          let '(heap, circuits, cmap) := sc_into dflt (sb_cells b) (sw_heap s) [] [] [] in
          (SCW heap (sw_global s) (firstn k (sw_saved s) ++ skipn (S k) (sw_saved s)) (sw_cache s) (sw_flag s), RCircuit circuits cmap)
      | None => (s, RUnit)
      end
  | ODrop k =>
      match nth_error (sw_saved s) k with
      | Some _ => (SCW (sw_heap s) (sw_global s) (firstn k (sw_saved s) ++ skipn (S k) (sw_saved s)) (sw_cache s) (sw_flag s), RUnit)
      | None => (s, RUnit)
      end
  end.

(** A history of operations and what they deliver (a program using sub_circuit.rs and
    builder.rs 91-130). *)
Fixpoint sc_run {C} (dflt : C) (body : nat -> nat -> option C) (s : scw C) (ops : list scop) : scw C * list (scres C) :=
  match ops with
  | [] => (s, [])
  | o :: r => let '(s1, x) := sc_step dflt body s o in let '(s2, xs) := sc_run dflt body s1 r in (s2, x :: xs)
  end.
