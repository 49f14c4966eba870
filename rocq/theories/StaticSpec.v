(** Specification vocabulary for precomputed layers (C23): what the executor sees
    of a dynamic layer, and conditions on the layers of a program, stated without
    the precomputation. *)
From Coq Require Import List Bool Arith.
Require Import Verif.Prelude Verif.GateModel Verif.CircuitModel Verif.ExecModel Verif.ConnModel Verif.ConnSpec
  Verif.MultiModel Verif.MultiSpec.
Import ListNotations.

(** One circuit of a layer: circuit id, SIMD size, the non-interactive and the
    interactive gates, each with its id and its parents. *)
Definition view (G : Type) : Type := nat * option nat * list (G * nat * list gid) * list (G * nat * list gid).

Section Spec.
Context {G : Type}.
Variable m : mcirc G.
Variable imax : nat.

(** The gates [ids] of circuit [sc]. *)
Definition gates_view (sc : nat) (ids : list nat) : option (list (G * nat * list gid)) :=
  omap (fun id => g <- mc_gate m (sc, id) ;; Some (g, id, mc_parents imax m (sc, id))) ids.

Definition layer_view (e : nat * option nat * blayer) : option (view G) :=
  ni <- gates_view (fst (fst e)) (bl_ni (snd e)) ;;
  it <- gates_view (fst (fst e)) (bl_int (snd e)) ;;
  Some (fst (fst e), snd (fst e), ni, it).

(** The scalar or the SIMD circuits of a layer. *)
Definition scalar_part (l : elayer) : elayer := filter (fun e => match snd (fst e) with None => true | _ => false end) l.
Definition simd_part (l : elayer) : elayer := filter (fun e => match snd (fst e) with None => false | _ => true end) l.

(** The layers of circuit [sc], in order. *)
Definition history (sc : nat) (ls : list elayer) : list blayer :=
  map snd (filter (fun e => fst (fst e) =? sc) (concat ls)).

Variable h : list (gid * gid).

(** Two layers of circuits that are copies of the same circuit look alike: the
    same gates in the same order, and the same gates are targets of wires. *)
Definition alike (sc1 : nat) (b1 : blayer) (sc2 : nat) (b2 : blayer) : Prop :=
  bl_ni b1 = bl_ni b2 /\ bl_int b1 = bl_int b2 /\
  forall id, In id (bl_ni b1 ++ bl_int b1) ->
    ((exists p, In (p, (sc1, id)) h) <-> (exists p, In (p, (sc2, id)) h)).

(** [k] is the number of the circuit of which [sc] is a copy. *)
Definition copy_of (sc k : nat) : Prop := nth_error (mc_map m) sc = Some k.

(** The circuits get their first layers in the order of their numbers. *)
Definition opens_in_order (ls : list elayer) : Prop :=
  forall l1 e l2 k k', concat ls = l1 ++ e :: l2 -> copy_of (fst (fst e)) k -> k' < k ->
    exists e', In e' l1 /\ copy_of (fst (fst e')) k'.

(** Copies of one circuit run through alike layers. *)
Definition copies_alike (ls : list elayer) : Prop :=
  forall sc1 sc2 k j b1 b2, copy_of sc1 k -> copy_of sc2 k ->
    nth_error (history sc1 ls) j = Some b1 -> nth_error (history sc2 ls) j = Some b2 ->
    alike sc1 b1 sc2 b2.

(** In the layers [ls], the copies [sc1] and [sc2] part at their layer [d]. *)
Definition parted (sc1 sc2 : nat) (ls : list elayer) (d : nat) : Prop :=
  (forall j b1 b2, j < d -> nth_error (history sc1 ls) j = Some b1 -> nth_error (history sc2 ls) j = Some b2 ->
     alike sc1 b1 sc2 b2) /\
  exists b1 b2, nth_error (history sc1 ls) d = Some b1 /\ nth_error (history sc2 ls) d = Some b2 /\
    ~ alike sc1 b1 sc2 b2.

(** No copies have parted when a circuit gets its first layer. *)
Definition opens_before_parting (ls : list elayer) : Prop :=
  forall l1 e l2 k, concat ls = l1 ++ e :: l2 -> copy_of (fst (fst e)) k ->
    (forall e', In e' l1 -> ~ copy_of (fst (fst e')) k) ->
    forall sc1 sc2 k' d, copy_of sc1 k' -> copy_of sc2 k' -> ~ parted sc1 sc2 [l1] d.

(** A copy that parts from another one at its layer [p] has there a layer unlike
    the layer [p] of every copy it has parted from before, and those have one. *)
Definition parts_cleanly (ls : list elayer) : Prop :=
  forall l1 e l2 k sc1 sc2 d, concat ls = l1 ++ e :: l2 -> copy_of (fst (fst e)) k -> copy_of sc1 k -> copy_of sc2 k ->
    let p := length (history (fst (fst e)) [l1]) in
    parted (fst (fst e)) sc1 [l1 ++ [e]] p -> parted (fst (fst e)) sc2 [l1] d ->
    exists b, nth_error (history sc2 [l1]) p = Some b /\ ~ alike (fst (fst e)) (snd e) sc2 b.
End Spec.
