(** What calls of sub-circuit functions should mean, for C65: a builder is the list of
    the calls made on it. *)
From Coq Require Import List Bool Arith.
Require Import Verif.Prelude Verif.SubCircModel.
Import ListNotations.

(** The calls of the global builder and of the kept builders. *)
Definition logs : Type := list (nat * nat) * list (list (nat * nat)).

(** The effect of an operation on the calls. *)
Definition log_step (l : logs) (o : scop) : logs :=
  let '(g, saved) := l in
  match o with
  | OCall f n => (g ++ [(f, n)], saved)
  | OInstall None => ([], saved ++ [g])
  | OInstall (Some k) =>
      match nth_error saved k with Some b => (b, firstn k saved ++ skipn (S k) saved ++ [g]) | None => l end
  | OFinish => ([], saved)
  | OFinishKept k | ODrop k => (g, firstn k saved ++ skipn (S k) saved)
  end.

(** A finished circuit holds, for every call in order, the circuit of the called function for
    the input size, and one circuit per different function and size. *)
Definition holds_calls {C} (body : nat -> nat -> option C) (calls : list (nat * nat)) (circuits : list C) (circ_map : list nat) : Prop :=
  Forall2 (fun call i => exists c, nth_error circuits i = Some c /\ body (fst call) (snd call) = Some c) calls circ_map /\
  forall i j a b, nth_error calls i = Some a -> nth_error calls j = Some b ->
    (nth_error circ_map i = nth_error circ_map j <-> a = b).

(** What an operation should deliver. *)
Definition res_ok {C} (body : nat -> nat -> option C) (l : logs) (o : scop) (r : scres C) : Prop :=
  match o with
  | OFinish => exists cs cm, r = RCircuit cs cm /\ holds_calls body (fst l) cs cm
  | OFinishKept k =>
      match nth_error (snd l) k with Some b => exists cs cm, r = RCircuit cs cm /\ holds_calls body b cs cm | None => r = RUnit end
  | _ => r = RUnit
  end.

(** Every result of a history. *)
Fixpoint results_ok {C} (body : nat -> nat -> option C) (l : logs) (ops : list scop) (rs : list (scres C)) : Prop :=
  match ops, rs with
  | [], [] => True
  | o :: ops, r :: rs => res_ok body l o r /\ results_ok body (log_step l o) ops rs
  | _, _ => False
  end.

(** A history in which a function is never called while another unfinished builder has
    calls of it, and kept builders are only finished after installing them. *)
Definition calls_of (f : nat) (b : list (nat * nat)) : Prop := In f (map fst b).
Fixpoint separate (l : logs) (ops : list scop) : Prop :=
  match ops with
  | [] => True
  | o :: r =>
      match o with
      | OCall f _ => forall b, In b (snd l) -> ~ calls_of f b
      | OFinishKept _ => False
      | _ => True
      end /\ separate (log_step l o) r
  end.
