(** Generic list / option helpers used by the models.  Nothing in this file
    models /repo code by itself; the helpers mirror Rust iterator adaptors. *)
From Coq Require Import List Bool Arith Lia.
Import ListNotations.

(** Bind on [option]; [None] stands for a panic or an [Err] result. *)
Definition obind {A B} (x : option A) (f : A -> option B) : option B :=
  match x with Some a => f a | None => None end.
Notation "x <- e ;; f" := (obind e (fun x => f))
  (at level 61, e at next level, right associativity).
Notation "' p <- e ;; f" := (obind e (fun x => match x with p => f end))
  (at level 61, p pattern, e at next level, right associativity).

(** [assert b] : Rust [assert!]. *)
Definition oassert (b : bool) : option unit := if b then Some tt else None.

(** [zip_with f xs ys] : Rust [xs.zip(ys).map(f)], stops at the shorter. *)
Fixpoint zip_with {A B C} (f : A -> B -> C) (xs : list A) (ys : list B) : list C :=
  match xs, ys with
  | x :: xs', y :: ys' => f x y :: zip_with f xs' ys'
  | _, _ => []
  end.

(** [omap f xs] : collect of a fallible map, [None] if one call panics. *)
Fixpoint omap {A B} (f : A -> option B) (xs : list A) : option (list B) :=
  match xs with
  | [] => Some []
  | x :: r => y <- f x ;; ys <- omap f r ;; Some (y :: ys)
  end.

(** [ofold f s xs] : a [for] loop with a panicking body. *)
Fixpoint ofold {S A} (f : S -> A -> option S) (s : S) (xs : list A) : option S :=
  match xs with
  | [] => Some s
  | x :: r => s' <- f s x ;; ofold f s' r
  end.

(** [upd i v l] : [l[i] = v] (no effect when out of range). *)
Fixpoint upd {A} (i : nat) (v : A) (l : list A) : list A :=
  match l, i with
  | [], _ => []
  | _ :: r, 0 => v :: r
  | x :: r, S i' => x :: upd i' v r
  end.

Definition sum_list (l : list nat) : nat := fold_right Nat.add 0 l.

Definition lastn {A} (n : nat) (l : list A) : list A := skipn (length l - n) l.
