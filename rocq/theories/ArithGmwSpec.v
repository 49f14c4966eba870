(** Specification vocabulary for the arithmetic GMW properties. *)
From Coq Require Import List Bool Arith ZArith.
Require Import Verif.Prelude Verif.GateModel Verif.ArithGmwModel.
Import ListNotations.
Open Scope Z_scope.

(** The ring elements: integers modulo [2^w]. *)
Definition in_ring (w x : Z) : Prop := 0 <= x < 2 ^ w.

(** The value shared by two ring elements. *)
Definition shared (w x0 x1 : Z) : Z := (x0 + x1) mod 2 ^ w.

(** A valid pair of triple shares: the shared c is the product of the shared a
    and b. *)
Definition atriple_ok (w : Z) (t u : atriple) : Prop :=
  (at_c t + at_c u) mod 2 ^ w = ((at_a t + at_a u) * (at_b t + at_b u)) mod 2 ^ w.

(** [n] triples with consistent components. *)
Definition amts_wf (n : nat) (t : amts) : Prop :=
  length (as_a t) = n /\ length (as_b t) = n /\ length (as_c t) = n.

(** Product of the shared operands, gate by gate. *)
Definition mul_of_pairs (w : Z) (ps0 ps1 : list (Z * Z)) : list Z :=
  zip_with (fun p q => ((fst p + fst q) * (snd p + snd q)) mod 2 ^ w) ps0 ps1.

(** Operand pairs as the flat input sequence. *)
Definition flat_zpairs (ps : list (Z * Z)) : list Z := flat_map (fun p => [fst p; snd p]) ps.

(** Shared values of two share vectors. *)
Definition shared_list (w : Z) (o0 o1 : list Z) : list Z := zip_with (shared w) o0 o1.

(** Plaintext meaning of an arithmetic gate. *)
Definition arith_gate_sem (w : Z) (g : arith_gate) (ins : list Z) : option Z :=
  match g, ins with
  | AMul, x :: y :: _ => Some ((x * y) mod 2 ^ w)
  | AAdd, x :: y :: _ => Some ((x + y) mod 2 ^ w)
  | ASub, x :: y :: _ => Some ((x - y) mod 2 ^ w)
  | ABase (GConstant c), _ => Some c
  | ABase (GConnectToMainFromSimd _), _ => None
  | ABase _, x :: _ => Some x
  | _, _ => None
  end.

(** Gates evaluated locally from their operands. *)
Definition arith_local_gate (g : arith_gate) : Prop :=
  match g with
  | AMul | ABase (GConstant _) | ABase (GConnectToMainFromSimd _) => False
  | _ => True
  end.

(** Two triple shares that reconstruct to (0,0,0) or (1,1,1). *)
Definition trivial_triple (w : Z) (t u : atriple) : Prop :=
  exists k, (k = 0 \/ k = 1) /\
    shared w (at_a t) (at_a u) = k /\ shared w (at_b t) (at_b u) = k /\
    shared w (at_c t) (at_c u) = k.

(** One multiplication layer of both parties, arithmetic_gmw.rs 80-137 in the
    order of executor.rs 353-457. *)
Definition arith_layer (w : Z) (n : nat) (in0 in1 : list Z) (T0 T1 : amts)
  : option ((list Z * list Z) * (amts * amts)) :=
  '(m0, T0) <- arith_compute_msg w 0 (repeat AMul n) [] in0 T0 ;;
  '(m1, T1) <- arith_compute_msg w 1 (repeat AMul n) [] in1 T1 ;;
  '(o0, T0) <- arith_eval_int w 0 (repeat AMul n) [] m0 m1 T0 ;;
  '(o1, T1) <- arith_eval_int w 1 (repeat AMul n) [] m1 m0 T1 ;;
  Some ((o0, o1), (T0, T1)).

(** Histories of storage operations. *)
Inductive asop := ASAppend (t : amts) | ASSplitLast (n : nat) | ASRemoveFirst (n : nat).

Definition asop_step (st : amts * list amts) (o : asop) : option (amts * list amts) :=
  let '(t, out) := st in
  match o with
  | ASAppend u => Some (amts_append t u, out)
  | ASSplitLast n => '(r, u) <- amts_split_off_last t n ;; Some (r, out ++ [u])
  | ASRemoveFirst n => '(r, u) <- amts_remove_first t n ;; Some (r, out ++ [u])
  end.

Definition asop_put (o : asop) : list atriple := match o with ASAppend t => amts_iter t | _ => [] end.

(** Generator that delivers the given elements. *)
Definition const_sample (l : list Z) : unit -> nat -> list Z * unit := fun u n => (firstn n l, u).

(** Storages whose three components have the same length. *)
Definition amts_ok (t : amts) : Prop := exists n, amts_wf n t.
