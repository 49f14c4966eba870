(** Specification vocabulary for connections between circuits: histories of
    related ranges and of related gates.  Independent of the containers. *)
From Coq Require Import List Bool Arith.
Require Import Verif.Prelude Verif.ExecModel Verif.ConnModel.
Import ListNotations.

(** Only the types [gid] (circuit, index) and [grange] (first and last gate) are
    taken from the model. *)

Definition range_ok (imax : nat) (r : grange) : Prop :=
  fst (fst r) = fst (snd r) /\ snd (fst r) <= snd (snd r) /\ snd (snd r) <= imax.

Definition inside (r : grange) (g : gid) : bool :=
  (fst (fst r) =? fst g) && (snd (fst r) <=? snd g) && (snd g <=? snd (snd r)).

(** The gate at the same position of the other range. *)
Definition counterpart (g : gid) (ft : grange * grange) : gid :=
  (fst (fst (snd ft)), snd (fst (snd ft)) + (snd g - snd (fst (fst ft)))).

(** Gates related to [g] by a history of range pairs. *)
Definition related (hist : list (grange * grange)) (g : gid) : list gid :=
  map (counterpart g) (filter (fun ft => inside (fst ft) g) hist).

(** No range of the history starts before another one of the same circuit and
    ends after it. *)
Definition no_nesting (rs : list grange) : Prop :=
  forall r1 r2, In r1 rs -> In r2 rs -> fst (fst r1) = fst (fst r2) ->
  snd (fst r1) < snd (fst r2) -> snd (snd r1) <= snd (snd r2).

(** Consecutive gates. *)
Fixpoint run_from (g : gid) (n : nat) : list gid :=
  match n with 0 => [] | S k => g :: run_from (fst g, S (snd g)) k end.

(** [rs] are the maximal runs of consecutive gates of [l]. *)
Inductive maximal_runs : list gid -> list (gid * nat) -> Prop :=
| mr_nil : maximal_runs [] []
| mr_cons g n l rs :
    maximal_runs l rs ->
    (match l with y :: _ => y <> (fst g, snd g + S n) | [] => True end) ->
    maximal_runs (run_from g (S n) ++ l) ((g, S n) :: rs).

(** No two adjacent entries are equal. *)
Fixpoint adjacent_differ (l : list gid) : Prop :=
  match l with
  | x :: (y :: _) as r => x <> y /\ adjacent_differ r
  | _ => True
  end.

(** Gates related to [g] by a history of gate pairs. *)
Definition targets_of (h : list (gid * gid)) (g : gid) : list gid :=
  map snd (filter (fun ft => (fst (fst ft) =? fst g) && (snd (fst ft) =? snd g)) h).
Definition sources_of (h : list (gid * gid)) (g : gid) : list gid :=
  map fst (filter (fun ft => (fst (snd ft) =? fst g) && (snd (snd ft) =? snd g)) h).

(** One call of [connect_sub_circuit_gates]: the from-gates, the target circuit and
    its input gates. *)
Record call := Call { ca_from : list gid; ca_to : nat; ca_ids : list nat }.

(** What a call is meant to connect: the i-th gate with the i-th input gate. *)
Definition intended (c : call) : list (gid * gid) := combine (ca_from c) (map (pair (ca_to c)) (ca_ids c)).

(** The ranges of a call: every maximal run of from-gates with the input gates at
    the same positions, numbered from [t]. *)
Fixpoint run_ranges (rs : list (gid * nat)) (to_c t : nat) : list (grange * grange) :=
  match rs with
  | [] => []
  | (g, n) :: r =>
      ((g, (fst g, snd g + (n - 1))), ((to_c, t), (to_c, t + (n - 1)))) :: run_ranges r to_c (t + n)
  end.

(** A call uses ranges iff its input gates are consecutive. *)
Inductive call_ranges : call -> list (grange * grange) -> Prop :=
| cr_range from to_c t n rs :
    maximal_runs from rs -> call_ranges (Call from to_c (seq t (S n))) (run_ranges rs to_c t)
| cr_single from to_c ids :
    (forall t n, ids <> seq t (S n)) -> call_ranges (Call from to_c ids) [].
