(** Model of [RunResult] in crates/seec-channel/src/util.rs.  No proofs here.

    An [IndexMap] is the list of its entries in the order of insertion.
    Simplified: metadata is dropped, numbers are unbounded. *)
From Coq Require Import List Bool Arith.
Require Import Verif.Prelude Verif.StatModel.
Import ListNotations.

(** util.rs 111-117 [RunResult], without [meta]. *)
Record run_result := RR { rr_comm : list (phase * (nat * nat)); rr_time : list (phase * nat) }.

(** [entry(k).or_default()] and [+=] (util.rs 559-563) on an [IndexMap]. *)
Fixpoint im_add {A} (zero : A) (add : A -> A -> A) (ph : phase) (v : A) (m : list (phase * A)) : list (phase * A) :=
  match m with
  | [] => [(ph, add zero v)]
  | (p, x) :: r => if phase_eqb ph p then (p, add x v) :: r else (p, x) :: im_add zero add ph v r
  end.

(** [IndexMap::get], used in util.rs 543 and 549. *)
Fixpoint im_get {A} (ph : phase) (m : list (phase * A)) : option A :=
  match m with
  | [] => None
  | (p, x) :: r => if phase_eqb ph p then Some x else im_get ph r
  end.

(** util.rs 558-560 and 561-563: the loops over the entries of one run. *)
Definition im_merge {A} (zero : A) (add : A -> A -> A) (acc m : list (phase * A)) : list (phase * A) :=
  fold_left (fun a e => im_add zero add (fst e) (snd e) a) m acc.

(** util.rs 615-620 [DivAssign] of [CountPair]. *)
Definition pair_div (p : nat * nat) (n : nat) : nat * nat := (fst p / n, snd p / n).

(** util.rs 555-573 [mean].  The divisor is not zero where it is used: without data
    the maps are empty. *)
Definition rr_mean (data : list run_result) : run_result :=
  let res := fold_left (fun r v => RR (im_merge (0, 0) pair_add (rr_comm r) (rr_comm v)) (im_merge 0 Nat.add (rr_time r) (rr_time v)))
    data (RR [] []) in
  RR (map (fun e => (fst e, pair_div (snd e) (length data))) (rr_comm res))
     (map (fun e => (fst e, snd e / length data)) (rr_time res)).

(** util.rs 526-528 [total_bytes_sent]. *)
Definition rr_sent (r : run_result) : nat := sum_list (map (fun e => fst (snd e)) (rr_comm r)).
(** util.rs 530-532 [total_bytes_recv]. *)
Definition rr_recv (r : run_result) : nat := sum_list (map (fun e => snd (snd e)) (rr_comm r)).

(** util.rs 543 and 547-552: [time_ms.get(&phase).copied().unwrap_or_default()]. *)
Definition time_of (r : run_result) (ph : phase) : nat := match im_get ph (rr_time r) with Some t => t | None => 0 end.

(** util.rs 534-545 [setup_ms]. *)
Definition rr_setup (r : run_result) : nat :=
  sum_list (map (time_of r) [PhOts; PhMts; PhFunctionIndependentSetup; PhFunctionDependentSetup]).
(** util.rs 547-552 [online_ms]. *)
Definition rr_online (r : run_result) : nat := time_of r PhOnline.
