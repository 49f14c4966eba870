(** Model of [Statistics] in crates/seec-channel/src/util.rs.  No proofs here.

    Counters are atomic cells that the transport increases at any time (util.rs
    214-310), also between the steps of a [Statistics] call; so a call is split
    into its atomic steps and an execution is any sequence of events.
    Simplified: counters and sums are unbounded numbers; durations and sleeping are
    dropped. *)
From Coq Require Import List Bool Arith.
Require Import Verif.Prelude.
Import ListNotations.

(** util.rs 132-140 [Phase]; the label of [Custom] is a number. *)
Inductive phase := PhFunctionIndependentSetup | PhFunctionDependentSetup | PhOts | PhMts | PhOnline
| PhUnaccounted | PhCustom (label : nat).

(** util.rs 129: derived [PartialEq] of [Phase]. *)
Definition phase_eqb (a b : phase) : bool :=
  match a, b with
  | PhFunctionIndependentSetup, PhFunctionIndependentSetup => true
  | PhFunctionDependentSetup, PhFunctionDependentSetup => true
  | PhOts, PhOts => true
  | PhMts, PhMts => true
  | PhOnline, PhOnline => true
  | PhUnaccounted, PhUnaccounted => true
  | PhCustom x, PhCustom y => x =? y
  | _, _ => false
  end.

(** util.rs 148-152 [CountPair]: sent and received bytes; 608-613 [AddAssign]. *)
Definition pair_add (a b : nat * nat) : nat * nat := (fst a + fst b, snd a + snd b).

(** util.rs 98-109 [Statistics].  A counter pair (142-146) is a pair of indices
    into the array of all counters. *)
Record stats := Stats {
  st_main : nat * nat; st_helper : option (nat * nat);
  st_recorded : list (phase * (nat * nat)); st_prev : option phase; st_as_prev : bool }.

(** util.rs 379-387 [new]. *)
Definition st_new (send recv : nat) : stats := Stats (send, recv) None [] None false.

(** [recorded.entry(phase).or_default()] and [+=] (util.rs 467-468, 484-485) on an
    [IndexMap]. *)
Fixpoint rec_add (ph : phase) (n : nat * nat) (m : list (phase * (nat * nat))) : list (phase * (nat * nat)) :=
  match m with
  | [] => [(ph, pair_add (0, 0) n)]
  | (p, x) :: r => if phase_eqb ph p then (p, pair_add x n) :: r else (p, x) :: rec_add ph n r
  end.

(** util.rs 489-492 [recorded.get(phase)]. *)
Fixpoint rec_get (ph : phase) (m : list (phase * (nat * nat))) : option (nat * nat) :=
  match m with [] => None | (p, x) :: r => if phase_eqb ph p then Some x else rec_get ph r end.

(** The atomic steps of the calls: [Counter::reset] (util.rs 366-368) of a counter
    into the local count pair, and the additions to the recorded phases. *)
Inductive micro := MResetSend (c : nat) | MResetRecv (c : nat) | MUnaccounted | MRecord (ph : phase).

(** util.rs 599-606 [CounterPair::reset]. *)
Definition pair_reset (p : nat * nat) : list micro := [MResetSend (fst p); MResetRecv (snd p)].

(** util.rs 474-486 [record_unaccounted]. *)
Definition m_unaccounted (s : stats) : list micro :=
  pair_reset (st_main s) ++ match st_helper s with Some h => pair_reset h | None => [] end ++ [MUnaccounted].

(** util.rs 456-472 [record_for].  The future [f] is awaited between the two
    groups of steps. *)
Definition m_record_for (s : stats) (p : nat * nat) (ph : phase) : list micro :=
  m_unaccounted s ++ pair_reset p ++ [MRecord ph].

(** The calls: [record] (util.rs 436-441), [record_helper] (445-454), the setters
    (417-432; [with_helper] 391-398 and [without_unaccounted] 410-413 are the same
    for a fresh value), and the first half of [get] and [into_run_result] (489-490,
    495-496). *)
Inductive scall := SRecord (ph : phase) | SRecordHelper (ph : phase) | SSetHelper (send recv : nat)
| SSetAsPrev (b : bool) | SFinish.

(** The steps of a call and the new value of the struct; [None] is the panic of
    [record_helper] without helper counters (util.rs 449-452). *)
Definition s_start (s : stats) (c : scall) : option (stats * list micro) :=
  match c with
  | SRecord ph => Some (s, m_record_for s (st_main s) ph)
  | SRecordHelper ph => h <- st_helper s ;; Some (s, m_record_for s h ph)
  | SSetHelper a b => Some (Stats (st_main s) (Some (a, b)) (st_recorded s) (st_prev s) (st_as_prev s), [])
  | SSetAsPrev b => Some (Stats (st_main s) (st_helper s) (st_recorded s) (st_prev s) b, [])
  | SFinish => Some (s, m_unaccounted s)
  end.

(** Counters, struct, local count pair, remaining steps of the running call. util.rs 99-110 with the locals of 456-486. *)
Record sstate := SS { ss_cnt : list nat; ss_st : stats; ss_acc : nat * nat; ss_todo : list micro }.

(** One atomic step; util.rs 480-483 chooses the phase of unaccounted bytes. *)
Definition s_micro (x : sstate) : option sstate :=
  let '(SS cnt s acc todo) := x in
  match todo with
  | [] => None
  | MResetSend c :: r => Some (SS (upd c 0 cnt) s (fst acc + nth c cnt 0, snd acc) r)
  | MResetRecv c :: r => Some (SS (upd c 0 cnt) s (fst acc, snd acc + nth c cnt 0) r)
  | MUnaccounted :: r =>
      let ph := match st_as_prev s, st_prev s with true, Some p => p | _, _ => PhUnaccounted end in
      Some (SS cnt (Stats (st_main s) (st_helper s) (rec_add ph acc (st_recorded s)) (st_prev s) (st_as_prev s)) (0, 0) r)
  | MRecord ph :: r =>
      Some (SS cnt (Stats (st_main s) (st_helper s) (rec_add ph acc (st_recorded s)) (st_prev s) (st_as_prev s)) (0, 0) r)
  end.

(** Events: traffic on a counter ([AddAssign], util.rs 371-375), the start of a
    call, a step of the running call. *)
Inductive sevent := EvTraffic (c n : nat) | EvCall (c : scall) | EvStep.

(** One event; [None] when it is not possible (or panics). One atomic step of util.rs 214-310, 436-509. *)
Definition s_event (x : sstate) (e : sevent) : option sstate :=
  match e with
  | EvTraffic c n => Some (SS (upd c (nth c (ss_cnt x) 0 + n) (ss_cnt x)) (ss_st x) (ss_acc x) (ss_todo x))
  | EvCall c =>
      match ss_todo x with
      | [] => '(s, m) <- s_start (ss_st x) c ;; Some (SS (ss_cnt x) s (ss_acc x) m)
      | _ :: _ => None
      end
  | EvStep => s_micro x
  end.

(** An execution. Any interleaving of the steps of util.rs 214-310, 436-509. *)
Definition s_run (x : sstate) (es : list sevent) : option sstate := ofold s_event x es.

(** Fresh counters and a fresh [Statistics] on two of them. util.rs 379-387. *)
Definition s_init (counters send recv : nat) : sstate := SS (repeat 0 counters) (st_new send recv) (0, 0) [].

(** util.rs 526-532 [total_bytes_sent] and [total_bytes_recv] of the run result. *)
Definition total_sent (s : stats) : nat := sum_list (map (fun e => fst (snd e)) (st_recorded s)).
(** See above. util.rs 530-532. *)
Definition total_recv (s : stats) : nat := sum_list (map (fun e => snd (snd e)) (st_recorded s)).
