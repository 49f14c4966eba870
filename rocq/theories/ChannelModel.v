(** Model of crates/seec-channel/src/multi.rs: multi-party channels.  No proofs
    here.

    The channels of remoc are FIFO queues.  Both ends of all channels stay alive,
    so sending on a channel does not fail and receiving does not see a closed
    channel.  A system is a list of parties; each runs a list of calls one after
    the other, the parties run concurrently. *)
From Coq Require Import List Bool Arith.
Require Import Verif.Prelude.
Import ListNotations.

(** std [HashMap]: [get] and [insert] (an existing entry is replaced). The maps of multi.rs
    50, 55. *)
Fixpoint hm_get {V} (k : nat) (m : list (nat * V)) : option V :=
  match m with
  | [] => None
  | (k', v) :: r => if k =? k' then Some v else hm_get k r
  end.

(** See above. multi.rs 365-366. *)
Fixpoint hm_insert {V} (k : nat) (v : V) (m : list (nat * V)) : list (nat * V) :=
  match m with
  | [] => [(k, v)]
  | (k', v') :: r => if k =? k' then (k, v) :: r else (k', v') :: hm_insert k v r
  end.

(** multi.rs 48-56 [MultiSender] and [MultiReceiver] of one party: channel numbers
    by party id. *)
Record mchan := MC { mc_senders : list (nat * nat); mc_receivers : list (nat * nat) }.

(** multi.rs 372-386: the defaults. *)
Definition mc_default : mchan := MC [] [].

(** multi.rs 361-366: the body of the loops of [new_local].  [channel] (lib.rs
    66-75) makes a new empty queue.  [u32] is 2^32, for the cast [as u32]. *)
Definition local_step {M} (u32 : nat) (st : list (list M) * list mchan) (po : nat * nat)
  : list (list M) * list mchan :=
  let '(party, other) := po in
  if party =? other then st
  else
    let '(qs, res) := st in
    let ch := length qs in
    let p := nth party res mc_default in
    let res1 := upd party (MC (hm_insert (other mod u32) ch (mc_senders p)) (mc_receivers p)) res in
    let o := nth other res1 mc_default in
    let res2 := upd other (MC (mc_senders o) (hm_insert (party mod u32) ch (mc_receivers o))) res1 in
    (qs ++ [[]], res2).

(** multi.rs 356-370 [new_local]: the queues and the ends of every party. *)
Definition new_local {M} (u32 : nat) (parties : nat) : list (list M) * list mchan :=
  fold_left (local_step u32) (list_prod (seq 0 parties) (seq 0 parties)) ([], repeat mc_default parties).

(** multi.rs 61-68: the first loop of [send_to]: the channels of the futures, or
    the unknown id.  The futures are not polled in this loop. *)
Fixpoint send_futs (senders : list (nat * nat)) (to : list nat) : nat + list nat :=
  match to with
  | [] => inr []
  | t :: r =>
      match hm_get t senders with
      | None => inl t
      | Some ch => match send_futs senders r with inl u => inl u | inr l => inr (ch :: l) end
      end
  end.

(** The calls of a party: [send_to] (multi.rs 59-82), [send_all] (84-87) and
    [recv_from_single] (105-111). *)
Inductive call (M : Type) := CSend (to : list nat) (m : M) | CSendAll (m : M) | CRecv (from : nat).
Arguments CSend {M}. Arguments CSendAll {M}. Arguments CRecv {M}.

(** A party between two polls: remaining calls, the unfinished futures of a
    [send_to] that is being awaited (channel numbers and the message), what it has
    received so far, and the ids of the calls that returned
    [Err(UnknownParty(id))]. User code calling multi.rs 59-111. *)
Record pst (M : Type) := PS {
  ps_calls : list (call M); ps_pend : option (list nat * M);
  ps_got : list (nat * M); ps_unknown : list nat }.
Arguments PS {M}. Arguments ps_calls {M}. Arguments ps_pend {M}. Arguments ps_got {M}. Arguments ps_unknown {M}.

(** The whole system: queues, ends and parties. Auxiliary: the channels of multi.rs 356-370
    and their users. *)
Record sys (M : Type) := Sys { sy_qs : list (list M); sy_ends : list mchan; sy_ps : list (pst M) }.
Arguments Sys {M}. Arguments sy_qs {M}. Arguments sy_ends {M}. Arguments sy_ps {M}.

(** The recipients of a send call; [send_all] uses the keys of the map. multi.rs 59, 84-87. *)
Definition call_to {M} (e : mchan) (c : call M) : option (list nat * M) :=
  match c with
  | CSend to m => Some (to, m)
  | CSendAll m => Some (map fst (mc_senders e), m)
  | CRecv _ => None
  end.

(** One step of a party.  [cap] is the capacity 128 of a channel (multi.rs 364):
    a send future completes when its channel has room. *)
Inductive party_step {M} (cap : nat) (e : mchan) : list (list M) * pst M -> list (list M) * pst M -> Prop :=
| st_send : forall qs c r got unk to m chs, call_to e c = Some (to, m) -> send_futs (mc_senders e) to = inr chs ->
    party_step cap e (qs, PS (c :: r) None got unk) (qs, PS r (Some (chs, m)) got unk)
| st_send_unknown : forall qs c r got unk to m u, call_to e c = Some (to, m) -> send_futs (mc_senders e) to = inl u ->
    party_step cap e (qs, PS (c :: r) None got unk) (qs, PS r None got (unk ++ [u]))
| st_poll : forall qs r got unk m l1 ch l2 q, nth_error qs ch = Some q -> length q < cap ->
    party_step cap e (qs, PS r (Some (l1 ++ ch :: l2, m)) got unk)
      (upd ch (q ++ [m]) qs, PS r (Some (l1 ++ l2, m)) got unk)
| st_sent : forall qs r got unk m,
    party_step cap e (qs, PS r (Some ([], m)) got unk) (qs, PS r None got unk)
| st_recv : forall qs r got unk from ch m q, hm_get from (mc_receivers e) = Some ch ->
    nth_error qs ch = Some (m :: q) ->
    party_step cap e (qs, PS (CRecv from :: r) None got unk) (upd ch q qs, PS r None (got ++ [(from, m)]) unk)
| st_recv_unknown : forall qs r got unk from, hm_get from (mc_receivers e) = None ->
    party_step cap e (qs, PS (CRecv from :: r) None got unk) (qs, PS r None got (unk ++ [from])).

(** One step of the system: some party makes a step. Interleaving of calls of multi.rs 59-111. *)
Inductive sys_step {M} (cap : nat) : sys M -> sys M -> Prop :=
| sys_party : forall qs ends ps i e p qs' p', nth_error ends i = Some e -> nth_error ps i = Some p ->
    party_step cap e (qs, p) (qs', p') -> sys_step cap (Sys qs ends ps) (Sys qs' ends (upd i p' ps)).

(** Executions. Any number of steps of calls of multi.rs 59-111. *)
Inductive sys_run {M} (cap : nat) : sys M -> sys M -> Prop :=
| run_refl : forall s, sys_run cap s s
| run_step : forall s1 s2 s3, sys_run cap s1 s2 -> sys_step cap s2 s3 -> sys_run cap s1 s3.

(** A system of [length progs] local parties with the given calls. The channels are those of
    multi.rs 356-370. *)
Definition local_sys {M} (u32 : nat) (progs : list (list (call M))) : sys M :=
  let '(qs, ends) := new_local u32 (length progs) in
  Sys qs ends (map (fun p => PS p None [] []) progs).
