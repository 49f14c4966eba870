(** Model of the sub-channel functions of crates/seec-channel: [sub_channel],
    [sub_channel_with] and [sync] of src/lib.rs, [multi_sub_channel] of src/multi.rs
    and the macro of seec-channel-macros.  No proofs here.

    Every party runs a list of calls on its main channels.  A call is one or two
    rounds; in a round a party sends one message to each peer and receives one from
    each, concurrently for different peers ([FuturesUnordered], multi.rs 178-190).
    Channels are FIFO queues of bounded length.  A new sub-channel is a fresh number
    that stands for its queue: the party keeps one end and sends the other.  An
    action list is an arbitrary schedule of all parties, including parties that
    close or lose their connections at any time. *)
From Coq Require Import List Bool Arith.
Require Import Verif.Prelude.
Import ListNotations.

(** Parties have numbers (multi.rs 50, 55: the keys of the maps). *)
Definition pid := nat.

(** What a round exchanges: ends of a sub-channel with messages of type [k]
    (lib.rs 78-102, 105-130), or the first or second [SyncMsg] (lib.rs 132-145). *)
Inductive what := WSub (k : nat) | WSync1 | WSync2.

(** One round with some peers; lib.rs 78-145 (one peer), multi.rs 158-210 (all peers). *)
Record round := { rd_peers : list pid; rd_what : what }.

(** A message: an end of the sub-channel [id] with messages of type [k]
    (lib.rs 93, 121), or [SyncMsg] (lib.rs 138, 141). *)
Inductive msg := MSub (k id : nat) | MSync.

(** State of a round with one peer: before the send, between send and receive, after
    the receive (lib.rs 92-101). *)
Inductive pc := PStart | PSent (m : msg) | PDone.

(** A party runs, has returned an error, or has dropped its channels, which the
    others see as a closed ([true]) or broken ([false]) connection (lib.rs 95-98). *)
Inductive status := SRun | SErr | SClosed (graceful : bool).

(** A completed round with one peer: what was sent and what was received; [None] if
    the peer had closed the channel and this was ignored (lib.rs 139-143).  For a
    sub-channel the two messages are the result of the call: the own end of the
    channel sent and the received end (lib.rs 101). *)
Record entry := { e_peer : pid; e_what : what; e_own : msg; e_got : option msg }.

(** A party: rounds to do (the first is the current one), progress with the peers of
    the current round, results so far in order of completion (lib.rs 78-145, multi.rs 158-210). *)
Record party := { pt_rounds : list round; pt_cur : list (pid * pc); pt_log : list entry; pt_status : status }.

(** All parties, the main channels by sender and receiver, and the next fresh
    sub-channel (lib.rs 65-76 [channel]).  Parties without calls have empty lists. *)
Record sys := { sy_party : pid -> party; sy_queue : pid -> pid -> list msg; sy_next : nat }.

(** Replace one party (a [&mut] borrow; multi.rs 158-162). *)
Definition set_party (f : pid -> party) (i : pid) (p : party) : pid -> party :=
  fun j => if j =? i then p else f j.

(** Replace one queue (lib.rs 93, 95-98: send and receive). *)
Definition set_queue (f : pid -> pid -> list msg) (i j : pid) (q : list msg) : pid -> pid -> list msg :=
  fun a b => if (a =? i) && (b =? j) then q else f a b.

(** Progress with peer [j] (the future for the peer, multi.rs 185-188). *)
Fixpoint cur_get (c : list (pid * pc)) (j : pid) : option pc :=
  match c with
  | [] => None
  | (k, x) :: c => if k =? j then Some x else cur_get c j
  end.

(** Update the progress with peer [j] (multi.rs 185-188). *)
Definition cur_set (c : list (pid * pc)) (j : pid) (x : pc) : list (pid * pc) :=
  map (fun e => if fst e =? j then (fst e, x) else e) c.

(** Start the first of the given rounds: one future per peer (multi.rs 178-190). *)
Definition start_round (rs : list round) : list (pid * pc) :=
  match rs with
  | [] => []
  | r :: _ => map (fun j => (j, PStart)) (rd_peers r)
  end.

(** A party before its first call; lib.rs 78-145. *)
Definition new_party (rs : list round) : party :=
  {| pt_rounds := rs; pt_cur := start_round rs; pt_log := []; pt_status := SRun |}.

(** The message of a round (lib.rs 92-93, 120-121, 138, 141). *)
Definition msg_of (w : what) (id : nat) : msg :=
  match w with
  | WSub k => MSub k id
  | WSync1 | WSync2 => MSync
  end.

(** The received message converts to an end of the right type (lib.rs 99, 127); a
    [sync] ignores what it receives (lib.rs 140, 143; its channel only carries
    [SyncMsg]). *)
Definition accepts (w : what) (m : msg) : bool :=
  match w, m with
  | WSub k, MSub k' _ => k =? k'
  | WSub _, MSync => false
  | _, _ => true
  end.

(** Receiving on a closed or broken channel goes on: only [sync] ignores it, its
    first receive only if closed ([?] on errors, lib.rs 140), its second in any case
    (lib.rs 143); otherwise [RemoteClosed] or the error (lib.rs 95-98). *)
Definition ignores (w : what) (graceful : bool) : bool :=
  match w with
  | WSub _ => false
  | WSync1 => graceful
  | WSync2 => true
  end.

(** Return an error (the [?] of lib.rs 93-99; multi.rs 199-204). *)
Definition fail (p : party) : party :=
  {| pt_rounds := pt_rounds p; pt_cur := pt_cur p; pt_log := pt_log p; pt_status := SErr |}.

(** Complete the round with peer [j] (lib.rs 101; multi.rs 195-198). *)
Definition complete (p : party) (j : pid) (w : what) (own : msg) (got : option msg) : party :=
  {| pt_rounds := pt_rounds p; pt_cur := cur_set (pt_cur p) j PDone;
     pt_log := pt_log p ++ [{| e_peer := j; e_what := w; e_own := own; e_got := got |}];
     pt_status := pt_status p |}.

(** Steps of the parties; lib.rs 78-145, multi.rs 158-210.  [AFail]: a send
    fails.  [AClose]: a party drops its
    channels, of its messages on the way to party [j] the first [cuts j] arrive. *)
Inductive act :=
| ASend (i j : pid)
| AFail (i j : pid)
| ARecv (i j : pid)
| ANext (i : pid)
| AClose (i : pid) (graceful : bool) (cuts : pid -> nat).

(** lib.rs 93: the send of party [i] to [j]; it waits while the queue holds [cap]
    messages.  It may succeed after the peer has gone, as long as this is not known. *)
Definition do_send (cap : nat) (s : sys) (i j : pid) : option sys :=
  let p := sy_party s i in
  match pt_status p, pt_rounds p, cur_get (pt_cur p) j with
  | SRun, r :: _, Some PStart =>
      _ <- oassert (length (sy_queue s i j) <? cap) ;;
      let m := msg_of (rd_what r) (sy_next s) in
      Some {| sy_party := set_party (sy_party s) i
                {| pt_rounds := pt_rounds p; pt_cur := cur_set (pt_cur p) j (PSent m);
                   pt_log := pt_log p; pt_status := pt_status p |};
              sy_queue := set_queue (sy_queue s) i j (sy_queue s i j ++ [m]);
              sy_next := sy_next s + 1 |}
  | _, _, _ => None
  end.

(** lib.rs 93, the [?]: the send fails since the peer has gone. *)
Definition do_send_fails (s : sys) (i j : pid) : option sys :=
  let p := sy_party s i in
  match pt_status p, pt_rounds p, cur_get (pt_cur p) j, pt_status (sy_party s j) with
  | SRun, _ :: _, Some PStart, SClosed _ =>
      Some {| sy_party := set_party (sy_party s) i (fail p); sy_queue := sy_queue s; sy_next := sy_next s |}
  | _, _, _, _ => None
  end.

(** lib.rs 95-101: the receive of party [i] from [j]; it waits for a message or for
    the end of the channel. *)
Definition do_recv (s : sys) (i j : pid) : option sys :=
  let p := sy_party s i in
  match pt_status p, pt_rounds p, cur_get (pt_cur p) j with
  | SRun, r :: _, Some (PSent own) =>
      match sy_queue s j i with
      | m :: q =>
          Some {| sy_party := set_party (sy_party s) i
                    (if accepts (rd_what r) m then complete p j (rd_what r) own (Some m) else fail p);
                  sy_queue := set_queue (sy_queue s) j i q; sy_next := sy_next s |}
      | [] =>
          match pt_status (sy_party s j) with
          | SClosed graceful =>
              Some {| sy_party := set_party (sy_party s) i
                        (if ignores (rd_what r) graceful then complete p j (rd_what r) own None else fail p);
                      sy_queue := sy_queue s; sy_next := sy_next s |}
          | _ => None
          end
      end
  | _, _, _ => None
  end.

(** The progress is [PDone] (multi.rs 193: the future has completed). *)
Definition is_done (x : pc) : bool := match x with PDone => true | _ => false end.

(** multi.rs 193-210, lib.rs 101: all peers have completed, the call returns and the
    next one starts. *)
Definition do_next (s : sys) (i : pid) : option sys :=
  let p := sy_party s i in
  match pt_status p, pt_rounds p with
  | SRun, _ :: rs =>
      _ <- oassert (forallb (fun e => is_done (snd e)) (pt_cur p)) ;;
      Some {| sy_party := set_party (sy_party s) i
                {| pt_rounds := rs; pt_cur := start_round rs; pt_log := pt_log p; pt_status := SRun |};
              sy_queue := sy_queue s; sy_next := sy_next s |}
  | _, _ => None
  end.

(** A party drops its channels or loses its connections (lib.rs 95-98: what the others see). *)
Definition do_close (s : sys) (i : pid) (graceful : bool) (cuts : pid -> nat) : option sys :=
  let p := sy_party s i in
  match pt_status p with
  | SClosed _ => None
  | _ =>
      Some {| sy_party := set_party (sy_party s) i
                {| pt_rounds := pt_rounds p; pt_cur := pt_cur p; pt_log := pt_log p; pt_status := SClosed graceful |};
              sy_queue := fun a b => if a =? i then firstn (cuts b) (sy_queue s a b) else sy_queue s a b;
              sy_next := sy_next s |}
  end.

(** One step; lib.rs 78-145, multi.rs 158-210. *)
Definition step (cap : nat) (s : sys) (a : act) : option sys :=
  match a with
  | ASend i j => do_send cap s i j
  | AFail i j => do_send_fails s i j
  | ARecv i j => do_recv s i j
  | ANext i => do_next s i
  | AClose i g cuts => do_close s i g cuts
  end.

(** A schedule; lib.rs 78-145, multi.rs 158-210. *)
Fixpoint steps (cap : nat) (s : sys) (l : list act) : option sys :=
  match l with
  | [] => Some s
  | a :: l => s <- step cap s a ;; steps cap s l
  end.

(** The start: every party has its calls to do; lib.rs 78-145, multi.rs 158-210. *)
Definition start (progs : pid -> list round) : sys :=
  {| sy_party := fun i => new_party (progs i); sy_queue := fun _ _ => []; sy_next := 0 |}.

(** The calls of the library as rounds: [sub_channel] and [sub_channel_with] with one
    peer (lib.rs 78-130; the macro, seec-channel-macros lib.rs 30-50, makes the same exchange
    with the ends swapped), [multi_sub_channel] with all peers (multi.rs 158-210), [sync]
    (lib.rs 132-145). *)
Definition call_sub (j : pid) (k : nat) : list round := [{| rd_peers := [j]; rd_what := WSub k |}].
(** multi.rs 158-210 [multi_sub_channel]. *)
Definition call_multi (peers : list pid) (k : nat) : list round := [{| rd_peers := peers; rd_what := WSub k |}].
(** lib.rs 132-145 [sync]. *)
Definition call_sync (j : pid) : list round :=
  [{| rd_peers := [j]; rd_what := WSync1 |}; {| rd_peers := [j]; rd_what := WSync2 |}].
