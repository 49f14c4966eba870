(** Model of establishing multi-party connections over TCP:
    crates/seec-channel/src/multi.rs 230-348 and the retry loop of
    crates/seec-channel/src/tcp.rs 46-77.  No proofs here.

    Addresses are numbers.  Every party has bound its listener before anyone
    connects, connections do not break and no time limit is reached (time limits
    are modelled separately in [connect_with_timeout]).  The handshake of remoc
    needs both ends, so a connection is established when the listener accepts it. *)
From Coq Require Import List Bool Arith.
Require Import Verif.Prelude Verif.ChannelModel.
Import ListNotations.

(** multi.rs 240-256: the ids (positions) and addresses of the other parties and the
    own id, [None] if the own address is not in the list; the last occurrence counts. *)
Fixpoint connect_plan (local id : nat) (remotes : list nat) : option nat * list (nat * nat) :=
  match remotes with
  | [] => (None, [])
  | a :: r =>
      let '(me, others) := connect_plan local (S id) r in
      if a =? local then (match me with Some m => Some m | None => Some id end, others)
      else (me, (id, a) :: others)
  end.

(** State of one of the connections a party makes (multi.rs 314-339): not yet
    accepted; accepted by the peer's listener; joined (324-339), i.e. channel [ch]
    made and [InitialMsg] with its sender sent; [InitialMsg] received by the peer. *)
Inductive cstage := CWaiting | CAccepted | CSent (ch : nat) | CDone.

(** multi.rs 265-301: the listener waits for [n] more parties; all have been
    accepted; a second [InitialMsg] with the same party id came. *)
Inductive lstate := LWait (n : nat) | LDup.

(** One call of [connect] (multi.rs 232-263): own id, own connections with ids and
    addresses, listener, the connection the listener is reading from (peer and
    position in the peer's list), and the maps of the result. *)
Record cparty := CP {
  cp_id : nat;
  cp_conns : list (nat * nat * cstage);
  cp_listen : lstate;
  cp_cur : option (nat * nat);
  cp_senders : list (nat * nat);
  cp_receivers : list (nat * nat) }.

(** Start of [connect] (multi.rs 232-261) at address [local]; [None]: panic at 254-256.  [u32] is
    2^32, for the casts [as u32] at 248 and 327. *)
Definition connect_start (u32 local : nat) (remotes : list nat) : option cparty :=
  let '(me, others) := connect_plan local 0 remotes in
  id <- me ;;
  Some (CP (id mod u32) (map (fun o => (fst o, snd o, CWaiting)) others)
           (LWait (length others)) None [] []).

(** The whole system: addresses and calls, and the number of channels made so far
    (lib.rs 66-75 [channel] makes a new one).  Auxiliary for multi.rs 232-263. *)
Record csys := CS { cs_addrs : list nat; cs_parties : list cparty; cs_next : nat }.

(** Change the stage of connection [k] of party [i]. Auxiliary for multi.rs 276-339. *)
Definition set_stage (k : nat) (s : cstage) (p : cparty) : cparty :=
  CP (cp_id p)
     (match nth_error (cp_conns p) k with
      | Some (id, a, _) => upd k (id, a, s) (cp_conns p)
      | None => cp_conns p
      end)
     (cp_listen p) (cp_cur p) (cp_senders p) (cp_receivers p).

(** multi.rs 276-283: the listener of party [j] accepts connection [k] of party [i]
    ([None]: not possible now).  The listener handles one connection at a time. *)
Definition c_accept (j i k : nat) (s : csys) : option csys :=
  pj <- nth_error (cs_parties s) j ;;
  aj <- nth_error (cs_addrs s) j ;;
  _ <- oassert (match cp_listen pj with LWait (S _) => true | _ => false end) ;;
  _ <- oassert (match cp_cur pj with None => true | Some _ => false end) ;;
  pi <- nth_error (cs_parties s) i ;;
  match nth_error (cp_conns pi) k with
  | Some (id, a, CWaiting) =>
      if a =? aj then
        let ps := upd j (CP (cp_id pj) (cp_conns pj) (cp_listen pj) (Some (i, k))
                            (cp_senders pj) (cp_receivers pj)) (cs_parties s) in
        pi <- nth_error ps i ;;
        Some (CS (cs_addrs s) (upd i (set_stage k CAccepted pi) ps) (cs_next s))
      else None
  | _ => None
  end.

(** multi.rs 324-339: [join_next] of party [i] returns connection [k]: a new channel
    whose receiver is kept and whose sender is sent. *)
Definition c_join (u32 i k : nat) (s : csys) : option csys :=
  p <- nth_error (cs_parties s) i ;;
  match nth_error (cp_conns p) k with
  | Some (id, a, CAccepted) =>
      let ch := cs_next s in
      let p := set_stage k (CSent ch) p in
      Some (CS (cs_addrs s)
              (upd i (CP (cp_id p) (cp_conns p) (cp_listen p) (cp_cur p) (cp_senders p)
                         (hm_insert (id mod u32) ch (cp_receivers p))) (cs_parties s))
              (S ch))
  | _ => None
  end.

(** multi.rs 284-292: the listener of party [j] receives the [InitialMsg]. *)
Definition c_recv (j : nat) (s : csys) : option csys :=
  pj <- nth_error (cs_parties s) j ;;
  '(i, k) <- cp_cur pj ;;
  n <- (match cp_listen pj with LWait (S n) => Some n | _ => None end) ;;
  pi <- nth_error (cs_parties s) i ;;
  match nth_error (cp_conns pi) k with
  | Some (_, _, CSent ch) =>
      let l := match hm_get (cp_id pi) (cp_senders pj) with
               | Some _ => LDup
               | None => LWait n
               end in
      let ps := upd j (CP (cp_id pj) (cp_conns pj) l None
                          (hm_insert (cp_id pi) ch (cp_senders pj)) (cp_receivers pj)) (cs_parties s) in
      pi <- nth_error ps i ;;
      Some (CS (cs_addrs s) (upd i (set_stage k CDone pi) ps) (cs_next s))
  | _ => None
  end.

(** One step of the system, in any order. Interleavings of multi.rs 232-348. *)
Inductive c_step (u32 : nat) (s s' : csys) : Prop :=
| cs_accept j i k : c_accept j i k s = Some s' -> c_step u32 s s'
| cs_join i k : c_join u32 i k s = Some s' -> c_step u32 s s'
| cs_recv j : c_recv j s = Some s' -> c_step u32 s s'.

(** Executions of [n] steps. Interleavings of multi.rs 232-348. *)
Inductive c_steps (u32 : nat) : nat -> csys -> csys -> Prop :=
| cs_none s : c_steps u32 0 s s
| cs_more n s1 s2 s3 : c_step u32 s1 s2 -> c_steps u32 n s2 s3 -> c_steps u32 (S n) s1 s3.

(** All parties call [connect] (multi.rs 230-236) with their address and list. *)
Definition connect_all (u32 : nat) (calls : list (nat * list nat)) : option csys :=
  ps <- omap (fun c => connect_start u32 (fst c) (snd c)) calls ;;
  Some (CS (map fst calls) ps 0).

(** [connect] of a party has returned [Ok] (multi.rs 257-262: both joined futures). *)
Definition cp_finished (p : cparty) : bool :=
  match cp_listen p with
  | LWait 0 => forallb (fun c => match snd c with CSent _ | CDone => true | _ => false end) (cp_conns p)
  | _ => false
  end.

(** ** The retry loop *)

(** Result of [connect_with_timeout]. tcp.rs 48-51. *)
Inductive cwt_res := CwtOk | CwtErr (e : nat) | CwtPanic.

(** tcp.rs 51-77 [connect_with_timeout].  An attempt is the elapsed time when it
    starts and its outcome: [None] for success, [Some e] for a failed connection
    (58-66) or handshake (68-74).  The list of attempts stands for the
    environment; when it ends the clock has passed the limit.  [last_err.unwrap()]
    (76) panics without an error. *)
Fixpoint connect_with_timeout (timeout : nat) (attempts : list (nat * option nat)) (last : option nat)
  : cwt_res :=
  match attempts with
  | (t, r) :: rest =>
      if t <? timeout then
        match r with
        | None => CwtOk
        | Some e => connect_with_timeout timeout rest (Some e)
        end
      else match last with Some e => CwtErr e | None => CwtPanic end
  | [] => match last with Some e => CwtErr e | None => CwtPanic end
  end.
