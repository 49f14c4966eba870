(** Specification vocabulary for sub-channels: what two parties have exchanged so
    far, and scripts that all parties follow. *)
From Coq Require Import List Bool Arith.
Require Import Verif.SubChanModel.
Import ListNotations.

(** The completed rounds with peer [j], in order (seec-channel lib.rs 78-145). *)
Definition with_peer (j : pid) (l : list entry) : list entry := filter (fun e => e_peer e =? j) l.

(** The message sent to [j] in the round that is going on (lib.rs 93). *)
Definition pending (p : party) (j : pid) : list msg :=
  match cur_get (pt_cur p) j with
  | Some (PSent m) => [m]
  | _ => []
  end.

(** All messages sent to [j] so far, in order (lib.rs 93). *)
Definition sent (p : party) (j : pid) : list msg := map e_own (with_peer j (pt_log p)) ++ pending p j.

(** Calls name each peer once (multi.rs 50, 55: keys of a map). *)
Definition peers_ok (progs : pid -> list round) : Prop :=
  forall i r, In r (progs i) -> NoDup (rd_peers r).

(** The sub-channels a party has created (lib.rs 92). *)
Definition chan_id (m : msg) : list nat := match m with MSub _ id => [id] | MSync => [] end.
(** The sub-channel ends a party has sent, over all peers (lib.rs 92-93). *)
Definition created (p : party) : list nat :=
  flat_map chan_id (map e_own (pt_log p))
  ++ flat_map (fun e => match snd e with PSent m => chan_id m | _ => [] end) (pt_cur p).

(** A script: rounds with their participants, in an order common to all parties (the
    callers of lib.rs 78-145 and multi.rs 158-210). *)
Definition script := list (list pid * what).

(** The calls of party [i] in a script: its peers are the other participants (multi.rs 178-190). *)
Definition plays (sc : script) (i : pid) : list round :=
  flat_map (fun x => if existsb (Nat.eqb i) (fst x)
                     then [{| rd_peers := filter (fun j => negb (j =? i)) (fst x); rd_what := snd x |}]
                     else []) sc.

(** The rounds of a script in which both [i] and [j] take part (multi.rs 178-190). *)
Definition common (sc : script) (i j : pid) : list what :=
  map snd (filter (fun x => existsb (Nat.eqb i) (fst x) && existsb (Nat.eqb j) (fst x)) sc).

(** Schedules in which nobody closes its channels (lib.rs 95-98). *)
Definition no_close (l : list act) : Prop :=
  forall i g cuts, ~ In (AClose i g cuts) l.

(** The steps a list of rounds takes: per peer a send and a receive, and the return
    (lib.rs 92-101, multi.rs 193-210). *)
Fixpoint work (rs : list round) : nat :=
  match rs with
  | [] => 0
  | r :: rs => 2 * length (rd_peers r) + 1 + work rs
  end.

(** The party that makes a step (lib.rs 78-145). *)
Definition actor (a : act) : pid := match a with ASend i _ | AFail i _ | ARecv i _ | ANext i | AClose i _ _ => i end.

(** Scripts name each participant of a round once (multi.rs 50, 55: keys of a map). *)
Definition script_ok (sc : script) : Prop := forall x, In x sc -> NoDup (fst x).

(** The rounds of a program that involve peer [j], in order (lib.rs 78-145, multi.rs 178-190). *)
Definition rounds_with (j : pid) (rs : list round) : list what :=
  flat_map (fun r => if existsb (Nat.eqb j) (rd_peers r) then [rd_what r] else []) rs.

(** Why party [i] has returned an error: it could not send to a peer that has
    gone; it waited for the end of a sub-channel from such a peer; the connection
    broke during the first receive of a [sync]; or the peer sent something else
    in this round (lib.rs 93-99, 138-143). *)
Definition excuse (s : sys) (i : pid) : Prop :=
  exists r rs j x, pt_rounds (sy_party s i) = r :: rs /\ cur_get (pt_cur (sy_party s i)) j = Some x /\
   ((x = PStart /\ exists g, pt_status (sy_party s j) = SClosed g)
    \/ (exists own k g, x = PSent own /\ rd_what r = WSub k /\ pt_status (sy_party s j) = SClosed g)
    \/ (exists own, x = PSent own /\ rd_what r = WSync1 /\ pt_status (sy_party s j) = SClosed false)
    \/ (exists own k m, x = PSent own /\ rd_what r = WSub k
          /\ nth_error (sent (sy_party s j) i) (length (with_peer j (pt_log (sy_party s i)))) = Some m
          /\ forall t, m <> MSub k t)).
