(** What establishing multi-party connections should achieve, independently of how
    [ConnectModel] does it. *)
From Coq Require Import List Bool Arith.
Require Import Verif.ChannelModel.
Import ListNotations.

(** The maps of [n] parties (senders and receivers by party id) are wired completely:
    there is one channel per ordered pair of different parties, no two pairs share
    a channel, party [i] receives from [j] on the channel on which [j] sends to
    [i], and there are no other entries. *)
Definition wired (n : nat) (senders receivers : nat -> list (nat * nat)) : Prop :=
  exists chan : nat -> nat -> nat,
    (forall i j i' j', i < n -> j < n -> i <> j -> i' < n -> j' < n -> i' <> j' ->
       chan i j = chan i' j' -> i = i' /\ j = j') /\
    (forall i j, i < n -> j < n -> i <> j ->
       hm_get j (receivers i) = Some (chan i j) /\ hm_get i (senders j) = Some (chan i j)) /\
    (forall i j, i < n -> j = i \/ n <= j -> hm_get j (receivers i) = None /\ hm_get j (senders i) = None).
