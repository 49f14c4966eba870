(** Vocabulary of C47 and C48: what the parties of a local system send to and
    receive from each other. *)
From Coq Require Import List Bool Arith.
Require Import Verif.ChannelModel.
Import ListNotations.

(** Party [i] of [n] knows exactly the other parties. *)
Definition knows (n i t : nat) : bool := (t <? n) && negb (t =? i).

(** The messages that a call of party [i] addresses to [j]; a [send_to] with an
    unknown recipient addresses nobody. *)
Definition addressed {M} (n i j : nat) (c : call M) : list M :=
  match c with
  | CSend to m => if forallb (knows n i) to then repeat m (count_occ Nat.eq_dec to j) else []
  | CSendAll m => if knows n i j then [m] else []
  | CRecv _ => []
  end.

(** All messages that the calls address to [j], in order. *)
Definition all_addressed {M} (n i j : nat) (cs : list (call M)) : list M := concat (map (addressed n i j) cs).

(** What a party has received from [i], in order. *)
Definition got_from {M} (i : nat) (p : pst M) : list M :=
  map snd (filter (fun x => fst x =? i) (ps_got p)).
