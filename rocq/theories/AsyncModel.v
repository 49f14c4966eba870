(** Asynchronous model of two executors connected by two bounded FIFO channels:
    each party performs the steps of crates/seec/src/executor.rs 123-493 at its
    own pace.  No proofs here. *)
From Coq Require Import List Bool Arith.
Require Import Verif.Prelude Verif.GateModel Verif.ProtocolModel Verif.CircuitModel
  Verif.ExecModel.
Import ListNotations.

Section Async.
Variable pr : protocol.
Variable S : Type.
Variable req : S -> nat -> option (p_setup pr * S).
Variable ec : ecirc (p_gate pr).

(** Where a party is in executor.rs [execute]: before a layer (153), with the
    message of layer [l] computed and blocked in [sender.send] (399), blocked in
    [receiver.recv] (413-416), or returned (492). *)
Inductive pstate :=
| PRun (ls : list elayer) (go : gouts pr) (s : S)
| PSend (l : elayer) (ls : list elayer) (st : p_setup pr) (m : emsg pr) (go : gouts pr) (s : S)
| PWait (l : elayer) (ls : list elayer) (st : p_setup pr) (m : emsg pr) (go : gouts pr) (s : S)
| PDone (o : istore pr) (go : gouts pr) (s : S).

(** Both parties and the channels [q01] (from 0 to 1) and [q10].  A channel
    (crates/seec-channel/src/lib.rs, remoc / in-memory channels) is a queue; its
    transport buffers count as capacity. *)
Record sys := Sys { y_0 : pstate; y_1 : pstate; y_q01 : list (emsg pr); y_q10 : list (emsg pr) }.

(** executor.rs 153-398: from the start of a layer up to the send, or the final
    outputs (481-492).  The release of freeable shares (400-411) is done here
    together with the message; it touches nothing another party sees. *)
Definition p_local (party : nat) (inp : istore pr) (p : pstate) : option pstate :=
  match p with
  | PRun [] go s => o <- ex_outputs ec go ;; Some (PDone o go s)
  | PRun (l :: ls) go s =>
      go <- ofold (ex_ni party ec (ec_main_simd ec) inp) go (el_ni l) ;;
      let n := el_int_count l in
      if n =? 0 then Some (PRun ls go s)
      else
        '(st, s) <- req s n ;;
        '(m, st, go) <- ex_send party ec l st go ;;
        Some (PSend l ls st m go s)
  | _ => None
  end.

(** One step of a party: local computation, a send into the outgoing channel if
    it has room, or a receive from the incoming channel if it is not empty.
    [None]: the party cannot move (blocked, panicked or returned). The steps of executor.rs
    153-492. *)
Definition p_step (cap party : nat) (inp : istore pr) (p : pstate) (out inc : list (emsg pr))
  : option (pstate * list (emsg pr) * list (emsg pr)) :=
  match p with
  | PRun _ _ _ => p' <- p_local party inp p ;; Some (p', out, inc)
  | PSend l ls st m go s =>
      if length out <? cap then Some (PWait l ls st m go s, out ++ [m], inc) else None
  | PWait l ls st m go s =>
      match inc with
      | r :: inc' => go <- ex_recv party ec l st m r go ;; Some (PRun ls go s, out, inc')
      | [] => None
      end
  | PDone _ _ _ => None
  end.

(** [false]: party 0 moves, [true]: party 1 moves. Interleaving of two runs of executor.rs
    123-493. *)
Definition a_step (cap : nat) (i0 i1 : istore pr) (y : sys) (who : bool) : option sys :=
  if who then
    '(p, out, inc) <- p_step cap 1 i1 (y_1 y) (y_q10 y) (y_q01 y) ;;
    Some (Sys (y_0 y) p inc out)
  else
    '(p, out, inc) <- p_step cap 0 i0 (y_0 y) (y_q01 y) (y_q10 y) ;;
    Some (Sys p (y_1 y) out inc).

(** An execution under a schedule: who moves at each step. Auxiliary: any interleaving of
    two runs of executor.rs 123-493. *)
Definition a_run (cap : nat) (i0 i1 : istore pr) (y : sys) (sched : list bool) : option sys :=
  ofold (a_step cap i0 i1) y sched.

(** Both parties at the start of executor.rs 153, with empty channels. *)
Definition a_init (go0 go1 : gouts pr) (s0 s1 : S) : sys :=
  Sys (PRun (ec_layers ec) go0 s0) (PRun (ec_layers ec) go1 s1) [] [].
End Async.

Arguments PRun {pr S}. Arguments PSend {pr S}. Arguments PWait {pr S}. Arguments PDone {pr S}.
Arguments Sys {pr S}. Arguments y_0 {pr S}. Arguments y_1 {pr S}. Arguments y_q01 {pr S}.
Arguments y_q10 {pr S}. Arguments p_local {pr S}. Arguments p_step {pr S}.
Arguments a_step {pr S}. Arguments a_run {pr S}. Arguments a_init {pr S}.
