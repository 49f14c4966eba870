(** One party of an execution, with the messages it sends and receives.
    Model of crates/seec/src/executor.rs 123-493 [Executor::execute] seen from a
    single party: the peer is only the list of messages that arrive.  No proofs
    here. *)
From Coq Require Import List Bool Arith.
Require Import Verif.Prelude Verif.GateModel Verif.ProtocolModel Verif.CircuitModel
  Verif.ExecModel.
Import ListNotations.

Section Party.
Variable pr : protocol.
Variable S : Type.
Variable req : S -> nat -> option (p_setup pr * S).

(** executor.rs 153-475: the loop over the layers.  [inc] are the messages that
    arrive on [receiver] (413-416); with none left the call waits forever, or
    panics if the channel is closed (both [None]).  Result: the messages sent (399),
    messages not read, gate outputs and provider state.  The functions of one
    layer are those of ExecModel. *)
Fixpoint px_layers (party : nat) (ec : ecirc (p_gate pr)) (inp : istore pr) (ls : list elayer)
  (inc : list (emsg pr)) (go : gouts pr) (s : S)
  : option (list (emsg pr) * list (emsg pr) * gouts pr * S) :=
  match ls with
  | [] => Some ([], inc, go, s)
  | l :: r =>
      go <- ofold (ex_ni party ec (ec_main_simd ec) inp) go (el_ni l) ;;
      let n := el_int_count l in
      if n =? 0 then px_layers party ec inp r inc go s
      else
        '(st, s) <- req s n ;;
        '(m, st, go) <- ex_send party ec l st go ;;
        match inc with
        | [] => None
        | x :: inc' =>
            go <- ex_recv party ec l st m x go ;;
            '(ms, rest, go, s) <- px_layers party ec inp r inc' go s ;;
            Some (m :: ms, rest, go, s)
        end
  end.

(** executor.rs 123-493 [execute]: the check of the number of inputs (138-147),
    the loop, the outputs (481-492).  Result: messages sent and messages not read,
    then output shares, gate outputs and provider state. *)
Definition px_run (party : nat) (ec : ecirc (p_gate pr)) (inp : istore pr)
  (inc : list (emsg pr)) (go : gouts pr) (s : S)
  : option (list (emsg pr) * list (emsg pr) * (istore pr * gouts pr * S)) :=
  _ <- oassert (istore_len inp =? length (ec_inputs ec)) ;;
  '(ms, rest, go, s) <- px_layers party ec inp (ec_layers ec) inc go s ;;
  o <- ex_outputs ec go ;;
  Some (ms, rest, (o, go, s)).
End Party.

Arguments px_layers {pr S}. Arguments px_run {pr S}.

(** A provider whose answers are the given list: the k-th call of
    [request_setup_output] (executor.rs 342-346, protocols/mod.rs 300-302) returns
    the k-th element. *)
Definition batch_req {St : Type} (s : list St) (_n : nat) : option (St * list St) :=
  match s with [] => None | b :: r => Some (b, r) end.
