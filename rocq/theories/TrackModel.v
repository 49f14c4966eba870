(** Model of the tracking readers and writers in crates/seec-channel/src/util.rs.  No
    proofs here.

    The wrapped reader or writer is any state machine.  Simplified: task contexts and
    wakers are dropped, counters are unbounded numbers. *)
From Coq Require Import List Bool Arith NArith.
Require Import Verif.Prelude.
Import ListNotations.

(** [Poll] and [io::Result] as used in util.rs 214-310; an error is a number. *)
Inductive poll (A : Type) := Pending | Ready (a : A).
Arguments Pending {A}. Arguments Ready {A} a.
(** See above, util.rs 214-310. *)
Inductive io (A : Type) := Ok (a : A) | Err (e : nat).
Arguments Ok {A} a. Arguments Err {A} e.

(** What [AsyncWrite] (util.rs 214-253) calls of the wrapped writer. *)
Record inner_writer (W : Type) := InnerW {
  iw_write : W -> list N -> W * poll (io nat);
  iw_vectored : W -> list (list N) -> W * poll (io nat);
  iw_flush : W -> W * poll (io unit);
  iw_shutdown : W -> W * poll (io unit);
  iw_is_vectored : W -> bool }.
Arguments InnerW {W}. Arguments iw_write {W}. Arguments iw_vectored {W}. Arguments iw_flush {W}.
Arguments iw_shutdown {W}. Arguments iw_is_vectored {W}.

(** What [AsyncRead] (util.rs 255-267) calls of the wrapped reader: from the filled part
    and the capacity of the buffer to the filled part afterwards. *)
Definition inner_reader (R : Type) := R -> list N -> nat -> R * list N * poll (io unit).

(** What [Sink] (util.rs 269-296) calls of the wrapped sink. *)
Record inner_sink (W : Type) := InnerS {
  is_ready : W -> W * poll (io unit);
  is_send : W -> list N -> W * io unit;
  is_flush : W -> W * poll (io unit);
  is_close : W -> W * poll (io unit) }.
Arguments InnerS {W}. Arguments is_ready {W}. Arguments is_send {W}. Arguments is_flush {W}. Arguments is_close {W}.

(** util.rs 22-26 [TrackingWriter]. *)
Record track_writer (W : Type) := TW { tw_writer : W; tw_count : nat }.
Arguments TW {W}. Arguments tw_writer {W}. Arguments tw_count {W}.
(** util.rs 30-34 [TrackingReader]. *)
Record track_reader (R : Type) := TR { tr_reader : R; tr_count : nat }.
Arguments TR {R}. Arguments tr_reader {R}. Arguments tr_count {R}.
(** util.rs 38-43 [TrackingReadWrite]. *)
Record track_rw (R W : Type) := TRW { rw_reader : track_reader R; rw_writer : track_writer W }.
Arguments TRW {R W}. Arguments rw_reader {R W}. Arguments rw_writer {R W}.

(** util.rs 155-160, 173-178, 191-196 [new]. *)
Definition tw_new {W} (w : W) : track_writer W := TW w 0.
(** util.rs 173-178. *)
Definition tr_new {R} (r : R) : track_reader R := TR r 0.
(** util.rs 191-196. *)
Definition rw_new {R W} (r : R) (w : W) : track_rw R W := TRW (tr_new r) (tw_new w).
(** util.rs 167-169 [reset] with 366-368. *)
Definition tw_reset {W} (t : track_writer W) : track_writer W := TW (tw_writer t) 0.
(** util.rs 185-187 [reset] with 366-368. *)
Definition tr_reset {R} (t : track_reader R) : track_reader R := TR (tr_reader t) 0.
(** util.rs 208-211 [reset]. *)
Definition rw_reset {R W} (t : track_rw R W) : track_rw R W := TRW (tr_reset (rw_reader t)) (tw_reset (rw_writer t)).

(** util.rs 221-224, 245-248: the number of bytes added to the counter. *)
Definition wrote (p : poll (io nat)) : nat := match p with Ready (Ok n) => n | _ => 0 end.

(** util.rs 215-226 [poll_write]. *)
Definition tw_write {W} (I : inner_writer W) (t : track_writer W) (buf : list N) : track_writer W * poll (io nat) :=
  let '(w, p) := iw_write I (tw_writer t) buf in (TW w (tw_count t + wrote p), p).
(** util.rs 238-249 [poll_write_vectored]. *)
Definition tw_vectored {W} (I : inner_writer W) (t : track_writer W) (bufs : list (list N)) : track_writer W * poll (io nat) :=
  let '(w, p) := iw_vectored I (tw_writer t) bufs in (TW w (tw_count t + wrote p), p).
(** util.rs 228-231 [poll_flush]. *)
Definition tw_flush {W} (I : inner_writer W) (t : track_writer W) : track_writer W * poll (io unit) :=
  let '(w, p) := iw_flush I (tw_writer t) in (TW w (tw_count t), p).
(** util.rs 233-236 [poll_shutdown]. *)
Definition tw_shutdown {W} (I : inner_writer W) (t : track_writer W) : track_writer W * poll (io unit) :=
  let '(w, p) := iw_shutdown I (tw_writer t) in (TW w (tw_count t), p).
(** util.rs 251-253 [is_write_vectored]. *)
Definition tw_is_vectored {W} (I : inner_writer W) (t : track_writer W) : bool := iw_is_vectored I (tw_writer t).

(** util.rs 256-267 [poll_read]; the subtraction panics (debug profile) if the wrapped
    reader takes back filled bytes. *)
Definition tr_read {R} (I : inner_reader R) (t : track_reader R) (filled : list N) (cap : nat)
  : option (track_reader R * list N * poll (io unit)) :=
  let '(r, after, p) := I (tr_reader t) filled cap in
  _ <- oassert (length filled <=? length after) ;;
  Some (TR r (tr_count t + (length after - length filled)), after, p).

(** util.rs 272-275 [poll_ready]. *)
Definition ts_ready {W} (I : inner_sink W) (t : track_writer W) : track_writer W * poll (io unit) :=
  let '(w, p) := is_ready I (tw_writer t) in (TW w (tw_count t), p).
(** util.rs 277-283 [start_send]: the counter is increased before the item is given to
    the wrapped sink. *)
Definition ts_send {W} (I : inner_sink W) (t : track_writer W) (item : list N) : track_writer W * io unit :=
  let n := tw_count t + (length item + 4) in
  let '(w, p) := is_send I (tw_writer t) item in (TW w n, p).
(** util.rs 285-288 [poll_flush]. *)
Definition ts_flush {W} (I : inner_sink W) (t : track_writer W) : track_writer W * poll (io unit) :=
  let '(w, p) := is_flush I (tw_writer t) in (TW w (tw_count t), p).
(** util.rs 290-293 [poll_close]. *)
Definition ts_close {W} (I : inner_sink W) (t : track_writer W) : track_writer W * poll (io unit) :=
  let '(w, p) := is_close I (tw_writer t) in (TW w (tw_count t), p).

(** util.rs 299-310 [poll_next] of a wrapped [Stream]. *)
Definition tr_next {R} (I : R -> R * poll (option (list N))) (t : track_reader R) : track_reader R * poll (option (list N)) :=
  let '(r, p) := I (tr_reader t) in
  (TR r (tr_count t + match p with Ready (Some b) => length b + 4 | _ => 0 end), p).

(** util.rs 313-320 [poll_write]. *)
Definition rw_write {R W} (I : inner_writer W) (t : track_rw R W) (buf : list N) : track_rw R W * poll (io nat) :=
  let '(w, p) := tw_write I (rw_writer t) buf in (TRW (rw_reader t) w, p).
(** util.rs 332-339 [poll_write_vectored]. *)
Definition rw_vectored {R W} (I : inner_writer W) (t : track_rw R W) (bufs : list (list N)) : track_rw R W * poll (io nat) :=
  let '(w, p) := tw_vectored I (rw_writer t) bufs in (TRW (rw_reader t) w, p).
(** util.rs 322-325 [poll_flush]. *)
Definition rw_flush {R W} (I : inner_writer W) (t : track_rw R W) : track_rw R W * poll (io unit) :=
  let '(w, p) := tw_flush I (rw_writer t) in (TRW (rw_reader t) w, p).
(** util.rs 327-330 [poll_shutdown]. *)
Definition rw_shutdown {R W} (I : inner_writer W) (t : track_rw R W) : track_rw R W * poll (io unit) :=
  let '(w, p) := tw_shutdown I (rw_writer t) in (TRW (rw_reader t) w, p).
(** util.rs 341-343 [is_write_vectored]. *)
Definition rw_is_vectored {R W} (I : inner_writer W) (t : track_rw R W) : bool := tw_is_vectored I (rw_writer t).
(** util.rs 347-354 [poll_read]. *)
Definition rw_read {R W} (I : inner_reader R) (t : track_rw R W) (filled : list N) (cap : nat)
  : option (track_rw R W * list N * poll (io unit)) :=
  '(r, after, p) <- tr_read I (rw_reader t) filled cap ;;
  Some (TRW r (rw_writer t), after, p).
