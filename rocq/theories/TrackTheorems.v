(** C77: tracking readers and writers. *)
From Coq Require Import List Bool Arith NArith Lia.
Require Import Verif.Prelude Verif.TrackModel.
Import ListNotations.

(** ** Specification *)

(** Calls of a combined reader and writer and what they return. *)
Inductive rw_op := OWrite (buf : list N) | OVectored (bufs : list (list N)) | OFlush | OShutdown | OIsVectored
| ORead (filled : list N) (cap : nat) | OReset.
Inductive rw_res := RWrote (p : poll (io nat)) | RDone (p : poll (io unit)) | RIs (b : bool) | RRead (after : list N) (p : poll (io unit)) | RReset.

(** The calls without tracking. *)
Definition plain_step {R W} (IR : inner_reader R) (IW : inner_writer W) (s : R * W) (o : rw_op) : (R * W) * rw_res :=
  let '(r, w) := s in
  match o with
  | OWrite b => let '(w', p) := iw_write IW w b in ((r, w'), RWrote p)
  | OVectored b => let '(w', p) := iw_vectored IW w b in ((r, w'), RWrote p)
  | OFlush => let '(w', p) := iw_flush IW w in ((r, w'), RDone p)
  | OShutdown => let '(w', p) := iw_shutdown IW w in ((r, w'), RDone p)
  | OIsVectored => ((r, w), RIs (iw_is_vectored IW w))
  | ORead f c => let '(r', a, p) := IR r f c in ((r', w), RRead a p)
  | OReset => ((r, w), RReset)
  end.
Fixpoint plain_run {R W} (IR : inner_reader R) (IW : inner_writer W) (s : R * W) (ops : list rw_op) : (R * W) * list rw_res :=
  match ops with
  | [] => (s, [])
  | o :: ops => let '(s1, x) := plain_step IR IW s o in let '(s2, xs) := plain_run IR IW s1 ops in (s2, x :: xs)
  end.

(** The same calls with tracking. *)
Definition track_step {R W} (IR : inner_reader R) (IW : inner_writer W) (t : track_rw R W) (o : rw_op) : option (track_rw R W * rw_res) :=
  match o with
  | OWrite b => let '(t', p) := rw_write IW t b in Some (t', RWrote p)
  | OVectored b => let '(t', p) := rw_vectored IW t b in Some (t', RWrote p)
  | OFlush => let '(t', p) := rw_flush IW t in Some (t', RDone p)
  | OShutdown => let '(t', p) := rw_shutdown IW t in Some (t', RDone p)
  | OIsVectored => Some (t, RIs (rw_is_vectored IW t))
  | ORead f c => '(t', a, p) <- rw_read IR t f c ;; Some (t', RRead a p)
  | OReset => Some (rw_reset t, RReset)
  end.
Fixpoint track_run {R W} (IR : inner_reader R) (IW : inner_writer W) (t : track_rw R W) (ops : list rw_op) : option (track_rw R W * list rw_res) :=
  match ops with
  | [] => Some (t, [])
  | o :: ops => '(t1, x) <- track_step IR IW t o ;; '(t2, xs) <- track_run IR IW t1 ops ;; Some (t2, x :: xs)
  end.

(** The bytes that results report as written and as read since the last reset,
    starting with [n]. *)
Fixpoint written (n : nat) (xs : list rw_res) : nat :=
  match xs with
  | [] => n
  | RWrote (Ready (Ok k)) :: xs => written (n + k) xs
  | RReset :: xs => written 0 xs
  | _ :: xs => written n xs
  end.
Fixpoint received (n : nat) (ops : list rw_op) (xs : list rw_res) : nat :=
  match ops, xs with
  | ORead f _ :: ops, RRead a _ :: xs => received (n + (length a - length f)) ops xs
  | OReset :: ops, _ :: xs => received 0 ops xs
  | _ :: ops, _ :: xs => received n ops xs
  | _, _ => n
  end.

(** A reader only appends to the buffer. *)
Definition appends {R} (I : inner_reader R) : Prop := forall r f c, exists more, snd (fst (I r f c)) = f ++ more.

(** Tracking does not change what calls return, and counts exactly the bytes that the
    calls wrote and read, also those of reads that are pending or fail. *)
Theorem C77_read_write :
  forall R W (IR : inner_reader R) (IW : inner_writer W), appends IR ->
  forall ops r w, exists t,
    track_run IR IW (rw_new r w) ops = Some (t, snd (plain_run IR IW (r, w) ops)) /\
    (tr_reader (rw_reader t), tw_writer (rw_writer t)) = fst (plain_run IR IW (r, w) ops) /\
    tw_count (rw_writer t) = written 0 (snd (plain_run IR IW (r, w) ops)) /\
    tr_count (rw_reader t) = received 0 ops (snd (plain_run IR IW (r, w) ops)).
Proof.
  intros R W IR IW HA ops r w. unfold rw_new, tr_new, tw_new.
  assert (G : forall ops r w m n, exists t,
    track_run IR IW (TRW (TR r n) (TW w m)) ops = Some (t, snd (plain_run IR IW (r, w) ops)) /\
    (tr_reader (rw_reader t), tw_writer (rw_writer t)) = fst (plain_run IR IW (r, w) ops) /\
    tw_count (rw_writer t) = written m (snd (plain_run IR IW (r, w) ops)) /\
    tr_count (rw_reader t) = received n ops (snd (plain_run IR IW (r, w) ops))).
  2: exact (G ops r w 0 0).
  clear ops r w.
  induction ops as [|o ops IH]; intros r w m n; cbn [track_run plain_run]; [eexists; repeat split; reflexivity|].
  destruct o as [b|b| | | |f c|]; cbn [track_step plain_step].
  - unfold rw_write, tw_write. cbn [rw_writer tw_writer tw_count rw_reader]. destruct (iw_write IW w b) as [w' p]. cbn [obind].
    destruct (IH r w' (m + wrote p) n) as (t & E & S & C1 & C2). rewrite E. cbn [obind]. destruct (plain_run IR IW (r, w') ops) as [s xs]. cbn [fst snd] in *.
    exists t. split; [reflexivity|]. split; [exact S|]. split; [|exact C2]. rewrite C1. destruct p as [|[k|e]]; cbn [written wrote]; rewrite ?Nat.add_0_r; reflexivity.
  - unfold rw_vectored, tw_vectored. cbn [rw_writer tw_writer tw_count rw_reader]. destruct (iw_vectored IW w b) as [w' p]. cbn [obind].
    destruct (IH r w' (m + wrote p) n) as (t & E & S & C1 & C2). rewrite E. cbn [obind]. destruct (plain_run IR IW (r, w') ops) as [s xs]. cbn [fst snd] in *.
    exists t. split; [reflexivity|]. split; [exact S|]. split; [|exact C2]. rewrite C1. destruct p as [|[k|e]]; cbn [written wrote]; rewrite ?Nat.add_0_r; reflexivity.
  - unfold rw_flush, tw_flush. cbn [rw_writer tw_writer tw_count rw_reader]. destruct (iw_flush IW w) as [w' p]. cbn [obind].
    destruct (IH r w' m n) as (t & E & S & C1 & C2). rewrite E. cbn [obind]. destruct (plain_run IR IW (r, w') ops) as [s xs]. cbn [fst snd] in *. exists t. auto.
  - unfold rw_shutdown, tw_shutdown. cbn [rw_writer tw_writer tw_count rw_reader]. destruct (iw_shutdown IW w) as [w' p]. cbn [obind].
    destruct (IH r w' m n) as (t & E & S & C1 & C2). rewrite E. cbn [obind]. destruct (plain_run IR IW (r, w') ops) as [s xs]. cbn [fst snd] in *. exists t. auto.
  - cbn [obind rw_is_vectored tw_is_vectored rw_writer tw_writer].
    destruct (IH r w m n) as (t & E & S & C1 & C2). rewrite E. cbn [obind]. destruct (plain_run IR IW (r, w) ops) as [s xs]. cbn [fst snd] in *. exists t. auto.
  - unfold rw_read, tr_read. cbn [rw_reader tr_reader tr_count rw_writer]. destruct (HA r f c) as [more HM]. destruct (IR r f c) as [[r' a] p]. cbn [fst snd] in HM.
    assert (EL : length f <=? length a = true) by (apply Nat.leb_le; rewrite HM, app_length; lia). rewrite EL. cbn [oassert obind].
    destruct (IH r' w m (n + (length a - length f))) as (t & E & S & C1 & C2). rewrite E. cbn [obind]. destruct (plain_run IR IW (r', w) ops) as [s xs]. cbn [fst snd] in *. exists t. auto.
  - unfold rw_reset, tr_reset, tw_reset. cbn [obind rw_reader rw_writer tr_reader tw_writer].
    destruct (IH r w 0 0) as (t & E & S & C1 & C2). rewrite E. cbn [obind]. destruct (plain_run IR IW (r, w) ops) as [s xs]. cbn [fst snd] in *. exists t. auto.
Qed.
Print Assumptions C77_read_write.

(** *** Frames *)
Inductive fr_op := FReady | FSend (item : list N) | FFlush | FClose | FNext.
Inductive fr_res := FDone (p : poll (io unit)) | FSent (p : io unit) | FGot (p : poll (option (list N))).
Definition fplain_step {R W} (IR : R -> R * poll (option (list N))) (IW : inner_sink W) (s : R * W) (o : fr_op) : (R * W) * fr_res :=
  let '(r, w) := s in
  match o with
  | FReady => let '(w', p) := is_ready IW w in ((r, w'), FDone p)
  | FSend i => let '(w', p) := is_send IW w i in ((r, w'), FSent p)
  | FFlush => let '(w', p) := is_flush IW w in ((r, w'), FDone p)
  | FClose => let '(w', p) := is_close IW w in ((r, w'), FDone p)
  | FNext => let '(r', p) := IR r in ((r', w), FGot p)
  end.
Definition ftrack_step {R W} (IR : R -> R * poll (option (list N))) (IW : inner_sink W) (s : track_reader R * track_writer W) (o : fr_op)
  : (track_reader R * track_writer W) * fr_res :=
  let '(r, w) := s in
  match o with
  | FReady => let '(w', p) := ts_ready IW w in ((r, w'), FDone p)
  | FSend i => let '(w', p) := ts_send IW w i in ((r, w'), FSent p)
  | FFlush => let '(w', p) := ts_flush IW w in ((r, w'), FDone p)
  | FClose => let '(w', p) := ts_close IW w in ((r, w'), FDone p)
  | FNext => let '(r', p) := tr_next IR r in ((r', w), FGot p)
  end.
Fixpoint run_all {S O X} (step : S -> O -> S * X) (s : S) (ops : list O) : S * list X :=
  match ops with
  | [] => (s, [])
  | o :: ops => let '(s1, x) := step s o in let '(s2, xs) := run_all step s1 ops in (s2, x :: xs)
  end.
(** A frame is four bytes longer than its item. *)
Definition frames (l : list (list N)) : nat := sum_list (map (fun i => length i + 4) l).
(** The items given to the sink, those of them that it refused, and the items delivered. *)
Fixpoint given (ops : list fr_op) : list (list N) :=
  match ops with [] => [] | FSend i :: ops => i :: given ops | _ :: ops => given ops end.
Fixpoint accepted (ops : list fr_op) (xs : list fr_res) : list (list N) :=
  match ops, xs with
  | FSend i :: ops, FSent (Ok _) :: xs => i :: accepted ops xs
  | _ :: ops, _ :: xs => accepted ops xs
  | _, _ => []
  end.
Fixpoint delivered (xs : list fr_res) : list (list N) :=
  match xs with [] => [] | FGot (Ready (Some b)) :: xs => b :: delivered xs | _ :: xs => delivered xs end.
Definition refuses (x : fr_res) : Prop := exists e, x = FSent (Err e).

(** With frames, tracking does not change what calls return; the reader counts the
    frames delivered and the writer the frames given to the sink, which are those that
    the sink accepted if it refused none. *)
Theorem C77_frames :
  forall R W (IR : R -> R * poll (option (list N))) (IW : inner_sink W) ops r w,
  let '(plain, xs) := run_all (fplain_step IR IW) (r, w) ops in
  exists tr tw, run_all (ftrack_step IR IW) (tr_new r, tw_new w) ops = ((tr, tw), xs) /\
    (tr_reader tr, tw_writer tw) = plain /\ tr_count tr = frames (delivered xs) /\ tw_count tw = frames (given ops) /\
    ((forall x, In x xs -> ~ refuses x) -> given ops = accepted ops xs).
Proof.
  intros R W IR IW ops r w. unfold tr_new, tw_new.
  assert (G : forall ops r w m n, let '(plain, xs) := run_all (fplain_step IR IW) (r, w) ops in
    exists tr tw, run_all (ftrack_step IR IW) (TR r m, TW w n) ops = ((tr, tw), xs) /\
    (tr_reader tr, tw_writer tw) = plain /\ tr_count tr = m + frames (delivered xs) /\ tw_count tw = n + frames (given ops) /\
    ((forall x, In x xs -> ~ refuses x) -> given ops = accepted ops xs)).
  2: exact (G ops r w 0 0).
  clear. unfold frames. induction ops as [|o ops IH]; intros r w m n; cbn [run_all].
  - exists (TR r m), (TW w n). cbn. rewrite !Nat.add_0_r. auto.
  - destruct o as [|i| | |]; cbn [fplain_step ftrack_step].
    + unfold ts_ready. cbn [tw_writer tw_count]. destruct (is_ready IW w) as [w' p]. specialize (IH r w' m n). destruct (run_all (fplain_step IR IW) (r, w') ops) as [pl xs].
      destruct IH as (tr & tw & E & A & B & C & D). rewrite E. exists tr, tw. cbn [delivered given accepted]. repeat (split; [auto|]). intros H. apply D. intros x Hx. apply H. right. exact Hx.
    + unfold ts_send. cbn [tw_writer tw_count]. destruct (is_send IW w i) as [w' p]. specialize (IH r w' m (n + (length i + 4))). destruct (run_all (fplain_step IR IW) (r, w') ops) as [pl xs].
      destruct IH as (tr & tw & E & A & B & C & D). rewrite E. exists tr, tw. cbn [delivered given accepted map sum_list]. split; [reflexivity|]. split; [exact A|]. split; [exact B|].
      split; [rewrite C; unfold sum_list; cbn [fold_right]; lia|]. intros H. destruct p as [u|e]; [|destruct (H (FSent (Err e)) (or_introl eq_refl)); exists e; reflexivity].
      f_equal. apply D. intros x Hx. apply H. right. exact Hx.
    + unfold ts_flush. cbn [tw_writer tw_count]. destruct (is_flush IW w) as [w' p]. specialize (IH r w' m n). destruct (run_all (fplain_step IR IW) (r, w') ops) as [pl xs].
      destruct IH as (tr & tw & E & A & B & C & D). rewrite E. exists tr, tw. cbn [delivered given accepted]. repeat (split; [auto|]). intros H. apply D. intros x Hx. apply H. right. exact Hx.
    + unfold ts_close. cbn [tw_writer tw_count]. destruct (is_close IW w) as [w' p]. specialize (IH r w' m n). destruct (run_all (fplain_step IR IW) (r, w') ops) as [pl xs].
      destruct IH as (tr & tw & E & A & B & C & D). rewrite E. exists tr, tw. cbn [delivered given accepted]. repeat (split; [auto|]). intros H. apply D. intros x Hx. apply H. right. exact Hx.
    + unfold tr_next. cbn [tr_reader tr_count]. destruct (IR r) as [r' p]. specialize (IH r' w (m + match p with Ready (Some b) => length b + 4 | _ => 0 end) n). destruct (run_all (fplain_step IR IW) (r', w) ops) as [pl xs].
      destruct IH as (tr & tw & E & A & B & C & D). rewrite E. exists tr, tw. cbn [given accepted]. split; [reflexivity|]. split; [exact A|].
      split; [rewrite B; destruct p as [|[b|]]; cbn [delivered map]; unfold sum_list; cbn [fold_right]; lia|]. split; [exact C|].
      intros H. apply D. intros x Hx. apply H. right. exact Hx.
Qed.
Print Assumptions C77_frames.

(** The bytes counted as sent are not always bytes that the sink took: a refused item is
    counted. *)
Theorem C77_sent_refuted : exists W (IW : inner_sink W) w item,
  let '(t, p) := ts_send IW (tw_new w) item in p = Err 1 /\ tw_writer t = w /\ tw_count t = 5.
Proof.
  exists unit, (InnerS (fun w => (w, Ready (Ok tt))) (fun w _ => (w, Err 1)) (fun w => (w, Ready (Ok tt))) (fun w => (w, Ready (Ok tt)))), tt, [7%N].
  repeat split; reflexivity.
Qed.
Print Assumptions C77_sent_refuted.

(** *** Two ends of a connection *)

(** How a transport that loses nothing answers: it takes up to [k] bytes, or none, and
    hands out up to [k] bytes with any result. *)
Inductive answer := Takes (k : nat) | Waits | Fails (e : nat).
Definition pipe_writer (h : answer) : inner_writer (list N) :=
  let take (q buf : list N) := match h with Takes k => (q ++ firstn k buf, Ready (Ok (length (firstn k buf)))) | Waits => (q, Pending) | Fails e => (q, Ready (Err e)) end in
  InnerW take (fun q bufs => take q (concat bufs)) (fun q => (q, Ready (Ok tt))) (fun q => (q, Ready (Ok tt))) (fun _ => true).
Definition pipe_reader (k : nat) (p : poll (io unit)) : inner_reader (list N) :=
  fun q filled cap => let k := Nat.min k (cap - length filled) in (skipn k q, filled ++ firstn k q, p).
Inductive pipe_ev := PWrite (h : answer) (buf : list N) | PVectored (h : answer) (bufs : list (list N)) | PRead (k : nat) (p : poll (io unit)) (filled : list N) (cap : nat).
(** The queue and the counters of the two ends. *)
Definition pipe_step (s : list N * nat * nat) (e : pipe_ev) : option (list N * nat * nat) :=
  let '(q, cw, cr) := s in
  match e with
  | PWrite h b => let t := fst (tw_write (pipe_writer h) (TW q cw) b) in Some (tw_writer t, tw_count t, cr)
  | PVectored h b => let t := fst (tw_vectored (pipe_writer h) (TW q cw) b) in Some (tw_writer t, tw_count t, cr)
  | PRead k p f c => '(t, _, _) <- tr_read (pipe_reader k p) (TR q cr) f c ;; Some (tr_reader t, cw, tr_count t)
  end.

(** At any time the bytes counted by the sender are those counted by the receiver and
    those under way. *)
Theorem C77_balance : forall es,
  exists q sent rcvd, ofold pipe_step ([], 0, 0) es = Some (q, sent, rcvd) /\ sent = rcvd + length q.
Proof.
  assert (G : forall es q cw cr, cw = cr + length q -> exists q' sent rcvd, ofold pipe_step (q, cw, cr) es = Some (q', sent, rcvd) /\ sent = rcvd + length q').
  2: intros es; exact (G es [] 0 0 eq_refl).
  induction es as [|e es IH]; intros q cw cr H; cbn [ofold]; [exists q, cw, cr; auto|].
  destruct e as [h b|h b|k p f c]; cbn [pipe_step].
  - unfold tw_write, pipe_writer. cbn [iw_write tw_writer tw_count]. destruct h as [k| |e]; cbn [fst tw_writer tw_count wrote obind]; apply IH; rewrite ?app_length; lia.
  - unfold tw_vectored, pipe_writer. cbn [iw_vectored tw_writer tw_count]. destruct h as [k| |e]; cbn [fst tw_writer tw_count wrote obind]; apply IH; rewrite ?app_length; lia.
  - unfold tr_read, pipe_reader. cbn [tr_reader tr_count]. set (k' := Nat.min k (c - length f)). rewrite !app_length.
    rewrite (proj2 (Nat.leb_le _ _)) by lia. cbn [oassert obind tr_reader tr_count]. apply IH. rewrite firstn_length, skipn_length. lia.
Qed.
Print Assumptions C77_balance.

(** A write of which a part is accepted, a read that is pending after two bytes, a reset
    and a failing write; a pipe with one byte under way. *)
Example C77_case :
  let IW := InnerW (fun w buf => (w + length buf, if w =? 0 then Ready (Ok 3) else Ready (Err 9))) (fun w _ => (w, Pending))
              (fun w => (w, Ready (Ok tt))) (fun w => (w, Ready (Ok tt))) (fun _ => false) in
  let IR : inner_reader nat := fun r f _ => (S r, f ++ [1%N; 2%N], Pending) in
  appends IR /\
  (exists t, track_run IR IW (rw_new 0 0) [OWrite [1%N; 2%N; 3%N; 4%N]; ORead [5%N] 8; OWrite [6%N]] =
     Some (t, [RWrote (Ready (Ok 3)); RRead [5%N; 1%N; 2%N] Pending; RWrote (Ready (Err 9))]) /\ tw_count (rw_writer t) = 3 /\ tr_count (rw_reader t) = 2) /\
  ofold pipe_step ([], 0, 0) [PWrite (Takes 3) [1%N; 2%N; 3%N; 4%N]; PWrite (Fails 1) [5%N]; PRead 2 Pending [9%N] 4] = Some ([3%N], 3, 2).
Proof.
  cbv zeta. split; [intros r f c; exists [1%N; 2%N]; reflexivity|]. split; [eexists; split; [reflexivity|]; split; reflexivity|reflexivity].
Qed.
