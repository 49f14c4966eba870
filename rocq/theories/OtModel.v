(** Model of crates/zappot/src/base_ot/mod.rs (Chou-Orlandi base OT) and of
    crates/zappot/src/ot_ext/mod.rs (OT extension).  No proofs here.

    A [Block] is its list of bits (bit 0 first), of length [k] = [BASE_OT_COUNT] =
    128 (lib.rs 38).  A byte row of a matrix is its list of bits.  A pseudo random
    generator is a parameter [fill]: [fill r n] is what [fill_bytes] writes to [n/8]
    bytes and the new generator state.  [H] is [FIXED_KEY_HASH.cr_hash_block]
    (util/aes_hash.rs 26-30).  The transposition of the matrix
    (seec-bitmatrix) is the list of its columns here; the transposition algorithms
    are modelled in BitMatrixModel.v.

    What a party receives is the list of events its channel delivers; the end of the
    list is a closed channel ([recv] returns [Ok(None)]). *)
From Coq Require Import List Bool Arith.
Require Import Verif.Prelude Verif.BitVecModel.
Import ListNotations.

(** [Result] of a call that may also panic. E.g. base_ot/mod.rs 54, 115. *)
Inductive result (A : Type) := ROk (a : A) | RErr | RPanic.
Arguments ROk {A}. Arguments RErr {A}. Arguments RPanic {A}.

(** ** Base OT *)

(** The group of base_ot/mod.rs (curve25519-dalek Ristretto points): base point,
    addition, subtraction and scalar multiplication. *)
Record group_ops (G S : Type) := GroupOps {
  g_base : G; g_add : G -> G -> G; g_sub : G -> G -> G; g_mul : S -> G -> G }.
Arguments g_base {G S}. Arguments g_add {G S}. Arguments g_sub {G S}. Arguments g_mul {G S}.

(** base_ot/mod.rs 23-28 [BaseOTMsg], and a receive error. *)
Inductive base_event (G C B : Type) :=
| BFirst (A : G) (comm : C)
| BSecond (points : list G)
| BThird (seed : B)
| BRecvErr.
Arguments BFirst {G C B}. Arguments BSecond {G C B}. Arguments BThird {G C B}. Arguments BRecvErr {G C B}.

(** base_ot/mod.rs 48-97 [send_random].  [a] and [seed] are the drawn values, [rom]
    is [rom_hash], [romp] is [rom_hash_point] (169-177).  Returns the messages that
    were sent and the result.  Simplified: send errors are not modelled. *)
Definition base_send {G S C B K} (o : group_ops G S) (rom : B -> C) (romp : G -> nat -> B -> K)
  (count : nat) (a : S) (seed : B) (evs : list (base_event G C B))
  : list (base_event G C B) * result (list (K * K)) :=
  let A := g_mul o a (g_base o) in
  let first := BFirst A (rom seed) in
  match evs with
  | BSecond points :: _ =>
      if negb (count =? length points) then ([first], RErr)
      else
        let aA := g_mul o a A in
        ([first; BThird seed],
         ROk (map (fun ip => let aB := g_mul o a (snd ip) in
                             (romp aB (fst ip) seed, romp (g_sub o aB aA) (fst ip) seed))
                  (combine (seq 0 (length points)) points)))
  | _ => ([first], RErr)
  end.

(** base_ot/mod.rs 109-166 [receive_random]; [bs] are the drawn scalars, one per
    choice. *)
Definition base_receive {G S C B K} (o : group_ops G S) (rom : B -> C) (ceqb : C -> C -> bool)
  (romp : G -> nat -> B -> K) (choices : list bool) (bs : list S) (evs : list (base_event G C B))
  : list (base_event G C B) * result (list K) :=
  match evs with
  | BFirst A comm :: evs1 =>
      let Bs := zip_with (fun (c : bool) b => let B0 := g_mul o b (g_base o) in
                                              if c then g_add o A B0 else B0) choices bs in
      match evs1 with
      | BThird seed :: _ =>
          if negb (ceqb comm (rom seed)) then ([BSecond Bs], RErr)
          else ([BSecond Bs],
                ROk (map (fun ib => romp (g_mul o (snd ib) A) (fst ib) seed)
                         (combine (seq 0 (length bs)) bs)))
      | _ => ([BSecond Bs], RErr)
      end
  | _ => ([], RErr)
  end.

(** ** OT extension *)

(** ot_ext/mod.rs 25-29 [Sender] after [perform_base_ots] (51-89): the generators
    seeded with the received base OTs, and the base choices. *)
Record ots_state (R : Type) := Ots { os_rngs : list R; os_choices : list bool }.
(** ot_ext/mod.rs 31-34 [Receiver] after [perform_base_ots] (237-268). *)
Record otr_state (R : Type) := Otr { or_rngs : list (R * R) }.
Arguments Ots {R}. Arguments os_rngs {R}. Arguments os_choices {R}.
Arguments Otr {R}. Arguments or_rngs {R}.

(** ot_ext/mod.rs 36-44 [ExtOTMsg] as received: a row, another message, or a receive
    error. *)
Inductive ext_event := EvRow (idx : nat) (row : list bool) | EvOther | EvRecvErr.

(** Columns of a matrix given by rows: [view().transpose()] and [iter_raw_rows].
    ot_ext/mod.rs 156-160, 336-338. *)
Definition columns (n : nat) (mat : list (list bool)) : list (list bool) :=
  map (fun j => map (fun row => nth j row false) mat) (seq 0 n).

(** ot_ext/mod.rs 133-154: the receive loop of [send_random]; [got] is
    [rows_received].  The loop ends without an error when the channel is closed. *)
Fixpoint recv_rows (rows : nat) (choices : list bool) (v_mat : list (list bool)) (got : nat)
  (evs : list ext_event) : result (list (list bool)) :=
  match evs with
  | [] => ROk v_mat
  | EvRecvErr :: _ => RErr
  | EvOther :: _ => RErr
  | EvRow idx u :: r =>
      match nth_error choices idx, nth_error v_mat idx with
      | Some c, Some v =>
          let u' := if c then u else map (fun _ => false) u in
          let m := upd idx (raw_zip xorb v u') v_mat in
          if S got =? rows then ROk m else recv_rows rows choices m (S got) r
      | _, _ => RPanic
      end
  end.

(** ot_ext/mod.rs 96-172 [send_random].  The generators advance in any case. *)
Definition ext_send {R} (k : nat) (fill : R -> nat -> list bool * R) (H : list bool -> list bool)
  (st : ots_state R) (count : nat) (evs : list ext_event)
  : result (list (list bool * list bool)) * ots_state R :=
  if negb (count mod 8 =? 0) then (RPanic, st)
  else
    let filled := map (fun r => fill r count) (os_rngs st) in
    let st' := Ots (map snd filled) (os_choices st) in
    (match recv_rows k (os_choices st) (map fst filled) 0 evs with
     | ROk v =>
         ROk (map (fun q => (H q, H (zip_with xorb q (os_choices st)))) (columns count v))
     | RErr => RErr
     | RPanic => RPanic
     end, st').

(** ot_ext/mod.rs 315-332: one row of the receiver. *)
Definition ext_row {R} (fill : R -> nat -> list bool * R) (n : nat) (ch : list bool) (p : R * R)
  : (list bool * list bool) * (R * R) :=
  let '(t, p0) := fill (fst p) n in
  let '(x, p1) := fill (snd p) n in
  ((t, raw_zip xorb x (zip_with xorb t ch)), (p0, p1)).

(** ot_ext/mod.rs 280-349 [receive_random]: result, the row messages and the new
    state.  The rows are computed in parallel, so the messages leave in any order. *)
Definition ext_receive {R} (W : nat) (fill : R -> nat -> list bool * R)
  (H : list bool -> list bool) (st : otr_state R) (choices : bitvec)
  : result (list (list bool)) * list (nat * list bool) * otr_state R :=
  let n := bv_len choices in
  if negb (n mod 8 =? 0) then (RPanic, [], st)
  else
    let ch := bv_raw (bv_copy W (bv_head choices) (bv_bits choices)) in
    let rows := map (ext_row fill n ch) (or_rngs st) in
    (ROk (map H (columns n (map (fun r => fst (fst r)) rows))),
     combine (seq 0 (length rows)) (map (fun r => snd (fst r)) rows),
     Otr (map snd rows)).

(** ** Correlated OT extension *)

(** ot_ext/mod.rs 200-230 [send_correlated_bytes] after [send_random]: [L] is [LEN]
    in bits; returns the outputs and the message ([cast_vec]: concatenation). *)
Definition corr_send (L : nat) (f : nat -> list bool -> list bool)
  (ots : list (list bool * list bool)) : list (list bool) * list bool :=
  (map (fun o => firstn L (fst o)) ots,
   concat (map (fun io => zip_with xorb (firstn L (snd (snd io))) (f (fst io) (firstn L (fst (snd io)))))
               (combine (seq 0 (length ots)) ots))).

(** [cast_vec] of the message back to arrays of [L] bits; panics when it does not
    divide. ot_ext/mod.rs 224, 391. *)
Fixpoint chunks (fuel L : nat) (l : list bool) : list (list bool) :=
  match fuel with
  | 0 => []
  | S n => firstn L l :: chunks n L (skipn L l)
  end.
(** [bytemuck::cast_vec] at ot_ext/mod.rs 224, 391. *)
Definition cast_arrays (L : nat) (l : list bool) : option (list (list bool)) :=
  if L =? 0 then None
  else if length l mod L =? 0 then Some (chunks (length l / L) L l) else None.

(** What the receiver gets after its rows were sent (ot_ext/mod.rs 385-389). *)
Inductive corr_event := CvCorrelated (m : list bool) | CvOther | CvClosed.

(** ot_ext/mod.rs 371-406 [receive_correlated_bytes] after [receive_random]. *)
Definition corr_receive (L : nat) (choices : list bool) (rots : list (list bool)) (ev : corr_event)
  : result (list (list bool)) :=
  match ev with
  | CvCorrelated m =>
      match cast_arrays L m with
      | None => RPanic
      | Some cs =>
          ROk (zip_with (fun rc (c : bool) => if c then zip_with xorb (firstn L (fst rc)) (snd rc)
                                              else firstn L (fst rc))
                        (combine rots cs) choices)
      end
  | _ => RErr
  end.
