(** Model of the triple providers that use OT extension:
    crates/seec/src/mul_triple/boolean/ot_ext.rs and arithmetic/ot_ext.rs.  No proofs
    here.

    A party runs an OT extension as sender and one as receiver at the same time over
    two channels.  As a receiver it only sends rows, which do not depend on what it
    receives; the model therefore takes the events of its sender side as an
    argument. *)
From Coq Require Import ZArith List Bool Arith.
Require Import Verif.Prelude Verif.BitVecModel Verif.GateModel Verif.BoolGmwModel Verif.ArithGmwModel Verif.OtModel Verif.TripleModel.
Import ListNotations.
Open Scope nat_scope.

(** [Integer::next_multiple_of(&amount, &8)]. boolean/ot_ext.rs 86 and arithmetic/ot_ext.rs 64. *)
Definition next8 (n : nat) : nat := (n + 7) / 8 * 8.

(** Least significant bit of a block ([Block::lsb]). boolean/ot_ext.rs 116, 121. *)
Definition lsb (b : list bool) : bool := nth 0 b false.

(** ** Boolean triples *)

(** boolean/ot_ext.rs 20-27 [OtMTProvider]: the two extension states, the random source
    of the choices ([receiver_rng], seeded from [rng]) and the precomputed triples. *)
Record otmt (R S : Type) := OtMt {
  om_s : ots_state R; om_r : otr_state R; om_rng : S; om_pre : option mul_triples }.
Arguments OtMt {R S}. Arguments om_s {R S}. Arguments om_r {R S}. Arguments om_rng {R S}. Arguments om_pre {R S}.

(** boolean/ot_ext.rs 109-131: the triples from the outputs of both OTs. *)
Definition ot_triples (W : nat) (a : bitvec) (sots : list (list bool * list bool)) (routs : list (list bool))
  : option mul_triples :=
  let b := map (fun m => xorb (lsb (fst m)) (lsb (snd m))) sots in
  let v := map (fun m => lsb (fst m)) sots in
  let u := map lsb routs in
  let c := zip_with xorb (zip_with xorb (zip_with andb (bv_bits a) b) u) v in
  mts_from_raw a (bv_of_bits W b) (bv_of_bits W c).

(** boolean/ot_ext.rs 81-132 [compute_mts]; [evs] is what its sender side receives.
    Returns also the rows sent by the receiver side.  The [unwrap] of the joined
    results makes every error a panic. *)
Definition ot_compute {R S} (k W : nat) (fill : R -> nat -> list bool * R) (H : list bool -> list bool)
  (dfill : S -> nat -> list bool * S) (st : otmt R S) (amount : nat) (evs : list ext_event)
  : result mul_triples * list (nat * list bool) * otmt R S :=
  let n := next8 amount in
  let '(a, rng) := rand_bitvec dfill W n (om_rng st) in
  let '(rr, msgs, r') := ext_receive W fill H (om_r st) a in
  let '(sr, s') := ext_send k fill H (om_s st) n evs in
  let st' := OtMt s' r' rng (om_pre st) in
  (match sr, rr with
   | ROk sots, ROk routs =>
       match ot_triples W a sots routs with Some t => ROk t | None => RPanic end
   | _, _ => RPanic
   end, msgs, st').

(** Calls on the provider and their outcomes. User code calling boolean/ot_ext.rs 147-165. *)
Inductive oop := OPre (n : nat) | OReq (n : nat).
(** What the functions of boolean/ot_ext.rs 147-165 return. *)
Inductive oout := OoPre (r : result unit) | OoReq (r : result mul_triples).

(** [mem::take] leaves the default value. boolean/ot_ext.rs 158. *)
Definition mts_default (W : nat) : mul_triples := su_default (bool_setup W).

(** Assignment of [precomputed_mts] (boolean/ot_ext.rs 147-165). *)
Definition set_pre {R S} (st : otmt R S) (p : option mul_triples) : otmt R S :=
  OtMt (om_s st) (om_r st) (om_rng st) p.

(** boolean/ot_ext.rs 147-151 [precompute_mts], 153-165 [request_mts].  [inbox] has the
    events for every further [compute_mts]; the result has the rows sent, if any. *)
Definition ot_step {R S} (k W : nat) (fill : R -> nat -> list bool * R) (H : list bool -> list bool)
  (dfill : S -> nat -> list bool * S) (st : otmt R S) (inbox : list (list ext_event)) (o : oop)
  : oout * list (list (nat * list bool)) * list (list ext_event) * otmt R S :=
  match o with
  | OPre n =>
      let '(r, msgs, st') := ot_compute k W fill H dfill st n (hd [] inbox) in
      match r with
      | ROk t => (OoPre (ROk tt), [msgs], tl inbox, set_pre st' (Some t))
      | _ => (OoPre RPanic, [msgs], tl inbox, st')
      end
  | OReq n =>
      match om_pre st with
      | Some m =>
          if n <=? mts_len m then
            match mts_split_off_last W m n with
            | Some (rest, out) => (OoReq (ROk out), [], inbox, set_pre st (Some rest))
            | None => (OoReq RPanic, [], inbox, st)
            end
          else
            let '(r, msgs, st') := ot_compute k W fill H dfill (set_pre st (Some (mts_default W)))
                                     (n - mts_len m) (hd [] inbox) in
            match r with
            | ROk t => (OoReq (ROk (mts_append W m t)), [msgs], tl inbox, st')
            | _ => (OoReq RPanic, [msgs], tl inbox, st')
            end
      | None =>
          let '(r, msgs, st') := ot_compute k W fill H dfill st n (hd [] inbox) in
          (OoReq r, [msgs], tl inbox, st')
      end
  end.

(** A history of calls: outcomes, the rows sent per [compute_mts], final state. User code
    calling boolean/ot_ext.rs 147-165. *)
Fixpoint ot_run {R S} (k W : nat) (fill : R -> nat -> list bool * R) (H : list bool -> list bool)
  (dfill : S -> nat -> list bool * S) (st : otmt R S) (inbox : list (list ext_event)) (ops : list oop)
  : list oout * list (list (nat * list bool)) * otmt R S :=
  match ops with
  | [] => ([], [], st)
  | o :: ops =>
      let '(out, sent, inbox, st) := ot_step k W fill H dfill st inbox o in
      let '(outs, sents, st) := ot_run k W fill H dfill st inbox ops in
      (out :: outs, sent ++ sents, st)
  end.

(** ** Arithmetic triples *)

(** Bits of a ring element, least significant first (little endian bytes of [R]).
    arithmetic/ot_ext.rs 76-107 and protocols/mod.rs 414-418. *)
Definition z_bits (w : nat) (z : Z) : list bool := map (fun i => Z.testbit z (Z.of_nat i)) (seq 0 w).
(** [from_le_bytes] at protocols/mod.rs 417, on bits. *)
Fixpoint bits_z (l : list bool) : Z :=
  match l with [] => 0%Z | b :: l => (Z.b2z b + 2 * bits_z l)%Z end.

(** protocols/mod.rs 414-418 [from_block] (the low bytes) and [Block::from] (zero
    extended to [k] bits). *)
Definition from_block (w : nat) (x : list bool) : Z := bits_z (firstn w x).
(** [Block::from] of a ring element at arithmetic/ot_ext.rs 81-88: zero extended. *)
Definition to_block (k w : nat) (z : Z) : list bool := z_bits w z ++ repeat false (k - w).

(** arithmetic/ot_ext.rs 81-88 [correlation]. *)
Definition arith_corr (k w : nat) (a : list Z) (idx : nat) (x : list bool) : list bool :=
  let w' := Z.of_nat w in
  to_block k w (wadd w' (wmul w' (nth (idx / w) a 0%Z) (2 ^ Z.of_nat (idx mod w))%Z) (from_block w x)).

(** arithmetic/ot_ext.rs 110-119 [reduce]; [chunks_exact] drops an incomplete last
    chunk. *)
Definition reduce (w : nat) (op : Z -> Z -> Z) (l : list (list bool)) : list Z :=
  map (fun i => fold_left (fun acc b => op acc (from_block w b)) (firstn w (skipn (i * w) l)) 0%Z)
      (seq 0 (length l / w)).

(** arithmetic/ot_ext.rs 76, 98-107: the receiver side; [b] has [amount] elements. *)
Definition arith_choices (w : nat) (b : list Z) : bitvec := bv_of_bits 8 (flat_map (z_bits w) b).

(** arithmetic/ot_ext.rs 59-131 [compute_mts]; [a], [b] are the drawn elements, [evs]
    the rows and [cev] the correlation message it receives.  Returns also the rows and
    the correlation message it sends. *)
Definition arith_ot_compute {R} (k w : nat) (fill : R -> nat -> list bool * R) (H : list bool -> list bool)
  (ss : ots_state R) (rs : otr_state R) (n : nat) (a b : list Z) (evs : list ext_event) (cev : corr_event)
  : result amts * list (nat * list bool) * list bool * ots_state R * otr_state R :=
  let amount := next8 (n * w) in
  let choices := arith_choices w b in
  let '(rr, msgs, rs') := ext_receive 8 fill H rs choices in
  let '(sr, ss') := ext_send k fill H ss amount evs in
  match sr, rr with
  | ROk sots, ROk routs =>
      let '(xs, m) := corr_send k (arith_corr k w a) sots in
      match corr_receive k (bv_bits choices) routs cev with
      | ROk ys =>
          let u := reduce w (wsub (Z.of_nat w)) xs in
          let v := reduce w (wadd (Z.of_nat w)) ys in
          let ab := zip_with (wmul (Z.of_nat w)) a b in
          let c := zip_with (wadd (Z.of_nat w)) (zip_with (wadd (Z.of_nat w)) ab u) v in
          (ROk (AMTS a b c), msgs, m, ss', rs')
      | _ => (RPanic, msgs, m, ss', rs')
      end
  | _, _ => (RPanic, msgs, [], ss', rs')
  end.
