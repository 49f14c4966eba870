(** Model of the multiplication triple providers that do not use oblivious transfer:
    crates/seec/src/mul_triple/storage.rs, boolean/trusted_provider.rs and
    boolean/trusted_seed_provider.rs.  No proofs here. *)
From Coq Require Import List Bool Arith.
Require Import Verif.Prelude Verif.BitVecModel Verif.GateModel Verif.BoolGmwModel Verif.ArithGmwModel Verif.OtModel.
Import ListNotations.
Open Scope nat_scope.

(** ** File storage *)

(** protocols/mod.rs 248-266 [SetupStorage]: the operations used by the file
    storage.  [su_remove_first] returns (self afterwards, the removed part), [None] is
    a panic. *)
Record setup_ops (T : Type) := SetupOps {
  su_len : T -> nat; su_default : T; su_append : T -> T -> T;
  su_remove_first : T -> nat -> option (T * T) }.
Arguments su_len {T}. Arguments su_default {T}. Arguments su_append {T}. Arguments su_remove_first {T}.

(** mul_triple/boolean/mod.rs 210-243 [impl SetupStorage for MulTriples] and the
    derived [Default]. *)
Definition bool_setup (W : nat) : setup_ops mul_triples :=
  SetupOps _ mts_len (MTS (bv_of_bits W []) (bv_of_bits W []) (bv_of_bits W []))
    (mts_append W) (mts_remove_first W).

(** mul_triple/arithmetic/mod.rs 78-102 [impl SetupStorage for MulTriples]. *)
Definition arith_setup : setup_ops amts :=
  SetupOps _ amts_len (AMTS [] [] []) amts_append amts_remove_first.

(** storage.rs 18-25 [MTStorage] when reading: the batches left in the file and
    [stored_mts].  Simplified: serialisation (bincode) is the identity, so the file is
    the list of the batches that were written; reading at its end is an error. *)
Record mtfile (T : Type) := MtFile { mf_file : list T; mf_stored : T }.
Arguments MtFile {T}. Arguments mf_file {T}. Arguments mf_stored {T}.

(** storage.rs 74-90 [store_mts]: the batches appended to the file and the
    provider afterwards.  [req] is [request_mts] of the provider. *)
Fixpoint store_loop {T P} (req : P -> nat -> result T * P) (bs batches : nat) (p : P)
  : result unit * list T * P :=
  match batches with
  | 0 => (ROk tt, [], p)
  | S n =>
      match req p bs with
      | (ROk mts, p) => let '(r, l, p) := store_loop req bs n p in (r, mts :: l, p)
      | (RErr, p) => (RErr, [], p)
      | (RPanic, p) => (RPanic, [], p)
      end
  end.
(** storage.rs 74-90 [store_mts]. *)
Definition store_mts {T P} (req : P -> nat -> result T * P) (bs count : nat) (p : P)
  : result unit * list T * P :=
  if bs =? 0 then (RPanic, [], p) else store_loop req bs ((count + (bs - 1)) / bs) p.

(** storage.rs 111-137 [precompute_mts] without the feature bench-api. *)
Fixpoint mtf_loop {T} (su : setup_ops T) (amount added : nat) (file : list T) (stored : T)
  : result unit * mtfile T :=
  if added <? amount then
    match file with
    | [] => (RErr, MtFile [] stored)
    | batch :: file => mtf_loop su amount (added + su_len su batch) file (su_append su stored batch)
    end
  else (ROk tt, MtFile file stored).
(** storage.rs 111-137 [precompute_mts]. *)
Definition mtf_precompute {T} (su : setup_ops T) (m : mtfile T) (amount : nat) : result unit * mtfile T :=
  mtf_loop su amount 0 (mf_file m) (mf_stored m).

(** storage.rs 139-145 [request_mts]. *)
Definition mtf_request {T} (su : setup_ops T) (m : mtfile T) (amount : nat) : result T * mtfile T :=
  let '(r, m) := if su_len su (mf_stored m) <? amount
                 then mtf_precompute su m (amount - su_len su (mf_stored m)) else (ROk tt, m) in
  match r with
  | ROk _ =>
      match su_remove_first su (mf_stored m) amount with
      | Some (rest, out) => (ROk out, MtFile (mf_file m) rest)
      | None => (RPanic, m)
      end
  | RErr => (RErr, m)
  | RPanic => (RPanic, m)
  end.

(** A history of calls on one storage; an error is reported to the caller, who may
    continue. storage.rs 111-145. *)
Inductive fop := FPre (n : nat) | FReq (n : nat).
(** What the calls of storage.rs 111-145 return. *)
Inductive fout (T : Type) := FoPre (r : result unit) | FoReq (r : result T).
Arguments FoPre {T}. Arguments FoReq {T}.
(** User code: one call of storage.rs 111-145. *)
Definition mtf_step {T} (su : setup_ops T) (m : mtfile T) (o : fop) : fout T * mtfile T :=
  match o with
  | FPre n => let '(r, m) := mtf_precompute su m n in (FoPre r, m)
  | FReq n => let '(r, m) := mtf_request su m n in (FoReq r, m)
  end.
(** User code: a history of calls of storage.rs 111-145. *)
Fixpoint mtf_run {T} (su : setup_ops T) (m : mtfile T) (ops : list fop) : list (fout T) * mtfile T :=
  match ops with
  | [] => ([], m)
  | o :: ops =>
      let '(r, m) := mtf_step su m o in
      let '(rs, m) := mtf_run su m ops in (r :: rs, m)
  end.

(** storage.rs 50-58 [new]: a freshly opened file. *)
Definition mtf_open {T} (su : setup_ops T) (file : list T) : mtfile T := MtFile file (su_default su).

(** ** Trusted dealer *)

(** The table [Arc<Mutex<HashMap<String, _>>>] shared by all connections; ids are
    numbers here.  Entries are unique per id. trusted_provider.rs 34, 101-109. *)
Definition dealer_get {T} (id : nat) (tab : list (nat * T)) : option T :=
  option_map snd (find (fun e => fst e =? id) tab).
(** [OccupiedEntry::remove], trusted_provider.rs 108. *)
Definition dealer_remove {T} (id : nat) (tab : list (nat * T)) : list (nat * T) :=
  filter (fun e => negb (fst e =? id)) tab.

(** What the dealer answers: the part made for the first request, or the part that
    was put aside. trusted_provider.rs 101-109. *)
Inductive reply (T U : Type) := RepFirst (u : U) | RepSecond (t : T).
Arguments RepFirst {T U}. Arguments RepSecond {T U}.

(** trusted_provider.rs 93-112 and trusted_seed_provider.rs 110-136
    [handle_request].  [gen amount s] makes both parts from the random source: the
    part put aside and the reply.  The lock is held during the whole call, so requests
    are handled one after the other. *)
Definition dealer_handle {S T U} (gen : nat -> S -> option (T * U * S))
  (tab : list (nat * T)) (s : S) (id amount : nat) : option (reply T U * list (nat * T) * S) :=
  match dealer_get id tab with
  | None =>
      '(t, u, s) <- gen amount s ;;
      Some (RepFirst u, (id, t) :: tab, s)
  | Some t => Some (RepSecond t, dealer_remove id tab, s)
  end.

(** One request arriving at the dealer: the party, its provider id and the
    amount. trusted_provider.rs 93-100. *)
Record dreq := DReq { dq_party : nat; dq_id : nat; dq_amount : nat }.

(** The requests in their order of arrival; the replies in the same order. Calls of
    trusted_provider.rs 93-112. *)
Fixpoint dealer_run {S T U} (gen : nat -> S -> option (T * U * S)) (tab : list (nat * T)) (s : S)
  (reqs : list dreq) : option (list (reply T U) * list (nat * T) * S) :=
  match reqs with
  | [] => Some ([], tab, s)
  | q :: reqs =>
      '(r, tab, s) <- dealer_handle gen tab s (dq_id q) (dq_amount q) ;;
      '(rs, tab, s) <- dealer_run gen tab s reqs ;;
      Some (r :: rs, tab, s)
  end.

(** trusted_provider.rs 101-106. *)
Definition triple_gen {S} (fill : S -> nat -> list bool * S) (W : nat) (amount : nat) (s : S)
  : option (mul_triples * mul_triples * S) := mts_random_pair fill W amount s.

(** trusted_provider.rs 62-78 [request_mts] of the client: the triples of the
    reply. *)
Definition triple_client (r : reply mul_triples mul_triples) : mul_triples :=
  match r with RepFirst u => u | RepSecond t => t end.

(** trusted_seed_provider.rs 117-129: [draw] draws a seed, [from_seed] is
    [MtRng::from_seed], [fill] the generator. *)
Definition seed_gen {S D R} (draw : S -> D * S) (from_seed : D -> R) (fill : R -> nat -> list bool * R)
  (W : nat) (amount : nat) (s : S) : option (D * (D * bitvec) * S) :=
  let '(seed1, s) := draw s in
  let '(seed2, s) := draw s in
  '(mts, _) <- mts_random fill W amount (from_seed seed1) ;;
  let '(a, r2) := rand_bitvec fill W amount (from_seed seed2) in
  let '(b, _) := rand_bitvec fill W amount r2 in
  Some (seed1, (seed2, mts_compute_c W mts a b), s).

(** trusted_seed_provider.rs 72-95 [request_mts] of the client. *)
Definition seed_client {D R} (from_seed : D -> R) (fill : R -> nat -> list bool * R) (W amount : nat)
  (r : reply D (D * bitvec)) : option mul_triples :=
  match r with
  | RepSecond seed => '(m, _) <- mts_random fill W amount (from_seed seed) ;; Some m
  | RepFirst (seed, c) => '(m, _) <- mts_random_with_fixed_c fill W c (from_seed seed) ;; Some m
  end.
