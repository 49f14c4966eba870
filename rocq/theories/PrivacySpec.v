(** Specification vocabulary for what a party sees during an execution. *)
From Coq Require Import List Bool Arith.
Require Import Verif.Prelude Verif.BitVecModel Verif.BitVecSpec Verif.GateModel
  Verif.ProtocolModel Verif.BoolGmwModel Verif.BoolGmwSpec Verif.CircuitModel Verif.ExecModel
  Verif.ExecSpec Verif.ExecBoolSpec Verif.PartyModel.
Import ListNotations.

(** Three lists of equal length, related element by element. *)
Inductive each3 {A B C} (R : A -> B -> C -> Prop) : list A -> list B -> list C -> Prop :=
| each3_nil : each3 R [] [] []
| each3_cons a b c la lb lc : R a b c -> each3 R la lb lc -> each3 R (a :: la) (b :: lb) (c :: lc).

(** Parties [p] and [q] run to the end against each other: [p] sends exactly the
    messages [mp] that [q] reads and the other way round. *)
Definition together {pr : protocol} (p q : nat) (ec : ecirc (p_gate pr)) (ip iq : istore pr)
  (gp gq : gouts pr) (bp bq : list (p_setup pr)) (mp mq : list (emsg pr)) (op oq : istore pr) : Prop :=
  exists gp' gq',
    px_run batch_req p ec ip mq gp bp = Some (mp, [], (op, gp', [])) /\
    px_run batch_req q ec iq mp gq bq = Some (mq, [], (oq, gq', [])).

(** The message of a scalar layer of boolean GMW that carries the bits [d], [e]
    (boolean_gmw.rs 18-31 as words of [W] bits; no SIMD gates in the layer). *)
Definition scalar_emsg (W : nat) (de : list bool * list bool) : emsg (bool_gmw W) :=
  EM (pr:=bool_gmw W) (BMsg (length (snd de)) (words_of W (snd de)) (words_of W (fst de)))
     (Some (BSimdMsg (BMsg 0 [] []) [])).

(** A transcript of the right shape: for every layer with [n] AND gates, [n] bits
    [d] and [n] bits [e]. *)
Definition transcript_shape (ns : list nat) (t : list (list bool * list bool)) : Prop :=
  Forall2 (fun n de => length (fst de) = n /\ length (snd de) = n) ns t.

(** The two storages agree on the last [n] triples, those a layer with [n] AND
    gates uses. *)
Definition same_last (n : nat) (b b' : mul_triples) : Prop :=
  lastn n (mts_iter b) = lastn n (mts_iter b').

(** A storage with at least [n] triples. *)
Definition storage (W n : nat) (b : mul_triples) : Prop := exists h m, n <= m /\ mts_wf W h m b.

(** The message of a layer of SIMD AND gates with [n] lanes each that carries the
    bits [d], [e] (boolean_gmw.rs 27-31); no scalar AND gates in the layer. *)
Definition simd_emsg (W n : nat) (de : list bool * list bool) : emsg (bool_gmw W) :=
  EM (pr:=bool_gmw W) (BMsg 0 [] [])
     (Some (BSimdMsg (BMsg 0 (snd de) (fst de)) (repeat n (length (fst de) / n)))).

(** Valid triples of both parties for a layer with [n] lanes of AND gates, the
    last [n] of which start at a word. *)
Definition setup_aligned (W n : nat) (st0 st1 : mul_triples) : Prop :=
  exists h m, n <= m /\ (h + (m - n)) mod W = 0 /\ mts_wf W h m st0 /\ mts_wf W h m st1 /\
    triples_ok (mts_iter st0) (mts_iter st1).

(** A storage of one party with that shape. *)
Definition storage_aligned (W n : nat) (b : mul_triples) : Prop :=
  exists h m, n <= m /\ (h + (m - n)) mod W = 0 /\ mts_wf W h m b.

(** Setup data, storages, messages and inputs of circuits of SIMD size [simd]
    ([None]: no SIMD). *)
Definition good_setup (W : nat) (simd : option nat) (n : nat) (b b' : mul_triples) : Prop :=
  match simd with None => bool_setup_ok W n b b' | Some _ => setup_aligned W n b b' end.
Definition good_storage (W : nat) (simd : option nat) (n : nat) (b : mul_triples) : Prop :=
  match simd with None => storage W n b | Some _ => storage_aligned W n b end.
Definition bool_emsg (W : nat) (simd : option nat) (de : list bool * list bool) : emsg (bool_gmw W) :=
  match simd with None => scalar_emsg W de | Some n => simd_emsg W n de end.
Definition input_ok (W : nat) (simd : option nat) (k : nat) (i : istore (bool_gmw W)) : Prop :=
  match simd, i with
  | None, IScalar l => length l = k
  | Some n, ISimd l => length l = k /\ Forall (lane_vec W n) l
  | _, _ => False
  end.

Definition roles (p q : nat) : Prop := (p = 0 /\ q = 1) \/ (p = 1 /\ q = 0).

(** What [p] receives is uniformly distributed and independent of everything it
    has and of the secrets of [q]: for all inputs of both parties and all setup
    data of [p], every transcript [t] of the right shape is received for exactly
    one choice of the valid triples of [q] (up to triples a layer does not use). *)
Definition uniform_received (W : nat) (simd : option nat) (ec : ecirc bool_gate) : Prop :=
  forall p q, roles p q ->
  forall (ip iq : istore (bool_gmw W)) (gp gq : gouts (bool_gmw W)) Bp t,
  input_ok W simd (length (ec_inputs ec)) ip -> input_ok W simd (length (ec_inputs ec)) iq ->
  shape_ok (pr:=bool_gmw W) ec gp -> shape_ok (pr:=bool_gmw W) ec gq ->
  Forall2 (good_storage W simd) (requests ec) Bp -> transcript_shape (requests ec) t ->
  exists Bq, each3 (good_setup W simd) (requests ec) Bp Bq /\
    forall Bq', each3 (good_setup W simd) (requests ec) Bp Bq' ->
      ((exists mp op oq, together (pr:=bool_gmw W) p q ec ip iq gp gq Bp Bq' mp
          (map (bool_emsg W simd) t) op oq)
       <-> each3 same_last (requests ec) Bq Bq').

(** The view of [p] (its inputs, setup data, received messages, own output shares,
    and the output shares of [q] when they are revealed to it) does not depend on
    the secret inputs of [q] beyond the outputs ([plain] relates plain inputs to
    plain outputs): whatever [q] holds instead, there is setup data of [q] with
    which [p] sees exactly the same. *)
Definition same_view (W : nat) (simd : option nat) (ec : ecirc bool_gate)
  (plain : list (list bool) -> list (list bool) -> Prop) : Prop :=
  forall p q, roles p q ->
  forall (ip iq iq' : istore (bool_gmw W)) (gp gq gq' : gouts (bool_gmw W)) Bp Bq,
  input_ok W simd (length (ec_inputs ec)) ip -> input_ok W simd (length (ec_inputs ec)) iq ->
  input_ok W simd (length (ec_inputs ec)) iq' ->
  shape_ok (pr:=bool_gmw W) ec gp -> shape_ok (pr:=bool_gmw W) ec gq -> shape_ok (pr:=bool_gmw W) ec gq' ->
  each3 (good_setup W simd) (requests ec) Bp Bq ->
  exists Bq' mp mq op oq oq',
    each3 (good_setup W simd) (requests ec) Bp Bq' /\
    together (pr:=bool_gmw W) p q ec ip iq gp gq Bp Bq mp mq op oq /\
    together (pr:=bool_gmw W) p q ec ip iq' gp gq' Bp Bq' mp mq op oq' /\
    (forall xs xs' outs, shares_of W simd ip iq xs -> shares_of W simd ip iq' xs' ->
       plain xs outs -> plain xs' outs -> oq = oq').
