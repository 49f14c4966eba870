(** Model of the insecure provider of boolean triples
    (crates/seec/src/mul_triple/boolean/insecure_provider.rs) and of the benchmark
    party for boolean GMW (crates/seec/src/bench.rs).  No proofs here.

    Of a benchmark the model has which circuit, provider, number of triples and
    inputs every run uses; connecting, statistics, TLS and sleeping are left out.  A
    panic is [None]. *)
From Coq Require Import List Bool Arith.
Require Import Verif.Prelude Verif.BitVecModel Verif.GateModel Verif.CircuitModel Verif.ProtocolModel Verif.BoolGmwModel
  Verif.ExecModel Verif.ConnModel Verif.BuilderModel Verif.MultiModel Verif.StaticModel Verif.CbcScModel Verif.BristolToolModel.
Import ListNotations.

(** ** The insecure provider *)
Section Insecure.
Context {S : Type}.
(** Filling a slice of words from a generator, and the generator made from the seed 42. *)
Variables (fill : S -> nat -> list bool * S) (s42 : S) (W : nat).

(** insecure_provider.rs 12-15 [InsecureMTProvider], whose default is [None]. *)
Definition ip_state := option mul_triples.

(** insecure_provider.rs 38-40 [gen_mts]. *)
Definition gen_mts (amount : nat) : option mul_triples :=
  '(t, _) <- mts_random fill W amount s42 ;; Some t.

(** insecure_provider.rs 22-26 [precompute_mts]. *)
Definition ip_precompute (amount : nat) : option ip_state :=
  t <- gen_mts amount ;; Some (Some t).

(** insecure_provider.rs 28-35 [request_mts]. *)
Definition ip_request (st : ip_state) (amount : nat) : option (mul_triples * ip_state) :=
  match st with
  | None => t <- gen_mts amount ;; Some (t, None)
  | Some mts =>
      if amount <=? mts_len mts then
        '(rest, out) <- mts_split_off_last W mts amount ;; Some (out, Some rest)
      else t <- gen_mts amount ;; Some (t, Some mts)
  end.
End Insecure.

(** ** The benchmark party *)

(** bench.rs 90-103 [BenchParty]; address, metadata, sleep and TLS are left out, a
    path is a number. *)
Record bench_party := BP {
  bp_id : nat;
  bp_circ : option exec_circuit;
  bp_insecure : bool;
  bp_stored : option nat;
  bp_pre : bool;
  bp_inter : bool;
  bp_repeat : nat }.

(** bench.rs 124-139 [new]. *)
Definition bp_new (id : nat) : bench_party := BP id None false None true false 1.

(** bench.rs 146-188: the setters. *)
Inductive bp_setter :=
| SCircuit (x : exec_circuit)    (* explicit_circuit, 146-149 *)
| SInsecure (insecure : bool)    (* insecure_setup, 151-155 *)
| SInterleave (interleave : bool) (* interleave_setup, 157-160 *)
| SPrecompute (pre : bool)       (* precompute_layers, 163-166 *)
| SRepeat (n : nat)              (* repeat, 179-182 *)
| SStored (path : nat).          (* stored_mts, 184-188 *)

(** bench.rs 146-188: calling a setter. *)
Definition bp_set (p : bench_party) (s : bp_setter) : option bench_party :=
  match s with
  | SCircuit x => Some (BP (bp_id p) (Some x) (bp_insecure p) (bp_stored p) (bp_pre p) (bp_inter p) (bp_repeat p))
  | SInsecure i =>
      _ <- oassert (match bp_stored p with None => true | Some _ => false end) ;;
      Some (BP (bp_id p) (bp_circ p) i (bp_stored p) (bp_pre p) (bp_inter p) (bp_repeat p))
  | SInterleave i => Some (BP (bp_id p) (bp_circ p) (bp_insecure p) (bp_stored p) (bp_pre p) i (bp_repeat p))
  | SPrecompute b => Some (BP (bp_id p) (bp_circ p) (bp_insecure p) (bp_stored p) b (bp_inter p) (bp_repeat p))
  | SRepeat n => Some (BP (bp_id p) (bp_circ p) (bp_insecure p) (bp_stored p) (bp_pre p) (bp_inter p) n)
  | SStored path =>
      _ <- oassert (negb (bp_insecure p)) ;;
      Some (BP (bp_id p) (bp_circ p) (bp_insecure p) (Some path) (bp_pre p) (bp_inter p) (bp_repeat p))
  end.

(** bench.rs 37-59: the kinds of providers. *)
Inductive bench_provider := POt | PInsecure | PStored (path : nat).
(** bench.rs 261-266; [unreachable!] is [None]. *)
Definition bp_provider (p : bench_party) : option bench_provider :=
  match bp_insecure p, bp_stored p with
  | false, None => Some POt
  | true, None => Some PInsecure
  | false, Some path => Some (PStored path)
  | true, Some _ => None
  end.

(** bench.rs 247-297: what one run uses: circuit, provider, number of triples
    computed before, input. *)
Record bench_run (W : nat) := BR {
  r_circ : exec_circuit;
  r_prov : bench_provider;
  r_pre : option nat;
  r_input : istore (bool_gmw W) }.
Arguments BR {W} _ _ _ _.
Arguments r_circ {W} _.
Arguments r_prov {W} _.
Arguments r_pre {W} _.
Arguments r_input {W} _.

Section Bench.
(** [rnd seed n]: the first [n] samples of the generator made from [seed]
    (protocols/mod.rs 203-208 [random]). *)
Variables (rnd : nat -> nat -> list bool) (W : nat).
Variables (geqb : bool_gate -> bool_gate -> bool) (imax : nat) (perm : nat -> miter -> miter).

(** builder.rs 289-296, 386-390: the default builder. *)
Definition b_default : builder := BD [c_new] [0] cn_empty.

(** bench.rs 247-259: the circuit of a run; [g] is the global builder, which
    [global_into_circuit] (builder.rs 126-130) replaces by a new one. *)
Definition bench_circuit (p : bench_party) (g : builder) : option (exec_circuit * builder) :=
  match bp_circ p with
  | Some x => Some (x, g)
  | None =>
      let m := fst (b_into g) in
      if bp_pre p then x <- x_precompute geqb imax perm (XDyn m) ;; Some (x, b_default)
      else Some (XDyn m, b_default)
  end.

(** bench.rs 284-291: the inputs. *)
Definition fake_inp (id : nat) (x : exec_circuit) : option (istore (bool_gmw W)) :=
  let seed := 42 * id in
  simd <- x_simd_size x 0 ;;
  n <- x_input_count x ;;
  match simd with
  | None => Some (@IScalar (bool_gmw W) (rnd seed n))
  | Some size => Some (@ISimd (bool_gmw W) (repeat (bv_of_bits W (rnd seed size)) n))
  end.

(** bench.rs 247-291: one run up to the execution. *)
Definition bench_one (p : bench_party) (g : builder) : option (bench_run W * builder) :=
  '(x, g') <- bench_circuit p g ;;
  prov <- bp_provider p ;;
  mts_needed <- x_int_count x ;;
  inp <- fake_inp (bp_id p) x ;;
  Some (BR x prov (if bp_inter p then None else Some mts_needed) inp, g').

(** bench.rs 231-304: the loop. *)
Fixpoint bench_loop (p : bench_party) (n : nat) (g : builder) : option (list (bench_run W)) :=
  match n with
  | 0 => Some []
  | S n' =>
      '(r, g') <- bench_one p g ;;
      rs <- bench_loop p n' g' ;;
      Some (r :: rs)
  end.
(** bench.rs 202-312 [bench], without the executions. *)
Definition bench_runs (p : bench_party) (g : builder) : option (list (bench_run W)) := bench_loop p (bp_repeat p) g.

(** bench.rs 263, 267-274 with the insecure provider: its state before the execution. *)
Definition insecure_start {S} (fill : S -> nat -> list bool * S) (s42 : S) (r : bench_run W) : option ip_state :=
  match r_pre r with
  | None => Some None
  | Some n => ip_precompute fill s42 W n
  end.
(** bench.rs 276-299: the execution of a run by two parties with the insecure provider
    and the same circuit; the output shares. *)
Definition insecure_exec {S} (fill : S -> nat -> list bool * S) (s42 : S) (r0 r1 : bench_run W)
  : option (istore (bool_gmw W) * istore (bool_gmw W)) :=
  ec <- x_ec imax perm (r_circ r0) ;;
  t0 <- insecure_start fill s42 r0 ;;
  t1 <- insecure_start fill s42 r1 ;;
  '(o0, o1, _) <- ex2_run (pr:=bool_gmw W) (ip_request fill s42 W) ec (r_input r0) (r_input r1)
    ((go_init (pr:=bool_gmw W) ec, t0), (go_init (pr:=bool_gmw W) ec, t1)) ;;
  Some (o0, o1).
End Bench.
