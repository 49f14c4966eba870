(** Model of crates/seec/src/gate/base.rs and crates/seec/src/evaluate.rs. *)
From Coq Require Import List Bool.
Require Import Verif.Prelude.
Import ListNotations.

(** crates/seec/src/gate/base.rs 6-34 [BaseGate<P, D>].  The dimension argument
    is dropped (it is [ScalarDim] for all modelled protocols). *)
Inductive base_gate (P : Type) : Type :=
| GOutput | GInput | GScInput | GScOutput
| GConnectToMain
| GConnectToMainFromSimd (select : nat)
| GIdentity
| GConstant (c : P)
| GDebug.
Arguments GOutput {P}. Arguments GInput {P}. Arguments GScInput {P}.
Arguments GScOutput {P}. Arguments GConnectToMain {P}.
Arguments GConnectToMainFromSimd {P} select. Arguments GIdentity {P}.
Arguments GConstant {P} c. Arguments GDebug {P}.

(** crates/seec/src/gate/base.rs 45-71 [default_evaluate]. *)
Definition default_evaluate {P Share} (g : base_gate P) (inputs : list Share)
  : option Share :=
  match g with
  | GConstant _ => None
  | GConnectToMainFromSimd _ => None
  | _ => match inputs with i :: _ => Some i | [] => None end
  end.

(** crates/seec/src/gate/base.rs 73-95 [default_evaluate_simd]; [clone] is the
    copy operation of the SIMD share type. *)
Definition default_evaluate_simd {P Simd} (clone : Simd -> Simd)
  (g : base_gate P) (inputs : list Simd) : option Simd :=
  match g with
  | GConstant _ => None
  | _ => match inputs with i :: _ => Some (clone i) | [] => None end
  end.

(** crates/seec/src/mul_triple/boolean/mod.rs 182-188 [MulTriple]. *)
Record triple := MT { mt_a : bool; mt_b : bool; mt_c : bool }.

(** crates/seec/src/evaluate.rs 5-9 [and::compute_shares]. *)
Definition and_compute_shares (x y : bool) (mt : triple) : bool * bool :=
  (xorb x (mt_a mt), xorb y (mt_b mt)).

(** crates/seec/src/evaluate.rs 12-21 [and::evaluate].  Party 0 is [0]. *)
Definition and_evaluate (d0 d1 e0 e1 : bool) (mt : triple) (party : nat) : bool :=
  let d := xorb d0 d1 in
  let e := xorb e0 e1 in
  let res := xorb (xorb (andb d (mt_b mt)) (andb e (mt_a mt))) (mt_c mt) in
  match party with 0 => xorb res (andb d e) | _ => res end.
