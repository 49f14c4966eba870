(** Model of crates/seec/src/protocols/arithmetic_gmw.rs and of
    crates/seec/src/mul_triple/arithmetic/mod.rs.  A ring element is an integer
    in [0, 2^w), [w] is [Ring::BITS]. *)
From Coq Require Import List Bool Arith ZArith.
Require Import Verif.Prelude Verif.GateModel Verif.ProtocolModel Verif.CircuitModel.
Import ListNotations.
Open Scope Z_scope.

(** protocols/mod.rs 357-386, 396-424 [Ring] for the unsigned integers: wrapping addition, subtraction and multiplication. *)
Definition wadd (w x y : Z) : Z := (x + y) mod 2 ^ w.
(** [wrapping_sub] of [Ring] (protocols/mod.rs 359). *)
Definition wsub (w x y : Z) : Z := (x - y) mod 2 ^ w.
(** [wrapping_mul] of [Ring] (protocols/mod.rs 360). *)
Definition wmul (w x y : Z) : Z := (x * y) mod 2 ^ w.

(** arithmetic_gmw.rs 19-25 [ArithmeticGate]. *)
Inductive arith_gate := ABase (b : base_gate Z) | AMul | AAdd | ASub.

(** arithmetic_gmw.rs 143-145 [is_interactive]. *)
Definition arith_is_interactive (g : arith_gate) : bool :=
  match g with AMul => true | _ => false end.

(** arithmetic_gmw.rs 147-152 [input_size]. *)
Definition arith_input_size (g : arith_gate) : nat :=
  match g with ABase _ => 1%nat | _ => 2%nat end.

(** arithmetic_gmw.rs 154-159 [as_base_gate]. *)
Definition arith_as_base (g : arith_gate) : option (base_gate Z) :=
  match g with ABase b => Some b | _ => None end.

(** arithmetic_gmw.rs 140-164 [impl Gate for ArithmeticGate]. *)
Definition arith_ops : gate_ops Z arith_gate :=
  GateOps Z arith_gate arith_is_interactive arith_as_base ABase.

(** arithmetic_gmw.rs 43-54 [share_constant]. *)
Definition arith_share_constant (party : nat) (_output : Z) (val : Z) : Z :=
  match party with O => val | _ => 0 end.

(** arithmetic_gmw.rs 56-78 [evaluate_non_interactive]. *)
Definition arith_eval_ni (w : Z) (party : nat) (g : arith_gate) (inputs : list Z) : option Z :=
  match g with
  | ABase b => default_evaluate b inputs
  | AMul => None
  | AAdd => match inputs with x :: y :: _ => Some (wadd w x y) | _ => None end
  | ASub => match inputs with x :: y :: _ => Some (wsub w x y) | _ => None end
  end.

(** mul_triple/arithmetic/mod.rs 19-23 [MulTriple]. *)
Record atriple := AT { at_a : Z; at_b : Z; at_c : Z }.

(** mul_triple/arithmetic/mod.rs 12-17 [MulTriples]. *)
Record amts := AMTS { as_a : list Z; as_b : list Z; as_c : list Z }.

(** mul_triple/arithmetic/mod.rs 26-29 [len] (the consistency check is a debug
    assertion and not modelled; see [amts_wf] in the specification). *)
Definition amts_len (t : amts) : nat := length (as_a t).

(** mul_triple/arithmetic/mod.rs 45-54 [iter]. *)
Definition amts_iter (t : amts) : list atriple :=
  zip_with (fun ab c => AT (fst ab) (snd ab) c) (zip_with pair (as_a t) (as_b t)) (as_c t).

(** [Vec::split_off]: panics if [at > len]. Used at mul_triple/arithmetic/mod.rs 91-93. *)
Definition vec_split_off {A} (l : list A) (at_ : nat) : option (list A * list A) :=
  if (at_ <=? length l)%nat then Some (firstn at_ l, skipn at_ l) else None.

(** mul_triple/arithmetic/mod.rs 89-95 [split_off_last]. *)
Definition amts_split_off_last (t : amts) (count : nat) : option (amts * amts) :=
  if (count <=? amts_len t)%nat then
    let at_ := (amts_len t - count)%nat in
    '(a1, a2) <- vec_split_off (as_a t) at_ ;;
    '(b1, b2) <- vec_split_off (as_b t) at_ ;;
    '(c1, c2) <- vec_split_off (as_c t) at_ ;;
    Some (AMTS a1 b1 c1, AMTS a2 b2 c2)
  else None.

(** protocols/mod.rs 262-265 [SetupStorage::remove_first] (default method):
    returns (self afterwards, the removed first elements). *)
Definition amts_remove_first (t : amts) (count : nat) : option (amts * amts) :=
  if (count <=? amts_len t)%nat then
    '(self, removed) <- amts_split_off_last t (amts_len t - count) ;;
    Some (removed, self)
  else None.

(** mul_triple/arithmetic/mod.rs 97-101 [append], 57-61 [extend_from_mts]. *)
Definition amts_append (t o : amts) : amts :=
  AMTS (as_a t ++ as_a o) (as_b t ++ as_b o) (as_c t ++ as_c o).

(** mul_triple/arithmetic/mod.rs 37-43 [zeros]; insecure_provider.rs 24-26. *)
Definition amts_zeros (n : nat) : amts := AMTS (repeat 0 n) (repeat 0 n) (repeat 0 n).

(** arithmetic_gmw.rs 14-17 [Msg::MulLayer]. *)
Record amsg := AMsg { am_e : list Z; am_d : list Z }.

(** arithmetic_gmw.rs 88-101: the zipped map; result (d, e). *)
Fixpoint arith_msg_loop (w : Z) (gates : list arith_gate) (mts : list atriple)
  (inputs : list Z) : option (list Z * list Z) :=
  match gates, mts with
  | g :: gs, mt :: ms =>
      match g with
      | AMul =>
          match inputs with
          | x :: y :: rest =>
              let d := wsub w x (at_a mt) in
              let e := wsub w y (at_c mt) in
              '(ds, es) <- arith_msg_loop w gs ms rest ;;
              Some (d :: ds, e :: es)
          | _ => None
          end
      | _ => None
      end
  | _, _ => Some ([], [])
  end.

(** arithmetic_gmw.rs 80-103 [compute_msg]. *)
Definition arith_compute_msg (w : Z) (_party : nat) (gates : list arith_gate)
  (_outputs inputs : list Z) (mts : amts) : option (amsg * amts) :=
  '(d, e) <- arith_msg_loop w gates (amts_iter mts) inputs ;;
  Some (AMsg e d, mts).

(** arithmetic_gmw.rs 122-136: the zipped map of [evaluate_interactive]. *)
Fixpoint arith_eval_loop (w : Z) (party : nat) (d e rd re : list Z) (mts : list atriple)
  : list Z :=
  match d, e, rd, re, mts with
  | od :: ds, oe :: es, rd :: rds, re :: res, mt :: ms =>
      let d := wadd w od rd in
      let e := wadd w oe re in
      let da := wmul w d (at_a mt) in
      let eb := wmul w e (at_b mt) in
      let da_eb_c := wadd w (wadd w da eb) (at_c mt) in
      (match party with
       | O => wadd w da_eb_c (wmul w d e)
       | _ => da_eb_c
       end) :: arith_eval_loop w party ds es rds res ms
  | _, _, _, _, _ => []
  end.

(** arithmetic_gmw.rs 105-137 [evaluate_interactive]. *)
Definition arith_eval_int (w : Z) (party : nat) (_gates : list arith_gate) (_outputs : list Z)
  (own other : amsg) (mts : amts) : option (list Z * amts) :=
  '(rest, used) <- amts_remove_first mts (length (am_e own)) ;;
  Some (arith_eval_loop w party (am_d own) (am_e own) (am_d other) (am_e other)
          (amts_iter used), rest).

(** [impl Protocol for ArithmeticGmw<R>], arithmetic_gmw.rs 33-138.  SIMD is not
    supported (protocols/mod.rs 99-108 and 120-130: [unimplemented!]); the
    default [evaluate_non_interactive_simd] (75-88) and [share_constant_simd]
    (57-66) work lane by lane. *)
Definition arith_gmw (w : Z) : protocol := {|
  p_plain := Z; p_share := Z; p_simd := list Z; p_gate := arith_gate;
  p_msg := amsg; p_simdmsg := unit; p_setup := amts;
  p_simd_support := false;
  p_simd_get := fun v i => nth_error v i;
  p_simd_collect := fun l => l;
  p_default_share := 0;
  p_default_simd := [];
  p_is_interactive := arith_is_interactive;
  p_input_size := arith_input_size;
  p_as_base := arith_as_base;
  p_share_constant := arith_share_constant;
  p_share_constant_simd := fun party _ val n => repeat (arith_share_constant party 0 val) n;
  p_eval_ni := arith_eval_ni w;
  p_eval_ni_simd := fun _ _ _ => None;
  p_compute_msg := arith_compute_msg w;
  p_compute_msg_simd := fun _ _ _ _ _ => None;
  p_eval_int := arith_eval_int w;
  p_eval_int_simd := fun _ _ _ _ _ _ => None
|}.

(** arithmetic_gmw.rs 190-201 [AdditiveSharing::share]; [sample s n] are [n]
    ring elements from the generator. *)
Definition additive_share {S} (sample : S -> nat -> list Z * S) (w : Z) (s : S)
  (input : list Z) : list Z * list Z * S :=
  let '(rand, s') := sample s (length input) in
  (rand, zip_with (fun r inp => wsub w inp r) rand input, s').

(** arithmetic_gmw.rs 203-209 [AdditiveSharing::reconstruct]. *)
Definition additive_reconstruct (w : Z) (a b : list Z) : list Z := zip_with (wadd w) a b.
