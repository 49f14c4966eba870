(** Specification vocabulary for the tensor ABY2 properties (C59, C60). *)
From Coq Require Import List Bool Arith.
Require Import Verif.Prelude Verif.GateModel Verif.ProtocolModel Verif.CircuitModel Verif.ExecModel
  Verif.BitMatModel Verif.BitMatSpec Verif.Aby2Model Verif.TensorModel.
Import ListNotations.
Open Scope nat_scope.

(** A bit or a matrix; the dimensions a [BitMatrix<u8>] accepts, without the empty ones. *)
Inductive tdim := DBit | DMat (r c : nat).
Definition dim_ok (d : tdim) : Prop :=
  match d with DBit => True | DMat r c => 1 <= r /\ 1 <= c /\ (r * c) mod 8 = 0 end.
Definition has_dim (d : tdim) (v : tval) : Prop :=
  match d, v with
  | DBit, TScalar _ => True
  | DMat r c, TMatrix m => bm_rows m = r /\ bm_cols m = c /\ exact m
  | _, _ => False
  end.
Definition in_dim (d : tdim) (i j : nat) : Prop :=
  match d with DBit => True | DMat r c => i < r /\ j < c end.

(** Entry of a value; a bit has the same entry everywhere. *)
Definition tv_entry (v : tval) (i j : nat) : bool :=
  match v with TScalar b => b | TVec l => nth j l false | TMatrix m => entry m i j end.

(** The shares [a], [b] carry [x]: both know the same masked value and the mask is the XOR of the private
    parts. *)
Definition tcarries (d : tdim) (x : tval) (a b : tshare) : Prop :=
  has_dim d x /\ has_dim d (ts_pub a) /\ ts_pub b = ts_pub a /\ has_dim d (ts_priv a) /\ has_dim d (ts_priv b) /\
  forall i j, in_dim d i j ->
    tv_entry x i j = xorb (tv_entry (ts_pub a) i j) (xorb (tv_entry (ts_priv a) i j) (tv_entry (ts_priv b) i j)).

(** [m] is the matrix product of [a] and [b] over the field with two elements. *)
Definition is_product (a b m : bitmat) : Prop :=
  bm_cols a = bm_rows b /\ bm_rows m = bm_rows a /\ bm_cols m = bm_cols b /\ exact m /\
  forall i j, i < bm_rows a -> j < bm_cols b ->
    entry m i j = xor_sum (bm_cols a) (fun k => entry a i k && entry b k j).

(** What a gate computes on plain values. *)
Definition tensor_sem (g : tensor_gate) (xs : list tval) (x : tval) : Prop :=
  match g with
  | TBase GInput _ | TBase (GConstant _) _ | TBase (GConnectToMainFromSimd _) _ => False
  | TBase _ _ => xs = [x]
  | TAnd2 => exists a b, xs = [TScalar a; TScalar b] /\ x = TScalar (a && b)
  | TXor => exists a b, xs = [TScalar a; TScalar b] /\ x = TScalar (xorb a b)
  | TMatMult r c => exists a b m, xs = [TMatrix a; TMatrix b] /\ x = TMatrix m /\ bm_rows a = r /\ bm_cols b = c /\
                      is_product a b m
  | _ => False
  end.

(** The operands of a gate by the dimensions [ty] of the values; [ps] are the parents. *)
Definition gate_dims (gate : tensor_gate) (ps : list tdim) (d : tdim) : Prop :=
  match gate with
  | TBase GInput dim => dim = match d with DBit => [] | DMat r c => [r; c] end
  | TBase (GConstant _) _ | TBase (GConnectToMainFromSimd _) _ => False
  | TBase _ _ => ps = [d]
  | TAnd2 | TXor => ps = [DBit; DBit] /\ d = DBit
  | TMatMult r c => exists k, ps = [DMat r k; DMat k c] /\ d = DMat r c
  | _ => False
  end.

(** A circuit whose gates have the dimensions [ty]. *)
Definition tensor_dims (c : circuit tensor_gate) (ty : nat -> tdim) : Prop :=
  forall g gate, nth_error (c_gates c) g = Some gate ->
  dim_ok (ty g) /\ gate_dims gate (map ty (parents c g)) (ty g).

(** Plain values [v] of all gates when the input gates carry [ins]. *)
Definition tensor_plain (c : circuit tensor_gate) (ins : list tval) (v : nat -> tval) : Prop :=
  forall g gate, nth_error (c_gates c) g = Some gate ->
  match gate with
  | TBase GInput _ => exists i, nth_error (c_inputs c) i = Some g /\ nth_error ins i = Some (v g)
  | _ => tensor_sem gate (map v (parents c g)) (v g)
  end.

(** The same for executable circuits. *)
Definition t_typed (ec : ecirc tensor_gate) (ty : gid -> tdim) : Prop :=
  (forall sc, ec_simd ec sc = None) /\
  forall g gate, ec_gate ec g = Some gate ->
    dim_ok (ty g) /\ gate_dims gate (map ty (ec_parents ec g)) (ty g) /\
    (forall p, In p (ec_parents ec g) -> dim_ok (ty p)) /\
    match gate with TBase GInput _ => fst g = 0 /\ In (snd g) (ec_inputs ec) | _ => True end.
Definition t_valuation (ec : ecirc tensor_gate) (ins : list tval) (v : gid -> tval) : Prop :=
  forall g gate, ec_gate ec g = Some gate ->
  match gate with
  | TBase GInput _ => exists i, nth_error (ec_inputs ec) i = Some (snd g) /\ nth_error ins i = Some (v g)
  | _ => tensor_sem gate (map v (ec_parents ec g)) (v g)
  end.

(** [l]: the private parts of one party.  Linear gates propagate them. *)
Definition mask_rule (gate : tensor_gate) (ls : list tval) (l : tval) : Prop :=
  match gate with
  | TBase GInput _ | TAnd2 | TMatMult _ _ => True
  | TBase (GConstant _) _ | TBase (GConnectToMainFromSimd _) _ => False
  | TBase _ _ => ls = [l]
  | TXor => exists a b, ls = [TScalar a; TScalar b] /\ l = TScalar (xorb a b)
  | _ => False
  end.
Definition t_masks (ec : ecirc tensor_gate) (ty : gid -> tdim) (l : gid -> tval) : Prop :=
  forall g gate, ec_gate ec g = Some gate -> has_dim (ty g) (l g) /\ mask_rule gate (map l (ec_parents ec g)) (l g).

(** The setup data of one interactive gate: shares of the product of the masks of its operands. *)
Definition teval_ok (ec : ecirc tensor_gate) (ty : gid -> tdim) (l0 l1 : gid -> tval) (g : gid) (e0 e1 : tval) : Prop :=
  has_dim (ty g) e0 /\ has_dim (ty g) e1 /\
  exists p q, ec_parents ec g = [p; q] /\
    let lam x i j := xorb (tv_entry (l0 x) i j) (tv_entry (l1 x) i j) in
    forall i j, in_dim (ty g) i j ->
      xorb (tv_entry e0 i j) (tv_entry e1 i j) =
      match ty p with
      | DBit => lam p 0 0 && lam q 0 0
      | DMat _ k => xor_sum k (fun t => lam p i t && lam q t j)
      end.

(** What a party knows at the end: dimensions of a plain value. *)
Definition dim_of (v : tval) : tdim := match v with TMatrix m => DMat (bm_rows m) (bm_cols m) | _ => DBit end.
