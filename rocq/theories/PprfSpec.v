(** Specification vocabulary for the puncturable PRF (C34) and the gap positions
    (C35). *)
From Coq Require Import List Bool Arith NArith.
Require Import Verif.Prelude Verif.ZapUtilModel Verif.PprfModel.
Import ListNotations.
Open Scope nat_scope.

(** The receiver's base OTs are the sender's strings selected by the choices. *)
Definition ots_match (sots : list (N * N)) (choices : list bool) (rots : list N) : Prop :=
  length sots = length choices /\ rots = zip_with (fun (p : N * N) (c : bool) => if c then snd p else fst p) sots choices.

(** The number with the given binary digits, most significant first. *)
Fixpoint msb_value (acc : nat) (l : list bool) : nat :=
  match l with [] => acc | b :: l => msb_value (2 * acc + (if b then 1 else 0)) l end.

(** The punctured leaf: the digits are the negated choices. *)
Definition punctured (choices : list bool) : nat := msb_value 0 (map negb choices).

(** Two lists of leaves that differ by [v] at [p] and agree elsewhere. *)
Definition differ_at (p : nat) (v : N) (a b : list N) : Prop :=
  length a = length b /\ p < length a /\
  forall i, i < length a -> nth i b 0%N = if i =? p then N.lxor (nth i a 0%N) v else nth i a 0%N.

(** Bit [r] of the block at position [p] of an output. *)
Definition out_bit (o : pprf_out) (p r : nat) : bool :=
  match o with
  | OInter l => N.testbit (nth p l 0%N) (N.of_nat r)
  | OTrans _ rows => N.testbit (nth (p / 128) (nth r rows []) 0%N) (N.of_nat (p mod 128))
  end.

(** The dimensions of an output: [count * domain] blocks, or 128 rows of one bit per
    position. *)
Definition shape (c : pprf_conf) (f : pprf_format) (o : pprf_out) : Prop :=
  match f, o with
  | Interleaved, OInter l => length l = pc_count c * pc_domain c
  | InterleavedTransposed, OTrans n rows =>
      n = (pc_count c * pc_domain c + 127) / 128 /\ length rows = 128 /\ forall r, r < 128 -> length (nth r rows []) = n
  | _, _ => False
  end.

(** Sizes accepted by a format: number of trees, domain and depth. *)
Definition sizes_ok (c : pprf_conf) (f : pprf_format) : Prop :=
  pc_count c mod 8 = 0 /\ pc_domain c <= 2 ^ pc_depth c /\
  match f with
  | Interleaved => 2 <= pc_depth c /\ pc_domain c mod 2 = 0
  | InterleavedTransposed => 4 <= pc_depth c
  end.

(** A key [k'] explains a message for another value: for every alternative [delta'] the
    receiver's view (its own strings, its choices and the message) is possible. *)
Definition gap_hides (aes : N -> N -> N) (gap_ots : list (N * N)) (choices : list bool) (delta : N) : Prop :=
  forall delta', exists gap_ots',
    zip_with (fun (p : N * N) (c : bool) => if c then snd p else fst p) gap_ots' choices
      = zip_with (fun (p : N * N) (c : bool) => if c then snd p else fst p) gap_ots choices /\
    snd (gap_send aes gap_ots' delta') = snd (gap_send aes gap_ots delta).
