(** Specification vocabulary for oblivious transfer. *)
From Coq Require Import List Bool Arith Permutation.
Require Import Verif.Prelude Verif.BitVecModel Verif.OtModel.
Import ListNotations.

(** The message selected by a choice bit. *)
Definition chosen {A} (c : bool) (p : A * A) : A := if c then snd p else fst p.

(** Outputs of an OT: the receiver's i-th value is the sender's i-th pair at the
    i-th choice. *)
Definition ot_correct {A} (choices : list bool) (pairs : list (A * A)) (outs : list A) : Prop :=
  length pairs = length choices /\ outs = zip_with chosen choices pairs.

(** The laws of an abelian group with commuting scalar multiplication. *)
Record group_laws {G S} (o : group_ops G S) : Prop := {
  gl_comm : forall a b, g_mul o a (g_mul o b (g_base o)) = g_mul o b (g_mul o a (g_base o));
  gl_dist : forall a x y, g_mul o a (g_add o x y) = g_add o (g_mul o a x) (g_mul o a y);
  gl_sub : forall x y, g_sub o (g_add o x y) x = y }.

(** Both extension parties hold the results of the same [k] base OTs. *)
Definition base_ok {R} (k : nat) (ss : ots_state R) (rs : otr_state R) : Prop :=
  length (or_rngs rs) = k /\ ot_correct (os_choices ss) (or_rngs rs) (os_rngs ss).

(** A generator writes as many bits as requested. *)
Definition fills {R} (fill : R -> nat -> list bool * R) : Prop := forall r n, length (fst (fill r n)) = n.

(** The row messages delivered in a given order. *)
Definition deliver (order : list nat) (msgs : list (nat * list bool)) : list ext_event :=
  map (fun i => let m := nth i msgs (0, []) in EvRow (fst m) (snd m)) order.

(** Several extensions one after the other on the same base OTs: per extension the
    choices and the arrival order of the rows. *)
Fixpoint ext_rounds {R} (k W : nat) (fill : R -> nat -> list bool * R) (H : list bool -> list bool)
  (ss : ots_state R) (rs : otr_state R) (rounds : list (bitvec * list nat))
  : list (result (list (list bool * list bool)) * result (list (list bool))) :=
  match rounds with
  | [] => []
  | (choices, order) :: rest =>
      let '(rr, msgs, rs') := ext_receive W fill H rs choices in
      let '(sr, ss') := ext_send k fill H ss (bv_len choices) (deliver order msgs) in
      (sr, rr) :: ext_rounds k W fill H ss' rs' rest
  end.
