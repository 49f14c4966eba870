(** Boolean checkers for the circuit hypotheses, used to show that concrete
    circuits meet them.  Nothing here models /repo code. *)
From Coq Require Import List Bool Arith Lia.
Require Import Verif.Prelude Verif.GateModel Verif.CircuitModel Verif.CircuitSpec Verif.CircuitProofs
  Verif.CircuitProofs2 Verif.CircuitProofs3 Verif.InlineSpec.
Import ListNotations.

(** Circuit made by [add_wired_gate] of the listed gates onto [c]. *)
Fixpoint c_build {P G} (ops : gate_ops P G) (c : circuit G) (l : list (G * list nat)) : circuit G :=
  match l with
  | [] => c
  | (g, from) :: r =>
      match add_wired_gate ops c g from with
      | Some (c', _) => c_build ops c' r
      | None => c
      end
  end.

Lemma c_build_api {P G} (ops : gate_ops P G) l : forall c, api ops c -> api ops (c_build ops c l).
Proof.
  induction l as [|[g from] r IH]; intros c Ha; simpl; auto.
  destruct (add_wired_gate ops c g from) as [[c' id]|] eqn:E; auto.
  apply IH. eapply add_wired_gate_spec; eauto.
Qed.

Definition topo_check {G} (c : circuit G) : bool := forallb (fun e => fst e <? snd e) (c_edges c).

Lemma topo_acyclic {G} (c : circuit G) : topo_check c = true -> acyclic c.
Proof.
  unfold topo_check. rewrite forallb_forall. intros H. exists (fun x => x). intros p g Hp.
  unfold parents in Hp. apply in_map_iff in Hp. destruct Hp as (e & <- & He).
  apply filter_In in He. destruct He as [He Es]. apply Nat.eqb_eq in Es. rewrite <- Es.
  apply Nat.ltb_lt, H, He.
Qed.

Definition roots_check {G} (c : circuit G) (k : G -> bool) : bool :=
  forallb (fun i => match nth_error (c_gates c) i with
                    | Some x => Bool.eqb (match parents c i with [] => true | _ => false end) (k x)
                    | None => true end) (seq 0 (c_count c)).

Lemma roots_check_ok {P G} (ops : gate_ops P G) (c : circuit G) k :
  roots_check c k = true -> roots_are ops c k.
Proof.
  unfold roots_check. rewrite forallb_forall. intros H g x Hx.
  assert (Hg : g < c_count c) by (apply nth_error_Some; congruence).
  specialize (H g). rewrite Hx in H. rewrite (eqb_true_iff _ (k x)) in H.
  rewrite <- H by (apply in_seq; lia). destruct (parents c g); split; congruence.
Qed.

Definition kinds_check {P G} (ops : gate_ops P G) (c : circuit G) : bool :=
  forallb (fun x => match g_base ops x with
     | Some GInput | Some GConnectToMain | Some (GConnectToMainFromSimd _) => false
     | _ => true end) (c_gates c).

Definition sub_check {P G} (ops : gate_ops P G) (c : circuit G) : bool :=
  topo_check c &&
  roots_check c (fun x => is_input_gate ops x || is_const_gate ops x || is_scin_gate ops x) &&
  negb (c_is_main c) && kinds_check ops c.

Lemma sub_check_callable {P G} (ops : gate_ops P G) (c : circuit G) :
  api ops c -> sub_check ops c = true -> callable ops c.
Proof.
  unfold sub_check. rewrite !andb_true_iff. intros Ha [[[H1 H2] H3] H4].
  split; [|split].
  - split; auto. split; [apply topo_acyclic; auto|apply roots_check_ok; auto].
  - destruct (c_is_main c); auto; discriminate.
  - intros g x Hx. unfold kinds_check in H4. rewrite forallb_forall in H4.
    apply nth_error_In in Hx. specialize (H4 _ Hx).
    destruct (g_base ops x) as [[]|]; auto; discriminate.
Qed.

Definition main_check {P G} (ops : gate_ops P G) (c : circuit G) : bool :=
  topo_check c && roots_check c (fun x => is_input_gate ops x || is_const_gate ops x).

Lemma main_check_ok {P G} (ops : gate_ops P G) (c : circuit G) :
  api ops c -> main_check ops c = true -> main_ok ops c.
Proof.
  unfold main_check. rewrite andb_true_iff. intros Ha [H1 H2].
  split; auto. split; [apply topo_acyclic; auto|apply roots_check_ok; auto].
Qed.

(** Value check: all gates of a concrete circuit. *)
Definition valued_check {P G V} (eqb : V -> V -> bool) (ops : gate_ops P G)
  (sem : G -> list V -> option V) (c : circuit G) (v : nat -> V) : bool :=
  forallb (fun g => match nth_error (c_gates c) g with
     | Some x => source_gate ops x ||
         match sem x (map v (parents c g)) with Some y => eqb y (v g) | None => false end
     | None => true end) (seq 0 (c_count c)).

Lemma valued_check_ok {P G V} eqb (ops : gate_ops P G) (sem : G -> list V -> option V) c v :
  (forall a b, eqb a b = true -> a = b) ->
  valued_check eqb ops sem c v = true -> valued ops sem c v.
Proof.
  intros He H g x Hx Hs. unfold valued_check in H. rewrite forallb_forall in H.
  assert (Hg : g < c_count c) by (apply nth_error_Some; congruence).
  specialize (H g). rewrite Hx, Hs in H. simpl in H.
  assert (Hin : In g (seq 0 (c_count c))) by (apply in_seq; lia). specialize (H Hin).
  destruct (sem x (map v (parents c g))); [|discriminate]. f_equal. auto.
Qed.
