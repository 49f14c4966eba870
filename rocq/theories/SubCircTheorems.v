(** Theorems about functions marked as sub-circuits: C65. *)
From Coq Require Import List Bool Arith Lia.
Require Import Verif.Prelude Verif.PreludeProofs Verif.SubCircModel Verif.SubCircSpec Verif.SubCircProofs.
Import ListNotations.

(** What holds of C65: in every history of calls, installs, drops and finished builders in
    which unfinished builders do not share functions, every finished circuit holds
    the circuits of its calls, one per function and size.  Missing for the full
    statement: builders that share functions, kept builders finished without installing
    them, and calls after a panic, for which it is false (below). *)
Theorem C65_calls_partial :
  forall (C : Type) (dflt : C) body ops,
  (forall f n, In (OCall f n) ops -> body f n <> None) -> separate ([], []) ops ->
  results_ok body ([], []) ops (snd (sc_run dflt body sw_init ops)).
Proof.
  intros C dflt body ops HB HS. destruct (run_ok dflt body ops sw_init ([], []) (init_inv body) HB HS) as (s & rs & E & R).
  rewrite E. exact R.
Qed.
Print Assumptions C65_calls_partial.

(** Programs with the global builder only: calls and finished circuits in any order. *)
Theorem C65_one_builder :
  forall (C : Type) (dflt : C) body ops,
  (forall o, In o ops -> match o with OCall f n => body f n <> None | OFinish => True | _ => False end) ->
  results_ok body ([], []) ops (snd (sc_run dflt body sw_init ops)).
Proof.
  intros C dflt body ops H. apply C65_calls_partial.
  - intros f n Hi. exact (H _ Hi).
  - enough (G : forall g, separate (g, []) ops) by apply G. revert H. induction ops as [|o ops IH]; intros H g; cbn [separate]; auto.
    pose proof (H o (or_introl eq_refl)) as Ho. destruct o; try tauto; cbn [log_step snd].
    + split; [intros b []|]. apply IH. intros o Hi. apply H. cbn; auto.
    + split; auto. apply IH. intros o Hi. apply H. cbn; auto.
Qed.
Print Assumptions C65_one_builder.

(** A panic while a sub-circuit is built makes every later call panic. *)
Theorem C65_panic_sticks :
  forall (C : Type) (dflt : C) body s f n ops,
  body f n = None -> cache_get f n (sw_cache s) = None ->
  forall k f' n', nth_error ops k = Some (OCall f' n') ->
  nth_error (snd (sc_run dflt body (fst (sc_step dflt body s (OCall f n))) ops)) k = Some RPanicked.
Proof.
  intros C dflt body s f n ops HB HC.
  assert (HF : sw_flag (fst (sc_step dflt body s (OCall f n))) = true).
  { cbn [sc_step]. unfold sc_call. destruct (sw_flag s) eqn:E; auto. rewrite HC, HB. auto. }
  revert HF. generalize (fst (sc_step dflt body s (OCall f n))) as t. clear HC HB.
  induction ops as [|o ops IH]; intros t HF k f' n' Hk; [destruct k; discriminate|]. cbn [sc_run].
  destruct (sc_step dflt body t o) as [t1 r] eqn:ES. destruct (sc_run dflt body t1 ops) as [t2 rs] eqn:ER. cbn [snd].
  assert (HF1 : sw_flag t1 = true).
  { destruct o as [g m|[j|]| |j|j]; cbn [sc_step] in ES.
    - unfold sc_call in ES. rewrite HF in ES. injection ES as <- _. auto.
    - destruct (nth_error (sw_saved t) j); injection ES as <- _; auto.
    - injection ES as <- _. auto.
    - destruct (sc_into dflt (sb_cells (sw_global t)) (sw_heap t) [] [] []) as [[h cs] cm]. injection ES as <- _. auto.
    - destruct (nth_error (sw_saved t) j) as [b|]; [|injection ES as <- _; auto].
      destruct (sc_into dflt (sb_cells b) (sw_heap t) [] [] []) as [[h cs] cm]. injection ES as <- _. auto.
    - destruct (nth_error (sw_saved t) j); injection ES as <- _; auto. }
  destruct k as [|k]; cbn [nth_error] in *.
  - injection Hk as ->. cbn [sc_step] in ES. unfold sc_call in ES. rewrite HF in ES. injection ES as _ <-. auto.
  - specialize (IH t1 HF1 k f' n' Hk). rewrite ER in IH. exact IH.
Qed.
Print Assumptions C65_panic_sticks.

(** Hence a panic is not limited to its call. *)
Theorem C65_panic_refuted :
  exists (body : nat -> nat -> option nat) f n ops, body f n <> None /\
    nth_error ops 1 = Some (OCall f n) /\ nth_error (snd (sc_run 0 body sw_init ops)) 1 = Some RPanicked.
Proof.
  exists (fun f n => if f =? 0 then None else Some n), 1, 5, [OCall 0 5; OCall 1 5]. split; [discriminate|]. split; reflexivity.
Qed.
Print Assumptions C65_panic_refuted.

(** Two unfinished builders that call the same function: finishing one empties the
    circuit of the other. *)
Definition shared_ops : list scop := [OCall 0 1; OInstall None; OCall 0 1; OFinish; OInstall (Some 0); OFinish].

Theorem C65_shared_refuted :
  exists (body : nat -> nat -> option nat) ops,
    (forall f n, body f n <> None) /\ (forall k, ~ In (OFinishKept k) ops) /\
    ~ results_ok body ([], []) ops (snd (sc_run 0 body sw_init ops)).
Proof.
  exists (fun f n => Some (S (f + n))), shared_ops. split; [discriminate|]. split; [intros k H; cbn in H; intuition discriminate|].
  intros H. cbn in H. destruct H as (_ & _ & _ & _ & _ & (cs & cm & E & F & _) & _). injection E as <- <-.
  inversion F as [|? ? ? ? (c & A & B) _]; subst. cbn in A, B. congruence.
Qed.
Print Assumptions C65_shared_refuted.

(** A kept builder finished with [into_circuit] leaves its emptied circuits in the caches:
    the next call of the function gets an empty circuit. *)
Definition kept_ops : list scop := [OCall 0 1; OInstall None; OFinishKept 0; OCall 0 1; OFinish].

Theorem C65_kept_refuted :
  exists (body : nat -> nat -> option nat) ops,
    (forall f n, body f n <> None) /\ ~ results_ok body ([], []) ops (snd (sc_run 0 body sw_init ops)).
Proof.
  exists (fun f n => Some (S (f + n))), kept_ops. split; [discriminate|].
  intros H. cbn in H. destruct H as (_ & _ & _ & _ & (cs & cm & E & F & _) & _). injection E as <- <-.
  inversion F as [|? ? ? ? (c & A & B) _]; subst. cbn in A, B. congruence.
Qed.
Print Assumptions C65_kept_refuted.

(** Three calls of function 7 with two sizes, a second builder with function 8, then both finished. *)
Definition case_ops : list scop := [OCall 7 1; OCall 7 2; OInstall None; OCall 8 1; OFinish; OInstall (Some 0); OCall 7 1; OFinish].

Example C65_case :
  separate ([], []) case_ops /\
  snd (sc_run 0 (fun f n => Some (10 * f + n)) sw_init case_ops) =
  [RUnit; RUnit; RUnit; RUnit; RCircuit [81] [0]; RUnit; RUnit; RCircuit [71; 72] [0; 1; 0]].
Proof.
  split; [|reflexivity]. cbn. unfold calls_of. cbn. repeat split; auto; intros b H; repeat (destruct H as [<-|H]; [cbn; lia|]); tauto.
Qed.
