(** Checks of the four embedded addition circuits. *)
From Coq Require Import String.
From Coq Require Import List Bool Arith ZArith Lia Permutation.
Require Import Verif.ParseModel Verif.Prelude Verif.PreludeProofs Verif.GateModel Verif.CircuitModel Verif.CircuitSpec
  Verif.CircuitProofs Verif.CircuitProofs2 Verif.CircuitProofs3 Verif.CircuitCheck
  Verif.BoolGmwModel Verif.InlineModel Verif.InlineSpec Verif.InlineProofs Verif.AdderData
  Verif.MixedModel Verif.MixedSpec Verif.AdderProofs.
Import ListNotations.
Open Scope nat_scope.

(** ** Depths *)

Definition gate_depth {P G} (ops : gate_ops P G) (c : circuit G) (par : nat -> list nat) (done : list nat) (g : nat) : option nat :=
  ds <- omap (fun p => d <- nth_error done p ;; Some (eff ops c p d)) (par g) ;;
  Some (list_max ds).

Fixpoint depth_pass {P G} (ops : gate_ops P G) (c : circuit G) (par : nat -> list nat) (n : nat) (done : list nat) : option (list nat) :=
  match n with
  | O => Some done
  | S m => d <- gate_depth ops c par done (length done) ;; depth_pass ops c par m (done ++ [d])
  end.

Lemma depth_pass_ext {P G} (ops : gate_ops P G) (c : circuit G) par par' : (forall i, par i = par' i) ->
  forall n done, depth_pass ops c par n done = depth_pass ops c par' n done.
Proof.
  intros H. induction n as [|n IH]; intros done; simpl; auto. unfold gate_depth. rewrite H.
  destruct (omap _ _); simpl; auto.
Qed.

Lemma list_max_In l : l <> [] -> In (list_max l) l.
Proof.
  induction l as [|x l IH]; [congruence|]. intros _. simpl. destruct l as [|y l]; [simpl; lia|].
  destruct (Nat.max_spec x (list_max (y :: l))) as [[_ ->]|[_ ->]]; auto. right. apply IH. discriminate.
Qed.

Lemma omap_In {X Y} (f : X -> option Y) l : forall r, omap f l = Some r ->
  (forall x, In x l -> exists y, f x = Some y /\ In y r) /\ (forall y, In y r -> exists x, In x l /\ f x = Some y).
Proof.
  induction l as [|x l IH]; simpl; intros r E.
  - injection E as <-. split; [intros x []|intros y []].
  - destruct (f x) as [y|] eqn:Ex; [|discriminate]. cbn [obind] in E.
    destruct (omap f l) as [ys|]; [|discriminate]. cbn [obind] in E. injection E as <-.
    destruct (IH ys eq_refl) as [A B]. split.
    + intros z [<-|Hz]; [exists y; simpl; auto|]. destruct (A z Hz) as (u & Hu & Hi). exists u. simpl; auto.
    + intros z [<-|Hz]; [exists x; auto|]. destruct (B z Hz) as (u & Hu & Hi). exists u. auto.
Qed.

Lemma depth_pass_ok {P G} (ops : gate_ops P G) (c : circuit G) n : forall done l,
  (forall g d, nth_error done g = Some d -> mult_depth ops c g d) ->
  depth_pass ops c (parents c) n done = Some l ->
  length l = length done + n /\ forall g d, nth_error l g = Some d -> mult_depth ops c g d.
Proof.
  induction n as [|n IH]; intros done l Hd; simpl.
  - intros E; injection E as <-. split; [lia|auto].
  - destruct (gate_depth ops c (parents c) done (length done)) as [d|] eqn:Eg; [|discriminate]. cbn [obind]. intros E.
    destruct (IH (done ++ [d]) l) as [A B]; auto.
    2:{ rewrite app_length in A. simpl in A. split; [lia|auto]. }
    intros g x Hx. destruct (Nat.lt_ge_cases g (length done)).
    + rewrite nth_error_app1 in Hx by lia. auto.
    + rewrite nth_error_app2 in Hx by lia. destruct (g - length done) as [|[|]] eqn:Ei; try discriminate.
      simpl in Hx. injection Hx as <-. replace g with (length done) by lia. clear - Hd Eg.
      unfold gate_depth in Eg. destruct (omap _ _) as [ds|] eqn:Eo; [|discriminate]. cbn [obind] in Eg. injection Eg as <-.
      destruct (omap_In _ _ _ Eo) as [A B].
      destruct (parents c (length done)) as [|p0 ps] eqn:Ep.
      * simpl in Eo. injection Eo as <-. apply mult_depth_root; auto.
      * apply mult_depth_step; rewrite Ep.
        -- intros p Hp. destruct (A p Hp) as (y & Hy & Hi). destruct (nth_error done p) as [d|] eqn:En; [|discriminate].
           cbn [obind] in Hy. injection Hy as <-. exists d. split; auto.
           pose proof (proj1 (list_max_le ds (list_max ds)) (le_n _)) as HF. rewrite Forall_forall in HF. auto.
        -- assert (Hne : ds <> []). { destruct (A p0 (or_introl eq_refl)) as (y & _ & Hi). intros ->. destruct Hi. }
           destruct (B _ (list_max_In ds Hne)) as (p & Hp & Ey). destruct (nth_error done p) as [d|] eqn:En; [|discriminate].
           cbn [obind] in Ey. injection Ey as Ey. exists p, d. auto.
Qed.

Definition depths_check {G P} (ops : gate_ops P G) (w D : nat) (par : nat -> list nat) (c : circuit G) : bool :=
  match depth_pass ops c par (c_count c) [] with
  | Some l =>
      forallb (fun i => match nth_error l i with
                        | Some d => (d + (if is_int ops c i then 1 else 0) <=? D) | None => false end) (seq 0 (c_count c)) &&
      existsb (fun i => match nth_error l i with
                        | Some d => is_int ops c i && (S d =? D) | None => false end) (seq 0 (c_count c)) &&
      forallb (fun io => match nth_error l (snd io) with
                         | Some d => d =? Nat.log2_up (S (fst io)) | None => false end)
        (combine (seq 0 w) (c_scouts c)) && (length (c_scouts c) =? w)
  | None => false
  end.

Lemma depths_check_ok {P G} (ops : gate_ops P G) w D (c : circuit G) : depths_check ops w D (parents c) c = true ->
  circuit_depth ops c D /\
  (forall i o, nth_error (c_scouts c) i = Some o -> mult_depth ops c o (Nat.log2_up (S i))) /\
  (forall g, g < c_count c -> exists d, mult_depth ops c g d).
Proof.
  unfold depths_check. destruct (depth_pass ops c (parents c) (c_count c) []) as [l|] eqn:E; [|discriminate].
  destruct (depth_pass_ok ops c (c_count c) [] l ltac:(intros []; discriminate) E) as [HL HM]. simpl in HL.
  rewrite !andb_true_iff, !forallb_forall, existsb_exists, Nat.eqb_eq. intros (((H1 & H2) & H3) & H4).
  assert (Hcount : forall g, is_int ops c g = true -> g < c_count c).
  { intros g Hg. apply nth_error_Some. unfold is_int in Hg. destruct (nth_error (c_gates c) g); congruence. }
  split; [|split].
  - split.
    + right. destruct H2 as (g & Hg & H2). destruct (nth_error l g) as [d|] eqn:Ed; [|discriminate].
      apply andb_true_iff in H2. destruct H2 as [Hi He]. apply Nat.eqb_eq in He.
      exists g, d. split; auto. split; auto. apply HM; auto.
    + intros g k Hi Hp. specialize (H1 g). rewrite in_seq in H1. specialize (H1 ltac:(specialize (Hcount g Hi); lia)).
      destruct (nth_error l g) as [d|] eqn:Ed; [|discriminate]. rewrite Hi in H1. apply Nat.leb_le in H1.
      destruct (HM _ _ Ed) as [_ Hm]. specialize (Hm k Hp). lia.
  - intros i o Ho. assert (Hi : i < w) by (rewrite <- H4; apply nth_error_Some; congruence).
    assert (Hin : In (i, o) (combine (seq 0 w) (c_scouts c))).
    { apply (nth_error_nth _ _ 0) in Ho.
      replace (i, o) with (nth i (combine (seq 0 w) (c_scouts c)) (0, 0)).
      - apply nth_In. rewrite combine_length, seq_length. lia.
      - rewrite combine_nth by (rewrite seq_length; lia). rewrite seq_nth, Ho by lia. reflexivity. }
    specialize (H3 _ Hin). simpl in H3. destruct (nth_error l o) as [d|] eqn:Ed; [|discriminate].
    apply Nat.eqb_eq in H3. subst. apply HM; auto.
  - intros g Hg. destruct (nth_error l g) as [d|] eqn:Ed; [eauto|]. apply nth_error_None in Ed. lia.
Qed.

(** ** The operands of a built circuit *)

Lemma c_build_gates {P G} (ops : gate_ops P G) l : forall c, api ops c ->
  c_count (c_build ops c l) = c_count c + length l ->
  forall x, parents (c_build ops c l) x = if x <? c_count c then parents c x else nth (x - c_count c) (map snd l) [].
Proof.
  assert (Hmax : forall l c, api ops c -> c_count (c_build ops c l) <= c_count c + length l).
  { clear. induction l as [|[g from] l IH]; intros c Ha; simpl; [lia|].
    destruct (add_wired_gate ops c g from) as [[c' id]|] eqn:E; [|lia].
    destruct (add_wired_gate_spec ops c c' g from id Ha E) as (Ha' & _ & Eg & _).
    specialize (IH c' Ha'). unfold c_count in *. rewrite Eg, app_length in IH. simpl in IH. lia. }
  induction l as [|[g from] l IH]; intros c Ha; simpl.
  - intros _ x. destruct (Nat.ltb_spec x (c_count c)); auto. destruct (x - c_count c); simpl;
      destruct (parents c x) as [|p r] eqn:Ep; auto;
      destruct (in_range_parents c p x (aw_range _ _ (api_api_wf ops c Ha)) ltac:(rewrite Ep; simpl; auto)); lia.
  - destruct (add_wired_gate ops c g from) as [[c' id]|] eqn:E; [|intros; lia].
    destruct (add_wired_gate_spec ops c c' g from id Ha E) as (Ha' & _ & Eg & Ep & _).
    assert (Ec : c_count c' = S (c_count c)) by (unfold c_count; rewrite Eg, app_length; simpl; lia).
    intros Hc x. rewrite (IH c' Ha') by lia. rewrite Ec, Ep.
    destruct (Nat.ltb_spec x (S (c_count c))), (Nat.ltb_spec x (c_count c)), (Nat.eqb_spec x (c_count c)); try lia; auto.
    + subst. rewrite Nat.sub_diag. reflexivity.
    + replace (x - c_count c) with (S (x - S (c_count c))) by lia. reflexivity.
Qed.

(** ** The four circuits *)

Definition loaded (w : nat) : circuit mixed_gate :=
  match load_adder 1000 2 w with Some c => c | None => c_new end.

(** A circuit as a list of gates with their operands. *)
Definition as_build (c : circuit mixed_gate) : list (mixed_gate * list nat) :=
  map (fun i => (nth i (c_gates c) (MGBase GInput), parents c i)) (seq 0 (c_count c)).

(** The loaded circuits, evaluated once. *)
Definition adder8 : circuit mixed_gate := Eval vm_compute in loaded 8.
Definition adder16 : circuit mixed_gate := Eval vm_compute in loaded 16.
Definition adder32 : circuit mixed_gate := Eval vm_compute in loaded 32.
Definition adder64 : circuit mixed_gate := Eval vm_compute in loaded 64.
Definition build8 := Eval vm_compute in as_build adder8.
Definition build16 := Eval vm_compute in as_build adder16.
Definition build32 := Eval vm_compute in as_build adder32.
Definition build64 := Eval vm_compute in as_build adder64.

Definition adder (w : nat) : circuit mixed_gate :=
  if w =? 8 then adder8 else if w =? 16 then adder16 else if w =? 32 then adder32 else adder64.
Definition build (w : nat) : list (mixed_gate * list nat) :=
  if w =? 8 then build8 else if w =? 16 then build16 else if w =? 32 then build32 else build64.

Definition supported (w : nat) : Prop := In w [8; 16; 32; 64].

Definition arity_check (par : nat -> list nat) (c : circuit mixed_gate) : bool :=
  forallb (fun i => match nth_error (c_gates c) i with
     | Some (MGBool (BAnd | BXor)) => length (par i) =? 2
     | Some (MGBase GScInput) => length (par i) =? 0
     | Some (MGBase GScOutput) => length (par i) =? 1
     | _ => false end) (seq 0 (c_count c)).

Definition roots_by {G} (par : nat -> list nat) (c : circuit G) (k : G -> bool) : bool :=
  forallb (fun i => match nth_error (c_gates c) i with
                    | Some x => Bool.eqb (match par i with [] => true | _ => false end) (k x)
                    | None => true end) (seq 0 (c_count c)).

Definition sub_by (par : nat -> list nat) (c : circuit mixed_gate) : bool :=
  topo_check c &&
  roots_by par c (fun x => is_input_gate mixed_ops x || is_const_gate mixed_ops x || is_scin_gate mixed_ops x) &&
  negb (c_is_main c) && kinds_check mixed_ops c.

Definition adder_checks (w : nat) (c : circuit mixed_gate) (l : list (mixed_gate * list nat)) : bool :=
  let tbl := map snd l in
  let par i := nth i tbl [] in
  (c_count c =? length l) &&
  adder_check w par c && depths_check mixed_ops w (Nat.log2 w) par c && sub_by par c && arity_check par c
  && match c_simd c with None => true | _ => false end.

(** The proofs below are closed computations.  They are arranged so that the
    kernel's ordinary conversion is fast too: one side is always a literal. *)
Lemma adder_built w : supported w -> adder w = c_build mixed_ops c_new (build w).
Proof.
  intros [<-|[<-|[<-|[<-|[]]]]].
  - change (adder8 = c_build mixed_ops c_new build8). vm_cast_no_check (eq_refl adder8).
  - change (adder16 = c_build mixed_ops c_new build16). vm_cast_no_check (eq_refl adder16).
  - change (adder32 = c_build mixed_ops c_new build32). vm_cast_no_check (eq_refl adder32).
  - change (adder64 = c_build mixed_ops c_new build64). vm_cast_no_check (eq_refl adder64).
Qed.

Lemma adder_checked w : supported w -> adder_checks w (adder w) (build w) = true.
Proof.
  intros [<-|[<-|[<-|[<-|[]]]]].
  - change (adder_checks 8 adder8 build8 = true). vm_cast_no_check (eq_refl true).
  - change (adder_checks 16 adder16 build16 = true). vm_cast_no_check (eq_refl true).
  - change (adder_checks 32 adder32 build32 = true). vm_cast_no_check (eq_refl true).
  - change (adder_checks 64 adder64 build64 = true). vm_cast_no_check (eq_refl true).
Qed.

Lemma adder_loaded maxu cap w : supported w -> 1000 <= maxu -> 2 <= cap -> load_adder maxu cap w = Some (adder w).
Proof.
  intros Hw Hm Hc.
  replace maxu with (1000 + (maxu - 1000)) by lia. replace cap with (2 + (cap - 2)) by lia.
  clear Hm Hc. generalize (maxu - 1000) (cap - 2). destruct Hw as [<-|[<-|[<-|[<-|[]]]]]; intros m k.
  - change (load_adder (1000 + m) (2 + k) 8 = Some adder8). vm_cast_no_check (eq_refl (Some adder8)).
  - change (load_adder (1000 + m) (2 + k) 16 = Some adder16). vm_cast_no_check (eq_refl (Some adder16)).
  - change (load_adder (1000 + m) (2 + k) 32 = Some adder32). vm_cast_no_check (eq_refl (Some adder32)).
  - change (load_adder (1000 + m) (2 + k) 64 = Some adder64). vm_cast_no_check (eq_refl (Some adder64)).
Qed.

Lemma adder_api w : supported w -> api mixed_ops (adder w).
Proof. intros H. rewrite adder_built by auto. apply c_build_api. apply api_new. Qed.

(** What the checks mean. *)
Record adder_ok (w : nat) (sub : circuit mixed_gate) : Prop := {
  ao_callable : callable mixed_ops sub;
  ao_ins : length (c_scins sub) = 2 * w;
  ao_outs : length (c_scouts sub) = w;
  ao_simd : c_simd sub = None;
  ao_arity : forall g x, nth_error (c_gates sub) g = Some x ->
     match x with
     | MGBool (BAnd | BXor) => length (parents sub g) = 2
     | MGBase GScInput => length (parents sub g) = 0
     | MGBase GScOutput => length (parents sub g) = 1
     | _ => False end;
  ao_depth : circuit_depth mixed_ops sub (Nat.log2 w);
  ao_out_depth : forall i o, nth_error (c_scouts sub) i = Some o -> mult_depth mixed_ops sub o (Nat.log2_up (S i));
  ao_depths : forall g, g < c_count sub -> exists d, mult_depth mixed_ops sub g d;
  ao_sum : forall v a b, valued mixed_ops plain_sem sub v -> length a = w -> length b = w ->
     map v (c_scins sub) = a ++ b ->
     map v (c_scouts sub) = bits_of w (bits_value a + bits_value b) }.

Lemma adder_facts w : supported w -> adder_ok w (adder w).
Proof.
  intros Hw. pose proof (adder_checked w Hw) as H. pose proof (adder_api w Hw) as Ha. unfold adder_checks in H. cbv zeta in H.
  rewrite !andb_true_iff, Nat.eqb_eq in H. destruct H as (((((H0 & H1) & H2) & H3) & H4) & H5).
  assert (Hpar : forall i, (fun i => nth i (map snd (build w)) []) i = parents (adder w) i).
  { intros i. rewrite (adder_built w Hw), (c_build_gates mixed_ops (build w) c_new (api_new _)).
    - change (c_count (@c_new mixed_gate)) with 0. rewrite Nat.sub_0_r. reflexivity.
    - rewrite <- (adder_built w Hw). exact H0. }
  clear H0. revert Hpar H1 H2 H3 H4 H5 Ha.
  generalize (fun i => nth i (map snd (build w)) []). generalize (adder w). intros c par Hpar H1 H2 H3 H4 H5 Ha.
  unfold adder_check in H1. rewrite (ann_pass_ext w par (parents c) Hpar) in H1. fold (adder_check w (parents c) c) in H1.
  unfold depths_check in H2. rewrite (depth_pass_ext mixed_ops c par (parents c) Hpar) in H2.
  fold (depths_check mixed_ops w (Nat.log2 w) (parents c) c) in H2.
  assert (H3' : sub_check mixed_ops c = true).
  { unfold sub_by in H3. unfold sub_check. rewrite !andb_true_iff in *. destruct H3 as (((Q1 & Q2) & Q3) & Q4).
    repeat split; auto. unfold roots_by in Q2. unfold roots_check. rewrite forallb_forall in *. intros i Hi.
    rewrite <- Hpar. apply Q2; auto. }
  assert (Har : forall g x, nth_error (c_gates c) g = Some x ->
     match x with
     | MGBool (BAnd | BXor) => length (parents c g) = 2
     | MGBase GScInput => length (parents c g) = 0
     | MGBase GScOutput => length (parents c g) = 1
     | _ => False end).
  { unfold arity_check in H4. rewrite forallb_forall in H4. intros g x Hx.
    assert (Hg : g < c_count c) by (apply nth_error_Some; congruence). specialize (H4 g ltac:(apply in_seq; lia)).
    rewrite Hx, Hpar in H4. destruct x as [[]|[]| |]; try discriminate; apply Nat.eqb_eq; auto. }
  destruct (depths_check_ok _ _ _ _ H2) as (D1 & D2 & D3).
  constructor; auto.
  - apply sub_check_callable; auto.
  - clear - H1. unfold adder_check in H1. destruct (ann_pass _ _ _ _ _); [|discriminate].
    rewrite !andb_true_iff, !Nat.eqb_eq in H1. tauto.
  - clear - H1. unfold adder_check in H1. destruct (ann_pass _ _ _ _ _); [|discriminate].
    rewrite !andb_true_iff, !Nat.eqb_eq in H1. tauto.
  - destruct (c_simd c); [discriminate|auto].
  - intros v a b Hv La Lb Hi.
    rewrite (adder_check_ok w c v Hv a b La Lb Hi); auto.
    + subst w. apply sum_bits; auto.
    + apply api_api_wf in Ha. apply (aw_scins _ _ Ha).
    + intros g Hg. apply In_nth_error in Hg. destruct Hg as (i & Hi'). specialize (Har _ _ Hi').
      destruct g as [[]|[]| |]; try tauto; reflexivity.
Qed.
