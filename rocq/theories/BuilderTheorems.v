(** Property theorems about secrets and reductions: C18, C19. *)
From Coq Require Import List Bool Arith Lia.
Require Import Verif.Prelude Verif.PreludeProofs Verif.GateModel Verif.CircuitModel Verif.CircuitSpec Verif.CircuitProofs3
  Verif.ProtocolModel Verif.BoolGmwModel Verif.BoolGmwSpec Verif.InlineSpec Verif.BristolProofs
  Verif.ExecCircuitSpec Verif.ExecModel Verif.ExecSpec Verif.ExecBoolSpec Verif.ExecTheorems Verif.BristolTheorems
  Verif.ConnModel Verif.BuilderModel Verif.BuilderSpec Verif.ReduceProofs Verif.BuilderProofs Verif.BuilderProofs2.
Import ListNotations.

(** ** C18 *)

(** Any straight-line program over secrets of any builder state: it runs exactly
    when all operands of each operation live in the same circuit; the results
    live where their operands do; nothing that existed changes; and under every
    assignment of values that respects the gates the results carry the values of
    the program. *)
Theorem C18_program :
  forall b env p, b_wf b -> Forall (sec_ok b) env ->
  match prog_circ (length (b_ids b)) (map fst env) p with
  | Some cs =>
      exists b' env', run_ops b env p = Some (b', env') /\ map fst env' = cs /\
        grows b b' /\ b_wf b' /\ Forall (sec_ok b') env' /\
        forall v, bvalued b' v ->
          prog_sem (map (sec_val b v) env) p = Some (map (sec_val b' v) env')
  | None => run_ops b env p = None
  end.
Proof. intros b env p. apply run_ops_spec. Qed.
Print Assumptions C18_program.

Lemma circ_zero p : forall (ns cs : list nat), prog_circ 1 ns p = Some cs -> Forall (eq 0) ns -> Forall (eq 0) cs.
Proof.
  induction p as [|o p IH]; intros ns cs H Hz; [injection H as <-; auto|].
  unfold prog_circ in H. cbn [ofold] in H. destruct (op_circ 1 ns o) as [ns'|] eqn:E; [|discriminate]. cbn [obind] in H.
  apply (IH ns' cs H). unfold op_circ in E. rewrite Forall_forall in Hz.
  match type of E with (obind ?x _ = _) => destruct x as [r|] eqn:E1; [|discriminate] end. cbn [obind] in E.
  injection E as <-. apply Forall_app. split; [apply Forall_forall; auto|]. constructor; auto.
  destruct o as [o i j|o i x|i|id x|o is].
  - destruct (nth_error ns i) eqn:Ei; [|discriminate]. cbn [obind] in E1. destruct (nth_error ns j) eqn:Ej; [|discriminate].
    cbn [obind] in E1. destruct (n =? n0); [|discriminate]. injection E1 as <-. apply Hz. eapply nth_error_In; eauto.
  - apply Hz. eapply nth_error_In; eauto.
  - apply Hz. eapply nth_error_In; eauto.
  - destruct (Nat.ltb_spec id 1); [|discriminate]. injection E1 as <-. lia.
  - destruct is as [|i is]; [discriminate|]. cbn [omap] in E1. destruct (nth_error ns i) eqn:Ei; [|discriminate].
    cbn [obind] in E1. destruct (omap (nth_error ns) is); [|discriminate]. cbn [obind] in E1.
    destruct (forallb (Nat.eqb n) l); [|discriminate]. injection E1 as <-. apply Hz. eapply nth_error_In; eauto.
Qed.

Lemma omap_secrets (env : list secret) (f : secret -> bool) : forall os outs, omap (nth_error (map f env)) os = Some outs ->
  exists l, omap (@nth_error secret env) os = Some l /\ map f l = outs /\ incl l env.
Proof.
  intros os outs H. rewrite omap_nth_map in H. destruct (omap (nth_error env) os) as [l|] eqn:E; [|discriminate].
  injection H as <-. exists l. split; auto. split; auto. clear -E. revert l E.
  induction os as [|o os IH]; intros l E; [injection E as <-; intros x []|].
  cbn [omap] in E. destruct (nth_error env o) as [s|] eqn:Es; [|discriminate]. cbn [obind] in E.
  destruct (omap (nth_error env) os) as [r|]; [|discriminate]. injection E as <-.
  intros x [<-|Hx]; [eapply nth_error_In; eauto|]. apply (IH r eq_refl). auto.
Qed.

(** A whole program: declare inputs, compute with secrets in the main circuit,
    declare outputs; the resulting main circuit executed by two parties gives
    shares of the program's outputs. *)
Theorem C18_execution :
  forall W n p os, 0 < W ->
  forall ins env outs, length ins = n ->
  prog_circ 1 (repeat 0 n) p <> None ->
  prog_sem ins p = Some env -> omap (nth_error env) os = Some outs ->
  exists b1 i b2 e l b3 os' c ec,
    sec_inputs n b_new = Some (b1, i) /\ run_ops b1 i p = Some (b2, e) /\
    omap (nth_error e) os = Some l /\ sec_outputs b2 l = Some (b3, os') /\
    b_cell b3 0 = Some (0, c) /\ ec_of_base bool_ops c = Some ec /\
    main_ok bool_ops c /\ operands_ok c /\ c_simd c = None /\
    length (c_inputs c) = n /\ c_outputs c = os' /\
    forall (Sv : Type) (req : Sv -> nat -> option (mul_triples * Sv)) J,
    serves req (bool_setup_ok W) J ->
    forall (i0 i1 : istore (bool_gmw W)), shares_of W None i0 i1 (lane1 ins) ->
    forall s0 s1 rest, J (requests ec ++ rest) s0 s1 ->
    exists o0 o1 st',
      ex2_run (pr:=bool_gmw W) req ec i0 i1
        ((go_init (pr:=bool_gmw W) ec, s0), (go_init (pr:=bool_gmw W) ec, s1)) = Some (o0, o1, st') /\
      shares_of W None o0 o1 (lane1 outs).
Proof.
  intros W n p os HW ins env outs Hn Hc He Ho.
  destruct (sec_inputs_spec n c_new cn_empty built_new) as (c1 & E1 & B1 & G1 & I1 & O1 & S1).
  set (b1 := BD [c1] [0] cn_empty) in *. simpl in G1, I1, O1, S1. change (c_count (@c_new bool_gate)) with 0 in *.
  assert (Hcount : c_count c1 = n) by (unfold c_count; rewrite G1; apply repeat_length).
  assert (W1 : b_wf b1).
  { split; [constructor; [apply B1|constructor]|]. constructor; [simpl; lia|constructor]. }
  assert (K1 : Forall (sec_ok b1) (map (pair 0) (seq 0 n))).
  { apply Forall_forall. intros s Hs. apply in_map_iff in Hs. destruct Hs as (g & <- & Hg). apply in_seq in Hg.
    exists 0, c1. split; auto. simpl. lia. }
  assert (Hm : map fst (map (pair 0) (seq 0 n)) = repeat 0 n).
  { rewrite map_map. simpl. clear. generalize 0 at 2. induction n; intros m; simpl; auto. f_equal. auto. }
  pose proof (C18_program b1 (map (pair 0) (seq 0 n)) p W1 K1) as HP.
  change (length (b_ids b1)) with 1 in HP. rewrite Hm in HP.
  destruct (prog_circ 1 (repeat 0 n) p) as [cs|] eqn:Ecs; [|congruence].
  destruct HP as (b2 & e & E2 & F2 & Gr & W2 & K2 & V2).
  assert (Hb2 : exists c2, b2 = BD [c2] [0] cn_empty /\ grows_c c1 c2 /\ built c2).
  { pose proof (gr_ids _ _ Gr) as A1. pose proof (gr_cn _ _ Gr) as A2. pose proof (gr_cells _ _ Gr) as A3.
    assert (A4 : Forall built (b_cells b2)) by (apply (gr_built _ _ Gr); constructor; auto).
    destruct b2 as [cl il cn]. cbn in A1, A2, A3, A4. subst il cn.
    inversion A3 as [|x c2 y z Q1 Q2]; subst. inversion Q2; subst. exists c2. inversion A4; auto. }
  destruct Hb2 as (c2 & -> & Hg & B2). destruct Hg as ((gs & G2 & L2) & P2 & I2 & O2 & S2 & _ & M2 & _).
  assert (Hz : Forall (eq 0) cs).
  { eapply circ_zero; eauto. apply Forall_forall. intros x Hx. apply repeat_spec in Hx. auto. }
  (* a list of secrets to output *)
  assert (Hlen : length e = length env).
  { assert (Hl1 : forall p0 b env0 b' env', run_ops b env0 p0 = Some (b', env') -> length env' = length env0 + length p0).
    { clear. induction p0 as [|o p0 IH]; intros b env0 b' env' H; [injection H as <- <-; simpl; lia|].
      unfold run_ops in H. cbn [ofold] in H. destruct (run_op (b, env0) o) as [[bx ex]|] eqn:E; [|discriminate].
      cbn [obind] in H. rewrite (IH _ _ _ _ H). assert (length ex = S (length env0)); [|simpl; lia].
      assert (Hq : exists r, ex = env0 ++ [r]).
      { destruct o as [o i j|o i x|i|id x|o is]; cbn [run_op] in E.
        - destruct (nth_error env0 i); [|discriminate]; cbn [obind] in E. destruct (nth_error env0 j); [|discriminate]; cbn [obind] in E.
          destruct (do_bin o b s s0) as [[? r]|]; [|discriminate]. injection E as _ <-. eauto.
        - destruct (nth_error env0 i); [|discriminate]; cbn [obind] in E.
          destruct (do_bin_b o b s x) as [[? r]|]; [|discriminate]. injection E as _ <-. eauto.
        - destruct (nth_error env0 i); [|discriminate]; cbn [obind] in E.
          destruct (sec_not b s) as [[? r]|]; [|discriminate]. injection E as _ <-. eauto.
        - destruct (sec_const b id x) as [[? r]|]; [|discriminate]. injection E as _ <-. eauto.
        - destruct (omap (nth_error env0) is) as [ss|]; [|discriminate]; cbn [obind] in E.
          destruct (low_depth_reduce (do_bin o) b ss) as [[? [r|]]|]; try discriminate. injection E as _ <-. eauto. }
      destruct Hq as (r & ->). rewrite app_length. simpl. lia. }
    assert (Hl2 : forall p0 e0 e1, prog_sem e0 p0 = Some e1 -> length e1 = length e0 + length p0).
    { clear. induction p0 as [|o p0 IH]; intros e0 e1 H; [injection H as <-; simpl; lia|].
      unfold prog_sem in H. cbn [ofold] in H. destruct (op_sem e0 o) as [ex|] eqn:E; [|discriminate]. cbn [obind] in H.
      rewrite (IH _ _ H). unfold op_sem in E. match type of E with (obind ?x _ = _) => destruct x; [|discriminate] end.
      injection E as <-. rewrite app_length. simpl. lia. }
    rewrite (Hl1 _ _ _ _ _ E2), (Hl2 _ _ _ He), map_length, seq_length. lia. }
  assert (Hsel : exists l, omap (@nth_error secret e) os = Some l /\ incl l e).
  { assert (Hos : Forall (fun o => o < length e) os).
    { rewrite Hlen. clear -Ho. revert outs Ho. induction os as [|o os IH]; intros outs Ho; constructor.
      - cbn [omap] in Ho. destruct (nth_error env o) eqn:E; [|discriminate]. apply nth_error_Some. congruence.
      - cbn [omap] in Ho. destruct (nth_error env o) eqn:E; [|discriminate]. cbn [obind] in Ho.
        destruct (omap (nth_error env) os) as [l|]; [|discriminate]. eapply IH; eauto. }
    clear -Hos. induction Hos as [|o os H HF IH]; [exists []; split; auto; intros x []|].
    destruct IH as (l & E & Hi). cbn [omap]. destruct (nth_error e o) as [s|] eqn:Es.
    - cbn [obind]. rewrite E. exists (s :: l). split; auto. intros x [<-|Hx]; auto. eapply nth_error_In; eauto.
    - apply nth_error_None in Es. lia. }
  destruct Hsel as (l & El & Hincl).
  assert (Kl : Forall (fun s : secret => fst s = 0 /\ snd s < c_count c2) l).
  { apply Forall_forall. intros s Hs. apply Hincl in Hs. rewrite Forall_forall in K2. destruct (K2 s Hs) as (k & c & Hk & Hlt).
    assert (Hf : fst s = 0). { rewrite <- F2 in Hz. rewrite Forall_forall in Hz. symmetry. apply Hz. apply in_map. auto. }
    rewrite Hf in Hk. injection Hk as <- <-. auto. }
  destruct (sec_outputs_spec l c2 cn_empty B2 Kl) as (c3 & os' & E3 & B3 & Eos & G3 & I3 & O3 & S3 & V3).
  assert (Sc : c_scins c3 = []) by congruence.
  destruct (built_main c3 B3 Sc) as [Mok Ook].
  assert (Hs : simd_ok W c3) by (unfold simd_ok; rewrite (bt_simd _ B3); exact I).
  destruct (C11_execution_computes_circuit W c3 HW Mok Ook Hs) as (ec & Eec & Hsh & HX).
  assert (Hin : c_inputs c3 = seq 0 n) by congruence.
  exists b1, (map (pair 0) (seq 0 n)), (BD [c2] [0] cn_empty), e, l, (BD [c3] [0] cn_empty), os', c3, ec.
  split; [exact E1|]. split; [exact E2|]. split; [exact El|]. split; [exact E3|]. split; [reflexivity|]. split; [exact Eec|].
  split; auto. split; auto. split; [apply B3|]. split; [rewrite Hin; apply seq_length|]. split; [rewrite O3, O2, O1; auto|].
  intros Sv req J HJ i0 i1 Hsh01 s0 s1 rest Hj. rewrite (bt_simd _ B3) in HX.
  assert (Hlen1 : length (lane1 ins) = length (c_inputs c3)) by (unfold lane1; rewrite map_length, Hin, seq_length; auto).
  destruct (HX Sv req J HJ i0 i1 (lane1 ins) Hsh01 Hlen1 _ _ s0 s1 rest Hsh Hsh Hj)
    as (v & o0 & o1 & go0' & go1' & s0' & s1' & Hv & Hrun & Hout & _).
  exists o0, o1, ((go0', s0'), (go1', s1')). split; auto.
  assert (Eo : map v (c_outputs c3) = lane1 outs); [|rewrite <- Eo; auto].
  set (w := fun g => nth 0 (v g) false).
  assert (Hg3 : forall g, g < n -> nth_error (c_gates c3) g = Some (BBase GInput)).
  { intros g Hgn. rewrite G3, G2, G1, <- app_assoc, nth_error_app1 by (rewrite repeat_length; auto).
    rewrite (nth_error_nth' _ (BBase GInput)) by (rewrite repeat_length; auto). f_equal. apply nth_repeat. }
  assert (Hn3 : n <= c_count c3).
  { unfold c_count. rewrite G3, G2, G1, !app_length, repeat_length. lia. }
  pose proof (plain_inputs c3 n ins v (bt_simd _ B3) Hin Hn3 Hg3 Hn Hv) as Hins. fold w in Hins. rewrite Hin in Hins.
  pose proof (plain_valued c3 _ v (bt_simd _ B3) Hv) as Hw3. fold w in Hw3.
  destruct (V3 w Hw3) as [Hw2 Hos].
  assert (Hbv : bvalued (BD [c2] [0] cn_empty) (fun _ => w)).
  { intros k c Hk. destruct k as [|[|k]]; try discriminate. injection Hk as <-. auto. }
  specialize (V2 _ Hbv). rewrite map_map in V2.
  assert (Hmi : map (fun x => sec_val b1 (fun _ => w) (0, x)) (seq 0 n) = ins) by (rewrite <- Hins; reflexivity).
  rewrite Hmi, He in V2. injection V2 as V2. rewrite V2 in Ho.
  destruct (omap_secrets e _ os outs Ho) as (l' & El' & Hl' & _). rewrite El in El'. injection El' as <-.
  assert (Hwo : map w os' = outs).
  { rewrite Hos, <- Hl'. apply map_ext_in. intros s Hsin. rewrite Forall_forall in Kl. destruct (Kl s Hsin) as [Q _].
    unfold sec_val. rewrite Q. auto. }
  rewrite O3, O2, O1. cbn [app]. unfold lane1. rewrite <- Hwo, map_map. apply map_ext_in. intros o Hoin.
  assert (Hog : exists x, nth_error (c_gates c3) o = Some x).
  { assert (Hin' : In o (c_outputs c3)) by (rewrite O3; apply in_or_app; auto).
    rewrite (aw_outputs _ _ (api_api_wf _ _ (bt_api _ B3))) in Hin'. apply ids_where_In in Hin'. destruct Hin' as (x & Ex & _). eauto. }
  destruct Hog as (x & Ex). destruct (Hv o x Ex) as [HL _]. unfold c_lanes in HL. rewrite (bt_simd _ B3) in HL.
  unfold w. destruct (v o) as [|y [|]]; try discriminate. auto.
Qed.
Print Assumptions C18_execution.

(** Concrete: a three-input majority computed with or, and, xor and a reduction;
    and a program that mixes circuits is rejected. *)
Definition ex_prog : list sop :=
  [SBin OAnd 0 1; SBin OAnd 1 2; SBin OOr 3 4; SBin OAnd 0 2; SBin OOrAssign 5 6; SReduce OXor [0; 1; 2]; SNot 8; SBinB OOr 9 false].
Example C18_case :
  prog_circ 1 (repeat 0 3) ex_prog <> None /\
  prog_sem [true; false; true] ex_prog =
    Some [true; false; true; false; false; false; true; true; false; true; true] /\
  (exists b i r, sec_inputs 3 b_new = Some (b, i) /\ run_ops b i ex_prog = Some r /\ length (b_cells (fst r)) = 1) /\
  run_ops (BD [fst (add_gate bool_ops c_new (BBase GInput)); fst (add_gate bool_ops c_new (BBase GInput))] [0; 1] cn_empty)
    [(0, 0); (1, 0)] [SBin OXor 0 1] = None.
Proof.
  split; [discriminate|]. split; [reflexivity|]. split; [|reflexivity].
  eexists _, _, _. split; [reflexivity|]. split; [vm_compute; reflexivity|reflexivity].
Qed.

(** ** C19 *)

(** [f] may be any associative operation; the state counts its applications. *)
Theorem C19_fold :
  forall (A : Type) (f : A -> A -> A) l k, (forall x y z, f (f x y) z = f x (f y z)) -> l <> [] ->
  low_depth_reduce (fun k x y => Some (S k, f x y)) k l = Some (k + (length l - 1), combine_all f l).
Proof.
  intros A f l k Hf Hl. destruct (ldr_counted f k l Hl) as (x & E1 & E2). change (fun k x y => Some (S k, f x y)) with (counted f).
  rewrite E1. do 2 f_equal. rewrite lp_tree in E2.
  destruct (lp_one Node (length l) (map Leaf l)) as (t & Et); [rewrite map_length; auto|destruct l; [congruence|discriminate]|].
  rewrite Et in E2. injection E2 as <-. pose proof (lp_leaves (length l) (map Leaf l)) as E3. rewrite Et in E3.
  cbn [flat_map] in E3. rewrite app_nil_r in E3.
  assert (E4 : flat_map leaves (map Leaf l) = l) by (clear; induction l; simpl; congruence).
  rewrite E4 in E3. rewrite <- E3. symmetry. apply eval_combine. auto.
Qed.
Print Assumptions C19_fold.

(** The nesting: order of the items, number of operations, depth, and no nesting
    of the same items is shallower. *)
Theorem C19_depth :
  forall (A : Type) (l : list A), l <> [] ->
  exists t, low_depth_reduce (fun k x y => Some (S k, Node x y)) 0 (map Leaf l) = Some (length l - 1, Some t) /\
    leaves t = l /\ nodes t = length l - 1 /\ depth t <= Nat.log2_up (length l) /\
    forall t' : nest A, leaves t' = l -> depth t <= depth t'.
Proof.
  intros A l Hl. assert (Hl' : map (@Leaf A) l <> []) by (destruct l; [congruence|discriminate]).
  destruct (ldr_counted Node 0 (map Leaf l) Hl') as (t & E1 & E2). exists t.
  change (fun k x y => Some (S k, Node x y)) with (@counted (nest A) Node). rewrite E1, map_length. split; auto.
  pose proof (lp_leaves (length (map (@Leaf A) l)) (map Leaf l)) as E3. rewrite E2 in E3. cbn [flat_map] in E3. rewrite app_nil_r in E3.
  assert (E4 : flat_map leaves (map (@Leaf A) l) = l) by (clear; induction l; simpl; congruence).
  rewrite E4 in E3. split; auto. split; [pose proof (nodes_leaves t); rewrite E3 in H; lia|].
  assert (HF : Forall (fun t => depth t <= 0) (map (@Leaf A) l)) by (apply Forall_forall; intros x Hx; apply in_map_iff in Hx; destruct Hx as (y & <- & _); auto).
  pose proof (lp_depth (length (map (@Leaf A) l)) (map Leaf l) 0 (le_n _) Hl' HF) as HD. rewrite E2 in HD.
  inversion HD as [|? ? HD1 _]. rewrite map_length in HD1. split; auto.
  intros t' Ht'. pose proof (log2_up_le_depth t') as HM. rewrite Ht' in HM. lia.
Qed.
Print Assumptions C19_depth.

Theorem C19_empty :
  forall (B A : Type) (f : B -> A -> A -> option (B * A)) b, low_depth_reduce f b [] = Some (b, None).
Proof. reflexivity. Qed.
Print Assumptions C19_empty.

Example C19_case :
  low_depth_reduce (fun k x y => Some (S k, x ++ y)) 0 [[1]; [2]; [3]; [4]; [5]] = Some (4, Some [1; 2; 3; 4; 5]) /\
  low_depth_reduce (fun k x y => Some (S k, Node x y)) 0 (map Leaf [1; 2; 3; 4; 5]) =
    Some (4, Some (Node (Node (Node (Leaf 1) (Leaf 2)) (Node (Leaf 3) (Leaf 4))) (Leaf 5))).
Proof. split; reflexivity. Qed.
