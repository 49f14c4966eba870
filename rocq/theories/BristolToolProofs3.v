(** The Bristol tool: the program it builds and the layers it precomputes. *)
From Coq Require Import List Bool Arith Lia.
Require Import Verif.Prelude Verif.PreludeProofs Verif.GateModel Verif.CircuitModel Verif.CircuitSpec Verif.CircuitProofs
  Verif.CircuitProofs2 Verif.CircuitProofs3 Verif.ExecModel Verif.BoolGmwModel Verif.BoolGmwSpec Verif.InlineModel Verif.InlineSpec
  Verif.BristolSpec Verif.BristolProofs Verif.ExecCircuitSpec Verif.BristolTheorems Verif.ConnModel Verif.ConnSpec Verif.ConnProofs Verif.ConnProofs2
  Verif.BuilderModel Verif.BuilderSpec Verif.BuilderProofs Verif.BuilderProofs2 Verif.CbcModel Verif.CbcSpec Verif.CbcProofs
  Verif.MultiModel Verif.MultiSpec Verif.MultiProofs Verif.MultiTheorems Verif.SubCircModel Verif.MultiExecSpec Verif.MultiExecProofs Verif.MultiExecProofs2 Verif.MultiExecTheorems
  Verif.CbcScModel Verif.CbcScProofs Verif.CbcScProofs2 Verif.CbcScProofs3 Verif.CbcScProofs4
  Verif.StaticModel Verif.StaticSpec Verif.StaticExecTheorems Verif.BristolToolModel Verif.BristolToolProofs Verif.BristolToolProofs2.
Import ListNotations.

Lemma repeat_at {A} (x y : A) n g : nth_error (repeat x n) g = Some y -> g < n /\ y = x.
Proof.
  intros H. assert (Hg : g < n) by (rewrite <- (repeat_length x n); apply nth_error_Some; congruence).
  split; auto. apply nth_error_In, repeat_spec in H. auto.
Qed.
Lemma repeat_nth {A} (x : A) n g : g < n -> nth_error (repeat x n) g = Some x.
Proof. intros H. rewrite (nth_error_nth' _ x) by (rewrite repeat_length; auto). f_equal. apply nth_repeat. Qed.

Lemma no_children {G} (c : circuit G) x : (forall g, ~ In x (parents c g)) -> children c x = [].
Proof.
  intros H. unfold children. destruct (filter (fun e => fst e =? x) (c_edges c)) as [|[p g] l] eqn:E; auto. exfalso.
  assert (HF : In (p, g) (filter (fun e => fst e =? x) (c_edges c))) by (rewrite E; left; auto).
  apply filter_In in HF. destruct HF as [HF1 HF2]. apply Nat.eqb_eq in HF2. cbn [fst] in HF2. subst p.
  apply (H g). unfold parents. apply in_map_iff. exists (x, g). split; auto. apply filter_In. split; auto. cbn [snd]. apply Nat.eqb_refl.
Qed.

(** ** The program with calls *)

Section Prog.
Variables (a m o size : nat) (sub c : circuit bool_gate) (cn : conns).
Hypothesis Ha : 0 < a.
Hypothesis Hm : 0 < m.
Hypothesis Hsh : br_shape LoadSub a sub.
Hypothesis Hso : c_count sub = o + m.
Hypothesis Hch : forall x, o <= x -> children sub x = [].
Hypothesis HM : bt_main a m size c.
Hypothesis Hcn : cn_rep cn (bt_hist a m o) [].
Let cl := [c; c_set_simd sub size].
Let h := bt_wires a m o.
Let mc := MC [c; c_set_simd sub size] [0; 1] cn.

Inductive bt_wire : gid -> gid -> Prop :=
| bw_in j : j < a -> bt_wire (0, j) (1, j)
| bw_out j : j < m -> bt_wire (1, o + j) (0, a + j).

Lemma bt_in_wires p t : In (p, t) h <-> bt_wire p t.
Proof.
  unfold h, bt_wires. rewrite in_app_iff, !combine_seq. cbn [Nat.add]. split.
  - intros [(j & Hj & -> & ->)|(j & Hj & -> & ->)]; constructor; auto.
  - intros [j Hj|j Hj]; [left|right]; exists j; auto.
Qed.

Lemma main_gate g x : nth_error (c_gates c) g = Some x ->
  (g < a /\ x = BBase GInput) \/ (a <= g < a + m /\ x = BBase GScInput) \/ (exists i, i < m /\ g = a + m + i /\ x = BBase GOutput).
Proof.
  rewrite (bm_gates _ _ _ _ HM). intros H. destruct (Nat.ltb_spec g a) as [L|L].
  - rewrite nth_error_app1 in H by (rewrite repeat_length; auto). apply repeat_at in H. left. tauto.
  - rewrite nth_error_app2, repeat_length in H by (rewrite repeat_length; auto). destruct (Nat.ltb_spec (g - a) m) as [L2|L2].
    + rewrite nth_error_app1 in H by (rewrite repeat_length; auto). apply repeat_at in H. right. left. split; [lia|tauto].
    + rewrite nth_error_app2, repeat_length in H by (rewrite repeat_length; auto). apply repeat_at in H. right. right.
      exists (g - a - m). split; [tauto|]. split; [lia|tauto].
Qed.
Lemma main_count : c_count c = a + m + m.
Proof. unfold c_count. rewrite (bm_gates _ _ _ _ HM), !app_length, !repeat_length. lia. Qed.
Lemma main_input g : g < a -> nth_error (c_gates c) g = Some (BBase GInput).
Proof. intros H. rewrite (bm_gates _ _ _ _ HM), nth_error_app1 by (rewrite repeat_length; auto). apply repeat_nth. auto. Qed.
Lemma main_scinput j : j < m -> nth_error (c_gates c) (a + j) = Some (BBase GScInput).
Proof.
  intros H. rewrite (bm_gates _ _ _ _ HM), nth_error_app2, repeat_length by (rewrite repeat_length; lia).
  replace (a + j - a) with j by lia. rewrite nth_error_app1 by (rewrite repeat_length; auto). apply repeat_nth. auto.
Qed.
Lemma main_output j : j < m -> nth_error (c_gates c) (a + m + j) = Some (BBase GOutput).
Proof.
  intros H. rewrite (bm_gates _ _ _ _ HM), nth_error_app2, repeat_length by (rewrite repeat_length; lia).
  replace (a + m + j - a) with (m + j) by lia. rewrite nth_error_app2, repeat_length by (rewrite repeat_length; lia).
  replace (m + j - m) with j by lia. apply repeat_nth. auto.
Qed.
Lemma main_parents p g : In p (parents c g) -> exists i, i < m /\ g = a + m + i /\ p = a + i.
Proof.
  intros H. pose proof (in_range_parents c p g (aw_range _ _ (api_api_wf _ _ (bm_api _ _ _ _ HM))) H) as [_ L]. rewrite main_count in L.
  destruct (Nat.ltb_spec g (a + m)) as [K|K]; [rewrite (bm_ports _ _ _ _ HM g K) in H; destruct H|].
  exists (g - a - m). split; [lia|]. split; [lia|]. replace g with (a + m + (g - a - m)) in H at 1 by lia.
  rewrite (bm_outs _ _ _ _ HM) in H by lia. destruct H as [<-|[]]. reflexivity.
Qed.

Lemma filter_where f x y z : f (BBase GInput) = x -> f (BBase GScInput) = y -> f (BBase GOutput) = z ->
  ids_where f (c_gates c) = (if x then seq 0 a else []) ++ (if y then seq a m else []) ++ (if z then seq (a + m) m else []).
Proof.
  intros Ex Ey Ez. unfold ids_where. fold (c_count c). rewrite main_count, !seq_app, !filter_app, <- app_assoc. cbn [Nat.add].
  assert (HA : forall (b : bool) s n, (forall j, j < n -> match nth_error (c_gates c) (s + j) with Some q => f q | None => false end = b) ->
    filter (fun i => match nth_error (c_gates c) i with Some q => f q | None => false end) (seq s n) = if b then seq s n else []).
  { clear. intros b s n. revert s. induction n as [|n IH]; intros s H; [destruct b; reflexivity|]. cbn [seq filter].
    pose proof (H 0 ltac:(lia)) as H0. rewrite Nat.add_0_r in H0. rewrite H0, IH; [destruct b; reflexivity|].
    intros j Hj. specialize (H (S j) ltac:(lia)). rewrite Nat.add_succ_r in H. exact H. }
  rewrite (HA x 0 a), (HA y a m), (HA z (a + m) m); auto.
  - intros j Hj. rewrite main_output by auto. auto.
  - intros j Hj. rewrite main_scinput by auto. auto.
  - intros j Hj. cbn [Nat.add]. rewrite main_input by auto. auto.
Qed.
Lemma main_inputs : c_inputs c = seq 0 a.
Proof.
  rewrite (aw_inputs _ _ (api_api_wf _ _ (bm_api _ _ _ _ HM))), (filter_where _ true false false) by reflexivity. apply app_nil_r.
Qed.
Lemma main_outputs : c_outputs c = seq (a + m) m.
Proof. rewrite (aw_outputs _ _ (api_api_wf _ _ (bm_api _ _ _ _ HM))), (filter_where _ false false true) by reflexivity. reflexivity. Qed.

Lemma sub_in j : j < a -> nth_error (c_gates sub) j = Some (BBase GScInput).
Proof.
  intros Hj. pose proof (bs_nin _ _ _ Hsh) as HN. destruct (nth_error (c_gates sub) j) as [x|] eqn:E; [|apply nth_error_None in E; unfold c_count in HN; lia].
  destruct (bs_gate _ _ _ Hsh j x E) as [(_ & -> & _)|(H & _)]; [reflexivity|lia].
Qed.

Lemma bt_get k : mc_get mc k = nth_error cl k.
Proof. destruct k as [|[|[|k]]]; reflexivity. Qed.
Lemma cl_inv k d : nth_error cl k = Some d -> (k = 0 /\ d = c) \/ (k = 1 /\ d = c_set_simd sub size).
Proof. destruct k as [|[|[|k]]]; cbn; intros H; try discriminate; injection H as <-; auto. Qed.

Lemma bt_circuits : circuits_ok bool_ops (mc_get mc).
Proof.
  split; [exists c; reflexivity|]. intros q d Hd. rewrite bt_get in Hd. destruct (cl_inv q d Hd) as [[-> ->]|[-> ->]].
  - split; [apply HM|]. intros g x Hx Hk. destruct (main_gate g x Hx) as [[L ->]|[[L ->]|(i & Hi & -> & ->)]]; try discriminate; apply (bm_ports _ _ _ _ HM); lia.
  - split; [apply api_simd; apply Hsh|]. intros g x Hx Hk. change (c_gates (c_set_simd sub size)) with (c_gates sub) in Hx.
    change (parents sub g = []). destruct (bs_gate _ _ _ Hsh g x Hx) as [(_ & _ & E)|(_ & [([->| ->] & _)|([->| ->] & _)])]; auto; discriminate.
Qed.
Lemma bt_wires_ok : wires_ok bool_ops (mc_get mc) h.
Proof.
  split.
  - unfold h, bt_wires. rewrite map_app, !combine_snd by (rewrite !map_length, !seq_length; auto).
    apply NoDup_app_intro; [apply nodup_pair, seq_NoDup|apply nodup_pair, seq_NoDup|].
    intros x X1 X2. apply in_map_iff in X1. apply in_map_iff in X2. destruct X1 as (u & <- & _). destruct X2 as (w & E & _). discriminate.
  - intros p t H. apply bt_in_wires in H. destruct H as [j Hj|j Hj]; cbn [fst snd]; rewrite bt_get; cbn [cl nth_error].
    + exists (c_set_simd sub size), (BBase GScInput). split; auto. split; [exact (sub_in j Hj)|reflexivity].
    + exists c, (BBase GScInput). rewrite main_scinput by auto. auto.
Qed.

Let N := a + c_count sub.
Let rank (g : gid) : nat := match fst g with 0 => if snd g <? a then snd g else N + snd g | _ => a + snd g end.

Lemma bt_callable : all_callable bool_ops (mc_get mc) h.
Proof.
  exists rank. split.
  - intros [k p] [q g] [H|(d & Hd & Ef & Hp)].
    + apply bt_in_wires in H. inversion H; subst; unfold rank, N; cbn [fst snd].
      * destruct (Nat.ltb_spec g a); lia.
      * destruct (Nat.ltb_spec (a + j) a); lia.
    + cbn [fst snd] in *. subst q. rewrite bt_get in Hd. unfold rank, N. cbn [fst snd]. destruct (cl_inv k d Hd) as [[-> ->]|[-> ->]].
      * destruct (main_parents p g Hp) as (i & Hi & -> & ->). destruct (Nat.ltb_spec (a + i) a), (Nat.ltb_spec (a + m + i) a); lia.
      * change (In p (parents sub g)) in Hp. pose proof (bs_topo _ _ _ Hsh p g Hp). lia.
  - intros q d g x Hd Hx Hp. rewrite bt_get in Hd. destruct (cl_inv q d Hd) as [[-> ->]|[-> ->]].
    + destruct (main_gate g x Hx) as [[L ->]|[[L ->]|(i & Hi & -> & ->)]].
      * left. auto.
      * right. left. exists (1, o + (g - a)). split; [apply bt_in_wires; replace g with (a + (g - a)) at 2 by lia; constructor; lia|].
        exists (c_set_simd sub size). cbn [fst snd]. rewrite bt_get. split; [reflexivity|]. change (o + (g - a) < c_count sub). lia.
      * rewrite (bm_outs _ _ _ _ HM) in Hp by auto. discriminate.
    + change (c_gates (c_set_simd sub size)) with (c_gates sub) in Hx. change (parents sub g = []) in Hp.
      destruct (bs_gate _ _ _ Hsh g x Hx) as [(Hg & _ & _)|(_ & [(_ & E)|(_ & E)])]; try (rewrite Hp in E; discriminate).
      right. left. exists (0, g). split; [apply bt_in_wires; constructor; auto|]. exists c. cbn [fst snd]. rewrite bt_get. split; [reflexivity|].
      rewrite main_count. lia.
Qed.

Lemma bt_base W : size <> 0 -> size mod W = 0 -> program_base W cl (Some size).
Proof.
  intros S1 S2. constructor.
  - intros q d g x Hd Hx. destruct (cl_inv q d Hd) as [[-> ->]|[-> ->]].
    + destruct (main_gate g x Hx) as [[L ->]|[[L ->]|(i & Hi & -> & ->)]]; cbn; auto. rewrite (bm_outs _ _ _ _ HM) by auto. auto.
    + change (c_gates (c_set_simd sub size)) with (c_gates sub) in Hx. change (parents (c_set_simd sub size) g) with (parents sub g).
      destruct (bs_gate _ _ _ Hsh g x Hx) as [(_ & -> & _)|(_ & [([->| ->] & E)|([->| ->] & E)])]; cbn; auto.
  - intros q d Hd. destruct (cl_inv q d Hd) as [[-> ->]|[-> ->]]; [apply HM|reflexivity].
  - intros n E. injection E as <-. auto.
Qed.

Lemma bt_program_ok W : size <> 0 -> size mod W = 0 -> program_ok W cl h (Some size).
Proof.
  intros S1 S2. constructor; [apply bt_base; auto| |].
  - intros d q _ Hd Hq. injection Hd as <-. rewrite main_outputs in Hq. apply in_seq in Hq. split.
    + apply no_children. intros g Hg. apply main_parents in Hg. destruct Hg as (i & Hi & _ & E). lia.
    + intros t Ht. apply bt_in_wires in Ht. inversion Ht; subst. lia.
  - intros p t d _ Ht Hd. apply bt_in_wires in Ht. destruct Ht as [j Hj|j Hj]; cbn [fst snd] in *; injection Hd as <-.
    + apply no_children. intros g Hg. apply main_parents in Hg. destruct Hg as (i & Hi & _ & E). lia.
    + change (children sub (o + j) = []). apply Hch. lia.
Qed.

Lemma bt_program W imax : size <> 0 -> size mod W = 0 -> c_count c <= imax -> c_count sub <= imax -> program W imax mc cl h (Some size).
Proof.
  intros S1 S2 I1 I2. rewrite main_count in I1. rewrite Hso in I2. constructor.
  - apply bt_get.
  - apply bt_circuits.
  - apply bt_wires_ok.
  - apply bt_wired; auto. lia.
  - apply bt_callable.
  - apply bt_program_ok; auto.
Qed.
End Prog.

(** ** The program of the loaded circuit alone *)

Lemma one_wired {G} imax (c : circuit G) : wired_as imax (MC [c] [0] cn_empty) [].
Proof. intros g. split; reflexivity. Qed.

Lemma one_program W imax a c : br_shape LoadCircuit a c -> program W imax (MC [c] [0] cn_empty) [c] [] None.
Proof.
  intros S.
  assert (HI : forall k d, nth_error [c] k = Some d -> k = 0 /\ d = c) by (intros [|[|k]] d H; cbn in H; try discriminate; injection H as <-; auto).
  assert (HG : forall k, mc_get (MC [c] [0] cn_empty) k = nth_error [c] k) by (intros [|[|k]]; reflexivity).
  constructor.
  - exact HG.
  - split; [exists c; reflexivity|]. intros q d Hd. rewrite HG in Hd. destruct (HI q d Hd) as [-> ->]. split; [apply S|].
    intros g x Hx Hk. destruct (bs_gate _ _ _ S g x Hx) as [(_ & _ & E)|(_ & [([->| ->] & _)|([->| ->] & _)])]; auto; discriminate.
  - split; [constructor|]. intros p t [].
  - apply one_wired.
  - exists snd. split.
    + intros [k p] [q g] [[]|(d & Hd & Ef & Hp)]. cbn [fst snd] in *. rewrite HG in Hd. destruct (HI _ _ Hd) as [_ ->].
      exact (bs_topo _ _ _ S p g Hp).
    + intros q d g x Hd Hx Hp. rewrite HG in Hd. destruct (HI _ _ Hd) as [-> ->].
      destruct (bs_gate _ _ _ S g x Hx) as [(_ & -> & _)|(_ & [(_ & E)|(_ & E)])]; try (rewrite Hp in E; discriminate). left. auto.
  - constructor; [|congruence|congruence]. constructor; [|intros q d Hd|discriminate].
    + intros q d g x Hd Hx. destruct (HI _ _ Hd) as [-> ->].
      destruct (bs_gate _ _ _ S g x Hx) as [(_ & -> & _)|(_ & [([->| ->] & E)|([->| ->] & E)])]; cbn; auto.
    + destruct (HI _ _ Hd) as [-> ->]. apply S.
Qed.

(** ** Precomputed layers *)

(** Every circuit is used once. *)
Lemma copy_seq (m : mcirc bool_gate) sc k n : mc_map m = seq 0 n -> copy_of m sc k -> sc = k /\ k < n.
Proof.
  intros E H. unfold copy_of in H. rewrite E in H.
  assert (L : sc < n) by (rewrite <- (seq_length n 0); apply nth_error_Some; congruence).
  rewrite (nth_error_nth' _ 0), seq_nth in H by (rewrite ?seq_length; auto). injection H as <-. auto.
Qed.
Lemma alike_refl h sc b : alike h sc b sc b.
Proof. split; auto. split; auto. intros id _. tauto. Qed.
Lemma not_parted h sc ls d : ~ parted h sc sc ls d.
Proof.
  intros [_ (b1 & b2 & E1 & E2 & H)]. rewrite E1 in E2. injection E2 as <-. apply H. apply alike_refl.
Qed.

Lemma el_ids_key L k x : In (k, x) (el_ids L) -> exists e, In e L /\ ekey e = k.
Proof.
  induction L as [|((q & s) & b) L IH]; [intros []|]. rewrite el_ids_cons, in_app_iff. intros [H|H].
  - apply in_map_iff in H. destruct H as (y & E & _). injection E as <- _. exists (q, s, b). split; [left; auto|reflexivity].
  - destruct (IH H) as (e & H1 & H2). exists e. split; [right; auto|auto].
Qed.

Section Opens.
Variables (m : mcirc bool_gate) (h : list (gid * gid)).
Hypothesis Hfrom : forall p k t, In (p, (S k, t)) h -> fst p = 0.

Lemma sched_opens : forall ls E l1 e l2, MSched bool_ops m h E ls -> concat ls = l1 ++ e :: l2 -> ekey e <> 0 ->
  (exists x, In (0, x) E) \/ exists e', In e' l1 /\ ekey e' = 0.
Proof.
  induction ls as [|L ls IH]; intros E l1 e l2 HS EQ Hk; cbn [MSched concat] in *; [destruct l1; discriminate|].
  destruct HS as (_ & HL & HS).
  assert (Hpre : (exists r, L = l1 ++ e :: r) \/ exists l1', l1 = L ++ l1' /\ concat ls = l1' ++ e :: l2).
  { clear - EQ. revert l1 EQ. induction L as [|y L IH]; intros l1 EQ; cbn [app] in EQ; [right; exists l1; auto|].
    destruct l1 as [|z l1]; cbn [app] in EQ; injection EQ as <- EQ; [left; exists L; auto|].
    destruct (IH l1 EQ) as [(r & ->)|(l1' & -> & H)]; [left; exists r; auto|right; exists l1'; auto]. }
  destruct Hpre as [(r & ->)|(l1' & -> & EQ')].
  - left. destruct e as [[k s] b]. destruct (lo_entry _ _ _ _ _ HL k s b) as (c & _ & _ & _ & _ & _ & HE & _); [apply in_or_app; right; left; auto|].
    cbn [ekey fst] in Hk. destruct HE as [->|(p & t & Hp & Hw)]; [congruence|]. destruct k as [|k]; [congruence|].
    apply Hfrom in Hw. destruct p as [q x]. cbn [fst] in Hw. subst q. eauto.
  - destruct (IH _ _ _ _ HS EQ' Hk) as [(x & Hx)|(e' & H1 & H2)].
    + apply in_app_or in Hx. destruct Hx as [Hx|Hx]; [left; eauto|]. right. destruct (el_ids_key _ _ _ Hx) as (e' & A & B).
      exists e'. split; auto. apply in_or_app. auto.
    + right. exists e'. split; auto. apply in_or_app. auto.
Qed.
End Opens.

Lemma bt_static W imax m cl h simd perm : rearranges perm -> program W imax m cl h simd ->
  (exists n, n <= 2 /\ mc_map m = seq 0 n) ->
  (forall p k t, In (p, (S k, t)) h -> fst p = 0) ->
  (forall sc, sc < length (mc_map m) -> exists c, mc_get m sc = Some c /\ c_count c <> 0) ->
  exists ls, mc_layers bool_ops imax m perm = Some ls /\ static_program W imax m cl h simd ls.
Proof.
  intros HP [P1 P2 P3 P4 P5 P6] (n & Hn & Emap) Hfrom Hcnt.
  destruct (mc_layers_spec bool_ops m imax h P2 P3 (fun g => proj1 (P4 g)) perm HP) as (ls & A & B & _).
  exists ls. split; auto. constructor; auto.
  - apply P6.
  - intros l1 e l2 k k' EQ Hk Hlt. destruct (copy_seq m _ _ n Emap Hk) as [E1 L1].
    assert (k = 1 /\ k' = 0) as [-> ->] by lia.
    destruct (sched_opens m h Hfrom ls [] l1 e l2 B EQ) as [(x & [])|(e' & H1 & H2)]; [unfold ekey; lia|].
    exists e'. split; auto. unfold ekey in H2. rewrite H2. unfold copy_of. rewrite Emap. destruct n; [lia|reflexivity].
  - intros l1 e l2 k _ _ _ sc1 sc2 k' d H1 H2. destruct (copy_seq m _ _ n Emap H1) as [-> _]. destruct (copy_seq m _ _ n Emap H2) as [-> _].
    apply not_parted.
  - intros l1 e l2 k sc1 sc2 d _ He H1 H2 p Hp. destruct (copy_seq m _ _ n Emap H1) as [-> _]. destruct (copy_seq m _ _ n Emap He) as [Ee _].
    rewrite Ee in Hp. destruct (not_parted _ _ _ _ Hp).
Qed.
