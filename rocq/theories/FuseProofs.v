(** The FUSE converter builds the circuit of a mixed program. *)
From Coq Require Import List Bool Arith ZArith Lia.
Require Import Verif.ParseModel Verif.Prelude Verif.PreludeProofs Verif.GateModel Verif.CircuitModel Verif.CircuitSpec
  Verif.ChannelModel Verif.ChannelProofs
  Verif.BoolGmwModel Verif.ArithGmwModel Verif.InlineModel
  Verif.MixedModel Verif.MixedSpec Verif.MixedProgSpec Verif.MixedProgProofs Verif.MixedProgProofs2 Verif.MixedProgProofs4
  Verif.FuseModel Verif.FuseSpec.
Import ListNotations.
Open Scope nat_scope.

Section Fuse.
Variables maxu cap w : nat.
Hypothesis Hmx : 1000 <= maxu.
Hypothesis Hcp : 2 <= cap.
Hypothesis Hw0 : 0 < w.

Lemma prun_app p q env outs ins : prun w (p ++ q) env outs ins = ('(e, o, i) <- prun w p env outs ins ;; prun w q e o i).
Proof.
  revert env outs ins. induction p as [|x p IH]; intros; cbn [app prun]; auto.
  destruct (prun1 w x env outs ins) as [[[e o] i]|]; cbn [obind]; auto.
Qed.

Lemma comp_app p q c env : comp maxu cap w (p ++ q) c env = ('(c', e) <- comp maxu cap w p c env ;; comp maxu cap w q c' e).
Proof.
  revert c env. induction p as [|x p IH]; intros; cbn [app comp]; auto.
  destruct (comp1 maxu cap w x c env) as [[c' e]|]; cbn [obind]; auto.
Qed.

(** The key map against the values: the first output of every node is on a wire. *)
Record keys (fe : list (nat * list pval)) (penv : list pval) (genv : list nat) (km : list (nat * nat)) : Prop := {
  k_len : length genv = length penv;
  k_none : forall id, flook id fe = None -> hm_get id km = None;
  k_wire : forall id v vs, flook id fe = Some (v :: vs) ->
    exists k g, nth_error penv k = Some v /\ nth_error genv k = Some g /\ hm_get id km = Some g }.

Lemma arg_gates fe penv genv km : keys fe penv genv km -> forall ids offs vs, Forall (eq 0) offs -> fargs fe ids offs = Some vs ->
  exists ks gs, omap (fun k => hm_get k km) ids = Some gs /\ omap (nth_error genv) ks = Some gs /\ omap (nth_error penv) ks = Some vs.
Proof.
  intros K. induction ids as [|id ids IH]; intros offs vs HO H; cbn [fargs] in H.
  - injection H as <-. exists [], []. auto.
  - assert (E0 : hd 0 offs = 0) by (destruct HO; auto). rewrite E0 in H.
    assert (HO' : Forall (eq 0) (tl offs)) by (destruct HO; cbn; auto).
    destruct (flook id fe) as [[|v l]|] eqn:EL; cbn [obind nth_error] in H; try discriminate.
    destruct (fargs fe ids (tl offs)) as [rest|] eqn:ER; [|discriminate]. cbn [obind] in H. injection H as <-.
    destruct (IH _ _ HO' ER) as (ks & gs & A & B & C). destruct (k_wire _ _ _ _ K _ _ _ EL) as (k & g & X & Y & Z).
    exists (k :: ks), (g :: gs). cbn [omap]. rewrite Z, X, Y. cbn [obind]. rewrite A, B, C. auto.
Qed.

Lemma keys_ext fe penv genv km id vs g penv' genv' :
  keys fe penv genv km -> flook id fe = None -> length genv' = length penv' ->
  (forall k v, nth_error penv k = Some v -> nth_error penv' k = Some v) ->
  (forall k v, nth_error genv k = Some v -> nth_error genv' k = Some v) ->
  (forall v r, vs = v :: r -> exists k, nth_error penv' k = Some v /\ nth_error genv' k = Some g) ->
  keys ((id, vs) :: fe) penv' genv' (match hm_get id km with Some _ => km | None => hm_insert id g km end).
Proof.
  intros [KL KN KW] HN HL HP HG HV. rewrite (KN _ HN). split; auto.
  - intros id' H. cbn [flook] in H. rewrite hm_get_insert. destruct (id' =? id); [discriminate|auto].
  - intros id' v r H. cbn [flook] in H. rewrite hm_get_insert. destruct (id' =? id).
    + injection H as H. destruct (HV _ _ H) as (k & A & B). exists k, g. auto.
    + destruct (KW _ _ _ H) as (k & g' & A & B & C). exists k, g'. auto.
Qed.

Lemma nth_app {A} (l r : list A) k v : nth_error l k = Some v -> nth_error (l ++ r) k = Some v.
Proof. intros H. rewrite nth_error_app1; auto. apply nth_error_Some. congruence. Qed.
Lemma nth_last {A} (l : list A) v : nth_error (l ++ [v]) (length l) = Some v.
Proof. rewrite nth_error_app2, Nat.sub_diag by lia. auto. Qed.

(** An instruction with one gate. *)
Lemma one_sim i g ks gs vs r c genv penv outs ins outs' ins' :
  (forall c genv, comp1 maxu cap w i c genv = (ids <- omap (nth_error genv) ks ;; '(c', id) <- add_wired_gate mixed_ops c g ids ;; Some (c', genv ++ [id]))) ->
  match i with IA2B _ => False | _ => True end ->
  shape c genv -> length genv = length penv -> omap (nth_error genv) ks = Some gs -> omap (nth_error penv) ks = Some vs ->
  prun1 w i penv outs ins = Some (penv ++ [r], outs', ins') ->
  exists c' id, add_wired_gate mixed_ops c g gs = Some (c', id) /\ comp maxu cap w [i] c genv = Some (c', genv ++ [id]) /\
    shape c' (genv ++ [id]) /\ length (genv ++ [id]) = length (penv ++ [r]).
Proof.
  intros HC HI HS HL HG HV HP.
  assert (Hi : match i with IA2B _ => In w [8; 16; 32; 64] | _ => True end) by (destruct i; tauto).
  destruct (step_ok maxu cap w Hmx Hcp Hw0 i c genv penv outs ins _ _ _ Hi HS HL HP) as (c' & env' & C1 & S1 & L1 & _).
  pose proof C1 as C0. rewrite HC, HG in C1. cbn [obind] in C1. destruct (add_wired_gate mixed_ops c g gs) as [[c1 id]|] eqn:EA; [|discriminate].
  cbn [obind] in C1. injection C1 as -> <-. exists c', id. split; auto. split; auto. cbn [comp]. rewrite C0. reflexivity.
Qed.

Lemma omap_more {A} (l r : list A) ks vs : omap (nth_error l) ks = Some vs -> omap (nth_error (l ++ r)) ks = Some vs.
Proof.
  revert vs. induction ks as [|k ks IH]; intros vs H; cbn [omap] in *; auto.
  destruct (nth_error l k) as [v|] eqn:E; [|discriminate]. rewrite (nth_app _ _ _ _ E). cbn [obind] in *.
  destruct (omap (nth_error l) ks) as [vs'|]; [|discriminate]. rewrite (IH _ eq_refl). auto.
Qed.

Lemma ident_sim ks : forall gs vs c genv penv outs ins,
  shape c genv -> length genv = length penv -> omap (nth_error genv) ks = Some gs -> omap (nth_error penv) ks = Some vs ->
  exists c' ids, f_identities c gs = Some (c', ids) /\ length ids = length ks /\
    prun w (map IId ks) penv outs ins = Some (penv ++ vs, outs, ins) /\
    comp maxu cap w (map IId ks) c genv = Some (c', genv ++ ids) /\ shape c' (genv ++ ids).
Proof.
  induction ks as [|k ks IH]; intros gs vs c genv penv outs ins HS HL HG HV; cbn [omap] in HG, HV.
  - injection HG as <-. injection HV as <-. exists c, []. cbn [f_identities map prun comp length]. rewrite !app_nil_r. auto 10.
  - destruct (nth_error genv k) as [g|] eqn:Eg; [|discriminate]. destruct (nth_error penv k) as [v|] eqn:Ev; [|discriminate].
    cbn [obind] in HG, HV. destruct (omap (nth_error genv) ks) as [gs'|] eqn:EG; [|discriminate].
    destruct (omap (nth_error penv) ks) as [vs'|] eqn:EV; [|discriminate]. cbn [obind] in HG, HV. injection HG as <-. injection HV as <-.
    destruct (one_sim (IId k) (MGBase GIdentity) [k] [g] [v] v c genv penv outs ins outs ins) as (c1 & id & EA & EC & S1 & L1);
      auto; [cbn; rewrite Eg; auto|cbn; rewrite Ev; auto|cbn [prun1]; rewrite Ev; auto|].
    destruct (IH gs' vs' c1 (genv ++ [id]) (penv ++ [v]) outs ins) as (c2 & ids & EF & LI & EP & EC2 & S2); auto using omap_more.
    exists c2, (id :: ids). cbn [f_identities]. rewrite EA. cbn [obind]. rewrite EF. cbn [obind length]. split; auto. split; auto.
    cbn [map prun prun1]. rewrite Ev. cbn [obind]. rewrite EP, <- app_assoc. split; auto.
    change (IId k :: map IId ks) with ([IId k] ++ map IId ks). rewrite comp_app, EC. cbn [obind].
    rewrite EC2, <- app_assoc in *. auto.
Qed.

(** A successful A2B behind its program. *)
Lemma omap_nth_seq' {A} (p l : list A) : omap (nth_error (p ++ l)) (seq (length p) (length l)) = Some l.
Proof.
  revert p. induction l as [|x l IH]; intros p; auto. cbn [length seq omap].
  rewrite nth_error_app2, Nat.sub_diag by lia. cbn [nth_error obind].
  specialize (IH (p ++ [x])). rewrite app_length, <- app_assoc in IH. cbn [length app] in IH. rewrite Nat.add_1_r in IH.
  rewrite IH. reflexivity.
Qed.

Definition fconv (n : fnode) : nat := if is_conv n then 1 else 0.

(** One node: a program with the same effect. *)
Definition simulates (sc_map : list (nat * circuit mixed_gate)) (n : fnode) gs c genv penv outs ins vs outs' ins' : Prop :=
  exists prog penv' c' genv' g,
    prun w prog penv outs ins = Some (penv', outs', ins') /\ comp maxu cap w prog c genv = Some (c', genv') /\
    shape c' genv' /\ length genv' = length penv' /\
    (forall a, In (IA2B a) prog -> In w [8; 16; 32; 64]) /\ sum_list (map conv_instr prog) = fconv n /\
    f_add_node maxu cap w sc_map c n gs true = Some (c', g) /\
    (forall k v, nth_error penv k = Some v -> nth_error penv' k = Some v) /\
    (forall k v, nth_error genv k = Some v -> nth_error genv' k = Some v) /\
    (forall v r, vs = v :: r -> exists k, nth_error penv' k = Some v /\ nth_error genv' k = Some g).

Lemma one_simulates sm i g n ks gs vs r c genv penv outs ins outs' ins' :
  (forall c genv, comp1 maxu cap w i c genv = (ids <- omap (nth_error genv) ks ;; '(c', id) <- add_wired_gate mixed_ops c g ids ;; Some (c', genv ++ [id]))) ->
  match i with IA2B _ => False | _ => True end -> f_gate (fn_op n) true = Some g -> conv_instr i = fconv n ->
  shape c genv -> length genv = length penv -> omap (nth_error genv) ks = Some gs -> omap (nth_error penv) ks = Some vs ->
  prun1 w i penv outs ins = Some (penv ++ [r], outs', ins') ->
  simulates sm n gs c genv penv outs ins [r] outs' ins'.
Proof.
  intros HC HI HF HN HS HL HG HV HP.
  destruct (one_sim i g ks gs vs r c genv penv outs ins outs' ins' HC HI HS HL HG HV HP) as (c' & id & EA & EC & S1 & L1).
  exists [i], (penv ++ [r]), c', (genv ++ [id]), id. split; [cbn [prun]; rewrite HP; auto|]. split; auto. split; auto. split; auto.
  split; [intros a [E|[]]; subst; tauto|]. split; [unfold sum_list; cbn; lia|]. split; [unfold f_add_node; rewrite HF; auto|].
  split; [intros; apply nth_app; auto|]. split; [intros; apply nth_app; auto|].
  intros v r' E. injection E as <- _. exists (length penv). split; [apply nth_last|]. rewrite <- HL. apply nth_last.
Qed.

Lemma omap_cons_inv {A B} (f : A -> option B) l x r : omap f l = Some (x :: r) -> exists a l', l = a :: l' /\ f a = Some x /\ omap f l' = Some r.
Proof.
  destruct l as [|a l]; cbn [omap]; [discriminate|]. destruct (f a) as [y|] eqn:E; [|discriminate]. cbn [obind].
  destruct (omap f l) as [ys|] eqn:E'; [|discriminate]. cbn [obind]. intros H. injection H as -> ->. eauto.
Qed.
Lemma omap_nil_inv {A B} (f : A -> option B) l : omap f l = Some [] -> l = [].
Proof. intros H. apply omap_length in H. destruct l; auto; discriminate. Qed.

Ltac inv_omap :=
  repeat match goal with
  | H : omap _ _ = Some [] |- _ => apply omap_nil_inv in H; subst
  | H : omap (nth_error ?p) ?l = Some (?x :: ?r) |- _ =>
      is_var l; let k := fresh "k" in let l' := fresh "l" in let E := fresh "E" in let H' := fresh "H" in
      destruct (omap_cons_inv _ _ _ _ H) as (k & l' & -> & E & H'); clear H
  end.

Lemma fsem_sim sm n ks gs args vs c genv penv outs ins :
  (In w [8; 16; 32; 64] \/ fn_op n <> FSplit) -> plain_node n ->
  shape c genv -> length genv = length penv -> omap (nth_error genv) ks = Some gs -> omap (nth_error penv) ks = Some args ->
  fsem w (fn_op n) (fn_payload n) args = Some vs ->
  simulates sm n gs c genv penv outs ins vs outs ins.
Proof.
  intros HSp [_ HP] HS HL HG HV H. destruct n as [id inputs offs op pl]. cbn [fn_op fn_payload] in *.
  destruct op as [| | | | | | | |ty| | |nm|]; cbn [fsem] in H.
  - destruct args as [|[x|] [|[y|] [|]]]; try discriminate. injection H as <-. inv_omap.
    eapply (one_simulates sm (IAnd k k0) (MGBool BAnd) _ [k; k0]); auto; cbn [omap prun1]; rewrite E, E0; reflexivity.
  - destruct args as [|[x|] [|[y|] [|]]]; try discriminate. injection H as <-. inv_omap.
    eapply (one_simulates sm (IXor k k0) (MGBool BXor) _ [k; k0]); auto; cbn [omap prun1]; rewrite E, E0; reflexivity.
  - destruct args as [|[x|] [|]]; try discriminate. injection H as <-. inv_omap.
    eapply (one_simulates sm (IInv k) (MGBool BInv) _ [k]); auto; cbn [omap prun1]; rewrite E; reflexivity.
  - destruct args as [|[|x] [|[|y] [|]]]; try discriminate. injection H as <-. inv_omap.
    eapply (one_simulates sm (IAdd k k0) (MGArith AAdd) _ [k; k0]); auto; cbn [omap prun1]; rewrite E, E0; reflexivity.
  - destruct args as [|[|x] [|[|y] [|]]]; try discriminate. injection H as <-. inv_omap.
    eapply (one_simulates sm (IMul k k0) (MGArith AMul) _ [k; k0]); auto; cbn [omap prun1]; rewrite E, E0; reflexivity.
  - destruct args as [|[|x] [|[|y] [|]]]; try discriminate. injection H as <-. inv_omap.
    eapply (one_simulates sm (ISub k k0) (MGArith ASub) _ [k; k0]); auto; cbn [omap prun1]; rewrite E, E0; reflexivity.
  - destruct args; discriminate.
  - destruct args; discriminate.
  - subst pl. assert (args = []) as -> by (destruct ty as [[]|], args; auto; discriminate). pose proof HV as HV0. apply omap_nil_inv in HV. subst ks.
    destruct ty as [[]|]; try discriminate; injection H as <-.
    + eapply (one_simulates sm (IConst (MBool true)) _ _ []) with (8 := HV0); auto; reflexivity.
    + eapply (one_simulates sm (IConst (MArith 1)) _ _ []) with (8 := HV0); auto; reflexivity.
    + eapply (one_simulates sm (IConst (MBool true)) _ _ []) with (8 := HV0); auto; reflexivity.
  - destruct (omap pbit args) as [bits|] eqn:EB; [|destruct args; discriminate].
    assert (H' : (_ <- oassert (length bits =? w) ;; Some [PA (bits_value bits)]) = Some vs) by (rewrite <- H; destruct args; reflexivity). clear H.
    destruct (length bits =? w) eqn:EW; [|discriminate]. cbn [oassert obind] in H'. injection H' as <-.
    eapply (one_simulates sm (IB2A ks) (MGConv CB2A) _ ks) with (8 := HV); auto.
    cbn [prun1]. rewrite HV. cbn [obind]. rewrite EB. cbn [obind]. rewrite EW. reflexivity.
  - destruct args as [|[|x] [|]]; try discriminate. injection H as <-. destruct HSp as [HSp|HSp]; [|congruence].
    inv_omap. cbn [omap] in HG. destruct (nth_error genv k) as [a|] eqn:Ea; [|discriminate]. cbn [obind] in HG. injection HG as <-.
    assert (P1 : prun1 w (IA2B k) penv outs ins = Some (penv ++ map PB (bits_of w x), outs, ins)) by (cbn [prun1]; rewrite E; auto).
    destruct (step_ok maxu cap w Hmx Hcp Hw0 (IA2B k) c genv penv outs ins _ _ _ HSp HS HL P1) as (c1 & env1 & C1 & S1 & L1 & _).
    pose proof C1 as C0. cbn [comp1] in C1. rewrite Ea in C1. cbn [obind] in C1.
    destruct (a2b maxu cap w c a) as [[c2 bs]|] eqn:EA; [|discriminate]. cbn [obind] in C1. injection C1 as -> <-.
    assert (LB : length (bits_of w x) = w) by (unfold bits_of; rewrite map_length, seq_length; auto).
    assert (Lb : length bs = w) by (rewrite !app_length, map_length in L1; lia).
    assert (G2 : omap (nth_error (genv ++ bs)) (seq (length genv) w) = Some bs) by (rewrite <- Lb; apply omap_nth_seq').
    assert (V2 : omap (nth_error (penv ++ map PB (bits_of w x))) (seq (length genv) w) = Some (map PB (bits_of w x))).
    { rewrite HL. pose proof (omap_nth_seq' penv (map PB (bits_of w x))) as Q. rewrite map_length, LB in Q. exact Q. }
    destruct (ident_sim (seq (length genv) w) bs _ c1 _ _ outs ins S1 L1 G2 V2) as (c3 & ids & EF & LI & EP & EC & S3).
    rewrite seq_length in LI. destruct ids as [|g ids]; [cbn in LI; lia|].
    exists (IA2B k :: map IId (seq (length genv) w)), ((penv ++ map PB (bits_of w x)) ++ map PB (bits_of w x)), c3, ((genv ++ bs) ++ g :: ids), g.
    split; [cbn [prun]; rewrite P1; auto|]. split; [cbn [comp]; rewrite C0; auto|]. split; auto.
    split; [rewrite !app_length, !map_length, LB, Lb in *; lia|]. split; [auto|].
    split.
    { change (map conv_instr (IA2B k :: map IId (seq (length genv) w))) with (1 :: map conv_instr (map IId (seq (length genv) w))).
      unfold fconv. cbn [is_conv fn_op]. generalize (seq (length genv) w) as l. induction l as [|y l IH]; auto. }
    split.
    { unfold f_add_node. cbn [fn_op f_gate]. rewrite EA. cbn [obind]. rewrite EF. reflexivity. }
    split; [intros; apply nth_app, nth_app; auto|]. split; [intros; apply nth_app, nth_app; auto|].
    intros v r Ev. exists (length (genv ++ bs)). split.
    + rewrite L1, nth_error_app2, Nat.sub_diag by lia. rewrite Ev. auto.
    + rewrite nth_error_app2, Nat.sub_diag by lia. auto.
  - destruct args; discriminate.
  - destruct args; discriminate.
Qed.

Lemma sum_app a b : sum_list (a ++ b) = sum_list a + sum_list b.
Proof. unfold sum_list. induction a; cbn; auto. rewrite IHa. lia. Qed.

Lemma nodes_sim sm nodes : forall fe outs ins outs' ins' c genv penv km,
  (In w [8; 16; 32; 64] \/ Forall (fun n => fn_op n <> FSplit) nodes) -> Forall plain_node nodes ->
  NoDup (map fn_id nodes) -> (forall n, In n nodes -> flook (fn_id n) fe = None) ->
  feval w nodes fe outs ins = Some (outs', ins') ->
  shape c genv -> keys fe penv genv km ->
  exists prog penv' c' genv',
    prun w prog penv outs ins = Some (penv', outs', ins') /\ comp maxu cap w prog c genv = Some (c', genv') /\
    (forall a, In (IA2B a) prog -> In w [8; 16; 32; 64]) /\ sum_list (map conv_instr prog) = sum_list (map fconv nodes) /\
    f_nodes maxu cap w sm true nodes c km = Some c'.
Proof.
  induction nodes as [|n nodes IH]; intros fe outs ins outs' ins' c genv penv km HSp HPl HND HF H HS HK; cbn [feval] in H.
  - injection H as <- <-. exists [], penv, c, genv. cbn. split; auto. split; auto. split; [tauto|auto].
  - inversion HPl as [|? ? P1 P2]; subst. inversion HND as [|? ? N1 N2]; subst.
    destruct (fargs fe (fn_inputs n) (fn_offsets n)) as [args|] eqn:EA; [|discriminate]. cbn [obind] in H.
    destruct P1 as [P1 P1']. destruct (arg_gates _ _ _ _ HK _ _ _ P1 EA) as (ks & gs & G1 & G2 & G3).
    pose proof (k_len _ _ _ _ HK) as HL.
    assert (Go : forall vs outs1 ins1, simulates sm n gs c genv penv outs ins vs outs1 ins1 ->
      feval w nodes ((fn_id n, vs) :: fe) outs1 ins1 = Some (outs', ins') ->
      exists prog penv' c' genv',
        prun w prog penv outs ins = Some (penv', outs', ins') /\ comp maxu cap w prog c genv = Some (c', genv') /\
        (forall a, In (IA2B a) prog -> In w [8; 16; 32; 64]) /\ sum_list (map conv_instr prog) = sum_list (map fconv (n :: nodes)) /\
        f_nodes maxu cap w sm true (n :: nodes) c km = Some c').
    { intros vs outs1 ins1 (p1 & e1 & c1 & g1 & g & A1 & A2 & A3 & A4 & A5 & A6 & A7 & A8 & A9 & A10) HE.
      destruct (IH ((fn_id n, vs) :: fe) outs1 ins1 outs' ins' c1 g1 e1
        (match hm_get (fn_id n) km with Some _ => km | None => hm_insert (fn_id n) g km end)) as (p2 & e2 & c2 & g2 & B1 & B2 & B3 & B4 & B5); auto.
      - destruct HSp as [HSp|HSp]; auto. right. inversion HSp; auto.
      - intros n' Hn. cbn [flook]. destruct (Nat.eqb_spec (fn_id n') (fn_id n)) as [E|E].
        + exfalso. apply N1. rewrite <- E. apply in_map. auto.
        + apply HF. cbn; auto.
      - apply keys_ext with (penv := penv) (genv := genv); auto. apply HF. cbn; auto.
      - exists (p1 ++ p2), e2, c2, g2. rewrite prun_app, A1. cbn [obind]. split; auto. rewrite comp_app, A2. cbn [obind]. split; auto.
        split; [intros a Ha; apply in_app_or in Ha; destruct Ha; eauto|].
        split; [rewrite map_app, sum_app; cbn [map]; change (sum_list (fconv n :: map fconv nodes)) with (fconv n + sum_list (map fconv nodes)); lia|].
        cbn [f_nodes]. rewrite G1. cbn [obind]. rewrite A7. cbn [obind]. exact B5. }
    assert (HSn : In w [8; 16; 32; 64] \/ fn_op n <> FSplit) by (destruct HSp as [HSp|HSp]; auto; right; inversion HSp; auto).
    assert (Gen : forall vs, fsem w (fn_op n) (fn_payload n) args = Some vs -> feval w nodes ((fn_id n, vs) :: fe) outs ins = Some (outs', ins') -> _)
      by (intros vs Ev; exact (Go vs outs ins (fsem_sim sm n ks gs args vs c genv penv outs ins HSn (conj P1 P1') HS HL G2 G3 Ev))).
    destruct (fn_op n) eqn:Eop;
      try (match type of H with obind ?e _ = _ => destruct e as [vs|] eqn:EV; [|discriminate] end; cbn [obind] in H; exact (Gen vs eq_refl H)).
    + destruct args; [|discriminate]. destruct ins as [|v ins]; [discriminate|].
      apply (Go [v] outs ins); auto. apply omap_nil_inv in G3 as G3'. subst ks.
      eapply (one_simulates sm IIn (MGBase GInput) _ []) with (8 := G3); auto; unfold fconv, is_conv; rewrite ?Eop; reflexivity.
    + destruct args as [|v [|]]; try discriminate. apply (Go [] (outs ++ [v]) ins); auto.
      inv_omap. cbn [omap] in G2. destruct (nth_error genv k) as [a|] eqn:Ea; [|discriminate]. cbn [obind] in G2. injection G2 as <-.
      assert (Q : prun1 w (IOut k) penv outs ins = Some (penv, outs ++ [v], ins)) by (cbn [prun1]; rewrite E; auto).
      destruct (step_ok maxu cap w Hmx Hcp Hw0 (IOut k) c genv penv outs ins _ _ _ I HS HL Q) as (c1 & env1 & C1 & S1 & L1 & _).
      pose proof C1 as C0. cbn [comp1] in C1. rewrite Ea in C1. cbn [obind] in C1.
      destruct (add_wired_gate mixed_ops c (MGBase GOutput) [a]) as [[c2 g]|] eqn:EW; [|discriminate]. cbn [obind] in C1. injection C1 as -> <-.
      exists [IOut k], penv, c1, genv, g. split; [cbn [prun]; rewrite Q; auto|]. split; [cbn [comp]; rewrite C0; auto|]. split; auto. split; auto.
      split; [intros x [X|[]]; discriminate|]. split; [unfold fconv, is_conv; rewrite Eop; auto|].
      split; [unfold f_add_node; rewrite Eop; exact EW|]. split; auto. split; auto. discriminate.
Qed.
End Fuse.
