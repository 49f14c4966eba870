(** Property theorems C61: what a party sees during a whole boolean GMW
    execution. *)
From Coq Require Import List Bool Arith Lia.
Require Import Verif.Prelude Verif.PreludeProofs Verif.BitVecModel Verif.BitVecSpec
  Verif.BitVecProofs Verif.GateModel Verif.ProtocolModel Verif.BoolGmwModel Verif.BoolGmwSpec
  Verif.BoolGmwProofs Verif.BoolGmwProofs2 Verif.CircuitModel Verif.CircuitSpec Verif.CircuitProofs3
  Verif.BoolGmwTheorems Verif.CircuitTheorems Verif.ExecModel Verif.ExecSpec
  Verif.ExecProofs Verif.ExecBoolSpec Verif.ExecBoolProofs Verif.ExecCircuitSpec
  Verif.ExecCircuitProofs Verif.ExecTheorems Verif.ConnModel Verif.ConnSpec
  Verif.MultiModel Verif.MultiSpec Verif.MultiTheorems Verif.MultiExecSpec Verif.MultiExecProofs
  Verif.MultiExecProofs2 Verif.MultiExecTheorems Verif.PartyModel Verif.PrivacySpec
  Verif.PrivacyProofs Verif.PrivacyBoolProofs Verif.PrivacySimdProofs.
Import ListNotations.

(** ** Two-party runs are two single-party runs *)

(** A joint execution (C11-C13) with a given result exists exactly if there are
    message sequences that each party sends when it reads the other's, and reads
    completely. *)
Theorem C61_runs_compose :
  forall (pr : protocol) (Sv : Type) (req : Sv -> nat -> option (p_setup pr * Sv)) ec i0 i1
    go0 go1 s0 s1 o0 o1 go0' go1' s0' s1',
  ex2_run req ec i0 i1 ((go0, s0), (go1, s1)) = Some (o0, o1, ((go0', s0'), (go1', s1'))) <->
  exists ms0 ms1,
    px_run req 0 ec i0 ms1 go0 s0 = Some (ms0, [], (o0, go0', s0')) /\
    px_run req 1 ec i1 ms0 go1 s1 = Some (ms1, [], (o1, go1', s1')).
Proof. intros. apply compose_run. Qed.
Print Assumptions C61_runs_compose.

(** *** From storages of one party to storages of both *)

Lemma storage_partner W simd n b : 0 < W -> good_storage W simd n b -> exists b', good_setup W simd n b b'.
Proof.
  intros HW.
  assert (K : forall h m, mts_wf W h m b -> exists b', mts_wf W h m b' /\ triples_ok (mts_iter b) (mts_iter b')).
  { intros h m Hwf.
    pose proof (mts_iter_length _ _ _ _ Hwf) as L.
    set (l := zip_with complete (mts_iter b) (repeat (false, false) m)).
    assert (Ll : length l = m) by (unfold l; rewrite zip_with_length, repeat_length, L; apply Nat.min_id).
    assert (Hh : h < W) by (destruct Hwf as ((A & _) & _ & _ & <- & _); auto).
    exists (mts_make W h l). split.
    - rewrite <- Ll. apply mts_make_wf; auto.
    - rewrite mts_make_iter by auto. apply complete_ok. rewrite repeat_length; auto. }
  destruct simd as [k|]; cbn.
  - intros (h & m & Hle & Ha & Hwf). destruct (K h m Hwf) as (b' & A & B). exists b', h, m. auto.
  - intros (h & m & Hle & Hwf). destruct (K h m Hwf) as (b' & A & B). exists b', h, m. auto.
Qed.

Lemma storages_partner W simd ns Bs : 0 < W -> Forall2 (good_storage W simd) ns Bs ->
  exists Bs', each3 (good_setup W simd) ns Bs Bs'.
Proof.
  intros HW. induction 1 as [|n b ns Bs Hb _ (Bs' & IH)].
  - exists []. constructor.
  - destruct (storage_partner W simd n b HW Hb) as (b' & Hb'). exists (b' :: Bs'). constructor; auto.
Qed.

Definition GMsg (W : nat) (simd : option nat) (n : nat) (t : emsg (bool_gmw W)) : Prop :=
  exists de, length (fst de) = n /\ length (snd de) = n /\ t = bool_emsg W simd de.

Lemma shape_msgs W simd ns t : transcript_shape ns t -> Forall2 (GMsg W simd) ns (map (bool_emsg W simd) t).
Proof.
  unfold transcript_shape. induction 1 as [|n de ns t (A & B) _ IH]; cbn [map]; constructor; auto.
  exists de. auto.
Qed.

Lemma msgs_shape W simd ns ms : Forall2 (GMsg W simd) ns ms ->
  exists t, transcript_shape ns t /\ ms = map (bool_emsg W simd) t.
Proof.
  induction 1 as [|n m ns ms (de & A & B & ->) _ (t & C & ->)].
  - exists []. split; [constructor|reflexivity].
  - exists (de :: t). split; [constructor; auto|reflexivity].
Qed.

(** *** Shares *)

Lemma bits_xor_comm a b : bits_xor a b = bits_xor b a.
Proof.
  unfold bits_xor. revert b. induction a as [|x a IH]; intros [|y b]; cbn; auto.
  rewrite IH, xorb_comm. auto.
Qed.

Lemma bits_xor_cancel a b c : length b = length a -> length c = length a ->
  bits_xor a b = bits_xor a c -> b = c.
Proof.
  unfold bits_xor. revert b c. induction a as [|x a IH]; intros [|y b] [|z c] L1 L2 E;
    try discriminate; auto. cbn in *. injection E as E0 E. f_equal; auto.
  destruct x, y, z; cbn in *; congruence.
Qed.

Lemma shares_sym W simd i j vals : shares_of W simd i j vals -> shares_of W simd j i vals.
Proof.
  unfold shares_of. destruct simd as [n|], i as [a|a], j as [b|b]; try tauto.
  - intros (L & A & B & ->). split; auto. split; auto. split; auto. clear.
    revert b. induction a as [|x a IH]; intros [|y b]; cbn [zip_with]; auto. f_equal; auto. apply bits_xor_comm.
  - intros (L & ->). split; auto. rewrite bits_xor_comm. reflexivity.
Qed.

Lemma shares_exist W simd k i j : 0 < W -> input_ok W simd k i -> input_ok W simd k j ->
  exists vals, shares_of W simd i j vals /\ length vals = k /\
    Forall (fun x => length x = match simd with None => 1 | Some n => n end) vals.
Proof.
  intros HW. unfold input_ok, shares_of. destruct simd as [n|], i as [a|a], j as [b|b]; try tauto.
  - cbn [p_simd bool_gmw] in *. intros (La & Fa) (Lb & Fb).
    exists (zip_with (fun x y => bits_xor (bv_bits x) (bv_bits y)) a b). split; [|split].
    + split; [exact (eq_trans La (eq_sym Lb))|auto].
    + rewrite zip_with_length, La, Lb. apply Nat.min_id.
    + clear La Lb. revert b Fb. induction Fa as [|x a (wx & _ & lx) _ IH]; intros [|y b] Fb; cbn [zip_with]; constructor.
      * inversion Fb as [|? ? (wy & _ & ly) _]; subst. unfold bits_xor.
        rewrite zip_with_length, !(bv_bits_length W), ly by auto. apply Nat.min_id.
      * apply IH. inversion Fb; auto.
  - cbn [p_share bool_gmw] in *. intros La Lb. exists (map (fun b => [b]) (bits_xor a b)). split; [|split].
    + split; [exact (eq_trans La (eq_sym Lb))|auto].
    + rewrite map_length. unfold bits_xor. rewrite zip_with_length, La, Lb. apply Nat.min_id.
    + apply Forall_forall. intros y Hy. apply in_map_iff in Hy. destruct Hy as (z & <- & _). reflexivity.
Qed.

Lemma shares_cancel W simd a b c vals : 0 < W -> (forall n, simd = Some n -> n mod W = 0) ->
  shares_of W simd a b vals -> shares_of W simd a c vals -> b = c.
Proof.
  intros HW Hn. unfold shares_of. destruct simd as [n|], a as [a|a], b as [b|b]; try tauto; destruct c as [c|c]; try tauto.
  - specialize (Hn n eq_refl). cbn [p_simd bool_gmw] in *.
    intros (L1 & Fa & Fb & E1) (L2 & _ & Fc & E2). f_equal. rewrite E1 in E2. clear E1 vals.
    revert b c L1 L2 Fb Fc E2. induction Fa as [|x a (wx & hx & lx) _ IH]; intros [|y b] [|z c] L1 L2 Fb Fc E;
      try discriminate; auto.
    inversion Fb as [|? ? (wy & hy & ly) Fb']; inversion Fc as [|? ? (wz & hz & lz) Fc']; subst.
    cbn [zip_with] in E. injection E as E0 E. cbn [length] in *. f_equal; [|apply IH; auto].
    apply bits_xor_cancel in E0; [|rewrite !(bv_bits_length W); congruence..].
    apply (whole_eq W); auto; congruence.
  - cbn [p_share bool_gmw] in *. intros (L1 & E1) (L2 & E2). f_equal. rewrite E1 in E2.
    apply (bits_xor_cancel a); auto. clear - E2. revert E2. generalize (bits_xor a b) (bits_xor a c).
    induction l as [|x l IH]; intros [|y l'] E; try discriminate; auto.
    cbn in E. injection E as -> E. f_equal; auto.
Qed.

Lemma input_len W simd k i : input_ok W simd k i -> istore_len i = k.
Proof. destruct simd, i; cbn; tauto. Qed.

(** *** Executable circuits of one SIMD size *)
Section General.
Variable W : nat.
Hypothesis HW : 0 < W.
Variable ec : ecirc bool_gate.
Variable simd : option nat.
Notation pr := (bool_gmw W).
Notation k := (length (ec_inputs ec)).
Hypothesis Ht : typed ec.
Hypothesis Hww : whole_words W ec.
Hypothesis Hnd : NoDup (ec_inputs ec).
Hypothesis Hu : forall g gate, ec_gate ec g = Some gate -> ec_simd ec (fst g) = simd.
Hypothesis Hs0 : ec_simd ec 0 = simd.
Variable Todo : gid -> Prop.
Hypothesis HS : sched_ok bool_ops ec (fun _ => False) Todo (ec_layers ec).
(** plaintext values exist for all inputs *)
Hypothesis Hval : forall xs, length xs = k ->
  Forall (fun x => length x = match simd with None => 1 | Some n => n end) xs ->
  exists v, valuation ec xs v.

Lemma uniform_layers ls : forall Live Td, sched_ok bool_ops ec Live Td ls -> forall l, In l ls ->
  match simd with
  | None => el_int (el_simd l) = []
  | Some n => el_int (el_scalar l) = [] /\ forall g, In g (el_int (el_simd l)) -> ec_simd ec (fst g) = Some n
  end.
Proof.
  induction ls as [|x ls IH]; intros Live Td H l Hl; [destruct Hl|].
  destruct H as [HL HR]. destruct Hl as [->|Hl]; [|eapply IH; eauto].
  destruct (el_scalar_None (pr:=pr) bool_ops ec l Live Td HL) as [Ks Kd].
  change (@ec_simd (p_gate pr) ec) with (@ec_simd bool_gate ec) in *.
  assert (G : forall g, In g (el_int l) -> ec_simd ec (fst g) = simd).
  { intros g Hg. destruct (lo_int _ _ _ _ _ HL g Hg) as ((gate & A & B) & _). eapply Hu; exact A. }
  assert (S1 : forall g, In g (el_int (el_scalar l)) -> In g (el_int l))
    by (intros; apply (el_int_split (pr:=pr) (fun _ _ _ => True) (fun _ _ _ => True)); auto).
  assert (S2 : forall g, In g (el_int (el_simd l)) -> In g (el_int l))
    by (intros; apply (el_int_split (pr:=pr) (fun _ _ _ => True) (fun _ _ _ => True)); auto).
  destruct simd as [n|].
  - split; [|intros; apply G; auto]. destruct (el_int (el_scalar l)) as [|g gs]; auto.
    exfalso. specialize (Ks g (or_introl eq_refl)). rewrite G in Ks by (apply S1; left; auto). discriminate.
  - destruct (el_int (el_simd l)) as [|g gs]; auto. exfalso.
    destruct (Kd g (or_introl eq_refl)) as (n & E & _). rewrite G in E by (apply S2; left; auto). discriminate.
Qed.

(** The masking section applied to both assignments of the roles. *)
Lemma setting (p q : nat) (Hpq : roles p q) (ip iq : istore pr) ins v :
  shares_of W simd ip iq ins -> valuation ec ins v ->
  exists Inv : list elayer -> gouts pr -> gouts pr -> Prop,
    mask_layer (pr:=pr) ec p q ip iq Inv (good_setup W simd) same_last (GMsg W simd) /\
    (forall gp gq, shape_ok (pr:=pr) ec gp -> shape_ok (pr:=pr) ec gq -> Inv (ec_layers ec) gp gq) /\
    (forall gp gq, Inv [] gp gq -> exists op oq,
       ex_outputs (pr:=pr) ec gp = Some op /\ ex_outputs (pr:=pr) ec gq = Some oq /\
       shares_of W simd op oq (map (fun o => v (0, o)) (ec_outputs ec))).
Proof.
  intros Hi Hv.
  assert (OUT : forall g0 g1, (exists Live Td, sched_ok bool_ops ec Live Td [] /\
         EInv (pr:=pr) ec (BR W ec v) (BI W) Live Td g0 g1) -> exists o0 o1,
       ex_outputs (pr:=pr) ec g0 = Some o0 /\ ex_outputs (pr:=pr) ec g1 = Some o1 /\
       shares_of W simd o0 o1 (map (fun o => v (0, o)) (ec_outputs ec))).
  { intros g0 g1 (Live & Td & HL & E). cbn [sched_ok] in HL.
    destruct (outputs_sound (pr:=pr) ec (BR W ec v) (BI W) (BR_kind W ec v) Live Td g0 g1 E HL)
      as (o0 & o1 & A & B & C).
    change (@ec_simd (p_gate pr) ec) with (@ec_simd bool_gate ec) in C.
    pose proof (outputs_shares W ec v simd o0 o1 Hs0) as D. rewrite Hs0 in C. specialize (D C).
    exists o0, o1. auto. }
  assert (INI : forall g0 g1, shape_ok (pr:=pr) ec g0 -> shape_ok (pr:=pr) ec g1 ->
            exists Live Td, sched_ok bool_ops ec Live Td (ec_layers ec) /\
              EInv (pr:=pr) ec (BR W ec v) (BI W) Live Td g0 g1).
  { intros g0 g1 S0 S1. exists (fun _ => False), Todo. split; [exact HS|].
    constructor; auto; [intros g []|]. intros; exact Logic.I. }
  pose proof (uniform_layers _ _ _ HS) as UL.
  pose proof (shares_sym _ _ _ _ _ Hi) as Hi'.
  assert (Hw' : forall n, simd = Some n -> n <> 0 /\ n mod W = 0).
  { intros n E. apply (Hww 0). congruence. }
  rewrite <- Hs0 in Hi, Hi'.
  destruct Hpq as [[-> ->]|[-> ->]]; destruct simd as [n|] eqn:Es.
  - exists (SInv W ec n v). split; [|split].
    + apply (mask01_simd W HW ec n (Hw' n eq_refl) ins v ip iq); auto.
    + intros gp gq Sp Sq. split; auto.
    + intros gp gq (_ & H). auto.
  - exists (PInv W ec v). split; [|split].
    + apply (mask01 W HW ec ins v ip iq); auto.
    + intros gp gq Sp Sq. split; auto.
    + intros gp gq (_ & H). auto.
  - exists (fun ls gc gh => SInv W ec n v ls gh gc). split; [|split].
    + apply (mask10_simd W HW ec n (Hw' n eq_refl) ins v iq ip); auto.
    + intros gp gq Sp Sq. split; auto.
    + intros gp gq (_ & H). destruct (OUT _ _ H) as (o0 & o1 & A & B & C).
      exists o1, o0. auto using shares_sym.
  - exists (fun ls gc gh => PInv W ec v ls gh gc). split; [|split].
    + apply (mask10 W HW ec ins v iq ip); auto.
    + intros gp gq Sp Sq. split; auto.
    + intros gp gq (_ & H). destruct (OUT _ _ H) as (o0 & o1 & A & B & C).
      exists o1, o0. split; auto. split; auto. apply shares_sym; auto.
Qed.

Theorem uniform_messages : uniform_received W simd ec.
Proof.
  intros p q Hpq ip iq gp gq Bp t Lp Lq Sp Sq HB HT.
  destruct (shares_exist W simd k ip iq HW Lp Lq) as (ins & Hi & Li & Fi).
  destruct (Hval ins Li Fi) as (v & Hv).
  destruct (setting p q Hpq ip iq ins v Hi Hv) as (Inv & HM & HI & HO).
  apply (mask_run (pr:=pr) ec p q _ _ Inv (good_setup W simd) same_last (GMsg W simd) HM
           (input_len _ _ _ _ Lp) (input_len _ _ _ _ Lq)); auto.
  - intros gc gh H. destruct (HO gc gh H) as (a & b & A & B & _). eauto.
  - apply storages_partner; auto.
  - apply shape_msgs; auto.
Qed.

Theorem same_views (plain : list (list bool) -> list (list bool) -> Prop) :
  (forall xs outs, plain xs outs -> exists v, valuation ec xs v /\
     outs = map (fun o => v (0, o)) (ec_outputs ec)) ->
  same_view W simd ec plain.
Proof.
  intros Hpl p q Hpq ip iq iq' gp gq gq' Bp Bq Lp Lq Lq' Sp Sq Sq' HB.
  destruct (shares_exist W simd k ip iq HW Lp Lq) as (ins & Hi & Li & Fi).
  destruct (Hval ins Li Fi) as (v & Hv).
  destruct (setting p q Hpq ip iq ins v Hi Hv) as (Inv & HM & HI & HO).
  assert (HO' : forall gc gh, Inv [] gc gh -> exists oc oh,
     ex_outputs (pr:=pr) ec gc = Some oc /\ ex_outputs (pr:=pr) ec gh = Some oh).
  { intros gc gh H. destruct (HO gc gh H) as (a & b & A & B & _). eauto. }
  pose proof (input_len _ _ _ _ Lp) as Mp. pose proof (input_len _ _ _ _ Lq) as Mq.
  pose proof (input_len _ _ _ _ Lq') as Mq'.
  destruct (mask_together (pr:=pr) ec p q _ _ Inv (good_setup W simd) same_last (GMsg W simd) HM Mp Mq HO'
    gp gq Bp Bq (HI gp gq Sp Sq) HB) as (mp & mq & op & oq & T & HF).
  apply msgs_shape in HF. destruct HF as (t & HT & ->).
  assert (HBp : Forall2 (good_storage W simd) (requests ec) Bp).
  { clear - HB. induction HB as [|n b c ns B C H _ IH]; constructor; auto.
    destruct simd; [destruct H as (h & m & A1 & A2 & A3 & _)|destruct H as (h & m & A1 & A2 & _)];
      exists h, m; auto. }
  destruct (uniform_messages p q Hpq ip iq' gp gq' Bp t Lp Lq' Sp Sq' HBp HT) as (Bq' & HB' & HU).
  destruct (proj2 (HU Bq' HB')) as (mp' & op' & oq' & T').
  { clear - HB'. induction HB'; constructor; auto. reflexivity. }
  pose proof (together_layers (pr:=pr) ec p q ip iq Mp Mq) as TL.
  pose proof (together_layers (pr:=pr) ec p q ip iq' Mp Mq') as TL'.
  pose proof T as X. pose proof T' as X'. apply TL in X. apply TL' in X'.
  destruct X as (g0 & g1 & P0 & P1 & O0 & O1). destruct X' as (g0' & g1' & P0' & P1' & O0' & O1').
  rewrite P0 in P0'. injection P0' as <- <-. rewrite O0 in O0'. injection O0' as <-.
  exists Bq', mp, (map (bool_emsg W simd) t), op, oq, oq'.
  split; auto. split; auto. split; auto.
  intros xs xs' outs Hx Hx' Hp Hp'. destruct (Hpl _ _ Hp) as (w & Hw & Ew). destruct (Hpl _ _ Hp') as (w' & Hw' & Ew').
  assert (FIN : forall iz gz Bz oz g1 (u : gid -> list bool) xz, shares_of W simd ip iz xz -> shape_ok (pr:=pr) ec gz ->
     each3 (good_setup W simd) (requests ec) Bp Bz ->
     px_layers (pr:=pr) batch_req p ec ip (ec_layers ec) (map (bool_emsg W simd) t) gp Bp = Some (mp, [], g0, []) ->
     px_layers (pr:=pr) batch_req q ec iz (ec_layers ec) mp gz Bz = Some (map (bool_emsg W simd) t, [], g1, []) ->
     ex_outputs (pr:=pr) ec g1 = Some oz -> valuation ec xz u ->
     shares_of W simd op oz (map (fun o => u (0, o)) (ec_outputs ec))).
  { intros iz gz Bz oz h1 u xz Lz Sz Hz Q0 Q1 Oz Hu'.
    destruct (setting p q Hpq ip iz xz u Lz Hu') as (Inv2 & HM2 & HI2 & HO2).
    destruct (mask_success (pr:=pr) ec p q _ _ Inv2 (good_setup W simd) same_last (GMsg W simd) HM2
      (ec_layers ec) gp gz Bp Bz (HI2 gp gz Sp Sz) Hz) as (m0 & m1 & k0 & k1 & R0 & R1 & HK & _).
    destruct (together_unique (pr:=pr) batch_req p q ec _ _ (ec_layers ec) gp gz Bp Bz _ _ _ _
      (g0, []) (h1, []) (k0, []) (k1, []) Q0 Q1 R0 R1) as (_ & _ & F0 & F1).
    injection F0 as <-. injection F1 as <-.
    destruct (HO2 _ _ HK) as (a & b & A & B & C).
    rewrite O0 in A. injection A as <-. rewrite Oz in B. injection B as <-. auto. }
  pose proof (FIN iq gq Bq oq g1 w xs Hx Sq HB P0 P1 O1 Hw) as F.
  pose proof (FIN iq' gq' Bq' oq' g1' w' xs' Hx' Sq' HB' P0 P1' O1' Hw') as F'.
  rewrite <- Ew in F. rewrite <- Ew' in F'.
  apply (shares_cancel W simd op oq oq' outs HW); auto.
  intros n E. apply (Hww 0). congruence.
Qed.
End General.

(** ** C61 *)

(** Everything the general theorems need, for a circuit built with the API. *)
Lemma base_setting W c : 0 < W -> main_ok bool_ops c -> operands_ok c -> simd_ok W c ->
  exists ls, ec_of_base bool_ops c = Some (ec_base c ls) /\
    shape_ok (pr:=bool_gmw W) (ec_base c ls) (go_init (pr:=bool_gmw W) (ec_base c ls)) /\
    typed (ec_base c ls) /\ whole_words W (ec_base c ls) /\ NoDup (ec_inputs (ec_base c ls)) /\
    sched_ok bool_ops (ec_base c ls) (fun _ => False) (fun g => fst g = 0) (ec_layers (ec_base c ls)) /\
    (forall ins v, plain_value c ins v -> valuation (ec_base c ls) ins (fun g => v (snd g))) /\
    (forall xs, length xs = length (c_inputs c) -> Forall (fun x => length x = c_lanes c) xs ->
       exists v, plain_value c xs v).
Proof.
  intros HW Hm Ho Hs.
  assert (Hs0 : c_simd c <> Some 0).
  { unfold simd_ok in Hs. destruct (c_simd c); [|discriminate]. intros E. injection E as ->. tauto. }
  assert (Hs1 : c_simd c = None \/ forall o, In o (c_outputs c) -> children c o = []).
  { unfold simd_ok in Hs. destruct (c_simd c); [right|left]; tauto. }
  destruct (base_sched bool_ops c Hm Hs0 Hs1) as (ls & _ & Eec & _ & _ & HS).
  exists ls. split; auto. split; [apply (base_shape_init (pr:=bool_gmw W))|].
  split; [apply base_typed; auto|].
  split. { intros sc n. simpl. intros E. unfold simd_ok in Hs. rewrite E in Hs. tauto. }
  split; [apply base_inputs_nodup; auto|]. split; [exact HS|]. split.
  - intros ins v Hv. apply base_valuation; auto.
  - intros xs Hx Hf. apply plain_value_exists; auto.
Qed.

Theorem C61_messages_uniform :
  forall W c, 0 < W -> main_ok bool_ops c -> operands_ok c -> simd_ok W c ->
  exists ec, ec_of_base bool_ops c = Some ec /\
    shape_ok (pr:=bool_gmw W) ec (go_init (pr:=bool_gmw W) ec) /\
    uniform_received W (c_simd c) ec.
Proof.
  intros W c HW Hm Ho Hs.
  destruct (base_setting W c HW Hm Ho Hs) as (ls & E & Sh & Ht & Hww & Hnd & HS & Hv & Hx).
  exists (ec_base c ls). split; auto. split; auto.
  apply (uniform_messages W HW (ec_base c ls) (c_simd c) Ht Hww Hnd (fun _ _ _ => eq_refl) eq_refl _ HS).
  intros xs Lx Fx. destruct (Hx xs Lx Fx) as (v & V). eauto.
Qed.
Print Assumptions C61_messages_uniform.

Theorem C61_same_view :
  forall W c, 0 < W -> main_ok bool_ops c -> operands_ok c -> simd_ok W c ->
  exists ec, ec_of_base bool_ops c = Some ec /\
    same_view W (c_simd c) ec
      (fun xs outs => exists v, plain_value c xs v /\ outs = map v (c_outputs c)).
Proof.
  intros W c HW Hm Ho Hs.
  destruct (base_setting W c HW Hm Ho Hs) as (ls & E & Sh & Ht & Hww & Hnd & HS & Hv & Hx).
  exists (ec_base c ls). split; auto.
  apply (same_views W HW (ec_base c ls) (c_simd c) Ht Hww Hnd (fun _ _ _ => eq_refl) eq_refl _ HS).
  - intros xs Lx Fx. destruct (Hx xs Lx Fx) as (v & V). eauto.
  - intros xs outs (v & V & ->). exists (fun g => v (snd g)). auto.
Qed.
Print Assumptions C61_same_view.

(** The same for programs with sub-circuit calls (the programs of C55). *)
Theorem C61_calls_uniform :
  forall W imax m cl h simd perm, 0 < W -> program W imax m cl h simd -> rearranges perm ->
  exists ec, ec_of_mc bool_ops imax m perm = Some ec /\
    shape_ok (pr:=bool_gmw W) ec (go_init (pr:=bool_gmw W) ec) /\
    uniform_received W simd ec /\
    same_view W simd ec
      (fun xs outs => exists v, plain_value (inline_all bool_ops cl h) xs v /\
         outs = map v (c_outputs (inline_all bool_ops cl h))).
Proof.
  intros W imax m cl h simd perm HW [H1 H2 H3 H4 H5 H6'] HP. pose proof (po_base _ _ _ _ H6') as H6.
  destruct (multi_ec W m imax h cl simd H1 H2 H3 H4 H5 H6 perm H6' HP) as (c0 & ls & H0 & Eec & Hpure & HS).
  exists (ec_multi m imax c0 ls). split; auto.
  split; [apply (multi_shape_init W HW m imax cl H1)|].
  destruct (flat_spec W m h cl simd H1 H2 H3 H5 H6) as (c0' & H0' & _ & _ & Es & Es0).
  destruct (flat_io W HW m h cl simd H1 H2 H3 H5 H6) as (c1 & H01 & Ei & Eo).
  rewrite H0 in H0', H01. injection H0' as <-. injection H01 as <-.
  assert (Hm : main_ok bool_ops (inline_all bool_ops cl h))
    by (apply (flat_main_ok W HW m imax h cl simd); auto).
  assert (Hs0 : ec_simd (ec_multi m imax c0 ls) 0 = simd)
    by (apply (ec_simd_multi W m imax cl simd H1 H6 c0 ls 0 c0 H0)).
  assert (Ht : typed (ec_multi m imax c0 ls)) by (apply (multi_typed W HW m imax h cl simd); auto).
  assert (Hww : whole_words W (ec_multi m imax c0 ls)).
  { intros sc n. cbn [ec_multi ec_simd]. rewrite H1. destruct (nth_error cl sc) as [c|] eqn:Ec; [|discriminate].
    rewrite (po_simd _ _ _ H6 sc c Ec). apply (po_lanes _ _ _ H6). }
  assert (Hnd : NoDup (ec_inputs (ec_multi m imax c0 ls))).
  { cbn [ec_multi ec_inputs]. rewrite <- Ei. apply base_inputs_nodup; auto. }
  assert (Hu : forall g gate, ec_gate (ec_multi m imax c0 ls) g = Some gate ->
      ec_simd (ec_multi m imax c0 ls) (fst g) = simd).
  { intros [kk g] gate Hg. cbn [ec_multi ec_gate] in Hg. unfold mc_gate in Hg. cbn [fst snd] in *.
    destruct (mc_get m kk) as [c|] eqn:Ec; [|discriminate]. rewrite H1 in Ec.
    apply (ec_simd_multi W m imax cl simd H1 H6 c0 ls kk c Ec). }
  assert (Hvl : forall ins v, plain_value (inline_all bool_ops cl h) ins v ->
      valuation (ec_multi m imax c0 ls) ins (fun g => v (flat_id cl g))).
  { intros ins v Hv. apply (multi_valuation W HW m imax h cl simd); auto. }
  assert (Hval : forall xs, length xs = length (ec_inputs (ec_multi m imax c0 ls)) ->
     Forall (fun x => length x = match simd with None => 1 | Some n => n end) xs ->
     exists v, valuation (ec_multi m imax c0 ls) xs v).
  { intros xs Lx Fx. destruct (plain_value_exists (inline_all bool_ops cl h) Hm xs) as (v & Hv).
    - apply (flat_operands W HW m imax h cl simd); auto.
    - rewrite Ei. exact Lx.
    - unfold c_lanes. rewrite Es. exact Fx.
    - eauto. }
  split.
  - apply (uniform_messages W HW (ec_multi m imax c0 ls) simd Ht Hww Hnd Hu Hs0 (fun _ => True) HS Hval).
  - apply (same_views W HW (ec_multi m imax c0 ls) simd Ht Hww Hnd Hu Hs0 (fun _ => True) HS Hval).
    intros xs outs (v & V & ->). exists (fun g => v (flat_id cl g)). split; auto.
    rewrite Eo. cbn [ec_multi ec_outputs]. apply map_ext. intros o. f_equal.
    symmetry. apply (flat_main_id W m h cl simd); auto.
Qed.
Print Assumptions C61_calls_uniform.

(** *** Concrete cases *)

Definition cs_bits (m : emsg (bool_gmw 8)) : list bool * list bool :=
  (firstn (bm_size (em_scalar m)) (bm_d (em_scalar m)), firstn (bm_size (em_scalar m)) (bm_e (em_scalar m))).
(** One party of [ex_circ]: the bits it sends when it receives [t], its outputs. *)
Definition cs_run (p : nat) (i : list bool) (t : list (list bool * list bool)) (B : list triple)
  : option (list (list bool * list bool) * list bool) :=
  ec <- ec_of_base bool_ops ex_circ ;;
  '(ms, _, (o, _, _)) <- px_run (pr:=bool_gmw 8) batch_req p ec (IScalar (pr:=bool_gmw 8) i)
     (map (scalar_emsg 8) t) (go_init (pr:=bool_gmw 8) ec) (map (fun x => ex_mk [x]) B) ;;
  Some (map cs_bits ms, match o with IScalar l => l | ISimd _ => [] end).
Definition cs_t : list (list bool * list bool) := [([false], [true]); ([true], [true])].
Definition cs_B0 : list triple := [MT true false true; MT false true true].

(** For each of the four possible input shares of party 1: among the 16 choices
    of its masks exactly one makes party 0 receive [cs_t]. *)
Definition cs_solutions (i1 : list bool) : list (list (bool * bool)) :=
  let bs := [(false, false); (false, true); (true, false); (true, true)] in
  let same (a b : list bool) := forallb (fun x => x) (map (fun p => eqb (fst p) (snd p)) (combine a b)) in
  filter (fun masks =>
      match cs_run 0 [true; false] cs_t cs_B0 with
      | Some (m0, _) =>
          match cs_run 1 i1 m0 (zip_with complete cs_B0 masks) with
          | Some (m1, _) => same (concat (map (fun m => fst m ++ snd m) m1))
                                 (concat (map (fun m => fst m ++ snd m) cs_t))
          | None => false
          end
      | None => false
      end)
    (flat_map (fun x => map (fun y => [x; y]) bs) bs).

Example C61_case :
  option_map requests (ec_of_base bool_ops ex_circ) = Some [1; 1] /\ transcript_shape [1; 1] cs_t /\
  map cs_solutions [[false; false]; [false; true]; [true; false]; [true; true]] =
    [[[(false, true); (true, true)]]; [[(false, false); (true, true)]];
     [[(true, true); (true, false)]]; [[(true, false); (true, false)]]].
Proof.
  split; [vm_compute; reflexivity|]. split; [repeat constructor|]. vm_compute. reflexivity.
Qed.

(** The SIMD version with 8 lanes: whichever of the four inputs party 1 has, masks
    computed layer by layer (the message with zero masks is the operands
    themselves) make party 0 receive the same transcript. *)
Definition sd_run (p : nat) (i : list bitvec) (t : list (list bool * list bool)) (B : list (list triple))
  : option (list (list bool * list bool)) :=
  ec <- ec_of_base bool_ops ex_simd_circ ;;
  '(ms, _, _) <- px_run (pr:=bool_gmw 8) batch_req p ec (ISimd (pr:=bool_gmw 8) i)
     (map (simd_emsg 8 8) t) (go_init (pr:=bool_gmw 8) ec) (map ex_mk B) ;;
  Some (map (fun m : emsg (bool_gmw 8) => match em_simd m with
          | Some x => (bm_d (bs_data x), bm_e (bs_data x))
          | None => ([], [])
          end) ms).
Definition sd_t : list (list bool * list bool) :=
  [([true; false; true; true; false; false; true; false], [false; true; true; false; true; false; false; true]);
   ([false; false; true; true; true; false; true; false], [true; true; false; false; true; false; true; true])].
Definition sd_B0 : list (list triple) :=
  [repeat (MT true false true) 8; repeat (MT false true true) 4 ++ repeat (MT true true false) 4].
Definition sd_masks (r t : list bool * list bool) : list (bool * bool) :=
  combine (zip_with xorb (fst r) (fst t)) (zip_with xorb (snd r) (snd t)).
Definition sd_solve (i1 : list bitvec) : option (list (list (bool * bool)) * list (list bool * list bool)) :=
  let zero := repeat (false, false) 8 in
  let B1 (a b : list (bool * bool)) := zip_with (zip_with complete) sd_B0 [a; b] in
  m0 <- sd_run 0 [ex_vec true; ex_vec false] sd_t sd_B0 ;;
  r1 <- sd_run 1 i1 m0 (B1 zero zero) ;;
  let k1 := sd_masks (nth 0 r1 ([], [])) (nth 0 sd_t ([], [])) in
  r2 <- sd_run 1 i1 m0 (B1 k1 zero) ;;
  let k2 := sd_masks (nth 1 r2 ([], [])) (nth 1 sd_t ([], [])) in
  r3 <- sd_run 1 i1 m0 (B1 k1 k2) ;;
  Some ([k1; k2], r3).

Example C61_simd_case :
  option_map requests (ec_of_base bool_ops ex_simd_circ) = Some [8; 8] /\ transcript_shape [8; 8] sd_t /\
  Forall2 (storage_aligned 8) [8; 8] (map ex_mk sd_B0) /\
  map (fun i => option_map snd (sd_solve i))
    [[ex_vec false; ex_vec false]; [ex_vec false; ex_vec true];
     [ex_vec true; ex_vec false]; [ex_vec true; ex_vec true]] = repeat (Some sd_t) 4 /\
  option_map fst (sd_solve [ex_vec false; ex_vec false]) <> option_map fst (sd_solve [ex_vec true; ex_vec false]).
Proof.
  split; [vm_compute; reflexivity|]. split; [repeat constructor|].
  split. { repeat constructor; exists 0, 8; repeat split; vm_compute; auto with arith. }
  split; [vm_compute; reflexivity|]. vm_compute. discriminate.
Qed.
