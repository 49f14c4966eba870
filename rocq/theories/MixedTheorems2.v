(** Cases and refutations for C42, C44, C45; share storage C46. *)
From Coq Require Import List Bool Arith ZArith Lia.
Require Import Verif.ParseModel Verif.Prelude Verif.PreludeProofs Verif.BitVecModel Verif.BitVecSpec Verif.BitVecProofs
  Verif.GateModel Verif.ProtocolModel Verif.CircuitModel Verif.CircuitSpec
  Verif.BoolGmwModel Verif.BoolGmwSpec Verif.ArithGmwModel Verif.InlineModel
  Verif.ExecModel Verif.ExecSpec Verif.ExecProofs
  Verif.MixedModel Verif.MixedSpec Verif.MixedProgSpec Verif.MixedTheorems.
Import ListNotations.
Open Scope nat_scope.

(** ** Concrete executions with 8-bit words *)

Definition mt_zeros (n : nat) : mul_triples := MTS (bv_of_bits 8 (repeat false n)) (bv_of_bits 8 (repeat false n)) (bv_of_bits 8 (repeat false n)).

(** [InsecureMixedSetup] with masks 77, 91. *)
Definition ins_req : nat -> nat -> option (msetup * nat) :=
  insecure_req 8 mt_zeros (fun n => repeat 165%Z n) (fun k => if Nat.even k then [77; 13; 200; 8]%Z else [91; 255; 3; 16]%Z).

Definition mrun (req : nat -> nat -> option (msetup * nat)) (prog : list instr) (i0 i1 : list mixed) : option (list mixed * list mixed) :=
  '(c, _) <- comp 1000 2 8 prog c_new_main [] ;;
  ec <- ec_of_base mixed_ops c ;;
  '(o0, o1, _) <- ex2_run (pr:=mixed_gmw 8 8) req ec (IScalar (pr:=mixed_gmw 8 8) i0) (IScalar (pr:=mixed_gmw 8 8) i1)
    (go_init (pr:=mixed_gmw 8 8) ec, 0, (go_init (pr:=mixed_gmw 8 8) ec, 1)) ;;
  match o0, o1 with IScalar a, IScalar b => Some (a, b) | _, _ => None end.

Definition rec8 (a b : mixed) : pval :=
  match a, b with
  | MBool p, MBool q => PB (xorb p q)
  | MArith x, MArith y => PA ((x + y) mod 256)
  | _, _ => PB false
  end.

Lemma shares_rec8 outs o0 o1 : all3 (pshares 8) outs o0 o1 -> zip_with rec8 o0 o1 = outs.
Proof.
  induction 1 as [|v a b outs o0 o1 Hv H IH]; auto. cbn [zip_with]. f_equal; auto. destruct v as [x|x].
  - destruct Hv as (p & q & -> & -> & <-). auto.
  - destruct Hv as (x0 & x1 & -> & -> & <-). auto.
Qed.

Lemma rec8_shares outs : forall o0 o1, length o0 = length o1 ->
  Forall (fun p => match p with (MBool _, MBool _) | (MArith _, MArith _) => True | _ => False end) (combine o0 o1) ->
  zip_with rec8 o0 o1 = outs -> all3 (pshares 8) outs o0 o1.
Proof.
  induction outs as [|v outs IH]; intros [|a o0] [|b o1] L F E; try discriminate; [constructor|].
  inversion F; subst. cbn in E, L. injection L as L. injection E as E1 E2. constructor; auto.
  destruct a, b; try tauto; subst v; [exists b0, b; auto|exists r, r0; auto].
Qed.

Lemma mrun_correct req prog c ids ins outs i0 i1 :
  serves req (mixed_setup_ok 8 8) (fun ns _ _ => Forall (fun n => 0 < n) ns) ->
  comp 1000 2 8 prog c_new_main [] = Some (c, ids) -> runs_correctly 8 8 c ins outs ->
  all3 (pshares 8) ins i0 i1 ->
  option_map (fun o => zip_with rec8 (fst o) (snd o)) (mrun req prog i0 i1) = Some outs.
Proof.
  intros HJ EC (ec & EE & HX) HI.
  destruct (HX _ req _ HJ i0 i1 0 1 [] HI) as (o0 & o1 & s' & ER & HO).
  { rewrite app_nil_r. unfold requests. apply Forall_forall. intros n Hn. apply filter_In in Hn. destruct Hn as [_ Hn].
    apply negb_true_iff in Hn. apply Nat.eqb_neq in Hn. lia. }
  unfold mrun. rewrite EC. cbn [obind]. rewrite EE. cbn [obind].
  match type of ER with ?e = _ => match goal with |- context [obind ?e' _] => change e' with e end end.
  rewrite ER. cbn [obind option_map fst snd]. f_equal. apply shares_rec8. auto.
Qed.

Lemma ins_req_serves : serves ins_req (mixed_setup_ok 8 8) (fun ns _ _ => Forall (fun n => 0 < n) ns).
Proof.
  apply C44_insecure_setup_serves.
  - intros n. exists 0. unfold mt_zeros, mts_wf. cbn [ts_a ts_b ts_c].
    assert (H : bv_wf 8 (bv_of_bits 8 (repeat false n))) by (apply bv_copy_wf; lia).
    repeat split; auto; apply H || (cbn; apply repeat_length).
  - intros n. apply repeat_length.
  - intros k. destruct (Nat.even k); discriminate.
Qed.

(** Two conversions in one layer: 43 = 200 + 99 and 9 = 5 + 4 (modulo 256) are
    converted; the second result is 43 again, because the [A2BRcv] gate of the
    first conversion leaves its operand for the second [A2BSnd] gate. *)
Definition two_a2b : list instr := IIn :: IIn :: IA2B 0 :: IA2B 1 :: map IOut (seq 2 16).

Theorem C45_two_a2b_refuted :
  exists prog ins env outs c ids,
    prun 8 prog [] [] ins = Some (env, outs, []) /\ comp 1000 2 8 prog c_new_main [] = Some (c, ids) /\
    ~ runs_correctly 8 8 c ins outs.
Proof.
  destruct (comp 1000 2 8 two_a2b c_new_main []) as [[c ids]|] eqn:EC; [|vm_compute in EC; discriminate].
  exists two_a2b, [PA 43%Z; PA 9%Z]. eexists _, _, c, ids. split; [vm_compute; reflexivity|]. split; auto.
  intros H. eapply (mrun_correct ins_req two_a2b c ids _ _ [MArith 200%Z; MArith 5%Z] [MArith 99%Z; MArith 4%Z]) in H; auto.
  - vm_compute in H. discriminate.
  - apply ins_req_serves.
  - apply rec8_shares; auto. repeat constructor.
Qed.
Print Assumptions C45_two_a2b_refuted.

(** An A2B in front of a B2A in one layer: the executions panic. *)
Definition a2b_b2a : list instr := IIn :: repeat IIn 8 ++ IA2B 0 :: IB2A (seq 1 8) :: [IOut 17].

Theorem C45_a2b_b2a_refuted :
  exists prog ins env outs c ids,
    prun 8 prog [] [] ins = Some (env, outs, []) /\ comp 1000 2 8 prog c_new_main [] = Some (c, ids) /\
    ~ runs_correctly 8 8 c ins outs.
Proof.
  destruct (comp 1000 2 8 a2b_b2a c_new_main []) as [[c ids]|] eqn:EC; [|vm_compute in EC; discriminate].
  exists a2b_b2a, (PA 43%Z :: repeat (PB true) 8). eexists _, _, c, ids. split; [vm_compute; reflexivity|]. split; auto.
  intros H. eapply (mrun_correct ins_req a2b_b2a c ids _ _ (MArith 200%Z :: repeat (MBool true) 8) (MArith 99%Z :: repeat (MBool false) 8)) in H; auto.
  - vm_compute in H. discriminate.
  - apply ins_req_serves.
  - apply rec8_shares; auto. repeat constructor.
Qed.
Print Assumptions C45_a2b_b2a_refuted.

(** Two B2A in one layer read the same arithmetic random bits.  The provider
    gives, for every word, the word's own arithmetic bits: word 0 has bit 0 set,
    all others are zero. *)
Definition fair_setup (party n : nat) : msetup :=
  MSetup (mt_zeros n) (amts_zeros n)
    (match party with 0 => 1%Z :: repeat 0%Z (n - 1) | _ => repeat 0%Z n end)
    (match party with 0 => repeat 0%Z 7 ++ 1%Z :: repeat 0%Z ((n - 1) * 8) | _ => repeat 0%Z (n * 8) end) [7%Z].

(** Word [k] of both parties belongs to the [k]-th block of arithmetic bits. *)
Definition word_ok (w k : nat) (st0 st1 : msetup) : Prop :=
  exists r0 r1, nth_error (st_sb_bool st0) k = Some r0 /\ nth_error (st_sb_bool st1) k = Some r1 /\
  forall i, i < w -> exists a0 a1,
    nth_error (st_sb_arith st0) (w * k + (w - 1 - i)) = Some a0 /\ nth_error (st_sb_arith st1) (w * k + (w - 1 - i)) = Some a1 /\
    ((a0 + a1) mod 2 ^ Z.of_nat w = Z.b2z (xorb (Z.testbit r0 (Z.of_nat i)) (Z.testbit r1 (Z.of_nat i))))%Z.

Definition two_b2a : list instr := repeat IIn 16 ++ IB2A (seq 0 8) :: IB2A (seq 8 8) :: [IOut 16; IOut 17].
Definition in16 : list pval := PB true :: repeat (PB false) 15.

Definition mrun_from (req : msetup -> nat -> option (msetup * msetup)) (st0 st1 : msetup) (prog : list instr) (i0 i1 : list mixed)
  : option (list nat * list mixed * list mixed) :=
  '(c, _) <- comp 1000 2 8 prog c_new_main [] ;;
  ec <- ec_of_base mixed_ops c ;;
  '(o0, o1, _) <- ex2_run (pr:=mixed_gmw 8 8) req ec (IScalar (pr:=mixed_gmw 8 8) i0) (IScalar (pr:=mixed_gmw 8 8) i1)
    (go_init (pr:=mixed_gmw 8 8) ec, st0, (go_init (pr:=mixed_gmw 8 8) ec, st1)) ;;
  match o0, o1 with IScalar a, IScalar b => Some (requests ec, a, b) | _, _ => None end.

Lemma mrun_from_inv req st0 st1 prog i0 i1 rs a b : mrun_from req st0 st1 prog i0 i1 = Some (rs, a, b) ->
  exists c ids ec s', comp 1000 2 8 prog c_new_main [] = Some (c, ids) /\ ec_of_base mixed_ops c = Some ec /\ requests ec = rs /\
    ex2_run (pr:=mixed_gmw 8 8) req ec (IScalar (pr:=mixed_gmw 8 8) i0) (IScalar (pr:=mixed_gmw 8 8) i1)
      (go_init (pr:=mixed_gmw 8 8) ec, st0, (go_init (pr:=mixed_gmw 8 8) ec, st1)) =
    Some (IScalar (pr:=mixed_gmw 8 8) a, IScalar (pr:=mixed_gmw 8 8) b, s').
Proof.
  unfold mrun_from. destruct (comp 1000 2 8 prog c_new_main []) as [[c ids]|]; [|discriminate]. cbn [obind].
  destruct (ec_of_base mixed_ops c) as [ec|] eqn:EE; [|discriminate]. cbn [obind].
  match goal with |- obind ?e _ = _ -> _ => destruct e as [[[o0 o1] s']|] eqn:ER; [|discriminate] end. cbn [obind].
  destruct o0 as [x|x], o1 as [y|y]; try discriminate. intros E. injection E as E1 E2 E3. subst.
  exists c, ids, ec, s'. split; [reflexivity|]. split; [exact EE|]. split; [reflexivity|]. exact ER.
Qed.

Lemma two_b2a_result : mrun_from (fun st _ => Some (st, st)) (fair_setup 0 2) (fair_setup 1 2) two_b2a
    (MBool true :: repeat (MBool false) 15) (repeat (MBool false) 16) =
  Some ([2], [MArith 1%Z; MArith 1%Z], [MArith 0%Z; MArith 0%Z]).
Proof. vm_compute. reflexivity. Qed.

Theorem C45_two_b2a_refuted :
  exists prog ins env outs c ids ec i0 i1 o0 o1 st0 st1 s',
    prun 8 prog [] [] ins = Some (env, outs, []) /\ comp 1000 2 8 prog c_new_main [] = Some (c, ids) /\
    ec_of_base mixed_ops c = Some ec /\ all3 (pshares 8) ins i0 i1 /\ requests ec = [2] /\
    mixed_setup_ok 8 8 2 st0 st1 /\ word_ok 8 0 st0 st1 /\ word_ok 8 1 st0 st1 /\
    ex2_run (pr:=mixed_gmw 8 8) (fun st n => Some (st, st)) ec (IScalar (pr:=mixed_gmw 8 8) i0) (IScalar (pr:=mixed_gmw 8 8) i1)
      (go_init (pr:=mixed_gmw 8 8) ec, st0, (go_init (pr:=mixed_gmw 8 8) ec, st1)) =
      Some (IScalar (pr:=mixed_gmw 8 8) o0, IScalar (pr:=mixed_gmw 8 8) o1, s') /\
    ~ all3 (pshares 8) outs o0 o1.
Proof.
  destruct (mrun_from_inv _ _ _ _ _ _ _ _ _ two_b2a_result) as (c & ids & ec & s' & EC & EE & EQ & ER).
  assert (EP : exists env, prun 8 two_b2a [] [] in16 = Some (env, [PA 1%Z; PA 0%Z], [])) by (eexists; vm_compute; reflexivity).
  destruct EP as (env & EP).
  exists two_b2a, in16, env, [PA 1%Z; PA 0%Z], c, ids, ec, (MBool true :: repeat (MBool false) 15), (repeat (MBool false) 16),
    [MArith 1%Z; MArith 1%Z], [MArith 0%Z; MArith 0%Z], (fair_setup 0 2), (fair_setup 1 2), s'.
  split; [exact EP|]. split; [exact EC|]. split; [exact EE|].
  split; [apply rec8_shares; [reflexivity|repeat constructor|reflexivity]|]. split; [exact EQ|]. split; [|split; [|split; [|split]]].
  - split; [|split; [|split; discriminate]].
    + split; [|split; exists 2; auto]. exists 2, 0, 0. split; auto.
      assert (H : mts_wf 8 0 2 (mt_zeros 2)) by (repeat split; cbn; lia). split; [exact H|]. split; [exact H|]. vm_compute. repeat constructor.
    + exists [1%Z], [0%Z], 0%Z, 0%Z, (repeat 0%Z 7 ++ [1%Z]), (repeat 0%Z 8), (repeat 0%Z 8), (repeat 0%Z 8).
      repeat (split; [reflexivity|]). intros i _. rewrite !nth_repeat, !Z.bits_0. reflexivity.
  - exists 1%Z, 0%Z. split; [reflexivity|]. split; [reflexivity|]. intros i Hi.
    do 8 (destruct i as [|i]; [eexists _, _; split; [reflexivity|]; split; [reflexivity|]; reflexivity|]). lia.
  - exists 0%Z, 0%Z. split; [reflexivity|]. split; [reflexivity|]. intros i Hi.
    do 8 (destruct i as [|i]; [eexists _, _; split; [reflexivity|]; split; [reflexivity|]; reflexivity|]). lia.
  - exact ER.
  - intros H. apply shares_rec8 in H. vm_compute in H. discriminate.
Qed.
Print Assumptions C45_two_b2a_refuted.

(** Several conversions in different layers. *)
Definition chain : list instr := IIn :: IA2B 0 :: IB2A (seq 1 8) :: IAdd 0 9 :: IA2B 10 :: map IOut (seq 11 8).

Example C45_case :
  prun 8 chain [] [] [PA 43%Z] = Some ([PA 43%Z] ++ map PB (bits_of 8 43) ++ [PA 43%Z; PA 86%Z] ++ map PB (bits_of 8 86), map PB (bits_of 8 86), []) /\
  (match comp 1000 2 8 chain c_new_main [] with
   | Some (c, _) => match c_layers mixed_ops c with Some ls => Forall (fun l => conversions c l <= 1) ls | None => False end
   | None => False end) /\
  option_map (fun o => zip_with rec8 (fst o) (snd o)) (mrun ins_req chain [MArith 200%Z] [MArith 99%Z]) = Some (map PB (bits_of 8 86)).
Proof.
  split; [vm_compute; reflexivity|]. split; [|vm_compute; reflexivity].
  destruct (comp 1000 2 8 chain c_new_main []) as [[c ids]|] eqn:EC; [|vm_compute in EC; discriminate].
  assert (E : match comp 1000 2 8 chain c_new_main [] with Some (c, _) =>
    option_map (fun ls => forallb (fun l => conversions c l <=? 1) ls) (c_layers mixed_ops c) | None => None end = Some true) by (vm_compute; reflexivity).
  rewrite EC in E. destruct (c_layers mixed_ops c) as [ls|]; [|discriminate]. cbn in E. injection E as E.
  apply Forall_forall. intros l Hl. rewrite forallb_forall in E. apply Nat.leb_le. auto.
Qed.

(** 200 + 99 = 43 modulo 256, converted to bits; and 0b11111111 = 255. *)
Example C42_case :
  option_map (fun o => zip_with rec8 (fst o) (snd o)) (mrun ins_req (a2b_prog 8) [MArith 200%Z] [MArith 99%Z]) =
  Some (map PB [true; true; false; true; false; true; false; false]).
Proof. vm_compute. reflexivity. Qed.
Example C44_case :
  option_map (fun o => zip_with rec8 (fst o) (snd o)) (mrun ins_req (b2a_prog 8)
     (map MBool [true; true; false; true; false; true; false; false]) (map MBool [false; true; true; true; false; true; false; true])) =
  Some [PA (1 + 4 + 128)%Z].
Proof. vm_compute. reflexivity. Qed.

(** ** C46 *)

(** Extending a storage with any shares keeps the sequence and never fails. *)
Theorem C46_extend :
  forall xs s, exists s', ms_extend s xs = Some s' /\ ms_iter s' = ms_iter s ++ xs.
Proof.
  induction xs as [|x xs IH]; intros s.
  - destruct s; eexists; (split; [reflexivity|]); cbn; rewrite ?app_nil_r; auto.
  - destruct s as [l|l|l], x as [b|r]; cbn [ms_extend ms_as_mixed ms_try_push obind].
    + destruct (IH (SBool (l ++ [b]))) as (s' & -> & E). exists s'. split; auto. rewrite E. cbn. rewrite map_app, <- app_assoc. auto.
    + destruct (IH (SMixed (map MBool l ++ [MArith r]))) as (s' & -> & E). exists s'. split; auto. rewrite E. cbn. rewrite <- app_assoc. auto.
    + destruct (IH (SMixed (map MArith l ++ [MBool b]))) as (s' & -> & E). exists s'. split; auto. rewrite E. cbn. rewrite <- app_assoc. auto.
    + destruct (IH (SArith (l ++ [r]))) as (s' & -> & E). exists s'. split; auto. rewrite E. cbn. rewrite map_app, <- app_assoc. auto.
    + eexists. split; reflexivity.
    + eexists. split; reflexivity.
Qed.
Print Assumptions C46_extend.

(** Reading gives the share at the index of the stored sequence, and the length
    is that of the sequence. *)
Theorem C46_get :
  forall s i, ms_get s i = nth_error (ms_iter s) i /\ ms_len s = length (ms_iter s).
Proof.
  intros [l|l|l] i; cbn; rewrite ?map_length, ?nth_error_map; split; auto; destruct (nth_error l i); auto.
Qed.
Print Assumptions C46_get.

(** Writing replaces the share at the index, whenever the storage can hold it. *)
Theorem C46_set :
  forall s i x, i < ms_len s ->
  match s, x with SBool _, MArith _ | SArith _, MBool _ => ms_set s i x = None
  | _, _ => exists s', ms_set s i x = Some s' /\ ms_iter s' = firstn i (ms_iter s) ++ [x] ++ skipn (S i) (ms_iter s) end.
Proof.
  assert (U : forall A (x : A) l i, i < length l -> upd i x l = firstn i l ++ [x] ++ skipn (S i) l).
  { induction l as [|y l IH]; intros [|i] H; cbn in *; try lia; auto. f_equal. apply IH. lia. }
  intros [l|l|l] i [b|r] H; unfold ms_set; try reflexivity; cbn [ms_len] in H;
    apply Nat.ltb_lt in H; rewrite H; cbn [oassert obind]; apply Nat.ltb_lt in H;
    (eexists; split; [reflexivity|]); cbn [ms_iter]; rewrite U by auto; rewrite ?map_app, ?firstn_map, ?skipn_map; reflexivity.
Qed.
Print Assumptions C46_set.

Definition is_bool (m : mixed) : bool := match m with MBool _ => true | MArith _ => false end.

(** What holds of collecting: shares of one kind give a storage with the same
    sequence.  Missing for the full statement: sequences with both kinds. *)
Theorem C46_collect_partial :
  forall xs k, Forall (fun x => is_bool x = k) xs -> exists s, ms_from_iter xs = Some s /\ ms_iter s = xs.
Proof.
  assert (B : forall xs l, Forall (fun x => is_bool x = true) xs -> exists s, ofold ms_try_push (SBool l) xs = Some s /\ ms_iter s = map MBool l ++ xs).
  { induction xs as [|[b|r] xs IH]; intros l F; inversion F; subst; try discriminate.
    - exists (SBool l). cbn. rewrite app_nil_r. auto.
    - destruct (IH (l ++ [b]) H2) as (s & E & Es). exists s. cbn. rewrite E, Es, map_app, <- app_assoc. auto. }
  assert (A : forall xs l, Forall (fun x => is_bool x = false) xs -> exists s, ofold ms_try_push (SArith l) xs = Some s /\ ms_iter s = map MArith l ++ xs).
  { induction xs as [|[b|r] xs IH]; intros l F; inversion F; subst; try discriminate.
    - exists (SArith l). cbn. rewrite app_nil_r. auto.
    - destruct (IH (l ++ [r]) H2) as (s & E & Es). exists s. cbn. rewrite E, Es, map_app, <- app_assoc. auto. }
  intros [|[b|r] xs] k F; inversion F; subst.
  - exists ms_default. auto.
  - destruct (B xs [b] H2) as (s & E & Es). exists s. auto.
  - destruct (A xs [r] H2) as (s & E & Es). exists s. auto.
Qed.
Print Assumptions C46_collect_partial.

(** Collecting panics exactly for sequences with both kinds of shares. *)
Theorem C46_collect_panics_iff :
  forall xs, ms_from_iter xs = None <-> (exists b, In (MBool b) xs) /\ (exists r, In (MArith r) xs).
Proof.
  assert (B : forall xs l, ofold ms_try_push (SBool l) xs = None <-> exists r, In (MArith r) xs).
  { induction xs as [|[b|r] xs IH]; intros l; cbn.
    - split; [discriminate|intros (? & [])].
    - rewrite IH. split; intros (r & H); exists r; auto. destruct H as [H|H]; [discriminate|auto].
    - split; eauto. }
  assert (A : forall xs l, ofold ms_try_push (SArith l) xs = None <-> exists b, In (MBool b) xs).
  { induction xs as [|[b|r] xs IH]; intros l; cbn.
    - split; [discriminate|intros (? & [])].
    - split; eauto.
    - rewrite IH. split; intros (b & H); exists b; auto. destruct H as [H|H]; [discriminate|auto]. }
  intros [|[b|r] xs]; cbn [ms_from_iter].
  - split; [discriminate|intros ((? & []) & _)].
  - rewrite B. split; [intros (r & H); split; [exists b; cbn; auto|exists r; cbn; auto]|].
    intros (_ & r & [H|H]); [discriminate|eauto].
  - rewrite A. split; [intros (b & H); split; [exists b; cbn; auto|exists r; cbn; auto]|].
    intros ((b & [H|H]) & _); [discriminate|eauto].
Qed.
Print Assumptions C46_collect_panics_iff.

Theorem C46_collect_refuted : exists xs, ms_from_iter xs = None.
Proof. exists [MBool true; MArith 3%Z]. reflexivity. Qed.
Print Assumptions C46_collect_refuted.

Example C46_case :
  ms_extend (SBool [true]) [MBool false; MArith 5%Z; MBool true] = Some (SMixed [MBool true; MBool false; MArith 5%Z; MBool true]) /\
  ms_get (SMixed [MBool true; MBool false; MArith 5%Z]) 2 = Some (MArith 5%Z) /\
  ms_from_iter [MArith 1%Z; MArith 2%Z] = Some (SArith [1%Z; 2%Z]).
Proof. repeat split. Qed.
