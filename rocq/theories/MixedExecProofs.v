(** Executions of mixed circuits, at the level of exact shares. *)
From Coq Require Import List Bool Arith ZArith Lia Permutation.
Require Import Verif.ParseModel Verif.Prelude Verif.PreludeProofs Verif.GateModel Verif.ProtocolModel Verif.CircuitModel
  Verif.BoolGmwModel Verif.BoolGmwSpec Verif.BoolGmwProofs Verif.ArithGmwModel Verif.ArithGmwSpec Verif.ArithGmwProofs
  Verif.ExecModel Verif.ExecSpec Verif.ExecProofs Verif.ExecLayerProofs Verif.ExecCircuitProofs Verif.Aby2Proofs Verif.Aby2ExecProofs
  Verif.MixedModel Verif.MixedSpec Verif.MixedProgSpec Verif.ZMod.
Import ListNotations.
Open Scope nat_scope.

(** What a gate carries: an XOR shared bit, or exactly these two shares of a ring
    element. *)
Inductive mval := VB (b : bool) | VP (x0 x1 : Z).

(** Setup data and randomness used for the conversion gates of one layer. *)
Record cdata := CData { cd_rho0 : Z; cd_rho1 : Z; cd_r0 : Z; cd_r1 : Z; cd_a0 : list Z; cd_a1 : list Z }.

Definition mval_bit (v : mval) : option bool := match v with VB b => Some b | VP _ _ => None end.

Definition msem (w : nat) (d : cdata) (g : mixed_gate) (ins : list mval) : option mval :=
  let z := Z.of_nat w in
  match g, ins with
  | MGBase (GConstant (MBool b)), [] => Some (VB b)
  | MGBase (GConstant (MArith x)), [] => Some (VP x 0)
  | MGBase (GOutput | GScInput | GScOutput | GConnectToMain | GIdentity | GDebug), [x] => Some x
  | MGBool BXor, [VB x; VB y] => Some (VB (xorb x y))
  | MGBool BInv, [VB x] => Some (VB (negb x))
  | MGBool BAnd, [VB x; VB y] => Some (VB (x && y))
  | MGArith AAdd, [VP x0 x1; VP y0 y1] => Some (VP (wadd z x0 y0) (wadd z x1 y1))
  | MGArith ASub, [VP x0 x1; VP y0 y1] => Some (VP (wsub z x0 y0) (wsub z x1 y1))
  | MGArith AMul, [VP x0 x1; VP y0 y1] => Some (VP (((x0 + x1) * (y0 + y1)) mod 2 ^ z) 0)
  | MGConv CSelect, [VP x0 x1; VP y0 y1] => Some (VP x0 y1)
  | MGConv (CSelectBit i), [VP x0 x1] =>
      if (i <? w)%nat then Some (VB (xorb (Z.testbit x0 (Z.of_nat i)) (Z.testbit x1 (Z.of_nat i)))) else None
  | MGConv CSnd, [VP x0 x1] => Some (VP (Z.lxor x0 (cd_rho0 d)) (Z.lxor x1 (cd_rho1 d)))
  | MGConv CRcv, [VP x0 x1] => Some (VP (cd_rho1 d) (cd_rho0 d))
  | MGConv CB2A, ins =>
      bits <- omap mval_bit ins ;;
      _ <- oassert (length bits =? w)%nat ;;
      let t := Z.lxor (word_of_bits bits) (Z.lxor (cd_r0 d) (cd_r1 d)) in
      x0 <- b2a_eval w 0 t (cd_a0 d) ;; x1 <- b2a_eval w 1 t (cd_a1 d) ;; Some (VP x0 x1)
  | _, _ => None
  end%Z.

(** Shares that carry a value. *)
Definition mrel (v : mval) (a b : mixed) : Prop :=
  match v with
  | VB x => exists p q, a = MBool p /\ b = MBool q /\ xorb p q = x
  | VP x0 x1 => a = MArith x0 /\ b = MArith x1
  end.

Lemma mrel_bits l : forall x0 x1 bits, all3 mrel l x0 x1 -> omap mval_bit l = Some bits ->
  exists p q, omap unwrap_bool x0 = Some p /\ omap unwrap_bool x1 = Some q /\ bits_xor p q = bits /\
    length p = length l /\ length q = length l.
Proof.
  intros x0 x1 bits H. revert bits. induction H as [|v a b l x0 x1 Hv H IH]; intros bits E; cbn in E.
  - injection E as <-. exists [], []. auto.
  - destruct v as [u|]; [|discriminate]. cbn in E. destruct (omap mval_bit l) as [r|]; [|discriminate]. cbn in E.
    injection E as <-. destruct Hv as (p & q & -> & -> & <-). destruct (IH r eq_refl) as (ps & qs & A & B & C & L0 & L1).
    exists (p :: ps), (q :: qs). split; [apply omap_cons; auto|]. split; [apply omap_cons; auto|].
    split; [cbn; rewrite C; auto|]. cbn. auto.
Qed.

Lemma word_xor p : forall q, length p = length q -> word_of_bits (bits_xor p q) = Z.lxor (word_of_bits p) (word_of_bits q).
Proof.
  induction p as [|a p IH]; intros [|b q] H; try discriminate; [reflexivity|]. injection H as H.
  cbn [bits_xor zip_with word_of_bits]. change (zip_with xorb p q) with (bits_xor p q). rewrite (IH q H).
  apply Z.bits_inj'. intros n Hn. destruct (Z.eq_dec n 0) as [->|Hz].
  - rewrite Z.lxor_spec. rewrite !(Z.add_comm (Z.b2z _)), !Z.testbit_0_r. reflexivity.
  - replace n with (Z.succ (n - 1)) by lia. rewrite Z.lxor_spec, !(Z.add_comm (Z.b2z _)), !Z.testbit_succ_r by lia.
    rewrite Z.lxor_spec. reflexivity.
Qed.

(** ** Local gates *)

Lemma mixed_local w g vs v x0 x1 d :
  mixed_is_interactive g = false -> match g with MGBase (GInput | GConstant _) => False | _ => True end ->
  msem w d g vs = Some v -> all3 mrel vs x0 x1 ->
  exists r0 r1, mixed_eval_ni w 0 g x0 = Some r0 /\ mixed_eval_ni w 1 g x1 = Some r1 /\ mrel v r0 r1.
Proof.
  intros Hi Hk HV HA.
  assert (L1 : forall a, vs = [a] -> exists y0 y1, x0 = [y0] /\ x1 = [y1] /\ mrel a y0 y1).
  { intros a ->. destruct (all3_cons_inv _ _ _ _ _ HA) as (y0 & y1 & r0 & r1 & -> & -> & X & HA').
    apply all3_nil_inv in HA'. destruct HA' as [-> ->]. eauto. }
  assert (L2 : forall a b, vs = [a; b] -> exists y0 y1 z0 z1, x0 = [y0; z0] /\ x1 = [y1; z1] /\ mrel a y0 y1 /\ mrel b z0 z1).
  { intros a b ->. destruct (all3_cons_inv _ _ _ _ _ HA) as (y0 & y1 & r0 & r1 & -> & -> & X & HA').
    destruct (all3_cons_inv _ _ _ _ _ HA') as (z0 & z1 & s0 & s1 & -> & -> & Y & HA'').
    apply all3_nil_inv in HA''. destruct HA'' as [-> ->]. exists y0, y1, z0, z1. auto. }
  destruct g as [b|b|b|b].
  - destruct b; try contradiction; try discriminate;
      (destruct vs as [|a [|? ?]]; try discriminate; injection HV as <-;
       destruct (L1 a eq_refl) as (y0 & y1 & -> & -> & R); exists y0, y1; auto).
  - destruct b as [bb| | |]; try discriminate.
    + destruct vs as [|[x|] [|[y|] [|? ?]]]; try discriminate. injection HV as <-.
      destruct (L2 _ _ eq_refl) as (y0 & y1 & z0 & z1 & -> & -> & (p & q & -> & -> & <-) & (p' & q' & -> & -> & <-)).
      exists (MBool (xorb p p')), (MBool (xorb q q')). split; auto. split; auto. exists (xorb p p'), (xorb q q').
      repeat split; auto. destruct p, q, p', q'; auto.
    + destruct vs as [|[x|] [|? ?]]; try discriminate. injection HV as <-.
      destruct (L1 _ eq_refl) as (y0 & y1 & -> & -> & (p & q & -> & -> & <-)).
      exists (MBool (negb p)), (MBool q). split; auto. split; auto. exists (negb p), q. repeat split; auto. destruct p, q; auto.
  - destruct b as [bb| | |]; try discriminate.
    + destruct vs as [|[|a0 a1] [|[|b0 b1] [|? ?]]]; try discriminate. injection HV as <-.
      destruct (L2 _ _ eq_refl) as (y0 & y1 & z0 & z1 & -> & -> & (-> & ->) & (-> & ->)).
      eexists _, _. split; [reflexivity|]. split; [reflexivity|]. split; reflexivity.
    + destruct vs as [|[|a0 a1] [|[|b0 b1] [|? ?]]]; try discriminate. injection HV as <-.
      destruct (L2 _ _ eq_refl) as (y0 & y1 & z0 & z1 & -> & -> & (-> & ->) & (-> & ->)).
      eexists _, _. split; [reflexivity|]. split; [reflexivity|]. split; reflexivity.
  - destruct b as [| | |i|]; try discriminate.
    + destruct vs as [|[|a0 a1] [|[|b0 b1] [|? ?]]]; try discriminate. injection HV as <-.
      destruct (L2 _ _ eq_refl) as (y0 & y1 & z0 & z1 & -> & -> & (-> & ->) & (-> & ->)).
      eexists _, _. split; [reflexivity|]. split; [reflexivity|]. split; reflexivity.
    + destruct vs as [|[|a0 a1] [|? ?]]; try discriminate. cbn [msem] in HV. destruct (i <? w) eqn:Ei; [|discriminate].
      injection HV as <-. destruct (L1 _ eq_refl) as (y0 & y1 & -> & -> & (-> & ->)).
      cbn [mixed_eval_ni]. unfold get_bit. rewrite Ei. cbn [obind]. eexists _, _. split; [reflexivity|]. split; [reflexivity|].
      eexists _, _. eauto.
Qed.

(** ** One interactive layer *)

(** The AND pairs, Mul pairs and conversion gates of a list of gates with values. *)
Inductive streams (w : nat) (d : cdata) : list mixed_gate -> list mval -> list mixed -> list mixed ->
  list (bool * bool) -> list (bool * bool) -> list (Z * Z) -> list (Z * Z) ->
  list conv_gate -> list mixed -> list mixed -> list mval -> Prop :=
| st_nil : streams w d [] [] [] [] [] [] [] [] [] [] [] []
| st_and gs vs i0 i1 pb0 pb1 pa0 pa1 cs ci0 ci1 cv x0 y0 x1 y1 :
    streams w d gs vs i0 i1 pb0 pb1 pa0 pa1 cs ci0 ci1 cv ->
    streams w d (MGBool BAnd :: gs) (VB (xorb x0 x1 && xorb y0 y1) :: vs)
      (MBool x0 :: MBool y0 :: i0) (MBool x1 :: MBool y1 :: i1)
      ((x0, y0) :: pb0) ((x1, y1) :: pb1) pa0 pa1 cs ci0 ci1 cv
| st_mul gs vs i0 i1 pb0 pb1 pa0 pa1 cs ci0 ci1 cv x0 y0 x1 y1 :
    streams w d gs vs i0 i1 pb0 pb1 pa0 pa1 cs ci0 ci1 cv ->
    streams w d (MGArith AMul :: gs) (VP (((x0 + x1) * (y0 + y1)) mod 2 ^ Z.of_nat w)%Z 0 :: vs)
      (MArith x0 :: MArith y0 :: i0) (MArith x1 :: MArith y1 :: i1)
      pb0 pb1 ((x0, y0) :: pa0) ((x1, y1) :: pa1) cs ci0 ci1 cv
| st_conv gs vs i0 i1 pb0 pb1 pa0 pa1 cs ci0 ci1 cv c o0 o1 ps v :
    streams w d gs vs i0 i1 pb0 pb1 pa0 pa1 cs ci0 ci1 cv ->
    mixed_is_interactive (MGConv c) = true ->
    all3 mrel ps o0 o1 -> length ps = mixed_input_size w (MGConv c) -> msem w d (MGConv c) ps = Some v ->
    streams w d (MGConv c :: gs) (v :: vs) (o0 ++ i0) (o1 ++ i1)
      pb0 pb1 pa0 pa1 (c :: cs) (o0 ++ ci0) (o1 ++ ci1) (v :: cv).

Lemma streams_split w d gs vs i0 i1 pb0 pb1 pa0 pa1 cs ci0 ci1 cv :
  streams w d gs vs i0 i1 pb0 pb1 pa0 pa1 cs ci0 ci1 cv ->
  mixed_split w gs i0 = Some (MSplit (repeat BAnd (length pb0)) (flat_pairs pb0)
     (repeat AMul (length pa0)) (flat_zpairs pa0) cs ci0) /\
  mixed_split w gs i1 = Some (MSplit (repeat BAnd (length pb1)) (flat_pairs pb1)
     (repeat AMul (length pa1)) (flat_zpairs pa1) cs ci1) /\
  length pb0 = length pb1 /\ length pa0 = length pa1.
Proof.
  induction 1 as [|? ? ? ? ? ? ? ? ? ? ? ? ? ? ? ? H (A & B & C & D)|? ? ? ? ? ? ? ? ? ? ? ? ? ? ? ? H (A & B & C & D)
    |gs vs i0 i1 pb0 pb1 pa0 pa1 cs ci0 ci1 cv c o0 o1 ps v H (A & B & C & D) Hi HA HL HV].
  - auto.
  - cbn [mixed_split mixed_input_size bool_input_size firstn skipn omap unwrap_bool obind]. rewrite A, B. cbn. auto.
  - cbn [mixed_split mixed_input_size arith_input_size firstn skipn omap unwrap_arith obind]. rewrite A, B. cbn. auto.
  - destruct (all3_length _ _ _ _ HA) as [L0 L1]. cbn [mixed_split].
    rewrite !firstn_app_exact, !skipn_app_exact by lia. rewrite A, B. cbn [obind]. auto.
Qed.

(** The conversions of the layer alone. *)
Lemma streams_eval w d party gs vs i0 i1 pb0 pb1 pa0 pa1 cs ci0 ci1 cv :
  streams w d gs vs i0 i1 pb0 pb1 pa0 pa1 cs ci0 ci1 cv ->
  forall bs as_ own other ownb otherb sba co,
  length bs = length pb0 -> length as_ = length pa0 ->
  mixed_eval_loop w party (map MGConv cs) [] [] own other ownb otherb sba = Some co ->
  exists out, mixed_eval_loop w party gs bs as_ own other ownb otherb sba = Some out.
Proof.
  induction 1 as [|? ? ? ? ? ? ? ? ? ? ? ? ? ? ? ? H IH|? ? ? ? ? ? ? ? ? ? ? ? ? ? ? ? H IH
    |gs vs i0 i1 pb0 pb1 pa0 pa1 cs ci0 ci1 cv c o0 o1 ps v H IH Hi HA HL HV];
    intros bs as_ own other ownb otherb sba co Lb La E.
  - exists []. reflexivity.
  - destruct bs as [|b bs]; [discriminate|]. injection Lb as Lb. cbn [mixed_eval_loop].
    destruct (IH bs as_ own other ownb otherb sba co Lb La E) as (out & ->). cbn [obind]. eauto.
  - destruct as_ as [|a as_]; [discriminate|]. injection La as La. cbn [mixed_eval_loop].
    destruct (IH bs as_ own other ownb otherb sba co Lb La E) as (out & ->). cbn [obind]. eauto.
  - destruct c as [| | |i|]; try discriminate; cbn [map mixed_eval_loop] in *.
    + destruct own as [|a own]; [discriminate|].
      destruct (mixed_eval_loop w party (map MGConv cs) [] [] own other ownb otherb sba) as [co'|] eqn:E'; [|discriminate].
      destruct (IH bs as_ own other ownb otherb sba co' Lb La E') as (out & ->). cbn [obind]. eauto.
    + destruct other as [|a other]; [discriminate|].
      destruct (mixed_eval_loop w party (map MGConv cs) [] [] own other ownb otherb sba) as [co'|] eqn:E'; [|discriminate].
      destruct (IH bs as_ own other ownb otherb sba co' Lb La E') as (out & ->). cbn [obind]. eauto.
    + destruct ownb as [|a ownb]; [discriminate|]. destruct otherb as [|b otherb]; [discriminate|].
      destruct (b2a_eval w party (Z.lxor a b) sba) as [x|]; [|discriminate]. cbn [obind] in *.
      destruct (mixed_eval_loop w party (map MGConv cs) [] [] own other ownb otherb sba) as [co'|] eqn:E'; [|discriminate].
      destruct (IH bs as_ own other ownb otherb sba co' Lb La E') as (out & ->). cbn [obind]. eauto.
Qed.

Lemma streams_rel w d gs vs i0 i1 pb0 pb1 pa0 pa1 cs ci0 ci1 cv :
  streams w d gs vs i0 i1 pb0 pb1 pa0 pa1 cs ci0 ci1 cv ->
  forall bs0 bs1 as0 own0 oth0 ob0 otb0 sba0 own1 oth1 ob1 otb1 sba1 co0 co1 out0 out1,
  length bs0 = length pb0 -> length bs1 = length pb0 -> bits_xor bs0 bs1 = and_of_pairs pb0 pb1 ->
  as0 = mul_of_pairs (Z.of_nat w) pa0 pa1 ->
  mixed_eval_loop w 0 (map MGConv cs) [] [] own0 oth0 ob0 otb0 sba0 = Some co0 ->
  mixed_eval_loop w 1 (map MGConv cs) [] [] own1 oth1 ob1 otb1 sba1 = Some co1 ->
  all3 mrel cv co0 co1 ->
  mixed_eval_loop w 0 gs bs0 as0 own0 oth0 ob0 otb0 sba0 = Some out0 ->
  mixed_eval_loop w 1 gs bs1 (repeat 0%Z (length pa1)) own1 oth1 ob1 otb1 sba1 = Some out1 ->
  all3 mrel vs out0 out1.
Proof.
  induction 1 as [|gs vs i0 i1 pb0 pb1 pa0 pa1 cs ci0 ci1 cv x0 y0 x1 y1 H IH|gs vs i0 i1 pb0 pb1 pa0 pa1 cs ci0 ci1 cv x0 y0 x1 y1 H IH
    |gs vs i0 i1 pb0 pb1 pa0 pa1 cs ci0 ci1 cv c o0 o1 ps v H IH Hi HA HL HV];
    intros bs0 bs1 as0 own0 oth0 ob0 otb0 sba0 own1 oth1 ob1 otb1 sba1 co0 co1 out0 out1 L0 L1 HX HM E0 E1 HC F0 F1.
  - cbn in F0, F1. injection F0 as <-. injection F1 as <-. constructor.
  - destruct bs0 as [|b0 bs0]; [discriminate|]. destruct bs1 as [|b1 bs1]; [discriminate|].
    injection L0 as L0. injection L1 as L1. cbn [mixed_eval_loop] in F0, F1.
    destruct (mixed_eval_loop w 0 gs bs0 as0 own0 oth0 ob0 otb0 sba0) as [r0|] eqn:G0; [|discriminate].
    destruct (mixed_eval_loop w 1 gs bs1 _ own1 oth1 ob1 otb1 sba1) as [r1|] eqn:G1; [|discriminate].
    cbn [obind] in F0, F1. injection F0 as <-. injection F1 as <-.
    unfold bits_xor, and_of_pairs in HX. cbn in HX. injection HX as HX1 HX2. constructor.
    + exists b0, b1. auto.
    + apply (IH bs0 bs1 as0 own0 oth0 ob0 otb0 sba0 own1 oth1 ob1 otb1 sba1 co0 co1 r0 r1); auto.
  - cbn [mul_of_pairs zip_with fst snd] in HM. subst as0. unfold mul_of_pairs in F0.
    cbn [zip_with fst snd length repeat mixed_eval_loop] in F0, F1. fold (mul_of_pairs (Z.of_nat w) pa0 pa1) in F0.
    destruct (mixed_eval_loop w 0 gs bs0 _ own0 oth0 ob0 otb0 sba0) as [r0|] eqn:G0; [|discriminate].
    destruct (mixed_eval_loop w 1 gs bs1 _ own1 oth1 ob1 otb1 sba1) as [r1|] eqn:G1; [|discriminate].
    cbn [obind] in F0, F1. injection F0 as <-. injection F1 as <-. constructor.
    + split; reflexivity.
    + apply (IH bs0 bs1 (mul_of_pairs (Z.of_nat w) pa0 pa1) own0 oth0 ob0 otb0 sba0 own1 oth1 ob1 otb1 sba1 co0 co1 r0 r1); auto.
  - destruct c as [| | |i|]; try discriminate; cbn [map mixed_eval_loop] in *.
    + destruct own0 as [|a0 own0]; [discriminate|]. destruct own1 as [|a1 own1]; [discriminate|].
      destruct (mixed_eval_loop w 0 (map MGConv cs) [] [] own0 oth0 ob0 otb0 sba0) as [c0|] eqn:E0'; [|discriminate].
      destruct (mixed_eval_loop w 1 (map MGConv cs) [] [] own1 oth1 ob1 otb1 sba1) as [c1|] eqn:E1'; [|discriminate].
      destruct (mixed_eval_loop w 0 gs bs0 as0 own0 oth0 ob0 otb0 sba0) as [r0|] eqn:G0; [|discriminate].
      destruct (mixed_eval_loop w 1 gs bs1 _ own1 oth1 ob1 otb1 sba1) as [r1|] eqn:G1; [|discriminate].
      cbn [obind] in *. injection E0 as <-. injection E1 as <-. injection F0 as <-. injection F1 as <-.
      inversion HC; subst. constructor; auto.
      apply (IH bs0 bs1 (mul_of_pairs (Z.of_nat w) pa0 pa1) own0 oth0 ob0 otb0 sba0 own1 oth1 ob1 otb1 sba1 c0 c1 r0 r1); auto.
    + destruct oth0 as [|a0 oth0]; [discriminate|]. destruct oth1 as [|a1 oth1]; [discriminate|].
      destruct (mixed_eval_loop w 0 (map MGConv cs) [] [] own0 oth0 ob0 otb0 sba0) as [c0|] eqn:E0'; [|discriminate].
      destruct (mixed_eval_loop w 1 (map MGConv cs) [] [] own1 oth1 ob1 otb1 sba1) as [c1|] eqn:E1'; [|discriminate].
      destruct (mixed_eval_loop w 0 gs bs0 as0 own0 oth0 ob0 otb0 sba0) as [r0|] eqn:G0; [|discriminate].
      destruct (mixed_eval_loop w 1 gs bs1 _ own1 oth1 ob1 otb1 sba1) as [r1|] eqn:G1; [|discriminate].
      cbn [obind] in *. injection E0 as <-. injection E1 as <-. injection F0 as <-. injection F1 as <-.
      inversion HC; subst. constructor; auto.
      apply (IH bs0 bs1 (mul_of_pairs (Z.of_nat w) pa0 pa1) own0 oth0 ob0 otb0 sba0 own1 oth1 ob1 otb1 sba1 c0 c1 r0 r1); auto.
    + destruct ob0 as [|a0 ob0]; [discriminate|]. destruct otb0 as [|b0 otb0]; [discriminate|].
      destruct ob1 as [|a1 ob1]; [discriminate|]. destruct otb1 as [|b1 otb1]; [discriminate|].
      destruct (b2a_eval w 0 (Z.lxor a0 b0) sba0) as [z0|]; [|discriminate].
      destruct (b2a_eval w 1 (Z.lxor a1 b1) sba1) as [z1|]; [|discriminate]. cbn [obind] in *.
      destruct (mixed_eval_loop w 0 (map MGConv cs) [] [] own0 oth0 ob0 otb0 sba0) as [c0|] eqn:E0'; [|discriminate].
      destruct (mixed_eval_loop w 1 (map MGConv cs) [] [] own1 oth1 ob1 otb1 sba1) as [c1|] eqn:E1'; [|discriminate].
      destruct (mixed_eval_loop w 0 gs bs0 as0 own0 oth0 ob0 otb0 sba0) as [r0|] eqn:G0; [|discriminate].
      destruct (mixed_eval_loop w 1 gs bs1 _ own1 oth1 ob1 otb1 sba1) as [r1|] eqn:G1; [|discriminate].
      cbn [obind] in *. injection E0 as <-. injection E1 as <-. injection F0 as <-. injection F1 as <-.
      inversion HC; subst. constructor; auto.
      apply (IH bs0 bs1 (mul_of_pairs (Z.of_nat w) pa0 pa1) own0 oth0 ob0 otb0 sba0 own1 oth1 ob1 otb1 sba1 c0 c1 r0 r1); auto.
Qed.

(** The multiplications of a layer with zero triples. *)
Lemma zeros_iter n : amts_iter (amts_zeros n) = repeat (AT 0 0 0) n.
Proof. unfold amts_iter, amts_zeros. cbn [as_a as_b as_c]. induction n as [|n IH]; cbn in *; [reflexivity|]. rewrite IH. reflexivity. Qed.

Lemma wsub_0 z x : wsub z x 0 = (x mod 2 ^ z)%Z.
Proof. unfold wsub. rewrite Z.sub_0_r. reflexivity. Qed.

Lemma mul_zero_msg z party ps : forall k, length ps <= k ->
  arith_compute_msg z party (repeat AMul (length ps)) [] (flat_zpairs ps) (amts_zeros k) =
  Some (AMsg (map (fun p => snd p mod 2 ^ z)%Z ps) (map (fun p => fst p mod 2 ^ z)%Z ps), amts_zeros k).
Proof.
  intros k Hk. unfold arith_compute_msg. rewrite zeros_iter.
  assert (E : arith_msg_loop z (repeat AMul (length ps)) (repeat (AT 0 0 0) k) (flat_zpairs ps) =
    Some (map (fun p => fst p mod 2 ^ z)%Z ps, map (fun p => snd p mod 2 ^ z)%Z ps)).
  { revert k Hk. induction ps as [|[x y] ps IH]; intros [|k] Hk; cbn in Hk; try lia; try reflexivity.
    cbn [length repeat flat_zpairs flat_map app arith_msg_loop fst snd map at_a at_c].
    change (flat_map (fun p : Z * Z => [fst p; snd p]) ps) with (flat_zpairs ps). rewrite IH by lia. cbn [obind].
    rewrite !wsub_0. reflexivity. }
  rewrite E. reflexivity.
Qed.

Lemma zeros_remove k n : n <= k ->
  amts_remove_first (amts_zeros k) n = Some (amts_zeros (k - n), amts_zeros n).
Proof.
  intros H. assert (R : forall a b (x : Z), a <= b -> firstn a (repeat x b) = repeat x a /\ skipn a (repeat x b) = repeat x (b - a)).
  { intros a b x. revert b. induction a as [|a IH]; intros [|b] Hab; cbn; auto; try lia.
    destruct (IH b) as [-> ->]; auto. lia. }
  unfold amts_remove_first, amts_len, amts_zeros. cbn [as_a]. rewrite repeat_length.
  replace (n <=? k) with true by (symmetry; apply Nat.leb_le; auto).
  unfold amts_split_off_last, amts_len. cbn [as_a as_b as_c]. rewrite repeat_length.
  replace (k - n <=? k) with true by (symmetry; apply Nat.leb_le; lia).
  unfold vec_split_off. rewrite repeat_length. replace (k - (k - n)) with n by lia.
  replace (n <=? k) with true by (symmetry; apply Nat.leb_le; auto). cbn [obind].
  destruct (R n k 0%Z H) as [-> ->]. reflexivity.
Qed.

Lemma mul_zero_eval0 z ps0 ps1 : length ps0 = length ps1 -> (0 <= z)%Z ->
  arith_eval_loop z 0 (map (fun p => fst p mod 2 ^ z)%Z ps0) (map (fun p => snd p mod 2 ^ z)%Z ps0)
    (map (fun p => fst p mod 2 ^ z)%Z ps1) (map (fun p => snd p mod 2 ^ z)%Z ps1) (repeat (AT 0 0 0) (length ps0)) =
  mul_of_pairs z ps0 ps1.
Proof.
  intros HL Hz. revert ps1 HL. induction ps0 as [|[x0 y0] ps0 IH]; intros [|[x1 y1] ps1] HL; try discriminate; [reflexivity|].
  injection HL as HL. cbn [map length repeat arith_eval_loop fst snd at_a at_b at_c mul_of_pairs zip_with].
  f_equal; [|apply IH; auto]. unfold wadd, wmul. pose proof (pow2_nz z Hz) as Hp. cbn [Nat.eqb].
  repeat rewrite ?Z.mul_0_r, ?Z.mod_0_l, ?Z.add_0_l, ?Z.mod_mod by auto.
  rewrite <- !Z.add_mod by auto. rewrite <- Z.mul_mod by auto. reflexivity.
Qed.

Lemma mul_zero_eval1 z ps0 ps1 : length ps0 = length ps1 -> (0 <= z)%Z ->
  arith_eval_loop z 1 (map (fun p => fst p mod 2 ^ z)%Z ps1) (map (fun p => snd p mod 2 ^ z)%Z ps1)
    (map (fun p => fst p mod 2 ^ z)%Z ps0) (map (fun p => snd p mod 2 ^ z)%Z ps0) (repeat (AT 0 0 0) (length ps1)) =
  repeat 0%Z (length ps1).
Proof.
  intros HL Hz. revert ps0 HL. induction ps1 as [|[x0 y0] ps1 IH]; intros [|[x1 y1] ps0] HL; try discriminate; [reflexivity|].
  injection HL as HL. cbn [map length repeat arith_eval_loop fst snd at_a at_b at_c].
  f_equal; [|apply IH; auto]. unfold wadd, wmul.
  pose proof (pow2_nz z Hz) as Hp. cbn [Nat.eqb].
  repeat rewrite ?Z.mul_0_r, ?Z.mod_0_l, ?Z.add_0_l, ?Z.mod_mod by auto. reflexivity.
Qed.

(** Setup data of the conversion gates of a layer. *)
Definition data_ok (d : cdata) (cs : list conv_gate) (st0 st1 : msetup) : Prop :=
  (In CSnd cs \/ In CRcv cs -> (exists t, st_rand st0 = cd_rho0 d :: t) /\ (exists t, st_rand st1 = cd_rho1 d :: t)) /\
  (In CB2A cs -> (exists t, vec_pop (st_sb_bool st0) = Some (cd_r0 d, t)) /\
                 (exists t, vec_pop (st_sb_bool st1) = Some (cd_r1 d, t)) /\
                 st_sb_arith st0 = cd_a0 d /\ st_sb_arith st1 = cd_a1 d).

(** Conversion gates that may share a layer: one A2B or one B2A. *)
Inductive conv_shape (w : nat) (d : cdata) : list conv_gate -> list mixed -> list mixed -> list mval -> Prop :=
| cs_none : conv_shape w d [] [] [] []
| cs_sr x0 x1 v u : msem w d (MGConv CSnd) [VP x0 x1] = Some v -> msem w d (MGConv CRcv) [VP x0 x1] = Some u ->
    conv_shape w d [CSnd; CRcv] [MArith x0; MArith x0] [MArith x1; MArith x1] [v; u]
| cs_rs x0 x1 v u : msem w d (MGConv CSnd) [VP x0 x1] = Some v -> msem w d (MGConv CRcv) [VP x0 x1] = Some u ->
    conv_shape w d [CRcv; CSnd] [MArith x0; MArith x0] [MArith x1; MArith x1] [u; v]
| cs_b2a ps i0 i1 v : all3 mrel ps i0 i1 -> length ps = w -> msem w d (MGConv CB2A) ps = Some v ->
    conv_shape w d [CB2A] i0 i1 [v].

Lemma conv_ok w d cs ci0 ci1 cv st0 st1 : conv_shape w d cs ci0 ci1 cv -> data_ok d cs st0 st1 ->
  exists own0 res0 b0 s0 own1 res1 b1 s1 co0 co1,
    mixed_conv w cs ci0 (st_rand st0) (st_sb_bool st0) = Some (own0, res0, b0, s0) /\
    mixed_conv w cs ci1 (st_rand st1) (st_sb_bool st1) = Some (own1, res1, b1, s1) /\
    mixed_eval_loop w 0 (map MGConv cs) [] [] own0 res1 b0 b1 (st_sb_arith st0) = Some co0 /\
    mixed_eval_loop w 1 (map MGConv cs) [] [] own1 res0 b1 b0 (st_sb_arith st1) = Some co1 /\
    all3 mrel cv co0 co1.
Proof.
  intros HS (HA & HB). destruct HS as [|x0 x1 v u Hv Hu|x0 x1 v u Hv Hu|ps i0 i1 v HM HL HV].
  - exists [], [], [], (st_sb_bool st0), [], [], [], (st_sb_bool st1), [], []. cbn. repeat split; auto. constructor.
  - destruct HA as ((t0 & E0) & (t1 & E1)); [cbn; auto|]. rewrite E0, E1. cbn in Hv, Hu. injection Hv as <-. injection Hu as <-.
    eexists _, _, _, _, _, _, _, _, _, _. split; [reflexivity|]. split; [reflexivity|]. split; [reflexivity|]. split; [reflexivity|].
    repeat constructor.
  - destruct HA as ((t0 & E0) & (t1 & E1)); [cbn; auto|]. rewrite E0, E1. cbn in Hv, Hu. injection Hv as <-. injection Hu as <-.
    eexists _, _, _, _, _, _, _, _, _, _. split; [reflexivity|]. split; [reflexivity|]. split; [reflexivity|]. split; [reflexivity|].
    repeat constructor.
  - destruct HB as ((t0 & E0) & (t1 & E1) & A0 & A1); [cbn; auto|].
    cbn [msem] in HV. destruct (omap mval_bit ps) as [bits|] eqn:Eb; [|discriminate]. cbn [obind] in HV.
    assert (Lb : length bits = w) by (rewrite (omap_length _ _ _ Eb); auto).
    rewrite Lb, Nat.eqb_refl in HV. cbn [oassert obind] in HV.
    destruct (mrel_bits _ _ _ _ HM Eb) as (p & q & P & Q & X & L0 & L1).
    destruct (all3_length _ _ _ _ HM) as [LI0 LI1].
    set (t := Z.lxor (word_of_bits bits) (Z.lxor (cd_r0 d) (cd_r1 d))) in *.
    assert (T0 : Z.lxor (Z.lxor (word_of_bits p) (cd_r0 d)) (Z.lxor (word_of_bits q) (cd_r1 d)) = t).
    { unfold t. rewrite <- X, word_xor by lia. apply Z.bits_inj'. intros n Hn. rewrite !Z.lxor_spec.
      destruct (Z.testbit _ n), (Z.testbit _ n), (Z.testbit _ n), (Z.testbit _ n); reflexivity. }
    assert (T1 : Z.lxor (Z.lxor (word_of_bits q) (cd_r1 d)) (Z.lxor (word_of_bits p) (cd_r0 d)) = t) by (rewrite Z.lxor_comm; auto).
    destruct (b2a_eval w 0 t (cd_a0 d)) as [y0|] eqn:B0; [|discriminate].
    destruct (b2a_eval w 1 t (cd_a1 d)) as [y1|] eqn:B1; [|discriminate]. cbn [obind] in HV. injection HV as <-.
    exists [], [], [Z.lxor (word_of_bits p) (cd_r0 d)], t0, [], [], [Z.lxor (word_of_bits q) (cd_r1 d)], t1, [MArith y0], [MArith y1].
    cbn [mixed_conv map mixed_eval_loop]. rewrite !firstn_all2 by lia. rewrite P, Q. cbn [obind]. rewrite E0, E1. cbn [obind].
    rewrite T0, T1, A0, A1, B0, B1. cbn [obind].
    split; [reflexivity|]. split; [reflexivity|]. split; [reflexivity|]. split; [reflexivity|]. repeat constructor.
Qed.

Theorem mixed_layer_ok W w d gs vs i0 i1 pb0 pb1 pa0 pa1 cs ci0 ci1 cv st0 st1 so0 so1 : 0 < W ->
  streams w d gs vs i0 i1 pb0 pb1 pa0 pa1 cs ci0 ci1 cv -> conv_shape w d cs ci0 ci1 cv ->
  data_ok d cs st0 st1 -> base_setup_ok W (length gs) st0 st1 ->
  exists m0 m1 st0' st1' o0 o1 R0 R1,
    mixed_compute_msg W w 0 gs so0 i0 st0 = Some (m0, st0') /\
    mixed_compute_msg W w 1 gs so1 i1 st1 = Some (m1, st1') /\
    mixed_eval_int W w 0 gs so0 m0 m1 st0' = Some (o0, R0) /\
    mixed_eval_int W w 1 gs so1 m1 m0 st1' = Some (o1, R1) /\
    all3 mrel vs o0 o1.
Proof.
  intros HW HS HC HD ((m & h0 & h1 & Hm & W0 & W1 & HT) & (k0 & K0 & A0) & (k1 & K1 & A1)).
  destruct (streams_split _ _ _ _ _ _ _ _ _ _ _ _ _ _ HS) as (S0 & S1 & Lb & La).
  assert (Hn : length pb0 <= length gs /\ length pa0 <= length gs).
  { clear - HS. induction HS; cbn; lia. }
  destruct (bool_scalar_layer W pb0 pb1 (length pb0) m h0 h1 (st_bool st0) (st_bool st1) [] [] HW eq_refl (eq_sym Lb)
             ltac:(lia) W0 W1 HT)
    as (bm0 & bm1 & bo0 & bo1 & BR0 & BR1 & C0 & C1 & E0 & E1 & LO0 & LO1 & X & _).
  destruct (conv_ok _ _ _ _ _ _ _ _ HC HD) as (own0 & res0 & b0 & s0 & own1 & res1 & b1 & s1 & co0 & co1 & M0 & M1 & F0 & F1 & HR).
  assert (Hz : (0 <= Z.of_nat w)%Z) by lia.
  destruct (streams_eval w d 0 _ _ _ _ _ _ _ _ _ _ _ _ HS bo0 (mul_of_pairs (Z.of_nat w) pa0 pa1) _ _ _ _ _ _ LO0
    ltac:(unfold mul_of_pairs; rewrite zip_with_length; lia) F0) as (out0 & O0).
  destruct (streams_eval w d 1 _ _ _ _ _ _ _ _ _ _ _ _ HS bo1 (repeat 0%Z (length pa1)) _ _ _ _ _ _ LO1
    ltac:(rewrite repeat_length; lia) F1) as (out1 & O1).
  eexists _, _, _, _, _, _, _, _.
  split. { unfold mixed_compute_msg. rewrite S0. cbn [obind sp_bg sp_bi sp_ag sp_ai sp_cg sp_ci].
    rewrite C0. cbn [obind]. rewrite A0, mul_zero_msg by lia. cbn [obind]. rewrite M0. cbn [obind]. reflexivity. }
  split. { unfold mixed_compute_msg. rewrite S1. cbn [obind sp_bg sp_bi sp_ag sp_ai sp_cg sp_ci].
    rewrite <- Lb, C1. cbn [obind]. rewrite A1, mul_zero_msg by lia. cbn [obind]. rewrite M1. cbn [obind]. reflexivity. }
  unfold mixed_eval_int. cbn [mm_bool mm_arith mm_b2a mm_reshares mm_own st_bool st_arith st_sb_arith st_sb_bool st_rand].
  change (bool_eval_int W 0 [] [] bm0 bm1) with (bool_eval_int W 0 (repeat BAnd (length pb0)) [] bm0 bm1).
  change (bool_eval_int W 1 [] [] bm1 bm0) with (bool_eval_int W 1 (repeat BAnd (length pb0)) [] bm1 bm0).
  rewrite E0, E1. cbn [obind]. unfold arith_eval_int. cbn [am_e am_d]. rewrite !map_length, !zeros_remove by lia. cbn [obind].
  rewrite !zeros_iter, mul_zero_eval0, mul_zero_eval1 by auto. cbn [obind]. rewrite O0, O1. cbn [obind].
  split; [reflexivity|]. split; [reflexivity|].
  exact (streams_rel _ _ _ _ _ _ _ _ _ _ _ _ _ _ HS _ _ _ _ _ _ _ _ _ _ _ _ _ _ _ _ _ LO0 LO1 X eq_refl F0 F1 HR O0 O1).
Qed.
