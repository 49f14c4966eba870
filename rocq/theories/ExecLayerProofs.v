(** Executor soundness when the setup data needed by a layer depends on its gates. *)
From Coq Require Import List Bool Arith Lia.
Require Import Verif.Prelude Verif.PreludeProofs Verif.GateModel Verif.ProtocolModel Verif.CircuitModel
  Verif.ExecModel Verif.ExecSpec Verif.ExecProofs.
Import ListNotations.

Definition serves_l {Sv St : Type} (req : Sv -> nat -> option (St * Sv)) (ok : elayer -> St -> St -> Prop)
  (J : list elayer -> Sv -> Sv -> Prop) : Prop :=
  forall l ls s0 s1, J (l :: ls) s0 s1 ->
  exists st0 st1 s0' s1', req s0 (el_int_count l) = Some (st0, s0') /\ req s1 (el_int_count l) = Some (st1, s1') /\
    ok l st0 st1 /\ J ls s0' s1'.

Definition int_layers (ls : list elayer) : list elayer := filter (fun l => negb (el_int_count l =? 0)) ls.

Section Layered.
Context {pr : protocol}.
Variable ops : gate_ops (p_plain pr) (p_gate pr).
Variable ec : ecirc (p_gate pr).
Variable R I : gid -> cell pr -> cell pr -> Prop.
Hypothesis Rkind : forall g c0 c1, R g c0 c1 -> kind_ok ec g c0 /\ kind_ok ec g c1.
Context {Sv : Type}.
Variable req : Sv -> nat -> option (p_setup pr * Sv).
Variable ok : elayer -> p_setup pr -> p_setup pr -> Prop.
Variable J : list elayer -> Sv -> Sv -> Prop.
Hypothesis HJ : serves_l req ok J.
Variables i0 i1 : istore pr.
Hypothesis HN : ni_sound ops ec R I i0 i1.

Lemma layers_sound_l : forall ls Live Todo go0 go1 s0 s1,
  (forall l, In l ls -> int_sound ec R I (fun _ => ok l) l /\ parents_kind ec l /\
     (p_simd_support pr = false -> el_int (el_simd l) = [])) ->
  sched_ok ops ec Live Todo ls -> EInv ec R I Live Todo go0 go1 -> J (int_layers ls) s0 s1 ->
  exists go0' go1' s0' s1' Live' Todo',
    ofold (ex2_layer req ec i0 i1) ((go0, s0), (go1, s1)) ls = Some ((go0', s0'), (go1', s1')) /\
    EInv ec R I Live' Todo' go0' go1' /\ (forall o, In o (ec_outputs ec) -> Live' (0, o)) /\ J [] s0' s1'.
Proof.
  induction ls as [|l ls IH]; intros Live Todo go0 go1 s0 s1 HI HS E Hj.
  - exists go0, go1, s0, s1, Live, Todo. simpl in *. auto.
  - destruct HS as [HL HS]. destruct (HI l) as (A & B & C); [simpl; auto|].
    set (J1 := fun (ns : list nat) a b => (ns = [] /\ J (int_layers ls) a b) \/
                 (ns = [el_int_count l] /\ J (l :: int_layers ls) a b)).
    assert (HJ1 : serves req (fun _ => ok l) J1).
    { intros n ns a b [[Hn _]|[Hn Hab]]; [discriminate|]. injection Hn as -> ->.
      destruct (HJ _ _ _ _ Hab) as (st0 & st1 & a' & b' & Q0 & Q1 & Q2 & Q3).
      exists st0, st1, a', b'. repeat split; auto. left. auto. }
    destruct (ex2_layer_sound ops ec R I Rkind req (fun _ => ok l) J1 HJ1 i0 i1 l Live Todo go0 go1 s0 s1 []
                HN A B C HL E) as (a & b & s0' & s1' & P & E' & Hj').
    { intros Hz. left. split; auto. unfold int_layers in *. cbn [filter] in Hj. rewrite Hz in Hj. exact Hj. }
    { intros Hz. right. split; auto. unfold int_layers in *. cbn [filter] in Hj.
      destruct (Nat.eqb_spec (el_int_count l) 0); [contradiction|]. exact Hj. }
    destruct Hj' as [[_ Hj']|[Hx _]]; [|discriminate].
    destruct (IH _ _ a b s0' s1' (fun l' Hl' => HI l' (or_intror Hl')) HS E' Hj')
      as (a' & b' & t0 & t1 & Lv & Td & Q & E'' & HO & Hj'').
    exists a', b', t0, t1, Lv, Td. cbn [ofold]. rewrite P. cbn [obind]. auto.
Qed.

Theorem run_sound_l Live Todo go0 go1 s0 s1 :
  istore_len i0 = length (ec_inputs ec) -> istore_len i1 = length (ec_inputs ec) ->
  (forall l, In l (ec_layers ec) -> int_sound ec R I (fun _ => ok l) l /\ parents_kind ec l /\
     (p_simd_support pr = false -> el_int (el_simd l) = [])) ->
  sched_ok ops ec Live Todo (ec_layers ec) -> EInv ec R I Live Todo go0 go1 ->
  J (int_layers (ec_layers ec)) s0 s1 ->
  exists o0 o1 go0' go1' s0' s1',
    ex2_run req ec i0 i1 ((go0, s0), (go1, s1)) = Some (o0, o1, ((go0', s0'), (go1', s1'))) /\
    match ec_simd ec 0, o0, o1 with
    | None, IScalar l0, IScalar l1 => all3 (RS R) (map (pair 0) (ec_outputs ec)) l0 l1
    | Some _, ISimd l0, ISimd l1 => all3 (RD R) (map (pair 0) (ec_outputs ec)) l0 l1
    | _, _, _ => False
    end /\ J [] s0' s1'.
Proof.
  intros L0 L1 HI HS E Hj.
  destruct (layers_sound_l (ec_layers ec) Live Todo go0 go1 s0 s1 HI HS E Hj)
    as (a & b & t0 & t1 & Lv & Td & Q & E' & HO & Hj').
  destruct (outputs_sound ec R I Rkind Lv Td a b E' HO) as (o0 & o1 & A & B & C).
  exists o0, o1, a, b, t0, t1.
  unfold ex2_run. rewrite L0, L1, Nat.eqb_refl. cbn [oassert obind]. rewrite Q. cbn [obind].
  rewrite A, B. cbn [obind]. auto.
Qed.
End Layered.
