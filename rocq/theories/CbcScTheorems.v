(** C72: the circuit of the AES-CBC example with sub-circuit calls. *)
From Coq Require Import List Bool Arith Lia.
Require Import Verif.Prelude Verif.PreludeProofs Verif.GateModel Verif.CircuitModel Verif.CircuitSpec Verif.CircuitProofs Verif.CircuitProofs2 Verif.CircuitProofs3
  Verif.BoolGmwModel Verif.BoolGmwSpec Verif.InlineModel Verif.BristolSpec Verif.BristolProofs
  Verif.ProtocolModel Verif.ExecCircuitSpec Verif.ExecModel Verif.ExecSpec Verif.ExecBoolSpec Verif.ExecTheorems
  Verif.BristolTheorems Verif.ConnModel Verif.ConnSpec Verif.BuilderModel Verif.BuilderSpec Verif.BuilderProofs Verif.BuilderProofs2
  Verif.CbcModel Verif.CbcSpec Verif.CbcProofs Verif.CbcTheorems
  Verif.MultiModel Verif.MultiSpec Verif.MultiTheorems Verif.MultiExecSpec Verif.MultiExecProofs Verif.MultiExecProofs2 Verif.MultiExecTheorems
  Verif.CbcScModel Verif.CbcScProofs Verif.CbcScProofs2 Verif.CbcScProofs3 Verif.CbcScProofs4.
Import ListNotations.

Lemma map_seq_eq {A} (f g : nat -> A) a b len : (forall i, i < len -> f (a + i) = g (b + i)) -> map f (seq a len) = map g (seq b len).
Proof.
  revert a b. induction len as [|len IH]; intros a b H; cbn [seq map]; auto. f_equal.
  - specialize (H 0). rewrite !Nat.add_0_r in H. apply H. lia.
  - apply IH. intros i Hi. specialize (H (S i)). rewrite !Nat.add_succ_r in H. apply H. lia.
Qed.
Lemma app_split {A} : forall (a a' r r' : list A), length a = length a' -> a ++ r = a' ++ r' -> a = a' /\ r = r'.
Proof.
  induction a as [|x a IH]; intros [|y a'] r r' HL EQ; try discriminate; auto.
  injection HL as HL. injection EQ as <- EQ. destruct (IH a' r r' HL EQ) as [-> ->]. auto.
Qed.

Section Run.
Variables (n : nat) (b : br_circuit) (E : list bool -> list bool -> list bool).
Hypothesis Hn : 0 < n.
Hypothesis H1 : br_header_ok b.
Hypothesis H2 : br_wires_ok b.
Hypothesis H3 : br_no_self b.
Hypothesis Hin : br_total_in b = n + n.
Hypothesis Hout : br_total_out b = n.
Hypothesis HE : forall x k, length x = n -> length k = n -> br_eval b (x ++ k) = Some (E x k).

Lemma run_cbc_sc W : 0 < W ->
  exists sub, from_bristol bool_ops bool_from_br b LoadSub = Some (Some sub) /\
  forall k, exists c cn left, cbc_sc_circuit_n n sub (n * k) =
      Some (MC (c :: match k with 0 => [] | _ => [sub] end) (0 :: repeat 1 k) cn, left) /\
    left = match k with 0 => sub | _ => c_new end /\
    c_count c = n + n + n * k + (n + n + n) * k /\
    forall imax perm, c_count c <= imax -> c_count sub <= imax -> rearranges perm ->
    exists ec, ec_of_mc bool_ops imax (MC (c :: match k with 0 => [] | _ => [sub] end) (0 :: repeat 1 k) cn) perm = Some ec /\
    forall key iv blocks, length key = n -> length iv = n -> length blocks = k -> Forall (fun l => length l = n) blocks ->
    forall (Sv : Type) (req : Sv -> nat -> option (mul_triples * Sv)) J,
    serves req (bool_setup_ok W) J ->
    forall (i0 i1 : istore (bool_gmw W)), shares_of W None i0 i1 (lane1 (cbc_input key iv (concat blocks))) ->
    forall s0 s1 rest, J (requests ec ++ rest) s0 s1 ->
    exists o0 o1 st',
      ex2_run (pr:=bool_gmw W) req ec i0 i1
        ((go_init (pr:=bool_gmw W) ec, s0), (go_init (pr:=bool_gmw W) ec, s1)) = Some (o0, o1, st') /\
      shares_of W None o0 o1 (lane1 (concat (cbc_blocks E key iv blocks))).
Proof.
  intros HW. destruct (load_cipher n b E Hn H1 H2 H3 Hin Hout HE) as (sub & Es & Hsh & Hso & HV). exists sub. split; auto. intros k.
  destruct (bristol_scouts b sub Es) as (o & Ho & Hoc). rewrite Hso in Ho, Hoc.
  assert (Hsi : c_scins sub = seq 0 (n + n)) by exact (bs_in _ _ _ Hsh).
  set (B := n + n + n * k). assert (HB : n <= B) by (unfold B; lia).
  destruct (build_main n B o sub E Hn HB Hsi Ho k eq_refl) as (c & cn & os & Eb & Bc & Hgs & Hci & Hco & Hcs & Hcn & V).
  assert (Hcount : c_count c = xat n B k) by (apply (count_main n k c Hgs)).
  assert (Em : fst (b_into (BD [c; sub] (0 :: repeat 1 k) cn)) = MC (c :: match k with 0 => [] | _ => [sub] end) (0 :: repeat 1 k) cn)
    by (rewrite into_cells; destruct k; reflexivity).
  exists c, cn, (match k with 0 => sub | _ => c_new end).
  split; [unfold cbc_sc_circuit_n; rewrite Eb; cbn [obind]; rewrite into_cells; destruct k; reflexivity|].
  split; [reflexivity|]. split; [exact Hcount|]. intros imax perm Hi1 Hi2 HPm. rewrite <- Em. rewrite Hcount in Hi1. rewrite Hoc in Hi2.
  pose proof (cbc_program n k o sub c cn Hn Hsh Hoc Bc Hgs Hcs Hcn W imax Hi1 Hi2) as HP.
  destruct (C55_calls_as_inlined_partial W imax _ _ _ None perm HW HP HPm) as (ec & Eec & Hshp & HX).
  exists ec. split; auto.
  intros key iv blocks Lk Li Lb HF Sv req J HJ i0 i1 Hs01 s0 s1 rest Hj.
  assert (Lc : length (concat blocks) = n * k).
  { rewrite <- Lb. clear -HF. induction HF as [|l ls Hl HF IH]; [cbn; lia|]. cbn [concat length]. rewrite app_length, IH, Hl. lia. }
  assert (Ll : length (cbc_input key iv (concat blocks)) = B) by (unfold cbc_input, B; rewrite !app_length; lia).
  assert (Hei : ec_inputs ec = c_inputs c).
  { unfold ec_of_mc in Eec. rewrite into_get in Eec. cbn [nth_error obind] in Eec.
    destruct (mc_layers bool_ops imax (fst (b_into (BD [c; sub] (0 :: repeat 1 k) cn))) perm); [|discriminate]. cbn [obind] in Eec. injection Eec as <-. reflexivity. }
  assert (Hlen1 : length (lane1 (cbc_input key iv (concat blocks))) = length (ec_inputs ec)) by (unfold lane1; rewrite map_length, Hei, Hci, seq_length; auto).
  destruct (HX Sv req J HJ i0 i1 _ Hs01 Hlen1 _ _ s0 s1 rest Hshp Hshp Hj)
    as (v & o0 & o1 & go0' & go1' & s0' & s1' & Hv & Hrun & Hres & _).
  exists o0, o1, ((go0', s0'), (go1', s1')). split; auto.
  destruct (C55_inlined_is_executable W imax _ _ _ None HW HP) as (_ & _ & _ & Hsimd & c0 & Hc0 & Ei & Eo).
  rewrite into_get in Hc0. cbn [nth_error] in Hc0. injection Hc0 as <-. rewrite Eo, Hco in Hres.
  pose proof HP as [P1 P2 P3 P4 P5 P6]. pose proof (po_base _ _ _ _ P6) as P7.
  destruct (flat_spec W _ _ _ None P1 P2 P3 P5 P7) as (_ & _ & _ & Eg & _).
  set (cl := c :: repeat sub k) in *. set (h := all_wires n (n + n + n * k) o k) in *. set (fl := inline_all bool_ops cl h) in *.
  assert (Hg0 : forall g, g < B -> nth_error (c_gates fl) g = Some (BBase GInput)).
  { intros g Hg. rewrite Eg. unfold cl. cbn [map concat]. rewrite Hgs, <- app_assoc, nth_error_app1 by (rewrite repeat_length; auto).
    rewrite (nth_error_nth' _ (BBase GInput)) by (rewrite repeat_length; auto). f_equal. apply nth_repeat. }
  assert (HcB : B <= c_count fl).
  { unfold c_count. rewrite Eg. unfold cl. cbn [map concat]. rewrite Hgs, !app_length, repeat_length. lia. }
  pose proof (plain_inputs fl B (cbc_input key iv (concat blocks)) v Hsimd ltac:(rewrite Ei; exact Hci) HcB Hg0 Ll Hv) as Hins.
  rewrite Ei, Hci in Hins.
  set (w := fun j g : nat => nth 0 (v (flat_id cl (j, g))) false).
  assert (Ew : forall g, w 0 g = nth 0 (v g) false).
  { intros g. unfold w. rewrite (flat_main_id W _ h cl None P1 P7). reflexivity. }
  assert (Hins' : map (w 0) (seq 0 B) = cbc_input key iv (concat blocks)) by (rewrite <- Hins; apply map_ext; auto).
  assert (Hk0 : bval c (w 0)) by exact (prog_valued W imax _ cl h HP HW _ v Hv 0 c eq_refl).
  assert (Hwire : forall i p t, i < k -> wire_at n k o i p t -> w (fst t) (snd t) = w (fst p) (snd p)).
  { intros i p t Hi Ht. apply (prog_wire W imax _ cl h HP HW _ v Hv). apply (in_all n k o sub Hn Hoc). exists i. auto. }
  assert (Hcall : forall j, j < k -> map (w 0) (seq (xat n B j + n) n) = E (map (w 0) (seq (xat n B j) n)) (map (w 0) (seq 0 n))).
  { intros j Hjk. assert (Hkj : nth_error cl (S j) = Some sub) by (apply (get_sub k sub c); auto).
    pose proof (prog_valued W imax _ cl h HP HW _ v Hv (S j) sub Hkj) as Hvs. fold w in Hvs. change (bval sub (w (S j))) in Hvs.
    rewrite <- (HV (map (w 0) (seq (xat n B j) n)) (map (w 0) (seq 0 n)) ltac:(rewrite map_length, seq_length; auto) ltac:(rewrite map_length, seq_length; auto) (w (S j)) Hvs).
    - rewrite Ho. apply map_seq_eq. intros i Hi. exact (Hwire j _ _ Hjk (wa_back n k o j i Hi)).
    - rewrite Hsi, seq_app, map_app. f_equal; apply map_seq_eq; intros i Hi; cbn [Nat.add].
      + exact (Hwire j _ _ Hjk (wa_block n k o j i Hi)).
      + exact (Hwire j _ _ Hjk (wa_key n k o j i Hi)). }
  assert (Eout : map v os = lane1 (concat (cbc_blocks E key iv blocks))); [|rewrite <- Eout; auto].
  unfold B in Hins'. rewrite !seq_app, !map_app in Hins'. cbn [Nat.add] in Hins'. unfold cbc_input in Hins'. rewrite <- app_assoc in Hins'.
  apply app_split in Hins'; [|rewrite map_length, seq_length; auto]. destruct Hins' as [Hk Hins'].
  apply app_split in Hins'; [|rewrite map_length, seq_length; auto]. destruct Hins' as [Hiv Hd].
  pose proof (V (w 0) Hk0 Hcall) as Hos. rewrite Hk, Hiv, Hd, (concat_chunks n Hn blocks HF) in Hos.
  unfold lane1. rewrite <- Hos, map_map. apply map_ext_in. intros q Hq. rewrite Ew.
  assert (Hog : exists x, nth_error (c_gates c) q = Some x).
  { rewrite <- Hco, (aw_outputs _ _ (api_api_wf _ _ (bt_api _ Bc))) in Hq. apply ids_where_In in Hq. destruct Hq as (x & Ex & _). eauto. }
  destruct Hog as (x & Ex). assert (Exf : nth_error (c_gates fl) q = Some x).
  { rewrite Eg. unfold cl. cbn [map concat]. rewrite nth_error_app1; auto. apply nth_error_Some. congruence. }
  destruct (Hv q x Exf) as [HL _]. unfold c_lanes in HL. fold fl in Hsimd. rewrite Hsimd in HL.
  destruct (v q) as [|y [|]]; try discriminate. auto.
Qed.
End Run.

(** As C71_cbc, with the AES circuit called as a sub-circuit instead of inlined:
    the main circuit and one shared copy of the AES circuit, called once per
    block.  Gate indices are at most [imax]. *)
Theorem C72_cbc_calls :
  forall W b E, 0 < W -> br_header_ok b -> br_wires_ok b -> br_no_self b ->
  br_total_in b = 256 -> br_total_out b = 128 ->
  (forall x k, length x = 128 -> length k = 128 -> br_eval b (x ++ k) = Some (E x k)) ->
  exists sub, from_bristol bool_ops bool_from_br b LoadSub = Some (Some sub) /\
  forall k, exists c cn left, build_enc_circuit_sc sub (128 * k) =
      Some (MC (c :: match k with 0 => [] | _ => [sub] end) (0 :: repeat 1 k) cn, left) /\
    left = match k with 0 => sub | _ => c_new end /\
    c_count c = 256 + 128 * k + 384 * k /\
    forall imax perm, c_count c <= imax -> c_count sub <= imax -> rearranges perm ->
    exists ec, ec_of_mc bool_ops imax (MC (c :: match k with 0 => [] | _ => [sub] end) (0 :: repeat 1 k) cn) perm = Some ec /\
    forall key iv blocks, length key = 128 -> length iv = 128 -> length blocks = k -> Forall (fun l => length l = 128) blocks ->
    forall (Sv : Type) (req : Sv -> nat -> option (mul_triples * Sv)) J,
    serves req (bool_setup_ok W) J ->
    forall (i0 i1 : istore (bool_gmw W)), shares_of W None i0 i1 (lane1 (cbc_input key iv (concat blocks))) ->
    forall s0 s1 rest, J (requests ec ++ rest) s0 s1 ->
    exists o0 o1 st',
      ex2_run (pr:=bool_gmw W) req ec i0 i1
        ((go_init (pr:=bool_gmw W) ec, s0), (go_init (pr:=bool_gmw W) ec, s1)) = Some (o0, o1, st') /\
      shares_of W None o0 o1 (lane1 (concat (cbc_blocks E key iv blocks))).
Proof.
  intros W b E HW H1 H2 H3 Hi Ho HE.
  exact (run_cbc_sc 128 b E (Nat.lt_0_succ 127) H1 H2 H3 Hi Ho HE W HW).
Qed.
Print Assumptions C72_cbc_calls.

(** ** Building twice *)

Lemma empty_call b key chunk b' out : nth_error (b_cells b) 1 = Some c_new ->
  cbc_sc_aes128 b key chunk = Some (b', out) -> out = [].
Proof.
  intros Hc. destruct b as [[|c0 [|c1 cells]] ids cn0]; try discriminate. injection Hc as ->.
  unfold cbc_sc_aes128, b_push_shared, b_connect_sub, b_cell. cbn [b_ids b_cells b_cn].
  rewrite nth_error_app2, Nat.sub_diag by lia. cbn [nth_error obind c_new c_scins c_scouts map].
  match goal with |- context [connect_sc_gates ?a1 ?a2 ?a3 ?a4 ?a5 ?a6] => destruct (connect_sc_gates a1 a2 a3 a4 a5 a6) as [cn|] end; [|discriminate].
  cbn [obind]. unfold b_connect_to_main. cbn [length sec_scins obind map].
  match goal with |- context [b_cell ?a1 ?a2] => destruct (b_cell a1 a2) as [[q d]|] end; [|discriminate]. cbn [obind].
  match goal with |- context [connect_sc_gates ?a1 ?a2 ?a3 ?a4 ?a5 ?a6] => destruct (connect_sc_gates a1 a2 a3 a4 a5 a6) as [cn2|] end; [|discriminate].
  cbn [obind]. intros H. injection H as _ <-. reflexivity.
Qed.

Lemma build_empty n k : 0 < n -> 0 < k -> cbc_sc_build_n n c_new (n * k) = None.
Proof.
  intros Hn Hk. unfold cbc_sc_build_n. rewrite (Nat.mul_comm n k), Nat.mod_mul by lia. cbn [Nat.eqb oassert obind].
  destruct (inputs_main [c_new] [] cn_empty n c_new built_new) as (c1 & E1 & B1 & G1 & _). rewrite E1. cbn [obind].
  destruct (inputs_main [c_new] [] cn_empty n c1 B1) as (c2 & E2 & B2 & G2 & _). rewrite E2. cbn [obind].
  destruct (inputs_main [c_new] [] cn_empty (k * n) c2 B2) as (c3 & E3 & B3 & G3 & _). rewrite E3. cbn [obind].
  cbn [c_new c_gates app] in *.
  assert (N1 : c_count c1 = n) by (unfold c_count; rewrite G1, repeat_length; auto).
  assert (N2 : c_count c2 = n + n) by (unfold c_count; rewrite G2, G1, app_length, !repeat_length; auto).
  assert (N3 : c_count c3 = n + n + k * n) by (unfold c_count; rewrite G3, G2, G1, !app_length, !repeat_length; auto).
  rewrite N1, N2 in *.
  assert (Hfresh : forall a m, a + m <= n + n + k * n -> Forall (sok c3) (map (pair 0) (seq a m))).
  { intros a m H. apply Forall_forall. intros s Hs. apply in_map_iff in Hs. destruct Hs as (g & <- & Hg). apply in_seq in Hg.
    split; auto. cbn [snd]. lia. }
  set (data := map (pair 0) (seq (n + n) (k * n)) : list secret).
  assert (Ld : length data = k * n) by (unfold data; rewrite map_length, seq_length; auto).
  destruct (chunks_exact n data) as [|chunk cs] eqn:Ec.
  { assert (L0 : length (chunks_exact n data) = k) by (unfold chunks_exact; rewrite map_length, seq_length, Ld; apply Nat.div_mul; lia).
    rewrite Ec in L0. cbn in L0. lia. }
  assert (Hch : chunk = firstn n data).
  { unfold chunks_exact in Ec. rewrite Ld, Nat.div_mul in Ec by lia. destruct k as [|k']; [lia|]. cbn [seq map Nat.mul skipn] in Ec. congruence. }
  assert (Hd : Forall (sok c3) data) by (apply Hfresh; lia).
  assert (HL : length chunk = n).
  { rewrite Hch, firstn_length, Ld. apply Nat.min_l. destruct k; [lia|]. cbn. lia. }
  assert (HC : Forall (sok c3) chunk).
  { rewrite Hch. apply Forall_forall. intros s Hs. rewrite Forall_forall in Hd. apply Hd. rewrite <- (firstn_skipn n data). apply in_or_app. auto. }
  cbn [ofold cbc_sc_chunk].
  destruct (xor_main [c_new] [] cn_empty chunk (map (pair 0) (seq n n)) c3 B3 HC) as (c4 & E4 & _); [apply Hfresh; lia|rewrite map_length, seq_length; auto|].
  match type of E4 with ?L = ?R => match goal with |- context [cbc_xor ?x ?y ?z] => replace (cbc_xor x y z) with R by (symmetry; exact E4) end end.
  cbn [obind].
  match goal with |- context [cbc_sc_aes128 ?x ?y ?z] => destruct (cbc_sc_aes128 x y z) as [[b5 out]|] eqn:E5 end; [|reflexivity].
  apply empty_call in E5; [|reflexivity]. rewrite E5. cbn [obind]. rewrite map_length, seq_length. cbn [length].
  rewrite (proj2 (Nat.eqb_neq n 0)) by lia. reflexivity.
Qed.

(** Finishing the builder takes the AES circuit out of the static it is shared
    through, so that building a second circuit in the same process panics. *)
Theorem C72_second_build_panics :
  forall b sub k1 k2, 0 < k1 -> 0 < k2 -> br_header_ok b -> br_wires_ok b -> br_no_self b ->
  br_total_in b = 256 -> br_total_out b = 128 ->
  (forall x k, length x = 128 -> length k = 128 -> br_eval b (x ++ k) <> None) ->
  from_bristol bool_ops bool_from_br b LoadSub = Some (Some sub) ->
  exists m left, build_enc_circuit_sc sub (128 * k1) = Some (m, left) /\
  build_enc_circuit_sc left (128 * k2) = None.
Proof.
  intros b sub k1 k2 K1 K2 H1 H2 H3 Hi Ho He Hs.
  set (E := fun x k => match br_eval b (x ++ k) with Some y => y | None => [] end).
  assert (HE : forall x k, length x = 128 -> length k = 128 -> br_eval b (x ++ k) = Some (E x k)).
  { intros x k Lx Lk. unfold E. specialize (He x k Lx Lk). destruct (br_eval b (x ++ k)); congruence. }
  destruct (C72_cbc_calls 1 b E Nat.lt_0_1 H1 H2 H3 Hi Ho HE) as (sub' & Es & HK). rewrite Hs in Es. injection Es as <-.
  destruct (HK k1) as (c & cn & left & Eb & El & _). exists (MC (c :: match k1 with 0 => [] | _ => [sub] end) (0 :: repeat 1 k1) cn), left.
  split; auto. destruct k1 as [|k1]; [lia|]. subst left. unfold build_enc_circuit_sc, cbc_sc_circuit_n.
  rewrite build_empty by (auto; apply Nat.lt_0_succ). reflexivity.
Qed.
Print Assumptions C72_second_build_panics.

(** The hypotheses about the Bristol circuit are met by the cipher of C71_case.
    The circuit for two blocks of a 4-bit version of it: 40 gates in the main
    circuit, two calls of one shared circuit, and the AES circuit gone. *)
Example C72_case :
  br_header_ok (xor_cipher 128) /\ br_wires_ok (xor_cipher 128) /\ br_no_self (xor_cipher 128) /\
  br_total_in (xor_cipher 128) = 256 /\ br_total_out (xor_cipher 128) = 128 /\
  (forall x k, length x = 128 -> length k = 128 -> br_eval (xor_cipher 128) (x ++ k) = Some (bits_xor x k)) /\
  match from_bristol bool_ops bool_from_br (xor_cipher 4) LoadSub with
  | Some (Some sub) =>
      match cbc_sc_circuit_n 4 sub 8 with
      | Some (m, gone) =>
          map c_count (mc_circuits m) = [40; 16] /\ mc_map m = [0; 1; 1] /\ c_count gone = 0 /\
          (match cbc_sc_circuit_n 4 gone 4 with None => true | _ => false end) = true
      | None => False
      end
  | _ => False
  end.
Proof.
  destruct C71_case as (A1 & A2 & A3 & A4 & A5 & A6 & _). do 6 (split; [assumption|]). vm_compute. repeat split.
Qed.
