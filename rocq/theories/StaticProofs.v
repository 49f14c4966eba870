(** Proofs about precomputed layers, part 1: the layers that the precomputation
    stores per circuit. *)
From Coq Require Import List Bool Arith Lia.
Require Import Verif.Prelude Verif.PreludeProofs Verif.GateModel Verif.CircuitModel Verif.ExecModel
  Verif.ConnModel Verif.MultiModel Verif.StaticModel.
Import ListNotations.

Section Eq.
Lemma list_eqb_spec {A} (eqb : A -> A -> bool) (H : forall x y, eqb x y = true <-> x = y) :
  forall a b, list_eqb eqb a b = true <-> a = b.
Proof.
  induction a as [|x a IH]; intros [|y b]; simpl; try (split; (reflexivity || discriminate)).
  rewrite andb_true_iff, H, IH. split; [intros [-> ->]; auto|intros E; injection E as -> ->; auto].
Qed.

Lemma range_eqb_spec x y : range_eqb x y = true <-> x = y.
Proof.
  unfold range_eqb. rewrite andb_true_iff, !Nat.eqb_eq. destruct x, y; simpl.
  split; [intros [-> ->]; auto|intros E; injection E as -> ->; auto].
Qed.

Context {G : Type}.
Variable geqb : G -> G -> bool.
Hypothesis Hg : forall a b, geqb a b = true <-> a = b.

Lemma sg_eqb_spec a b : sg_eqb geqb a b = true <-> a = b.
Proof.
  unfold sg_eqb. rewrite !andb_true_iff, (list_eqb_spec _ Hg), (list_eqb_spec _ Nat.eqb_eq),
    (list_eqb_spec _ range_eqb_spec), (list_eqb_spec _ eqb_true_iff).
  destruct a, b; simpl. split; [intros [[[-> ->] ->] ->]; auto|intros E; injection E as -> -> -> ->; auto].
Qed.

Lemma sl_eqb_spec (a b : sclayer G) : sl_eqb geqb a b = true <-> a = b.
Proof.
  unfold sl_eqb. rewrite !andb_true_iff, !sg_eqb_spec, (list_eqb_spec _ Nat.eqb_eq).
  destruct a, b; simpl. split; [intros [[-> ->] ->]; auto|intros E; injection E as -> -> ->; auto].
Qed.
End Eq.

(** Events with their precomputed layer. *)
Notation tev G := (nat * option nat * sclayer G)%type (only parsing).
Definition thist {G} (sc : nat) (evs : list (tev G)) : list (sclayer G) :=
  map snd (filter (fun e => fst (fst e) =? sc) evs).

Lemma thist_app {G} sc (a b : list (tev G)) : thist sc (a ++ b) = thist sc a ++ thist sc b.
Proof. unfold thist. rewrite filter_app, map_app. auto. Qed.

Lemma thist_one {G} sc (e : tev G) : thist sc [e] = if fst (fst e) =? sc then [snd e] else [].
Proof. unfold thist. simpl. destruct (fst (fst e) =? sc); auto. Qed.

Lemma thist_In {G} sc (evs : list (tev G)) : thist sc evs <> [] <-> exists e, In e evs /\ fst (fst e) = sc.
Proof.
  induction evs as [|e evs IH].
  - split; [intros X; exfalso; apply X; reflexivity|intros (e & [] & _)].
  - change (e :: evs) with ([e] ++ evs). rewrite thist_app, thist_one. destruct (Nat.eqb_spec (fst (fst e)) sc) as [He|He].
    + split; [intros _; exists e; simpl; auto|discriminate].
    + simpl. rewrite IH. split; intros (e' & H1 & H2); exists e'; [auto|]. destruct H1 as [<-|H1]; [contradiction|auto].
Qed.

Section Machine.
Context {G : Type}.
Variable geqb : G -> G -> bool.
Hypothesis Hg : forall a b, geqb a b = true <-> a = b.

(** [st_add] and [st_entry] for a given layer. *)
Definition st_put (ptrs : list nat) (s : scirc G) (sp : splits) (e : tev G) : option (scirc G * splits) :=
  let '(sc, simd, l) := e in
  k <- nth_error (st_map s) sc ;;
  match nth_error (st_subs s) k with
  | None =>
      Some (SCirc (st_ins s) (st_outs s) (st_subs s ++ [ss_new l simd]) (st_map s) (st_layers s) (st_conns s), sp)
  | Some sub =>
      p <- nth_error ptrs sc ;;
      match nth_error (ss_layers sub) p with
      | Some l0 =>
          if sl_eqb geqb l l0 then Some (s, sp)
          else
            r <- find_split geqb (st_subs s) p l (sp_get sp k) ;;
            match r with
            | Some k' =>
                Some (SCirc (st_ins s) (st_outs s) (st_subs s) (upd sc k' (st_map s)) (st_layers s) (st_conns s), sp)
            | None =>
                let n := length (st_subs s) in
                Some (SCirc (st_ins s) (st_outs s) (st_subs s ++ [ss_push (ss_truncate sub p) l])
                        (upd sc n (st_map s)) (st_layers s) (st_conns s),
                      sp_push sp k n)
            end
      | None =>
          Some (SCirc (st_ins s) (st_outs s) (upd k (ss_push sub l) (st_subs s)) (st_map s) (st_layers s) (st_conns s),
                sp)
      end
  end.

Definition st_ev (st : scirc G * splits * list nat) (e : tev G) : option (scirc G * splits * list nat) :=
  let '(s, sp, ptrs) := st in
  '(s', sp') <- st_put ptrs s sp e ;;
  p <- nth_error ptrs (fst (fst e)) ;;
  Some (s', sp', upd (fst (fst e)) (S p) ptrs).

Lemma st_entry_ev imax m st sc simd b l : sl_from_base imax m sc b = Some l ->
  st_entry geqb imax m st (sc, simd, b) = st_ev st (sc, simd, l).
Proof.
  intros H. destruct st as [[s sp] ptrs]. unfold st_entry, st_ev, st_add, st_put.
  destruct (nth_error (st_map s) sc); cbn [obind]; auto. rewrite H. cbn [obind]. auto.
Qed.

(** What a precomputed record holds. *)
Record rec_ok (sub : ssub G) (simd : option nat) (ls : list (sclayer G)) : Prop := {
  ro_simd : ss_simd sub = simd;
  ro_layers : ss_layers sub = ls;
  ro_count : ss_count sub = sum_list (map sl_len ls);
  ro_icount : ss_icount sub = sum_list (map sl_ilen ls) }.

Lemma sum_list_app a b : sum_list (a ++ b) = sum_list a + sum_list b.
Proof. unfold sum_list. induction a; simpl; lia. Qed.

Lemma rec_new l simd : rec_ok (ss_new l simd) simd [l].
Proof. constructor; simpl; lia || auto. Qed.

Lemma rec_push sub simd ls l : rec_ok sub simd ls -> rec_ok (ss_push sub l) simd (ls ++ [l]).
Proof.
  intros [A B C D]. constructor; simpl; auto; try congruence; rewrite map_app, sum_list_app; simpl; lia.
Qed.

Lemma rec_truncate sub simd ls n : rec_ok sub simd ls -> rec_ok (ss_truncate sub n) simd (firstn n ls).
Proof.
  intros [A B C D]. assert (S : forall f : sclayer G -> nat,
    sum_list (map f (firstn n ls)) = sum_list (map f ls) - sum_list (map f (skipn n ls))).
  { intros f. rewrite <- (firstn_skipn n ls) at 2. rewrite map_app, sum_list_app. lia. }
  constructor; simpl; auto; rewrite ?B, ?C, ?D; auto.
Qed.

Variable base : list nat.
Variable all : list (tev G).
Variable simd_of : nat -> option nat.
Definition bcopy (sc k : nat) : Prop := nth_error base sc = Some k.
Hypothesis Hbase : forall e, In e all -> exists k, bcopy (fst (fst e)) k /\ snd (fst e) = simd_of k.

(** The result: the record of every circuit with layers starts with these layers
    and holds the layers of some copy. *)
Definition Final (s : scirc G) : Prop :=
  length (st_map s) = length base /\
  forall sc k, bcopy sc k -> thist sc all <> [] -> exists sub sc', st_get s sc = Some sub /\ bcopy sc' k /\
    rec_ok sub (simd_of k) (thist sc' all) /\
    firstn (length (thist sc all)) (thist sc' all) = thist sc all.

Definition ptrs_ok (evs : list (tev G)) (ptrs : list nat) : Prop :=
  length ptrs = length base /\ forall sc, sc < length base -> nth_error ptrs sc = Some (length (thist sc evs)).

Lemma ptrs_step evs ptrs e : ptrs_ok evs ptrs -> fst (fst e) < length base ->
  exists p, nth_error ptrs (fst (fst e)) = Some p /\ p = length (thist (fst (fst e)) evs) /\
  ptrs_ok (evs ++ [e]) (upd (fst (fst e)) (S p) ptrs).
Proof.
  intros [A B] H. exists (length (thist (fst (fst e)) evs)). split; [auto|]. split; auto. split; [rewrite upd_length; auto|].
  intros sc Hsc. rewrite thist_app, thist_one, app_length. destruct (Nat.eqb_spec (fst (fst e)) sc) as [<-|Hne].
  - rewrite upd_nth_error_same by lia. simpl. f_equal. lia.
  - rewrite upd_nth_error_other by auto. rewrite B by auto. simpl. f_equal. lia.
Qed.

Lemma thist_prefix (a b : list (tev G)) sc j l : nth_error (thist sc a) j = Some l ->
  nth_error (thist sc (a ++ b)) j = Some l.
Proof. intros H. rewrite thist_app, nth_error_app1; auto. apply nth_error_Some. congruence. Qed.

Lemma firstn_all_of {A} (a b : list A) : (forall j x, nth_error a j = Some x -> nth_error b j = Some x) ->
  firstn (length a) b = a.
Proof.
  revert b. induction a as [|x a IH]; intros b H; auto. destruct b as [|y b].
  - specialize (H 0 x eq_refl). discriminate.
  - simpl. f_equal; [|apply IH; intros j z E; apply (H (S j)); auto]. specialize (H 0 x eq_refl). simpl in H. congruence.
Qed.

Lemma firstn_nth {A} (a b : list A) j x : firstn (length a) b = a -> nth_error a j = Some x -> nth_error b j = Some x.
Proof.
  intros H Hj. rewrite <- (firstn_skipn (length a) b), H, nth_error_app1; auto. apply nth_error_Some. congruence.
Qed.

Lemma firstn_len {A} (a b : list A) : firstn (length a) b = a -> length a <= length b.
Proof. intros H. apply (f_equal (@length A)) in H. rewrite firstn_length in H. lia. Qed.

Lemma firstn_ext {A} (a b c : list A) : firstn (length a) b = a -> firstn (length a) (b ++ c) = a.
Proof.
  intros H. rewrite firstn_app. pose proof (firstn_len _ _ H). replace (length a - length b) with 0 by lia. simpl.
  rewrite app_nil_r. auto.
Qed.

Lemma firstn_nth_lt {A} (l : list A) n j : j < n -> nth_error (firstn n l) j = nth_error l j.
Proof. revert l j. induction n; intros l j H; [lia|]. destruct l, j; simpl; auto. apply IHn. lia. Qed.

Lemma sp_get_push sp r n q : sp_get (sp_push sp r n) q = sp_get sp q ++ (if r =? q then [n] else []).
Proof.
  unfold sp_get. induction sp as [|[k ks] sp IH]; simpl.
  - destruct (r =? q); auto.
  - destruct (Nat.eqb_spec k r) as [->|Hk]; simpl.
    + destruct (Nat.eqb_spec r q) as [->|]; auto. rewrite app_nil_r. auto.
    + destruct (Nat.eqb_spec k q) as [->|Hq]; auto. destruct (Nat.eqb_spec r q); [congruence|]. rewrite app_nil_r. auto.
Qed.

(** Two lists agree below [d] and differ at [d]. *)
Definition split_at {A} (a b : list A) (d : nat) : Prop :=
  (forall j, j < d -> nth_error a j = nth_error b j) /\
  exists x y, nth_error a d = Some x /\ nth_error b d = Some y /\ x <> y.

Lemma split_at_app {A} (a b a' b' : list A) d : split_at a b d -> split_at (a ++ a') (b ++ b') d.
Proof.
  intros (H & x & y & Hx & Hy & Hn).
  assert (Ha : d < length a) by (apply nth_error_Some; congruence).
  assert (Hb : d < length b) by (apply nth_error_Some; congruence).
  split.
  - intros j Hj. rewrite !nth_error_app1 by lia. auto.
  - exists x, y. rewrite !nth_error_app1 by lia. auto.
Qed.

(** *** Copies that part *)
Section Parting.
Hypothesis Horder : forall l1 e l2 k k', all = l1 ++ e :: l2 -> bcopy (fst (fst e)) k -> k' < k ->
  exists e', In e' l1 /\ bcopy (fst (fst e')) k'.
(** No copies have parted before the last circuit opens. *)
Hypothesis Hopen : forall l1 e l2 k, all = l1 ++ e :: l2 -> bcopy (fst (fst e)) k ->
  (forall e', In e' l1 -> ~ bcopy (fst (fst e')) k) ->
  forall sc1 sc2 k' d, bcopy sc1 k' -> bcopy sc2 k' -> ~ split_at (thist sc1 l1) (thist sc2 l1) d.
(** A copy that parts from another one is distinguished by that layer from those
    it has parted from earlier. *)
Hypothesis Hclean : forall l1 e l2 k sc1 sc2 d, all = l1 ++ e :: l2 -> bcopy (fst (fst e)) k -> bcopy sc1 k -> bcopy sc2 k ->
  split_at (thist (fst (fst e)) (l1 ++ [e])) (thist sc1 l1) (length (thist (fst (fst e)) l1)) ->
  split_at (thist (fst (fst e)) l1) (thist sc2 l1) d ->
  exists y, nth_error (thist sc2 l1) (length (thist (fst (fst e)) l1)) = Some y /\ y <> snd e.

Record Inv (evs : list (tev G)) (s : scirc G) (sp : splits) (ptrs : list nat) : Prop := {
  iv_len : length (st_map s) = length base;
  iv_ptrs : ptrs_ok evs ptrs;
  iv_new : forall sc k, bcopy sc k -> thist sc evs = [] -> nth_error (st_map s) sc = Some k;
  iv_rec : forall r sub, nth_error (st_subs s) r = Some sub ->
     exists sc k, bcopy sc k /\ thist sc evs <> [] /\ nth_error (st_map s) sc = Some r /\
     rec_ok sub (simd_of k) (thist sc evs);
  iv_sc : forall sc k, bcopy sc k -> thist sc evs <> [] ->
     exists r sub, nth_error (st_map s) sc = Some r /\ nth_error (st_subs s) r = Some sub /\
     firstn (length (thist sc evs)) (ss_layers sub) = thist sc evs;
  iv_fam : forall sc1 sc2 k1 k2 r, bcopy sc1 k1 -> bcopy sc2 k2 -> thist sc1 evs <> [] -> thist sc2 evs <> [] ->
     nth_error (st_map s) sc1 = Some r -> nth_error (st_map s) sc2 = Some r -> k1 = k2;
  iv_prim : forall sc k, bcopy sc k -> thist sc evs <> [] ->
     exists sc', bcopy sc' k /\ thist sc' evs <> [] /\ nth_error (st_map s) sc' = Some k;
  iv_split : forall r q, In q (sp_get sp r) -> exists sub sub' d,
     nth_error (st_subs s) r = Some sub /\ nth_error (st_subs s) q = Some sub' /\
     split_at (ss_layers sub) (ss_layers sub') d;
  iv_sfam : forall r q sc1 sc2 k1 k2, In q (sp_get sp r) -> bcopy sc1 k1 -> bcopy sc2 k2 ->
     thist sc1 evs <> [] -> thist sc2 evs <> [] ->
     nth_error (st_map s) sc1 = Some r -> nth_error (st_map s) sc2 = Some q -> k1 = k2;
  iv_count : (forall r, r < length (st_subs s) -> exists sc, bcopy sc r /\ thist sc evs <> []) \/
     exists sc1 sc2 k d, bcopy sc1 k /\ bcopy sc2 k /\ split_at (thist sc1 evs) (thist sc2 evs) d }.

Definition kept_fields (s s' : scirc G) : Prop :=
  st_layers s' = st_layers s /\ st_ins s' = st_ins s /\ st_outs s' = st_outs s /\ st_conns s' = st_conns s.

Section Step.
Variables (evs rest : list (tev G)) (sc : nat) (simd : option nat) (l : sclayer G).
Variables (s : scirc G) (sp : splits) (ptrs : list nat) (k : nat).
Let e : tev G := (sc, simd, l).
Hypothesis Hall : all = evs ++ (sc, simd, l) :: rest.
Hypothesis HI : Inv evs s sp ptrs.
Hypothesis Hk : bcopy sc k.
Hypothesis Hsimd : simd = simd_of k.
Notation evs' := (evs ++ [(sc, simd, l)]).

Lemma h_own : thist sc evs' = thist sc evs ++ [l].
Proof. rewrite thist_app, thist_one. cbn [fst snd]. rewrite Nat.eqb_refl. auto. Qed.

Lemma h_other x : x <> sc -> thist x evs' = thist x evs.
Proof. intros H. rewrite thist_app, thist_one. cbn [fst]. destruct (Nat.eqb_spec sc x); [congruence|apply app_nil_r]. Qed.

Lemma h_open x : thist x evs' <> [] <-> x = sc \/ thist x evs <> [].
Proof.
  destruct (Nat.eq_dec x sc) as [->|H].
  - rewrite h_own. split; auto. intros _ E. apply app_eq_nil in E. destruct E; discriminate.
  - rewrite h_other by auto. split; auto. intros [E|E]; [contradiction|auto].
Qed.

Lemma h_ext x : exists t, thist x evs' = thist x evs ++ t.
Proof. destruct (Nat.eq_dec x sc) as [->|H]; [rewrite h_own; eauto|rewrite h_other by auto; exists []; rewrite app_nil_r; auto]. Qed.

Lemma split_ext sc1 sc2 d : split_at (thist sc1 evs) (thist sc2 evs) d -> split_at (thist sc1 evs') (thist sc2 evs') d.
Proof.
  intros H. destruct (h_ext sc1) as (t1 & ->). destruct (h_ext sc2) as (t2 & ->). apply split_at_app. auto.
Qed.

Lemma bcopy_fun x k1 k2 : bcopy x k1 -> bcopy x k2 -> k1 = k2.
Proof. unfold bcopy. congruence. Qed.

Lemma count_ext (s0 : scirc G) : (forall r, r < length (st_subs s0) -> exists x, bcopy x r /\ thist x evs <> []) \/
     (exists sc1 sc2 k d, bcopy sc1 k /\ bcopy sc2 k /\ split_at (thist sc1 evs) (thist sc2 evs) d) ->
  (forall r, r < length (st_subs s0) -> exists x, bcopy x r /\ thist x evs' <> []) \/
     (exists sc1 sc2 k d, bcopy sc1 k /\ bcopy sc2 k /\ split_at (thist sc1 evs') (thist sc2 evs') d).
Proof.
  intros [H|(sc1 & sc2 & k0 & d & A & B & C)].
  - left. intros r Hr. destruct (H r Hr) as (x & A & B). exists x. split; auto. apply h_open. auto.
  - right. exists sc1, sc2, k0, d. split; auto. split; auto. apply split_ext. auto.
Qed.

(** The circuit [k] opens. *)
Lemma step_open : (forall x, bcopy x k -> thist x evs = []) ->
  nth_error (st_map s) sc = Some k /\ nth_error (st_subs s) k = None /\
  forall ptrs', ptrs_ok evs' ptrs' ->
  Inv evs' (SCirc (st_ins s) (st_outs s) (st_subs s ++ [ss_new l simd]) (st_map s) (st_layers s) (st_conns s)) sp ptrs'.
Proof.
  intros Hnew. destruct HI as [J1 J2 J3 J4 J5 J6 J7 J8 J9 J10].
  assert (Hno : forall e', In e' evs -> ~ bcopy (fst (fst e')) k).
  { intros e' He' Hb. assert (X : thist (fst (fst e')) evs <> []) by (apply thist_In; eauto). apply X. auto. }
  assert (Hlen : length (st_subs s) = k).
  { destruct J10 as [J10|(sc1 & sc2 & k' & d & A & B & C)].
    - assert (~ k < length (st_subs s)).
      { intros Hlt. destruct (J10 k Hlt) as (x & A & B). apply B. auto. }
      assert (k <= length (st_subs s)); [|lia].
      destruct (Nat.eq_dec k 0) as [Hz|Hz]; [lia|]. assert (Hk' : exists k', k = S k') by (exists (pred k); lia).
      destruct Hk' as (k' & Ek).
      destruct (Horder evs _ rest k k' Hall Hk ltac:(lia)) as (e' & H1 & H2).
      destruct (J5 (fst (fst e')) k' H2) as (r0 & _); [apply thist_In; eauto|].
      destruct (J7 (fst (fst e')) k' H2) as (x & X1 & X2 & X3); [apply thist_In; eauto|].
      destruct (J5 x k' X1 X2) as (r & sub & Y1 & Y2 & _). rewrite X3 in Y1. injection Y1 as <-.
      assert (k' < length (st_subs s)) by (apply nth_error_Some; congruence). lia.
    - exfalso. apply (Hopen evs _ rest k Hall Hk Hno sc1 sc2 k' d A B C). }
  split; [apply J3; auto|]. split; [apply nth_error_None; lia|]. intros ptrs' Hp'.
  assert (Hown1 : thist sc evs' = [l]) by (rewrite h_own, Hnew; auto).
  assert (Eget : forall r sub, nth_error (st_subs s) r = Some sub -> nth_error (st_subs s ++ [ss_new l simd]) r = Some sub).
  { intros r sub H. rewrite nth_error_app1; auto. apply nth_error_Some. congruence. }
  assert (Hr : forall x r, bcopy x r -> thist x evs <> [] -> nth_error (st_map s) x <> Some k).
  { intros x r X1 X2 E. destruct (J5 x r X1 X2) as (r' & sub & Y1 & Y2 & _). rewrite E in Y1. injection Y1 as <-.
    assert (k < length (st_subs s)) by (apply nth_error_Some; congruence). lia. }
  constructor; cbn [st_map st_subs]; auto.
  - intros x kx Hx E. apply J3; auto. destruct (h_ext x) as (t & Et). rewrite Et in E. apply app_eq_nil in E. tauto.
  - intros r sub Hsub. destruct (Nat.eq_dec r k) as [->|Hne].
    + rewrite nth_error_app2, Hlen, Nat.sub_diag in Hsub by lia. simpl in Hsub. injection Hsub as <-.
      exists sc, k. split; auto. split; [apply h_open; auto|]. split; [apply J3; auto|]. rewrite Hown1, Hsimd. apply rec_new.
    + assert (r < length (st_subs s ++ [ss_new l simd])) by (apply nth_error_Some; congruence).
      rewrite app_length in H. simpl in H. rewrite nth_error_app1 in Hsub by lia.
      destruct (J4 r sub Hsub) as (x & kx & A & B & C & D). exists x, kx. split; auto.
      split; [apply h_open; auto|]. split; auto. rewrite h_other; auto. intros ->. apply B. apply Hnew. auto.
  - intros x kx Hx Ho. destruct (Nat.eq_dec x sc) as [->|Hne].
    + exists k, (ss_new l simd). split; [apply J3; auto|].
      split; [rewrite nth_error_app2, Hlen, Nat.sub_diag by lia; auto|]. rewrite Hown1. auto.
    + rewrite h_other in Ho |- * by auto. destruct (J5 x kx Hx Ho) as (r & sub & A & B & C). exists r, sub. auto.
  - intros x1 x2 k1 k2 r A1 A2 O1 O2 M1 M2. apply h_open in O1, O2. destruct O1 as [->|O1], O2 as [->|O2].
    + eapply bcopy_fun; eauto.
    + exfalso. rewrite J3 with (k := k) in M1 by auto. injection M1 as <-. apply (Hr x2 k2); auto.
    + exfalso. rewrite J3 with (k := k) in M2 by auto. injection M2 as <-. apply (Hr x1 k1); auto.
    + eapply J6; [exact A1|exact A2|exact O1|exact O2|exact M1|exact M2].
  - intros x kx Hx Ho. apply h_open in Ho. destruct Ho as [->|Ho].
    + rewrite (bcopy_fun _ _ _ Hx Hk). exists sc. split; auto. split; [apply h_open; auto|]. apply J3; auto.
    + destruct (J7 x kx Hx Ho) as (x' & A & B & C). exists x'. split; auto. split; [apply h_open; auto|auto].
  - intros r q Hq. destruct (J8 r q Hq) as (sub & sub' & d & A & B & C). exists sub, sub', d. auto.
  - intros r q x1 x2 k1 k2 Hq A1 A2 O1 O2 M1 M2. destruct (J8 r q Hq) as (sub & sub' & d & B1 & B2 & _).
    assert (r < length (st_subs s)) by (apply nth_error_Some; congruence).
    assert (q < length (st_subs s)) by (apply nth_error_Some; congruence).
    apply h_open in O1, O2.
    destruct O1 as [->|O1]; [rewrite J3 with (k := k) in M1 by auto; injection M1; lia|].
    destruct O2 as [->|O2]; [rewrite J3 with (k := k) in M2 by auto; injection M2; lia|].
    eapply J9; [exact Hq|exact A1|exact A2|exact O1|exact O2|exact M1|exact M2].
  - destruct J10 as [J10|J10]; [left|].
    + intros r Hr'. rewrite app_length in Hr'. simpl in Hr'. destruct (Nat.eq_dec r k) as [->|Hne].
      * exists sc. split; auto. apply h_open; auto.
      * destruct (J10 r ltac:(lia)) as (x & A & B). exists x. split; auto. apply h_open; auto.
    + destruct (count_ext s (or_intror J10)) as [X|X]; auto. right. 
      destruct J10 as (sc1 & sc2 & k' & d & A & B & C). exists sc1, sc2, k', d. split; auto. split; auto. apply split_ext; auto.
Qed.

(** A circuit that is open: the record of the copy and the copy it belongs to. *)
Lemma step_record : (exists x, bcopy x k /\ thist x evs <> []) ->
  exists r sub sc0, nth_error (st_map s) sc = Some r /\ nth_error (st_subs s) r = Some sub /\
    rec_ok sub (simd_of k) (thist sc0 evs) /\ bcopy sc0 k /\ thist sc0 evs <> [] /\
    nth_error (st_map s) sc0 = Some r /\ firstn (length (thist sc evs)) (thist sc0 evs) = thist sc evs /\
    (forall x kx, bcopy x kx -> thist x evs <> [] -> nth_error (st_map s) x = Some r -> kx = k).
Proof.
  intros (x0 & X1 & X2). destruct HI as [J1 J2 J3 J4 J5 J6 J7 J8 J9 J10].
  destruct (thist sc evs) as [|a t] eqn:Eh.
  - destruct (J7 x0 k X1 X2) as (x & A & B & C). destruct (J5 x k A B) as (r & sub & D & F & _).
    rewrite C in D. injection D as <-. destruct (J4 k sub F) as (sc0 & k0 & H1 & H2 & H3 & H4).
    assert (k0 = k) by (eapply J6; [exact H1|exact A|exact H2|exact B|exact H3|exact C]). subst k0.
    exists k, sub, sc0. repeat split; auto; try apply H4.
    intros y ky Y1 Y2 Y3. eapply J6; [exact Y1|exact H1|exact Y2|exact H2|exact Y3|exact H3].
  - assert (Ho : thist sc evs <> []) by congruence. destruct (J5 sc k Hk Ho) as (r & sub & A & B & C).
    destruct (J4 r sub B) as (sc0 & k0 & H1 & H2 & H3 & H4).
    assert (k0 = k) by (eapply J6; [exact H1|exact Hk|exact H2|exact Ho|exact H3|exact A]). subst k0.
    exists r, sub, sc0. rewrite (ro_layers _ _ _ H4), Eh in C. repeat split; auto; try apply H4.
    intros y ky Y1 Y2 Y3. eapply J6; [exact Y1|exact H1|exact Y2|exact H2|exact Y3|exact H3].
Qed.

Section Open.
Variables (r : nat) (sub : ssub G) (sc0 : nat).
Hypothesis R1 : nth_error (st_map s) sc = Some r.
Hypothesis R2 : nth_error (st_subs s) r = Some sub.
Hypothesis R3 : rec_ok sub (simd_of k) (thist sc0 evs).
Hypothesis R4 : bcopy sc0 k.
Hypothesis R5 : thist sc0 evs <> [].
Hypothesis R6 : nth_error (st_map s) sc0 = Some r.
Hypothesis R7 : firstn (length (thist sc evs)) (thist sc0 evs) = thist sc evs.
Hypothesis R8 : forall x kx, bcopy x kx -> thist x evs <> [] -> nth_error (st_map s) x = Some r -> kx = k.
Variable ptrs' : list nat.
Hypothesis Hptrs' : ptrs_ok evs' ptrs'.

(** Nothing but the position changes. *)
Lemma step_same : nth_error (thist sc0 evs) (length (thist sc evs)) = Some l -> Inv evs' s sp ptrs'.
Proof.
  intros El. destruct HI as [J1 J2 J3 J4 J5 J6 J7 J8 J9 J10].
  assert (Hne : sc0 <> sc).
  { intros ->. assert (length (thist sc evs) < length (thist sc evs)) by (apply nth_error_Some; congruence). lia. }
  constructor; auto.
  - intros x kx Hx E. apply J3; auto. destruct (h_ext x) as (t & Et). rewrite Et in E. apply app_eq_nil in E. tauto.
  - intros q subq Hq. destruct (Nat.eq_dec q r) as [->|Hqr].
    + rewrite R2 in Hq. injection Hq as <-. exists sc0, k. rewrite h_other by auto. auto.
    + destruct (J4 q subq Hq) as (x & kx & A & B & C & D). exists x, kx. split; auto. split; [apply h_open; auto|].
      split; auto. rewrite h_other; auto. intros ->. congruence.
  - intros x kx Hx Ho. destruct (Nat.eq_dec x sc) as [->|Hx'].
    + exists r, sub. split; auto. split; auto. rewrite (ro_layers _ _ _ R3). apply firstn_all_of. intros j y Hj.
      rewrite h_own in Hj. destruct (Nat.lt_ge_cases j (length (thist sc evs))) as [Hlt|Hge].
      * rewrite nth_error_app1 in Hj by auto. eapply firstn_nth; eauto.
      * assert (j < length (thist sc evs ++ [l])) by (apply nth_error_Some; congruence). rewrite app_length in H. simpl in H.
        assert (j = length (thist sc evs)) by lia. subst j. rewrite nth_error_app2, Nat.sub_diag in Hj by lia. simpl in Hj. congruence.
    + rewrite h_other in Ho |- * by auto. destruct (J5 x kx Hx Ho) as (q & subq & A & B & C). exists q, subq. auto.
  - intros x1 x2 k1 k2 q A1 A2 O1 O2 M1 M2. apply h_open in O1, O2.
    destruct O1 as [->|O1], O2 as [->|O2].
    + eapply bcopy_fun; eauto.
    + rewrite R1 in M1. injection M1 as <-. rewrite (R8 x2 k2) by auto. exact (bcopy_fun sc _ _ A1 Hk).
    + rewrite R1 in M2. injection M2 as <-. rewrite (R8 x1 k1) by auto. exact (bcopy_fun sc _ _ Hk A2).
    + eapply J6; [exact A1|exact A2|exact O1|exact O2|exact M1|exact M2].
  - intros x kx Hx Ho. apply h_open in Ho. destruct Ho as [->|Ho].
    + rewrite (bcopy_fun _ _ _ Hx Hk). destruct (J7 sc0 k R4 R5) as (x' & A & B & C). exists x'. split; auto. split; [apply h_open; auto|auto].
    + destruct (J7 x kx Hx Ho) as (x' & A & B & C). exists x'. split; auto. split; [apply h_open; auto|auto].
  - intros q1 q2 x1 x2 k1 k2 Hq A1 A2 O1 O2 M1 M2. apply h_open in O1, O2.
    assert (F : forall x kx, bcopy x kx -> x = sc -> kx = k) by (intros x kx X ->; eapply bcopy_fun; eauto).
    destruct O1 as [->|O1], O2 as [->|O2].
    + eapply bcopy_fun; eauto.
    + rewrite R1 in M1. injection M1 as <-. rewrite (bcopy_fun _ _ _ A1 Hk).
      eapply J9; [exact Hq|exact R4|exact A2|exact R5|exact O2|exact R6|exact M2].
    + rewrite R1 in M2. injection M2 as <-. rewrite (bcopy_fun _ _ _ A2 Hk).
      eapply J9; [exact Hq|exact A1|exact R4|exact O1|exact R5|exact M1|exact R6].
    + eapply J9; [exact Hq|exact A1|exact A2|exact O1|exact O2|exact M1|exact M2].
  - apply count_ext. auto.
Qed.

(** The record grows. *)
Lemma step_push : length (thist sc0 evs) = length (thist sc evs) ->
  Inv evs' (SCirc (st_ins s) (st_outs s) (upd r (ss_push sub l) (st_subs s)) (st_map s) (st_layers s) (st_conns s)) sp ptrs'.
Proof.
  intros El. destruct HI as [J1 J2 J3 J4 J5 J6 J7 J8 J9 J10].
  assert (Eh : thist sc0 evs = thist sc evs) by (rewrite <- R7, <- El, firstn_all; auto).
  assert (Hrl : r < length (st_subs s)) by (apply nth_error_Some; congruence).
  assert (Hext : forall q subq, nth_error (st_subs s) q = Some subq ->
    exists subq' t, nth_error (upd r (ss_push sub l) (st_subs s)) q = Some subq' /\ ss_layers subq' = ss_layers subq ++ t).
  { intros q subq Hq. destruct (Nat.eq_dec q r) as [->|Hqr].
    - rewrite upd_nth_error_same by auto. rewrite R2 in Hq. injection Hq as <-. exists (ss_push sub l), [l]. auto.
    - rewrite upd_nth_error_other by auto. exists subq, []. rewrite app_nil_r. auto. }
  constructor; cbn [st_map st_subs]; auto.
  - intros x kx Hx E. apply J3; auto. destruct (h_ext x) as (t & Et). rewrite Et in E. apply app_eq_nil in E. tauto.
  - intros q subq Hq. destruct (Nat.eq_dec q r) as [->|Hqr].
    + rewrite upd_nth_error_same in Hq by auto. injection Hq as <-. exists sc, k. split; auto.
      split; [apply h_open; auto|]. split; auto. rewrite h_own, <- Eh. apply rec_push. auto.
    + rewrite upd_nth_error_other in Hq by auto. destruct (J4 q subq Hq) as (x & kx & A & B & C & D). exists x, kx. split; auto.
      split; [apply h_open; auto|]. split; auto. rewrite h_other; auto. intros ->. congruence.
  - intros x kx Hx Ho. destruct (Nat.eq_dec x sc) as [->|Hx'].
    + exists r, (ss_push sub l). split; auto. split; [apply upd_nth_error_same; auto|]. simpl.
      rewrite (ro_layers _ _ _ R3), h_own, Eh. apply firstn_all.
    + rewrite h_other in Ho |- * by auto. destruct (J5 x kx Hx Ho) as (q & subq & A & B & C).
      destruct (Hext q subq B) as (subq' & t & B' & Et). exists q, subq'. split; auto. split; auto.
      rewrite Et. apply firstn_ext. auto.
  - intros x1 x2 k1 k2 q A1 A2 O1 O2 M1 M2. apply h_open in O1, O2.
    destruct O1 as [->|O1], O2 as [->|O2].
    + eapply bcopy_fun; eauto.
    + rewrite R1 in M1. injection M1 as <-. rewrite (R8 x2 k2) by auto. exact (bcopy_fun sc _ _ A1 Hk).
    + rewrite R1 in M2. injection M2 as <-. rewrite (R8 x1 k1) by auto. exact (bcopy_fun sc _ _ Hk A2).
    + eapply J6; [exact A1|exact A2|exact O1|exact O2|exact M1|exact M2].
  - intros x kx Hx Ho. apply h_open in Ho. destruct Ho as [->|Ho].
    + rewrite (bcopy_fun _ _ _ Hx Hk). destruct (J7 sc0 k R4 R5) as (x' & A & B & C). exists x'. split; auto. split; [apply h_open; auto|auto].
    + destruct (J7 x kx Hx Ho) as (x' & A & B & C). exists x'. split; auto. split; [apply h_open; auto|auto].
  - intros q1 q2 Hq. destruct (J8 q1 q2 Hq) as (s1 & s2 & d & A & B & C).
    destruct (Hext q1 s1 A) as (s1' & t1 & A' & E1). destruct (Hext q2 s2 B) as (s2' & t2 & B' & E2).
    exists s1', s2', d. split; auto. split; auto. rewrite E1, E2. apply split_at_app. auto.
  - intros q1 q2 x1 x2 k1 k2 Hq A1 A2 O1 O2 M1 M2. apply h_open in O1, O2.
    destruct O1 as [->|O1], O2 as [->|O2].
    + eapply bcopy_fun; eauto.
    + rewrite R1 in M1. injection M1 as <-. rewrite (bcopy_fun _ _ _ A1 Hk).
      eapply J9; [exact Hq|exact R4|exact A2|exact R5|exact O2|exact R6|exact M2].
    + rewrite R1 in M2. injection M2 as <-. rewrite (bcopy_fun _ _ _ A2 Hk).
      eapply J9; [exact Hq|exact A1|exact R4|exact O1|exact R5|exact M1|exact R6].
    + eapply J9; [exact Hq|exact A1|exact A2|exact O1|exact O2|exact M1|exact M2].
  - rewrite upd_length. apply count_ext. auto.
Qed.

(** The copy parts from the copy its record belongs to. *)
Section Part.
Variable l0 : sclayer G.
Hypothesis P1 : nth_error (thist sc0 evs) (length (thist sc evs)) = Some l0.
Hypothesis P2 : l <> l0.

Lemma part_ne : sc0 <> sc.
Proof. intros E. rewrite E in P1. assert (length (thist sc evs) < length (thist sc evs)) by (apply nth_error_Some; congruence). lia. Qed.

Lemma part_split : split_at (thist sc evs') (thist sc0 evs) (length (thist sc evs)).
Proof.
  split.
  - intros j Hj. rewrite h_own, nth_error_app1 by auto.
    destruct (nth_error (thist sc evs) j) as [y|] eqn:Ey; [|apply nth_error_None in Ey; lia].
    symmetry. eapply firstn_nth; eauto.
  - exists l, l0. rewrite h_own, nth_error_app2, Nat.sub_diag by lia. auto.
Qed.

(** The search neither panics nor finds a wrong record. *)
Lemma part_find : forall ks, (forall q, In q ks -> In q (sp_get sp r)) ->
  find_split geqb (st_subs s) (length (thist sc evs)) l ks = Some None \/
  exists q subq, find_split geqb (st_subs s) (length (thist sc evs)) l ks = Some (Some q) /\ In q (sp_get sp r) /\
    nth_error (st_subs s) q = Some subq /\
    firstn (length (thist sc evs')) (ss_layers subq) = thist sc evs'.
Proof.
  destruct HI as [J1 J2 J3 J4 J5 J6 J7 J8 J9 J10].
  induction ks as [|q ks IH]; intros Hks; [left; auto|].
  destruct (J8 r q (Hks q (or_introl eq_refl))) as (sub0 & subq & d & A & B & C).
  rewrite R2 in A. injection A as <-. rewrite (ro_layers _ _ _ R3) in C.
  destruct (J4 q subq B) as (x & kx & X1 & X2 & X3 & X4).
  assert (kx = k).
  { symmetry. eapply J9; [apply (Hks q); simpl; auto|exact R4|exact X1|exact R5|exact X2|exact R6|exact X3]. }
  subst kx. rewrite (ro_layers _ _ _ X4) in C.
  assert (K : exists y, nth_error (thist x evs) (length (thist sc evs)) = Some y /\
    (y = l -> firstn (length (thist sc evs')) (thist x evs) = thist sc evs')).
  { destruct C as (C1 & a & b & C2 & C3 & C4). destruct (Nat.lt_ge_cases d (length (thist sc evs))) as [Hd|Hd].
    - assert (Hs : split_at (thist sc evs) (thist x evs) d).
      { assert (Q : forall j, j <= d -> nth_error (thist sc evs) j = nth_error (thist sc0 evs) j).
        { intros j Hj. destruct (nth_error (thist sc evs) j) as [y|] eqn:Ey; [|apply nth_error_None in Ey; lia].
          symmetry. eapply firstn_nth; eauto. }
        split.
        - intros j Hj. rewrite Q by lia. auto.
        - exists a, b. rewrite Q by lia. auto. }
      destruct (Hclean evs (sc, simd, l) rest k sc0 x d Hall Hk R4 X1 part_split Hs) as (y & Y1 & Y2).
      cbn [fst snd] in *. exists y. split; auto. intros E. contradiction.
    - assert (Hl : d < length (thist x evs)) by (apply nth_error_Some; congruence).
      destruct (nth_error (thist x evs) (length (thist sc evs))) as [y|] eqn:Ey; [|apply nth_error_None in Ey; lia].
      exists y. split; auto. intros ->. apply firstn_all_of. intros j z Hj. rewrite h_own in Hj.
      destruct (Nat.lt_ge_cases j (length (thist sc evs))) as [Hlt|Hge].
      + rewrite nth_error_app1 in Hj by auto. rewrite <- C1 by lia. eapply firstn_nth; eauto.
      + assert (j < length (thist sc evs ++ [l])) by (apply nth_error_Some; congruence). rewrite app_length in H. simpl in H.
        assert (j = length (thist sc evs)) by lia. subst j. rewrite nth_error_app2, Nat.sub_diag in Hj by lia. simpl in Hj. congruence. }
  destruct K as (y & K1 & K2). cbn [find_split]. rewrite B. cbn [obind]. rewrite (ro_layers _ _ _ X4), K1. cbn [obind].
  destruct (sl_eqb geqb l y) eqn:E.
  - apply (sl_eqb_spec geqb Hg) in E. right. exists q, subq. split; auto. split; [apply Hks; simpl; auto|].
    split; auto. rewrite (ro_layers _ _ _ X4). auto.
  - apply IH. intros; apply Hks; simpl; auto.
Qed.

Lemma step_remap q subq : In q (sp_get sp r) -> nth_error (st_subs s) q = Some subq ->
  firstn (length (thist sc evs')) (ss_layers subq) = thist sc evs' ->
  Inv evs' (SCirc (st_ins s) (st_outs s) (st_subs s) (upd sc q (st_map s)) (st_layers s) (st_conns s)) sp ptrs'.
Proof.
  intros Q1 Q2 Q3. destruct HI as [J1 J2 J3 J4 J5 J6 J7 J8 J9 J10]. pose proof part_ne as Hne.
  assert (Hlt : sc < length (st_map s)) by (apply nth_error_Some; congruence).
  assert (Mo : forall x, x <> sc -> nth_error (upd sc q (st_map s)) x = nth_error (st_map s) x)
    by (intros; apply upd_nth_error_other; auto).
  assert (Ms : nth_error (upd sc q (st_map s)) sc = Some q) by (apply upd_nth_error_same; auto).
  (* the owners stay *)
  assert (Own : forall q' sub', nth_error (st_subs s) q' = Some sub' -> exists x kx, bcopy x kx /\ thist x evs <> [] /\
     x <> sc /\ nth_error (st_map s) x = Some q' /\ rec_ok sub' (simd_of kx) (thist x evs)).
  { intros q' sub' H'. destruct (Nat.eq_dec q' r) as [->|Hqr].
    - rewrite R2 in H'. injection H' as <-. exists sc0, k. auto.
    - destruct (J4 q' sub' H') as (x & kx & A & B & C & D). exists x, kx. repeat split; auto; try apply D. intros ->. congruence. }
  (* the family of [q] *)
  assert (Fq : forall x kx, bcopy x kx -> thist x evs <> [] -> nth_error (st_map s) x = Some q -> kx = k).
  { intros x kx X1 X2 X3. symmetry. eapply J9; [exact Q1|exact R4|exact X1|exact R5|exact X2|exact R6|exact X3]. }
  destruct (Own q subq Q2) as (xq & kq & Xq1 & Xq2 & Xq3 & Xq4 & _).
  assert (kq = k) by (eapply Fq; eauto). subst kq.
  constructor; cbn [st_map st_subs]; auto.
  - rewrite upd_length. auto.
  - intros x kx Hx E. assert (x <> sc) by (intros ->; rewrite h_own in E; apply app_eq_nil in E; destruct E; discriminate).
    rewrite Mo by auto. apply J3; auto. rewrite h_other in E by auto. auto.
  - intros q' sub' Hq'. destruct (Own q' sub' Hq') as (x & kx & A & B & C & D & F). exists x, kx. split; auto.
    split; [apply h_open; auto|]. rewrite Mo, h_other by auto. auto.
  - intros x kx Hx Ho. destruct (Nat.eq_dec x sc) as [->|Hx'].
    + exists q, subq. auto.
    + rewrite h_other in Ho |- * by auto. rewrite Mo by auto. apply (J5 x kx); auto.
  - intros x1 x2 k1 k2 q' A1 A2 O1 O2 M1 M2. 
    destruct (Nat.eq_dec x1 sc) as [->|N1], (Nat.eq_dec x2 sc) as [->|N2].
    + eapply bcopy_fun; eauto.
    + rewrite Ms in M1. injection M1 as <-. rewrite Mo in M2 by auto. rewrite h_other in O2 by auto.
      rewrite (Fq x2 k2) by auto. exact (bcopy_fun sc _ _ A1 Hk).
    + rewrite Ms in M2. injection M2 as <-. rewrite Mo in M1 by auto. rewrite h_other in O1 by auto.
      rewrite (Fq x1 k1) by auto. exact (bcopy_fun sc _ _ Hk A2).
    + rewrite Mo in M1, M2 by auto. rewrite h_other in O1, O2 by auto.
      eapply J6; [exact A1|exact A2|exact O1|exact O2|exact M1|exact M2].
  - assert (Prim : forall kx, (exists x, bcopy x kx /\ thist x evs <> []) ->
      exists x', bcopy x' kx /\ thist x' evs' <> [] /\ nth_error (upd sc q (st_map s)) x' = Some kx).
    { intros kx (x & Hx & Ho). destruct (J7 x kx Hx Ho) as (x' & A & B & C). destruct (Nat.eq_dec x' sc) as [->|N].
      - rewrite (bcopy_fun _ _ _ A Hk) in *. exists sc0. split; auto. split; [apply h_open; auto|]. rewrite Mo by auto. congruence.
      - exists x'. split; auto. split; [apply h_open; auto|]. rewrite Mo by auto. auto. }
    intros x kx Hx Ho. apply h_open in Ho. destruct Ho as [->|Ho]; apply Prim; eauto.
    rewrite (bcopy_fun _ _ _ Hx Hk). eauto.
  - intros q1 q2 x1 x2 k1 k2 Hq A1 A2 O1 O2 M1 M2.
    destruct (Nat.eq_dec x1 sc) as [->|N1], (Nat.eq_dec x2 sc) as [->|N2].
    + eapply bcopy_fun; eauto.
    + rewrite Ms in M1. injection M1 as <-. rewrite Mo in M2 by auto. rewrite h_other in O2 by auto.
      rewrite (bcopy_fun _ _ _ A1 Hk).
      eapply J9; [exact Hq|exact Xq1|exact A2|exact Xq2|exact O2|exact Xq4|exact M2].
    + rewrite Ms in M2. injection M2 as <-. rewrite Mo in M1 by auto. rewrite h_other in O1 by auto.
      rewrite (bcopy_fun _ _ _ A2 Hk).
      eapply J9; [exact Hq|exact A1|exact Xq1|exact O1|exact Xq2|exact M1|exact Xq4].
    + rewrite Mo in M1, M2 by auto. rewrite h_other in O1, O2 by auto.
      eapply J9; [exact Hq|exact A1|exact A2|exact O1|exact O2|exact M1|exact M2].
  - apply count_ext. auto.
Qed.

Lemma step_split :
  let n := length (st_subs s) in
  Inv evs' (SCirc (st_ins s) (st_outs s) (st_subs s ++ [ss_push (ss_truncate sub (length (thist sc evs))) l])
              (upd sc n (st_map s)) (st_layers s) (st_conns s)) (sp_push sp r n) ptrs'.
Proof.
  intros n. destruct HI as [J1 J2 J3 J4 J5 J6 J7 J8 J9 J10]. pose proof part_ne as Hne.
  set (new := ss_push (ss_truncate sub (length (thist sc evs))) l).
  assert (Hrec : rec_ok new (simd_of k) (thist sc evs')).
  { rewrite h_own. unfold new. apply rec_push. pose proof (rec_truncate _ _ _ (length (thist sc evs)) R3) as X. rewrite R7 in X. auto. }
  assert (Hrl : r < n) by (apply nth_error_Some; congruence).
  assert (Hlt : sc < length (st_map s)) by (apply nth_error_Some; congruence).
  assert (Mo : forall x, x <> sc -> nth_error (upd sc n (st_map s)) x = nth_error (st_map s) x)
    by (intros; apply upd_nth_error_other; auto).
  assert (Ms : nth_error (upd sc n (st_map s)) sc = Some n) by (apply upd_nth_error_same; auto).
  assert (Go : forall q x, nth_error (st_subs s) q = Some x -> nth_error (st_subs s ++ [new]) q = Some x).
  { intros q x Hq. rewrite nth_error_app1; auto. apply nth_error_Some. congruence. }
  assert (Gn : nth_error (st_subs s ++ [new]) n = Some new) by (rewrite nth_error_app2, Nat.sub_diag by (unfold n; lia); auto).
  assert (Old : forall x kx, bcopy x kx -> thist x evs <> [] -> nth_error (st_map s) x <> Some n).
  { intros x kx X1 X2 E. destruct (J5 x kx X1 X2) as (q & sq & Y1 & Y2 & _). rewrite E in Y1. injection Y1 as <-.
    assert (n < length (st_subs s)) by (apply nth_error_Some; congruence). unfold n in H. lia. }
  assert (Own : forall q' sub', nth_error (st_subs s) q' = Some sub' -> exists x kx, bcopy x kx /\ thist x evs <> [] /\
     x <> sc /\ nth_error (st_map s) x = Some q' /\ rec_ok sub' (simd_of kx) (thist x evs)).
  { intros q' sub' H'. destruct (Nat.eq_dec q' r) as [->|Hqr].
    - rewrite R2 in H'. injection H' as <-. exists sc0, k. auto.
    - destruct (J4 q' sub' H') as (x & kx & A & B & C & D). exists x, kx. repeat split; auto; try apply D. intros ->. congruence. }
  constructor; cbn [st_map st_subs]; auto.
  - rewrite upd_length. auto.
  - intros x kx Hx E. assert (x <> sc) by (intros ->; rewrite h_own in E; apply app_eq_nil in E; destruct E; discriminate).
    rewrite Mo by auto. apply J3; auto. rewrite h_other in E by auto. auto.
  - intros q' sub' Hq'. destruct (Nat.lt_ge_cases q' n) as [Hlt'|Hge].
    + rewrite nth_error_app1 in Hq' by auto. destruct (Own q' sub' Hq') as (x & kx & A & B & C & D & F). exists x, kx. split; auto.
      split; [apply h_open; auto|]. rewrite Mo, h_other by auto. auto.
    + assert (q' < length (st_subs s ++ [new])) by (apply nth_error_Some; congruence). rewrite app_length in H. simpl in H.
      assert (q' = n) by (unfold n in *; lia). subst q'. rewrite Gn in Hq'. injection Hq' as <-. exists sc, k.
      split; auto. split; [apply h_open; auto|]. auto.
  - intros x kx Hx Ho. destruct (Nat.eq_dec x sc) as [->|Hx'].
    + exists n, new. split; auto. split; auto. rewrite (ro_layers _ _ _ Hrec). apply firstn_all.
    + rewrite h_other in Ho |- * by auto. rewrite Mo by auto. destruct (J5 x kx) as (q & sq & A & B & C); auto.
      exists q, sq. auto.
  - intros x1 x2 k1 k2 q' A1 A2 O1 O2 M1 M2. 
    destruct (Nat.eq_dec x1 sc) as [->|N1], (Nat.eq_dec x2 sc) as [->|N2].
    + eapply bcopy_fun; eauto.
    + exfalso. rewrite Ms in M1. injection M1 as <-. rewrite Mo in M2 by auto. rewrite h_other in O2 by auto. apply (Old x2 k2); auto.
    + exfalso. rewrite Ms in M2. injection M2 as <-. rewrite Mo in M1 by auto. rewrite h_other in O1 by auto. apply (Old x1 k1); auto.
    + rewrite Mo in M1, M2 by auto. rewrite h_other in O1, O2 by auto.
      eapply J6; [exact A1|exact A2|exact O1|exact O2|exact M1|exact M2].
  - assert (Prim : forall kx, (exists x, bcopy x kx /\ thist x evs <> []) ->
      exists x', bcopy x' kx /\ thist x' evs' <> [] /\ nth_error (upd sc n (st_map s)) x' = Some kx).
    { intros kx (x & Hx & Ho). destruct (J7 x kx Hx Ho) as (x' & A & B & C). destruct (Nat.eq_dec x' sc) as [->|N].
      - rewrite (bcopy_fun _ _ _ A Hk) in *. exists sc0. split; auto. split; [apply h_open; auto|]. rewrite Mo by auto. congruence.
      - exists x'. split; auto. split; [apply h_open; auto|]. rewrite Mo by auto. auto. }
    intros x kx Hx Ho. apply h_open in Ho. destruct Ho as [->|Ho]; apply Prim; eauto.
    rewrite (bcopy_fun _ _ _ Hx Hk). eauto.
  - intros q1 q2 Hq. rewrite sp_get_push in Hq. apply in_app_or in Hq. destruct Hq as [Hq|Hq].
    + destruct (J8 q1 q2 Hq) as (s1 & s2 & d & A & B & C). exists s1, s2, d. auto.
    + destruct (Nat.eqb_spec r q1) as [<-|]; [|destruct Hq]. destruct Hq as [<-|[]].
      exists sub, new, (length (thist sc evs)). split; auto. split; auto. rewrite (ro_layers _ _ _ R3), (ro_layers _ _ _ Hrec).
      destruct part_split as (S1 & a & b & S2 & S3 & S4). split; [intros; symmetry; auto|]. exists b, a. auto.
  - intros q1 q2 x1 x2 k1 k2 Hq A1 A2 O1 O2 M1 M2. rewrite sp_get_push in Hq. apply in_app_or in Hq.
    destruct Hq as [Hq|Hq].
    + destruct (J8 q1 q2 Hq) as (s1 & s2 & d & B1 & B2 & _).
      assert (L1 : q1 < n) by (apply nth_error_Some; congruence). assert (L2 : q2 < n) by (apply nth_error_Some; congruence).
      destruct (Nat.eq_dec x1 sc) as [->|N1]; [rewrite Ms in M1; injection M1; lia|].
      destruct (Nat.eq_dec x2 sc) as [->|N2]; [rewrite Ms in M2; injection M2; lia|].
      rewrite Mo in M1, M2 by auto. rewrite h_other in O1, O2 by auto.
      eapply J9; [exact Hq|exact A1|exact A2|exact O1|exact O2|exact M1|exact M2].
    + destruct (Nat.eqb_spec r q1) as [<-|]; [|destruct Hq]. destruct Hq as [<-|[]].
      destruct (Nat.eq_dec x1 sc) as [->|N1]; [rewrite Ms in M1; injection M1; lia|].
      rewrite Mo in M1 by auto. rewrite h_other in O1 by auto. rewrite (R8 x1 k1) by auto.
      destruct (Nat.eq_dec x2 sc) as [->|N2]; [exact (bcopy_fun sc _ _ Hk A2)|].
      exfalso. rewrite Mo in M2 by auto. rewrite h_other in O2 by auto. apply (Old x2 k2); auto.
  - right. exists sc, sc0, k, (length (thist sc evs)). split; auto. split; auto. rewrite (h_other sc0) by auto. apply part_split.
Qed.
End Part.
End Open.
End Step.

Lemma inv_step evs e rest s sp ptrs : all = evs ++ e :: rest -> Inv evs s sp ptrs ->
  exists s' sp' ptrs', st_ev (s, sp, ptrs) e = Some (s', sp', ptrs') /\ Inv (evs ++ [e]) s' sp' ptrs' /\ kept_fields s s'.
Proof.
  intros Hall HI. destruct e as [[sc simd] l].
  destruct (Hbase (sc, simd, l)) as (k & Hk & Hsimd); [rewrite Hall; apply in_or_app; simpl; auto|]. cbn [fst snd] in Hk, Hsimd.
  assert (Hlt : sc < length base) by (apply nth_error_Some; unfold bcopy in Hk; congruence).
  destruct (ptrs_step evs ptrs (sc, simd, l) (iv_ptrs _ _ _ _ HI) Hlt) as (p & Ep & Ep' & Hp'). cbn [fst] in Ep, Ep', Hp'.
  assert (Hdec : (forall x, bcopy x k -> thist x evs = []) \/ exists x, bcopy x k /\ thist x evs <> []).
  { destruct (existsb (fun e' => match nth_error base (fst (fst e')) with Some k' => k' =? k | None => false end) evs) eqn:Ex.
    - right. apply existsb_exists in Ex. destruct Ex as (e' & He' & Hb). exists (fst (fst e')). unfold bcopy.
      destruct (nth_error base (fst (fst e'))) as [k'|] eqn:Ek'; [|discriminate]. apply Nat.eqb_eq in Hb. subst k'. split; auto.
      apply thist_In. eauto.
    - left. intros x Hx. destruct (thist x evs) eqn:Et; auto. exfalso. assert (X : thist x evs <> []) by congruence.
      apply thist_In in X. destruct X as (e' & He' & <-).
      assert (Y : existsb (fun e' => match nth_error base (fst (fst e')) with Some k' => k' =? k | None => false end) evs = true);
        [|congruence]. apply existsb_exists. exists e'. split; auto. unfold bcopy in Hx. rewrite Hx. apply Nat.eqb_refl. }
  unfold st_ev, st_put. destruct Hdec as [Hnew|Hold].
  - destruct (step_open evs rest sc simd l s sp ptrs k Hall HI Hk Hsimd Hnew) as (A & B & C).
    rewrite A. cbn [obind]. rewrite B. cbn [obind fst]. rewrite Ep. cbn [obind]. do 3 eexists. split; [reflexivity|].
    split; [apply C; auto|unfold kept_fields; cbn; auto].
  - destruct (step_record evs sc s sp ptrs k HI Hk Hold) as (r & sub & sc0 & R1 & R2 & R3 & R4 & R5 & R6 & R7 & R8).
    rewrite R1. cbn [obind]. rewrite R2, Ep. cbn [obind]. rewrite (ro_layers _ _ _ R3).
    pose proof (firstn_len _ _ R7) as Hle. rewrite <- Ep' in *.
    destruct (nth_error (thist sc0 evs) p) as [l0|] eqn:El0.
    + destruct (sl_eqb geqb l l0) eqn:Eq.
      * apply (sl_eqb_spec geqb Hg) in Eq. subst l0. cbn [obind fst]. rewrite Ep. cbn [obind].
        do 3 eexists. split; [reflexivity|]. split; [|unfold kept_fields; auto].
        rewrite Ep' in El0, R7. eapply (step_same evs sc simd l s sp ptrs k HI Hk r sub sc0); eauto.
      * assert (Hneq : l <> l0) by (intros ->; rewrite (proj2 (sl_eqb_spec geqb Hg l0 l0) eq_refl) in Eq; discriminate).
        assert (R7' : firstn (length (thist sc evs)) (thist sc0 evs) = thist sc evs) by (rewrite <- Ep'; auto).
        assert (El0' : nth_error (thist sc0 evs) (length (thist sc evs)) = Some l0) by (rewrite <- Ep'; auto).
        destruct (part_find evs rest sc simd l s sp ptrs k Hall HI Hk r sub sc0 R2 R3 R4 R5 R6 R7' l0 El0' Hneq (sp_get sp r))
          as [F|(q & subq & F & Q1 & Q2 & Q3)]; auto; rewrite <- Ep' in F; rewrite F; cbn [obind fst]; rewrite Ep; cbn [obind].
        -- do 3 eexists. split; [reflexivity|]. split; [|unfold kept_fields; cbn; auto].
           rewrite Ep' in Hp' |- *. eapply (step_split evs sc simd l s sp ptrs k HI Hk r sub sc0); eauto.
        -- do 3 eexists. split; [reflexivity|]. split; [|unfold kept_fields; cbn; auto].
           eapply (step_remap evs sc simd l s sp ptrs k HI Hk r sub sc0); eauto.
    + apply nth_error_None in El0. cbn [obind fst]. rewrite Ep. cbn [obind].
      do 3 eexists. split; [reflexivity|]. split; [|unfold kept_fields; cbn; auto].
      eapply (step_push evs sc simd l s sp ptrs k HI Hk r sub sc0); eauto; try (rewrite <- Ep'; auto); lia.
Qed.

Lemma inv_final s sp ptrs : Inv all s sp ptrs -> Final s.
Proof.
  intros [J1 J2 J3 J4 J5 J6 J7 J8 J9 J10]. split; auto. intros sc k Hk Hne.
  destruct (J5 sc k Hk Hne) as (r & sub & A & B & C). destruct (J4 r sub B) as (sc' & k' & D & E & F & R).
  assert (k' = k) by (eapply J6; [exact D|exact Hk|exact E|exact Hne|exact F|exact A]). subst k'.
  exists sub, sc'. unfold st_get. rewrite A. cbn [obind]. split; auto. split; auto. split; auto.
  rewrite <- (ro_layers _ _ _ R). auto.
Qed.
End Parting.
End Machine.
