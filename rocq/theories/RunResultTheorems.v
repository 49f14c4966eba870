(** C75: means of run results. *)
From Coq Require Import List Bool Arith Lia.
Require Import Verif.Prelude Verif.StatModel Verif.StatTheorems Verif.RunResultModel.
Import ListNotations.

(** ** Specification *)

(** The map has at most one entry per phase, as every [IndexMap]. *)
Definition one_each {A} (m : list (phase * A)) : Prop := NoDup (map fst m).
Definition proper (r : run_result) : Prop := one_each (rr_comm r) /\ one_each (rr_time r).

(** [v] is the entry of [ph]. *)
Definition entry {A} (m : list (phase * A)) (ph : phase) (v : A) : Prop := In (ph, v) m.
(** What the runs recorded for [ph], one number per run; nothing counts as zero. *)
Inductive amounts {A} (ph : phase) (f : A -> nat) : list (list (phase * A)) -> list nat -> Prop :=
| amounts_nil : amounts ph f [] []
| amounts_some m ms v ns : entry m ph v -> amounts ph f ms ns -> amounts ph f (m :: ms) (f v :: ns)
| amounts_none m ms ns : (forall v, ~ entry m ph v) -> amounts ph f ms ns -> amounts ph f (m :: ms) (0 :: ns).

(** [q] is the quotient of [x] by [n], rounded down. *)
Definition floor_of (q x n : nat) : Prop := q * n <= x < (q + 1) * n.

(** ** Entries of maps *)
Section Maps.
Context {A : Type} (zero : A) (add : A -> A -> A).
Notation im_add := (im_add zero add).
Notation im_merge := (im_merge zero add).

Lemma eqb_refl_ph p : phase_eqb p p = true.
Proof. apply phase_eqb_eq. reflexivity. Qed.
Lemma eqb_ne a b : a <> b -> phase_eqb a b = false.
Proof. intros H. destruct (phase_eqb a b) eqn:E; auto. apply phase_eqb_eq in E. contradiction. Qed.

Definition val (ph : phase) (m : list (phase * A)) : A := match im_get ph m with Some v => v | None => zero end.

Lemma get_entry (m : list (phase * A)) ph v : one_each m -> (im_get ph m = Some v <-> entry m ph v).
Proof.
  clear zero add. unfold one_each, entry. induction m as [|[p x] m IH]; intros H; cbn [im_get In]; [split; [discriminate|tauto]|].
  cbn [map fst] in H. apply NoDup_cons_iff in H. destruct H as [H1 H2]. destruct (phase_eqb ph p) eqn:E.
  - apply phase_eqb_eq in E. subst p. split; [intros [= ->]; auto|]. intros [[= ->]|Hi]; auto. exfalso. apply H1.
    apply (in_map fst) in Hi. exact Hi.
  - rewrite (IH H2). split; [auto|]. intros [[= -> _]|Hi]; auto. rewrite eqb_refl_ph in E. discriminate.
Qed.
Lemma get_none (m : list (phase * A)) ph : im_get ph m = None <-> (forall v, ~ entry m ph v).
Proof.
  unfold entry. induction m as [|[p x] m IH]; cbn [im_get In]; [split; auto|]. destruct (phase_eqb ph p) eqn:E.
  - apply phase_eqb_eq in E. subst p. split; [discriminate|]. intros H. destruct (H x). auto.
  - rewrite IH. split; intros H v.
    + intros [[= -> _]|Hi]; [rewrite eqb_refl_ph in E; discriminate|]. exact (H v Hi).
    + intros Hi. apply (H v). auto.
Qed.

Lemma get_add ph q v m : im_get ph (im_add q v m) = if phase_eqb ph q then Some (add (val ph m) v) else im_get ph m.
Proof.
  unfold val. induction m as [|[p x] m IH]; cbn [RunResultModel.im_add im_get].
  - destruct (phase_eqb ph q); reflexivity.
  - destruct (phase_eqb q p) eqn:Eq; cbn [im_get].
    + apply phase_eqb_eq in Eq. subst p. destruct (phase_eqb ph q) eqn:E; reflexivity.
    + destruct (phase_eqb ph p) eqn:E; auto. apply phase_eqb_eq in E. subst p.
      destruct (phase_eqb ph q) eqn:E2; auto. apply phase_eqb_eq in E2. subst q. rewrite eqb_refl_ph in Eq. discriminate.
Qed.
Lemma add_keys q v m : In q (map fst m) /\ map fst (im_add q v m) = map fst m \/ ~ In q (map fst m) /\ map fst (im_add q v m) = map fst m ++ [q].
Proof.
  induction m as [|[p x] m IH]; cbn [RunResultModel.im_add map fst In app]; [right; auto|].
  destruct (phase_eqb q p) eqn:E; cbn [map fst]; [apply phase_eqb_eq in E; auto|].
  assert (p <> q) by (intros ->; rewrite eqb_refl_ph in E; discriminate).
  destruct IH as [[H1 H2]|[H1 H2]]; rewrite H2; [left|right]; split; auto. tauto.
Qed.
Lemma add_one_each q v m : one_each m -> one_each (im_add q v m).
Proof.
  unfold one_each. intros H. destruct (add_keys q v m) as [[_ ->]|[H1 ->]]; auto.
  apply NoDup_rev in H. rewrite <- (rev_involutive (map fst m ++ [q])). apply NoDup_rev. rewrite rev_app_distr. cbn [rev app].
  constructor; auto. rewrite <- in_rev. exact H1.
Qed.
Lemma merge_one_each m : forall acc, one_each acc -> one_each (im_merge acc m).
Proof. induction m as [|e m IH]; intros acc H; auto. cbn. apply IH, add_one_each, H. Qed.

Lemma get_merge ph m : one_each m -> forall acc,
  im_get ph (im_merge acc m) = match im_get ph m with Some v => Some (add (val ph acc) v) | None => im_get ph acc end.
Proof.
  unfold one_each. induction m as [|[p x] m IH]; intros H acc; auto. cbn [map fst] in H. apply NoDup_cons_iff in H. destruct H as [H1 H2].
  change (im_merge acc ((p, x) :: m)) with (im_merge (im_add p x acc) m). rewrite IH by auto. cbn [im_get]. unfold val. rewrite get_add.
  destruct (phase_eqb ph p) eqn:E; auto. apply phase_eqb_eq in E. subst p.
  destruct (im_get ph m) eqn:Eg; auto. exfalso. apply H1. apply get_entry in Eg; auto. apply (in_map fst) in Eg. exact Eg.
Qed.

(** Of all runs. *)
Lemma get_all ph : forall ms acc, Forall one_each ms ->
  im_get ph (fold_left im_merge ms acc) =
  if existsb (fun m => match im_get ph m with Some _ => true | None => false end) ms
  then Some (fold_left (fun a m => match im_get ph m with Some v => add a v | None => a end) ms (val ph acc))
  else im_get ph acc.
Proof.
  induction ms as [|m ms IH]; intros acc H; auto. apply Forall_cons_iff in H. destruct H as [H1 H2]. cbn [fold_left existsb].
  rewrite IH by auto. assert (HV : val ph (im_merge acc m) = match im_get ph m with Some v => add (val ph acc) v | None => val ph acc end).
  { unfold val. rewrite get_merge by auto. destruct (im_get ph m); reflexivity. }
  rewrite HV, get_merge by auto. destruct (im_get ph m); cbn [orb].
  - destruct (existsb _ ms) eqn:E; auto. f_equal. clear -E. revert E. generalize (add (val ph acc) a). induction ms as [|m ms IH]; intros b E; auto.
    cbn [existsb fold_left] in *. destruct (im_get ph m); [discriminate|]. auto.
  - reflexivity.
Qed.
Lemma all_one_each ms : forall acc, one_each acc -> one_each (fold_left im_merge ms acc).
Proof. induction ms as [|m ms IH]; intros acc H; auto. cbn. apply IH, merge_one_each, H. Qed.

(** The sum of a component over all entries. *)
Variable f : A -> nat.
Hypothesis f_zero : f zero = 0.
Hypothesis f_add : forall a b, f (add a b) = f a + f b.
Definition total (m : list (phase * A)) : nat := sum_list (map (fun e => f (snd e)) m).
Lemma total_add q v m : total (im_add q v m) = total m + f v.
Proof.
  unfold total, sum_list. induction m as [|[p x] m IH]; cbn [RunResultModel.im_add]; [cbn; rewrite f_add, f_zero; lia|].
  destruct (phase_eqb q p); cbn [map fold_right snd]; [rewrite f_add; lia|]. cbn [map fold_right snd] in IH. rewrite IH. lia.
Qed.
Lemma total_merge m : forall acc, total (im_merge acc m) = total acc + total m.
Proof.
  induction m as [|e m IH]; intros acc; [change (im_merge acc []) with acc; change (total []) with 0; lia|]. change (im_merge acc (e :: m)) with (im_merge (im_add (fst e) (snd e) acc) m).
  rewrite IH, total_add. unfold total, sum_list. cbn [map fold_right]. lia.
Qed.
Lemma total_all ms : forall acc, total (fold_left im_merge ms acc) = total acc + sum_list (map total ms).
Proof.
  induction ms as [|m ms IH]; intros acc; [symmetry; apply Nat.add_0_r|]. cbn [fold_left]. rewrite IH, total_merge. unfold sum_list. cbn [map fold_right]. lia.
Qed.

Lemma fold_f ph ms : forall a, f (fold_left (fun a m => match im_get ph m with Some v => add a v | None => a end) ms a) =
  f a + sum_list (map (fun m => match im_get ph m with Some v => f v | None => 0 end) ms).
Proof.
  clear f_zero zero. unfold sum_list. induction ms as [|m ms IH]; intros a; [symmetry; apply Nat.add_0_r|]. cbn [fold_left map fold_right]. rewrite IH. destruct (im_get ph m); [rewrite f_add|]; lia.
Qed.
Lemma amounts_of ph ms ns : Forall one_each ms -> amounts ph f ms ns ->
  ns = map (fun m => match im_get ph m with Some v => f v | None => 0 end) ms.
Proof.
  intros H HA. induction HA as [|m ms v ns He HA IH|m ms ns He HA IH]; auto; apply Forall_cons_iff in H; destruct H as [H1 H2]; cbn [map].
  - apply get_entry in He; auto. rewrite He, <- IH; auto.
  - apply get_none in He. rewrite He, <- IH; auto.
Qed.
Lemma amounts_ex ph ms : Forall one_each ms -> exists ns, amounts ph f ms ns.
Proof.
  intros H. induction H as [|m ms H1 H2 (ns & IH)]; [exists []; constructor|]. destruct (im_get ph m) as [v|] eqn:E.
  - exists (f v :: ns). constructor; auto. apply get_entry; auto.
  - exists (0 :: ns). constructor; auto. apply get_none; auto.
Qed.
End Maps.

Lemma floor_div x n : n <> 0 -> floor_of (x / n) x n.
Proof. intros H. pose proof (Nat.div_mod x n H). pose proof (Nat.mod_upper_bound x n H). unfold floor_of. nia. Qed.

(** ** The mean, phase by phase *)
Lemma mean_split data :
  rr_mean data =
  RR (map (fun e => (fst e, pair_div (snd e) (length data))) (fold_left (im_merge (0, 0) pair_add) (map rr_comm data) []))
     (map (fun e => (fst e, snd e / length data)) (fold_left (im_merge 0 Nat.add) (map rr_time data) [])).
Proof.
  unfold rr_mean.
  assert (G : forall l a b, fold_left (fun r v => RR (im_merge (0, 0) pair_add (rr_comm r) (rr_comm v)) (im_merge 0 Nat.add (rr_time r) (rr_time v))) l (RR a b) =
    RR (fold_left (im_merge (0, 0) pair_add) (map rr_comm l) a) (fold_left (im_merge 0 Nat.add) (map rr_time l) b)).
  { induction l as [|x l IH]; intros a b; auto. cbn [fold_left map rr_comm rr_time]. apply IH. }
  rewrite G. reflexivity.
Qed.
Lemma keys_map {A B} (g : A -> B) (m : list (phase * A)) : map fst (map (fun e => (fst e, g (snd e))) m) = map fst m.
Proof. rewrite map_map. reflexivity. Qed.
Lemma get_map {A B} (g : A -> B) ph (m : list (phase * A)) : im_get ph (map (fun e => (fst e, g (snd e))) m) = option_map g (im_get ph m).
Proof. induction m as [|[p x] m IH]; auto. cbn [map im_get fst snd]. rewrite IH. destruct (phase_eqb ph p); reflexivity. Qed.

Lemma mean_comm data ph : Forall proper data ->
  im_get ph (rr_comm (rr_mean data)) =
  if existsb (fun m => match im_get ph m with Some _ => true | None => false end) (map rr_comm data) then
    Some (sum_list (map (fun m => match im_get ph m with Some v => fst v | None => 0 end) (map rr_comm data)) / length data,
          sum_list (map (fun m => match im_get ph m with Some v => snd v | None => 0 end) (map rr_comm data)) / length data)
  else None.
Proof.
  intros H. rewrite mean_split. cbn [rr_comm]. rewrite (get_map (fun v => pair_div v (length data))).
  assert (HP : Forall one_each (map rr_comm data)) by (apply Forall_map; eapply Forall_impl; [|exact H]; intros r [Hr _]; exact Hr).
  rewrite get_all by exact HP. destruct (existsb _ _); auto. cbn [option_map]. unfold pair_div. f_equal. f_equal; f_equal.
  - rewrite (fold_f pair_add fst) by reflexivity. reflexivity.
  - rewrite (fold_f pair_add snd) by reflexivity. reflexivity.
Qed.
Lemma mean_time data ph : Forall proper data ->
  im_get ph (rr_time (rr_mean data)) =
  if existsb (fun m => match im_get ph m with Some _ => true | None => false end) (map rr_time data) then
    Some (sum_list (map (fun m => match im_get ph m with Some v => v | None => 0 end) (map rr_time data)) / length data)
  else None.
Proof.
  intros H. rewrite mean_split. cbn [rr_time]. rewrite (get_map (fun v => v / length data)).
  assert (HP : Forall one_each (map rr_time data)) by (apply Forall_map; eapply Forall_impl; [|exact H]; intros r [_ Hr]; exact Hr).
  rewrite get_all by exact HP. destruct (existsb _ _); auto. cbn [option_map]. f_equal. f_equal.
  rewrite (fold_f Nat.add (fun v => v)) by reflexivity. reflexivity.
Qed.

Lemma exists_get {A} ph (ms : list (list (phase * A))) : Forall one_each ms ->
  (existsb (fun m => match im_get ph m with Some _ => true | None => false end) ms = true <-> exists m v, In m ms /\ entry m ph v).
Proof.
  intros H. rewrite existsb_exists. split.
  - intros (m & Hm & E). destruct (im_get ph m) as [v|] eqn:Ev; [|discriminate]. exists m, v. split; auto. apply get_entry; auto.
    rewrite Forall_forall in H. auto.
  - intros (m & v & Hm & E). exists m. split; auto. apply get_entry in E; [rewrite E; auto|]. rewrite Forall_forall in H. auto.
Qed.

(** The mean has an entry for exactly the phases of the runs; each entry is the
    average over all runs, rounded down, where a run without the phase counts as
    zero. *)
Theorem C75_mean :
  forall data, Forall proper data ->
  proper (rr_mean data) /\
  (forall ph, (exists v, entry (rr_comm (rr_mean data)) ph v) <-> (exists r v, In r data /\ entry (rr_comm r) ph v)) /\
  (forall ph, (exists v, entry (rr_time (rr_mean data)) ph v) <-> (exists r v, In r data /\ entry (rr_time r) ph v)) /\
  (forall ph s r, entry (rr_comm (rr_mean data)) ph (s, r) ->
     exists ss rs, amounts ph fst (map rr_comm data) ss /\ amounts ph snd (map rr_comm data) rs /\
       floor_of s (sum_list ss) (length data) /\ floor_of r (sum_list rs) (length data)) /\
  (forall ph t, entry (rr_time (rr_mean data)) ph t ->
     exists ts, amounts ph (fun v => v) (map rr_time data) ts /\ floor_of t (sum_list ts) (length data)).
Proof.
  intros data H.
  assert (HC : Forall one_each (map rr_comm data)) by (apply Forall_map; eapply Forall_impl; [|exact H]; intros r [Hr _]; exact Hr).
  assert (HT : Forall one_each (map rr_time data)) by (apply Forall_map; eapply Forall_impl; [|exact H]; intros r [_ Hr]; exact Hr).
  assert (HP : proper (rr_mean data)).
  { rewrite mean_split. split; unfold one_each; cbn [rr_comm rr_time].
    - rewrite (keys_map (fun v => pair_div v (length data))). apply (all_one_each (0, 0) pair_add). constructor.
    - rewrite (keys_map (fun v => v / length data)). apply (all_one_each 0 Nat.add). constructor. }
  destruct HP as [P1 P2].
  assert (HN : forall A (g : run_result -> list (phase * A)) ph, existsb (fun m => match im_get ph m with Some _ => true | None => false end) (map g data) = true -> length data <> 0).
  { intros A g ph. destruct data; cbn; [discriminate|lia]. }
  split; [split; auto|]. split; [|split; [|split]].
  - intros ph. transitivity (exists m v, In m (map rr_comm data) /\ entry m ph v).
    + rewrite <- (exists_get ph _ HC). split.
      * intros (v & Hv). apply get_entry in Hv; auto. rewrite mean_comm in Hv by auto. destruct (existsb _ _); auto. discriminate.
      * intros E. eexists. apply get_entry; auto. rewrite mean_comm, E by auto. reflexivity.
    + split; [intros (m & v & Hm & He); apply in_map_iff in Hm; destruct Hm as (r & <- & Hr); eauto|].
      intros (r & v & Hr & He). exists (rr_comm r), v. split; auto. apply in_map. auto.
  - intros ph. transitivity (exists m v, In m (map rr_time data) /\ entry m ph v).
    + rewrite <- (exists_get ph _ HT). split.
      * intros (v & Hv). apply get_entry in Hv; auto. rewrite mean_time in Hv by auto. destruct (existsb _ _); auto. discriminate.
      * intros E. eexists. apply get_entry; auto. rewrite mean_time, E by auto. reflexivity.
    + split; [intros (m & v & Hm & He); apply in_map_iff in Hm; destruct Hm as (r & <- & Hr); eauto|].
      intros (r & v & Hr & He). exists (rr_time r), v. split; auto. apply in_map. auto.
  - intros ph s r He. apply get_entry in He; auto. rewrite mean_comm in He by auto. destruct (existsb _ _) eqn:E; [|discriminate].
    injection He as <- <-. apply HN in E. destruct (amounts_ex fst ph _ HC) as (ss & Hs). destruct (amounts_ex snd ph _ HC) as (rs & Hr).
    exists ss, rs. split; auto. split; auto. rewrite (amounts_of fst ph _ _ HC Hs), (amounts_of snd ph _ _ HC Hr). split; apply floor_div; auto.
  - intros ph t He. apply get_entry in He; auto. rewrite mean_time in He by auto. destruct (existsb _ _) eqn:E; [|discriminate].
    injection He as <-. apply HN in E. destruct (amounts_ex (fun v => v) ph _ HT) as (ts & Hs).
    exists ts. split; auto. rewrite (amounts_of (fun v => v) ph _ _ HT Hs). apply floor_div; auto.
Qed.
Print Assumptions C75_mean.

(** ** Totals *)
Lemma div_total {A} (f g : A -> nat) n (l : list A) : n <> 0 -> (forall x, g x = f x / n) ->
  n * sum_list (map g l) <= sum_list (map f l) /\ sum_list (map f l) <= n * sum_list (map g l) + (n - 1) * length l.
Proof.
  intros Hn Hg. unfold sum_list. induction l as [|x l IH]; cbn [map fold_right length]; [lia|]. rewrite Hg.
  pose proof (Nat.div_mod (f x) n Hn). pose proof (Nat.mod_upper_bound (f x) n Hn). nia.
Qed.

(** Totals of the mean are at most the mean of the totals; what is lost by rounding
    is less than one byte (or millisecond) per phase. *)
Theorem C75_totals :
  forall data, Forall proper data -> data <> [] ->
  let n := length data in let m := rr_mean data in
  (n * rr_sent m <= sum_list (map rr_sent data) <= n * rr_sent m + (n - 1) * length (rr_comm m)) /\
  (n * rr_recv m <= sum_list (map rr_recv data) <= n * rr_recv m + (n - 1) * length (rr_comm m)) /\
  (n * rr_setup m <= sum_list (map rr_setup data) <= n * rr_setup m + (n - 1) * 4) /\
  floor_of (rr_online m) (sum_list (map rr_online data)) n.
Proof.
  intros data H HD n m. assert (Hn : n <> 0) by (unfold n; destruct data; [contradiction|cbn; lia]).
  assert (HT : forall ph, time_of m ph = sum_list (map (fun r => time_of r ph) data) / n).
  { intros ph. unfold time_of, m. rewrite mean_time by auto. rewrite map_map.
    destruct (existsb _ _) eqn:E; [reflexivity|]. assert (Z : sum_list (map (fun r => match im_get ph (rr_time r) with Some t => t | None => 0 end) data) = 0).
    { clear -E. unfold sum_list. induction data as [|r d IH]; auto. cbn [map existsb fold_right] in *. destruct (im_get ph (rr_time r)); [discriminate|]. auto. }
    rewrite Z. symmetry. apply Nat.div_0_l. exact Hn. }
  assert (HS : forall f, f (0, 0) = 0 -> (forall a b, f (pair_add a b) = f a + f b) -> (forall p k, f (pair_div p k) = f p / k) ->
    n * sum_list (map (fun e => f (snd e)) (rr_comm m)) <= sum_list (map (fun r => sum_list (map (fun e => f (snd e)) (rr_comm r))) data) /\
    sum_list (map (fun r => sum_list (map (fun e => f (snd e)) (rr_comm r))) data) <= n * sum_list (map (fun e => f (snd e)) (rr_comm m)) + (n - 1) * length (rr_comm m)).
  { intros f F0 FA FD. unfold m. rewrite mean_split. cbn [rr_comm]. fold n.
    set (s := fold_left (im_merge (0, 0) pair_add) (map rr_comm data) []).
    assert (ES : sum_list (map (fun e => f (snd e)) s) = sum_list (map (fun r => sum_list (map (fun e => f (snd e)) (rr_comm r))) data)).
    { pose proof (total_all (0, 0) pair_add f F0 FA (map rr_comm data) []) as HA. unfold total in HA. fold s in HA. rewrite HA, map_map. reflexivity. }
    rewrite <- ES, map_map, map_length. cbn [snd]. apply (div_total (fun e : phase * (nat * nat) => f (snd e)) (fun e => f (pair_div (snd e) n)) n s); auto. }
  split; [apply (HS fst); reflexivity|]. split; [apply (HS snd); reflexivity|]. split.
  - unfold rr_setup.
    pose proof (div_total (fun ph => sum_list (map (fun r => time_of r ph) data)) (time_of m) n [PhOts; PhMts; PhFunctionIndependentSetup; PhFunctionDependentSetup] Hn HT) as [D1 D2].
    cbn [length] in D2.
    assert (ES : sum_list (map (fun ph => sum_list (map (fun r => time_of r ph) data)) [PhOts; PhMts; PhFunctionIndependentSetup; PhFunctionDependentSetup]) =
      sum_list (map (fun r => sum_list (map (time_of r) [PhOts; PhMts; PhFunctionIndependentSetup; PhFunctionDependentSetup])) data)).
    { clear. unfold sum_list. cbn [map fold_right]. induction data as [|r d IH]; auto. cbn [map fold_right]. lia. }
    rewrite ES in D1, D2. auto.
  - unfold rr_online. rewrite HT. apply floor_div. exact Hn.
Qed.
Print Assumptions C75_totals.

(** What [setup_ms], [online_ms] and the totals of one run are: the sums over the entries
    of the phases meant; unaccounted time and custom phases are in neither. *)
Definition is_setup (ph : phase) : bool :=
  match ph with PhOts | PhMts | PhFunctionIndependentSetup | PhFunctionDependentSetup => true | _ => false end.
Definition is_online (ph : phase) : bool := match ph with PhOnline => true | _ => false end.
Fixpoint time_in (which : phase -> bool) (m : list (phase * nat)) : nat :=
  match m with [] => 0 | (ph, t) :: m => (if which ph then t else 0) + time_in which m end.
Fixpoint bytes_in (m : list (phase * (nat * nat))) : nat * nat :=
  match m with [] => (0, 0) | (_, (s, r)) :: m => (s + fst (bytes_in m), r + snd (bytes_in m)) end.
Theorem C75_run :
  forall r, proper r ->
  rr_setup r = time_in is_setup (rr_time r) /\ rr_online r = time_in is_online (rr_time r) /\
  (rr_sent r, rr_recv r) = bytes_in (rr_comm r).
Proof.
  intros [c t] [_ H]. cbn [rr_comm rr_time] in *. unfold one_each in H.
  assert (G : forall ph, time_of (RR c t) ph = time_in (phase_eqb ph) t).
  { intros ph. unfold time_of. cbn [rr_time]. induction t as [|[p x] t IH]; auto. cbn [map fst im_get time_in] in *. inversion H; subst.
    destruct (phase_eqb ph p) eqn:E; [|rewrite IH by assumption; reflexivity].
    assert (Z : time_in (phase_eqb ph) t = 0).
    { assert (ph = p) by (destruct ph, p; cbn in E; try discriminate; try reflexivity; apply Nat.eqb_eq in E; congruence). subst ph.
      clear -H2. induction t as [|[q y] t IH]; auto. cbn [map fst In time_in] in *. rewrite eqb_ne by (intros ->; tauto). rewrite IH by tauto. reflexivity. }
    lia. }
  split; [|split].
  - unfold rr_setup, sum_list. cbn [map fold_right]. rewrite !G. clear. induction t as [|[p x] t IH]; auto. cbn [time_in]. destruct p; cbn [phase_eqb is_setup]; lia.
  - unfold rr_online. rewrite G. reflexivity.
  - unfold rr_sent, rr_recv, sum_list. cbn [rr_comm]. clear. induction c as [|[p [a b]] c IH]; auto. cbn [map fold_right bytes_in fst snd]. rewrite <- IH. reflexivity.
Qed.
Print Assumptions C75_run.

(** The mean of equal runs is that run, and there is no division by zero without data. *)
Theorem C75_equal_runs :
  forall r n, proper r -> rr_mean (repeat r (S n)) = r.
Proof.
  intros [c t] n [H1 H2]. cbn [rr_comm rr_time] in *. rewrite mean_split.
  assert (G : forall A (z : A) (add : A -> A -> A) (m : list (phase * A)), one_each m -> im_merge z add [] m = map (fun e => (fst e, add z (snd e))) m).
  { intros A z add m Hm. change (map (fun e => (fst e, add z (snd e))) m) with ([] ++ map (fun e => (fst e, add z (snd e))) m).
    assert (X : forall m acc, NoDup (map fst acc ++ map fst m) -> im_merge z add acc m = acc ++ map (fun e => (fst e, add z (snd e))) m).
    { clear. induction m as [|[p x] m IH]; intros acc HN; [symmetry; apply app_nil_r|].
      change (im_merge z add acc ((p, x) :: m)) with (im_merge z add (im_add z add p x acc) m).
      assert (E : im_add z add p x acc = acc ++ [(p, add z x)]).
      { assert (Hp : ~ In p (map fst acc)). { cbn [map fst] in HN. apply NoDup_remove_2 in HN. intros Hi. apply HN. apply in_or_app. auto. }
        clear -Hp. induction acc as [|[q y] acc IH]; auto. cbn [map fst In] in Hp. cbn [im_add app]. rewrite eqb_ne by (intros ->; tauto). rewrite IH by tauto. reflexivity. }
      rewrite E, IH; [rewrite <- app_assoc; reflexivity|]. rewrite map_app, <- app_assoc. exact HN. }
    apply X. exact Hm. }
  assert (K : forall A (z : A) (add : A -> A -> A) (h : nat -> A -> A) (m : list (phase * A)), one_each m ->
    (forall k x, add (h k x) x = h (S k) x) -> (forall x, add z x = h 0 x) ->
    forall n, fold_left (im_merge z add) (repeat m (S n)) [] = map (fun e => (fst e, h n (snd e))) m).
  { clear - G. intros A z add h m Hm Hh H0.
    assert (Y : forall g, im_merge z add (map (fun e => (fst e, g (snd e))) m) m = map (fun e => (fst e, add (g (snd e)) (snd e))) m).
    { intros g.
      assert (X : forall m acc, NoDup (map fst acc ++ map fst m) ->
        im_merge z add (acc ++ map (fun e => (fst e, g (snd e))) m) m = acc ++ map (fun e => (fst e, add (g (snd e)) (snd e))) m).
      { clear. induction m as [|[p x] m IH]; intros acc HN; auto.
        cbn [map fst snd].
        match goal with |- im_merge z add ?a ((p, x) :: m) = _ => change (im_merge z add (im_add z add p x a) m = acc ++ (p, add (g x) x) :: map (fun e => (fst e, add (g (snd e)) (snd e))) m) end.
        assert (E : forall l, im_add z add p x (acc ++ (p, g x) :: l) = (acc ++ [(p, add (g x) x)]) ++ l).
        { intros l. assert (Hp : ~ In p (map fst acc)). { cbn [map fst] in HN. apply NoDup_remove_2 in HN. intros Hi. apply HN. apply in_or_app. auto. }
          clear -Hp. induction acc as [|[q y] acc IH]; cbn [app im_add]; [rewrite eqb_refl_ph; reflexivity|].
          cbn [map fst In] in Hp. rewrite eqb_ne by (intros ->; tauto). rewrite IH by tauto. reflexivity. }
        rewrite E, IH; [rewrite <- app_assoc; reflexivity|]. rewrite map_app, <- app_assoc. exact HN. }
      exact (X m [] Hm). }
    induction n as [|n IH].
    - cbn [repeat fold_left]. rewrite G by auto. apply map_ext. intros e. rewrite H0. reflexivity.
    - assert (R : repeat m (S (S n)) = repeat m (S n) ++ [m]) by apply repeat_cons. rewrite R, fold_left_app, IH. cbn [fold_left].
      rewrite (Y (h n)). apply map_ext. intros e. rewrite Hh. reflexivity. }
  assert (MR : forall B (g : run_result -> B), map g (repeat (RR c t) (S n)) = repeat (g (RR c t)) (S n)).
  { intros B g. generalize (S n). induction n0 as [|k IH]; cbn; [reflexivity|rewrite IH; reflexivity]. }
  rewrite !MR, repeat_length. cbn [rr_comm rr_time].
  rewrite (K _ (0, 0) pair_add (fun k x => (S k * fst x, S k * snd x)) c H1), (K _ 0 Nat.add (fun k x => S k * x) t H2);
    try (intros; unfold pair_add; cbn [fst snd]; try (f_equal; lia); lia).
  - f_equal; rewrite map_map; cbn [fst snd].
    + rewrite <- (map_id c) at 2. apply map_ext. intros [p [s r]]. unfold pair_div. cbn [fst snd]. f_equal. f_equal; rewrite Nat.mul_comm; apply Nat.div_mul; lia.
    + rewrite <- (map_id t) at 2. apply map_ext. intros [p x]. cbn [fst snd]. f_equal. rewrite Nat.mul_comm. apply Nat.div_mul. lia.
Qed.
Print Assumptions C75_equal_runs.

(** Three runs, one of them without a setup phase; the mean of the setup is taken
    over all three. *)
Definition ex_runs : list run_result :=
  [RR [(PhUnaccounted, (1, 2)); (PhOnline, (10, 11))] [(PhOnline, 7)];
   RR [(PhMts, (30, 31)); (PhOnline, (10, 12))] [(PhMts, 20); (PhOnline, 8)];
   RR [(PhOnline, (11, 12)); (PhCustom 4, (5, 0))] [(PhOnline, 8); (PhCustom 4, 3)]].
Example C75_case :
  Forall proper ex_runs /\
  rr_mean ex_runs = RR [(PhUnaccounted, (0, 0)); (PhOnline, (10, 11)); (PhMts, (10, 10)); (PhCustom 4, (1, 0))] [(PhOnline, 7); (PhMts, 6); (PhCustom 4, 1)] /\
  map rr_setup ex_runs = [0; 20; 0] /\ map rr_online ex_runs = [7; 8; 8] /\ rr_mean [] = RR [] [] /\ sum_list (map rr_sent ex_runs) = 67 /\ rr_sent (rr_mean ex_runs) = 21.
Proof.
  split; [|vm_compute; auto 10]. unfold ex_runs, proper, one_each. repeat constructor; cbn; intuition discriminate.
Qed.
