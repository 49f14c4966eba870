(** Model of crates/seec/src/protocols/aby2.rs.  No proofs here.

    A pseudo random generator is the stream of its boolean draws and a position; every
    draw in the modelled functions is [gen::<bool>()]. *)
From Coq Require Import List Bool Arith.
Require Import Verif.Prelude Verif.GateModel Verif.ProtocolModel Verif.CircuitModel Verif.ExecModel Verif.BoolGmwModel.
Import ListNotations.
Open Scope nat_scope.

(** [ChaChaRng] and [gen::<bool>()]. Used at aby2.rs 35-37, 124 (library type; simplified: a
    stream of bits and a position). *)
Record rng := Rng { rng_bits : nat -> bool; rng_pos : nat }.
(** [rng.gen()] at aby2.rs 326, 343, 656-657, 668, 858, 935 (library function). *)
Definition gen (r : rng) : bool * rng := (rng_bits r (rng_pos r), Rng (rng_bits r) (S (rng_pos r))).

(** aby2.rs 48-52 [Share]. *)
Record ashare := AS { as_pub : bool; as_priv : bool }.

(** aby2.rs 592-597 [Share::xor]. *)
Definition as_xor (a b : ashare) : ashare := AS (xorb (as_pub a) (as_pub b)) (xorb (as_priv a) (as_priv b)).
(** aby2.rs 611-616 [Not::not] of [Share]. *)
Definition as_not (a : ashare) : ashare := AS (negb (as_pub a)) (as_priv a).

(** aby2.rs 42-46 [ShareType]. *)
Inductive share_type := STLocal | STRemote.

(** aby2.rs 33-40 [DeltaSharing]; the map from gate ids is a function. *)
Record delta_sharing := DS { ds_priv : rng; ds_local : rng; ds_remote : rng; ds_map : nat -> option share_type }.

(** aby2.rs 620-638 [DeltaSharing::new]; [priv] is the stream of the private seed, [joint k]
    stream [k] of the joint seed. *)
Definition ds_new (party : nat) (priv : nat -> bool) (joint : nat -> nat -> bool) (m : nat -> option share_type)
  : option delta_sharing :=
  _ <- oassert ((party =? 0) || (party =? 1)) ;;
  Some (DS (Rng priv 0) (Rng (joint party) 0) (Rng (joint (1 - party)) 0) m).

(** aby2.rs 652-663 [share]. *)
Fixpoint ds_share (s : delta_sharing) (input : list bool) : list ashare * list bool * delta_sharing :=
  match input with
  | [] => ([], [], s)
  | bit :: r =>
      let '(my, p) := gen (ds_priv s) in
      let '(other, l) := gen (ds_local s) in
      let plain_delta := xorb (xorb bit my) other in
      let '(sh, ds, s) := ds_share (DS p l (ds_remote s) (ds_map s)) r in
      (AS plain_delta my :: sh, plain_delta :: ds, s)
  end.

(** aby2.rs 665-670 [plain_delta_to_share]. *)
Fixpoint ds_plain_delta_to_share (s : delta_sharing) (ds : list bool) : list ashare * delta_sharing :=
  match ds with
  | [] => ([], s)
  | d :: r =>
      let '(x, rem) := gen (ds_remote s) in
      let '(sh, s) := ds_plain_delta_to_share (DS (ds_priv s) (ds_local s) rem (ds_map s)) r in
      (AS d x :: sh, s)
  end.

(** aby2.rs 672-684 [reconstruct]; [zip] stops at the shorter vector. *)
Fixpoint ds_reconstruct (a b : list ashare) : option (list bool) :=
  match a, b with
  | x :: a, y :: b =>
      _ <- oassert (eqb (as_pub x) (as_pub y)) ;;
      r <- ds_reconstruct a b ;;
      Some (xorb (xorb (as_pub x) (as_priv x)) (as_priv y) :: r)
  | _, _ => Some []
  end.

(** aby2.rs 65-71 [BooleanGate]. *)
Inductive aby_gate := ABase (b : base_gate bool) | AAnd (n : nat) | AXor | AInv.

(** aby2.rs 408-410 [is_interactive]. *)
Definition aby_is_interactive (g : aby_gate) : bool := match g with AAnd _ => true | _ => false end.
(** aby2.rs 412-419 [input_size]. *)
Definition aby_input_size (g : aby_gate) : nat :=
  match g with ABase _ => 1 | AInv => 1 | AXor => 2 | AAnd n => n end.
(** aby2.rs 421-426 [as_base_gate]. *)
Definition aby_as_base (g : aby_gate) : option (base_gate bool) :=
  match g with ABase b => Some b | _ => None end.
(** aby2.rs 405-431 [impl Gate<bool> for BooleanGate]: the part used by the circuit code. *)
Definition aby_ops : gate_ops bool aby_gate := GateOps bool aby_gate aby_is_interactive aby_as_base ABase.

(** aby2.rs 139-153 [share_constant].  The assertion that the private part is 0 is not
    modelled here; it holds because the setup gives constants the default share
    ([setup_output_share]). *)
Definition aby_share_constant (_party : nat) (_output : ashare) (val : bool) : ashare := AS val false.

(** aby2.rs 155-177 [evaluate_non_interactive]. *)
Definition aby_eval_ni (party : nat) (g : aby_gate) (inputs : list ashare) : option ashare :=
  match g with
  | ABase b => default_evaluate b inputs
  | AAnd _ => None
  | AXor => match inputs with a :: b :: _ => Some (as_xor a b) | _ => None end
  | AInv => match inputs with a :: _ => Some (as_not a) | [] => None end
  end.

(** itertools [combinations] and [powerset]: subsequences by length, those of the same
    length in lexicographic order of positions. Library function behind [powerset] at
    aby2.rs 293, 376. *)
Fixpoint combinations {A} (k : nat) (l : list A) : list (list A) :=
  match k, l with
  | 0, _ => [[]]
  | S _, [] => []
  | S k', x :: r => map (cons x) (combinations k' r) ++ combinations k r
  end.
(** itertools [powerset], used at aby2.rs 293, 376. *)
Definition powerset {A} (l : list A) : list (list A) :=
  concat (map (fun k => combinations k l) (seq 0 (S (length l)))).

(** Rust [Vec::pop]. Used at aby2.rs 271, 281, 297. *)
Definition pop {A} (l : list A) : option (A * list A) :=
  match rev l with [] => None | x :: r => Some (x, rev r) end.

(** aby2.rs 260-307 [compute_delta_share].  The setup data [st] is the vector
    [eval_shares]. *)
Definition compute_delta_share (party n : nat) (inputs : list ashare) (st : list (list bool)) (out : ashare)
  : option (bool * list (list bool)) :=
  _ <- oassert ((party =? 0) || (party =? 1)) ;;
  '(priv_delta, st) <- pop st ;;
  if n =? 2 then
    match inputs with
    | a :: b :: _ =>
        '(d, _) <- pop priv_delta ;;
        Some (xorb (xorb (xorb (xorb ((party =? 1) && (as_pub a && as_pub b))
                                     (as_pub a && as_priv b))
                               (as_pub b && as_priv a))
                         d)
                   (as_priv out), st)
    | _ => None
    end
  else
    let inputs := firstn n inputs in
    let delta_shares := rev priv_delta ++ rev (map as_priv inputs) in
    let inp_pset := map (fun set => fold_left (fun acc a => acc && as_pub a) set true) (powerset inputs) in
    '(mul_plain, inp_pset) <- pop inp_pset ;;
    _ <- oassert (length inp_pset =? length delta_shares) ;;
    let intermediate := fold_left (fun acc pd => acc && fst pd && snd pd) (combine inp_pset delta_shares) true in
    Some (xorb (xorb ((party =? 1) && mul_plain) intermediate) (as_priv out), st).

(** aby2.rs 179-198 [compute_msg].  The message is the vector of bits; the dead bits with which
    [into_vec] fills up the last byte are not modelled, [evaluate_interactive] cuts them
    off. *)
Fixpoint aby_compute_msg (party : nat) (gates : list aby_gate) (outs inputs : list ashare) (st : list (list bool))
  : option (list bool * list (list bool)) :=
  match gates, outs with
  | g :: gates, o :: outs =>
      match g with
      | AAnd n =>
          '(d, st) <- compute_delta_share party n (firstn n inputs) st o ;;
          '(ds, st) <- aby_compute_msg party gates outs (skipn n inputs) st ;;
          Some (d :: ds, st)
      | _ => None
      end
  | _, _ => Some ([], st)
  end.

(** aby2.rs 200-219 [evaluate_interactive]. *)
Definition aby_eval_int (_party : nat) (_gates : list aby_gate) (outs : list ashare) (mine other : list bool)
  (st : list (list bool)) : option (list ashare * list (list bool)) :=
  Some (zip_with (fun od o => AS (xorb (snd od) o) (as_priv (fst od))) (combine outs mine) other, st).

(** aby2.rs 128-255 [impl Protocol for BooleanAby2]: [SIMD_SUPPORT] is [false], the SIMD
    methods are the defaults, which panic. *)
Definition aby2 : protocol := {|
  p_plain := bool; p_share := ashare; p_simd := list ashare; p_gate := aby_gate;
  p_msg := list bool; p_simdmsg := unit; p_setup := list (list bool);
  p_simd_support := false;
  p_simd_get := fun v i => nth_error v i;
  p_simd_collect := fun l => l;
  p_default_share := AS false false;
  p_default_simd := [];
  p_is_interactive := aby_is_interactive;
  p_input_size := aby_input_size;
  p_as_base := aby_as_base;
  p_share_constant := aby_share_constant;
  p_share_constant_simd := fun _ _ _ _ => [];
  p_eval_ni := aby_eval_ni;
  p_eval_ni_simd := fun _ _ _ => None;
  p_compute_msg := aby_compute_msg;
  p_compute_msg_simd := fun _ _ _ _ _ => None;
  p_eval_int := aby_eval_int;
  p_eval_int_simd := fun _ _ _ _ _ _ => None |}.

(** crates/seec/src/circuit/dyn_layers.rs 67-78 [iter] with base_circuit.rs 683-699
    [into_iter], [into_sc_iter]: in every layer and circuit first the non-interactive gates. *)
Definition ec_iter {G} (ec : ecirc G) : list gid :=
  concat (map (fun l => concat (map (fun '(sc, _, b) => map (pair sc) (bl_ni b ++ bl_int b)) l)) (ec_layers ec)).

(** dyn_layers.rs 80-83 [interactive_iter]. *)
Definition ec_int_iter (ec : ecirc aby_gate) : list gid :=
  filter (fun g => match ec_gate ec g with Some x => aby_is_interactive x | None => false end) (ec_iter ec).

(** aby2.rs 309-359 [setup_output_share]: how many of the inputs are taken. *)
Definition setup_reads (g : aby_gate) : nat :=
  match g with
  | ABase GInput | ABase (GConstant _) | ABase (GConnectToMainFromSimd _) | AAnd _ => 0
  | AXor => 2
  | _ => 1
  end.

(** aby2.rs 309-359 [setup_output_share]. *)
Definition setup_output_share (g : aby_gate) (inputs : list ashare) (r : rng) : option (ashare * rng) :=
  match g with
  | ABase GInput | AAnd _ => let '(b, r) := gen r in Some (AS false b, r)
  | ABase (GConstant _) => Some (AS false false, r)
  | ABase (GConnectToMainFromSimd _) => None
  | AXor => match inputs with
            | a :: b :: _ => Some (AS (as_pub a) (xorb (as_priv a) (as_priv b)), r)
            | _ => None
            end
  | _ => match inputs with a :: _ => Some (a, r) | [] => None end
  end.

(** aby2.rs 236-250: one iteration.  The generator is chosen by the gate id alone. *)
Definition setup_gate (ec : ecirc aby_gate) (s : delta_sharing * gouts aby2) (g : gid)
  : option (delta_sharing * gouts aby2) :=
  let '(ds, go) := s in
  gate <- ec_gate ec g ;;
  ins <- omap (fun p => c <- go_get (pr:=aby2) go p ;; cell_scalar c) (firstn (setup_reads gate) (ec_parents ec g)) ;;
  match ds_map ds (snd g) with
  | Some STRemote =>
      '(o, r) <- setup_output_share gate ins (ds_remote ds) ;;
      go <- go_put (pr:=aby2) go g (@CS aby2 o) ;;
      Some (DS (ds_priv ds) (ds_local ds) r (ds_map ds), go)
  | _ =>
      '(o, r) <- setup_output_share gate ins (ds_priv ds) ;;
      go <- go_put (pr:=aby2) go g (@CS aby2 o) ;;
      Some (DS r (ds_local ds) (ds_remote ds) (ds_map ds), go)
  end.

(** aby2.rs 221-254 [setup_gate_outputs]. *)
Definition setup_gate_outputs (ec : ecirc aby_gate) (ds : delta_sharing) : option (delta_sharing * gouts aby2) :=
  _ <- oassert (forallb (fun c => match snd c with None => true | Some _ => false end) (ec_counts ec)) ;;
  ofold (setup_gate ec) (ds, go_init (pr:=aby2) ec) (ec_iter ec).

(** aby2.rs 554-557 [from_raw], 573-577 [split_off_last], 796-802, 959-965
    [request_setup_output]. *)
Definition from_raw (l : list (list bool)) : list (list bool) := rev l.
(** aby2.rs 573-577 [split_off_last] as called at 796-802 and 959-965
    [request_setup_output]; the subtraction underflows (panics) when too few are left. *)
Definition aby_request (s : list (list bool)) (count : nat) : option (list (list bool) * list (list bool)) :=
  _ <- oassert (count <=? length s) ;;
  Some (skipn (length s - count) s, firstn (length s - count) s).

(** ** Setup by a helper party (aby2.rs 805-966) *)

(** aby2.rs 107-110 [InputBy]. *)
Inductive input_by := ByP0 | ByP1.
(** aby2.rs 882-892: the map of one party. *)
Definition by_map (party : nat) (m : nat -> option input_by) (pos : nat) : option share_type :=
  match m pos with
  | None => None
  | Some ByP0 => Some (if party =? 0 then STLocal else STRemote)
  | Some ByP1 => Some (if party =? 0 then STRemote else STLocal)
  end.

(** aby2.rs 871-903 [AstraSetupHelper::setup_gate_outputs]. *)
Definition helper_outputs (party : nat) (ec : ecirc aby_gate) (priv : nat -> bool) (joint : nat -> nat -> bool)
  (m : nat -> option input_by) : option (gouts aby2) :=
  ds <- ds_new party priv joint (by_map party m) ;;
  '(_, go) <- setup_gate_outputs ec ds ;;
  Some go.

(** aby2.rs 848-864: the loop over the interactive gates; [lam] is stream 1 of the private seed
    of party 0. *)
Fixpoint helper_msg (ec : ecirc aby_gate) (rec : gid -> option bool) (gs : list gid) (lam : rng)
  : option (list bool) :=
  match gs with
  | [] => Some []
  | g :: gs =>
      match ec_gate ec g with
      | Some (AAnd n) =>
          _ <- oassert (n =? 2) ;;
          match ec_parents ec g with
          | p :: q :: _ =>
              a <- rec p ;;
              b <- rec q ;;
              let '(l0, lam) := gen lam in
              r <- helper_msg ec rec gs lam ;;
              Some (xorb (a && b) l0 :: r)
          | _ => None
          end
      | _ => None
      end
  end.

(** aby2.rs 837-846: the private parts of both parties, combined. *)
Definition helper_rec (go0 go1 : gouts aby2) (g : gid) : option bool :=
  c0 <- go_cell (pr:=aby2) go0 g ;;
  c1 <- go_cell (pr:=aby2) go1 g ;;
  match c0, c1 with
  | CS a, CS b => Some (xorb (as_priv a) (as_priv b))
  | _, _ => None
  end.

(** aby2.rs 820-869 [AstraSetupHelper::setup]: the message to party 1. *)
Definition helper_setup (ec : ecirc aby_gate) (m : nat -> option input_by)
  (priv0 priv1 : nat -> bool) (joint : nat -> nat -> bool) (lam : nat -> bool) : option (list bool) :=
  go0 <- helper_outputs 0 ec priv0 joint m ;;
  go1 <- helper_outputs 1 ec priv1 joint m ;;
  helper_msg ec (helper_rec go0 go1) (ec_int_iter ec) (Rng lam 0).

(** aby2.rs 927-957 [AstraSetupProvider::setup]: party 0 draws, party 1 takes the message.
    [interactive_count] is the number of interactive gates. *)
Definition astra_p0 (ec : ecirc aby_gate) (lam : nat -> bool) : list (list bool) :=
  from_raw (map (fun i => [lam i]) (seq 0 (length (ec_int_iter ec)))).
(** aby2.rs 939-952: party 1. *)
Definition astra_p1 (msg : list bool) : list (list bool) := from_raw (map (fun b => [b]) msg).

(** ** Setup by a GMW execution (aby2.rs 687-803) *)

(** The circuit under construction, the input gate of every parent ([input_sw_map]), the
    parents in the order of their input gates ([circ_inputs]) and [setup_sub_circ_cache].
    A [Secret] of the main circuit is its gate id. Local variables of aby2.rs 726-732. *)
Record sbuild := SB { sb_circ : circuit bool_gate; sb_map : list (gid * nat); sb_ins : list gid;
                      sb_cache : list (list nat * nat) }.

(** [HashMap::get] by a key. Used at aby2.rs 380, 391, 735 (library function). *)
Fixpoint assoc {K V} (eqk : K -> K -> bool) (k : K) (l : list (K * V)) : option V :=
  match l with [] => None | (k', v) :: r => if eqk k k' then Some v else assoc eqk k r end.
(** Equality of the keys of [setup_sub_circ_cache] (aby2.rs 364, 380). *)
Fixpoint eq_list (a b : list nat) : bool :=
  match a, b with [], [] => true | x :: a, y :: b => (x =? y) && eq_list a b | _, _ => false end.

(** aby2.rs 735-745: the secret of one parent. *)
Definition sb_parent (s : sbuild) (p : gid) : sbuild * nat :=
  match assoc gid_eqb p (sb_map s) with
  | Some i => (s, i)
  | None =>
      let '(c, i) := add_gate bool_ops (sb_circ s) (BBase GInput) in
      (SB c ((p, i) :: sb_map s) (sb_ins s ++ [p]) (sb_cache s), i)
  end.
(** aby2.rs 735-745: all parents of a gate. *)
Fixpoint sb_parents (s : sbuild) (ps : list gid) : sbuild * list nat :=
  match ps with
  | [] => (s, [])
  | p :: ps => let '(s, i) := sb_parent s p in let '(s, is) := sb_parents s ps in (s, i :: is)
  end.

(** aby2.rs 748 [sort]. *)
Fixpoint insert_sorted (x : nat) (l : list nat) : list nat :=
  match l with [] => [x] | y :: r => if x <=? y then x :: l else y :: insert_sorted x r end.
(** aby2.rs 748 [sort]: here insertion sort; the ids may repeat, equal ids are
    interchangeable. *)
Definition sort_ids (l : list nat) : list nat := fold_right insert_sorted [] l.

(** aby2.rs 380-400: one set. *)
Definition sb_set (s : sbuild) (set : list nat) : option (sbuild * nat) :=
  match assoc eq_list set (sb_cache s) with
  | Some i => Some (s, i)
  | None =>
      match set with
      | [a; b] =>
          '(c, i) <- add_wired_gate bool_ops (sb_circ s) BAnd [a; b] ;;
          Some (SB c (sb_map s) (sb_ins s) ((set, i) :: sb_cache s), i)
      | _ =>
          '(l, sub) <- pop set ;;
          _ <- oassert (2 <=? length sub) ;;
          j <- assoc eq_list sub (sb_cache s) ;;
          '(c, i) <- add_wired_gate bool_ops (sb_circ s) BAnd [l; j] ;;
          Some (SB c (sb_map s) (sb_ins s) ((set, i) :: sb_cache s), i)
      end
  end.
(** aby2.rs 379-401: all sets of a gate. *)
Fixpoint sb_sets (s : sbuild) (sets : list (list nat)) : option (sbuild * list nat) :=
  match sets with
  | [] => Some (s, [])
  | x :: r => '(s, i) <- sb_set s x ;; '(s, is) <- sb_sets s r ;; Some (s, i :: is)
  end.

(** aby2.rs 361-402 [setup_data_circ], 733-752: one interactive gate. *)
Definition sb_gate (ec : ecirc aby_gate) (s : sbuild) (g : gid) : option (sbuild * list nat) :=
  match ec_gate ec g with
  | Some (AAnd n) =>
      let '(s, is) := sb_parents s (ec_parents ec g) in
      sb_sets s (skipn (n + 1) (powerset (firstn n (sort_ids is))))
  | _ => None
  end.
(** aby2.rs 733-752: the loop over the interactive gates. *)
Fixpoint sb_gates (ec : ecirc aby_gate) (s : sbuild) (gs : list gid) : option (sbuild * list (list nat)) :=
  match gs with
  | [] => Some (s, [])
  | g :: gs => '(s, o) <- sb_gate ec s g ;; '(s, os) <- sb_gates ec s gs ;; Some (s, o :: os)
  end.

(** aby2.rs 753-756: an output gate for every secret. *)
Fixpoint sb_outputs (c : circuit bool_gate) (os : list nat) : option (circuit bool_gate * list nat) :=
  match os with
  | [] => Some (c, [])
  | o :: os =>
      '(c, i) <- add_wired_gate bool_ops c (BBase GOutput) [o] ;;
      '(c, is) <- sb_outputs c os ;;
      Some (c, i :: is)
  end.
(** aby2.rs 753-756: output gates for all secrets of all gates. *)
Fixpoint sb_all_outputs (c : circuit bool_gate) (oss : list (list nat)) : option (circuit bool_gate * list (list nat)) :=
  match oss with
  | [] => Some (c, [])
  | os :: oss => '(c, is) <- sb_outputs c os ;; '(c, iss) <- sb_all_outputs c oss ;; Some (c, is :: iss)
  end.

(** aby2.rs 718-761: the setup circuit, its inputs and the output gates of every interactive
    gate. *)
Definition setup_circuit (ec : ecirc aby_gate) : option (circuit bool_gate * list gid * list (list nat)) :=
  '(s, oss) <- sb_gates ec (SB c_new_main [] [] []) (ec_int_iter ec) ;;
  '(c, iss) <- sb_all_outputs (sb_circ s) oss ;;
  Some (c, sb_ins s, iss).

(** aby2.rs 739: the inputs of one party. *)
Definition setup_inputs (go : gouts aby2) (ins : list gid) : option (list bool) :=
  omap (fun p => c <- go_get (pr:=aby2) go p ;; s <- cell_scalar c ;; Some (as_priv s)) ins.

(** aby2.rs 774-792: the evaluation shares, read from the gate outputs of the GMW executor. *)
Definition setup_collect {W} (go : gouts (bool_gmw W)) (iss : list (list nat)) : option (list (list bool)) :=
  r <- omap (omap (fun i => c <- go_cell (pr:=bool_gmw W) go (0, i) ;; cell_scalar c)) iss ;;
  Some (from_raw r).
