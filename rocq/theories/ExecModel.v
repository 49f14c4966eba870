(** Model of crates/seec/src/executor.rs (one party and two parties in lock
    step).  No proofs here. *)
From Coq Require Import List Bool Arith.
Require Import Verif.Prelude Verif.GateModel Verif.ProtocolModel Verif.CircuitModel.
Import ListNotations.

(** crates/seec/src/circuit/builder.rs 49-53 [SubCircuitGate]: (circuit id, gate id). *)
Definition gid : Type := nat * nat.

(** builder.rs 49: the derived [PartialEq] of [SubCircuitGate]. *)
Definition gid_eqb (a b : gid) : bool := (fst a =? fst b) && (snd a =? snd b).

(** crates/seec/src/circuit/dyn_layers.rs 195-203 [CircuitLayer]: per circuit its
    id, SIMD size and base layer. *)
Definition elayer : Type := list (nat * option nat * blayer).

(** What the executor uses of an [ExecutableCircuit]
    (crates/seec/src/circuit/mod.rs 81-240): gates, parents, the list of layers
    (the iterator is pure, so it is represented by the list it produces), SIMD
    sizes, the input and output gates of the main circuit and the gate counts
    of all circuits. *)
Record ecirc (G : Type) := EC {
  ec_gate : gid -> option G;
  ec_parents : gid -> list gid;
  ec_layers : list elayer;
  ec_simd : nat -> option nat;
  ec_inputs : list nat;
  ec_outputs : list nat;
  ec_counts : list (nat * option nat) }.
Arguments EC {G}. Arguments ec_gate {G} _ _. Arguments ec_parents {G} _ _.
Arguments ec_layers {G} _. Arguments ec_simd {G} _ _. Arguments ec_inputs {G} _.
Arguments ec_outputs {G} _. Arguments ec_counts {G} _.

(** crates/seec/src/circuit/dyn_layers.rs 333-341 [From<BaseCircuit>] together
    with [CircuitLayerIter] (186-260) for a single circuit without connections:
    the base layers, each tagged with circuit 0. *)
Definition ec_of_base {P G} (ops : gate_ops P G) (c : circuit G) : option (ecirc G) :=
  ls <- c_layers ops c ;;
  Some (EC (fun g => if fst g =? 0 then nth_error (c_gates c) (snd g) else None)
           (fun g => map (pair 0) (parents c (snd g)))
           (map (fun l => [(0, c_simd c, l)]) ls)
           (fun _ => c_simd c)
           (c_inputs c) (c_outputs c) [(c_count c, c_simd c)]).

(** crates/seec/src/circuit/dyn_layers.rs 264-272 [interactive_count_times_simd]. *)
Definition el_int_count (l : elayer) : nat :=
  sum_list (map (fun '(_, simd, b) =>
    (match simd with Some n => n | None => 1 end) * length (bl_int b)) l).

(** crates/seec/src/circuit/dyn_layers.rs 274-291 [split_simd]. *)
Definition el_scalar (l : elayer) : elayer :=
  filter (fun '(_, simd, _) => match simd with None => true | _ => false end) l.
(** dyn_layers.rs 274-291 [split_simd]: the SIMD part. *)
Definition el_simd (l : elayer) : elayer :=
  filter (fun '(_, simd, _) => match simd with None => false | _ => true end) l.

(** crates/seec/src/circuit/dyn_layers.rs 293-320: ids of the non-interactive,
    interactive and freeable gates. *)
Definition el_ni (l : elayer) : list gid :=
  concat (map (fun '(sc, _, b) => map (pair sc) (bl_ni b)) l).
(** dyn_layers.rs 303-311: ids of the interactive gates. *)
Definition el_int (l : elayer) : list gid :=
  concat (map (fun '(sc, _, b) => map (pair sc) (bl_int b)) l).
(** dyn_layers.rs 313-320: ids of the freeable gates. *)
Definition el_free (l : elayer) : list gid :=
  concat (map (fun '(sc, _, b) => map (pair sc) (bl_free b)) l).

Section Exec.
Variable pr : protocol.

(** executor.rs 46-50 [Input]: the storage of one circuit.  A scalar share storage is a
    list of shares. *)
Inductive istore :=
| IScalar (l : list (p_share pr))
| ISimd (l : list (p_simd pr)).

(** One entry of such a storage. Entry of the storage of executor.rs 46-50. *)
Inductive cell :=
| CS (s : p_share pr)
| CD (s : p_simd pr).

(** executor.rs 38-44, 576-583 [GateOutputs]; [output_set] exists in builds with debug
    assertions, which are modelled. *)
Record gouts := GO { go_data : list istore; go_set : list gid }.

(** executor.rs 598-608 and 619-626 [get_unchecked], [get_simd_unchecked]: read
    one entry; the kind of the entry is the kind of the circuit. *)
Definition go_cell (go : gouts) (g : gid) : option cell :=
  match nth_error (go_data go) (fst g) with
  | Some (IScalar l) => s <- nth_error l (snd g) ;; Some (CS s)
  | Some (ISimd l) => s <- nth_error l (snd g) ;; Some (CD s)
  | None => None
  end.

(** executor.rs 585-596, 610-617 [get], [get_simd]: with the debug assertion. *)
Definition go_get (go : gouts) (g : gid) : option cell :=
  _ <- oassert (existsb (gid_eqb g) (go_set go)) ;; go_cell go g.

(** executor.rs 628-653 [set], [set_simd]; out of range and kind mismatch panic. *)
Definition go_put (go : gouts) (g : gid) (v : cell) : option gouts :=
  match nth_error (go_data go) (fst g), v with
  | Some (IScalar l), CS s =>
      _ <- oassert (snd g <? length l) ;;
      Some (GO (upd (fst g) (IScalar (upd (snd g) s l)) (go_data go)) (g :: go_set go))
  | Some (ISimd l), CD s =>
      _ <- oassert (snd g <? length l) ;;
      Some (GO (upd (fst g) (ISimd (upd (snd g) s l)) (go_data go)) (g :: go_set go))
  | _, _ => None
  end.

(** executor.rs 400-411: [mem::take] of a freeable SIMD share; a scalar circuit
    only logs an error. *)
Definition go_free (go : gouts) (g : gid) : option gouts :=
  match nth_error (go_data go) (fst g) with
  | Some (ISimd l) =>
      _ <- oassert (snd g <? length l) ;;
      Some (GO (upd (fst g) (ISimd (upd (snd g) (p_default_simd pr) l)) (go_data go)) (go_set go))
  | Some (IScalar _) => Some go
  | None => None
  end.

(** crates/seec/src/protocols/mod.rs 133-146 [setup_gate_outputs] (default). *)
Definition go_init (ec : ecirc (p_gate pr)) : gouts :=
  GO (map (fun '(n, simd) =>
             match simd with
             | None => IScalar (repeat (p_default_share pr) n)
             | Some _ => ISimd (repeat (p_default_simd pr) n)
             end) (ec_counts ec)) [].

(** Auxiliary: a scalar entry; the panics of executor.rs 604-606, 636-638. *)
Definition cell_scalar (c : cell) : option (p_share pr) :=
  match c with CS s => Some s | CD _ => None end.
(** Auxiliary: a SIMD entry; the panics of executor.rs 621-623, 646-648. *)
Definition cell_simd (c : cell) : option (p_simd pr) :=
  match c with CD s => Some s | CS _ => None end.

(** executor.rs 166-170 [binary_search] in [input_gates].  The list is ascending
    and without duplicates (proved: [aw_inputs]), so it finds the only index. *)
Fixpoint index_of (l : list nat) (x : nat) : option nat :=
  match l with
  | [] => None
  | y :: r => if x =? y then Some 0 else i <- index_of r x ;; Some (S i)
  end.

(** executor.rs 159-329: the value of one non-interactive gate from the current
    entry and the parents' entries.  The parents are fetched lazily in the code;
    here all of them are passed (see [ex_ni]). *)
Definition eval_cell (party : nat) (ec : ecirc (p_gate pr)) (main_simd : bool)
  (inputs : istore) (g : gid) (gate : p_gate pr) (cur : cell) (pars : list cell)
  : option cell :=
  match p_as_base pr gate with
  | Some GInput =>
      _ <- oassert (fst g =? 0) ;;
      i <- index_of (ec_inputs ec) (snd g) ;;
      match inputs, main_simd with
      | ISimd l, true => x <- nth_error l i ;; o <- p_eval_ni_simd pr party gate [x] ;; Some (CD o)
      | IScalar l, false => x <- nth_error l i ;; o <- p_eval_ni pr party gate [x] ;; Some (CS o)
      | _, _ => None
      end
  | Some GScInput =>
      match main_simd, ec_simd ec (fst g) with
      | true, Some _ => xs <- omap cell_simd pars ;; o <- p_eval_ni_simd pr party gate xs ;; Some (CD o)
      | false, Some _ => xs <- omap cell_scalar pars ;; Some (CD (p_simd_collect pr xs))
      | false, None => xs <- omap cell_scalar pars ;; o <- p_eval_ni pr party gate xs ;; Some (CS o)
      | true, None => None
      end
  | Some (GConnectToMainFromSimd select) =>
      match pars with
      | CD v :: _ => o <- p_simd_get pr v select ;; Some (CS o)
      | _ => None
      end
  | b =>
      match ec_simd ec (fst g), b with
      | Some n, Some (GConstant c) =>
          u <- cell_simd cur ;; Some (CD (p_share_constant_simd pr party u c n))
      | Some _, _ =>
          xs <- omap cell_simd pars ;; o <- p_eval_ni_simd pr party gate xs ;; Some (CD o)
      | None, Some (GConstant c) =>
          u <- cell_scalar cur ;; Some (CS (p_share_constant pr party u c))
      | None, _ =>
          xs <- omap cell_scalar pars ;; o <- p_eval_ni pr party gate xs ;; Some (CS o)
      end
  end.

(** executor.rs 154-330: one iteration of the loop over the non-interactive gates
    of a layer.  Simplification: all parents are read, also those an evaluation
    would not consume. *)
Definition ex_ni (party : nat) (ec : ecirc (p_gate pr)) (main_simd : bool) (inputs : istore)
  (go : gouts) (g : gid) : option gouts :=
  gate <- ec_gate ec g ;;
  cur <- go_cell go g ;;
  pars <- omap (go_get go) (ec_parents ec g) ;;
  v <- eval_cell party ec main_simd inputs g gate cur pars ;;
  go_put go g v.

(** executor.rs 54-58 [ExecutorMsg]. *)
Record emsg := EM { em_scalar : p_msg pr; em_simd : option (p_simdmsg pr) }.

(** executor.rs 348-411: messages of one interactive layer, send, release. *)
Definition ex_send (party : nat) (ec : ecirc (p_gate pr)) (l : elayer) (st : p_setup pr)
  (go : gouts) : option (emsg * p_setup pr * gouts) :=
  let sc := el_scalar l in
  let sd := el_simd l in
  sgates <- omap (ec_gate ec) (el_int sc) ;;
  souts <- omap (fun g => c <- go_cell go g ;; cell_scalar c) (el_int sc) ;;
  sins <- omap (fun g => c <- go_get go g ;; cell_scalar c) (concat (map (ec_parents ec) (el_int sc))) ;;
  '(m, st) <- p_compute_msg pr party sgates souts sins st ;;
  '(sm, st) <-
    (if p_simd_support pr then
       dgates <- omap (ec_gate ec) (el_int sd) ;;
       douts <- omap (fun g => c <- go_cell go g ;; cell_simd c) (el_int sd) ;;
       dins <- omap (fun g => c <- go_get go g ;; cell_simd c) (concat (map (ec_parents ec) (el_int sd))) ;;
       '(sm, st) <- p_compute_msg_simd pr party dgates douts dins st ;;
       Some (Some sm, st)
     else Some (None, st)) ;;
  go <- ofold go_free go (el_free sd) ;;
  Some (EM m sm, st, go).

(** [zip] of ids and new outputs, then [set] (executor.rs 459-473). *)
Fixpoint put_all (go : gouts) (ids : list gid) (vs : list cell) : option gouts :=
  match ids, vs with
  | g :: ids', v :: vs' => go <- go_put go g v ;; put_all go ids' vs'
  | _, _ => Some go
  end.

(** executor.rs 418-473: evaluation after the reply has arrived. *)
Definition ex_recv (party : nat) (ec : ecirc (p_gate pr)) (l : elayer) (st : p_setup pr)
  (own other : emsg) (go : gouts) : option gouts :=
  let sc := el_scalar l in
  let sd := el_simd l in
  sgates <- omap (ec_gate ec) (el_int sc) ;;
  souts <- omap (fun g => c <- go_cell go g ;; cell_scalar c) (el_int sc) ;;
  '(so, st) <- p_eval_int pr party sgates souts (em_scalar own) (em_scalar other) st ;;
  '(dgates, douts) <-
    (match em_simd own, em_simd other with
     | Some a, Some b =>
         dgates <- omap (ec_gate ec) (el_int sd) ;;
         douts <- omap (fun g => c <- go_cell go g ;; cell_simd c) (el_int sd) ;;
         '(o, _) <- p_eval_int_simd pr party dgates douts a b st ;;
         Some (el_int sd, o)
     | None, None => Some ([], [])
     | _, _ => None
     end) ;;
  go <- put_all go (el_int sc) (map CS so) ;;
  put_all go dgates (map CD douts).

(** executor.rs 138-147: the inputs must match the circuit. *)
Definition istore_len (i : istore) : nat :=
  match i with IScalar l => length l | ISimd l => length l end.

(** executor.rs 150 [main_is_simd]. *)
Definition ec_main_simd (ec : ecirc (p_gate pr)) : bool :=
  match ec_simd ec 0 with Some _ => true | None => false end.

(** executor.rs 481-492: the outputs of the main circuit. *)
Definition ex_outputs (ec : ecirc (p_gate pr)) (go : gouts) : option istore :=
  cs <- omap (fun id => go_get go (0, id)) (ec_outputs ec) ;;
  if ec_main_simd ec then l <- omap cell_simd cs ;; Some (ISimd l)
  else l <- omap cell_scalar cs ;; Some (IScalar l).

(** State of one party: gate outputs and the state [S] of its setup provider;
    [req] is [request_setup_output] (crates/seec/src/protocols/mod.rs 300-302). *)
Variable S : Type.
Variable req : S -> nat -> option (p_setup pr * S).

(** executor.rs 153-474: one layer of both parties.  Each party performs exactly
    its own sequence of steps; the messages are exchanged in between.  That every
    interleaving of the two parties gives this result is shown separately. *)
Definition ex2_layer (ec : ecirc (p_gate pr)) (i0 i1 : istore)
  (s : (gouts * S) * (gouts * S)) (l : elayer) : option ((gouts * S) * (gouts * S)) :=
  let '((go0, s0), (go1, s1)) := s in
  let ms := ec_main_simd ec in
  go0 <- ofold (ex_ni 0 ec ms i0) go0 (el_ni l) ;;
  go1 <- ofold (ex_ni 1 ec ms i1) go1 (el_ni l) ;;
  let n := el_int_count l in
  if n =? 0 then Some ((go0, s0), (go1, s1))
  else
    '(st0, s0) <- req s0 n ;;
    '(st1, s1) <- req s1 n ;;
    '(m0, st0, go0) <- ex_send 0 ec l st0 go0 ;;
    '(m1, st1, go1) <- ex_send 1 ec l st1 go1 ;;
    go0 <- ex_recv 0 ec l st0 m0 m1 go0 ;;
    go1 <- ex_recv 1 ec l st1 m1 m0 go1 ;;
    Some ((go0, s0), (go1, s1)).

(** executor.rs 123-493 [execute], both parties. *)
Definition ex2_run (ec : ecirc (p_gate pr)) (i0 i1 : istore)
  (s : (gouts * S) * (gouts * S))
  : option (istore * istore * ((gouts * S) * (gouts * S))) :=
  _ <- oassert (istore_len i0 =? length (ec_inputs ec)) ;;
  _ <- oassert (istore_len i1 =? length (ec_inputs ec)) ;;
  s <- ofold (ex2_layer ec i0 i1) s (ec_layers ec) ;;
  let '((go0, _), (go1, _)) := s in
  o0 <- ex_outputs ec go0 ;;
  o1 <- ex_outputs ec go1 ;;
  Some (o0, o1, s).

(** Several calls of [execute] on the same pair of executors; the gate outputs
    and the providers keep their state between calls. User code calling executor.rs 123-493. *)
Fixpoint ex2_history (ec : ecirc (p_gate pr)) (ins : list (istore * istore))
  (s : (gouts * S) * (gouts * S))
  : option (list (istore * istore) * ((gouts * S) * (gouts * S))) :=
  match ins with
  | [] => Some ([], s)
  | (i0, i1) :: r =>
      '(o0, o1, s) <- ex2_run ec i0 i1 s ;;
      '(os, s) <- ex2_history ec r s ;;
      Some ((o0, o1) :: os, s)
  end.
End Exec.

Arguments IScalar {pr}. Arguments ISimd {pr}. Arguments CS {pr}. Arguments CD {pr}.
Arguments GO {pr}. Arguments go_data {pr}. Arguments go_set {pr}. Arguments EM {pr}.
Arguments em_scalar {pr}. Arguments em_simd {pr}.
Arguments go_cell {pr}. Arguments go_get {pr}. Arguments go_put {pr}. Arguments go_free {pr}.
Arguments go_init {pr}. Arguments cell_scalar {pr}. Arguments cell_simd {pr}.
Arguments eval_cell {pr}. Arguments ex_ni {pr}. Arguments ex_send {pr}. Arguments ex_recv {pr}.
Arguments put_all {pr}. Arguments istore_len {pr}. Arguments ec_main_simd {pr}.
Arguments ex_outputs {pr}. Arguments ex2_layer {pr S}. Arguments ex2_run {pr S}. Arguments ex2_history {pr S}.
