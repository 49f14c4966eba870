(** Model of crates/seec/src/circuit/static_layers.rs: precomputed layers.  The
    circuits are those of MultiModel.  Index types are unbounded here, so the
    conversions [Idx::new] (505-507) do not truncate.  No proofs here. *)
From Coq Require Import List Bool Arith.
Require Import Verif.Prelude Verif.GateModel Verif.CircuitModel Verif.ExecModel Verif.ConnModel Verif.MultiModel.
Import ListNotations.

(** static_layers.rs 52-58 [ScLayerGates]. *)
Record slgates (G : Type) := SG {
  sg_gates : list G;
  sg_idx : list nat;
  sg_inc : list (nat * nat);
  sg_cross : list bool }.
Arguments SG {G}. Arguments sg_gates {G} _. Arguments sg_idx {G} _. Arguments sg_inc {G} _.
Arguments sg_cross {G} _.

(** static_layers.rs 39-44 [ScLayer]. *)
Record sclayer (G : Type) := SL {
  sl_ni : slgates G;
  sl_int : slgates G;
  sl_incoming : list nat }.
Arguments SL {G}. Arguments sl_ni {G} _. Arguments sl_int {G} _. Arguments sl_incoming {G} _.

(** static_layers.rs 31-37 [SubCircuit]. *)
Record ssub (G : Type) := SS {
  ss_simd : option nat;
  ss_count : nat;
  ss_icount : nat;
  ss_layers : list (sclayer G) }.
Arguments SS {G}. Arguments ss_simd {G} _. Arguments ss_count {G} _. Arguments ss_icount {G} _.
Arguments ss_layers {G} _.

(** static_layers.rs 14-29 [Circuit] and [Layer].  The keys of [sc_map] are those
    of [circ_map], [0..len], so the map is a list. *)
Record scirc (G : Type) := SCirc {
  st_ins : list nat;
  st_outs : list nat;
  st_subs : list (ssub G);
  st_map : list nat;
  st_layers : list (list nat);
  st_conns : conns }.
Arguments SCirc {G}. Arguments st_ins {G} _. Arguments st_outs {G} _. Arguments st_subs {G} _.
Arguments st_map {G} _. Arguments st_layers {G} _. Arguments st_conns {G} _.

(** static_layers.rs 120-123 [get_circ]; [None] is a panic. *)
Definition st_get {G} (s : scirc G) (id : nat) : option (ssub G) :=
  k <- nth_error (st_map s) id ;; nth_error (st_subs s) k.

(** static_layers.rs 437-439, 445-447 [len] and [interactive_count]. *)
Definition sl_len {G} (l : sclayer G) : nat := length (sg_gates (sl_int l)) + length (sg_gates (sl_ni l)).
(** static_layers.rs 445-447 [interactive_count]. *)
Definition sl_ilen {G} (l : sclayer G) : nat := length (sg_gates (sl_int l)).

(** static_layers.rs 504-515: the loop of [from_base]. *)
Fixpoint sg_loop {G} (imax : nat) (cn : conns) (c : circuit G) (sc : nat) (idx : list nat)
  (incoming : list nat) : list (nat * nat) * list bool * list nat :=
  match idx with
  | [] => ([], [], incoming)
  | id :: r =>
      let incoming' := incoming ++ parents c id in
      let cross := match cn_parents imax cn (sc, id) with [] => false | _ => true end in
      let '(rs, bs, out) := sg_loop imax cn c sc r incoming' in
      ((length incoming, length incoming') :: rs, cross :: bs, out)
  end.

(** static_layers.rs 492-523 [ScLayerGates::from_base].  The layer of the base
    iterator only holds ids in the model; its gates are those of the circuit. *)
Definition sg_from_base {G} (imax : nat) (cn : conns) (c : circuit G) (sc : nat) (idx : list nat)
  (incoming : list nat) : option (slgates G * list nat) :=
  gates <- omap (nth_error (c_gates c)) idx ;;
  let '(rs, bs, out) := sg_loop imax cn c sc idx incoming in
  Some (SG gates idx rs bs, out).

(** static_layers.rs 449-482 [ScLayer::from_base_layer]. *)
Definition sl_from_base {G} (imax : nat) (m : mcirc G) (sc : nat) (b : blayer) : option (sclayer G) :=
  c <- mc_get m sc ;;
  '(ni, inc1) <- sg_from_base imax (mc_conns m) c sc (bl_ni b) [] ;;
  '(it, inc2) <- sg_from_base imax (mc_conns m) c sc (bl_int b) inc1 ;;
  Some (SL ni it inc2).

(** The derived [PartialEq] of [ScLayer] and [ScLayerGates] (39, 52), [geqb] being
    that of the gates. static_layers.rs 39, 52. *)
Fixpoint list_eqb {A} (eqb : A -> A -> bool) (a b : list A) : bool :=
  match a, b with
  | [], [] => true
  | x :: a', y :: b' => eqb x y && list_eqb eqb a' b'
  | _, _ => false
  end.
(** Derived [PartialEq] of the ranges of static_layers.rs 52. *)
Definition range_eqb (a b : nat * nat) : bool := (fst a =? fst b) && (snd a =? snd b).
(** static_layers.rs 52: derived [PartialEq] of [ScLayerGates]. *)
Definition sg_eqb {G} (geqb : G -> G -> bool) (a b : slgates G) : bool :=
  list_eqb geqb (sg_gates a) (sg_gates b) && list_eqb Nat.eqb (sg_idx a) (sg_idx b) &&
  list_eqb range_eqb (sg_inc a) (sg_inc b) && list_eqb Bool.eqb (sg_cross a) (sg_cross b).
(** static_layers.rs 39: derived [PartialEq] of [ScLayer]. *)
Definition sl_eqb {G} (geqb : G -> G -> bool) (a b : sclayer G) : bool :=
  sg_eqb geqb (sl_ni a) (sl_ni b) && sg_eqb geqb (sl_int a) (sl_int b) &&
  list_eqb Nat.eqb (sl_incoming a) (sl_incoming b).

(** static_layers.rs 272-279 [SubCircuit::new]. *)
Definition ss_new {G} (l : sclayer G) (simd : option nat) : ssub G := SS simd (sl_len l) (sl_ilen l) [l].

(** static_layers.rs 281-285 [push_layer]. *)
Definition ss_push {G} (s : ssub G) (l : sclayer G) : ssub G :=
  SS (ss_simd s) (ss_count s + sl_len l) (ss_icount s + sl_ilen l) (ss_layers s ++ [l]).

(** static_layers.rs 287-296 [truncate]; the removed gates have been counted, the
    subtractions do not underflow. *)
Definition ss_truncate {G} (s : ssub G) (n : nat) : ssub G :=
  SS (ss_simd s)
     (ss_count s - sum_list (map sl_len (skipn n (ss_layers s))))
     (ss_icount s - sum_list (map sl_ilen (skipn n (ss_layers s))))
     (firstn n (ss_layers s)).

(** static_layers.rs 247: the map [splits]. *)
Definition splits : Type := list (nat * list nat).
(** static_layers.rs 152 [splits.get]. *)
Definition sp_get (sp : splits) (k : nat) : list nat :=
  match find (fun e => fst e =? k) sp with Some e => snd e | None => [] end.

(** static_layers.rs 166-169: [splits.entry(k).or_default().push(v)]. *)
Fixpoint sp_push (sp : splits) (k v : nat) : splits :=
  match sp with
  | [] => [(k, [v])]
  | (k', l) :: r => if k' =? k then (k', l ++ [v]) :: r else (k', l) :: sp_push r k v
  end.

(** static_layers.rs 152-159: the search among earlier splits.  The outer [None]
    is a panic (an index out of range). *)
Fixpoint find_split {G} (geqb : G -> G -> bool) (subs : list (ssub G)) (p : nat) (l : sclayer G) (ks : list nat)
  : option (option nat) :=
  match ks with
  | [] => Some None
  | k :: r =>
      s <- nth_error subs k ;;
      l' <- nth_error (ss_layers s) p ;;
      if sl_eqb geqb l l' then Some (Some k) else find_split geqb subs p l r
  end.

(** static_layers.rs 127-177 [add_layer]; [None] is a panic. *)
Definition st_add {G} (geqb : G -> G -> bool) (imax : nat) (m : mcirc G) (ptrs : list nat)
  (s : scirc G) (sp : splits) (e : nat * option nat * blayer) : option (scirc G * splits) :=
  let '(sc, simd, b) := e in
  k <- nth_error (st_map s) sc ;;
  l <- sl_from_base imax m sc b ;;
  match nth_error (st_subs s) k with
  | None =>
      Some (SCirc (st_ins s) (st_outs s) (st_subs s ++ [ss_new l simd]) (st_map s) (st_layers s) (st_conns s), sp)
  | Some sub =>
      p <- nth_error ptrs sc ;;
      match nth_error (ss_layers sub) p with
      | Some l0 =>
          if sl_eqb geqb l l0 then Some (s, sp)
          else
            r <- find_split geqb (st_subs s) p l (sp_get sp k) ;;
            match r with
            | Some k' =>
                Some (SCirc (st_ins s) (st_outs s) (st_subs s) (upd sc k' (st_map s)) (st_layers s) (st_conns s), sp)
            | None =>
                let n := length (st_subs s) in
                Some (SCirc (st_ins s) (st_outs s) (st_subs s ++ [ss_push (ss_truncate sub p) l])
                        (upd sc n (st_map s)) (st_layers s) (st_conns s),
                      sp_push sp k n)
            end
      | None =>
          Some (SCirc (st_ins s) (st_outs s) (upd k (ss_push sub l) (st_subs s)) (st_map s) (st_layers s) (st_conns s),
                sp)
      end
  end.

(** static_layers.rs 251-256: one circuit of a layer, with its entry of
    [layer_ptrs]. *)
Definition st_entry {G} (geqb : G -> G -> bool) (imax : nat) (m : mcirc G)
  (st : scirc G * splits * list nat) (e : nat * option nat * blayer) : option (scirc G * splits * list nat) :=
  let '(s, sp, ptrs) := st in
  '(s', sp') <- st_add geqb imax m ptrs s sp e ;;
  p <- nth_error ptrs (fst (fst e)) ;;
  Some (s', sp', upd (fst (fst e)) (S p) ptrs).

(** static_layers.rs 249-261: one layer. *)
Definition st_layer {G} (geqb : G -> G -> bool) (imax : nat) (m : mcirc G)
  (st : scirc G * splits * list nat) (l : elayer) : option (scirc G * splits * list nat) :=
  '(s, sp, ptrs) <- ofold (st_entry geqb imax m) st l ;;
  Some (SCirc (st_ins s) (st_outs s) (st_subs s) (st_map s)
          (st_layers s ++ [map (fun e => fst (fst e)) l]) (st_conns s), sp, ptrs).

(** static_layers.rs 236-262 [precompute_layers], for the layers of the dynamic
    iterator under any order [perm] of its hash map. *)
Definition st_precompute {P G} (ops : gate_ops P G) (geqb : G -> G -> bool) (imax : nat) (m : mcirc G)
  (perm : nat -> miter -> miter) : option (scirc G) :=
  ls <- mc_layers ops imax m perm ;;
  c <- mc_get m 0 ;;
  '(s, _, _) <- ofold (st_layer geqb imax m)
    (SCirc (c_inputs c) (c_outputs c) [] (mc_map m) [] (mc_conns m), [], repeat 0 (length (mc_map m))) ls ;;
  Some s.

(** static_layers.rs 583-598 [ScLayerIterator::next], collected.  A missing layer
    ends the iteration (594-597); [None] is a panic. *)
Fixpoint sci_collect {G} (s : scirc G) (ptrs : list nat) (skip_simd skip_scalar : bool) (ids : list nat)
  : option (list (nat * sclayer G)) :=
  match ids with
  | [] => Some []
  | sc :: r =>
      sub <- st_get s sc ;;
      if match ss_simd sub with None => skip_scalar | Some _ => skip_simd end
      then sci_collect s ptrs skip_simd skip_scalar r
      else
        p <- nth_error ptrs sc ;;
        match nth_error (ss_layers sub) p with
        | None => Some []
        | Some l => ls <- sci_collect s ptrs skip_simd skip_scalar r ;; Some ((sc, l) :: ls)
        end
  end.

(** static_layers.rs 610-612: the positions after a layer. *)
Definition bump (ptrs : list nat) (ids : list nat) : option (list nat) :=
  ofold (fun ps sc => p <- nth_error ps sc ;; Some (upd sc (S p) ps)) ptrs ids.

(** static_layers.rs 532-541, 601-622 [LayerIterator]: every layer with the
    positions it starts from. *)
Fixpoint st_iter {G} (s : scirc G) (ptrs : list nat) (ls : list (list nat)) : option (list (list nat * list nat)) :=
  match ls with
  | [] => Some []
  | ids :: r =>
      ptrs' <- bump ptrs ids ;;
      rest <- st_iter s ptrs' r ;;
      Some ((ids, ptrs) :: rest)
  end.
(** static_layers.rs 532-541 [layer_iter], collected. *)
Definition st_layer_iter {G} (s : scirc G) : option (list (list nat * list nat)) :=
  st_iter s (repeat 0 (length (st_map s))) (st_layers s).

(** static_layers.rs 368-391, 404-433 [interactive_parents_iter] and
    [non_interactive_parents_iter], zipped with the gates and ids (343-350,
    393-401).  A slice out of range would panic; the ranges come from [sg_loop]. *)
Definition sg_items {G} (imax : nat) (cn : conns) (sc : nat) (incoming : list nat) (l : slgates G)
  : list (G * nat * list gid) :=
  zip_with (fun a b => (a, b))
    (zip_with (fun g id => (g, id)) (sg_gates l) (sg_idx l))
    (zip_with (fun id rb =>
       if snd rb : bool then cn_parents imax cn (sc, id)
       else map (pair sc) (firstn (snd (fst rb) - fst (fst rb)) (skipn (fst (fst rb)) incoming)))
       (sg_idx l) (zip_with (fun r b => (r, b)) (sg_inc l) (sg_cross l))).

(** One circuit of a precomputed layer as the executor sees it (circuit/mod.rs
    359-391, 320-342): the circuit, its SIMD size, and the gates with parents. *)
Definition st_view {G} (imax : nat) (s : scirc G) (e : nat * sclayer G)
  : option (nat * option nat * list (G * nat * list gid) * list (G * nat * list gid)) :=
  sub <- st_get s (fst e) ;;
  Some (fst e, ss_simd sub,
        sg_items imax (st_conns s) (fst e) (sl_incoming (snd e)) (sl_ni (snd e)),
        sg_items imax (st_conns s) (fst e) (sl_incoming (snd e)) (sl_int (snd e))).

(** circuit/mod.rs 230-240 [layer_iter] on precomputed layers, with the two halves
    of [split_simd] (555-561, mod.rs 402-413): whole layers, scalar part, SIMD
    part. *)
Definition st_views {G} (imax : nat) (s : scirc G) (skip_simd skip_scalar : bool)
  : option (list (list (nat * option nat * list (G * nat * list gid) * list (G * nat * list gid)))) :=
  it <- st_layer_iter s ;;
  omap (fun e => es <- sci_collect s (snd e) skip_simd skip_scalar (fst e) ;; omap (st_view imax s) es) it.

(** static_layers.rs 68-73, 75-80, 82-90, 96-102 [gate_count],
    [interactive_count], [interactive_count_times_simd], [gate_counts]. *)
Definition st_gate_count {G} (s : scirc G) : option nat :=
  option_map sum_list (omap (fun id => option_map ss_count (st_get s id)) (seq 0 (length (st_map s)))).
(** static_layers.rs 75-80 [interactive_count]. *)
Definition st_int_count {G} (s : scirc G) : option nat :=
  option_map sum_list (omap (fun id => option_map ss_icount (st_get s id)) (seq 0 (length (st_map s)))).
(** static_layers.rs 82-90 [interactive_count_times_simd]. *)
Definition st_int_count_simd {G} (s : scirc G) : option nat :=
  option_map sum_list (omap (fun id => option_map
      (fun x => ss_icount x * match ss_simd x with Some n => n | None => 1 end) (st_get s id))
    (seq 0 (length (st_map s)))).
(** static_layers.rs 96-102 [gate_counts]. *)
Definition st_gate_counts {G} (s : scirc G) : option (list (nat * option nat)) :=
  omap (fun id => option_map (fun x => (ss_count x, ss_simd x)) (st_get s id)) (seq 0 (length (st_map s))).

(** circuit/mod.rs 81-240, 394-399: what the executor uses of a precomputed
    circuit.  Gates and parents come with the layers; here they are looked up in
    them by id.  No gate is ever released (mod.rs 397). *)
Definition st_items {G} (vs : list (list (nat * option nat * list (G * nat * list gid) * list (G * nat * list gid))))
  : list (gid * (G * list gid)) :=
  concat (map (fun l => concat (map (fun '(sc, _, ni, it) =>
    map (fun '(g, id, ps) => ((sc, id), (g, ps))) (ni ++ it)) l)) vs).
(** circuit/mod.rs 81-240, 394-399, for a precomputed circuit. *)
Definition ec_of_static {G} (imax : nat) (s : scirc G) : option (ecirc G) :=
  vs <- st_views imax s false false ;;
  counts <- st_gate_counts s ;;
  let look g := find (fun e => gid_eqb (fst e) g) (st_items vs) in
  Some (EC (fun g => option_map (fun e => fst (snd e)) (look g))
           (fun g => match look g with Some e => snd (snd e) | None => [] end)
           (map (map (fun '(sc, simd, ni, it) =>
              (sc, simd, BL (map (fun x => snd (fst x)) ni) (map (fun x => snd (fst x)) it) []))) vs)
           (fun id => match st_get s id with Some x => ss_simd x | None => None end)
           (st_ins s) (st_outs s) counts).
