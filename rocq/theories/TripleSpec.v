(** Specification vocabulary for the triple providers. *)
From Coq Require Import ZArith List Bool Arith.
Require Import Verif.Prelude Verif.BitVecModel Verif.GateModel Verif.BoolGmwModel Verif.BoolGmwSpec
  Verif.ArithGmwModel Verif.ArithGmwSpec Verif.OtModel Verif.TripleModel.
Import ListNotations.
Open Scope nat_scope.

(** What a storage must satisfy: [items] are its triples in order. *)
Record setup_laws {T I} (su : setup_ops T) (ok : T -> Prop) (items : T -> list I) (front : bool) : Prop := {
  sl_default : ok (su_default su) /\ items (su_default su) = [];
  sl_len : forall t, ok t -> su_len su t = length (items t);
  sl_append : forall t u, ok t -> ok u -> ok (su_append su t u) /\ items (su_append su t u) = items t ++ items u;
  sl_remove : forall t n, ok t -> n <= length (items t) ->
    exists r u, su_remove_first su t n = Some (r, u) /\ ok r /\ ok u /\
      if front then items u = firstn n (items t) /\ items r = skipn n (items t)
      else items r = firstn (length (items t) - n) (items t) /\ items u = skipn (length (items t) - n) (items t) }.

(** Two batches with matching triples. *)
Definition bool_batch (W : nat) (t u : mul_triples) : Prop :=
  mts_ok W t /\ mts_ok W u /\ triples_ok (mts_iter t) (mts_iter u).
Definition arith_batch (w : Z) (t u : amts) : Prop :=
  amts_ok t /\ amts_ok u /\ Forall2 (atriple_ok w) (amts_iter t) (amts_iter u).

(** Both parties see the same kind of outcome; requests deliver related batches with
    as many triples as requested. *)
Inductive fout_rel {T I} (items : T -> list I) (rel : T -> T -> Prop) : fop -> fout T -> fout T -> Prop :=
| fr_pre n : fout_rel items rel (FPre n) (FoPre (ROk tt)) (FoPre (ROk tt))
| fr_pre_err n : fout_rel items rel (FPre n) (FoPre RErr) (FoPre RErr)
| fr_req n t u : rel t u -> length (items t) = n -> length (items u) = n ->
    fout_rel items rel (FReq n) (FoReq (ROk t)) (FoReq (ROk u))
| fr_req_err n : fout_rel items rel (FReq n) (FoReq RErr) (FoReq RErr).

(** The triples a party was handed. *)
Definition fout_items {T I} (items : T -> list I) (o : fout T) : list I :=
  match o with FoReq (ROk t) => items t | _ => [] end.
(** The triples a party still has. *)
Definition mtf_left {T I} (items : T -> list I) (m : mtfile T) : list I :=
  items (mf_stored m) ++ flat_map items (mf_file m).

(** How many triples every request delivers ([None]: an error), when [total] are
    available. *)
Fixpoint served (total : nat) (ops : list fop) : list (option nat) :=
  match ops with
  | [] => []
  | FPre _ :: ops => served total ops
  | FReq n :: ops => if n <=? total then Some n :: served (total - n) ops else None :: served total ops
  end.
(** What the requests of a run delivered. *)
Definition delivered {T I} (items : T -> list I) (outs : list (fout T)) : list (option (list I)) :=
  flat_map (fun o => match o with
                     | FoPre _ => []
                     | FoReq (ROk t) => [Some (items t)]
                     | FoReq _ => [None]
                     end) outs.
(** The requests served from the front of one stream of triples. *)
Fixpoint serve {I} (stream : list I) (ops : list fop) : list (option (list I)) :=
  match ops with
  | [] => []
  | FPre _ :: ops => serve stream ops
  | FReq n :: ops => if n <=? length stream then Some (firstn n stream) :: serve (skipn n stream) ops
                     else None :: serve stream ops
  end.

(** ** Dealer *)

(** Requests of a party with an id. *)
Definition mine (p id : nat) (q : dreq) : bool := (dq_party q =? p) && (dq_id q =? id).
(** The replies to those requests, in order, with the requested amounts. *)
Definition got {T U} (p id : nat) (reqs : list dreq) (rs : list (reply T U)) : list (nat * reply T U) :=
  map (fun x => (dq_amount (fst x), snd x)) (filter (fun x => mine p id (fst x)) (combine reqs rs)).

(** One deal: the party that asked first, for how much, and both parts. *)
Record deal (T U : Type) := Deal { dl_first : nat; dl_amount : nat; dl_put : T; dl_reply : U }.
Arguments Deal {T U}. Arguments dl_first {T U}. Arguments dl_amount {T U}. Arguments dl_put {T U}. Arguments dl_reply {T U}.
(** The part of party [p]. *)
Definition share_of {T U} (p : nat) (d : deal T U) : reply T U :=
  if dl_first d =? p then RepFirst (dl_reply d) else RepSecond (dl_put d).

(** A reply (with the amount asked for) is the part of party [p] of a deal; the first
    to ask decides the amount. *)
Definition gets {T U} (p : nat) (ar : nat * reply T U) (d : deal T U) : Prop :=
  snd ar = share_of p d /\ (dl_first d = p -> fst ar = dl_amount d).

(** At no time has one party asked two times more than the other. *)
Definition balanced (id : nat) (reqs : list dreq) : Prop :=
  forall k, let n p := length (filter (mine p id) (firstn k reqs)) in n 0 <= n 1 + 1 /\ n 1 <= n 0 + 1.
Definition two_parties (reqs : list dreq) : Prop := forall q, In q reqs -> dq_party q < 2.

(** The deals (with their ids) made one after the other from the random source. *)
Inductive chain {S T U} (gen : nat -> S -> option (T * U * S)) : S -> list (nat * deal T U) -> S -> Prop :=
| chain_nil s : chain gen s [] s
| chain_snoc s l s1 id d s2 : chain gen s l s1 ->
    gen (dl_amount d) s1 = Some (dl_put d, dl_reply d, s2) -> chain gen s (l ++ [(id, d)]) s2.
(** The deals of one id. *)
Definition deals_of {T U} (id : nat) (l : list (nat * deal T U)) : list (deal T U) :=
  map snd (filter (fun x => fst x =? id) l).
