(** Model of crates/zappot/src/silent_ot/pprf.rs (puncturable pseudorandom function)
    and of the gap positions in crates/zappot/src/silent_ot/mod.rs.  No proofs here.

    A [Block] is an [N] below [2^128].  [enc keep] is encryption with the fixed key
    [keep] (pprf.rs 665-678 [create_fixed_aes]); [H] is
    [FIXED_KEY_HASH.cr_hash_block].  The code processes eight trees side by side
    ([[Block; 8]]) with the same operations on each; here every tree is processed on its
    own.  A level of a tree is the list of its nodes; the flattened tree buffer
    (pprf.rs 683-687 [get_level], 769-778 [get_cons_levels]) is reused between groups,
    but every entry that is read was written before in the same group, so it is not a
    state here. *)
From Coq Require Import List Bool Arith NArith.
Require Import Verif.Prelude Verif.ZapUtilModel.
Import ListNotations.
Open Scope nat_scope.

(** util/block.rs [Block::all_ones]. util/block.rs 37-39. *)
Definition blk_ones : N := N.ones 128.

(** pprf.rs 39-44 [PprfConfig]. *)
Record pprf_conf := PprfConf { pc_count : nat; pc_domain : nat; pc_depth : nat }.

(** pprf.rs 614-621 [new]; [bits] is [usize::BITS]. *)
Definition pprf_conf_new (bits domain pnt_count : nat) : option pprf_conf :=
  depth <- log2_ceil bits (N.of_nat domain) ;;
  Some (PprfConf pnt_count domain depth).

(** ** One tree *)

(** pprf.rs 177-186, 430-439: a child of a node. *)
Definition ggm (enc : bool -> N -> N) (keep : bool) (x : N) : N := N.lxor (enc keep x) x.

(** pprf.rs 155-195, 411-451: the children loop; [width] is the length of the next
    level.  With an odd [width] the second access to [level1] is out of range. *)
Definition expand_level (enc : bool -> N -> N) (width : nat) (level0 : list N) : option (list N) :=
  _ <- oassert (width mod 2 =? 0) ;;
  _ <- oassert (width / 2 <=? length level0) ;;
  Some (flat_map (fun x => [ggm enc false x; ggm enc true x]) (firstn (width / 2) level0)).

(** pprf.rs 187-191, 441-447: sums of the left and of the right children. *)
Fixpoint level_sums (level1 : list N) : N * N :=
  match level1 with
  | a :: b :: r => let '(x, y) := level_sums r in (N.lxor a x, N.lxor b y)
  | _ => (0%N, 0%N)
  end.

(** Selects by [keep] / [not_ai] (pprf.rs 170, 464-466, 502, 522-523). *)
Definition side {A} (b : bool) (p : A * A) : A := if b then snd p else fst p.

(** pprf.rs 143-155, 393-411: the length of level [d+1]; the last level of format
    [Interleaved] is a part of the output ([get_level_output], 755-766). *)
Definition level_width (c : pprf_conf) (f : pprf_format) (d : nat) : nat :=
  match f with
  | Interleaved => if d + 1 =? pc_depth c then pc_domain c else 2 ^ (d + 1)
  | InterleavedTransposed => 2 ^ (d + 1)
  end.

(** pprf.rs 143-196: the levels [d], [d+1], ... ([n] of them) of the sender. *)
Fixpoint send_levels (enc : bool -> N -> N) (c : pprf_conf) (f : pprf_format) (n d : nat) (level : list N)
  : option (list N * list (N * N)) :=
  match n with
  | 0 => Some (level, [])
  | S n =>
      l1 <- expand_level enc (level_width c f d) level ;;
      '(leaves, ss) <- send_levels enc c f n (d + 1) l1 ;;
      Some (leaves, level_sums l1 :: ss)
  end.

(** pprf.rs 743-747 [TreeGrp], the part of one tree: [sums] (left, right) per level and
    [last_ots]. *)
Record tree_msg := TreeMsg { tm_sums : list (N * N); tm_last : (N * N) * (N * N) }.

(** pprf.rs 130-256 for one tree: [root] is the random seed, [ots] its base OTs.
    Returns the message and the leaves.  [depth - 1] with depth 0 panics. *)
Definition send_tree (enc : bool -> N -> N) (H : N -> N) (c : pprf_conf) (f : pprf_format)
  (value : N) (root : N) (ots : list (N * N)) : option (tree_msg * list N) :=
  _ <- oassert (1 <=? pc_depth c) ;;
  '(leaves, ss) <- send_levels enc c f (pc_depth c) 0 [root] ;;
  _ <- oassert (pc_depth c <=? length ots) ;;
  let d := pc_depth c - 1 in
  '(s0, s1) <- nth_error ss d ;;
  '(o0, o1) <- nth_error ots d ;;
  let masked := zip_with (fun s o => (N.lxor (fst s) (fst o), N.lxor (snd s) (snd o))) (firstn d ss) (firstn d ots) in
  let last := ((N.lxor s0 (H o0), N.lxor (N.lxor s1 value) (H (N.lxor o0 blk_ones))),
               (N.lxor s1 (H o1), N.lxor (N.lxor s0 value) (H (N.lxor o1 blk_ones)))) in
  Some (TreeMsg masked last, leaves).

(** pprf.rs 691-696 [get_active_path]; a choice byte is a bool. *)
Definition active_path (choices : list bool) : nat :=
  fold_left (fun point ic => Nat.lor point (Nat.shiftl (Nat.b2n (negb (snd ic))) (length choices - fst ic - 1)))
            (combine (seq 0 (length choices)) choices) 0.

(** pprf.rs 461, 488: [inactive_child_idx] = [active_child_idx ^ 1]. *)
Definition sibling (a : nat) : nat := Nat.lxor a 1.

(** pprf.rs 387-469: levels [d], ..., of the receiver ([n] of them, [d + n] = depth);
    returns the last level and its own sums. *)
Fixpoint recv_levels (enc : bool -> N -> N) (c : pprf_conf) (f : pprf_format) (sums : list (N * N))
  (ots : list N) (point : nat) (n d : nat) (level : list N) (mine : N * N) : option (list N * (N * N)) :=
  match n with
  | 0 => Some (level, mine)
  | S n =>
      l1 <- expand_level enc (level_width c f d) level ;;
      let mine := level_sums l1 in
      l1 <- (if d =? pc_depth c - 1 then Some l1
             else
               let inactive := sibling (Nat.shiftr point (pc_depth c - 1 - d)) in
               let not_ai := Nat.odd inactive in
               x <- nth_error l1 inactive ;;
               s <- nth_error sums d ;;
               o <- nth_error ots d ;;
               Some (upd inactive (N.lxor (N.lxor (N.lxor x (side not_ai s)) (side not_ai mine)) o) l1)) ;;
      recv_levels enc c f sums ots point n (d + 1) l1 mine
  end.

(** pprf.rs 377-526 for one tree; [choices] and [ots] are its base choices and base
    OTs.  Accesses out of range panic. *)
Definition recv_tree (enc : bool -> N -> N) (H : N -> N) (c : pprf_conf) (f : pprf_format)
  (choices : list bool) (ots : list N) (m : tree_msg) : option (list N) :=
  let point := active_path choices in
  c0 <- nth_error choices 0 ;;
  o0 <- nth_error ots 0 ;;
  s0 <- nth_error (tm_sums m) 0 ;;
  let x := N.lxor o0 (side c0 s0) in
  let l1 := if c0 then [0%N; x] else [x; 0%N] in
  '(level, mine) <- recv_levels enc c f (tm_sums m) ots point (pc_depth c - 1) 1 l1 (0%N, 0%N) ;;
  let active := point in
  let inactive := sibling active in
  let not_ai := Nat.odd inactive in
  od <- nth_error ots (pc_depth c - 1) ;;
  let lo := side not_ai (tm_last m) in
  let ot0 := N.lxor (fst lo) (H od) in
  let ot1 := N.lxor (snd lo) (H (N.lxor od blk_ones)) in
  i <- nth_error level inactive ;;
  a <- nth_error level active ;;
  let isum := N.lxor (side not_ai mine) i in
  let asum := N.lxor (side (negb not_ai) mine) a in
  Some (upd active (N.lxor ot1 asum) (upd inactive (N.lxor ot0 isum) level)).

(** ** Output *)

(** pprf.rs 755-766 [get_level_output]: the leaves of the eight trees of group [g] in the
    output of format [Interleaved]. *)
Definition write_interleaved (c : pprf_conf) (g : nat) (trees : list (list N)) (out : list N) : option (list N) :=
  _ <- oassert (g mod 8 =? 0) ;;
  let start := g / 8 * pc_domain c * 8 in
  let size := pc_domain c * 8 in
  _ <- oassert (start + size <=? length out) ;;
  Some (firstn start out
        ++ map (fun q => nth (q / 8) (nth (q mod 8) trees []) 0%N) (seq 0 size)
        ++ skipn (start + size) out).

(** pprf.rs 809-817: block [r] of the transposed 128 by 128 bit matrix whose rows are
    the nodes [16*k .. 16*k+15] of the eight trees (see C38 for the transposition
    itself). *)
Fixpoint blk_of_bits (l : list bool) : N :=
  match l with [] => 0%N | b :: l => (N.b2n b + 2 * blk_of_bits l)%N end.
(** pprf.rs 809-817: block [r] after the transposition. *)
Definition transposed_block (trees : list (list N)) (k r : nat) : N :=
  blk_of_bits (map (fun b => N.testbit (nth (16 * k + b / 8) (nth (b mod 8) trees []) 0%N) (N.of_nat r)) (seq 0 128)).

(** pprf.rs 806-827: the loop; [out] is the list of rows. *)
Fixpoint copy_cols (trees : list (list N)) (step fin : nat) (fuel i k : nat) (out : list (list N)) : list (list N) :=
  match fuel with
  | 0 => out
  | S fuel =>
      if i <? fin then
        copy_cols trees step fin fuel (i + step) (k + 1)
          (map (fun rr => upd i (transposed_block trees k (fst rr)) (snd rr)) (combine (seq 0 (length out)) out))
      else out
  end.

(** pprf.rs 780-833 [copy_out] for format [InterleavedTransposed]; [trees] are the
    leaves of the eight trees of group [g]; [ncols] is [output.ncols()].  The fuel is the
    number of blocks of a set. *)
Definition copy_out (c : pprf_conf) (ncols g : nat) (trees : list (list N)) (out : list (list N))
  : option (list (list N)) :=
  let len := length (nth 0 trees []) in
  _ <- oassert (pc_count c mod 8 =? 0) ;;
  _ <- oassert (len mod 16 =? 0) ;;
  _ <- oassert (16 <=? len) ;;
  let set_idx := g / 8 in
  let block_per_set := len * 8 / 128 in
  let step := pc_count c / 8 in
  let fin := Nat.min (set_idx + step * block_per_set) ncols in
  Some (copy_cols trees step fin block_per_set set_idx 0 out).

(** The output array, pprf.rs 58-72 [out_dims]: for [Interleaved] a column of blocks, for
    [InterleavedTransposed] 128 rows of blocks. *)
Inductive pprf_out := OInter (out : list N) | OTrans (ncols : nat) (out : list (list N)).

(** pprf.rs 106-107, 313-314: the initial output. *)
Definition out_zeros (c : pprf_conf) (f : pprf_format) : pprf_out :=
  match f with
  | Interleaved => OInter (repeat 0%N (pc_count c * pc_domain c))
  | InterleavedTransposed =>
      let ncols := (pc_count c * pc_domain c + 127) / 128 in
      OTrans ncols (repeat (repeat 0%N ncols) 128)
  end.

(** pprf.rs 261-265, 527-532: the finished leaves of a group go to the output. *)
Definition write_group (c : pprf_conf) (g : nat) (trees : list (list N)) (out : pprf_out) : option pprf_out :=
  match out with
  | OInter o => o <- write_interleaved c g trees o ;; Some (OInter o)
  | OTrans n o => o <- copy_out c n g trees o ;; Some (OTrans n o)
  end.

(** ** All trees *)

(** pprf.rs 743-747 [TreeGrp]. *)
Record grp_msg := GrpMsg { gm_g : nat; gm_trees : list tree_msg }.

(** pprf.rs 130-260: group [g] of the sender; [roots] are the seeds of all trees and
    [ots] the rows of [base_ots].  Simplified: for a last group of less than eight trees
    (which the receiver can not process, 378-385) this panics here. *)
Definition send_group enc H c f (value : N) (roots : list N) (ots : list (list (N * N))) (g : nat)
  : option (grp_msg * list (list N)) :=
  r <- omap (fun j => root <- nth_error roots (g + j) ;;
                      row <- nth_error ots (g + j) ;;
                      send_tree enc H c f value root row) (seq 0 8) ;;
  Some (GrpMsg g (map fst r), map snd r).

(** pprf.rs 86-282 [Sender::expand].  The threads take the groups [8*t], [8*t + 8*T],
    ..., so the groups are processed in some order, which is [order] (the group numbers
    [g/8]); messages leave in this order. *)
Fixpoint send_groups enc H c f value roots ots (order : list nat) (out : pprf_out)
  : option (list grp_msg * pprf_out) :=
  match order with
  | [] => Some ([], out)
  | q :: order =>
      '(m, leaves) <- send_group enc H c f value roots ots (8 * q) ;;
      out <- write_group c (8 * q) leaves out ;;
      '(ms, out) <- send_groups enc H c f value roots ots order out ;;
      Some (m :: ms, out)
  end.
(** pprf.rs 86-282 [Sender::expand]. *)
Definition sender_expand enc H c f value roots ots order : option (list grp_msg * pprf_out) :=
  send_groups enc H c f value roots ots order (out_zeros c f).

(** pprf.rs 374-532: one received group, and all of them. *)
Definition recv_group enc H c f (choices : list (list bool)) (ots : list (list N)) (m : grp_msg)
  : option (list (list N)) :=
  omap (fun j => ch <- nth_error choices (gm_g m + j) ;;
                 row <- nth_error ots (gm_g m + j) ;;
                 t <- nth_error (gm_trees m) j ;;
                 recv_tree enc H c f ch row t) (seq 0 8).
(** pprf.rs 374-532: all received groups, in the order of arrival. *)
Fixpoint recv_groups enc H c f choices ots (ms : list grp_msg) (out : pprf_out) : option pprf_out :=
  match ms with
  | [] => Some out
  | m :: ms =>
      leaves <- recv_group enc H c f choices ots m ;;
      out <- write_group c (gm_g m) leaves out ;;
      recv_groups enc H c f choices ots ms out
  end.

(** pprf.rs 297-550 [Receiver::expand]: it takes [pnt_count / 8] groups from the channel
    (324-346) and its threads process [ceil(pnt_count / 8)] of them, in the order in
    which they take them from the queue; a missing group panics. *)
Definition receiver_expand enc H c f choices ots (ms : list grp_msg) : option pprf_out :=
  let taken := firstn (pc_count c / 8) ms in
  _ <- oassert ((pc_count c + 7) / 8 <=? length taken) ;;
  recv_groups enc H c f choices ots taken (out_zeros c f).

(** pprf.rs 553-567 [get_points] for the interleaved formats, with 698-704
    [interleave_points]. *)
Definition recv_points (umax : nat) (c : pprf_conf) (f : pprf_format) (choices : list (list bool)) : list nat :=
  map (fun it => interleave_point umax (active_path (snd it)) (fst it) (length choices) (pc_domain c) f)
      (combine (seq 0 (length choices)) choices).

(** ** Gap positions (silent_ot/mod.rs) *)

(** mod.rs 282-311 [Sender::derandomize_gap]: what is appended to [rT], and the message.
    [aes k x] encrypts [x]; its result is written to a temporary copy
    ([&mut gap_val.into()]) and dropped, so [gap_val] stays zero. *)
Definition gap_send (aes : N -> N -> N) (gap_ots : list (N * N)) (delta : N) : list N * list N :=
  (map fst gap_ots,
   map (fun o => let v := N.lxor (fst o) delta in
                 let gap_val := 0%N in
                 let _ := aes (snd o) gap_val in
                 N.lxor gap_val v) gap_ots).

(** mod.rs 474-508 [Receiver::derandomize_gap]: what is appended to [rT]. *)
Definition gap_receive (aes : N -> N -> N) (gap_ots : list N) (choices : list bool) (vals : list N) : list N :=
  zip_with (fun (oc : N * bool) v => if snd oc then let t := 0%N in let _ := aes (fst oc) t in N.lxor t v else fst oc)
           (combine gap_ots choices) vals.

(** mod.rs 313-325 [Sender::hash]. *)
Definition silent_send_hash (H : N -> N) (delta : N) (b : list N) : list (N * N) :=
  let mask := N.lxor blk_ones 1 in
  let d := N.land delta mask in
  map (fun x => let m := N.land x mask in (H m, H (N.lxor m d))) b.

(** mod.rs 510-522 [Receiver::hash]: outputs and choice bits. *)
Definition silent_recv_hash (H : N -> N) (a : list N) : list N * list bool :=
  let mask := N.lxor blk_ones 1 in
  (map (fun x => H (N.land x mask)) a, map (fun x => N.testbit x 0) a).
