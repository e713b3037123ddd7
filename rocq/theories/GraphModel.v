(** * Model of kwant/graph/core.pyx: Graph and CGraph.

    C arrays are lists of integers; every access is checked, an out-of-bounds
    access (undefined behaviour in the code) is the outcome [GOob].  Freshly
    allocated arrays have arbitrary contents ([junk]).  Integers do not
    overflow. *)
From Coq Require Import List Bool ZArith.
Import ListNotations.
Set Implicit Arguments.
Local Open Scope Z_scope.

Inductive gerr :=
  | GValue            (* ValueError *)
  | GNode             (* NodeDoesNotExistError *)
  | GEdge             (* EdgeDoesNotExistError *)
  | GDisabled         (* DisabledFeatureError *)
  | GAssert           (* failed assert *)
  | GOob.             (* access outside of an array *)
Definition gres (A : Type) := (A + gerr)%type.
Definition gbind {A B} (x : gres A) (f : A -> gres B) : gres B :=
  match x with inl a => f a | inr e => inr e end.
Notation "'do' x <- a ; b" := (gbind a (fun x => b))
  (at level 200, x pattern, a at level 100, b at level 200).

(** ** Checked arrays *)
Definition arr := list Z.
Definition aget (a : arr) (i : Z) : gres Z :=
  if i <? 0 then inr GOob
  else match nth_error a (Z.to_nat i) with Some v => inl v | None => inr GOob end.
Fixpoint upd (a : arr) (n : nat) (v : Z) : arr :=
  match a, n with
  | [], _ => []
  | _ :: a, O => v :: a
  | x :: a, S n => x :: upd a n v
  end.
Definition aset (a : arr) (i v : Z) : gres arr :=
  if (0 <=? i) && (i <? Z.of_nat (length a)) then inl (upd a (Z.to_nat i) v)
  else inr GOob.

(** ** Graph: core.pyx:37-55, core.pxd *)
Record graph := mkGraph {
  allow_negative_nodes : bool;
  edges : list (Z * Z);                    (* (tail, head), in order of addition *)
  num_nodes : Z;
  num_pp_edges : Z; num_pn_edges : Z; num_np_edges : Z }.

(** core.pyx:42-43 (and zero-initialized C members). *)
Definition new_graph (allow_neg : bool) : graph := mkGraph allow_neg [] 0 0 0 0.

(** core.pyx:52-55: setting num_nodes. *)
Definition set_num_nodes (g : graph) (value : Z) : graph * option gerr :=
  if value <? num_nodes g then (g, Some GValue)
  else (mkGraph (allow_negative_nodes g) (edges g) value
          (num_pp_edges g) (num_pn_edges g) (num_np_edges g), None).

(** core.pyx:77-121 add_edge (the growth of the buffer is not modelled). *)
Definition add_edge (g : graph) (tail head : Z) : graph * gres Z :=
  let neg_tail := tail <? 0 in
  let neg_head := head <? 0 in
  if (neg_tail || neg_head) && negb (allow_negative_nodes g) then (g, inr GValue)
  else if neg_tail && neg_head then (g, inr GValue)
  else
    let pn := if (neg_tail || neg_head) && neg_head then 1 else 0 in
    let np := if (neg_tail || neg_head) && negb neg_head then 1 else 0 in
    let pp := if neg_tail || neg_head then 0 else 1 in
    (mkGraph (allow_negative_nodes g) (edges g ++ [(tail, head)])
       (Z.max (num_nodes g) (Z.max (tail + 1) (head + 1)))
       (num_pp_edges g + pp) (num_pn_edges g + pn) (num_np_edges g + np),
     inl (Z.of_nat (length (edges g)))).

(** core.pyx:123-155 add_edges: one edge after the other. *)
Fixpoint add_edges (g : graph) (es : list (Z * Z)) : graph * option gerr :=
  match es with
  | [] => (g, None)
  | (t, h) :: es => match add_edge g t h with
                    | (g', inl _) => add_edges g' es
                    | (g', inr e) => (g', Some e)
                    end
  end.

(** ** CGraph: core.pxd, core.pyx:663-707 *)
Record cgraph := mkCG {
  twoway : bool; edge_nr_translation : bool;
  cnum_nodes : Z; num_edges : Z; num_px_edges : Z; num_xp_edges : Z;
  edge_nr_end : Z;
  heads_idxs : arr; heads : arr; tails_idxs : arr; tails : arr;
  edge_ids : arr; edge_ids_by_edge_nr : arr }.

Section Compress.
Variable junk : nat -> nat -> Z.           (* contents of fresh memory *)
Definition fresh (k : nat) (size : Z) : arr := map (junk k) (seq 0 (Z.to_nat size)).

(** core.pyx:222-229: the histograms (hbuf[i] is heads_idxs[i + 1]). *)
Definition incr (a : arr) (i : Z) : gres arr :=
  do v <- aget a i; aset a i (v + 1).
Definition hist_step (tw : bool) (st : gres (arr * arr)) (e : Z * Z) : gres (arr * arr) :=
  do (hi, ti) <- st;
  do hi <- (if 0 <=? fst e then incr hi (fst e + 1) else inl hi);
  do ti <- (if tw && (0 <=? snd e) then incr ti (snd e + 1) else inl ti);
  inl (hi, ti).

(** core.pyx:233-243: for i in range(num_nodes): s += buf[i]; buf[i] = s - buf[i]. *)
Fixpoint antideriv (n : nat) (i s : Z) (a : arr) : gres arr :=
  match n with
  | O => inl a
  | S n =>
    do v <- aget a (i + 1);
    do a <- aset a (i + 1) (s + v - v);
    antideriv n (i + 1) (s + v) a
  end.

(** core.pyx:246-266: the main loop. *)
Record cstate := mkCS {
  s_hidx : arr; s_heads : arr; s_tidx : arr; s_tails : arr; s_eids : arr;
  s_bynr : arr; s_next_np : Z; s_nr : Z }.

Definition edge_step (tw ent : bool) (st : gres cstate) (e : Z * Z) : gres cstate :=
  do s <- st;
  let (tail, head) := e in
  (* edge_id, hbuf, next_np_edge_id *)
  do (eid, hidx, next) <-
     (if 0 <=? tail then
        do v <- aget (s_hidx s) (tail + 1);
        do a <- aset (s_hidx s) (tail + 1) (v + 1);
        inl (v, a, s_next_np s)
      else if tw then
        if 0 <=? head then inl (s_next_np s, s_hidx s, s_next_np s + 1) else inr GAssert
      else inl (-1, s_hidx s, s_next_np s));
  do hds <- (if 0 <=? eid then aset (s_heads s) eid head else inl (s_heads s));
  do (tidx, tls, eids) <-
     (if tw && (0 <=? head) then
        do p <- aget (s_tidx s) (head + 1);
        do tls <- aset (s_tails s) p tail;
        do eids <- aset (s_eids s) p eid;
        do tidx <- aset (s_tidx s) (head + 1) (p + 1);
        inl (tidx, tls, eids)
      else inl (s_tidx s, s_tails s, s_eids s));
  do bynr <- (if ent then aset (s_bynr s) (s_nr s) eid else inl (s_bynr s));
  inl (mkCS hidx hds tidx tls eids bynr next (if ent then s_nr s + 1 else s_nr s)).

(** core.pyx:167-269 compressed (with the allocations of core.pyx:666-707). *)
Definition compressed (g : graph) (tw ent allow_lost : bool) : gres cgraph :=
  let n := num_nodes g in
  let pp := num_pp_edges g in let pn := num_pn_edges g in let np := num_np_edges g in
  if negb (Z.of_nat (length (edges g)) =? pp + pn + np) then inr GAssert
  else if negb (tw || allow_lost || (np =? 0)) then inr GValue
  else
    let px := pp + pn in
    let nr_end := pp + pn + np in
    let xp := if tw then pp + np else pp in
    let ne := if tw then nr_end else px in
    let zeros := repeat 0 (Z.to_nat (n + 1)) in
    let tzeros := if tw then zeros else [] in
    do (hi, ti) <- fold_left (hist_step tw) (edges g) (inl (zeros, tzeros));
    do hi <- antideriv (Z.to_nat n) 0 0 hi;
    do ti <- (if tw then antideriv (Z.to_nat n) 0 0 ti else inl ti);
    do s <- fold_left (edge_step tw ent) (edges g)
        (inl (mkCS hi (fresh 0 ne) ti
                (if tw then fresh 1 xp else []) (if tw then fresh 2 xp else [])
                (if ent then fresh 3 nr_end else []) px 0));
    if negb (ne =? s_next_np s) then inr GAssert
    else inl (mkCG tw ent n ne px xp nr_end (s_hidx s) (s_heads s) (s_tidx s)
                (s_tails s) (s_eids s) (s_bynr s)).
End Compress.

(** ** Queries *)

(** a[lo : hi] through a pointer (core.pyx:367-370, 472-473): the elements
    lo, ..., hi - 1. *)
Fixpoint aslice (a : arr) (lo : Z) (n : nat) : gres (list Z) :=
  match n with
  | O => inl []
  | S n => do v <- aget a lo; do l <- aslice a (lo + 1) n; inl (v :: l)
  end.
Definition bounds (idxs : arr) (node : Z) : gres (Z * Z) :=
  do lo <- aget idxs node; do hi <- aget idxs (node + 1); inl (lo, hi).
Definition range (lo hi : Z) : list Z :=
  map (fun k => lo + Z.of_nat k) (seq 0 (Z.to_nat (hi - lo))).
Definition bad_node (g : cgraph) (node : Z) : bool := (node <? 0) || (cnum_nodes g <=? node).

(** core.pyx:350-370 out_neighbors. *)
Definition out_neighbors (g : cgraph) (node : Z) : gres (list Z) :=
  if bad_node g node then inr GNode
  else do (lo, hi) <- bounds (heads_idxs g) node; aslice (heads g) lo (Z.to_nat (hi - lo)).
(** core.pyx:372-389 out_edge_ids. *)
Definition out_edge_ids (g : cgraph) (node : Z) : gres (list Z) :=
  if bad_node g node then inr GNode
  else do (lo, hi) <- bounds (heads_idxs g) node; inl (range lo hi).
(** core.pyx:391-415 in_neighbors. *)
Definition in_neighbors (g : cgraph) (node : Z) : gres (list Z) :=
  if negb (twoway g) then inr GDisabled
  else if bad_node g node then inr GNode
  else do (lo, hi) <- bounds (tails_idxs g) node; aslice (tails g) lo (Z.to_nat (hi - lo)).
(** core.pyx:417-441 in_edge_ids. *)
Definition in_edge_ids (g : cgraph) (node : Z) : gres (list Z) :=
  if negb (twoway g) then inr GDisabled
  else if bad_node g node then inr GNode
  else do (lo, hi) <- bounds (tails_idxs g) node; aslice (edge_ids g) lo (Z.to_nat (hi - lo)).

(** core.pyx:443-477 has_edge. *)
Definition has_edge (g : cgraph) (tail head : Z) : gres bool :=
  if (cnum_nodes g <=? tail) || (cnum_nodes g <=? head) then inr GNode
  else if 0 <=? tail then
    do (lo, hi) <- bounds (heads_idxs g) tail;
    do l <- aslice (heads g) lo (Z.to_nat (hi - lo));
    inl (existsb (fun h => h =? head) l)
  else if negb (twoway g) then inr GDisabled
  else if head <? 0 then inr GEdge
  else
    do (lo, hi) <- bounds (tails_idxs g) head;
    do l <- aslice (tails g) lo (Z.to_nat (hi - lo));
    inl (existsb (fun t => t =? tail) l).

(** core.pyx:479-504 edge_id. *)
Definition edge_id (g : cgraph) (edge_nr : Z) : gres Z :=
  if negb (edge_nr_translation g) then inr GDisabled
  else if (edge_nr <? 0) || (edge_nr_end g <=? edge_nr) then inr GEdge
  else do r <- aget (edge_ids_by_edge_nr g) edge_nr;
       if r <? 0 then inr GEdge else inl r.

(** The loops of first_edge_id and all_edge_ids: the (index, element) pairs of a
    slice. *)
Definition islice (a : arr) (lo hi : Z) : gres (list (Z * Z)) :=
  do l <- aslice a lo (Z.to_nat (hi - lo)); inl (combine (range lo hi) l).

(** core.pyx:506-543 first_edge_id. (A negative head together with a negative
    tail indexes tails_idxs with a negative number.) *)
Definition first_edge_id (g : cgraph) (tail head : Z) : gres Z :=
  if (cnum_nodes g <=? tail) || (cnum_nodes g <=? head) then inr GNode
  else if 0 <=? tail then
    do (lo, hi) <- bounds (heads_idxs g) tail;
    do l <- islice (heads g) lo hi;
    match find (fun p => snd p =? head) l with
    | Some p => inl (fst p)
    | None => inr GEdge
    end
  else if negb (twoway g) then inr GDisabled
  else
    do (lo, hi) <- bounds (tails_idxs g) head;
    do l <- islice (tails g) lo hi;
    match find (fun p => snd p =? tail) l with
    | Some p => aget (edge_ids g) (fst p)
    | None => inr GEdge
    end.

Fixpoint gmap {A B} (f : A -> gres B) (l : list A) : gres (list B) :=
  match l with
  | [] => inl []
  | x :: l => do y <- f x; do r <- gmap f l; inl (y :: r)
  end.

(** core.pyx:545-580 all_edge_ids. *)
Definition all_edge_ids (g : cgraph) (tail head : Z) : gres (list Z) :=
  if (cnum_nodes g <=? tail) || (cnum_nodes g <=? head) then inr GNode
  else if 0 <=? tail then
    do (lo, hi) <- bounds (heads_idxs g) tail;
    do l <- islice (heads g) lo hi;
    inl (map fst (filter (fun p => snd p =? head) l))
  else if negb (twoway g) then inr GDisabled
  else
    do (lo, hi) <- bounds (tails_idxs g) head;
    do l <- islice (tails g) lo hi;
    gmap (fun p => aget (edge_ids g) (fst p)) (filter (fun p => snd p =? tail) l).

(** core.pyx:611-620: the binary search of tail. *)
Fixpoint tail_search (fuel : nat) (g : cgraph) (eid lower upper : Z) : gres Z :=
  match fuel with
  | O => inl lower
  | S fuel =>
    if 1 <? upper - lower then
      let tail := (upper + lower) / 2 in
      do v <- aget (heads_idxs g) tail;
      if eid =? v then inl tail
      else if eid <? v then tail_search fuel g eid lower tail
      else tail_search fuel g eid tail upper
    else inl lower
  end.
(** core.pyx:583-620 tail; [None] is Python's None. *)
Definition tail (g : cgraph) (eid : Z) : gres (option Z) :=
  if (eid <? 0) || (num_edges g <=? eid) then inr GEdge
  else if num_px_edges g <=? eid then (if twoway g then inl None else inr GAssert)
  else do t <- tail_search (Z.to_nat (cnum_nodes g)) g eid 0 (cnum_nodes g); inl (Some t).

(** core.pyx:622-640 head. *)
Definition head (g : cgraph) (eid : Z) : gres Z :=
  if (eid <? 0) || (num_edges g <=? eid) then inr GEdge else aget (heads g) eid.

(** core.pyx:307-308: while current >= heads_idxs[tail + 1]: tail += 1 *)
Fixpoint advance (fuel : nat) (g : cgraph) (cur tl : Z) : gres Z :=
  do v <- aget (heads_idxs g) (tl + 1);
  if cur <? v then inl tl
  else match fuel with O => inr GOob | S fuel => advance fuel g cur (tl + 1) end.
(** core.pyx:298-309, 339-345: list(iter(graph)). *)
Fixpoint iter_from (n : nat) (g : cgraph) (eid tl : Z) : gres (list (Z * Z)) :=
  match n with
  | O => inl []
  | S n =>
    do tl <- advance (length (heads_idxs g)) g eid tl;
    do h <- aget (heads g) eid;
    do l <- iter_from n g (eid + 1) tl;
    inl ((tl, h) :: l)
  end.
Definition iter_edges (g : cgraph) : gres (list (Z * Z)) :=
  iter_from (Z.to_nat (num_edges g)) g 0 0.

(** core.pyx:347-348 has_dangling_edges. *)
Definition has_dangling_edges (g : cgraph) : bool :=
  negb ((num_edges g =? num_px_edges g) && (num_px_edges g =? num_xp_edges g)).

(** core.pyx:709-736 __getstate__ / __setstate__: the round trip.  The unused
    arrays of a one-way graph are None and stay so. *)
Definition getstate (g : cgraph) : (bool * bool * Z * Z * Z * Z) * (arr * arr * arr * arr * arr * arr) :=
  let np := edge_nr_end g - num_px_edges g in
  let pp := if twoway g then num_xp_edges g - np else num_xp_edges g in
  let pn := num_px_edges g - pp in
  ((twoway g, edge_nr_translation g, cnum_nodes g, pp, pn, np),
   (heads_idxs g, heads g, tails_idxs g, tails g, edge_ids g, edge_ids_by_edge_nr g)).
Definition setstate (st : (bool * bool * Z * Z * Z * Z) * (arr * arr * arr * arr * arr * arr)) : cgraph :=
  let '((tw, ent, n, pp, pn, np), (a1, a2, a3, a4, a5, a6)) := st in
  mkCG tw ent n (if tw then pp + pn + np else pp + pn) (pp + pn)
    (if tw then pp + np else pp) (pp + pn + np) a1 a2 a3 a4 a5 a6.
