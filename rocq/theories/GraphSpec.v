(** * Specification vocabulary for graphs (C16-C19).

    Edges are (tail, head) pairs; [E] is the list of the added edges in order of
    addition.  Nothing here refers to compression. *)
From Coq Require Import List Bool ZArith Sorting.Sorted Permutation.
From Verif Require Import GraphModel.
Import ListNotations.
Local Open Scope Z_scope.

(** graphs obtained by public operations *)
Inductive greach : graph -> Prop :=
  | gr_new : forall b, greach (new_graph b)
  | gr_set : forall g v, greach g -> greach (fst (set_num_nodes g v))
  | gr_add : forall g t h, greach g -> greach (fst (add_edge g t h))
  | gr_adds : forall g es, greach g -> greach (fst (add_edges g es)).

(** The edges a compressed graph can show: all of them if it is two-way,
    otherwise only those with non-negative tail. *)
Definition kept (tw : bool) (e : Z * Z) : bool := tw || (0 <=? fst e).
(** Edges are grouped by tail, dangling ones (negative tail) form the last group. *)
Definition same_group (a b : Z) : bool := (a =? b) || ((a <? 0) && (b <? 0)).
Definition group_le (e f : Z * Z) : Prop := fst f < 0 \/ (0 <= fst e <= fst f).

(** [L] lists the kept edges of [E] sorted by group, in order of addition within
    a group.  An edge id is a position in [L]. *)
Record id_order (tw : bool) (E L : list (Z * Z)) : Prop := mkIO {
  io_perm : Permutation L (filter (kept tw) E);
  io_sorted : StronglySorted group_le L;
  io_stable : forall t, (0 <= t \/ tw = true) ->
    filter (fun e => same_group t (fst e)) L = filter (fun e => same_group t (fst e)) E }.

(** the edge with id [i] *)
Definition edge_at (L : list (Z * Z)) (i : Z) : option (Z * Z) :=
  if i <? 0 then None else nth_error L (Z.to_nat i).

(** [ids] are, in increasing order, the ids satisfying [P]. *)
Definition increasing_ids (ids : list Z) (P : Z -> Prop) : Prop :=
  StronglySorted Z.lt ids /\ forall i, In i ids <-> P i.
