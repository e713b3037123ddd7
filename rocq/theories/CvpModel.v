(** * Model of kwant/linalg/lll.py: cvp, voronoi (closest lattice vectors).

    Real arithmetic is exact.  The basis is a function [b : nat -> nat -> R]
    ([b i k] is component k < d of basis vector i < m); lattice points are
    lists of m integers.  scipy's lstsq and inv, numpy's round and argsort are
    oracles whose documented properties are stated in CvpSpec.v; argsort is
    represented by the reordered list of points.  The while loop is bounded by
    [fuel]: [CFuel] means that it is still running. *)
From Coq Require Import List Bool Arith ZArith Reals.
From Verif Require Import KpmReal.
Import ListNotations.
Open Scope R_scope.

Definition point := list Z.
(** comparison of reals *)
Definition Rltb (x y : R) : bool := if Rlt_dec x y then true else false.

(** numpy.mgrid with one slice per coordinate, reshaped: all points, the last
    coordinate varies fastest *)
Fixpoint grid (ranges : list (list Z)) : list point :=
  match ranges with
  | [] => [[]]
  | r :: rs => flat_map (fun z => map (cons z) (grid rs)) r
  end.
Definition zrange (lo : Z) (len : nat) : list Z := map (fun k => (lo + Z.of_nat k)%Z) (seq 0 len).

Inductive cvp_result := CDone (points : list point) | CIndex | CFuel.

Section Cvp.
Variables m d : nat.
Variable b : nat -> nat -> R.
Variable lstsq : (nat -> R) -> nat -> R.   (* lstsq(basis.T, vec)[0] *)
Variable inv : (nat -> nat -> R) -> nat -> nat -> R.
Variable round : R -> Z.
Variable argsort : (point -> R) -> list point -> list point.

(** points @ basis *)
Definition position (p : point) (k : nat) : R := Rsum m (fun i => IZR (nth i p 0%Z) * b i k).
(** basis @ basis.T *)
Definition bbt (i j : nat) : R := Rsum d (fun k => b i k * b j k).
(** la.norm(point_coords - vec) *)
Definition distance (vec : nat -> R) (p : point) : R := sqrt (Rsum d (fun k => (position p k - vec k) * (position p k - vec k))).
(** lll.py:176 rad *)
Definition rad : R := (1 / 2) / sqrt (fold_right Rmax 0 (map (fun i => inv bbt i i) (seq 0 m))).
(** lll.py:182-183 points *)
Definition box (center : point) (l : nat) : list point := grid (map (fun c => zrange (c - Z.of_nat l) (2 * l + 1)) center).
(** distances[n-1], with Python's meaning of the index -1 *)
Definition at_pred {A} (n : nat) (l : list A) (x : A) : A := match n with O => last l x | S n => nth n l x end.
(** lll.py:196 group_boundaries = np.where(np.diff(distances) > rtol * rad)[0] *)
Definition boundaries (tol : R) (ds : list R) : list nat :=
  filter (fun i => Rltb tol (nth (S i) ds 0 - nth i ds 0)) (seq 0 (length ds - 1)).
(** one pass of the loop, lll.py:185-228: [None] is l += 1; continue *)
Definition cvp_step (vec : nat -> R) (center : point) (n : nat) (group : bool) (rtol : R) (l : nat) : option cvp_result :=
  let points := box center l in
  if (length points <? n)%nat then None
  else
    let points := argsort (distance vec) points in
    let ds := map (distance vec) points in
    let choice : option (option (R * list point * R)) :=
      if group then
        let gb := boundaries (rtol * rad) ds in
        if (length gb + 1 <? n)%nat then None
        else if (length gb + 1 =? n)%nat then Some (Some (last ds 0, points, rtol))
        else match n, gb with
             | O, [] => Some None
             | _, _ => let g := at_pred n gb 0%nat in Some (Some (nth g ds 0, firstn (g + 1) points, rtol))
             end
      else Some (Some (at_pred n ds 0, firstn n points, 0)) in
    match choice with
    | None => None
    | Some None => Some CIndex
    | Some (Some (dist_n, keep, rtol)) =>
      if Rltb dist_n ((2 * INR l - 1 - rtol) * rad) then Some (CDone keep) else None
    end.
Fixpoint cvp_loop (fuel : nat) (vec : nat -> R) (center : point) (n : nat) (group : bool) (rtol : R) (l : nat) : cvp_result :=
  match fuel with
  | O => CFuel
  | S fuel => match cvp_step vec center n group rtol l with Some r => r | None => cvp_loop fuel vec center n group rtol (S l) end
  end.
(** lll.py:112-228 cvp *)
Definition cvp (fuel : nat) (vec : nat -> R) (n : nat) (group : bool) (rtol : R) : cvp_result :=
  let vec_bas := lstsq vec in
  let center := map (fun i => round (vec_bas i)) (seq 0 m) in
  let vec := fun k => Rsum m (fun i => vec_bas i * b i k) in
  cvp_loop fuel vec center n group rtol 1.

(** lll.py:263 displacements: all sequences of 0 and 0.5 but the first, given as bits *)
Fixpoint bits (n : nat) : list (list Z) := match n with O => [[]] | S n => flat_map (fun z => map (cons z) (bits n)) [0%Z; 1%Z] end.
(** lll.py:266-270: the vertices; [None]: some call of cvp is still running *)
Definition vertex (fuel : nat) (t : list Z) : option point :=
  match cvp fuel (fun k => Rsum m (fun i => IZR (nth i t 0%Z) / 2 * b i k)) 1 false (1 / 10 ^ 9) with
  | CDone (p :: _) => Some (map (fun i => (2 * nth i p 0 - nth i t 0)%Z) (seq 0 m))
  | _ => None
  end.
Fixpoint vertices_of (fuel : nat) (ts : list (list Z)) : option (list point) :=
  match ts with
  | [] => Some []
  | t :: ts => match vertex fuel t, vertices_of fuel ts with Some v, Some vs => Some (v :: vs) | _, _ => None end
  end.
(** the scalar product of two lattice vectors: entries of vertices @ bbt @ vertices.T *)
Definition product (p q : point) : R := Rsum m (fun i => Rsum m (fun j => IZR (nth i p 0%Z) * bbt i j * IZR (nth j q 0%Z))).
(** lll.py:278-284: one pass; [keep] is a list of flags *)
Definition keep_step (rtol : R) (vs : list point) (keep : list bool) (i : nat) : list bool :=
  let ok := forallb (fun k => if (k =? i)%nat then true else if nth k keep false then
              Rltb (Rabs ((1 / 2) * product (nth i vs []) (nth k vs []) / product (nth k vs []) (nth k vs []))) (1 / 2 - rtol) else true)
              (seq 0 (length vs)) in
  if ok then keep else firstn i keep ++ false :: skipn (S i) keep.
Definition reduce (rtol : R) (vs : list point) : list point :=
  let keep := fold_left (keep_step rtol vs) (seq 0 (length vs)) (repeat true (length vs)) in
  map fst (filter snd (combine vs keep)).
Definition negate (p : point) : point := map Z.opp p.
(** lll.py:231-288 voronoi *)
Definition voronoi (fuel : nat) (reduced : bool) (rtol : R) : option (list point) :=
  match vertices_of fuel (tl (bits m)) with
  | None => None
  | Some vs => let vs := if reduced then reduce rtol vs else vs in Some (vs ++ map negate vs)
  end.
End Cvp.
