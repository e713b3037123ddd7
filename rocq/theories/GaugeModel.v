(** * Model of kwant/physics/gauge.py: magnetic_gauge for finite systems without
    leads. *)
From Coq Require Import Reals List Bool Arith.
From Verif Require Import StarRing DijkstraModel DiscretizeReal.
Import ListNotations.
Set Implicit Arguments.
Local Open Scope R_scope.

(** ** Integration *)
Definition vec := list R.
Definition vsub (a b : vec) : vec := map (fun p => fst p - snd p) (combine a b).
Definition vadd (a b : vec) : vec := map (fun p => fst p + snd p) (combine a b).
Definition vscale (c : R) (a : vec) : vec := map (Rmult c) a.
(** np.dot; scalars are vectors with one component *)
Fixpoint vdot (a b : vec) : R := match a, b with x :: a', y :: b' => x * y + vdot a' b' | _, _ => 0 end.
(** np.cross; the result for two-dimensional vectors is a scalar *)
Definition cross (a b : vec) : vec :=
  match a, b with
  | [x1; y1], [x2; y2] => [x1 * y2 - y1 * x2]
  | [x1; y1; z1], [x2; y2; z2] => [y1 * z2 - z1 * y2; z1 * x2 - x1 * z2; x1 * y2 - y1 * x2]
  | _, _ => []
  end.
(** a magnetic field: a constant or a callable *)
Inductive field := Const (b : vec) | Call (f : vec -> vec).
Section Integrate.
(** scipy.integrate.dblquad(g, 0, 1, lambda x: 0, lambda x: 1 - x) *)
Variable dblquad : (R -> R -> R) -> R.
(** gauge.py:37-46 _quad_triangle *)
Definition quad_triangle (f : vec -> vec) (origin v1 v2 n : vec) (tol : R) : R :=
  if Rlt_dec (vdot n n) (tol * tol) then 0
  else dblquad (fun x y => vdot n (f (vadd (vadd origin (vscale x v1)) (vscale y v2)))).
(** gauge.py:48-49 _const_triangle *)
Definition const_triangle (b : vec) (n : vec) : R := vdot b n / 2.
(** gauge.py:52-53 _average_triangle *)
Definition average_triangle (f : vec -> vec) (origin v1 v2 n : vec) : R :=
  vdot n (f (vadd origin (vscale (1 / 3) (vadd v1 v2)))) / 2.
Definition integrator (f : field) (average : bool) (tol : R) (origin v1 v2 n : vec) : R :=
  match f with
  | Const b => const_triangle b n
  | Call f => if average then average_triangle f origin v1 v2 n else quad_triangle f origin v1 v2 n tol
  end.
(** gauge.py:56-92 _surface_integral *)
Fixpoint triangles (f : field) (average : bool) (tol : R) (origin : vec) (points : list vec) : R :=
  match points with
  | p1 :: ((p2 :: _) as rest) =>
    let v1 := vsub p1 origin in
    let v2 := vsub p2 origin in
    integrator f average tol origin v1 v2 (cross v1 v2) + triangles f average tol origin rest
  | _ => 0
  end.
Definition surface_integral (f : field) (average : bool) (tol : R) (loop : list vec) : R :=
  match loop with [] => 0 | origin :: points => triangles f average tol origin points end.
End Integrate.

(** ** Loop finding *)
Definition rltb (a b : R) : bool := if Rlt_dec a b then true else false.
Notation graph := (csr R).
(** gauge.py:168-190 _assign_csr; None: ValueError *)
Fixpoint assign_row (a b : list (nat * option R)) (col : nat) : option (list (nat * option R)) :=
  match a, b with
  | (j, x) :: a', (_, y) :: b' => if (j =? col)%nat then Some ((j, y) :: a') else option_map (cons (j, x)) (assign_row a' b' col)
  | _, _ => None
  end.
Fixpoint assign_csr (a b : graph) (row col : nat) : option graph :=
  match a, b, row with
  | ra :: a', rb :: b', O => option_map (fun r => r :: a') (assign_row ra rb col)
  | ra :: a', rb :: b', S row => option_map (cons ra) (assign_csr a' b' row col)
  | _, _, _ => None
  end.
Definition obind {A B} (x : option A) (f : A -> option B) : option B := match x with Some a => f a | None => None end.
Definition assign_both (a b : graph) (i j : nat) : option graph := obind (assign_csr a b i j) (fun a => assign_csr a b j i).
(** gauge.py:215-231 _distance_matrix, for the graph of a system: the neighbors of
    every site *)
Definition distance (p q : vec) : R := sqrt (vdot (vsub p q) (vsub p q)).
Definition distance_matrix (adj : list (list nat)) (pos : nat -> vec) : graph :=
  map (fun ij => map (fun j => (j, Some (distance (pos (fst ij)) (pos j)))) (snd ij)) (combine (seq 0 (length adj)) adj).

Section Loops.
(** oracles: ties in Dijkstra's algorithm, set.pop, np.argsort *)
Variable pick : list nat -> (nat -> R) -> list nat -> nat.
Variable pop : list nat -> nat.
Variable argsort : list R -> list nat.
Notation dijkstra := (dijkstra 0 Rplus rltb pick).
Notation path_length := (path_length 0 Rplus rltb pick).
Notation predecessors := (predecessors 0 Rplus rltb pick).

(** gauge.py:266-290 _shortest_distance_forest.  None: an exception, here
    KeyError of unvisited.remove *)
Definition visit (g : graph) (pred : nat -> option nat) (s : option (graph * list nat)) (i : nat) : option (graph * list nat) :=
  obind s (fun '(tree, unvisited) =>
    match pred i with
    | None => Some (tree, unvisited)
    | Some p => if existsb (Nat.eqb i) unvisited
                then option_map (fun t => (t, remove Nat.eq_dec i unvisited)) (assign_both tree g i p)
                else None
    end).
Fixpoint forest_loop (fuel : nat) (g tree : graph) (unvisited : list nat) : option graph :=
  match unvisited with
  | [] => Some tree
  | _ :: _ =>
    match fuel with
    | O => None
    | S fuel =>
      let root := pop unvisited in
      let unvisited := remove Nat.eq_dec root unvisited in
      obind (predecessors g root) (fun pred =>
      obind (fold_left (visit g pred) (seq 0 (length g)) (Some (tree, unvisited))) (fun '(tree, unvisited) =>
      forest_loop fuel g tree unvisited))
    end
  end.
Definition empty_tree (g : graph) : graph := map (map (fun e => (fst e, None))) g.
Definition shortest_distance_forest (g : graph) : option graph := forest_loop (length g) g (empty_tree g) (seq 0 (length g)).

(** gauge.py:122-123 links_to_find: the entries of the upper triangle of graph -
    subgraph that are not zero.  The entries of subgraph are those of graph or
    inf. *)
Definition missing_row (i : nat) (r : list (nat * option R)) : list (nat * nat) :=
  flat_map (fun e => match snd e with None => if (i <=? fst e)%nat then [(i, fst e)] else [] | Some _ => [] end) r.
Definition links_to_find (sub : graph) : list (nat * nat) :=
  flat_map (fun ir => missing_row (fst ir) (snd ir)) (combine (seq 0 (length sub)) sub).
(** gauge.py:154-163 _order_links; (None for the minimal length without links) *)
Fixpoint sequence {A} (l : list (option A)) : option (list A) :=
  match l with [] => Some [] | x :: l => obind x (fun x => option_map (cons x) (sequence l)) end.
Definition order_links (sub : graph) (links : list (nat * nat)) : option (list (nat * nat) * option R) :=
  match links with
  | [] => Some ([], None)
  | _ :: _ =>
    option_map (fun lengths =>
      let idxs := argsort lengths in
      (map (fun k => nth k links (O, O)) idxs, Some (nth (nth 0 idxs O) lengths 0)))
      (sequence (map (fun ft => path_length sub (fst ft) (snd ft)) links))
  end.
(** gauge.py:96-151 _find_loops; None: an exception or out of fuel *)
Fixpoint find_loop (fuel : nat) (g sub : graph) (links : list (nat * nat)) (min_length : option R) : option (list (list nat)) :=
  match links with
  | [] => Some []
  | (frm, to) :: rest =>
    match fuel with
    | O => None
    | S fuel =>
      match dijkstra sub frm to, min_length with
      | Found path len, Some m =>
        if rltb (m * (11 / 10)) len then obind (order_links sub links) (fun '(links, m) => find_loop fuel g sub links m)
        else obind (assign_both sub g frm to) (fun sub => option_map (cons path) (find_loop fuel g sub rest min_length))
      | _, _ => None
      end
    end
  end.
Definition find_loops (g sub : graph) : option (list (list nat)) :=
  let links := links_to_find sub in
  obind (order_links sub links) (fun '(links', m) => find_loop (2 * length links) g sub links' m).
(** gauge.py:250-263 _loops_in_finite *)
Definition loops_in_finite (adj : list (list nat)) (pos : nat -> vec) : option (list (list nat)) :=
  let g := distance_matrix adj pos in obind (shortest_distance_forest g) (find_loops g).

(** ** Phases *)
Definition phases := list ((nat * nat) * RC).
Definition key_eqb (a b : nat * nat) : bool := (fst a =? fst b)%nat && (snd a =? snd b)%nat.
Fixpoint pget (ph : phases) (k : nat * nat) : option RC :=
  match ph with [] => None | (k', v) :: ph => if key_eqb k' k then Some v else pget ph k end.
Fixpoint pset (ph : phases) (k : nat * nat) (v : RC) : phases :=
  match ph with [] => [(k, v)] | (k', v') :: ph => if key_eqb k' k then (k', v) :: ph else (k', v') :: pset ph k v end.
Definition get1 (ph : phases) (k : nat * nat) : RC := match pget ph k with Some v => v | None => r1 RC end.
Definition cdiv (x y : RC) : RC := rmul RC x (cinv y).
(** np.exp(1j * x) *)
Definition expi (x : R) : RC := (cos x, sin x).
(** gauge.py:802-807 _previous_phase_finite *)
Fixpoint previous_phase (ph : phases) (prev : RC) (path : list nat) : RC :=
  match path with
  | i :: ((j :: _) as rest) => previous_phase ph (cdiv (rmul RC prev (get1 ph (i, j))) (get1 ph (j, i))) rest
  | _ => prev
  end.
(** gauge.py:763-793 _calculate_phases *)
Definition calculate_phases (pos : nat -> vec) (flux : list vec -> R) (previous : phases -> list nat -> RC) (loops : list (list nat)) : phases :=
  fold_left (fun ph loop =>
    pset ph (last loop O, hd O loop) (cdiv (expi (PI * flux (map pos loop))) (previous ph loop))) loops [].
(** gauge.py:851-861 _finite_wrapper *)
Definition wrapper (ph : phases) (i j : nat) : RC :=
  match pget ph (i, j) with
  | Some v => v
  | None => match pget ph (j, i) with Some v => rconj RC v | None => r1 RC end
  end.
(** gauge.py:882-891, 936-1033 _peierls_finite, magnetic_gauge.  [average] is
    not passed on (line 1033). *)
Definition magnetic_gauge (adj : list (list nat)) (pos : nat -> vec) (dblquad : (R -> R -> R) -> R) (f : field) (tol : R) (average : bool) : option (nat -> nat -> RC) :=
  option_map (fun loops => wrapper (calculate_phases pos (surface_integral dblquad f false tol) (fun ph => previous_phase ph (r1 RC)) loops))
    (loops_in_finite adj pos).
End Loops.
