(** * Specification vocabulary for magnetic_gauge. *)
From Coq Require Import Reals List Bool Arith Permutation.
From Verif Require Import StarRing DiscretizeReal DijkstraModel DijkstraSpec GaugeModel.
Import ListNotations.
Set Implicit Arguments.
Local Open Scope R_scope.

(** The graph of a system without leads: for each site its neighbors; hoppings go
    in both directions, there is none from a site to itself *)
Definition linked (adj : list (list nat)) (i j : nat) : Prop := In j (nth i adj []).
Definition system_graph (adj : list (list nat)) : Prop :=
  (forall i, NoDup (nth i adj [])) /\ (forall i j, linked adj i j -> (j < length adj)%nat /\ linked adj j i) /\ forall i, ~ linked adj i i.
(** A closed loop of hoppings: from each site to the next, and from the last one to
    the first *)
Fixpoint along (S : nat -> nat -> Prop) (w : list nat) : Prop :=
  match w with i :: ((j :: _) as rest) => S i j /\ along S rest | _ => True end.
Definition closed_loop (adj : list (list nat)) (w : list nat) : Prop :=
  w <> [] /\ along (linked adj) w /\ linked adj (last w O) (hd O w).
(** The product of the phases around a loop *)
Fixpoint product_along (f : nat -> nat -> RC) (w : list nat) : RC :=
  match w with i :: ((j :: _) as rest) => rmul RC (f i j) (product_along f rest) | _ => r1 RC end.
Definition product_around (f : nat -> nat -> RC) (w : list nat) : RC :=
  rmul RC (product_along f w) (f (last w O) (hd O w)).
(** The vector area enclosed by a polygon: half of the sum of the cross products of
    subsequent corners (the shoelace formula); the flux of a constant field *)
Fixpoint sum_along (f : nat -> nat -> R) (w : list nat) : R :=
  match w with i :: ((j :: _) as rest) => f i j + sum_along f rest | _ => 0 end.
Definition sum_around (f : nat -> nat -> R) (w : list nat) : R := sum_along f w + f (last w O) (hd O w).
Definition constant_flux (b : vec) (pos : nat -> vec) (w : list nat) : R :=
  vdot b [ sum_around (fun i j => nth 0 (cross (pos i) (pos j)) 0) w / 2;
           sum_around (fun i j => nth 1 (cross (pos i) (pos j)) 0) w / 2;
           sum_around (fun i j => nth 2 (cross (pos i) (pos j)) 0) w / 2 ].
(** positions in two dimensions and a scalar field, or three dimensions and a vector *)
Definition dimensions (b : vec) (pos : nat -> vec) : Prop :=
  (length b = 1%nat /\ forall i, length (pos i) = 2%nat) \/ (length b = 3%nat /\ forall i, length (pos i) = 3%nat).
(** The computed fluxes through triangles are those of a vector potential whose line
    integral from site i to site j is A i j (Stokes' theorem: this is so for exact
    integration of divergence-free fields) *)
Definition stokes (dblquad : (R -> R -> R) -> R) (f : field) (tol : R) (pos : nat -> vec) (A : nat -> nat -> R) : Prop :=
  (forall i j, A j i = - A i j) /\
  forall i j k, integrator dblquad f false tol (pos i) (vsub (pos j) (pos i)) (vsub (pos k) (pos i)) (cross (vsub (pos j) (pos i)) (vsub (pos k) (pos i))) = A i j + A j k + A k i.
(** oracles *)
Definition pop_ok (pop : list nat -> nat) : Prop := forall l, l <> [] -> In (pop l) l.
Definition argsort_ok (argsort : list R -> list nat) : Prop :=
  forall l, Permutation (argsort l) (seq 0 (length l)) /\ forall k, (k < length l)%nat -> nth (nth 0 (argsort l) O) l 0 <= nth k l 0.
(** The quadrature is exact for polynomials of degree one *)
Definition exact_affine (dblquad : (R -> R -> R) -> R) : Prop :=
  forall a b c h, (forall x y, h x y = a + b * x + c * y) -> dblquad h = a / 2 + b / 6 + c / 6.
(** A field that depends linearly on the position: a scalar in two dimensions, a
    divergence-free vector in three dimensions (the rows of m are the gradients of
    the components) *)
Definition affine_field (b : vec) (m : list vec) (p : vec) : vec := map (fun bm => fst bm + vdot (snd bm) p) (combine b m).
Definition affine_dimensions (b : vec) (m : list vec) (pos : nat -> vec) : Prop :=
  (exists b1 x y, b = [b1] /\ m = [[x; y]] /\ forall i, length (pos i) = 2%nat) \/
  (exists b1 b2 b3 xx xy xz yx yy yz zx zy zz, b = [b1; b2; b3] /\ m = [[xx; xy; xz]; [yx; yy; yz]; [zx; zy; zz]] /\ xx + yy + zz = 0 /\ forall i, length (pos i) = 3%nat).
(** The flux of a field that depends linearly on the position through a triangle with
    the corners 0, p, q: the area times the average of the values at the corners *)
Definition affine_flux (b : vec) (m : list vec) (pos : nat -> vec) (w : list nat) : R :=
  sum_around (fun i j => vdot (cross (pos i) (pos j)) (vadd (vadd b (affine_field b m (pos i))) (affine_field b m (pos j))) / 6) w.
