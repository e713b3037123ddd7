(** * Specification vocabulary for magnetic_gauge on infinite systems. *)
From Coq Require Import Reals List Bool Arith ZArith.
From Verif Require Import StarRing DiscretizeReal DijkstraModel DijkstraSpec GaugeModel GaugeSpec InfGaugeModel.
Import ListNotations.
Set Implicit Arguments.
Local Open Scope R_scope.

(** The graph of a finalized infinite system with unit cells of n sites: hoppings go in
    both directions, at most to the previous unit cell; the sites of the previous
    unit cell are only linked to the unit cell; the unit cells are linked *)
Definition infinite_graph (n : nat) (adj : list (list nat)) : Prop :=
  system_graph adj /\ (n <= length adj <= 2 * n)%nat /\ (forall i j, (n <= i)%nat -> linked adj i j -> (j < n)%nat) /\
  (exists i j, linked adj i j /\ (n <= j)%nat).
(** The unit cell is connected *)
Inductive connected_in (n : nat) (adj : list (list nat)) (i : nat) : nat -> Prop :=
| cin_refl : connected_in n adj i i
| cin_step j k : connected_in n adj i j -> linked adj j k -> (k < n)%nat -> connected_in n adj i k.
Definition cell_connected (n : nat) (adj : list (list nat)) : Prop := forall i j, (i < n)%nat -> (j < n)%nat -> connected_in n adj i j.
(** connected_components counts the components: at most one iff connected *)
Definition components_ok (components : list (list nat) -> nat) : Prop :=
  forall g, (components g <= 1)%nat <-> forall i j, (i < length g)%nat -> (j < length g)%nat -> connected_in (length g) g i j.
(** The infinite system: site k of the unit cell z; hoppings in all unit cells *)
Definition site := (Z * nat)%type.
Definition hopping (n : nat) (adj : list (list nat)) (a b : site) : Prop :=
  (snd a < n)%nat /\ (snd b < n)%nat /\
  ((fst a = fst b /\ linked adj (snd a) (snd b)) \/
   (fst b = (fst a - 1)%Z /\ linked adj (snd a) (snd b + n)) \/
   (fst a = (fst b - 1)%Z /\ linked adj (snd b) (snd a + n))).
(** Walks, and closed loops of hoppings *)
Section Walks.
Variable X : Type.
Fixpoint walk (S : X -> X -> Prop) (w : list X) : Prop := match w with a :: ((b :: _) as rest) => S a b /\ walk S rest | _ => True end.
Fixpoint walk_product (f : X -> X -> RC) (w : list X) : RC := match w with a :: ((b :: _) as rest) => rmul RC (f a b) (walk_product f rest) | _ => r1 RC end.
Fixpoint walk_sum (f : X -> X -> R) (w : list X) : R := match w with a :: ((b :: _) as rest) => f a b + walk_sum f rest | _ => 0 end.
End Walks.
(** A closed loop w = a, ..., b of hoppings, including the one from b to a *)
Definition closed (w : list site) : list site := match w with [] => [] | a :: _ => w ++ [a] end.
(** The computed fluxes through triangles are those of a vector potential, and
    invariant under translations by unit cells *)
Definition flux_through (dblquad : (R -> R -> R) -> R) (f : field) (tol : R) (P : site -> vec) (a b c : site) : R :=
  integrator dblquad f false tol (P a) (vsub (P b) (P a)) (vsub (P c) (P a)) (cross (vsub (P b) (P a)) (vsub (P c) (P a))).
Definition translate (z : Z) (a : site) : site := ((fst a + z)%Z, snd a).
Definition periodic_stokes (dblquad : (R -> R -> R) -> R) (f : field) (tol : R) (P : site -> vec) : Prop :=
  (exists A : site -> site -> R, (forall a b, A b a = - A a b) /\ forall a b c, flux_through dblquad f tol P a b c = A a b + A b c + A c a) /\
  forall a b c, flux_through dblquad f tol P (translate 1 a) (translate 1 b) (translate 1 c) = flux_through dblquad f tol P a b c.
(** two dimensions and a scalar field, or three dimensions and a vector *)
Definition inf_dimensions (b period : vec) (pos : nat -> vec) : Prop :=
  (length b = 1%nat /\ length period = 2%nat /\ forall i, length (pos i) = 2%nat) \/
  (length b = 3%nat /\ length period = 3%nat /\ forall i, length (pos i) = 3%nat).
