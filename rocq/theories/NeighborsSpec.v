(** * Specification vocabulary for the n-th neighbors of a lattice. *)
From Coq Require Import List Bool Arith ZArith Reals Sorting.Sorted.
From Verif Require Import KpmReal CvpModel CvpSpec LatticeSpec.
Import ListNotations.
Open Scope R_scope.

(** [D] lists the smallest elements of a set of numbers; they and all others
    are separated by more than [tol]. *)
Definition shells (P : R -> Prop) (tol : R) (D : list R) : Prop :=
  D <> [] /\ StronglySorted (fun x y => x + tol < y) D /\ Forall P D /\ forall x, P x -> In x D \/ last D 0 + tol < x.

Section Spec.
Variables m d : nat.
Variable prim : nat -> nat -> R.
Variable N : nat.
Variable basis : nat -> nat -> R.
(** a site: number of the sublattice, tag *)
Definition site := (nat * point)%type.
Definition is_site (a : site) : Prop := (fst a < N)%nat /\ lattice_point m (snd a).
Definition site_dist (a b : site) : R := dist d (site_position prim (basis (fst a)) (snd a)) (site_position prim (basis (fst b)) (snd b)).
(** the distances between sites *)
Definition distances (x : R) : Prop := exists a b, is_site a /\ is_site b /\ x = site_dist a b.
(** the distances between sites of two given sublattices *)
Definition distances_between (i j : nat) (x : R) : Prop := exists a b, is_site a /\ is_site b /\ fst a = i /\ fst b = j /\ x = site_dist a b.
(** the length of the shortest lattice vectors *)
Definition shortest_length (l : R) : Prop :=
  (exists t, lattice_point m t /\ t <> repeat 0%Z m /\ l = dist d (vector prim t) (fun _ => 0)) /\
  forall t, lattice_point m t -> t <> repeat 0%Z m -> l <= dist d (vector prim t) (fun _ => 0).
End Spec.

(** differences of tags; the hopping kind of a hopping: tag difference, families *)
Definition psub (t u : point) : point := map (fun p => fst p - snd p)%Z (combine t u).
Definition kind_of (a b : site) : point * nat * nat := (psub (snd a) (snd b), fst a, fst b).
(** the first nonzero coordinate is positive *)
Definition positive (t : point) : Prop := exists k, (forall i, (i < k)%nat -> nth i t 0%Z = 0%Z) /\ (0 < nth k t 0)%Z.
(** t is lexicographically larger than s *)
Definition lex_larger (t s : point) : Prop := exists k, (forall i, (i < k)%nat -> nth i t 0%Z = nth i s 0%Z) /\ (nth k s 0 < nth k t 0)%Z.
(** the order of the returned hopping kinds *)
Definition kind_before (x y : point * nat * nat) : Prop :=
  let '(s, i, j) := x in let '(t, i', j') := y in (i < i')%nat \/ (i = i' /\ (j < j')%nat) \/ (i = i' /\ j = j' /\ lex_larger s t).
