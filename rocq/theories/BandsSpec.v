(** * Specification vocabulary for Bands. *)
From Coq Require Import Reals List Bool Arith ZArith.
From Verif Require Import StarRing DiscretizeReal BandsModel.
Import ListNotations.
Set Implicit Arguments.
Local Open Scope R_scope.

Definition delta (i j : nat) : RC := if (i =? j)%nat then r1 RC else r0 RC.
Definition hermitian (n : nat) (h : mat) : Prop := forall i j, (i < n)%nat -> (j < n)%nat -> h i j = rconj RC (h j i).
(** What eigh promises: eigenvalues in ascending order; the columns of a unitary matrix
    are the eigenvectors *)
Definition eigensystem (n : nat) (h : mat) (e : nat -> R) (u : mat) : Prop :=
  (forall i j, (i <= j)%nat -> (j < n)%nat -> e i <= e j) /\
  (forall i j, (i < n)%nat -> (j < n)%nat -> sum RC n (fun l => rmul RC (rconj RC (u l i)) (u l j)) = delta i j) /\
  (forall i j, (i < n)%nat -> (j < n)%nat -> sum RC n (fun l => rmul RC (u i l) (rconj RC (u j l))) = delta i j) /\
  (forall i j, (i < n)%nat -> (j < n)%nat -> sum RC n (fun l => rmul RC (h i l) (u l j)) = rmul RC (e j, 0) (u i j)).
(** The Bloch Hamiltonian of a chain of unit cells: h in each unit cell, v from the
    previous unit cell *)
Definition bloch_matrix (h v : mat) (k : R) : mat :=
  fun i j => radd RC (h i j) (radd RC (rmul RC (cos k, - sin k) (v i j)) (rmul RC (cos k, sin k) (rconj RC (v j i)))).
(** eigh and eigvalsh solve the eigenproblem of these matrices, at all momenta *)
Definition eigh_ok (eigh : nat -> mat -> (nat -> R) * mat) (n : nat) (h v : mat) : Prop :=
  forall k a, (forall i j, (i < n)%nat -> (j < n)%nat -> a i j = bloch_matrix h v k i j) -> eigensystem n a (fst (eigh n a)) (snd (eigh n a)).
Definition eigvalsh_ok (eigvalsh : nat -> mat -> nat -> R) (n : nat) (h v : mat) : Prop :=
  forall k a, (forall i j, (i < n)%nat -> (j < n)%nat -> a i j = bloch_matrix h v k i j) -> exists u, eigensystem n a (eigvalsh n a) u.
(** a matrix with further columns that are zero *)
Definition padded (cols : nat) (v : mat) : mat := fun i j => if (j <? cols)%nat then v i j else r0 RC.
(** The Hamiltonian of an infinite chain of unit cells, applied to a wave function on it:
    h in each unit cell, v from the previous unit cell *)
Definition chain (n : nat) (h v : mat) (psi : Z -> nat -> RC) (z : Z) (i : nat) : RC :=
  radd RC (radd RC (sum RC n (fun j => rmul RC (h i j) (psi z j)))
    (sum RC n (fun j => rmul RC (v i j) (psi (z - 1)%Z j))))
    (sum RC n (fun j => rmul RC (rconj RC (v j i)) (psi (z + 1)%Z j))).
(** A Bloch wave *)
Definition bloch_wave (k : R) (u : nat -> RC) (z : Z) (i : nat) : RC := rmul RC (cos (k * IZR z), sin (k * IZR z)) (u i).
(** A momentum at which the energy x has a Bloch wave *)
Definition band_energy (n : nat) (h v : mat) (k x : R) : Prop :=
  exists u, (exists i, (i < n)%nat /\ u i <> r0 RC) /\ forall z i, (i < n)%nat -> chain n h v (bloch_wave k u) z i = rmul RC (x, 0) (bloch_wave k u z i).
(** A nondegenerate band *)
Definition nondegenerate (n : nat) (e : nat -> R) (m : nat) : Prop := (m < n)%nat /\ forall j, (j < n)%nat -> j <> m -> e j <> e m.
