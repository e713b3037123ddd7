(** * Specification vocabulary for lll. *)
From Coq Require Import List Bool Arith ZArith Reals.
From Verif Require Import KpmReal CvpSpec.
Import ListNotations.
Open Scope R_scope.

Fixpoint Zsum (n : nat) (f : nat -> Z) : Z := match n with O => 0%Z | S n => (Zsum n f + f n)%Z end.

(** m vectors of R^d; the lattice they generate *)
Definition in_lattice (m d : nat) (b : nat -> nat -> R) (x : nat -> R) : Prop :=
  exists z : nat -> Z, forall k, (k < d)%nat -> x k = Rsum m (fun i => IZR (z i) * b i k).
Definition independent (m d : nat) (b : nat -> nat -> R) : Prop :=
  forall x : nat -> R, (forall k, (k < d)%nat -> Rsum m (fun i => x i * b i k) = 0) -> forall i, (i < m)%nat -> x i = 0.
(** an integer matrix with an integer inverse *)
Definition inverse_of (m : nat) (T W : nat -> nat -> Z) : Prop :=
  forall i j, (i < m)%nat -> (j < m)%nat -> Zsum m (fun l => (T i l * W l j)%Z) = if (i =? j)%nat then 1%Z else 0%Z.
Definition unimodular (m : nat) (T : nat -> nat -> Z) : Prop := exists W, inverse_of m T W /\ inverse_of m W T.
(** s is the Gram-Schmidt orthogonalization of v (with coefficients u) *)
Definition gram_schmidt (m d : nat) (v s u : nat -> nat -> R) : Prop :=
  (forall i k, (i < m)%nat -> (k < d)%nat -> v i k = s i k + Rsum i (fun j => u i j * s j k))
  /\ (forall i j, (i < m)%nat -> (j < m)%nat -> i <> j -> dot d (s i) (s j) = 0).
(** the squared lengths of consecutive orthogonalized vectors do not drop by a factor c or more *)
Definition c_reduced (m d : nat) (v : nat -> nat -> R) (c : R) : Prop :=
  exists s u, gram_schmidt m d v s u /\ (forall i, (i < m)%nat -> 0 < dot d (s i) (s i))
    /\ forall i, (S i < m)%nat -> dot d (s i) (s i) < c * dot d (s (S i)) (s (S i)).
(** all Gram-Schmidt coefficients are at most 1/2 (the other half of the usual
    definition of an LLL-reduced basis) *)
Definition size_reduced (m d : nat) (v : nat -> nat -> R) : Prop :=
  exists s u, gram_schmidt m d v s u /\ (forall i, (i < m)%nat -> 0 < dot d (s i) (s i)) /\ forall i j, (j < i)%nat -> (i < m)%nat -> Rabs (u i j) <= 1 / 2.

(** numpy.linalg.lstsq(b.T, v.T): the residuals are orthogonal to the span of b *)
Definition lstsq_mat_ok (m d : nat) (lstsq : (nat -> nat -> R) -> (nat -> nat -> R) -> nat -> nat -> R) : Prop :=
  forall b v i j, (i < m)%nat -> (j < m)%nat -> dot d (b j) (fun k => v i k - Rsum m (fun l => lstsq b v l i * b l k)) = 0.
