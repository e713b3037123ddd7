(** * Specification vocabulary for cvp and voronoi (independent of CvpModel,
    except for the type [point] of lists of integers). *)
From Coq Require Import List Bool Arith ZArith Reals Sorting.Permutation Sorting.Sorted.
From Verif Require Import KpmReal CvpModel.
Import ListNotations.
Open Scope R_scope.

(** scalar product and distance in R^d *)
Definition dot (d : nat) (u v : nat -> R) : R := Rsum d (fun k => u k * v k).
Definition dist (d : nat) (u v : nat -> R) : R := sqrt (dot d (fun k => u k - v k) (fun k => u k - v k)).
(** the lattice vector with given integer coefficients *)
Definition vector (b : nat -> nat -> R) (p : point) (k : nat) : R := Rsum (length p) (fun i => IZR (nth i p 0%Z) * b i k).
(** a list of as many coefficients as there are basis vectors *)
Definition lattice_point (m : nat) (p : point) : Prop := length p = m.

(** ** What is assumed about the numerical libraries *)
(** scipy.linalg.lstsq: the residual is orthogonal to all basis vectors *)
Definition lstsq_ok (m d : nat) (b : nat -> nat -> R) (lstsq : (nat -> R) -> nat -> R) : Prop :=
  forall vec i, (i < m)%nat -> dot d (b i) (fun k => vec k - Rsum m (fun j => lstsq vec j * b j k)) = 0.
(** scipy.linalg.inv returned an inverse of the Gram matrix (it raises
    LinAlgError if the basis vectors are linearly dependent) *)
Definition inv_ok (m d : nat) (b : nat -> nat -> R) (inv : (nat -> nat -> R) -> nat -> nat -> R) : Prop :=
  forall i j, (i < m)%nat -> (j < m)%nat ->
    Rsum m (fun k => inv (fun i j => dot d (b i) (b j)) i k * dot d (b k) (b j)) = if (i =? j)%nat then 1 else 0.
(** numpy.round: some nearest integer *)
Definition round_ok (round : R -> Z) : Prop := forall x, Rabs (IZR (round x) - x) <= 1 / 2.
(** numpy.argsort: some reordering with nondecreasing keys *)
Definition argsort_ok (argsort : (point -> R) -> list point -> list point) : Prop :=
  forall key l, Permutation (argsort key l) l /\ StronglySorted (fun p q => key p <= key q) (argsort key l).

(** the number of places where consecutive numbers differ by more than tol *)
Fixpoint gaps (tol : R) (l : list R) : nat :=
  match l with
  | x :: (y :: _) as t => (if Rlt_dec tol (y - x) then 1 else 0) + gaps tol t
  | _ => 0
  end.

(** the Voronoi cell of the origin: the points that are not closer to any
    other lattice point *)
Definition in_cell (m d : nat) (b : nat -> nat -> R) (x : nat -> R) : Prop :=
  forall p, lattice_point m p -> dist d x (fun _ => 0) <= dist d x (vector b p).
(** x is on the origin's side of the plane halfway to lattice vector p *)
Definition on_side (d : nat) (b : nat -> nat -> R) (x : nat -> R) (p : point) : Prop :=
  dist d x (fun _ => 0) <= dist d x (vector b p).
