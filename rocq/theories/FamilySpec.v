(** * Specification vocabulary for the choice of the data of site families. *)
From Coq Require Import ZArith.
From mathcomp Require Import all_ssreflect all_algebra ssrZ.
From Verif Require Import SymmetryModel FamilyModel.
Set Implicit Arguments. Unset Strict Implicit. Unset Printing Implicit Defensive.
Import Order.Theory GRing.Theory Num.Theory.
Local Open Scope ring_scope.

Section Spec.
Variable R : realFieldType.
Variables d l : nat.
(** What is assumed about numpy: the conditions of Penrose (for
    linearly independent rows), nearest integers, an
    orthonormal basis of the rows, the largest element *)
Definition pinv_ok (pinv : 'M[R]_(l.+1, d) -> 'M[R]_(d, l.+1)) : Prop :=
  forall A, row_free A -> let X := pinv A in
  [/\ A *m X *m A = A, X *m A *m X = X, (A *m X)^T = A *m X & (X *m A)^T = X *m A].
Definition round_ok (round : R -> int) : Prop := forall x, `|x - (round x)%:~R| <= 2%:R^-1.
Definition svd_ok (svd_vh : forall k, 'M[R]_(k, d) -> 'M[R]_(k, d)) : Prop :=
  forall k (A : 'M[R]_(k, d)), row_free A -> svd_vh k A *m (svd_vh k A)^T = 1%:M /\ (svd_vh k A :=: A)%MS.
Definition norm_ok (norm : 'rV[R]_d -> R) : Prop := forall x, 0 <= norm x /\ (norm x = 0 <-> x = 0).
Definition argmax_ok (argmax : ('I_l.+1 -> R) -> 'I_l.+1) : Prop := forall f i, f i <= f (argmax f).

(** The position of a site relative to the origin of its lattice: sum of tag[j] * prim[j] *)
Definition position (prim : 'M[R]_(l.+1, d)) (tag : vec) : 'rV[R]_d := \sum_(j < l.+1) (int_of_Z (nth Z0 tag j))%:~R *: row j prim.
(** the translation g[0] * periods[0] + g[1] * periods[1] + ... *)
Definition translation n (periods : 'M[R]_(n, d)) (g : vec) : 'rV[R]_d := \sum_(i < n) (int_of_Z (nth Z0 g i))%:~R *: row i periods.
(** All periods are lattice vectors *)
Definition lattice_vectors n (prim : 'M[R]_(l.+1, d)) (periods : 'M[R]_(n, d)) (coords : mat) : Prop :=
  length coords = n /\ forall i : 'I_n, length (nth [::] coords i) = l.+1 /\ row i periods = position prim (nth [::] coords i).
(** [tag] = x[0] * vectors[0] + x[1] * vectors[1] + ..., with real coefficients *)
Definition combination (vectors : mat) (x : seq R) (tag : vec) : Prop :=
  forall j, (j < l.+1)%N -> (int_of_Z (nth Z0 tag j))%:~R = \sum_(i < size vectors) nth 0 x i * (int_of_Z (nth Z0 (nth [::] vectors i) j))%:~R.
(** the largest integer that is not greater *)
Definition is_floor (z : Z) (x : R) : Prop := (int_of_Z z)%:~R <= x < (int_of_Z z)%:~R + 1.
(** linearly independent integer vectors *)
Definition lin_indep (vectors : mat) : Prop :=
  forall x : seq R, size x = size vectors -> combination vectors x [::] -> forall i, nth 0 x i = 0.
End Spec.
