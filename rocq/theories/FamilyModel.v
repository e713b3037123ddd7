(** * Model of TranslationalSymmetry.add_site_family (kwant/lattice.py:572-669): the choice
    of the integer data of a site family. *)
From Coq Require Import ZArith.
From mathcomp Require Import all_ssreflect all_algebra ssrZ.
From Verif Require Import SymmetryModel.
Set Implicit Arguments. Unset Strict Implicit. Unset Printing Implicit Defensive.
Import Order.Theory GRing.Theory Num.Theory.
Local Open Scope ring_scope.

(** Exact arithmetic over any ordered field; the tolerances of np.allclose are those of
    the code. *)
Section Family.
Variable R : realFieldType.
(** dimension of space; fam.lattice_dim is [l.+1] *)
Variables d l : nat.
Notation lat_dim := l.+1.
Implicit Types prim : 'M[R]_(lat_dim, d).
(** np.linalg.pinv, np.round, the last component of np.linalg.svd(..., full_matrices=False),
    np.linalg.norm, np.argmax; specified in FamilySpec.v *)
Variable pinv : 'M[R]_(lat_dim, d) -> 'M[R]_(d, lat_dim).
Variable round : R -> int.
Variable svd_vh : forall k, 'M[R]_(k, d) -> 'M[R]_(k, d).
Variable norm : 'rV[R]_d -> R.
Variable argmax : ('I_lat_dim -> R) -> 'I_lat_dim.

(** np.allclose: |a - b| <= atol + rtol * |b| *)
Definition allclose m n (rtol atol : R) (a b : 'M[R]_(m, n)) : bool :=
  [forall i, forall j, `|a i j - b i j| <= atol + rtol * `|b i j|].
Definition default_atol : R := 10%:R ^- 8.
Definition default_rtol : R := 10%:R ^- 5.
Definition intmx m n (A : 'M[int]_(m, n)) : 'M[R]_(m, n) := map_mx intr A.
Definition roundmx m n (A : 'M[R]_(m, n)) : 'M[int]_(m, n) := map_mx round A.
(** an integer matrix as a list of rows *)
Definition lists m n (A : 'M[int]_(m, n)) : mat := [seq [seq Z_of_int (A i j) | j <- enum 'I_n] | i <- enum 'I_m].

(** lattice.py:603-623 the periods in the basis of the lattice vectors (fam.vec is the
    product with prim_vecs); None: ValueError.  The periods and the lattice live in the
    same space (lattice.py:605-611 refuses other cases). *)
Definition bravais n prim (periods : 'M[R]_(n, d)) : option mat :=
  let bravais_periods := periods *m pinv prim in
  if allclose 0 default_atol bravais_periods (intmx (roundmx bravais_periods)) &&
     allclose default_rtol default_atol (bravais_periods *m prim) periods
  then Some (lists (roundmx bravais_periods)) else None.

(** the columns of m chosen so far, as rows *)
Definition to_row (r : vec) : 'rV[int]_lat_dim := \row_j int_of_Z (nth Z0 r j).
Definition stack (rows : seq 'rV[int]_lat_dim) : 'M[int]_(size rows, lat_dim) := \matrix_(i, j) nth 0 rows i 0 j.
(** lattice.py:645-654 one more lattice vector; 642-644: the one farthest from the span of
    the others *)
Definition residuals prim (rows : seq 'rV[int]_lat_dim) : 'M[R]_(lat_dim, d) :=
  let vh := svd_vh (intmx (stack rows) *m prim) in
  let projector := 1%:M - vh^T *m vh in
  prim *m projector.
Definition next_vector prim (rows : seq 'rV[int]_lat_dim) : 'rV[int]_lat_dim :=
  delta_mx 0 (argmax (fun j => norm (row j (residuals prim rows)))).
(** the loop runs lat_dim - num_vec times *)
Fixpoint extend (fuel : nat) prim (rows : seq 'rV[int]_lat_dim) : seq 'rV[int]_lat_dim :=
  match fuel with
  | 0%nat => rows
  | fuel.+1 => if (size rows < lat_dim)%N then extend fuel prim (rcons rows (next_vector prim rows)) else rows
  end.
(** ValueError (dependent, or more vectors than dimensions), RuntimeError or
    AssertionError (the choice of the data failed) *)
Inductive outcome := Dependent | Failed | Data of famdata.
(** np.dot(m, det_x_inv_m) // det_m == identity *)
Definition inverse_ok (m a : 'M[int]_lat_dim) (det : int) : bool :=
  [forall i, forall j, Z.eqb (Z.div (Z_of_int ((m *m a) i j)) (Z_of_int det)) (if i == j then Zpos xH else Z0)].
(** lattice.py:656-669 *)
Definition finish (num_dir : nat) (rows : seq 'rV[int]_lat_dim) : outcome :=
  let m : 'M[int]_lat_dim := (\matrix_(i, j) nth 0 rows i 0 j)^T in
  let det_m := round (\det (intmx m)) in
  if det_m == 0 then Failed else
  let det_x_inv_m := roundmx (det_m%:~R *: invmx (intmx m)) in
  if ~~ inverse_ok m det_x_inv_m det_m then Failed else
  Data (mkFam [seq take num_dir r | r <- lists m] (take num_dir (lists det_x_inv_m)) (Z_of_int det_m)).
(** lattice.py:624-669, from the periods in the basis of the lattice and other_vectors
    (integers); matrix_rank of m (which has further columns of zeros) *)
Definition complete prim (bravais_periods other_vectors : mat) : outcome :=
  let rows := [seq to_row r | r <- bravais_periods ++ other_vectors] in
  if (lat_dim < size rows)%N then Dependent else
  if (\rank (intmx (stack rows)) < size rows)%N then Dependent else
  finish (length bravais_periods) (extend (lat_dim - size rows) prim rows).
(** lattice.py:572-669 add_site_family; None: ValueError (not commensurate) *)
Definition add_site_family n prim (periods : 'M[R]_(n, d)) (other_vectors : mat) : option outcome :=
  if bravais prim periods is Some b then Some (complete prim b other_vectors) else None.
End Family.
