(** * Model of NoSymmetry (builder.py) and TranslationalSymmetry (lattice.py) *)
From Coq Require Import List Bool ZArith.
From Verif Require Import BuilderModel.
Import ListNotations.
Set Implicit Arguments.
Open Scope Z_scope.

(** builder.py:328-371 NoSymmetry: the group has one element, the empty tuple. *)
Definition NoSymmetry (site : Type) : Symmetry site :=
  mkSym tt (fun _ => tt) (fun _ _ => tt) (fun _ => true)
        (fun _ : site => tt) (fun _ s => s).

(** *** Integer vectors and matrices (tinyarray); a matrix is the list of its
    rows. *)
Definition vec := list Z.
Definition mat := list vec.

Fixpoint dot (u v : vec) : Z :=
  match u, v with x :: u, y :: v => x * y + dot u v | _, _ => 0 end.
Fixpoint vadd (u v : vec) : vec :=
  match u, v with x :: u, y :: v => (x + y) :: vadd u v | _, _ => [] end.
Definition vneg (u : vec) : vec := map Z.opp u.
Definition vsub (u v : vec) : vec := vadd u (vneg v).
(** ta.dot(matrix, vector) *)
Definition matvec (M : mat) (v : vec) : vec := map (fun r => dot r v) M.

(** lattice.py:544, 667-669: the data cached per site family
    (m_part, det_x_inv_m_part, det_m). *)
Record famdata := mkFam { m_part : mat; det_x_inv_m_part : mat; det_m : Z }.

(** lattice.py:688-691 which.  Python's [//] and Coq's [Z.div] both round to
    minus infinity. *)
Definition ts_which (d : famdata) (reversed : bool) (tag : vec) : vec :=
  let result := map (fun x => x / det_m d) (matvec (det_x_inv_m_part d) tag) in
  if reversed then vneg result else result.

(** lattice.py:693-721 act, for one site (the two-site form treats the second
    site in the same way with the data of its family). *)
Definition ts_act (d : famdata) (reversed : bool) (g : vec) (tag : vec) : vec :=
  let delta := matvec (m_part d) g in
  let delta := if reversed then vneg delta else delta in
  vadd tag delta.

(** *** Packaging as a [Symmetry].
    Sites are pairs (family, tag) whose tag has the lattice dimension of the
    family, the data of which is given by [data] (families without data are the
    incompatible ones, for which the code raises ValueError); group elements
    are integer vectors of length [n] = num_directions. *)
Section TS.
Variable n : nat.                                   (* num_directions *)
Variable data : Z -> option famdata.
Variable reversed : bool.

(** Dimension of the tags = number of rows of m_part. *)
Definition ts_valid (s : Z * vec) : bool :=
  match data (fst s) with
  | Some d => Nat.eqb (length (snd s)) (length (m_part d))
  | None => false
  end.
Definition ts_site := { s : Z * vec | ts_valid s = true }.
Definition ts_elt := { g : vec | Nat.eqb (length g) n = true }.

Definition scalarI (n : nat) (d : Z) : mat :=
  map (fun i => map (fun j => if Nat.eqb i j then d else 0) (seq 0 n)) (seq 0 n).
(** row vector times matrix with [n] columns *)
Fixpoint vecmat (n : nat) (r : vec) (M : mat) : vec :=
  match r, M with
  | x :: r, row :: M => vadd (map (Z.mul x) row) (vecmat n r M)
  | _, _ => repeat 0 n
  end.
(** What the exact data satisfy: shapes, det_m <> 0 and
    det_x_inv_m_part * m_part = det_m * identity
    (lattice.py:656-669; [m] has [m_part] as its first [n] columns and
    det_x_inv_m is its adjugate). *)
Definition fam_ok (d : famdata) : Prop :=
  det_m d <> 0 /\
  (forall r, In r (m_part d) -> length r = n) /\
  length (det_x_inv_m_part d) = n /\
  (forall r, In r (det_x_inv_m_part d) -> length r = length (m_part d)) /\
  map (fun r => vecmat n r (m_part d)) (det_x_inv_m_part d) = scalarI n (det_m d).

Definition data_ok : Prop := forall f d, data f = Some d -> fam_ok d.
End TS.

(** lattice.py:659-669: from the square integer matrix [m] (list of rows), its
    determinant and the matrix det_x_inv_m, keep the first [n] columns of [m]
    and the first [n] rows of det_x_inv_m.  (The choice of [m] by SVD and the
    floating-point determinant and inverse, lattice.py:603-658, are not
    modelled: they enter as data.) *)
Definition family_data (n : nat) (m det_x_inv_m : mat) (det : Z) : famdata :=
  mkFam (map (firstn n) m) (firstn n det_x_inv_m) det.

(** The two matrices are exact: square of size [k] and
    det_x_inv_m * m = det * identity. *)
Definition exact_inverse (k : nat) (m det_x_inv_m : mat) (det : Z) : Prop :=
  det <> 0 /\ length m = k /\ length det_x_inv_m = k /\
  (forall r, In r m -> length r = k) /\ (forall r, In r det_x_inv_m -> length r = k) /\
  map (fun r => vecmat k r m) det_x_inv_m = scalarI k det.
