(** * Model of kwant/physics/dispersion.py: Bands. *)
From Coq Require Import Reals List Bool Arith.
From Verif Require Import StarRing DiscretizeReal.
Import ListNotations.
Set Implicit Arguments.
Local Open Scope R_scope.

(** Arrays: functions on indices *)
Definition mat := nat -> nat -> RC.
Inductive array := RealArray (a : nat -> R) | ComplexMatrix (m : mat).
(** what a call returns: an array, or a tuple of arrays *)
Inductive result := Single (a : array) | Tuple (l : list array).

Section Bands.
(** np.linalg.eigh and eigvalsh for matrices of a given size *)
Variable eigh : nat -> mat -> (nat -> R) * mat.
Variable eigvalsh : nat -> mat -> nat -> R.
(** the contents of freshly allocated arrays (np.divide with where= and without out=
    leaves the other entries uninitialized) *)
Variable uninit : nat -> nat -> R.

(** m.conjugate().transpose(); a @ b for matrices of n columns and n rows; sums and
    multiples *)
Definition dagger (m : mat) : mat := fun i j => rconj RC (m j i).
Definition mmul (n : nat) (a b : mat) : mat := fun i j => sum RC n (fun l => rmul RC (a i l) (b l j)).
Definition madd (a b : mat) : mat := fun i j => radd RC (a i j) (b i j).
Definition mscale (c : RC) (a : mat) : mat := fun i j => rmul RC c (a i j).
Definition mneg (a : mat) : mat := fun i j => ropp RC (a i j).

(** dispersion.py:53-63 Bands.__init__: the cell Hamiltonian (n x n) and the inter-cell
    hopping (n x cols).  np.allclose is exact equality; None is ValueError.  *)
Record bands := { size : nat; ham : mat; hop : mat }.
Variable eqc : forall x y : RC, {x = y} + {x <> y}.
Definition make_bands (n : nat) (cell_hamiltonian : mat) (cols : nat) (inter_cell_hopping : mat) : option bands :=
  if forallb (fun i => forallb (fun j => if eqc (cell_hamiltonian i j) (dagger cell_hamiltonian i j) then true else false) (seq 0 n)) (seq 0 n)
  then Some {| size := n; ham := cell_hamiltonian; hop := fun i j => if (j <? cols)%nat then inter_cell_hopping i j else r0 RC |}
  else None.

(** dispersion.py:52 *)
Definition crossover_size : nat := 8.
(** dispersion.py:113-115 *)
Section Call.
Variable b : bands.
Variable k : R.
Definition bmat : mat := fun i j => rmul RC (hop b i j) (cos k, - sin k).
Definition h0 : mat := madd (madd bmat (dagger bmat)) (ham b).
(** dispersion.py:126, 142 *)
Definition h1 : mat := mscale (0, 1) (madd (mneg bmat) (dagger bmat)).
Definition h2 : mat := mneg (madd bmat (dagger bmat)).
(** dispersion.py:119-123 energies and eigenvectors *)
Definition spectrum (order : nat) (return_eigenvectors : bool) : (nat -> R) * option mat :=
  if return_eigenvectors || (0 <? order)%nat then let '(e, u) := eigh (size b) h0 in (e, Some u) else (eigvalsh (size b) h0, None).
(** dispersion.py:127-137 velocities *)
Definition ph1p (u : mat) : mat := mmul (size b) (mmul (size b) (dagger u) h1) u.
Definition velocities (order : nat) (u : mat) : nat -> R :=
  if (order =? 1)%nat && (crossover_size <? size b)%nat
  then fun j => fst (sum RC (size b) (fun i => rmul RC (rconj RC (u i j)) (mmul (size b) h1 u i j)))
  else fun j => fst (ph1p u j j).
(** dispersion.py:140-145 curvatures *)
Definition ediff (e : nat -> R) (i j : nat) : R := if Req_EM_T (e i - e j) 0 then uninit i j else 1 / (e i - e j).
Definition abs2 (z : RC) : R := (sqrt (fst z * fst z + snd z * snd z)) ^ 2.
Definition curvatures (e : nat -> R) (u : mat) : nat -> R :=
  fun j => fst (sum RC (size b) (fun i => rsub RC (rmul RC (rconj RC (u i j)) (mmul (size b) h2 u i j)) (2 * ediff e i j * abs2 (ph1p u i j), 0))).
(** dispersion.py:65-161 Bands.__call__; None is NotImplementedError *)
Definition call (order : nat) (return_eigenvectors : bool) : option result :=
  let '(e, vecs) := spectrum order return_eigenvectors in
  let u := match vecs with Some u => u | None => fun _ _ => r0 RC end in
  let output := [RealArray e]
    ++ (if (1 <=? order)%nat then [RealArray (velocities order u)] else [])
    ++ (if (2 <=? order)%nat then [RealArray (curvatures e u)] else [])
    ++ (if return_eigenvectors then [ComplexMatrix u] else []) in
  if (2 <? order)%nat then None
  else Some (match output with [a] => Single a | _ => Tuple output end).
End Call.
End Bands.
