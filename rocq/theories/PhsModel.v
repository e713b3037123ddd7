(** * Model of phs_symmetrization (kwant/physics/leads.py:468-608). *)
From mathcomp Require Import all_ssreflect all_algebra.
Set Implicit Arguments. Unset Strict Implicit. Unset Printing Implicit Defensive.
Import GRing.Theory Num.Theory.
Local Open Scope ring_scope.

(** Exact arithmetic: np.allclose is equality. *)
Section Phs.
Variable C : numClosedFieldType.
(** dimension of the wave functions *)
Variable d : nat.
Definition cj m n (A : 'M[C]_(m, n)) : 'M[C]_(m, n) := map_mx conjC A.
Definition dag m n (A : 'M[C]_(m, n)) : 'M[C]_(n, m) := cj A^T.
(** the unitary part of the particle-hole operator *)
Variable particle_hole : 'M[C]_d.
(** la.schur(U): (vals, vecs); la.qr(A, mode='economic', pivoting=True)[0]; exp(1j * shift)
    and exp(-0.5j * shift), where shift puts the branch cut into a gap of the spectrum *)
Variable schur : forall n, 'M[C]_n -> 'M[C]_n * 'M[C]_n.
Variable qr : forall n, 'M[C]_(d, n) -> 'M[C]_(d, n).
Variable branch : forall n, 'rV[C]_n -> C * C.

(** leads.py:501-503 *)
Definition Pdot n (mat : 'M[C]_(d, n)) : 'M[C]_(d, n) := particle_hole *m cj mat.
(** ValueError, AssertionError *)
Inductive result n := ValueError | AssertionError | Modes of 'M[C]_(d, n) & seq nat.
(** leads.py:525-554 P^2 = 1 *)
Definition square_root n (vals : 'M[C]_n) : 'M[C]_n :=
  let: (phase, half) := branch (\row_i vals i i) in
  diag_mx (\row_i (sqrtC (vals i i * phase) * half)).
Definition real_modes n (wfs : 'M[C]_(d, n)) (U : 'M[C]_n) : result n :=
  if U != U^T then AssertionError n else
  let: (vals, vecs) := schur U in
  if ~~ is_diag_mx vals then AssertionError n else
  let sqrtU := vecs *m square_root vals *m dag vecs in
  if sqrtU != sqrtU^T then AssertionError n else
  Modes (wfs *m sqrtU) (nseq n 0%N).
(** wfs[:, 0], wfs[:, 1:], wfs[:, :-1] *)
Definition first n (wfs : 'M[C]_(d, n.+1)) : 'cV[C]_d := col 0 wfs.
Definition rest n (wfs : 'M[C]_(d, n.+1)) : 'M[C]_(d, n) := col' 0 wfs.
Definition but_last n (wfs : 'M[C]_(d, n.+1)) : 'M[C]_(d, n) := \matrix_(i, j) wfs i (widen_ord (leqnSn n) j).
(** leads.py:576-589 *)
Definition reduce n (wfs : 'M[C]_(d, n.+2)) : 'M[C]_(d, n) :=
  let P_wf := Pdot (first wfs) in
  let wfs := rest wfs in
  let projector := wfs *m dag wfs - P_wf *m dag P_wf in
  but_last (qr (projector *m wfs)).
(** leads.py:555-600, the columns of new_wfs; [p] pairs.  The code treats the last pair
    separately, since it needs no reduction: here its (empty) reduction is not used.  The
    intermediate assertion wfs^+ wfs = 1 is left out: it is what [reduced] proves. *)
Fixpoint pairs p : 'M[C]_(d, p.*2) -> seq 'cV[C]_d :=
  match p return 'M[C]_(d, p.*2) -> seq 'cV[C]_d with
  | 0%N => fun _ => [::]
  | p'.+1 => fun wfs => first wfs :: Pdot (first wfs) :: pairs (reduce wfs)
  end.
(** leads.py:601-602 *)
Definition normalized (col : 'cV[C]_d) : 'cV[C]_d := (sqrtC ((dag col *m col) 0 0))^-1 *: col.
Definition hstack n (cols : seq 'cV[C]_d) : 'M[C]_(d, n) := \matrix_(i, j) (nth 0 cols j) i 0.
(** leads.py:555-606 P^2 = -1 *)
Definition paired_modes p (wfs : 'M[C]_(d, p.*2)) : result p.*2 :=
  let cols := [seq normalized c | c <- pairs wfs] in
  if all (fun i => nth 0 cols i.*2.+1 == Pdot (nth 0 cols i.*2)) (iota 0 p)
  then Modes (hstack p.*2 cols) (iota 0 p.*2) else AssertionError _.
(** leads.py:607 *)
Definition finish n (r : result n) : result n :=
  if r is Modes new _ then if dag new *m new == 1%:M then r else AssertionError n else r.
(** leads.py:505-608.  The branch P^2 = -1 is passed separately because it is defined for an
    even number of modes only ([C71_even]: it is never taken for an odd one). *)
Definition symmetrize n (paired : 'M[C]_(d, n) -> result n) (wfs : 'M[C]_(d, n)) : result n :=
  let U := dag wfs *m Pdot wfs in
  if U *m dag U != 1%:M then ValueError _ else
  if U *m cj U == 1%:M then finish (real_modes wfs U)
  else if U *m cj U == - 1%:M then finish (paired wfs)
  else ValueError _.
Definition phs_symmetrization p (wfs : 'M[C]_(d, p.*2)) : result p.*2 := symmetrize (@paired_modes p) wfs.
Definition phs_symmetrization_odd p (wfs : 'M[C]_(d, p.*2.+1)) : result p.*2.+1 :=
  symmetrize (fun _ => AssertionError _) wfs.
End Phs.
