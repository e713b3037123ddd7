(** * Specification vocabulary for leads. *)
From mathcomp Require Import all_ssreflect all_algebra.
From Verif Require Import LeadsModel.
Set Implicit Arguments. Unset Strict Implicit. Unset Printing Implicit Defensive.
Import GRing.Theory Num.Theory.
Local Open Scope ring_scope.

Section Spec.
Variable C : numClosedFieldType.
(** conjugate transpose *)
Definition adj m n (A : 'M[C]_(m, n)) : 'M[C]_(n, m) := \matrix_(i, j) (A j i)^*.
Definition hermitian n (A : 'M[C]_n) : Prop := adj A = A.
Definition unitary n (A : 'M[C]_n) : Prop := adj A *m A = 1%:M /\ A *m adj A = 1%:M.
(** a singular value decomposition: descending nonnegative singular values *)
Definition svd_of n (A : 'M[C]_n) (usv : 'M[C]_n * 'rV[C]_n * 'M[C]_n) : Prop :=
  let: (u, s, vh) := usv in
  [/\ unitary u, unitary vh, A = u *m diag_mx s *m vh, (forall i, 0 <= s 0 i) & (forall i j : 'I_n, (i <= j)%N -> s 0 j <= s 0 i)].
(** psi(j) = phi / mu^j solves the Schroedinger equation of the lead at zero
    energy: h psi(j) + t psi(j - 1) + t^+ psi(j + 1) = 0 in all unit cells *)
Definition lead_equation n r (h t : 'M[C]_n) (psi : int -> 'M[C]_(n, r)) : Prop :=
  forall j, h *m psi j + t *m psi (j - 1) + adj t *m psi (j + 1) = 0.
Definition bloch_state n (h t : 'M[C]_n) (mu : C) (phi : 'cV[C]_n) : Prop := lead_equation h t (fun j => mu ^ (- j) *: phi).
(** x solves the eigenvalue problem of a Linsys with eigenvalue mu *)
Definition solves n (L : linsys C n) (mu : C) (x : 'cV[C]_(ldim L + ldim L)) : Prop :=
  lmat L *m x = mu *: (odflt 1%:M (lmatb L) *m x).
(** a state in a single unit cell that is not coupled to the other cells and
    has energy 0: it gives a flat band at that energy *)
Definition flat_state n (h t : 'M[C]_n) (phi : 'cV[C]_n) : Prop := [/\ phi != 0, h *m phi = 0, t *m phi = 0 & adj t *m phi = 0].
(** the QR decomposition of a matrix with at most as many columns as rows *)
Definition qr_of m c (A : 'M[C]_(m, c)) (qr : 'M[C]_(m, c) * 'M[C]_c) : Prop := adj qr.1 *m qr.1 = 1%:M /\ A = qr.1 *m qr.2.
(** the spectral decomposition of a Hermitian matrix, eigenvalues ascending *)
Definition eigh_of c (A : 'M[C]_c) (wz : 'rV[C]_c * 'M[C]_c) : Prop :=
  [/\ unitary wz.2, A *m wz.2 = wz.2 *m diag_mx wz.1, forall i, wz.1 0 i \is Num.real & forall i j : 'I_c, (i <= j)%N -> wz.1 0 i <= wz.1 0 j].
(** The Bloch Hamiltonian is h + t / e^(ik) + t^+ e^(ik); with mu = e^(-ik) its
    derivative by k is - i mu t + i t^+ / mu *)
Definition dH_dk n (t : 'M[C]_n) (mu : C) : 'M[C]_n := (- 'i * mu) *: t + ('i * mu^-1) *: adj t.
End Spec.
Arguments solves {C n} L mu x.
Section Spec2.
Variable C : numClosedFieldType.
Definition injective_mx m p (A : 'M[C]_(m, p)) : Prop := forall x : 'cV[C]_p, A *m x = 0 -> x = 0.
Definition upper m (K : 'M[C]_m) : Prop := forall i j : 'I_m, (j < i)%N -> K i j = 0.
(** The contract of the eigensolver for a x = mu b x.  lam and vec are the
    eigenvalues on the unit circle and their eigenvectors.  The Schur vectors
    of the eigenvalues outside of the unit circle (infinite ones included) come
    first: b X = a X K, where K is triangular, with the inverse eigenvalues on
    the diagonal.  There are as many eigenvectors as eigenvalues on the unit circle:
    together with the Schur vectors X and those of the eigenvalues inside of the
    unit circle X', they are a basis. *)
Definition eig_of k (a b : 'M[C]_(k + k)) (ed : eigdata C k) : Prop :=
  [/\ a *m ed_vec ed = b *m ed_vec ed *m diag_mx (ed_lam ed), (forall j, `|ed_lam ed 0 j| = 1)
    & exists e e' (X : 'M[C]_(k + k, e)) (K : 'M[C]_e) (X' : 'M[C]_(k + k, e')) (K' : 'M[C]_e'),
      [/\ [/\ b *m X = a *m X *m K, upper K & forall i, `|K i i| < 1],
          [/\ a *m X' = b *m X' *m K', upper K' & forall i, `|K' i i| < 1],
          forall i (j : 'I_e) (j' : 'I_(k + k)), j = j' :> nat -> X i j = ed_schur ed i j',
          (e + ed_r ed + e' = k + k)%N
        & injective_mx (row_mx (row_mx X (ed_vec ed)) X')]].
End Spec2.
Section Spec3.
Variable C : numClosedFieldType.
Variables (m m' : nat) (h : 'M[C]_(m + m')) (hop : 'M[C]_(m + m', m)).
(** The half-infinite lead with the cells 0, 1, 2, ..., attached to an interface
    with the wave function psi0: only the first m orbitals of a cell are
    coupled to the next one.  The Schroedinger equation in all the cells of the
    lead, at zero energy: *)
Definition half_infinite (psi0 : 'cV[C]_m) (psi : nat -> 'cV[C]_(m + m')) : Prop :=
  h *m psi 0%N + hop *m psi0 + adj (row_mx hop 0) *m psi 1%N = 0 /\
  forall j, h *m psi j.+1 + row_mx hop 0 *m psi j + adj (row_mx hop 0) *m psi j.+2 = 0.
(** an evanescent state: the cell j has G K^j d, where all eigenvalues of K are
    inside of the unit circle *)
Definition evanescent e (G : 'M[C]_(m + m', e)) (K : 'M[C]_e) (d : 'cV[C]_e) (j : nat) : 'cV[C]_(m + m') := G *m iter j (mulmx K) d.
(** modes with phi / mu^(j + 1) in cell j, and the amplitudes c *)
Definition propagating r (wf : 'M[C]_(m + m', r)) (mu : 'rV[C]_r) (c : 'cV[C]_r) (j : nat) : 'cV[C]_(m + m') :=
  \sum_i (c i 0 * (mu 0 i)^-1 ^+ j.+1) *: col i wf.
End Spec3.
