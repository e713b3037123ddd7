(** * Model of kwant/kpm.py: densities, kernels and integration, over the reals. *)
From Coq Require Import Reals List Arith Lia Lra.
Import ListNotations.
Set Implicit Arguments.
Local Open Scope R_scope.

(** sum of f 0 ... f (n - 1) *)
Fixpoint Rsum (n : nat) (f : nat -> R) : R := match n with O => 0 | S n => Rsum n f + f n end.

(** kpm.py:36 SAMPLING *)
Definition SAMPLING : nat := 2.

(** kpm.py:1190-1194 _chebyshev_nodes: np.linspace(pi, 0, n, endpoint=False), and
    half a step, -pi / n *)
Definition node_angle (n j : nat) : R := (PI - INR j * (PI / INR n)) + (- (PI / INR n)) / 2.
Definition node (n j : nat) : R := cos (node_angle n j).

(** scipy.fft.dct(x, type=3) (scipy's documentation: the unnormalized DCT-III) *)
Definition dct3 (n : nat) (x : nat -> R) (k : nat) : R :=
  x O + 2 * Rsum (n - 1) (fun i => x (S i) * cos (PI * INR (S i) * (2 * INR k + 1) / (2 * INR n))).

(** numpy.polynomial.chebyshev.chebval: sum of c_n T_n(x) *)
Fixpoint Tch (n : nat) (x : R) : R :=
  match n with O => 1 | S m => match m with O => x | S k => 2 * x * Tch m x - Tch k x end end.
Definition chebval (x : R) (len : nat) (c : nat -> R) : R := Rsum len (fun n => c n * Tch n x).

(** Numbers of one component of the densities: [m] stabilized moments, [nm] of
    them *)
(** kpm.py:1197-1225 _calc_fft_moments *)
Definition moments_ext (nm : nat) (m : nat -> R) (i : nat) : R := if (i <? nm)%nat then m i else 0.
Definition gammas (nm : nat) (m : nat -> R) (j : nat) : R :=
  dct3 (SAMPLING * nm) (moments_ext nm m) (SAMPLING * nm - 1 - j).
Definition densities (nm : nat) (m : nat -> R) (j : nat) : R :=
  gammas nm m j / (PI * sqrt (1 - (node (SAMPLING * nm) j) ^ 2)).
(** kpm.py:254-257 energies *)
Definition energies (a b : R) (nm j : nat) : R := a * node (SAMPLING * nm) j + b.
(** kpm.py:263-295 __call__(energy) *)
Definition density_at (a b : R) (nm : nat) (m : nat -> R) (energy : R) : R :=
  let e := (energy - b) / a in
  let g_e := PI * sqrt (1 - e) * sqrt (1 + e) in
  chebval e nm (fun n => match n with O => m O | S _ => 2 * m n end) / g_e.
(** kpm.py:367-316 integrate(distribution_function) *)
Definition integrate (a b : R) (nm : nat) (m : nat -> R) (f : option (R -> R)) : R :=
  let factor := a / (2 * INR nm) in
  let rho j := match f with None => gammas nm m j | Some f => gammas nm m j * f (energies a b nm j) end in
  factor * Rsum (SAMPLING * nm) rho.

(** kpm.py:1106-1123 jackson_kernel, the factor of moment m *)
Definition jackson (nm : nat) (m : nat) : R :=
  ((INR nm - INR m + 1) * cos (PI * INR m / (INR nm + 1)) + sin (PI * INR m / (INR nm + 1)) / tan (PI / (INR nm + 1))) / (INR nm + 1).
(** kpm.py:1126-1142 lorentz_kernel *)
Definition lorentz (l : R) (nm : nat) (m : nat) : R := sinh (l * (1 - INR m / INR nm)) / sinh l.
(** kpm.py:378-388 _moments: mean over the vectors, divided by a, times the kernel *)
Definition final_moments (a : R) (kernel : nat -> R) (moments : list (nat -> R)) (n : nat) : R :=
  (fold_right Rplus 0 (map (fun f => f n) moments) / INR (length moments)) / a * kernel n.

(** kpm.py:1145-1187 _rescale: the scale (a, b) for given bounds, or ValueError *)
Definition rescale (eps lmin lmax : R) : option (R * R) :=
  let tol := eps / 2 in
  let a := Rabs (lmax - lmin) / (2 - eps) in
  let b := (lmax + lmin) / 2 in
  if Rle_dec (lmax - lmin) (Rabs (lmax + lmin) * tol / 2) then None else Some (a, b).
(** kpm.py:579-581 the bounds that Correlator passes to _spectrum_L *)
Definition corr_bounds (eps a b : R) : R * R := let a' := a * (1 - eps / 2) in (b - a', b + a').

(** kpm.py:990-1008 fermi_distribution; None: ValueError *)
Definition fermi (energy mu temperature : R) : option R :=
  if Rlt_dec temperature 0 then None
  else if Req_EM_T temperature 0 then Some (if Rlt_dec (energy - mu) 0 then 1 else 0)
  else Some (1 / (1 + exp ((energy - mu) / temperature))).
