(** * Model of transform_modes (kwant/physics/leads.py:907-982). *)
From mathcomp Require Import all_ssreflect all_algebra.
Set Implicit Arguments. Unset Strict Implicit. Unset Printing Implicit Defensive.
Import GRing.Theory Num.Theory.
Local Open Scope ring_scope.

Section Transform.
Variable C : numClosedFieldType.
(** orbitals of the block, number of left- (and of right-)moving modes, number of nonzero
    singular values of the hopping, number of evanescent modes *)
Variables n N k e : nat.
(** leads.py:920 modes_data: the result of compute_block_modes (leads.py:904) *)
Record modes_data := ModesData {
  wave_functions : 'M[C]_(n, N + N);
  momenta : 'rV[C]_(N + N);
  velocities : 'rV[C]_(N + N);
  vecs : 'M[C]_(k, N + N + e);
  vecslmbdainv : 'M[C]_(k, N + N + e);
  sqrt_hop : 'M[C]_(n, k) }.
Definition conj_mx m m' (A : 'M[C]_(m, m')) : 'M[C]_(m, m') := map_mx conjC A.
(** leads.py:932-954 the four index arrays, as functions of arange(2 * nmodes) *)
Definition perm_unitary (i : nat) : nat := i.
Definition perm_time_reversal (i : nat) : nat := (N + N - 1 - i)%N.
Definition perm_particle_hole (i : nat) : nat := (absz ((- 1%:Z - i%:Z) %% N%:Z)%Z + N * (i %/ N))%N.
Definition perm_chiral (i : nat) : nat := (i %% N + N * (i < N))%N.
(** a[:, perm]; for indices beyond the number of columns numpy raises an IndexError, which
    does not occur *)
Definition permuted (perm : nat -> nat) m (a : 'M[C]_(m, N + N)) : 'M[C]_(m, N + N) :=
  \matrix_(i, j) if insub (perm j) is Some j' then a i j' else 0.
(** leads.py:932-957: the operator, perm, conj, flip_energy *)
Definition relation (unitary time_reversal particle_hole chiral : option 'M[C]_n) : option ('M[C]_n * (nat -> nat) * bool * bool) :=
  match unitary, time_reversal, particle_hole, chiral with
  | Some U, _, _, _ => Some (U, perm_unitary, false, false)
  | None, Some U, _, _ => Some (U, perm_time_reversal, true, false)
  | None, None, Some U, _ => Some (U, perm_particle_hole, true, true)
  | None, None, None, Some U => Some (U, perm_chiral, false, true)
  | None, None, None, None => None
  end.
(** leads.py:907-982; None is the ValueError *)
Definition transform_modes (modes : modes_data) (unitary time_reversal particle_hole chiral : option 'M[C]_n) : option modes_data :=
  match relation unitary time_reversal particle_hole chiral with
  | None => None
  | Some (unitary, perm, cc, flip_energy) =>
    let c m m' (A : 'M[C]_(m, m')) := if cc then conj_mx A else A in
    let momenta := if cc then - momenta modes else momenta modes in
    let vecs := c _ _ (vecs modes) in
    let vecslmbdainv := c _ _ (vecslmbdainv modes) in
    let wave_functions := c _ _ (wave_functions modes) in
    let v := c _ _ (sqrt_hop modes) in
    let vecslmbdainv := if flip_energy then - vecslmbdainv else vecslmbdainv in
    let velocities := if flip_energy != cc then - velocities modes else velocities modes in
    let front m (a : 'M[C]_(m, N + N + e)) := row_mx (permuted perm (lsubmx a)) (rsubmx a) in
    Some (ModesData (permuted perm (unitary *m wave_functions)) (permuted perm momenta) (permuted perm velocities)
      (front _ vecs) (front _ vecslmbdainv) (unitary *m v))
  end.
End Transform.
