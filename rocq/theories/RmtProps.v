(** * C32: the Gaussian random matrix ensembles have their symmetries. *)
From Coq Require Import List Bool Arith ZArith Ring Lia.
From Verif Require Import StarRing KpmCorrSpec RmtModel RmtSpec RmtProofs RmtGauss RmtGaussMain.
Import ListNotations.
Set Implicit Arguments.

(** Whatever real random numbers are drawn, a matrix returned by gaussian is
    Hermitian and has the time-reversal, particle-hole and chiral symmetries
    of its class, with the operators of the docstring and also with those of
    the tables h_t_matrix, h_p_matrix; these operators are unitary and the
    antiunitary symmetries square to +1 or -1 as the class requires. *)
Theorem C32_gaussian (R : StarRing) n s (g1 g2 : nat -> nat -> R) factor half isqrt2 h :
  (forall i j, rconj R (g1 i j) = g1 i j) -> (forall i j, rconj R (g2 i j) = g2 i j) ->
  rconj R factor = factor -> rconj R half = half -> rconj R isqrt2 = isqrt2 ->
  gaussian n s g1 g2 factor half isqrt2 = inl h ->
  hermitian_matrix n h
  /\ (forall m, h_t_matrix s = Some m \/ doc_t s = Some m ->
      unitary n (kron m) /\ meq n (square n (kron m)) (mscale (sign (az_t s)) unit_matrix) /\ meq n h (antiunitary n (kron m) h))
  /\ (forall m, h_p_matrix s = Some m \/ doc_p s = Some m ->
      unitary n (kron m) /\ meq n (square n (kron m)) (mscale (sign (az_p s)) unit_matrix) /\ meq n (mN h) (antiunitary n (kron m) h))
  /\ (doc_c s = true -> meq n h (mN (mmul n (mmul n pauli_z h) pauli_z))).
Proof.
  intros R1 R2 Rf Rh Rs H. split; [|split; [|split]].
  - exact (@gauss_herm R n g1 g2 factor half isqrt2 R1 R2 Rf Rh Rs s h H).
  - intros m Hm. exact (@gauss_T R n s g1 g2 factor half isqrt2 R1 R2 Rf Rh Rs h H m Hm).
  - intros m Hm. exact (@gauss_P R n s g1 g2 factor half isqrt2 R1 R2 Rf Rh Rs h H m Hm).
  - intros Hc. exact (@gauss_C R n s g1 g2 factor half isqrt2 R1 R2 h H Hc).
Qed.

(** The tables and the functions t, p, c of the module describe the ten
    Altland-Zirnbauer classes. *)
Theorem C32_classes (R : StarRing) (s : sym) :
  sq_t s = az_t s /\ sq_p s = az_p s /\ has_c s = doc_c s
  /\ (az_t s <> 0%Z <-> exists m, @h_t_matrix R s = Some m) /\ (az_t s <> 0%Z <-> exists m, @doc_t R s = Some m)
  /\ (az_p s <> 0%Z <-> exists m, @h_p_matrix R s = Some m) /\ (az_p s <> 0%Z <-> exists m, @doc_p R s = Some m).
Proof.
  destruct s; cbn; repeat split; try reflexivity; try (intros _; eexists; reflexivity); try (intros [m E]; discriminate); try (intros F; exfalso; apply F; reflexivity); discriminate.
Qed.

(** Sizes: a matrix is returned exactly for the documented sizes, and
    ValueError is raised for all others. *)
Theorem C32_sizes (R : StarRing) n s (g1 g2 : nat -> nat -> R) factor half isqrt2 :
  ((exists h, gaussian n s g1 g2 factor half isqrt2 = inl h) <-> doc_size s n)
  /\ (~ doc_size s n -> gaussian n s g1 g2 factor half isqrt2 = inr RValue).
Proof.
  assert (E2 : (n mod 2 =? 0)%nat = true <-> exists k, n = (2 * k)%nat).
  { rewrite Nat.eqb_eq. split; [intros E; exists (n / 2); rewrite (Nat.div_mod n 2) at 1 by lia; lia|]. intros [k ->]. rewrite Nat.mul_comm. apply Nat.mod_mul. lia. }
  assert (E4 : (n mod 4 =? 0)%nat = true <-> exists k, n = (4 * k)%nat).
  { rewrite Nat.eqb_eq. split; [intros E; exists (n / 4); rewrite (Nat.div_mod n 4) at 1 by lia; lia|]. intros [k ->]. rewrite Nat.mul_comm. apply Nat.mod_mul. lia. }
  assert (E42 : (n mod 4 =? 0)%nat = true -> (n mod 2 =? 0)%nat = true).
  { rewrite E2, E4. intros [k ->]. exists (2 * k)%nat. lia. }
  unfold gaussian. split.
  - destruct s; cbn [has_c sq_t sq_p Z.eqb Pos.eqb negb andb orb doc_size];
    try (split; [tauto|intros _; eexists; reflexivity]); rewrite <- ?E2, <- ?E4;
    destruct (n mod 2 =? 0)%nat eqn:F2; cbn [negb]; try (split; [tauto|intros _; eexists; reflexivity]); try (split; [intros [h Hh]; discriminate|discriminate]).
    + destruct (n mod 4 =? 0)%nat eqn:F4; cbn [negb]; [split; [tauto|intros _; eexists; reflexivity]|split; [intros [h Hh]; discriminate|discriminate]].
    + destruct (n mod 4 =? 0)%nat eqn:F4; cbn [negb]; [discriminate (E42 eq_refl)|split; [intros [h Hh]; discriminate|discriminate]].
  - destruct s; cbn [has_c sq_t sq_p Z.eqb Pos.eqb negb andb orb doc_size]; try (intros F; exfalso; apply F; exact I); rewrite <- ?E2, <- ?E4;
    destruct (n mod 2 =? 0)%nat eqn:F2; cbn [negb]; try reflexivity; try (intros F; exfalso; apply F; reflexivity).
    destruct (n mod 4 =? 0)%nat eqn:F4; cbn [negb]; [intros F; exfalso; apply F; reflexivity|reflexivity].
Qed.

(** A class CII matrix over the Gaussian integers *)
Definition ex_g (a b : Z) : nat -> nat -> GaussZ := fun i j => (a * Z.of_nat i + b * Z.of_nat (j * j), 0)%Z.
Example C32_example_CII : exists h, gaussian 4 SCII (ex_g 1 2) (ex_g 3 5) (r1 GaussZ) (r1 GaussZ) (r1 GaussZ) = inl h
  /\ (forall i j, rconj GaussZ (ex_g 1 2 i j) = ex_g 1 2 i j) /\ (forall i j, rconj GaussZ (ex_g 3 5 i j) = ex_g 3 5 i j)
  /\ (exists m, @h_t_matrix GaussZ SCII = Some m) /\ (exists m, @h_p_matrix GaussZ SCII = Some m)
  /\ map (fun i => map (h i) (seq 0 4)) (seq 0 4) =
     [[(0, 0); (68, -40); (0, 0); (16, 48)]; [(68, 40); (0, 0); (-16, -48); (0, 0)];
      [(0, 0); (-16, 48); (0, 0); (68, 40)]; [(16, -48); (0, 0); (68, -40); (0, 0)]]%Z.
Proof.
  eexists. split; [reflexivity|]. split; [intros; reflexivity|]. split; [intros; reflexivity|]. split; [eexists; reflexivity|]. split; [eexists; reflexivity|].
  vm_compute. reflexivity.
Qed.
Example C32_example_sizes : gaussian 6 SCII (ex_g 1 2) (ex_g 3 5) (r1 GaussZ) (r1 GaussZ) (r1 GaussZ) = inr RValue
  /\ gaussian 3 SAII (ex_g 1 2) (ex_g 3 5) (r1 GaussZ) (r1 GaussZ) (r1 GaussZ) = inr RValue
  /\ exists h, gaussian 3 SD (ex_g 1 2) (ex_g 3 5) (r1 GaussZ) (r1 GaussZ) (r1 GaussZ) = inl h.
Proof. split; [reflexivity|]. split; [reflexivity|]. eexists. reflexivity. Qed.
