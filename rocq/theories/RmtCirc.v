(** * Proofs for C53. *)
From Coq Require Import List Bool Arith ZArith Ring Lia Setoid Morphisms.
From Verif Require Import StarRing KpmCorrSpec KpmTrace RmtModel RmtSpec RmtProofs RmtGauss RmtAlg RmtTri.
Import ListNotations.
Set Implicit Arguments.

Section Circ.
Variable R : StarRing.
Add Ring RringRc : (r_theory R).
Variable n : nat.
Notation matrix := (nat -> nat -> R).
Local Open Scope star_scope.
Notation "0" := (r0 R) : star_scope.
Notation "1" := (r1 R) : star_scope.
Notation conj := (rconj R).
Notation im := (ri R).
Notation "x ** y" := (mmul n x y) (at level 40, left associativity).
Notation "x == y" := (@meq R n x y) (at level 70).
Notation I := (@unit_matrix R).
Notation Y := (@pauli_y R).

(** ** the matrix u *)
Lemma phase_unitary (q : matrix) (ph : nat -> R) : unitary n q -> (forall j, (j < n)%nat -> ph j * conj (ph j) = 1) -> unitary n (fun i j => q i j * ph j).
Proof.
  intros [A B] P. split; intros i j Hi Hj.
  - transitivity (conj (ph i) * ph j * (mT (mC q) ** q) i j).
    + unfold mmul, mT, mC. rewrite <- sum_mul_l. apply sum_ext. intros k Hk. rewrite rconj_mul. ring.
    + rewrite A by auto. unfold unit_matrix. destruct (Nat.eqb_spec i j) as [<-|N]; [|ring]. specialize (P i Hi). ring [P].
  - rewrite <- (B i j Hi Hj). unfold mmul, mT, mC. apply sum_ext. intros k Hk. rewrite rconj_mul. specialize (P k Hk). ring [P].
Qed.
Lemma phase_product (q r : matrix) (ph : nat -> R) : (forall j, (j < n)%nat -> ph j * conj (ph j) = 1) ->
  (fun i j => q i j * ph j) ** (fun i j => conj (ph i) * r i j) == q ** r.
Proof. intros P i j Hi Hj. unfold mmul. apply sum_ext. intros k Hk. specialize (P k Hk). ring [P]. Qed.
Lemma input_J s g1 g2 : (n mod 2 = 0)%nat -> sq_p s = (-1)%Z -> Y ** mC (circular_input s g1 g2) ** Y == circular_input s g1 g2.
Proof.
  intros Hn Hs. rewrite <- flip_Y by auto. unfold circular_input. rewrite Hs. cbn [Z.eqb Pos.eqb]. intros i j _ _. unfold flip_tau.
  rewrite !rconj_mul, !conj_sub, !rconj_mul, !rconj_conj, !rconj_i, !idx_x_2, !tau_z_conj, !tau_z_idx. pose proof (tau_z_sq R i) as Ti. pose proof (tau_z_sq R j) as Tj. ring [Ti Tj].
Qed.
Variable pos : R -> Prop.
Hypothesis PN : positive_numbers pos.
Section U.
Variables (s : sym) (g1 g2 q r : matrix) (phase : R -> R).
Hypothesis R1 : forall i j, conj (g1 i j) = g1 i j.
Hypothesis Q : qr_ok n (circular_input s g1 g2) q r.
Hypothesis Ph : forall j, (j < n)%nat -> is_phase pos (r j j) (phase (r j j)).
Let u : matrix := fun i j => q i j * phase (r j j).
Lemma u_unitary : unitary n u.
Proof. apply (@phase_unitary q (fun j => phase (r j j)) (qr_unitary Q)). intros j Hj. apply Ph; auto. Qed.
Lemma u_real : sq_p s = 1%Z -> mC u == u.
Proof.
  intros Hs. assert (Hr : mC (circular_input s g1 g2) == circular_input s g1 g2).
  { intros i j _ _. unfold mC, circular_input. rewrite Hs. cbn [Z.eqb Pos.eqb]. apply R1. }
  destruct (qr_real Q Hr) as [Qr Rr]. intros i j Hi Hj. unfold mC, u. rewrite rconj_mul. f_equal; [apply Qr; auto|].
  destruct (Ph Hj) as (_ & _ & E). apply E. apply (Rr j j); auto.
Qed.
Lemma u_J : (n mod 2 = 0)%nat -> sq_p s = (-1)%Z -> (forall k, (2 * k + 1 < n)%nat -> r (2 * k)%nat (2 * k + 1)%nat = 0) -> Y ** mC u ** Y == u.
Proof.
  intros Hn Hs Z. destruct PN as [PR PI PS].
  apply (@tri_J R n pos PR PI PS u (fun i j => conj (phase (r i i)) * r i j) (circular_input s g1 g2)); auto.
  - apply u_unitary.
  - unfold u. rewrite (@phase_product q r (fun j => phase (r j j))); [apply (qr_product Q)|]. intros j Hj. apply Ph; auto.
  - apply input_J; auto.
  - intros i j Hj Hi. rewrite (qr_upper Q Hj Hi). ring.
  - intros k Hk. rewrite Z by auto. ring.
  - intros j Hj. apply Ph; auto.
Qed.
End U.

(** ** exchanging two rows *)
Lemma last_two_lt i : (2 <= n)%nat -> (i < n)%nat -> (last_two n i < n)%nat.
Proof. intros. unfold last_two. destruct (i =? n - 1)%nat; [lia|]. destruct (i =? n - 2)%nat; lia. Qed.
Lemma last_two_2 i : (2 <= n)%nat -> (i < n)%nat -> last_two n (last_two n i) = i.
Proof.
  intros. unfold last_two. destruct (Nat.eqb_spec i (n - 1)).
  - destruct (Nat.eqb_spec (n - 2) (n - 1)); [lia|]. rewrite Nat.eqb_refl. lia.
  - destruct (Nat.eqb_spec i (n - 2)); [rewrite Nat.eqb_refl; lia|]. destruct (Nat.eqb_spec i (n - 1)); [lia|]. destruct (Nat.eqb_spec i (n - 2)); lia.
Qed.
Lemma swap_unitary (u : matrix) : (2 <= n)%nat -> unitary n u -> unitary n (fun i j => u (last_two n i) j).
Proof.
  intros H2 U. set (P := fun i k => if (k =? last_two n i)%nat then 1 else 0 : R).
  assert (M : @mono R n P (last_two n) (fun _ => 1)). { intros i Hi. split; [apply last_two_lt; auto|]. reflexivity. }
  assert (E : P ** u == fun i j => u (last_two n i) j). { intros i j Hi Hj. unfold mmul. rewrite (mono_sum (fun k => u k j) M Hi). ring. }
  apply (unitary_eq E). apply unitary_mul; auto.
  split; intros i j Hi Hj; unfold mmul, mT, mC, unit_matrix.
  - rewrite <- (@sum_delta R n (last_two n i) (fun k => if (i =? j)%nat then 1 else 0) (last_two_lt H2 Hi)). apply sum_ext. intros k Hk. unfold P.
    destruct (Nat.eqb_spec k (last_two n i)) as [->|N].
    + rewrite last_two_2, Nat.eqb_refl, conj1, (Nat.eqb_sym j i) by auto. ring.
    + destruct (Nat.eqb_spec i (last_two n k)) as [Ei|_]; [exfalso; apply N; rewrite Ei, last_two_2; auto|]. rewrite conj0. ring.
  - rewrite (mono_sum (fun k => conj (P j k)) M Hi). unfold P. destruct (Nat.eqb_spec i j) as [<-|N]; [rewrite Nat.eqb_refl, conj1; ring|].
    destruct (Nat.eqb_spec (last_two n i) (last_two n j)) as [Ei|_]; [exfalso; apply N; rewrite <- (last_two_2 H2 Hi), Ei; apply last_two_2; auto|]. rewrite conj0. ring.
Qed.

(** ** the symmetrized matrices *)
Lemma TC_u (u : matrix) : unitary n u -> mT u ** mC u == I.
Proof. intros U. destruct (unitary_C U) as [A _]. rewrite mCC in A. auto. Qed.
(** AI *)
Lemma ai_ok (u : matrix) : unitary n u -> unitary n (mT u ** u) /\ mT u ** u == mT (mT u ** u).
Proof. intros U. split; [apply unitary_mul; auto; apply unitary_T; auto|]. rewrite mT_mul, mTT. reflexivity. Qed.
(** CI *)
Lemma ci_ok (u : matrix) : (n mod 2 = 0)%nat -> unitary n u -> Y ** mC u ** Y == u -> let w := mT u ** u ** Y in
  unitary n w /\ w == mT (mC w) /\ w == mN (Y ** mT w ** Y) /\ w == mN (Y ** mC w ** Y).
Proof.
  intros Hn U J w.
  assert (E : mT w == mN (Y ** (mT u ** u))). { unfold w. rewrite mT_mul, mT_mul, mTT, Y_T, mN_l by auto. reflexivity. }
  assert (Jc : mC u == Y ** u ** Y). { rewrite <- J at 2. rewrite !m_assoc, Y_Y, m_1r, <- m_assoc, Y_Y, m_1l by auto. reflexivity. }
  assert (Jt : mC (mT u) == Y ** mT u ** Y). { change (mC (mT u)) with (mT (mC u)). rewrite Jc, !mT_mul, Y_T, mN_l, mN_r, mN_r, mNN, m_assoc by auto. reflexivity. }
  assert (Ec : mC w == mN (Y ** (mT u ** u))).
  { unfold w. rewrite !mC_mul, Y_C, Jc, Jt, mN_r by auto. rewrite !m_assoc, Y_Y, m_1r by auto. rewrite <- (@m_assoc R n Y Y), Y_Y, m_1l by auto. reflexivity. }
  assert (F : Y ** (Y ** (mT u ** u)) == mT u ** u) by (rewrite <- m_assoc, Y_Y, m_1l by auto; reflexivity).
  repeat split.
  - apply unitary_mul; [apply unitary_mul; auto; apply unitary_T; auto|apply Y_unitary; auto].
  - apply unitary_mul; [apply unitary_mul; auto; apply unitary_T; auto|apply Y_unitary; auto].
  - rewrite Ec, mT_N, mT_mul, mT_mul, mTT, Y_T, mN_r, mNN by auto. reflexivity.
  - rewrite E, mN_r, mN_l, mNN, F. reflexivity.
  - rewrite Ec, mN_r, mN_l, mNN, F. reflexivity.
Qed.
(** AII, DIII *)
Lemma aii_ok (u : matrix) : (n mod 2 = 0)%nat -> unitary n u -> let w := mN (mT u ** (Y ** u)) in
  unitary n w /\ w == mN (mT w) /\ (mC u == u -> mN w == mC w /\ w == mT (mC w)).
Proof.
  intros Hn U w.
  assert (E : w == mN (mT w)). { unfold w. rewrite mT_N, mNN, mT_mul, mT_mul, mTT, Y_T, mN_r, mN_l, m_assoc by auto. reflexivity. }
  split; [|split; [exact E|]].
  - apply unitary_N, unitary_mul; [apply unitary_T; auto|apply unitary_mul; auto; apply Y_unitary; auto].
  - intros Rl. assert (Ec : mN w == mC w).
    { unfold w. rewrite mC_N, !mC_mul, Y_C by auto. change (mC (mT u)) with (mT (mC u)). rewrite Rl, mN_l, mN_r. reflexivity. }
    split; auto. rewrite <- Ec, mT_N. exact E.
Qed.
(** AIII, BDI, CII *)
Definition dmat (d : nat -> R) : matrix := fun i j => if (i =? j)%nat then d i else 0.
Lemma dmat_l d x i j : (i < n)%nat -> (dmat d ** x) i j = d i * x i j.
Proof.
  intros Hi. unfold mmul, dmat. rewrite <- (@sum_delta R n i (fun k => d i * x k j) Hi). apply sum_ext. intros k _. rewrite (Nat.eqb_sym i k). destruct (k =? i)%nat; ring.
Qed.
Lemma dmat_T d : mT (dmat d) == dmat d.
Proof. intros i j _ _. unfold mT, dmat. rewrite (Nat.eqb_sym j i). destruct (Nat.eqb_spec i j); subst; auto. Qed.
Lemma dmat_C d : (forall i, conj (d i) = d i) -> mC (dmat d) == dmat d.
Proof. intros H i j _ _. unfold mC, dmat. destruct (i =? j)%nat; auto. apply conj0. Qed.
Lemma dmat_sq d : (forall i, d i * d i = 1) -> dmat d ** dmat d == I.
Proof. intros H i j Hi Hj. rewrite dmat_l by auto. unfold dmat, unit_matrix. destruct (i =? j)%nat; [apply H|ring]. Qed.
Lemma chiral_ok d (u : matrix) : (forall i, conj (d i) = d i) -> (forall i, d i * d i = 1) -> unitary n u -> let w := mT (mC u) ** (dmat d ** u) in
  unitary n w /\ w == mT (mC w) /\ (mC u == u -> w == mC w /\ w == mT w)
  /\ ((n mod 2 = 0)%nat -> (forall i, (i < n)%nat -> d (idx_x i) = d i) -> Y ** mC u ** Y == u -> w == Y ** mC w ** Y /\ w == Y ** mT w ** Y).
Proof.
  intros Dc Ds U w.
  assert (UD : unitary n (dmat d)). { split; rewrite dmat_C, dmat_T by auto; apply dmat_sq; auto. }
  assert (H : w == mT (mC w)).
  { unfold w. rewrite !mC_mul, !mT_mul, dmat_C, dmat_T by auto. change (mC (mT (mC u))) with (mT (mC (mC u))). rewrite mCC, mTT, m_assoc. reflexivity. }
  split; [|split; [exact H|split]].
  - apply unitary_mul; [apply unitary_T, unitary_C; auto|apply unitary_mul; auto].
  - intros Rl. assert (E : w == mC w). { unfold w. rewrite !mC_mul, dmat_C by auto. change (mC (mT (mC u))) with (mT (mC (mC u))). rewrite Rl, Rl. reflexivity. }
    split; auto. rewrite H at 1. rewrite <- E. reflexivity.
  - intros Hn Dx J.
    assert (E : w == Y ** mC w ** Y).
    { unfold w.
      assert (JD : Y ** mC (dmat d) ** Y == dmat d).
      { rewrite dmat_C by auto. intros i j Hi Hj. rewrite Y_mul_r, Y_mul_l by auto. unfold dmat.
        destruct (Nat.eqb_spec i j) as [<-|N].
        - rewrite Nat.eqb_refl, Dx by auto. pose proof (ri_sq R) as IM. pose proof (tau_z_sq R i) as T. ring [IM T].
        - destruct (Nat.eqb_spec (idx_x i) (idx_x j)) as [Ei|_]; [exfalso; apply N; rewrite <- (idx_x_2 i), Ei; apply idx_x_2|ring]. }
      assert (JT : Y ** mC (mT (mC u)) ** Y == mT (mC u)).
      { change (mC (mT (mC u))) with (mT (mC (mC u))). rewrite mCC. rewrite <- J at 2. rewrite !mC_mul, mCC, !mT_mul, Y_C, mT_N, Y_T, !mNN, m_assoc by auto. reflexivity. }
      rewrite J_mul, J_mul, JT, JD, J by auto. reflexivity. }
    split; auto. rewrite E at 1. rewrite H at 1. change (mC (mT (mC w))) with (mT (mC (mC w))). rewrite mCC. reflexivity.
Qed.
End Circ.
