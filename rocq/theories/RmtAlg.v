(** * Matrix algebra for C53. *)
From Coq Require Import List Bool Arith ZArith Ring Lia Setoid Morphisms.
From Verif Require Import StarRing KpmCorrSpec KpmTrace RmtModel RmtSpec RmtProofs RmtGauss.
Import ListNotations.
Set Implicit Arguments.

Section Alg.
Variable R : StarRing.
Add Ring RringRa : (r_theory R).
Variable n : nat.
Notation matrix := (nat -> nat -> R).
Local Open Scope star_scope.
Notation "0" := (r0 R) : star_scope.
Notation "1" := (r1 R) : star_scope.
Notation conj := (rconj R).
Notation im := (ri R).
Notation "x ** y" := (mmul n x y) (at level 40, left associativity).
Notation "x == y" := (@meq R n x y) (at level 70).
Notation I := (@unit_matrix R).
Notation Y := (@pauli_y R).

Global Instance meq_equiv : Equivalence (@meq R n).
Proof. split; [intros x i j _ _; reflexivity|intros x y H i j Hi Hj; symmetry; auto|intros x y z H1 H2 i j Hi Hj; rewrite H1, H2; auto]. Qed.
Global Instance mmul_proper : Proper (@meq R n ==> @meq R n ==> @meq R n) (mmul n).
Proof. intros x x' Hx y y' Hy i j Hi Hj. apply mmul_ext; intros k Hk; auto. Qed.
Global Instance mT_proper : Proper (@meq R n ==> @meq R n) mT.
Proof. intros x x' Hx i j Hi Hj. unfold mT; auto. Qed.
Global Instance mC_proper : Proper (@meq R n ==> @meq R n) mC.
Proof. intros x x' Hx i j Hi Hj. unfold mC; f_equal; auto. Qed.
Global Instance mN_proper : Proper (@meq R n ==> @meq R n) mN.
Proof. intros x x' Hx i j Hi Hj. unfold mN; f_equal; auto. Qed.
Global Instance mscale_proper c : Proper (@meq R n ==> @meq R n) (mscale c).
Proof. intros x x' Hx i j Hi Hj. unfold mscale; f_equal; auto. Qed.
Lemma m_assoc x y z : x ** y ** z == x ** (y ** z).
Proof. intros i j _ _. symmetry. apply mmul_assoc. Qed.
Lemma m_1l x : I ** x == x. Proof. intros i j Hi Hj. apply mmul_1l; auto. Qed.
Lemma m_1r x : x ** I == x. Proof. intros i j Hi Hj. apply mmul_1r; auto. Qed.
Lemma mT_mul x y : mT (x ** y) == mT y ** mT x.
Proof. intros i j _ _. unfold mT, mmul. apply sum_ext. intros; ring. Qed.
Lemma mC_mul x y : mC (x ** y) == mC x ** mC y.
Proof. intros i j _ _. unfold mC, mmul. rewrite sum_conj. apply sum_ext. intros. apply rconj_mul. Qed.
Lemma mTC x : mT (mC x) == mC (mT x). Proof. intros i j _ _. reflexivity. Qed.
Lemma mTT x : mT (mT x) == x. Proof. intros i j _ _. reflexivity. Qed.
Lemma mCC x : mC (mC x) == x. Proof. intros i j _ _. unfold mC. apply rconj_conj. Qed.
Lemma mNN x : mN (mN x) == x. Proof. intros i j _ _. unfold mN. ring. Qed.
Lemma mN_l x y : mN x ** y == mN (x ** y).
Proof. intros i j _ _. unfold mN, mmul. transitivity (sum R n (fun k => - (1) * (x i k * y k j))); [apply sum_ext; intros; ring|]. rewrite sum_mul_l. ring. Qed.
Lemma mN_r x y : x ** mN y == mN (x ** y).
Proof. intros i j _ _. unfold mN, mmul. transitivity (sum R n (fun k => - (1) * (x i k * y k j))); [apply sum_ext; intros; ring|]. rewrite sum_mul_l. ring. Qed.
Lemma mT_N x : mT (mN x) == mN (mT x). Proof. intros i j _ _. reflexivity. Qed.
Lemma mC_N x : mC (mN x) == mN (mC x). Proof. intros i j _ _. unfold mC, mN. apply conj_opp. Qed.
Lemma mC_I : mC I == I. Proof. intros i j _ _. unfold mC, unit_matrix. destruct (i =? j)%nat; [apply conj1|apply conj0]. Qed.
Lemma mT_I : mT I == I. Proof. intros i j _ _. unfold mT, unit_matrix. rewrite Nat.eqb_sym. reflexivity. Qed.

(** unitary matrices *)
Lemma unitary_eq (x y : matrix) : x == y -> unitary n x -> unitary n y.
Proof. intros E [A B]. split; rewrite <- E; auto. Qed.
Lemma unitary_mul (x y : matrix) : unitary n x -> unitary n y -> unitary n (x ** y).
Proof.
  intros [A B] [C D]. split.
  - rewrite mC_mul, mT_mul. rewrite m_assoc. rewrite <- (m_assoc (mT (mC x))). rewrite A, m_1l. auto.
  - rewrite mC_mul, mT_mul. rewrite m_assoc. rewrite <- (m_assoc y). rewrite D, m_1l. auto.
Qed.
Lemma unitary_C (x : matrix) : unitary n x -> unitary n (mC x).
Proof. intros [A B]. split; rewrite <- mC_I; [rewrite <- A|rewrite <- B]; rewrite mC_mul; reflexivity. Qed.
Lemma unitary_T (x : matrix) : unitary n x -> unitary n (mT x).
Proof.
  intros [A B]. split.
  - rewrite <- mT_I, <- B, mT_mul. reflexivity.
  - rewrite <- mT_I, <- A, mT_mul. reflexivity.
Qed.
Lemma unitary_N (x : matrix) : unitary n x -> unitary n (mN x).
Proof. intros [A B]. split; rewrite mC_N, mT_N, mN_l, mN_r, mNN; auto. Qed.

(** sigma_y *)
Hypothesis Hn : (n mod 2 = 0)%nat.
Lemma Y_mono : @mono R n Y idx_x (fun i => - im * tau_z R i). Proof. apply mono_ny; auto. Qed.
Lemma Y_mul_l x i j : (i < n)%nat -> (Y ** x) i j = - im * tau_z R i * x (idx_x i) j.
Proof. intros Hi. unfold mmul. apply (mono_sum (fun k => x k j) Y_mono Hi). Qed.
Lemma Y_T : mT Y == mN Y.
Proof.
  intros i j Hi Hj. unfold mT, mN. destruct (Y_mono Hj) as [Fj Ej]. destruct (Y_mono Hi) as [Fi Ei]. rewrite Ei, Ej by auto.
  destruct (Nat.eqb_spec i (idx_x j)) as [->|N].
  - rewrite idx_x_2, Nat.eqb_refl, tau_z_idx. ring.
  - destruct (Nat.eqb_spec j (idx_x i)) as [->|N']; [exfalso; apply N; rewrite idx_x_2; auto|ring].
Qed.
Lemma Y_C : mC Y == mN Y.
Proof.
  intros i j Hi Hj. unfold mC, mN. destruct (Y_mono Hi) as [Fi Ei]. rewrite Ei by auto.
  destruct (j =? idx_x i)%nat; [rewrite rconj_mul, conj_opp, rconj_i, tau_z_conj; ring|rewrite conj0; ring].
Qed.
Lemma Y_Y : Y ** Y == I.
Proof.
  intros i j Hi Hj. rewrite Y_mul_l by auto. destruct (Y_mono Hi) as [Fi _]. destruct (Y_mono Fi) as [_ E]. rewrite E by auto. unfold unit_matrix.
  rewrite idx_x_2, (Nat.eqb_sym j i). pose proof (ri_sq R) as IM. pose proof (tau_z_sq R i) as T. rewrite tau_z_idx. destruct (i =? j)%nat; [ring [IM T]|ring].
Qed.
Lemma Y_unitary : unitary n Y.
Proof.
  split; rewrite Y_C, mT_N, Y_T, mNN; apply Y_Y.
Qed.
Lemma Y_mul_r x i j : (j < n)%nat -> (x ** Y) i j = im * tau_z R j * x i (idx_x j).
Proof.
  intros Hj. unfold mmul. destruct (Y_mono Hj) as [Fj _].
  rewrite <- (@sum_delta R n (idx_x j) (fun k => im * tau_z R j * x i k) Fj). apply sum_ext. intros k Hk. destruct (Y_mono Hk) as [_ E]. rewrite E by auto.
  destruct (Nat.eqb_spec k (idx_x j)) as [->|N].
  - rewrite idx_x_2, Nat.eqb_refl, tau_z_idx. ring.
  - destruct (Nat.eqb_spec j (idx_x k)) as [->|N']; [exfalso; apply N; rewrite idx_x_2; auto|ring].
Qed.
Lemma flip_Y x : flip_tau R x == Y ** mC x ** Y.
Proof.
  intros i j Hi Hj. rewrite Y_mul_r, Y_mul_l by auto. unfold flip_tau, mC. pose proof (ri_sq R) as IM. ring [IM].
Qed.
Lemma J_mul x y : Y ** mC (x ** y) ** Y == (Y ** mC x ** Y) ** (Y ** mC y ** Y).
Proof. rewrite mC_mul. rewrite !m_assoc. rewrite <- (m_assoc Y Y). rewrite Y_Y, m_1l. reflexivity. Qed.
Lemma unitary_J (x : matrix) : unitary n x -> unitary n (Y ** mC x ** Y).
Proof. intros U. apply unitary_mul; [apply unitary_mul; [apply Y_unitary|apply unitary_C; auto]|apply Y_unitary]. Qed.
End Alg.
