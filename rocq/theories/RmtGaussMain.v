(** * Proofs for C32: the symmetries of the Gaussian ensembles, per class. *)
From Coq Require Import List Bool Arith ZArith Ring Lia.
From Verif Require Import StarRing KpmCorrSpec RmtModel RmtSpec RmtProofs RmtGauss.
Import ListNotations.
Set Implicit Arguments.

Section P.
Variable R : StarRing.
Add Ring RringRp : (r_theory R).
Notation matrix := (nat -> nat -> R).
Local Open Scope star_scope.
Notation "0" := (r0 R) : star_scope.
Notation "1" := (r1 R) : star_scope.
Notation conj := (rconj R).
Notation im := (ri R).
Variables (n : nat) (s : sym) (g1 g2 : matrix) (factor half isqrt2 : R).
Hypothesis R1 : forall i j, conj (g1 i j) = g1 i j.
Hypothesis R2 : forall i j, conj (g2 i j) = g2 i j.
Hypothesis Rf : conj factor = factor.
Hypothesis Rh : conj half = half.
Hypothesis Rs : conj isqrt2 = isqrt2.
Variable h : matrix.
Hypothesis H : gaussian n s g1 g2 factor half isqrt2 = inl h.

Lemma A1 : @mono R n (kron [[1]]) (fun i => i) (fun i => 1 * 1). Proof. eapply mono_ext; [apply mono1|]. intros; cbv beta; ring. Qed.
Lemma Ax : (n mod 2 = 0)%nat -> @mono R n (kron [[0; 1]; [1; 0]]) idx_x (fun i => 1 * 1). Proof. intros. eapply mono_ext; [apply mono_x; auto|]. intros; cbv beta; ring. Qed.
Lemma Az : (n mod 2 = 0)%nat -> @mono R n (kron [[1; 0]; [0; - (1)]]) (fun i => i) (fun i => 1 * tau_z R i). Proof. intros. eapply mono_ext; [apply mono_z; auto|]. intros; cbv beta; ring. Qed.
Lemma Ay : (n mod 2 = 0)%nat -> @mono R n (kron [[0; im]; [- im; 0]]) idx_x (fun i => im * tau_z R i). Proof. intros. apply mono_y; auto. Qed.
Lemma Any : (n mod 2 = 0)%nat -> @mono R n (kron [[0; - im]; [im; 0]]) idx_x (fun i => - im * tau_z R i). Proof. intros. apply mono_ny; auto. Qed.
Lemma Asy : (n mod 4 = 0)%nat -> @mono R n (kron [[0; 0; im; 0]; [0; 0; 0; im]; [- im; 0; 0; 0]; [0; - im; 0; 0]]) idx_sigma_x (fun i => im * sigma_z R i). Proof. intros. apply mono_sy; auto. Qed.
Lemma Aszy : (n mod 4 = 0)%nat -> @mono R n (kron [[0; 0; im; 0]; [0; 0; 0; - im]; [- im; 0; 0; 0]; [0; im; 0; 0]]) idx_sigma_x (fun i => im * (sigma_z R i * tau_z R i)).
Proof. intros. eapply mono_ext; [apply mono_szy; auto|]. intros; cbv beta; ring. Qed.

Lemma c1 (i : nat) : conj 1 = 1. Proof. apply conj1. Qed.
Lemma one2 : (1 : R) * 1 = 1. Proof. ring. Qed.
Lemma one1 : (1 : R) * conj 1 = 1. Proof. rewrite conj1. ring. Qed.
Lemma st_conj i : conj (sigma_z R i * tau_z R i) = sigma_z R i * tau_z R i. Proof. rewrite rconj_mul, sigma_z_conj, tau_z_conj. reflexivity. Qed.
Lemma st_sq i : (sigma_z R i * tau_z R i) * (sigma_z R i * tau_z R i) = 1. Proof. pose proof (sigma_z_sq R i) as E1. pose proof (tau_z_sq R i) as E2. ring [E1 E2]. Qed.
Lemma st_idx i : (sigma_z R i * tau_z R i) * (sigma_z R (idx_sigma_x i) * tau_z R (idx_sigma_x i)) = - (1).
Proof. rewrite sigma_z_idx, tau_z_s. pose proof (st_sq i) as E. pose proof (sigma_z_sq R i) as E1. pose proof (tau_z_sq R i) as E2. ring [E1 E2]. Qed.
Lemma t_idx i : tau_z R i * tau_z R (idx_x i) = - (1). Proof. rewrite tau_z_idx. pose proof (tau_z_sq R i) as E2. ring [E2]. Qed.
Lemma s_idx i : sigma_z R i * sigma_z R (idx_sigma_x i) = - (1). Proof. rewrite sigma_z_idx. pose proof (sigma_z_sq R i) as E2. ring [E2]. Qed.

Lemma gauss_T (m : list (list R)) : h_t_matrix s = Some m \/ doc_t s = Some m -> @anti_ok R n m (sign (az_t s)) h h.
Proof.
  assert (Ch := fun Hc => @gauss_chiral R n g1 g2 factor half isqrt2 R1 R2 s h H Hc).
  assert (Re := fun Hs => @gauss_real R n g1 g2 factor half isqrt2 R1 Rf s h H Hs).
  assert (Im := fun Hs => @gauss_imag R n g1 g2 factor half isqrt2 R1 Rf Rh s h H Hs).
  assert (Ta := fun Hs => @gauss_tau R n g1 g2 factor half isqrt2 R1 R2 Rf Rh Rs s h H Hs).
  assert (Nt := fun Hs => @gauss_ntau R n g1 g2 factor half isqrt2 R1 R2 Rf Rh Rs s h H Hs).
  assert (Sg := fun Hs => @gauss_sigma R n g1 g2 factor half isqrt2 R1 R2 Rf Rh Rs s h H Hs).
  destruct (@gauss_sizes R n g1 g2 factor half isqrt2 s h H) as [S2 S4].
  clear H. intros Hm. destruct s; destruct Hm as [Hm|Hm]; try discriminate Hm; injection Hm as <-; cbn [az_t sign]; try specialize (S2 eq_refl); try specialize (S4 eq_refl).
  (* AI *)
  1, 2: apply (@anti_ok_i R n _ _ h h 1 (fun _ => 1) (fun i => i) A1); auto using one1, one2, c1; intros i j Hi Hj; rewrite <- (Re eq_refl); ring.
  (* AII *)
  1: apply (@anti_ok_i R n _ _ h h im (tau_z R) idx_x (Ay S2)); auto using one1, one2, c1, st_conj, st_sq, st_idx, t_idx, s_idx, idx_x_2, im_conj, tau_z_conj, tau_z_sq.
  1: apply (@anti_ok_i R n _ _ h h (- im) (tau_z R) idx_x (Any S2)); auto using one1, one2, c1, st_conj, st_sq, st_idx, t_idx, s_idx, idx_x_2, nim_conj, tau_z_conj, tau_z_sq.
  (* BDI *)
  1, 2: apply (@anti_ok_i R n _ _ h h 1 (tau_z R) (fun i => i) (Az S2)); auto using one1, one2, t_idx, tau_z_conj, tau_z_sq; intros i j Hi Hj; rewrite (Ch eq_refl i j), (Im (or_intror eq_refl) i j) at 1; ring.
  (* CII *)
  1: apply (@anti_ok_i R n _ _ h h im (sigma_z R) idx_sigma_x (Asy S4)); auto using one1, one2, c1, st_conj, st_sq, st_idx, t_idx, s_idx, idx_s_2, im_conj, sigma_z_conj, sigma_z_sq.
  1: apply (@anti_ok_i R n _ _ h h (- im) (sigma_z R) idx_sigma_x (mono_nsy R S4)); auto using one1, one2, c1, st_conj, st_sq, st_idx, t_idx, s_idx, idx_s_2, nim_conj, sigma_z_conj, sigma_z_sq.
  (* DIII *)
  1: apply (@anti_ok_i R n _ _ h h im (tau_z R) idx_x (Ay S2)); auto using one1, one2, c1, st_conj, st_sq, st_idx, t_idx, s_idx, idx_x_2, im_conj, tau_z_conj, tau_z_sq.
  1: apply (@anti_ok_i R n _ _ h h (- im) (tau_z R) idx_x (Any S2)); auto using one1, one2, c1, st_conj, st_sq, st_idx, t_idx, s_idx, idx_x_2, nim_conj, tau_z_conj, tau_z_sq.
  (* CI *)
  all: apply (@anti_ok_i R n _ _ h h 1 (fun _ => 1) idx_x (Ax S2)); auto using one1, one2, c1, st_conj, st_sq, st_idx, t_idx, s_idx, idx_x_2; intros i j Hi Hj; rewrite (Ch eq_refl i j), (Nt (or_intror eq_refl) i j) at 1;
    pose proof (tau_z_sq R i) as Ti; pose proof (tau_z_sq R j) as Tj; ring [Ti Tj].
Qed.
Lemma gauss_P (m : list (list R)) : h_p_matrix s = Some m \/ doc_p s = Some m -> @anti_ok R n m (sign (az_p s)) h (mN h).
Proof.
  assert (Ch := fun Hc => @gauss_chiral R n g1 g2 factor half isqrt2 R1 R2 s h H Hc).
  assert (Im := fun Hs => @gauss_imag R n g1 g2 factor half isqrt2 R1 Rf Rh s h H Hs).
  assert (Ta := fun Hs => @gauss_tau R n g1 g2 factor half isqrt2 R1 R2 Rf Rh Rs s h H Hs).
  assert (Nt := fun Hs => @gauss_ntau R n g1 g2 factor half isqrt2 R1 R2 Rf Rh Rs s h H Hs).
  assert (Sg := fun Hs => @gauss_sigma R n g1 g2 factor half isqrt2 R1 R2 Rf Rh Rs s h H Hs).
  destruct (@gauss_sizes R n g1 g2 factor half isqrt2 s h H) as [S2 S4].
  clear H. intros Hm. destruct s; destruct Hm as [Hm|Hm]; try discriminate Hm; injection Hm as <-; cbn [az_p sign]; try specialize (S2 eq_refl); try specialize (S4 eq_refl).
  (* BDI *)
  1, 2: apply (@anti_ok_i R n _ _ h (mN h) 1 (fun _ => 1) (fun i => i) A1); auto using one1, one2, c1; intros i j Hi Hj; unfold mN; rewrite (Im (or_intror eq_refl) i j) at 1; ring.
  (* CII *)
  1: apply (@anti_ok_i R n _ _ h (mN h) im (fun i => sigma_z R i * tau_z R i) idx_sigma_x (Aszy S4)); auto using one1, one2, c1, st_conj, st_sq, st_idx, t_idx, s_idx, idx_s_2, im_conj.
  1: intros i j Hi Hj; unfold mN; rewrite (Ch eq_refl i j), (Sg eq_refl i j) at 1; ring.
  1: apply (@anti_ok_i R n _ _ h (mN h) (- im) (fun i => sigma_z R i * tau_z R i) idx_sigma_x (mono_nszy R S4)); auto using one1, one2, c1, st_conj, st_sq, st_idx, t_idx, s_idx, idx_s_2, nim_conj.
  1: intros i j Hi Hj; unfold mN; rewrite (Ch eq_refl i j), (Sg eq_refl i j) at 1; ring.
  (* D *)
  1, 2: apply (@anti_ok_i R n _ _ h (mN h) 1 (fun _ => 1) (fun i => i) A1); auto using one1, one2, c1; intros i j Hi Hj; unfold mN; rewrite (Im (or_introl eq_refl) i j) at 1; ring.
  (* DIII *)
  1, 2: apply (@anti_ok_i R n _ _ h (mN h) 1 (fun _ => 1) idx_x (Ax S2)); auto using one1, one2, c1, st_conj, st_sq, st_idx, t_idx, s_idx, idx_x_2; intros i j Hi Hj; unfold mN; rewrite (Ch eq_refl i j), (Ta (or_intror eq_refl) i j) at 1;
    pose proof (tau_z_sq R i) as Ti; pose proof (tau_z_sq R j) as Tj; ring [Ti Tj].
  (* C, CI *)
  1, 3: apply (@anti_ok_i R n _ _ h (mN h) im (tau_z R) idx_x (Ay S2)); auto using one1, one2, c1, st_conj, st_sq, st_idx, t_idx, s_idx, idx_x_2, im_conj, tau_z_conj, tau_z_sq; intros i j Hi Hj; unfold mN; rewrite (Nt ltac:(auto) i j) at 1; ring.
  all: apply (@anti_ok_i R n _ _ h (mN h) (- im) (tau_z R) idx_x (Any S2)); auto using one1, one2, c1, st_conj, st_sq, st_idx, t_idx, s_idx, idx_x_2, nim_conj, tau_z_conj, tau_z_sq; intros i j Hi Hj; unfold mN; rewrite (Nt ltac:(auto) i j) at 1; ring.
Qed.
Lemma gauss_C : doc_c s = true -> meq n h (mN (mmul n (mmul n pauli_z h) pauli_z)).
Proof.
  intros Hc. assert (Hc' : has_c s = true) by (destruct s; auto; discriminate Hc).
  assert (Ch := @gauss_chiral R n g1 g2 factor half isqrt2 R1 R2 s h H Hc').
  destruct (@gauss_sizes R n g1 g2 factor half isqrt2 s h H) as [S2 _]. rewrite Hc' in S2. specialize (S2 eq_refl).
  intros i j Hi Hj. unfold mN. rewrite (Ch i j) at 1. f_equal. unfold mmul.
  pose proof (Az S2) as M.
  transitivity (sum R n (fun k => if (k =? j)%nat then tau_z R i * h i k * tau_z R k else 0)); [rewrite (@sum_delta R n j (fun k => tau_z R i * h i k * tau_z R k) Hj); reflexivity|].
  apply sum_ext. intros k Hk. unfold pauli_z. rewrite (@mono_sum _ n _ _ _ (fun l => h l k) i M Hi).
  destruct (M k Hk) as [_ E]. rewrite E by auto. rewrite (Nat.eqb_sym j k). destruct (k =? j)%nat; ring.
Qed.
End P.
