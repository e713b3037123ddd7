(** * Proofs for C52: discrete orthogonality, FFT = direct evaluation. *)
From Coq Require Import Reals List Arith Lia Lra.
From Verif Require Import KpmReal.
Import ListNotations.
Set Implicit Arguments.
Local Open Scope R_scope.

Lemma INR_0 : INR 0 = 0. Proof. reflexivity. Qed.
Lemma INR_1 : INR 1 = 1. Proof. reflexivity. Qed.
Lemma Rsum_ext n f g : (forall i, (i < n)%nat -> f i = g i) -> Rsum n f = Rsum n g.
Proof. induction n as [|n IH]; intros E; cbn; [auto|]. rewrite IH, E; auto. Qed.
Lemma Rsum_0 n : Rsum n (fun _ => 0) = 0. Proof. induction n as [|n IH]; cbn; [|rewrite IH]; lra. Qed.
Lemma Rsum_plus n f g : Rsum n (fun i => f i + g i) = Rsum n f + Rsum n g. Proof. induction n as [|n IH]; cbn; [|rewrite IH]; lra. Qed.
Lemma Rsum_mult_l n c f : Rsum n (fun i => c * f i) = c * Rsum n f. Proof. induction n as [|n IH]; cbn; [|rewrite IH]; lra. Qed.
Lemma Rsum_mult_r n c f : Rsum n (fun i => f i * c) = Rsum n f * c. Proof. induction n as [|n IH]; cbn; [|rewrite IH]; lra. Qed.
Lemma Rsum_const n c : Rsum n (fun _ => c) = INR n * c. Proof. induction n as [|n IH]; [cbn; lra|]. rewrite S_INR. cbn [Rsum]. rewrite IH. lra. Qed.
Lemma Rsum_head n f : Rsum (S n) f = f O + Rsum n (fun i => f (S i)).
Proof. induction n as [|n IH]; cbn in *; [lra|]. rewrite IH. lra. Qed.
Lemma Rsum_swap n m f : Rsum n (fun i => Rsum m (fun j => f i j)) = Rsum m (fun j => Rsum n (fun i => f i j)).
Proof. induction n as [|n IH]; cbn; [rewrite Rsum_0; auto|]. rewrite IH, <- Rsum_plus. reflexivity. Qed.
Lemma Rsum_rev n f : Rsum n (fun i => f (n - 1 - i)%nat) = Rsum n f.
Proof.
  induction n as [|n IH]; auto. rewrite Rsum_head. cbn [Rsum]. rewrite <- IH. rewrite Rplus_comm. f_equal; [|f_equal; lia].
  apply Rsum_ext. intros i Hi. f_equal. lia.
Qed.
Lemma Rsum_trunc n m f : (m <= n)%nat -> (forall i, (m <= i)%nat -> (i < n)%nat -> f i = 0) -> Rsum n f = Rsum m f.
Proof.
  induction n as [|n IH]; intros Hm Hf; [replace m with O by lia; auto|]. destruct (Nat.eq_dec m (S n)) as [->|]; auto.
  cbn. rewrite IH, Hf by (auto; lia). lra.
Qed.
Lemma Rsum_delta n k f : (k < n)%nat -> Rsum n (fun i => if (i =? k)%nat then f i else 0) = f k.
Proof.
  induction n as [|n IH]; intros Hk; [lia|]. cbn. destruct (Nat.eqb_spec n k) as [->|Hne].
  - rewrite (@Rsum_ext k _ (fun _ => 0)), Rsum_0; [lra|]. intros i Hi. rewrite (proj2 (Nat.eqb_neq i k)); auto. lia.
  - rewrite IH by lia. lra.
Qed.

(** ** Chebyshev polynomials *)
Lemma Tch_SS n x : Tch (S (S n)) x = 2 * x * Tch (S n) x - Tch n x. Proof. reflexivity. Qed.
Lemma Tch_cos n t : Tch n (cos t) = cos (INR n * t).
Proof.
  assert (P : Tch n (cos t) = cos (INR n * t) /\ Tch (S n) (cos t) = cos (INR (S n) * t)); [|apply P].
  induction n as [|n [I1 I2]].
  - cbn [Tch]. rewrite INR_0, INR_1, Rmult_0_l, Rmult_1_l, cos_0. auto.
  - split; auto. rewrite Tch_SS, I1, I2. rewrite !S_INR.
    replace ((INR n + 1 + 1) * t) with ((INR n + 1) * t + t) by ring. replace (INR n * t) with ((INR n + 1) * t - t) by ring.
    rewrite cos_plus, cos_minus. ring.
Qed.
(** ** The nodes *)
Definition phi (N k : nat) : R := PI * (2 * INR k + 1) / (2 * INR N).
Lemma INR_pos N : (0 < N)%nat -> 0 < INR N. Proof. apply lt_0_INR. Qed.
Lemma node_phi N j : (j < N)%nat -> node_angle N j = phi N (N - 1 - j).
Proof.
  intros Hj. unfold node_angle, phi. assert (0 < INR N) by (apply INR_pos; lia). rewrite !minus_INR, INR_1 by lia. field. lra.
Qed.
Lemma telescope N x : 2 * sin (x / 2) * Rsum N (fun k => cos (x * (2 * INR k + 1) / 2)) = sin (x * INR N).
Proof.
  induction N as [|N IH]; [cbn [Rsum]; rewrite INR_0, !Rmult_0_r, sin_0; auto|]. cbn [Rsum]. rewrite Rmult_plus_distr_l, IH, S_INR.
  replace (x * (INR N + 1)) with (x * (2 * INR N + 1) / 2 + x / 2) by field. replace (x * INR N) with (x * (2 * INR N + 1) / 2 - x / 2) by field.
  rewrite sin_plus, sin_minus. ring.
Qed.
Lemma sum_cos_0 N n : (0 < n)%nat -> (n < 2 * N)%nat -> Rsum N (fun k => cos (INR n * phi N k)) = 0.
Proof.
  intros Hn HN. assert (HNp : 0 < INR N) by (apply INR_pos; lia). assert (Hnp : 0 < INR n) by (apply INR_pos; lia).
  assert (Hlt : INR n < 2 * INR N) by (replace 2 with (INR 2) by (cbn; lra); rewrite <- mult_INR; apply lt_INR; lia).
  pose proof (telescope N (INR n * PI / INR N)) as T. 
  assert (E : Rsum N (fun k => cos (INR n * PI / INR N * (2 * INR k + 1) / 2)) = Rsum N (fun k => cos (INR n * phi N k))).
  { apply Rsum_ext. intros k _. f_equal. unfold phi. field. lra. }
  rewrite E in T. clear E. replace (INR n * PI / INR N * INR N) with (INR n * PI) in T by (field; lra).
  assert (S0 : sin (INR n * PI) = 0). { apply sin_eq_0_1. exists (Z.of_nat n). rewrite <- INR_IZR_INZ. reflexivity. }
  rewrite S0 in T. apply Rmult_integral in T. destruct T as [T|T]; auto. exfalso.
  assert (0 < sin (INR n * PI / INR N / 2)); [|lra]. pose proof PI_RGT_0. apply sin_gt_0.
  - apply Rmult_lt_0_compat; [|lra]. apply Rdiv_lt_0_compat; auto. apply Rmult_lt_0_compat; auto.
  - replace (INR n * PI / INR N / 2) with (PI * (INR n / (2 * INR N))) by (field; lra). rewrite <- (Rmult_1_r PI) at 2. apply Rmult_lt_compat_l; auto.
    apply (Rmult_lt_reg_r (2 * INR N)); [lra|]. unfold Rdiv. rewrite Rmult_assoc, Rinv_l by lra. lra.
Qed.
Lemma cos_cos x y : cos x * cos y = (cos (x + y) + cos (x - y)) / 2.
Proof. rewrite cos_plus, cos_minus. field. Qed.
(** discrete orthogonality *)
Lemma orthogonal N m n : (m + n < 2 * N)%nat -> Rsum N (fun k => cos (INR m * phi N k) * cos (INR n * phi N k)) = if (m =? n)%nat then (if (m =? 0)%nat then INR N else INR N / 2) else 0.
Proof.
  intros Hmn.
  assert (P : forall m n, (n <= m)%nat -> (m + n < 2 * N)%nat -> Rsum N (fun k => cos (INR m * phi N k) * cos (INR n * phi N k)) = if (m =? n)%nat then (if (m =? 0)%nat then INR N else INR N / 2) else 0).
  { clear. intros m n Hle Hmn.
    assert (E : Rsum N (fun k => cos (INR m * phi N k) * cos (INR n * phi N k)) = (Rsum N (fun k => cos (INR (m + n) * phi N k)) + Rsum N (fun k => cos (INR (m - n) * phi N k))) * / 2).
    { rewrite <- Rsum_plus, <- Rsum_mult_r. apply Rsum_ext. intros k _. rewrite cos_cos, plus_INR, minus_INR by auto. unfold Rdiv. f_equal. f_equal; f_equal; ring. }
    rewrite E. destruct (Nat.eqb_spec m n) as [->|Hne].
    - rewrite Nat.sub_diag. assert (E0 : Rsum N (fun k => cos (INR 0 * phi N k)) = INR N).
      { rewrite (@Rsum_ext N _ (fun _ => 1)); [rewrite Rsum_const; lra|]. intros. rewrite INR_0, Rmult_0_l, cos_0. auto. }
      rewrite E0. destruct (Nat.eqb_spec n 0) as [->|Hn0].
      + cbn [Nat.add]. rewrite E0. field.
      + rewrite sum_cos_0 by lia. field.
    - rewrite !sum_cos_0 by lia. field. }
  destruct (Nat.le_ge_cases n m) as [H|H]; [apply P; auto|]. rewrite (@Rsum_ext N _ (fun k => cos (INR n * phi N k) * cos (INR m * phi N k))) by (intros; ring).
  rewrite P by lia. rewrite (Nat.eqb_sym n m). destruct (Nat.eqb_spec m n) as [->|]; auto.
Qed.
(** ** The Fourier transform *)
Definition coeff (m : nat -> R) (n : nat) : R := match n with O => m O | S _ => 2 * m n end.
Lemma dct3_spec N x k : (0 < N)%nat -> dct3 N x k = Rsum N (fun n => coeff x n * cos (INR n * phi N k)).
Proof.
  intros HN. assert (0 < INR N) by (apply INR_pos; auto). unfold dct3. destruct N as [|N]; [lia|]. rewrite Rsum_head. cbn [coeff]. rewrite INR_0, Rmult_0_l, cos_0, Rmult_1_r. f_equal.
  replace (S N - 1)%nat with N by lia. rewrite <- Rsum_mult_l. apply Rsum_ext. intros i _. rewrite <- Rmult_assoc. f_equal. f_equal. unfold phi. field. lra.
Qed.
Lemma gammas_spec nm m j : (j < SAMPLING * nm)%nat -> gammas nm m j = Rsum nm (fun n => coeff m n * cos (INR n * node_angle (SAMPLING * nm) j)).
Proof.
  intros Hj. unfold SAMPLING in *. unfold gammas. rewrite dct3_spec by (unfold SAMPLING; lia). rewrite node_phi by auto. unfold SAMPLING.
  rewrite (@Rsum_trunc (2 * nm) nm) by (try lia; intros i H1 H2; unfold coeff, moments_ext; destruct i; rewrite (proj2 (Nat.ltb_ge _ _)) by auto; ring).
  apply Rsum_ext. intros n Hn. f_equal. unfold coeff, moments_ext. destruct n; rewrite (proj2 (Nat.ltb_lt _ _)) by auto; auto.
Qed.
Lemma gammas_cheb nm m j : (j < SAMPLING * nm)%nat -> gammas nm m j = chebval (node (SAMPLING * nm) j) nm (coeff m).
Proof. intros Hj. rewrite gammas_spec by auto. apply Rsum_ext. intros n _. unfold node. rewrite Tch_cos. reflexivity. Qed.
Lemma node_range N j : (j < N)%nat -> -1 < node N j < 1.
Proof.
  intros Hj. assert (HN : 0 < INR N) by (apply INR_pos; lia). unfold node. rewrite node_phi by auto. pose proof PI_RGT_0. pose proof (pos_INR (N - 1 - j)).
  assert (Hp : 0 < phi N (N - 1 - j)). { unfold phi. apply Rdiv_lt_0_compat; [apply Rmult_lt_0_compat|]; lra. }
  assert (Hq : phi N (N - 1 - j) < PI).
  { unfold phi. assert (INR (N - 1 - j) + 1 <= INR N) by (rewrite <- S_INR; apply le_INR; lia). apply (Rmult_lt_reg_r (2 * INR N)); [lra|]. unfold Rdiv. rewrite Rmult_assoc, Rinv_l by lra. rewrite Rmult_1_r. apply Rmult_lt_compat_l; lra. }
  split; [rewrite <- cos_PI|rewrite <- cos_0]; apply cos_decreasing_1; lra.
Qed.
