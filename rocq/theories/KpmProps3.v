(** * C52: spectral densities over the reals (uses the axioms of the standard
    library's real numbers). *)
From Coq Require Import Reals List Arith Lia Lra.
From Verif Require Import KpmReal KpmRealProofs.
Import ListNotations.
Set Implicit Arguments.
Local Open Scope R_scope.

(** ** The densities computed by Fourier transform are those of rho(energy) *)
Theorem C52_fft a b nm m j : a <> 0 -> (j < 2 * nm)%nat ->
  density_at a b nm m (energies a b nm j) = densities nm m j.
Proof.
  intros Ha Hj. unfold density_at, energies, densities. cbv zeta. change (SAMPLING * nm)%nat with (2 * nm)%nat.
  replace ((a * node (2 * nm) j + b - b) / a) with (node (2 * nm) j) by (field; auto).
  pose proof (node_range Hj) as [H1 H2]. rewrite (@gammas_cheb nm m j) by auto. change (SAMPLING * nm)%nat with (2 * nm)%nat. f_equal.
  rewrite Rmult_assoc, <- sqrt_mult by lra. f_equal. f_equal. ring.
Qed.
(** and both are the Chebyshev series of the moments *)
Theorem C52_series nm m j : (j < 2 * nm)%nat ->
  densities nm m j = (m O + 2 * Rsum (nm - 1) (fun n => m (S n) * Tch (S n) (node (2 * nm) j))) / (PI * sqrt (1 - node (2 * nm) j ^ 2)).
Proof.
  intros Hj. unfold densities. change (SAMPLING * nm)%nat with (2 * nm)%nat. rewrite (@gammas_cheb nm m j) by auto. change (SAMPLING * nm)%nat with (2 * nm)%nat. f_equal.
  unfold chebval. destruct nm as [|k]; [lia|]. rewrite Rsum_head. cbn [coeff Tch]. rewrite Rmult_1_r. f_equal. replace (S k - 1)%nat with k by lia.
  rewrite <- Rsum_mult_l. apply Rsum_ext. intros i _. cbn [coeff]. ring.
Qed.

(** ** integrate: Gauss-Chebyshev quadrature is exact on polynomials *)
Theorem C52_integrate_polynomial a b nm m K c : a <> 0 -> (0 < nm)%nat -> (K <= 3 * nm)%nat ->
  integrate a b nm m (Some (fun E => Rsum K (fun k => c k * Tch k ((E - b) / a)))) =
  a * Rsum K (fun k => c k * (if (k <? nm)%nat then m k else 0)).
Proof.
  intros Ha Hnm HK. unfold integrate. cbv zeta. set (N := (SAMPLING * nm)%nat). assert (EN : N = (2 * nm)%nat) by reflexivity.
  assert (HN : INR N = 2 * INR nm) by (rewrite EN, mult_INR; cbn [INR]; ring). assert (Hnp : 0 < INR nm) by (apply INR_pos; auto).
  assert (E : Rsum N (fun j => gammas nm m j * Rsum K (fun k => c k * Tch k ((energies a b nm j - b) / a))) =
     Rsum K (fun k => c k * (Rsum nm (fun n => coeff m n * Rsum N (fun j => cos (INR k * phi N j) * cos (INR n * phi N j)))))).
  { rewrite <- (Rsum_rev N). transitivity (Rsum N (fun j => Rsum K (fun k => Rsum nm (fun n => c k * (coeff m n * (cos (INR k * phi N j) * cos (INR n * phi N j))))))).
    - apply Rsum_ext. intros j Hj. rewrite gammas_spec by (fold N; lia). fold N. rewrite node_phi by lia. replace (N - 1 - (N - 1 - j))%nat with j by lia.
      unfold energies. fold N. replace ((a * node N (N - 1 - j) + b - b) / a) with (node N (N - 1 - j)) by (field; auto).
      rewrite <- Rsum_mult_l. apply Rsum_ext. intros k _. unfold node. rewrite Tch_cos, node_phi by lia. replace (N - 1 - (N - 1 - j))%nat with j by lia.
      rewrite <- Rsum_mult_r. apply Rsum_ext. intros n _. ring.
    - rewrite Rsum_swap. apply Rsum_ext. intros k _. rewrite Rsum_swap, <- Rsum_mult_l. apply Rsum_ext. intros n _. rewrite <- !Rsum_mult_l. reflexivity. }
  rewrite E. rewrite <- !Rsum_mult_l. apply Rsum_ext. intros k Hk.
  assert (E2 : Rsum nm (fun n => coeff m n * Rsum N (fun j => cos (INR k * phi N j) * cos (INR n * phi N j))) = Rsum nm (fun n => if (n =? k)%nat then INR N * m n else 0)).
  { apply Rsum_ext. intros n Hn. rewrite orthogonal by lia. rewrite (Nat.eqb_sym n k). destruct (Nat.eqb_spec k n) as [->|]; [|ring].
    destruct n as [|n]; cbn [Nat.eqb coeff]; [ring|field]. }
  rewrite E2. clear E E2. destruct (Nat.ltb_spec k nm) as [H|H].
  - rewrite (@Rsum_delta nm k (fun n => INR N * m n)) by auto. rewrite HN. field. lra.
  - rewrite (@Rsum_ext nm _ (fun _ => 0)), Rsum_0; [ring|]. intros n Hn. rewrite (proj2 (Nat.eqb_neq n k)); auto. lia.
Qed.
(** without distribution function: the zeroth moment *)
Theorem C52_integrate a b nm m : a <> 0 -> (0 < nm)%nat -> integrate a b nm m None = a * m O.
Proof.
  intros Ha Hnm. pose proof (@C52_integrate_polynomial a b nm m 1 (fun _ => 1) Ha Hnm ltac:(lia)) as E. cbn [Rsum Tch] in E. rewrite (proj2 (Nat.ltb_lt 0 nm) Hnm) in E.
  transitivity (a * (0 + 1 * m O)); [|ring]. rewrite <- E. unfold integrate. cbv zeta. f_equal. apply Rsum_ext. intros j _. ring.
Qed.
(** ** The kernels leave the zeroth moment alone *)
Theorem C52_jackson nm : jackson nm 0 = 1.
Proof. unfold jackson. pose proof (pos_INR nm). replace (PI * INR 0 / (INR nm + 1)) with 0 by (rewrite INR_0; field; lra). rewrite INR_0, cos_0, sin_0. unfold Rdiv. rewrite Rmult_0_l. field. lra. Qed.
Theorem C52_lorentz l nm : l <> 0 -> (0 < nm)%nat -> lorentz l nm 0 = 1.
Proof.
  intros Hl Hn. unfold lorentz. rewrite INR_0. unfold Rdiv at 2. rewrite Rmult_0_l, Rminus_0_r, Rmult_1_r. unfold Rdiv. apply Rinv_r. unfold sinh. intros E.
  assert (exp l = exp (- l)) by lra. apply exp_inv in H. lra.
Qed.
(** Hence integrate() is the mean of the zeroth moments: <v|v>, or <v|operator|v>. *)
Theorem C52_total a b nm kernel moments : a <> 0 -> (0 < nm)%nat -> kernel O = 1 ->
  integrate a b nm (final_moments a kernel moments) None = fold_right Rplus 0 (map (fun f => f O) moments) / INR (length moments).
Proof.
  intros Ha Hn Hk. rewrite C52_integrate by auto. unfold final_moments. rewrite Hk. set (x := _ / INR _). field. auto.
Qed.

(** ** The scale *)
(** all energies between the bounds are mapped strictly inside (-1, 1) *)
Theorem C52_rescale eps lmin lmax a b E : 0 < eps < 2 -> rescale eps lmin lmax = Some (a, b) -> lmin <= E <= lmax ->
  0 < a /\ -1 < (E - b) / a < 1.
Proof.
  intros He. unfold rescale. destruct (Rle_dec _ _) as [|H]; [discriminate|]. intros [= <- <-] HE.
  assert (Hw : 0 < lmax - lmin). { apply Rnot_le_lt in H. assert (0 <= Rabs (lmax + lmin) * (eps / 2) / 2); [|lra]. pose proof (Rabs_pos (lmax + lmin)). apply Rmult_le_pos; [|lra]. apply Rmult_le_pos; lra. }
  rewrite (Rabs_pos_eq (lmax - lmin)) by lra. assert (Ha : 0 < (lmax - lmin) / (2 - eps)) by (apply Rdiv_lt_0_compat; lra). split; auto.
  set (w := lmax - lmin) in *. assert (Hk : w / 2 < w / (2 - eps)).
  { unfold Rdiv. apply Rmult_lt_compat_l; auto. apply Rinv_lt_contravar; nra. }
  set (a := w / (2 - eps)) in *. split; apply (Rmult_lt_reg_r a); auto; unfold Rdiv; rewrite Rmult_assoc, Rinv_l by lra; unfold w in *; lra.
Qed.
(** the second spectral density of a Correlator has the same scale as the first *)
Theorem C49_rescale eps lmin lmax a b : 0 < eps -> eps <> 2 -> rescale eps lmin lmax = Some (a, b) ->
  rescale eps (fst (corr_bounds eps a b)) (snd (corr_bounds eps a b)) = Some (a, b).
Proof.
  intros He H2. unfold rescale at 1. destruct (Rle_dec _ _) as [|H]; [discriminate|]. intros E. 
  assert (Hw : 0 < lmax - lmin). { apply Rnot_le_lt in H. assert (0 <= Rabs (lmax + lmin) * (eps / 2) / 2); [|lra]. pose proof (Rabs_pos (lmax + lmin)). apply Rmult_le_pos; [|lra]. apply Rmult_le_pos; lra. }
  assert (E1 : fst (corr_bounds eps a b) = lmin /\ snd (corr_bounds eps a b) = lmax).
  { injection E as <- <-. rewrite (Rabs_pos_eq (lmax - lmin)) by lra. unfold corr_bounds. cbn [fst snd]. split; field; lra. }
  destruct E1 as [-> ->]. unfold rescale. destruct (Rle_dec _ _); [contradiction|]. exact E.
Qed.
(** ** Fermi distribution *)
Theorem C52_fermi e mu t f : fermi e mu t = Some f -> 0 <= t /\ 0 <= f <= 1 /\ (e < mu -> 1 / 2 < f) /\ (mu < e -> f < 1 / 2).
Proof.
  unfold fermi. destruct (Rlt_dec t 0) as [|H]; [discriminate|]. apply Rnot_lt_le in H. destruct (Req_EM_T t 0) as [->|Ht]; intros [= <-].
  - destruct (Rlt_dec (e - mu) 0); repeat split; intros; lra.
  - assert (Htp : 0 < t) by lra. set (x := (e - mu) / t). pose proof (exp_pos x).
    assert (Hi : 0 < 1 / (1 + exp x) < 1). { split; [apply Rdiv_lt_0_compat; lra|]. unfold Rdiv. rewrite Rmult_1_l, <- Rinv_1. apply Rinv_lt_contravar; lra. }
    assert (Hx : e - mu = x * t) by (unfold x; field; auto).
    split; auto. split; [lra|]. split; intros Hl.
    + assert (exp x < 1). { rewrite <- exp_0. apply exp_increasing. nra. } unfold Rdiv. rewrite !Rmult_1_l. apply Rinv_lt_contravar; nra.
    + assert (1 < exp x). { rewrite <- exp_0. apply exp_increasing. nra. } unfold Rdiv. rewrite !Rmult_1_l. apply Rinv_lt_contravar; nra.
Qed.
Theorem C52_fermi_refused e mu t : fermi e mu t = None <-> t < 0.
Proof. unfold fermi. destruct (Rlt_dec t 0); [tauto|]. destruct (Req_EM_T t 0); split; try discriminate; lra. Qed.

(** ** Examples *)
Example C52_rescale_nonvacuous : rescale (1 / 2) (-3) 6 = Some (6, 3 / 2).
Proof.
  unfold rescale. destruct (Rle_dec _ _) as [H|H].
  - exfalso. rewrite Rabs_pos_eq in H by lra. lra.
  - rewrite Rabs_pos_eq by lra. f_equal. f_equal; field.
Qed.
(** one moment only: the density is m_0 / (pi sqrt(1 - x^2)) at both nodes *)
Example C52_integrate_nonvacuous : integrate 6 (3 / 2) 2 (fun n => match n with O => 5 | _ => 7 end) (Some (fun E => (E - 3 / 2) / 6)) = 42.
Proof.
  pose proof (@C52_integrate_polynomial 6 (3 / 2) 2 (fun n => match n with O => 5 | _ => 7 end) 2 (fun k => match k with O => 0 | _ => 1 end) ltac:(lra) ltac:(lia) ltac:(lia)) as E.
  cbn [Rsum Nat.ltb Nat.leb] in E. transitivity (6 * (0 + 0 * 5 + 1 * 7)); [|ring]. rewrite <- E. unfold integrate. cbv zeta. f_equal. apply Rsum_ext. intros j _. f_equal. cbn [Tch]. ring.
Qed.
