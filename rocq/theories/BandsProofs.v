(** * Expansion of the Bloch Hamiltonian in the momentum; first-order perturbation. *)
From Coq Require Import Reals List Bool Arith ZArith Lia Lra Psatz Ring.
From Verif Require Import StarRing DiscretizeReal BandsModel BandsSpec BandsLin BandsWeyl.
Import ListNotations.
Set Implicit Arguments.
Local Open Scope R_scope.

Lemma sin_abs_le x : Rabs (sin x) <= Rabs x.
Proof.
  assert (P : forall y, 0 <= y -> Rabs (sin y) <= y).
  { intros y Hy. destruct (Req_dec y 0) as [->|Hne]; [rewrite sin_0, Rabs_R0; lra|]. assert (Hp : 0 < y) by lra. apply Rabs_le. pose proof (sin_lt_x y Hp). pose proof (SIN_bound y). split; [|lra].
    destruct (Rle_dec y PI) as [Q|Q]; [pose proof (sin_ge_0 y Hy Q); lra|]. pose proof PI2_1. lra. }
  unfold Rabs at 2. destruct (Rcase_abs x) as [H|H].
  - replace (sin x) with (- sin (- x)) by (rewrite sin_neg; ring). rewrite Rabs_Ropp. apply P. lra.
  - apply P. lra.
Qed.
Lemma cos_bound2 x : 0 <= 1 - cos x <= x * x / 2.
Proof.
  replace (cos x) with (cos (2 * (x / 2))) by (f_equal; field). rewrite cos_2a_sin. pose proof (sin_abs_le (x / 2)) as H. unfold Rabs in H. destruct (Rcase_abs _), (Rcase_abs _); split; nra.
Qed.
Lemma sin_bound2 x : Rabs x <= 1 -> Rabs (x - sin x) <= x * x / 2.
Proof.
  intros Hx.
  assert (P : forall y, 0 <= y <= 1 -> 0 <= y - sin y <= y * y / 2).
  { intros y [Hy1 Hy2]. destruct (Req_dec y 0) as [->|Hne]; [rewrite sin_0; lra|].
    destruct (MVT_cor2 (fun z => z - sin z) (fun z => 1 - cos z) 0 y ltac:(lra)) as (c & Hc & Hc2).
    - intros z _. apply derivable_pt_lim_minus; [apply derivable_pt_lim_id|apply derivable_pt_lim_sin].
    - rewrite sin_0 in Hc. pose proof (cos_bound2 c). assert (c * c <= y * 1) by (apply Rmult_le_compat; lra). split; nra. }
  unfold Rabs in *. destruct (Rcase_abs x) as [H|H].
  - pose proof (P (- x) ltac:(lra)) as Q. rewrite sin_neg in Q. destruct (Rcase_abs _); lra.
  - pose proof (P x ltac:(lra)). destruct (Rcase_abs _); lra.
Qed.
(** exp(-i t) = 1 - i t + rho *)
Definition rho (t : R) : RC := (cos t - 1, t - sin t).
Lemma rho_small t : Rabs t <= 1 -> sqrt (sq (rho t)) <= t * t.
Proof.
  intros H. pose proof (cos_bound2 t). pose proof (@sin_bound2 t H) as S. assert (S1 : - (t * t / 2) <= t - sin t <= t * t / 2) by (unfold Rabs in S; destruct (Rcase_abs _); lra).
  rewrite <- (sqrt_square (t * t)) by nra. apply sqrt_le_1_alt. unfold sq, rho. cbn. nra.
Qed.
Lemma rho_conj_sq t : sq (rconj RC (rho t)) = sq (rho t).
Proof. unfold sq. cbn. ring. Qed.

Lemma quad_derivable f k v C d : 0 < d -> (forall t, Rabs t <= d -> Rabs (f (k + t) - f k - t * v) <= C * (t * t)) -> derivable_pt_lim f k v.
Proof.
  intros Hd H eps Heps. set (C' := Rabs C + 1). pose proof (Rabs_pos C) as HC. assert (Hm : 0 < Rmin d (eps / C')) by (apply Rmin_glb_lt; [auto|apply Rdiv_lt_0_compat; unfold C'; lra]).
  exists (mkposreal _ Hm). cbn. intros t Ht0 Ht. pose proof (Rmin_l d (eps / C')). pose proof (Rmin_r d (eps / C')).
  replace ((f (k + t) - f k) / t - v) with ((f (k + t) - f k - t * v) / t) by (field; auto). unfold Rdiv. rewrite Rabs_mult, Rabs_inv by auto.
  pose proof (Rabs_pos_lt t Ht0) as Hp. apply Rmult_lt_reg_r with (Rabs t); [auto|]. rewrite Rmult_assoc, Rinv_l, Rmult_1_r by lra.
  apply Rle_lt_trans with (C * (t * t)); [apply H; lra|]. replace (t * t) with (Rabs t * Rabs t) by (rewrite <- Rabs_mult; apply Rabs_pos_eq; apply Rle_0_sqr).
  assert (Rabs t * C' < eps). { apply Rmult_lt_reg_r with (/ C'); [apply Rinv_0_lt_compat; unfold C'; lra|]. rewrite Rmult_assoc, Rinv_r by (unfold C'; lra). unfold Rdiv in *. lra. }
  pose proof (Rle_abs C). assert (C * (Rabs t * Rabs t) <= C' * Rabs t * Rabs t) by (unfold C'; nra). nra.
Qed.

Section B.
Variable b : bands.
Notation n := (size b).
Hypothesis Hham : hermitian n (ham b).
Lemma h0_hermitian q : hermitian n (h0 b q).
Proof. intros i j Hi Hj. unfold h0, madd, dagger. rewrite (Hham Hi Hj). rc. Qed.
Lemma bmat_shift k t i j : bmat b (k + t) i j = rmul RC (bmat b k i j) (cos t, - sin t).
Proof. unfold bmat. rewrite cos_plus, sin_plus. rc. Qed.
Lemma bounded2 a a' : exists M, 0 <= M /\ (forall x, nrm n (mv n a x) <= M * nrm n x) /\ (forall x, nrm n (mv n a' x) <= M * nrm n x).
Proof.
  destruct (mv_bounded n a) as (M & HM & H). destruct (mv_bounded n a') as (M' & HM' & H'). exists (M + M'). split; [lra|]. split; intros x; pose proof (nrm_nonneg n x); [specialize (H x)|specialize (H' x)]; nra.
Qed.
Definition t0 (k t : R) : mat := madd (mscale (rho t) (bmat b k)) (mscale (rconj RC (rho t)) (dagger (bmat b k))).
Definition t1 (k t : R) : mat := mscale (0, 1) (madd (mneg (mscale (rho t) (bmat b k))) (mscale (rconj RC (rho t)) (dagger (bmat b k)))).
Lemma h0_expand k t i j : h0 b (k + t) i j = radd RC (radd RC (h0 b k i j) (rmul RC (t, 0) (h1 b k i j))) (t0 k t i j).
Proof. unfold h0, h1, t0, madd, mscale, mneg, dagger. rewrite !bmat_shift. unfold rho. generalize (bmat b k i j), (bmat b k j i), (ham b i j). intros x y z. rc. Qed.
Lemma h1_expand k t i j : h1 b (k + t) i j = radd RC (radd RC (h1 b k i j) (rmul RC (t, 0) (h2 b k i j))) (t1 k t i j).
Proof. unfold h1, h2, t1, madd, mscale, mneg, dagger. rewrite !bmat_shift. unfold rho. generalize (bmat b k i j), (bmat b k j i). intros x y. rc. Qed.
Lemma mv_madd a a' x i : mv n (madd a a') x i = radd RC (mv n a x i) (mv n a' x i).
Proof. unfold mv, madd. rewrite <- sum_add. apply sum_ext. intros. rc. Qed.
Lemma mv_mscale c a x i : mv n (mscale c a) x i = rmul RC c (mv n a x i).
Proof. unfold mv, mscale. rewrite <- sum_mul_l. apply sum_ext. intros. rc. Qed.
Lemma mv_mneg a x i : mv n (mneg a) x i = rmul RC (-1, 0) (mv n a x i).
Proof. unfold mv, mneg. rewrite <- sum_mul_l. apply sum_ext. intros. rc. Qed.
Lemma mv_expand (a a0 a1 a2 : mat) t x i : (forall j, a i j = radd RC (radd RC (a0 i j) (rmul RC (t, 0) (a1 i j))) (a2 i j)) ->
  mv n a x i = vad (vad (mv n a0 x) (vsc (t, 0) (mv n a1 x))) (mv n a2 x) i.
Proof.
  intros H. unfold vad, vsc. rewrite <- mv_mscale, <- !mv_madd. unfold mv. apply sum_ext. intros j _. rewrite H. unfold madd, mscale. auto.
Qed.
(** One bound for everything *)
Definition bounds (k K : R) : Prop := 0 <= K /\
  (forall x, nrm n (mv n (h1 b k) x) <= K * nrm n x) /\ (forall x, nrm n (mv n (h2 b k) x) <= K * nrm n x) /\
  (forall t x, Rabs t <= 1 -> nrm n (mv n (t0 k t) x) <= K * (t * t) * nrm n x) /\
  (forall t x, Rabs t <= 1 -> nrm n (mv n (t1 k t) x) <= K * (t * t) * nrm n x).
Lemma bounds_exist k : exists K, bounds k K.
Proof.
  destruct (bounded2 (bmat b k) (dagger (bmat b k))) as (M & HM & H1 & H2). destruct (bounded2 (h1 b k) (h2 b k)) as (M' & HM' & H3 & H4).
  exists (2 * M + M'). split; [lra|]. split; [intros x; specialize (H3 x); pose proof (nrm_nonneg n x); nra|]. split; [intros x; specialize (H4 x); pose proof (nrm_nonneg n x); nra|].
  assert (G : forall t x, Rabs t <= 1 -> M * sqrt (sq (rho t)) * nrm n x + M * sqrt (sq (rho t)) * nrm n x <= (2 * M + M') * (t * t) * nrm n x).
  { intros t x Ht. pose proof (@rho_small t Ht) as Hr. pose proof (sqrt_pos (sq (rho t))). pose proof (nrm_nonneg n x). assert (M * sqrt (sq (rho t)) <= M * (t * t)) by nra. assert (0 <= M' * (t * t)) by (apply Rmult_le_pos; [auto|apply Rle_0_sqr]).
    assert (M * sqrt (sq (rho t)) * nrm n x <= M * (t * t) * nrm n x) by (apply Rmult_le_compat_r; auto). nra. }
  assert (S : forall t x, nrm n (vsc (rho t) (mv n (bmat b k) x)) <= M * sqrt (sq (rho t)) * nrm n x /\ nrm n (vsc (rconj RC (rho t)) (mv n (dagger (bmat b k)) x)) <= M * sqrt (sq (rho t)) * nrm n x).
  { intros t x. rewrite !nrm_scale, rho_conj_sq. pose proof (sqrt_pos (sq (rho t))). specialize (H1 x). specialize (H2 x). split; nra. }
  split; intros t x Ht; (eapply Rle_trans; [|apply (G t x Ht)]); destruct (S t x) as [S1 S2].
  - rewrite (@nrm_ext n _ (vad (vsc (rho t) (mv n (bmat b k) x)) (vsc (rconj RC (rho t)) (mv n (dagger (bmat b k)) x)))) by (intros i _; unfold t0; rewrite mv_madd, !mv_mscale; auto).
    pose proof (nrm_tri n (vsc (rho t) (mv n (bmat b k) x)) (vsc (rconj RC (rho t)) (mv n (dagger (bmat b k)) x))). lra.
  - rewrite (@nrm_ext n _ (vsc (0, 1) (vad (vsc (-1, 0) (vsc (rho t) (mv n (bmat b k) x))) (vsc (rconj RC (rho t)) (mv n (dagger (bmat b k)) x))))) by (intros i _; unfold t1; rewrite mv_mscale, mv_madd, mv_mneg, !mv_mscale; auto).
    rewrite nrm_scale. replace (sqrt (sq (0, 1))) with 1 by (unfold sq; cbn; replace (0 * 0 + 1 * 1) with 1 by ring; rewrite sqrt_1; auto).
    pose proof (nrm_tri n (vsc (-1, 0) (vsc (rho t) (mv n (bmat b k) x))) (vsc (rconj RC (rho t)) (mv n (dagger (bmat b k)) x))) as T. rewrite nrm_rscale in T. replace (Rabs (-1)) with 1 in T by (rewrite Rabs_left; lra). lra.
Qed.
Lemma rip_h0 k t x : rip n x (mv n (h0 b (k + t)) x) = rip n x (mv n (h0 b k) x) + t * rip n x (mv n (h1 b k) x) + rip n x (mv n (t0 k t) x).
Proof.
  rewrite (@rip_ext n x (mv n (h0 b (k + t)) x) x (vad (vad (mv n (h0 b k) x) (vsc (t, 0) (mv n (h1 b k) x))) (mv n (t0 k t) x))); [|auto|intros i _; apply mv_expand; intros; apply h0_expand].
  rewrite !rip_add_r, rip_scale_r. auto.
Qed.
Lemma rip_h1 k t x y : rip n x (mv n (h1 b (k + t)) y) = rip n x (mv n (h1 b k) y) + t * rip n x (mv n (h2 b k) y) + rip n x (mv n (t1 k t) y).
Proof.
  rewrite (@rip_ext n x (mv n (h1 b (k + t)) y) x (vad (vad (mv n (h1 b k) y) (vsc (t, 0) (mv n (h2 b k) y))) (mv n (t1 k t) y))); [|auto|intros i _; apply mv_expand; intros; apply h1_expand].
  rewrite !rip_add_r, rip_scale_r. auto.
Qed.
Lemma tt_abs t : t * t = Rabs t * Rabs t.
Proof. rewrite <- Rabs_mult. symmetry. apply Rabs_pos_eq, Rle_0_sqr. Qed.
Lemma rip_bound a M x y : (forall x, nrm n (mv n a x) <= M * nrm n x) -> Rabs (rip n x (mv n a y)) <= M * nrm n x * nrm n y.
Proof. intros H. eapply Rle_trans; [apply cs|]. specialize (H y). pose proof (nrm_nonneg n x). nra. Qed.
(** The energies are Lipschitz *)
Lemma lipschitz k K t e e' u u' : bounds k K -> Rabs t <= 1 -> eigensystem n (h0 b k) e u -> eigensystem n (h0 b (k + t)) e' u' ->
  forall m, (m < n)%nat -> Rabs (e' m - e m) <= 2 * K * Rabs t.
Proof.
  intros (HK & B1 & _ & B3 & _) Ht HE HE' m Hm.
  assert (G : forall x, Rabs (t * rip n x (mv n (h1 b k) x) + rip n x (mv n (t0 k t) x)) <= 2 * K * Rabs t * nn n x).
  { intros x. eapply Rle_trans; [apply Rabs_triang|]. rewrite Rabs_mult. pose proof (rip_bound (h1 b k) x x B1) as R1. pose proof (@rip_bound (t0 k t) (K * (t * t)) x x (fun y => B3 t y Ht)) as R2. rewrite <- nrm_sq. rewrite (tt_abs t) in R2. pose proof (Rabs_pos t). pose proof (nrm_nonneg n x).
    assert (0 <= nrm n x * nrm n x) by nra. assert (Rabs t * Rabs t <= Rabs t) by nra. assert (K * (Rabs t * Rabs t) * nrm n x * nrm n x <= K * Rabs t * (nrm n x * nrm n x)). { rewrite Rmult_assoc. apply Rmult_le_compat_r; [auto|]. apply Rmult_le_compat_l; auto. } nra. }
  pose proof (@weyl n _ _ _ _ _ _ (2 * K * Rabs t) (@h0_hermitian k) (@h0_hermitian (k + t)) HE HE') as W1. pose proof (@weyl n _ _ _ _ _ _ (2 * K * Rabs t) (@h0_hermitian (k + t)) (@h0_hermitian k) HE' HE) as W2.
  apply Rabs_le. split.
  - cut (e m <= e' m + 2 * K * Rabs t); [lra|]. apply W1; [|auto]. intros x. rewrite rip_h0. specialize (G x). unfold Rabs in G at 1. destruct (Rcase_abs _); lra.
  - cut (e' m <= e m + 2 * K * Rabs t); [lra|]. apply W2; [|auto]. intros x. rewrite rip_h0. specialize (G x). unfold Rabs in G at 1. destruct (Rcase_abs _); lra.
Qed.
(** A nondegenerate band *)
Notation simple := (nondegenerate n).
Lemma gap_exists e m : simple e m -> exists g, 0 < g /\ forall j, (j < n)%nat -> j <> m -> 2 * g <= Rabs (e j - e m).
Proof.
  intros [_ H].
  assert (P : forall l, (l <= n)%nat -> exists g, 0 < g /\ forall j, (j < l)%nat -> j <> m -> 2 * g <= Rabs (e j - e m)).
  { induction l as [|l IH]; intros Hl; [exists 1; split; [lra|intros; lia]|]. destruct (IH ltac:(lia)) as (g & Hg & G). destruct (Nat.eq_dec l m) as [->|Hne].
    - exists g. split; [auto|]. intros j Hj Hj'. apply G; [lia|auto].
    - exists (Rmin g (Rabs (e l - e m) / 2)). assert (0 < Rabs (e l - e m)) by (apply Rabs_pos_lt; intros E; apply (H l ltac:(lia) Hne); lra). split; [apply Rmin_glb_lt; lra|].
      intros j Hj Hj'. destruct (Nat.eq_dec j l) as [->|]; [pose proof (Rmin_r g (Rabs (e l - e m) / 2)); lra|]. pose proof (Rmin_l g (Rabs (e l - e m) / 2)). specialize (G j ltac:(lia) Hj'). lra. }
  apply (P n); auto.
Qed.
Section First.
Variables k K g : R.
Variable e : nat -> R.
Variable u : mat.
Variable m : nat.
Hypothesis HB : bounds k K.
Hypothesis HE : eigensystem n (h0 b k) e u.
Hypothesis Hm : (m < n)%nat.
Hypothesis Hg : 0 < g.
Hypothesis Hgap : forall j, (j < n)%nat -> j <> m -> 2 * g <= Rabs (e j - e m).
Notation psi := (col u m).
Notation v := (rip n psi (mv n (h1 b k) psi)).
Lemma psi_nn : nn n psi = 1.
Proof. unfold nn, rip. rewrite (col_ortho HE) by auto. unfold delta. rewrite Nat.eqb_refl. auto. Qed.
Lemma psi_nrm : nrm n psi = 1. Proof. unfold nrm. rewrite psi_nn. apply sqrt_1. Qed.
Lemma v_bound : Rabs v <= K.
Proof. destruct HB as (_ & B1 & _). pose proof (rip_bound (h1 b k) psi psi B1) as H. rewrite psi_nrm in H. lra. Qed.
Lemma gap_at t e' u' : 4 * K * Rabs t <= g -> Rabs t <= 1 -> eigensystem n (h0 b (k + t)) e' u' -> forall j, (j < n)%nat -> j <> m -> g <= Rabs (e' j - (e m + t * v)).
Proof.
  intros Hs Ht HE' j Hj Hne. pose proof (lipschitz HB Ht HE HE' Hj) as L. pose proof (Hgap Hj Hne) as G. pose proof v_bound as V. destruct HB as (HK & _). pose proof (Rabs_pos t).
  assert (V2 : Rabs (t * v) <= K * Rabs t) by (rewrite Rabs_mult, Rmult_comm; apply Rmult_le_compat_r; auto).
  pose proof (Rabs_triang (e' j - (e m + t * v)) (- (e' j - e j) + t * v)) as T. replace (e' j - (e m + t * v) + (- (e' j - e j) + t * v)) with (e j - e m) in T by ring. pose proof (Rabs_triang (- (e' j - e j)) (t * v)) as T2. rewrite Rabs_Ropp in T2.
  assert (0 <= K * Rabs t) by nra. lra.
Qed.
Lemma first_order t e' u' : 8 * K * Rabs t <= g -> Rabs t <= 1 -> eigensystem n (h0 b (k + t)) e' u' ->
  Rabs (e' m - e m - t * v) <= 2 * (K + 9 * (K * K) / g) * (t * t).
Proof.
  intros Hs Ht HE'. pose proof HB as (HK & B1 & _ & B3 & _). pose proof (Rabs_pos t) as Ht0. assert (HKt : 0 <= K * Rabs t) by nra.
  assert (G := @gap_at t e' u' ltac:(lra) Ht HE'). set (lam := e m + t * v) in *.
  set (r := res n (h0 b (k + t)) lam psi).
  assert (Er : forall i, (i < n)%nat -> r i = vad (vad (vsc (t, 0) (mv n (h1 b k) psi)) (mv n (t0 k t) psi)) (vsc (- t * v, 0) psi) i).
  { intros i Hi. unfold r, res. rewrite (@mv_expand _ (h0 b k) (h1 b k) (t0 k t) t psi i) by (intros; apply h0_expand). unfold vad, vsc at 1. rewrite (col_eig HE) by auto. unfold vsc, lam. generalize (mv n (h1 b k) psi i), (mv n (t0 k t) psi i), (psi i). intros x y z. rc. }
  assert (Nr : nrm n r <= 3 * K * Rabs t).
  { rewrite (@nrm_ext n _ _ Er). eapply Rle_trans; [apply nrm_tri|]. rewrite nrm_rscale, psi_nrm. pose proof (nrm_tri n (vsc (t, 0) (mv n (h1 b k) psi)) (mv n (t0 k t) psi)) as T. rewrite nrm_rscale in T.
    pose proof (B1 psi) as X1. pose proof (B3 t psi Ht) as X2. rewrite psi_nrm in *. rewrite (tt_abs t) in X2. rewrite Rabs_mult, Rabs_Ropp. pose proof v_bound as V.
    assert (Rabs t * Rabs v <= Rabs t * K) by (apply Rmult_le_compat_l; auto). assert (K * (Rabs t * Rabs t) <= K * Rabs t) by nra. assert (Rabs t * nrm n (mv n (h1 b k) psi) <= Rabs t * K) by (apply Rmult_le_compat_l; lra). lra. }
  assert (Rr : Rabs (rip n psi r) <= K * (t * t)).
  { rewrite (@rip_ext n psi r psi (vad (vad (vsc (t, 0) (mv n (h1 b k) psi)) (mv n (t0 k t) psi)) (vsc (- t * v, 0) psi))) by auto. rewrite !rip_add_r, !rip_scale_r. fold (nn n psi). rewrite psi_nn.
    replace (t * v + rip n psi (mv n (t0 k t) psi) + - t * v * 1) with (rip n psi (mv n (t0 k t) psi)) by ring. pose proof (@rip_bound (t0 k t) (K * (t * t)) psi psi (fun y => B3 t y Ht)) as X. rewrite psi_nrm in X. lra. }
  pose proof (@energy_bound n _ _ _ (@h0_hermitian (k + t)) HE' m Hm lam g Hg G psi) as EB. pose proof (@main_weight n _ _ _ (@h0_hermitian (k + t)) HE' m Hm lam g Hg G psi) as [MW _]. fold r in EB, MW. rewrite psi_nn in MW.
  set (s := sq (cf n u' psi m)) in *. pose proof (nrm_nonneg n r) as Hr0. assert (Nn : nn n r <= 9 * (K * K) * (t * t)) by (rewrite <- nrm_sq, (tt_abs t); replace (9 * (K * K) * (Rabs t * Rabs t)) with (3 * K * Rabs t * (3 * K * Rabs t)) by ring; apply Rmult_le_compat; auto).
  assert (Hs2 : 1 / 2 <= s). { assert (nn n r / (g * g) <= 1 / 2); [|lra]. apply Rmult_le_reg_r with (g * g); [nra|]. unfold Rdiv at 1. rewrite Rmult_assoc, Rinv_l by nra. rewrite (tt_abs t) in Nn. assert (8 * K * Rabs t * (8 * K * Rabs t) <= g * g) by (apply Rmult_le_compat; lra). assert (0 <= K * Rabs t * (K * Rabs t)) by (apply Rmult_le_pos; auto). nra. }
  assert (Hd : nn n r / g <= 9 * (K * K) / g * (t * t)). { apply Rmult_le_reg_r with g; [auto|]. replace (nn n r / g * g) with (nn n r) by (field; lra). replace (9 * (K * K) / g * (t * t) * g) with (9 * (K * K) * (t * t)) by (field; lra). auto. }
  replace (e' m - e m - t * v) with (e' m - lam) by (unfold lam; ring). rewrite Rabs_mult, (Rabs_pos_eq s) in EB by lra. pose proof (Rabs_pos (e' m - lam)). nra.
Qed.
End First.
End B.
