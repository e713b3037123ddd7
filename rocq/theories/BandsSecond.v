(** * Second-order perturbation: the derivative of the velocity. *)
From Coq Require Import Reals List Bool Arith ZArith Lia Lra Psatz Ring.
From Verif Require Import StarRing DiscretizeReal BandsModel BandsSpec BandsLin BandsWeyl BandsProofs.
Import ListNotations.
Set Implicit Arguments.
Local Open Scope R_scope.

Section Second.
Variable b : bands.
Notation n := (size b).
Hypothesis Hham : hermitian n (ham b).
Variables k K g : R.
Variable e : nat -> R.
Variable u : mat.
Variable m : nat.
Hypothesis HB : bounds b k K.
Hypothesis HE : eigensystem n (h0 b k) e u.
Hypothesis Hm : (m < n)%nat.
Hypothesis Hg : 0 < g.
Hypothesis Hgap : forall j, (j < n)%nat -> j <> m -> 2 * g <= Rabs (e j - e m).
Notation psi := (col u m).
Notation v := (rip n psi (mv n (h1 b k) psi)).
Lemma h1_hermitian q : hermitian n (h1 b q).
Proof. intros i j Hi Hj. unfold h1, mscale, madd, mneg, dagger. rc. Qed.
Lemma h2_hermitian q : hermitian n (h2 b q).
Proof. intros i j Hi Hj. unfold h2, madd, mneg, dagger. rc. Qed.
Definition w1 : vct := mv n (h1 b k) psi.
Definition cc (j : nat) : RC := if (j =? m)%nat then r0 RC else rmul RC (1 / (e m - e j), 0) (cf n u w1 j).
Definition eta : vct := fun i => sum RC n (fun j => rmul RC (cc j) (u i j)).
Lemma cf_eta j : (j < n)%nat -> cf n u eta j = cc j.
Proof.
  intros Hj. unfold cf, ip, eta. transitivity (sum RC n (fun i => sum RC n (fun l => rmul RC (cc l) (rmul RC (rconj RC (u i j)) (u i l))))); [apply sum_ext; intros i _; rewrite <- sum_mul_l; apply sum_ext; intros; unfold col; generalize (cc i0); intros; rc|].
  rewrite sum_swap. transitivity (sum RC n (fun l => if (l =? j)%nat then cc l else r0 RC)); [|apply sum_delta; auto].
  apply sum_ext. intros l Hl. rewrite sum_mul_l. pose proof (col_ortho HE Hj Hl) as O. unfold ip in O. unfold col in O. rewrite O. unfold delta. generalize (cc l). intros z. destruct (Nat.eqb_spec l j), (Nat.eqb_spec j l); try lia; rc.
Qed.
Lemma psi_eta : rip n psi eta = 0.
Proof. unfold rip. change (ip n psi eta) with (cf n u eta m). rewrite cf_eta by auto. unfold cc. rewrite Nat.eqb_refl. auto. Qed.
Lemma cf_w1 : cf n u w1 m = (v, 0).
Proof.
  unfold cf, w1. pose proof (herm_ip psi psi (h1_hermitian k)) as H. rewrite (ip_conj n psi (mv n (h1 b k) psi)) in H. unfold rip. set (z := ip n psi (mv n (h1 b k) psi)) in *. apply RCe; [auto|]. pose proof (f_equal snd H) as H2. cbn in H2. cbn. lra.
Qed.
Definition w : vct := vad (vad (mv n (h0 b k) eta) (vsc (- e m, 0) eta)) (vad w1 (vsc (- v, 0) psi)).
Lemma w_zero : nrm n w = 0.
Proof.
  unfold nrm. replace (nn n w) with 0; [apply sqrt_0|]. symmetry. rewrite (nn_cf HE). apply rsum_0. intros j Hj.
  assert (E : cf n u w j = r0 RC); [|rewrite E; unfold sq; cbn; ring].
  unfold cf, w. rewrite !ip_add_r, !ip_scale_r. fold (cf n u (mv n (h0 b k) eta) j). rewrite (cf_mv (@h0_hermitian b Hham k) HE eta Hj). fold (cf n u eta j). rewrite cf_eta by auto. fold (cf n u w1 j). rewrite (col_ortho HE Hj Hm). unfold cc, delta.
  destruct (Nat.eqb_spec j m) as [->|Hne]; [rewrite cf_w1; rc|]. assert (e m - e j <> 0). { pose proof (Hgap Hj Hne) as G. intros E. replace (e j - e m) with 0 in G by lra. rewrite Rabs_R0 in G. lra. }
  generalize (cf n u w1 j). intros z. apply RCe; cbn; field; auto.
Qed.
Definition N : R := nrm n eta.
Lemma N_nonneg : 0 <= N. Proof. apply nrm_nonneg. Qed.
Definition chi (t : R) : vct := vad psi (vsc (t, 0) eta).
Lemma nn_chi t : nn n (chi t) = 1 + t * t * (N * N).
Proof.
  unfold nn, chi. rewrite !rip_add_r, !rip_add_l, !rip_scale_r, !rip_scale_l, (rip_sym n eta psi), psi_eta. fold (nn n psi). rewrite (psi_nn HE Hm). fold (nn n eta). rewrite <- nrm_sq. fold N. ring.
Qed.
Lemma nrm_chi t : Rabs t <= 1 -> nrm n (chi t) <= 1 + N.
Proof.
  intros Ht. eapply Rle_trans; [apply nrm_tri|]. rewrite (psi_nrm HE Hm), nrm_rscale. fold N. pose proof N_nonneg. pose proof (Rabs_pos t). nra.
Qed.
Lemma res_chi t i : (i < n)%nat -> res n (h0 b (k + t)) (e m + t * v) (chi t) i =
  vad (vsc (t, 0) w) (vad (vsc (t * t, 0) (vad (mv n (h1 b k) eta) (vsc (- v, 0) eta))) (mv n (t0 b k t) (chi t))) i.
Proof.
  intros Hi. unfold res. rewrite (@mv_expand b _ (h0 b k) (h1 b k) (t0 b k t) t (chi t) i) by (intros; apply h0_expand). unfold w. unfold vad at 1 2. unfold vsc at 1. unfold chi at 1 2. rewrite !mv_add, !mv_scale. rewrite (col_eig HE) by auto.
  fold w1. set (y := v). clearbody y. unfold vad, vsc. unfold chi at 2. unfold vad, vsc. generalize (mv n (t0 b k t) (chi t) i), (mv n (h0 b k) eta i), (mv n (h1 b k) eta i), (w1 i), (eta i), (psi i). intros z1 z2 z3 z4 z5 z6. rc.
Qed.
Definition C1 : R := 3 * K * (1 + N).
Lemma C1_nonneg : 0 <= C1. Proof. unfold C1. destruct HB as (HK & _). pose proof N_nonneg. apply Rmult_le_pos; lra. Qed.
Lemma nrm_res t : Rabs t <= 1 -> nrm n (res n (h0 b (k + t)) (e m + t * v) (chi t)) <= C1 * (t * t).
Proof.
  intros Ht. pose proof HB as (HK & B1 & _ & B3 & _). rewrite (@nrm_ext n _ _ (@res_chi t)). eapply Rle_trans; [apply nrm_tri|]. rewrite nrm_rscale, w_zero.
  pose proof (nrm_tri n (vsc (t * t, 0) (vad (mv n (h1 b k) eta) (vsc (- v, 0) eta))) (mv n (t0 b k t) (chi t))) as T. rewrite nrm_rscale, (Rabs_pos_eq (t * t)) in T by apply Rle_0_sqr.
  pose proof (nrm_tri n (mv n (h1 b k) eta) (vsc (- v, 0) eta)) as T2. rewrite nrm_rscale, Rabs_Ropp in T2. pose proof (B1 eta) as X1. pose proof (B3 t (chi t) Ht) as X3. pose proof (@nrm_chi t Ht) as Nc. pose proof (v_bound HB HE Hm) as V. fold N in *. pose proof N_nonneg as HN. pose proof (Rle_0_sqr t) as Ht2. unfold Rsqr in Ht2.
  assert (Y1 : nrm n (vad (mv n (h1 b k) eta) (vsc (- v, 0) eta)) <= 2 * K * N) by nra.
  assert (Y2 : t * t * nrm n (vad (mv n (h1 b k) eta) (vsc (- v, 0) eta)) <= t * t * (2 * K * N)) by (apply Rmult_le_compat_l; auto).
  assert (Y3 : K * (t * t) * nrm n (chi t) <= K * (t * t) * (1 + N)) by (apply Rmult_le_compat_l; [apply Rmult_le_pos; auto|auto]).
  assert (0 <= K * (t * t)) by (apply Rmult_le_pos; auto). unfold C1. nra.
Qed.
Lemma h1_bound t x : Rabs t <= 1 -> nrm n (mv n (h1 b (k + t)) x) <= 3 * K * nrm n x.
Proof.
  intros Ht. pose proof HB as (HK & B1 & B2 & _ & B4). rewrite (@nrm_ext n _ (vad (vad (mv n (h1 b k) x) (vsc (t, 0) (mv n (h2 b k) x))) (mv n (t1 b k t) x))) by (intros; apply mv_expand; intros; apply h1_expand).
  eapply Rle_trans; [apply nrm_tri|]. pose proof (nrm_tri n (mv n (h1 b k) x) (vsc (t, 0) (mv n (h2 b k) x))) as T. rewrite nrm_rscale in T. specialize (B1 x). specialize (B2 x). specialize (B4 t x Ht). pose proof (Rabs_pos t). pose proof (nrm_nonneg n x). pose proof (nrm_nonneg n (mv n (h2 b k) x)).
  assert (t * t <= 1) by (rewrite (tt_abs t); nra). assert (K * (t * t) * nrm n x <= K * nrm n x) by (apply Rmult_le_compat_r; [auto|]; nra). nra.
Qed.
Definition c2 : R := rip n psi (mv n (h2 b k) psi) + 2 * rip n eta w1.
Definition C3 : R := K * (2 * (N * N) + 2 * N + (1 + N) * (1 + N)).
Lemma herm_rip h x y : hermitian n h -> rip n x (mv n h y) = rip n y (mv n h x).
Proof. intros H. unfold rip. rewrite (herm_ip x y H), ip_conj. auto. Qed.
Lemma rip_mv_add h x y z : rip n x (mv n h (vad y z)) = rip n x (mv n h y) + rip n x (mv n h z).
Proof. rewrite <- rip_add_r. apply rip_ext; [auto|]. intros. apply mv_add. Qed.
Lemma rip_mv_scale h x a y : rip n x (mv n h (vsc (a, 0) y)) = a * rip n x (mv n h y).
Proof. rewrite <- rip_scale_r. apply rip_ext; [auto|]. intros. apply mv_scale. Qed.
Lemma expect_chi h t : hermitian n h -> rip n (chi t) (mv n h (chi t)) = rip n psi (mv n h psi) + 2 * t * rip n eta (mv n h psi) + t * t * rip n eta (mv n h eta).
Proof.
  intros H. unfold chi. rewrite rip_mv_add, !rip_add_l, !rip_mv_scale, !rip_scale_l, (herm_rip psi eta H). ring.
Qed.
Lemma expansion t : Rabs t <= 1 -> Rabs (rip n (chi t) (mv n (h1 b (k + t)) (chi t)) - v - t * c2) <= C3 * (t * t).
Proof.
  intros Ht. pose proof HB as (HK & B1 & B2 & _ & B4). rewrite rip_h1, (expect_chi t (h1_hermitian k)), (expect_chi t (h2_hermitian k)). unfold c2, w1.
  pose proof (@rip_bound b (h1 b k) K eta eta B1) as X1. pose proof (@rip_bound b (h2 b k) K eta psi B2) as X2. pose proof (@rip_bound b (h2 b k) K eta eta B2) as X3. pose proof (@rip_bound b (t1 b k t) (K * (t * t)) (chi t) (chi t) (fun y => B4 t y Ht)) as X4.
  rewrite (psi_nrm HE Hm) in X2. fold N in *. pose proof (@nrm_chi t Ht) as Nc. pose proof (nrm_nonneg n (chi t)) as Nc0. pose proof N_nonneg as HN. pose proof (Rle_0_sqr t) as Ht2. unfold Rsqr in Ht2. pose proof (Rabs_pos t) as Ht0.
  set (a1 := rip n eta (mv n (h1 b k) eta)) in *. set (a2 := rip n eta (mv n (h2 b k) psi)) in *. set (a3 := rip n eta (mv n (h2 b k) eta)) in *. set (a4 := rip n (chi t) (mv n (t1 b k t) (chi t))) in *. set (a5 := rip n psi (mv n (h2 b k) psi)) in *. set (a6 := rip n eta (mv n (h1 b k) psi)) in *.
  replace (v + 2 * t * a6 + t * t * a1 + t * (a5 + 2 * t * a2 + t * t * a3) + a4 - v - t * (a5 + 2 * a6)) with (t * t * a1 + (t * t * (2 * a2) + (t * t * (t * a3) + a4))) by ring.
  assert (Z1 : Rabs (t * t * a1) <= t * t * (K * N * N)) by (rewrite Rabs_mult, (Rabs_pos_eq (t * t)) by auto; apply Rmult_le_compat_l; auto).
  assert (Z2 : Rabs (t * t * (2 * a2)) <= t * t * (2 * (K * N * 1))) by (rewrite Rabs_mult, (Rabs_pos_eq (t * t)), Rabs_mult, (Rabs_pos_eq 2) by (auto; lra); apply Rmult_le_compat_l; auto; lra).
  assert (Z3 : Rabs (t * t * (t * a3)) <= t * t * (K * N * N)). { rewrite Rabs_mult, (Rabs_pos_eq (t * t)), Rabs_mult by auto. apply Rmult_le_compat_l; auto. assert (0 <= Rabs a3) by apply Rabs_pos. nra. }
  assert (Z4 : Rabs a4 <= t * t * (K * ((1 + N) * (1 + N)))). { eapply Rle_trans; [apply X4|]. assert (nrm n (chi t) * nrm n (chi t) <= (1 + N) * (1 + N)) by (apply Rmult_le_compat; auto). assert (0 <= K * (t * t)) by (apply Rmult_le_pos; auto). rewrite Rmult_assoc. apply Rle_trans with (K * (t * t) * ((1 + N) * (1 + N))); [apply Rmult_le_compat_l; auto|lra]. }
  pose proof (Rabs_triang (t * t * a1) (t * t * (2 * a2) + (t * t * (t * a3) + a4))). pose proof (Rabs_triang (t * t * (2 * a2)) (t * t * (t * a3) + a4)). pose proof (Rabs_triang (t * t * (t * a3)) a4). unfold C3. lra.
Qed.
Definition C2 : R := 6 * K * (1 + N) * (C1 / g) + 3 * K * ((C1 / g) * (C1 / g)).
Lemma second_order t e' u' : 4 * K * Rabs t <= g -> Rabs t <= 1 -> eigensystem n (h0 b (k + t)) e' u' ->
  Rabs (rip n (col u' m) (mv n (h1 b (k + t)) (col u' m)) - v - t * c2) <= (3 * K * (N * N + (C1 / g) * (C1 / g)) + C2 + C3) * (t * t).
Proof.
  intros Hs Ht HE'. pose proof HB as (HK & _). pose proof (@gap_at b Hham k K g e u m HB HE Hm Hg Hgap t e' u' Hs Ht HE') as G. set (lam := e m + t * v) in *.
  pose proof (@nrm_res t Ht) as Nr. fold lam in Nr. set (r := res n (h0 b (k + t)) lam (chi t)) in *. pose proof (nrm_nonneg n r) as Nr0.
  pose proof (@main_weight n _ _ _ (@h0_hermitian b Hham (k + t)) HE' m Hm lam g Hg G (chi t)) as [MW1 MW2]. fold r in MW1. rewrite nn_chi in MW1, MW2.
  pose proof (@expectation_bound n _ _ _ (@h0_hermitian b Hham (k + t)) HE' m Hm lam g Hg G (chi t) (h1 b (k + t)) (3 * K) ltac:(lra) (fun x => @h1_bound t x Ht)) as EB. fold r in EB.
  pose proof (@expansion t Ht) as EX. set (vq := rip n (col u' m) (mv n (h1 b (k + t)) (col u' m))) in *. set (a := sq (cf n u' (chi t) m)) in *. set (X := rip n (chi t) (mv n (h1 b (k + t)) (chi t))) in *.
  pose proof C1_nonneg as HC1. pose proof N_nonneg as HN. pose proof (Rle_0_sqr t) as Ht2. unfold Rsqr in Ht2. assert (Ht1 : t * t <= 1) by (rewrite (tt_abs t); pose proof (Rabs_pos t); nra).
  set (D := C1 / g) in *. assert (HD : 0 <= D) by (unfold D; apply Rmult_le_pos; [auto|left; apply Rinv_0_lt_compat; auto]).
  assert (Hd : nrm n r / g <= D * (t * t)). { apply Rmult_le_reg_r with g; [auto|]. unfold D. replace (nrm n r / g * g) with (nrm n r) by (field; lra). replace (C1 / g * (t * t) * g) with (C1 * (t * t)) by (field; lra). auto. }
  assert (Hd0 : 0 <= nrm n r / g) by (apply Rmult_le_pos; [auto|left; apply Rinv_0_lt_compat; auto]). assert (HDt : 0 <= D * (t * t)) by (apply Rmult_le_pos; auto).
  assert (Hnn : nn n r / (g * g) <= D * D * (t * t)). { rewrite <- nrm_sq. replace (nrm n r * nrm n r / (g * g)) with (nrm n r / g * (nrm n r / g)) by (field; lra). apply Rle_trans with (D * (t * t) * (D * (t * t))); [apply Rmult_le_compat; auto|]. replace (D * (t * t) * (D * (t * t))) with (D * D * (t * t) * (t * t)) by ring. rewrite <- (Rmult_1_r (D * D * (t * t))) at 2. apply Rmult_le_compat_l; [nra|auto]. }
  assert (Ha : Rabs (1 - a) <= (N * N + D * D) * (t * t)). { assert (0 <= N * N) by nra. assert (0 <= D * D * (t * t)) by (apply Rmult_le_pos; [nra|auto]). assert (0 <= t * t * (N * N)) by (apply Rmult_le_pos; auto). apply Rabs_le. split; lra. }
  assert (Hvq : Rabs vq <= 3 * K). { pose proof (@rip_bound b (h1 b (k + t)) (3 * K) (col u' m) (col u' m) (fun x => @h1_bound t x Ht)) as Q. rewrite (psi_nrm HE' Hm) in Q. fold vq in Q. lra. }
  assert (HEB : Rabs (a * vq - X) <= C2 * (t * t)).
  { eapply Rle_trans; [apply EB|]. unfold C2. fold D. pose proof (@nrm_chi t Ht) as Nc. pose proof (nrm_nonneg n (chi t)) as Nc0. set (q := nrm n r / g) in *.
    assert (P1 : nrm n (chi t) * q <= (1 + N) * (D * (t * t))) by (apply Rmult_le_compat; auto). assert (P2 : q * q <= D * (t * t) * (D * (t * t))) by (apply Rmult_le_compat; auto). assert (P3 : D * (t * t) * (D * (t * t)) <= D * D * (t * t)). { replace (D * (t * t) * (D * (t * t))) with (D * D * (t * t) * (t * t)) by ring. rewrite <- (Rmult_1_r (D * D * (t * t))) at 2. apply Rmult_le_compat_l; [nra|auto]. }
    assert (P4 : K * (nrm n (chi t) * q) <= K * ((1 + N) * (D * (t * t)))) by (apply Rmult_le_compat_l; auto). assert (P5 : K * (q * q) <= K * (D * D * (t * t))) by (apply Rmult_le_compat_l; [auto|lra]). lra. }
  replace (vq - v - t * c2) with (vq * (1 - a) + ((a * vq - X) + (X - v - t * c2))) by ring.
  pose proof (Rabs_triang (vq * (1 - a)) ((a * vq - X) + (X - v - t * c2))). pose proof (Rabs_triang (a * vq - X) (X - v - t * c2)).
  assert (Rabs (vq * (1 - a)) <= 3 * K * ((N * N + D * D) * (t * t))). { rewrite Rabs_mult. apply Rmult_le_compat; auto using Rabs_pos. }
  lra.
Qed.
End Second.
