(** * C67: Bands: energies, velocities and curvatures. *)
From Coq Require Import Reals List Bool Arith ZArith Lia Lra Psatz Ring.
From Verif Require Import StarRing DiscretizeReal BandsModel BandsSpec BandsLin BandsWeyl BandsProofs BandsSecond.
Import ListNotations.
Set Implicit Arguments.
Local Open Scope R_scope.

Section Props.
Variable eigh : nat -> mat -> (nat -> R) * mat.
Variable eigvalsh : nat -> mat -> nat -> R.
Variable uninit : nat -> nat -> R.
Variable n : nat.
Variables h v0 : mat.
Variable cols : nat.
Notation v := (padded cols v0).
Hypothesis Heigh : eigh_ok eigh n h v.
Hypothesis Heigvalsh : eigvalsh_ok eigvalsh n h v.
Variable b : bands.
Hypothesis Hb : make_bands rc_dec n h cols v0 = Some b.
Notation bands_call := (call eigh eigvalsh uninit b).

Lemma b_eq : b = {| size := n; ham := h; hop := v |}.
Proof. unfold make_bands in Hb. destruct (forallb _ _); [|discriminate]. injection Hb as <-. auto. Qed.
Lemma b_size : size b = n. Proof. rewrite b_eq. auto. Qed.
Lemma b_herm : hermitian (size b) (ham b).
Proof.
  rewrite b_eq. cbn [size ham]. intros i j Hi Hj. unfold make_bands in Hb. destruct (forallb _ _) eqn:E; [|discriminate]. rewrite forallb_forall in E. specialize (E i ltac:(apply in_seq; lia)). rewrite forallb_forall in E. specialize (E j ltac:(apply in_seq; lia)). destruct (rc_dec _ _) as [D|D]; [exact D|discriminate].
Qed.
Lemma h0_bloch k i j : h0 b k i j = bloch_matrix h v k i j.
Proof. rewrite b_eq. unfold h0, madd, dagger, bmat, bloch_matrix. cbn [hop ham]. generalize (v i j), (v j i), (h i j). intros. rc. Qed.
Definition E (k : R) : nat -> R := fst (eigh n (h0 b k)).
Definition U (k : R) : mat := snd (eigh n (h0 b k)).
Lemma eig k : eigensystem (size b) (h0 b k) (E k) (U k).
Proof. rewrite b_size. apply (@Heigh k). intros. apply h0_bloch. Qed.
Definition V (order : nat) (k : R) : nat -> R := velocities b k order (U k).
Definition C (k : R) : nat -> R := curvatures uninit b k (E k) (U k).
Lemma V_eq order k m : V order k m = rip (size b) (col (U k) m) (mv (size b) (h1 b k) (col (U k) m)).
Proof.
  unfold V, velocities. destruct (_ && _); unfold rip, ip; f_equal.
  unfold ph1p, mmul. transitivity (sum RC (size b) (fun l => sum RC (size b) (fun i => rmul RC (rmul RC (rconj RC (U k i m)) (h1 b k i l)) (U k l m)))).
  - apply sum_ext. intros l _. rewrite <- sum_mul_r. auto.
  - rewrite sum_swap. apply sum_ext. intros i _. unfold mv. rewrite <- sum_mul_l. apply sum_ext. intros. unfold col. rc.
Qed.
Lemma call_order order ret k : (1 <= order <= 2)%nat -> bands_call k order ret =
  Some (Tuple ([RealArray (E k); RealArray (V order k)] ++ (if (order =? 2)%nat then [RealArray (C k)] else []) ++ (if ret then [ComplexMatrix (U k)] else []))).
Proof.
  intros [H1 H2]. unfold call, spectrum. rewrite b_size. fold (h0 b k). unfold V, C, U, E. destruct order as [|[|[|]]]; try lia; destruct ret; cbn; destruct (eigh n (h0 b k)); auto.
Qed.
Lemma E_derivable k m : nondegenerate n (E k) m -> derivable_pt_lim (fun q => E q m) k (rip (size b) (col (U k) m) (mv (size b) (h1 b k) (col (U k) m))).
Proof.
  intros Hs. destruct (bounds_exist b k) as [K HB]. pose proof HB as (HK & _). rewrite <- b_size in Hs. destruct (@gap_exists b (E k) m Hs) as (g & Hg & G). destruct Hs as [Hm _].
  set (d := Rmin 1 (g / (8 * (K + 1)))). assert (Hd : 0 < d) by (apply Rmin_glb_lt; [lra|apply Rdiv_lt_0_compat; lra]).
  apply (@quad_derivable (fun q => E q m) k _ (2 * (K + 9 * (K * K) / g)) d Hd). intros t Ht. pose proof (Rmin_l 1 (g / (8 * (K + 1)))). pose proof (Rmin_r 1 (g / (8 * (K + 1)))).
  apply (@first_order b b_herm k K g (E k) (U k) m HB (eig k) Hm Hg G t (E (k + t)) (U (k + t))); [|unfold d in Ht; lra|apply eig].
  assert (Rabs t * (8 * (K + 1)) <= g). { apply Rle_trans with (g / (8 * (K + 1)) * (8 * (K + 1))); [apply Rmult_le_compat_r; [lra|unfold d in Ht; lra]|]. apply Req_le. field. lra. }
  pose proof (Rabs_pos t). nra.
Qed.
Lemma C_eq k m : nondegenerate n (E k) m -> c2 b k (E k) (U k) m = C k m + 2 * uninit m m * (V 2 k m * V 2 k m).
Proof.
  intros [Hm Hs]. rewrite <- b_size in Hm. unfold c2. unfold C, curvatures.
  assert (P : forall i, ph1p b k (U k) i m = cf (size b) (U k) (w1 b k (U k) m) i).
  { intros i. unfold ph1p, mmul, cf, ip, w1. transitivity (sum RC (size b) (fun l => sum RC (size b) (fun j => rmul RC (rmul RC (rconj RC (U k j i)) (h1 b k j l)) (U k l m)))).
    - apply sum_ext. intros l _. rewrite <- sum_mul_r. auto.
    - rewrite sum_swap. apply sum_ext. intros j _. unfold mv. rewrite <- sum_mul_l. apply sum_ext. intros. unfold col. rc. }
  rewrite sum_sub. cbn [fst rsub RC]. rewrite !fst_sum. rewrite (@rsum_ext (size b) (fun i => fst (2 * ediff uninit (E k) i m * abs2 (ph1p b k (U k) i m), 0)) (fun i => 2 * ediff uninit (E k) i m * sq (cf (size b) (U k) (w1 b k (U k) m) i))).
  2:{ intros i Hi. cbn [fst]. rewrite P. unfold abs2, sq. rewrite <- Rsqr_pow2, Rsqr_sqrt; [auto|]. apply sq_nonneg. }
  rewrite (@rsum_pick (size b) m (fun i => 2 * ediff uninit (E k) i m * sq (cf (size b) (U k) (w1 b k (U k) m) i)) Hm). pose proof (@cf_w1 b k (U k) m) as W. rewrite V_eq. set (vm := rip (size b) (col (U k) m) (mv (size b) (h1 b k) (col (U k) m))) in *. rewrite W. unfold ediff at 1. destruct (Req_EM_T (E k m - E k m) 0) as [_|N]; [|exfalso; apply N; ring].
  replace (rip (size b) (col (U k) m) (mv (size b) (h2 b k) (col (U k) m))) with (rsum (size b) (fun i => fst (rmul RC (rconj RC (U k i m)) (mmul (size b) (h2 b k) (U k) i m)))) by (unfold rip, ip; rewrite fst_sum; auto).
  replace (rip (size b) (eta b k (E k) (U k) m) (w1 b k (U k) m)) with (rsum (size b) (fun i => if (i =? m)%nat then 0 else (1 / (E k m - E k i)) * sq (cf (size b) (U k) (w1 b k (U k) m) i))).
  2:{ unfold rip. rewrite (parseval (eig k)), fst_sum. apply rsum_ext. intros i Hi. rewrite (cf_eta (eig k) Hm Hi). unfold cc. destruct (i =? m)%nat; [cbn; ring|]. generalize (cf (size b) (U k) (w1 b k (U k) m) i). intros z. unfold sq. cbn. ring. }
  rewrite (@rsum_ext (size b) (fun i => if (i =? m)%nat then 0 else 2 * ediff uninit (E k) i m * sq (cf (size b) (U k) (w1 b k (U k) m) i)) (fun i => -2 * (if (i =? m)%nat then 0 else 1 / (E k m - E k i) * sq (cf (size b) (U k) (w1 b k (U k) m) i)))).
  2:{ intros i Hi. destruct (Nat.eqb_spec i m) as [|Hne]; [ring|]. assert (E k i <> E k m) by (apply Hs; [rewrite <- b_size; auto|auto]). unfold ediff. destruct (Req_EM_T _ _) as [Z|_]; [exfalso; lra|]. field. split; lra. }
  rewrite rsum_scale. replace (sq (vm, 0)) with (vm * vm) by (unfold sq; cbn; ring). ring.
Qed.
Lemma V_derivable k m : nondegenerate n (E k) m -> derivable_pt_lim (fun q => V 2 q m) k (c2 b k (E k) (U k) m).
Proof.
  intros Hs. destruct (bounds_exist b k) as [K HB]. pose proof HB as (HK & _). rewrite <- b_size in Hs. destruct (@gap_exists b (E k) m Hs) as (g & Hg & G). destruct Hs as [Hm _].
  set (d := Rmin 1 (g / (4 * (K + 1)))). assert (Hd : 0 < d) by (apply Rmin_glb_lt; [lra|apply Rdiv_lt_0_compat; lra]).
  eapply (@quad_derivable (fun q => V 2 q m) k _ _ d Hd). intros t Ht. pose proof (Rmin_l 1 (g / (4 * (K + 1)))). pose proof (Rmin_r 1 (g / (4 * (K + 1)))). rewrite !V_eq.
  apply (@second_order b b_herm k K g (E k) (U k) m HB (eig k) Hm Hg G t (E (k + t)) (U (k + t))); [|unfold d in Ht; lra|apply eig].
  assert (Rabs t * (4 * (K + 1)) <= g). { apply Rle_trans with (g / (4 * (K + 1)) * (4 * (K + 1))); [apply Rmult_le_compat_r; [lra|unfold d in Ht; lra]|]. apply Req_le. field. lra. }
  pose proof (Rabs_pos t). nra.
Qed.
(** Bloch waves *)
Lemma chain_bloch k u z i : (i < n)%nat -> chain n h v (bloch_wave k u) z i = rmul RC (cos (k * IZR z), sin (k * IZR z)) (mv n (bloch_matrix h v k) u i).
Proof.
  intros Hi. unfold chain, mv. rewrite <- !sum_add, <- sum_mul_l. apply sum_ext. intros j _. unfold bloch_wave, bloch_matrix. rewrite minus_IZR, plus_IZR.
  replace (k * (IZR z - IZR 1)) with (k * IZR z - k) by (change (IZR 1) with 1; ring). replace (k * (IZR z + IZR 1)) with (k * IZR z + k) by (change (IZR 1) with 1; ring). rewrite cos_minus, sin_minus, cos_plus, sin_plus.
  generalize (u j), (h i j), (v i j), (v j i), (cos (k * IZR z)), (sin (k * IZR z)), (cos k), (sin k). intros. rc.
Qed.
Lemma mv_h0 k u i : mv (size b) (h0 b k) u i = mv n (bloch_matrix h v k) u i.
Proof. rewrite b_size. apply sum_ext. intros. rewrite h0_bloch. auto. Qed.
Lemma energy_iff k x : band_energy n h v k x <-> exists m, (m < n)%nat /\ E k m = x.
Proof.
  split.
  - intros (u & (i0 & Hi0 & Hu) & Hc).
    assert (Hx : forall i, (i < size b)%nat -> mv (size b) (h0 b k) u i = vsc (x, 0) u i).
    { intros i Hi. rewrite b_size in Hi. specialize (Hc 0%Z i Hi). rewrite chain_bloch in Hc by auto. unfold bloch_wave in Hc. rewrite Rmult_0_r, cos_0, sin_0 in Hc. rewrite mv_h0. revert Hc. unfold vsc. generalize (mv n (bloch_matrix h v k) u i), (u i). intros z y Hc. transitivity (rmul RC (1, 0) z); [rc|]. rewrite Hc. rc. }
    destruct (find_nz (cf (size b) (U k) u) (size b)) as [(m & Hm & Hnz)|Hz].
    + exists m. split; [rewrite <- b_size; auto|]. pose proof (cf_mv (@h0_hermitian b b_herm k) (eig k) u Hm) as Q. unfold cf at 1 in Q. rewrite (@ip_ext (size b) (col (U k) m) (mv (size b) (h0 b k) u) (col (U k) m) (vsc (x, 0) u)) in Q by auto. rewrite ip_scale_r in Q. fold (cf (size b) (U k) u m) in Q. revert Q Hnz. generalize (cf (size b) (U k) u m). intros [p q] Q Hnz. cbn in Q. injection Q as Q1 Q2.
      destruct (Req_dec p 0) as [->|Hp]; [destruct (Req_dec q 0) as [->|Hq]; [exfalso; apply Hnz; auto|]|].
      * apply Rmult_eq_reg_r with q; [lra|auto].
      * apply Rmult_eq_reg_r with p; [lra|auto].
    + exfalso. assert (Z : nn (size b) u = 0) by (rewrite (nn_cf (eig k)); apply rsum_0; intros i Hi; rewrite Hz by auto; unfold sq; cbn; ring). rewrite nn_sum, (@rsum_pick (size b) i0) in Z by (rewrite b_size; auto).
      assert (0 <= rsum (size b) (fun i => if (i =? i0)%nat then 0 else sq (u i))) by (apply rsum_nonneg; intros i _; destruct (i =? i0)%nat; [lra|apply sq_nonneg]). pose proof (sq_nonneg (u i0)) as Q. assert (Q0 : sq (u i0) = 0) by lra. apply Hu. unfold sq in Q0. apply RCe; cbn; nra.
  - intros (m & Hm & <-). exists (col (U k) m). rewrite <- b_size in Hm. split.
    + pose proof (psi_nn (eig k) Hm) as Q. destruct (find_nz (col (U k) m) (size b)) as [(i & Hi & Hnz)|Hz]; [exists i; split; [rewrite <- b_size; auto|auto]|]. exfalso. rewrite nn_sum, rsum_0 in Q; [lra|]. intros i Hi. rewrite Hz by auto. unfold sq; cbn; ring.
    + intros z i Hi. rewrite chain_bloch by auto. rewrite <- mv_h0. rewrite (col_eig (eig k)) by (auto; rewrite b_size; auto). unfold bloch_wave. generalize (col (U k) m i), (cos (k * IZR z)), (sin (k * IZR z)), (E k m). intros. rc.
Qed.

(** ** The energies are those of the Bloch waves of the infinite system, in ascending
    order; the momentum enters modulo 2 pi; they are the same for all values of
    derivative_order and return_eigenvectors *)
Theorem C67_energies : exists e u, (forall k m m', (m <= m')%nat -> (m' < n)%nat -> e k m <= e k m') /\
  (forall k x, band_energy n h v k x <-> exists m, (m < n)%nat /\ e k m = x) /\
  (forall k m, (m < n)%nat -> e (k + 2 * PI) m = e k m) /\
  (forall k, exists e', bands_call k 0 false = Some (Single (RealArray e')) /\ forall m, (m < n)%nat -> e' m = e k m) /\
  (forall k ret order, (order <= 2)%nat -> ret = true \/ order <> O -> exists l, bands_call k order ret = Some (Tuple (RealArray (e k) :: l)) /\ length l = (order + if ret then 1 else 0)%nat /\ (ret = true -> nth order l (RealArray (e k)) = ComplexMatrix (u k))) /\
  (forall k m z i, (m < n)%nat -> (i < n)%nat -> chain n h v (bloch_wave k (fun i => u k i m)) z i = rmul RC (e k m, 0) (bloch_wave k (fun i => u k i m) z i)) /\
  forall k ret order, (2 < order)%nat -> bands_call k order ret = None.
Proof.
  exists E, U. split; [|split; [|split; [|split; [|split; [|split]]]]].
  - intros k m m' H1 H2. destruct (eig k) as (S & _). apply S; [auto|rewrite b_size; auto].
  - intros k x. apply energy_iff.
  - intros k m Hm. assert (EE : forall i j, h0 b (k + 2 * PI) i j = h0 b k i j). { intros i j. rewrite !h0_bloch. unfold bloch_matrix. rewrite cos_plus, sin_plus, cos_2PI, sin_2PI. generalize (h i j), (v i j), (v j i). intros. rc. }
    rewrite <- b_size in Hm. apply (@weyl_unique (size b) (h0 b k) _ _ (U (k + 2 * PI)) (U k)); [apply h0_hermitian, b_herm| |apply eig|auto]. destruct (eig (k + 2 * PI)) as (S1 & S2 & S3 & S4). split; [auto|]. split; [auto|]. split; [auto|]. intros i j Hi Hj. rewrite <- S4 by auto. apply sum_ext. intros. rewrite EE. auto.
  - intros k. exists (eigvalsh n (h0 b k)). split; [unfold call, spectrum; rewrite b_size; auto|]. intros m Hm. destruct (@Heigvalsh k (h0 b k)) as [u Hu]; [intros; apply h0_bloch|]. pose proof (eig k) as HE. rewrite b_size in HE. pose proof (@h0_hermitian b b_herm k) as HH. rewrite b_size in HH. apply (@weyl_unique n (h0 b k) _ _ u (U k)); auto.
  - intros k ret order H1 H2. destruct order as [|order].
    + destruct H2 as [->|]; [|congruence]. exists [ComplexMatrix (U k)]. split; [|auto]. unfold call, spectrum. rewrite b_size. unfold U, E. cbn. destruct (eigh n (h0 b k)); auto.
    + rewrite call_order by lia. eexists. split; [reflexivity|]. destruct order as [|[|]]; [| |lia]; destruct ret; cbn; split; auto; discriminate.
  - intros k m z i Hm Hi. rewrite chain_bloch by auto. rewrite <- mv_h0. change (fun i0 => U k i0 m) with (col (U k) m). rewrite (col_eig (eig k)) by (rewrite b_size; auto). unfold bloch_wave. generalize (col (U k) m i), (cos (k * IZR z)), (sin (k * IZR z)), (E k m). intros. rc.
  - intros k ret order Ho. unfold call. destruct (spectrum _ _ _ _ _ _). destruct (Nat.ltb_spec 2 order); [auto|lia].
Qed.
(** ** All bands are continuous *)
Theorem C67_continuous : exists e, (forall k order ret, (1 <= order <= 2)%nat -> exists l, bands_call k order ret = Some (Tuple (RealArray (e k) :: l))) /\
  forall k m, (m < n)%nat -> continuity_pt (fun q => e q m) k.
Proof.
  exists E. split; [intros k order ret Ho; rewrite call_order by auto; eexists; reflexivity|]. intros k m Hm eps Heps. destruct (bounds_exist b k) as [K HB]. pose proof HB as (HK & _).
  set (d := Rmin 1 (eps / (2 * (K + 1)))). assert (Hd : 0 < d) by (apply Rmin_glb_lt; [lra|apply Rdiv_lt_0_compat; lra]). exists d. split; [auto|]. intros q [_ Hq]. cbn in *. unfold R_dist in *. pose proof (Rmin_l 1 (eps / (2 * (K + 1)))) as L1. pose proof (Rmin_r 1 (eps / (2 * (K + 1)))) as L2. fold d in L1, L2.
  rewrite <- b_size in Hm. pose proof (@lipschitz b b_herm k K (q - k) (E k) (E (k + (q - k))) (U k) (U (k + (q - k))) HB ltac:(lra) (eig k) (eig _) m Hm) as L. replace (k + (q - k)) with q in L by ring. eapply Rle_lt_trans; [apply L|].
  apply Rle_lt_trans with (2 * (K + 1) * Rabs (q - k)); [pose proof (Rabs_pos (q - k)); nra|]. apply Rlt_le_trans with (2 * (K + 1) * (eps / (2 * (K + 1)))); [apply Rmult_lt_compat_l; lra|]. apply Req_le. field. lra.
Qed.
(** ** Velocities and curvatures are derivatives of the energies, for nondegenerate bands *)
Theorem C67_velocity : exists e v', (forall k order ret, (1 <= order <= 2)%nat -> exists l, bands_call k order ret = Some (Tuple (RealArray (e k) :: RealArray (v' order k) :: l))) /\
  forall k m order, nondegenerate n (e k) m -> derivable_pt_lim (fun q => e q m) k (v' order k m).
Proof.
  exists E, V. split; [intros k order ret Ho; rewrite call_order by auto; eexists; reflexivity|]. intros k m order Hs. rewrite V_eq. apply E_derivable. auto.
Qed.
(** (the memory that np.divide leaves uninitialized enters) *)
Theorem C67_curvature : exists e v' c, (forall k ret, exists l, bands_call k 2 ret = Some (Tuple (RealArray (e k) :: RealArray (v' k) :: RealArray (c k) :: l))) /\
  forall k m, nondegenerate n (e k) m -> (exists d, 0 < d /\ forall q, Rabs (q - k) < d -> derivable_pt_lim (fun p => e p m) q (v' q m)) /\
    derivable_pt_lim (fun q => v' q m) k (c k m + 2 * uninit m m * (v' k m * v' k m)).
Proof.
  exists E, (V 2), C. split; [intros k ret; rewrite call_order by auto; eexists; reflexivity|]. intros k m Hs. split; [|rewrite <- C_eq by auto; apply V_derivable; auto].
  destruct (bounds_exist b k) as [K HB]. pose proof HB as (HK & _). pose proof Hs as Hs'. rewrite <- b_size in Hs. destruct (@gap_exists b (E k) m Hs) as (g & Hg & G). destruct Hs as [Hm _].
  set (d := Rmin 1 (g / (4 * (K + 1)))). assert (Hd : 0 < d) by (apply Rmin_glb_lt; [lra|apply Rdiv_lt_0_compat; lra]). exists d. split; [auto|]. intros q Hq. rewrite V_eq. apply E_derivable. split; [rewrite <- b_size; auto|]. intros j Hj Hne Eq.
  pose proof (Rmin_l 1 (g / (4 * (K + 1)))) as L1. pose proof (Rmin_r 1 (g / (4 * (K + 1)))) as L2. fold d in L1, L2. rewrite <- b_size in Hj. pose proof (@lipschitz b b_herm k K (q - k) (E k) (E (k + (q - k))) (U k) (U (k + (q - k))) HB ltac:(lra) (eig k) (eig _)) as L. replace (k + (q - k)) with q in L by ring.
  pose proof (L j Hj) as Lj. pose proof (L m Hm) as Lm. specialize (G j Hj Hne). rewrite <- Eq in Lm. pose proof (Rabs_triang (E q j - E k m) (- (E q j - E k j))) as T. rewrite Rabs_Ropp in T. replace (E q j - E k m + - (E q j - E k j)) with (E k j - E k m) in T by ring.
  assert (4 * (K + 1) * Rabs (q - k) < g). { apply Rlt_le_trans with (4 * (K + 1) * (g / (4 * (K + 1)))); [apply Rmult_lt_compat_l; lra|apply Req_le; field; lra]. } pose proof (Rabs_pos (q - k)). nra.
Qed.
End Props.
