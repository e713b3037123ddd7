(** * Complex vectors: norms, eigensystems, perturbation bounds. *)
From Coq Require Import Reals List Bool Arith ZArith Lia Lra Psatz Ring.
From Verif Require Import StarRing DiscretizeReal BandsModel BandsSpec.
Import ListNotations.
Set Implicit Arguments.
Local Open Scope R_scope.

Lemma RCe (x y : RC) : fst x = fst y -> snd x = snd y -> x = y.
Proof. destruct x, y. cbn. intros -> ->. auto. Qed.
Ltac rc := apply RCe; cbn; ring.
Definition vct := nat -> RC.
Definition sq (z : RC) : R := fst z * fst z + snd z * snd z.
Lemma sq_nonneg z : 0 <= sq z. Proof. unfold sq. nra. Qed.
(** Real sums *)
Fixpoint rsum (n : nat) (f : nat -> R) : R := match n with O => 0 | S n => rsum n f + f n end.
Lemma fst_sum n (f : nat -> RC) : fst (sum RC n f) = rsum n (fun i => fst (f i)).
Proof. induction n as [|n IH]; [auto|]. rewrite sum_S. cbn [rsum]. rewrite <- IH. auto. Qed.
Lemma snd_sum n (f : nat -> RC) : snd (sum RC n f) = rsum n (fun i => snd (f i)).
Proof. induction n as [|n IH]; [auto|]. rewrite sum_S. cbn [rsum]. rewrite <- IH. auto. Qed.
Lemma rsum_ext n f g : (forall i, (i < n)%nat -> f i = g i) -> rsum n f = rsum n g.
Proof. induction n as [|n IH]; intros H; [auto|]. cbn. rewrite IH, H; auto. Qed.
Lemma rsum_add n f g : rsum n (fun i => f i + g i) = rsum n f + rsum n g.
Proof. induction n as [|n IH]; cbn; [lra|]. rewrite IH. lra. Qed.
Lemma rsum_scale n c f : rsum n (fun i => c * f i) = c * rsum n f.
Proof. induction n as [|n IH]; cbn; [lra|]. rewrite IH. lra. Qed.
Lemma rsum_le n f g : (forall i, (i < n)%nat -> f i <= g i) -> rsum n f <= rsum n g.
Proof. induction n as [|n IH]; intros H; [cbn; lra|]. cbn. pose proof (H n ltac:(lia)). assert (rsum n f <= rsum n g) by (apply IH; intros; apply H; lia). lra. Qed.
Lemma rsum_0 n f : (forall i, (i < n)%nat -> f i = 0) -> rsum n f = 0.
Proof. induction n as [|n IH]; intros H; [auto|]. cbn. rewrite IH, H; auto. lra. Qed.
Lemma rsum_nonneg n f : (forall i, (i < n)%nat -> 0 <= f i) -> 0 <= rsum n f.
Proof. intros H. rewrite <- (@rsum_0 n (fun _ => 0)) by auto. apply rsum_le; auto. Qed.
Lemma rsum_abs n f : Rabs (rsum n f) <= rsum n (fun i => Rabs (f i)).
Proof. induction n as [|n IH]; cbn; [rewrite Rabs_R0; lra|]. pose proof (Rabs_triang (rsum n f) (f n)). lra. Qed.
Lemma rsum_pick n m f : (m < n)%nat -> rsum n f = f m + rsum n (fun i => if (i =? m)%nat then 0 else f i).
Proof.
  induction n as [|n IH]; intros H; [lia|]. cbn. destruct (Nat.eqb_spec n m) as [->|].
  - rewrite (@rsum_ext m (fun i => if (i =? m)%nat then 0 else f i) f); [lra|]. intros i Hi. destruct (Nat.eqb_spec i m); [lia|auto].
  - rewrite IH by lia. lra.
Qed.

(** Inner products *)
Section V.
Variable n : nat.
Definition ip (x y : vct) : RC := sum RC n (fun i => rmul RC (rconj RC (x i)) (y i)).
Definition rip (x y : vct) : R := fst (ip x y).
Definition nn (x : vct) : R := rip x x.
Definition nrm (x : vct) : R := sqrt (nn x).
Definition vad (x y : vct) : vct := fun i => radd RC (x i) (y i).
Definition vsc (c : RC) (x : vct) : vct := fun i => rmul RC c (x i).
Definition mv (a : mat) (x : vct) : vct := fun i => sum RC n (fun j => rmul RC (a i j) (x j)).
Lemma rip_sum x y : rip x y = rsum n (fun i => fst (x i) * fst (y i) + snd (x i) * snd (y i)).
Proof. unfold rip, ip. rewrite fst_sum. apply rsum_ext. intros. cbn. ring. Qed.
Lemma nn_sum x : nn x = rsum n (fun i => sq (x i)).
Proof. apply rip_sum. Qed.
Lemma ip_ext x y x' y' : (forall i, (i < n)%nat -> x i = x' i) -> (forall i, (i < n)%nat -> y i = y' i) -> ip x y = ip x' y'.
Proof. intros H1 H2. apply sum_ext. intros i Hi. rewrite H1, H2; auto. Qed.
Lemma rip_ext x y x' y' : (forall i, (i < n)%nat -> x i = x' i) -> (forall i, (i < n)%nat -> y i = y' i) -> rip x y = rip x' y'.
Proof. intros H1 H2. unfold rip. rewrite (ip_ext _ _ _ _ H1 H2). auto. Qed.
Lemma nrm_ext x x' : (forall i, (i < n)%nat -> x i = x' i) -> nrm x = nrm x'.
Proof. intros H. unfold nrm, nn. rewrite (rip_ext _ _ _ _ H H). auto. Qed.
Lemma nn_ext x x' : (forall i, (i < n)%nat -> x i = x' i) -> nn x = nn x'.
Proof. intros H. unfold nn. apply rip_ext; auto. Qed.
Lemma ip_conj x y : ip y x = rconj RC (ip x y).
Proof. unfold ip. rewrite sum_conj. apply sum_ext. intros. rc. Qed.
Lemma ip_add_r x y z : ip x (vad y z) = radd RC (ip x y) (ip x z).
Proof. unfold ip. rewrite <- sum_add. apply sum_ext. intros. unfold vad. rc. Qed.
Lemma ip_scale_r c x y : ip x (vsc c y) = rmul RC c (ip x y).
Proof. unfold ip. rewrite <- sum_mul_l. apply sum_ext. intros. unfold vsc. rc. Qed.
Lemma rip_sym x y : rip x y = rip y x.
Proof. unfold rip. rewrite (ip_conj x y). auto. Qed.
Lemma rip_add_r x y z : rip x (vad y z) = rip x y + rip x z.
Proof. unfold rip. rewrite ip_add_r. auto. Qed.
Lemma rip_add_l x y z : rip (vad y z) x = rip y x + rip z x.
Proof. rewrite rip_sym, rip_add_r, (rip_sym x y), (rip_sym x z). auto. Qed.
Lemma rip_scale_r a x y : rip x (vsc (a, 0) y) = a * rip x y.
Proof. unfold rip. rewrite ip_scale_r. cbn. ring. Qed.
Lemma rip_scale_l a x y : rip (vsc (a, 0) x) y = a * rip x y.
Proof. rewrite rip_sym, rip_scale_r, rip_sym. auto. Qed.
Lemma nn_nonneg x : 0 <= nn x.
Proof. rewrite nn_sum. apply rsum_nonneg. intros. apply sq_nonneg. Qed.
Lemma nn_scale c x : nn (vsc c x) = sq c * nn x.
Proof. rewrite !nn_sum, <- rsum_scale. apply rsum_ext. intros i _. unfold vsc, sq. cbn. ring. Qed.
Lemma cs2 x y : rip x y * rip x y <= nn x * nn y.
Proof.
  assert (Q : forall s t, 0 <= s * s * nn x + 2 * (s * t) * rip x y + t * t * nn y).
  { intros s t. pose proof (nn_nonneg (vad (vsc (s, 0) x) (vsc (t, 0) y))) as H. unfold nn in *. rewrite !rip_add_r, !rip_add_l, !rip_scale_r, !rip_scale_l in H. rewrite (rip_sym y x) in H. lra. }
  pose proof (nn_nonneg y) as Hy. destruct (Req_dec (nn y) 0) as [E|E].
  - destruct (Req_dec (rip x y) 0) as [E2|E2]; [rewrite E2; pose proof (nn_nonneg x); nra|]. exfalso.
    specialize (Q 1 (- (nn x + 1) / (2 * rip x y))). rewrite E in Q. replace (2 * (1 * (- (nn x + 1) / (2 * rip x y))) * rip x y) with (- (nn x + 1)) in Q by (field; auto). lra.
  - specialize (Q (nn y) (- rip x y)). assert (0 < nn y) by lra. apply Rmult_le_reg_l with (nn y); [auto|]. nra.
Qed.
Lemma nrm_nonneg x : 0 <= nrm x. Proof. apply sqrt_pos. Qed.
Lemma nrm_sq x : nrm x * nrm x = nn x. Proof. apply sqrt_sqrt, nn_nonneg. Qed.
Lemma sq_le_abs a b : 0 <= b -> a * a <= b * b -> Rabs a <= b.
Proof. intros Hb H. apply Rabs_le. split; nra. Qed.
Lemma cs x y : Rabs (rip x y) <= nrm x * nrm y.
Proof.
  apply sq_le_abs; [apply Rmult_le_pos; apply nrm_nonneg|]. replace (nrm x * nrm y * (nrm x * nrm y)) with ((nrm x * nrm x) * (nrm y * nrm y)) by ring. rewrite !nrm_sq. apply cs2.
Qed.
Lemma nrm_tri x y : nrm (vad x y) <= nrm x + nrm y.
Proof.
  pose proof (nrm_nonneg x). pose proof (nrm_nonneg y). pose proof (nrm_nonneg (vad x y)).
  assert (E : nn (vad x y) = nn x + 2 * rip x y + nn y). { unfold nn. rewrite !rip_add_r, !rip_add_l, (rip_sym y x). ring. }
  pose proof (cs x y). pose proof (Rle_abs (rip x y)). rewrite <- !nrm_sq in E. nra.
Qed.
Lemma nrm_scale c x : nrm (vsc c x) = sqrt (sq c) * nrm x.
Proof. unfold nrm. rewrite nn_scale, sqrt_mult_alt; [auto|apply sq_nonneg]. Qed.
Lemma nrm_rscale a x : nrm (vsc (a, 0) x) = Rabs a * nrm x.
Proof. rewrite nrm_scale. f_equal. unfold sq. cbn. replace (a * a + 0 * 0) with (Rsqr a) by (unfold Rsqr; ring). apply sqrt_Rsqr_abs. Qed.
Lemma ccs x y : sq (ip x y) <= nn x * nn y.
Proof.
  set (c := ip x y). pose proof (cs2 x (vsc (rconj RC c) y)) as H. rewrite nn_scale in H. unfold rip in H. rewrite ip_scale_r in H. fold c in H.
  replace (fst (rmul RC (rconj RC c) c)) with (sq c) in H by (unfold sq; cbn; ring). replace (sq (rconj RC c)) with (sq c) in H by (unfold sq; cbn; ring).
  pose proof (sq_nonneg c). destruct (Req_dec (sq c) 0) as [E|E]; [rewrite E; apply Rmult_le_pos; apply nn_nonneg|]. apply Rmult_le_reg_l with (sq c); [lra|]. lra.
Qed.
(** Matrices are bounded *)
Lemma mv_bounded a : exists M, 0 <= M /\ forall x, nrm (mv a x) <= M * nrm x.
Proof.
  set (S2 := rsum n (fun i => nn (fun j => rconj RC (a i j)))). assert (HS : 0 <= S2) by (apply rsum_nonneg; intros; apply nn_nonneg).
  exists (sqrt S2). split; [apply sqrt_pos|]. intros x. unfold nrm. rewrite <- sqrt_mult by (auto; apply nn_nonneg). apply sqrt_le_1_alt. rewrite nn_sum. unfold S2. rewrite Rmult_comm, <- rsum_scale. apply rsum_le. intros i _. rewrite Rmult_comm.
  assert (E : mv a x i = ip (fun j => rconj RC (a i j)) x) by (unfold mv, ip; apply sum_ext; intros; rc). rewrite E. apply ccs.
Qed.
Lemma mv_add a x y i : mv a (vad x y) i = radd RC (mv a x i) (mv a y i).
Proof. unfold mv. rewrite <- sum_add. apply sum_ext. intros. unfold vad. rc. Qed.
Lemma mv_scale a c x i : mv a (vsc c x) i = rmul RC c (mv a x i).
Proof. unfold mv. rewrite <- sum_mul_l. apply sum_ext. intros. unfold vsc. rc. Qed.
Lemma mv_ext a x x' i : (forall j, (j < n)%nat -> x j = x' j) -> mv a x i = mv a x' i.
Proof. intros H. apply sum_ext. intros j Hj. rewrite H; auto. Qed.
Lemma herm_ip h x y : hermitian n h -> ip x (mv h y) = ip (mv h x) y.
Proof.
  intros Hh. unfold ip, mv.
  transitivity (sum RC n (fun i => sum RC n (fun j => rmul RC (rmul RC (rconj RC (x i)) (h i j)) (y j)))).
  { apply sum_ext. intros i _. rewrite <- sum_mul_l. apply sum_ext. intros. rc. }
  rewrite sum_swap. apply sum_ext. intros j Hj. rewrite sum_conj, <- sum_mul_r. apply sum_ext. intros i Hi. rewrite (Hh i j) by auto. rc.
Qed.
(** Eigensystems *)
Section E.
Variable h : mat.
Variable e : nat -> R.
Variable u : mat.
Hypothesis Hh : hermitian n h.
Hypothesis HE : eigensystem n h e u.
Definition col (m : nat) : vct := fun i => u i m.
Definition cf (x : vct) (m : nat) : RC := ip (col m) x.
Lemma col_ortho i j : (i < n)%nat -> (j < n)%nat -> ip (col i) (col j) = delta i j.
Proof. destruct HE as (_ & H & _). apply H. Qed.
Lemma col_eig m i : (m < n)%nat -> (i < n)%nat -> mv h (col m) i = rmul RC (e m, 0) (col m i).
Proof. destruct HE as (_ & _ & _ & H). intros Hm Hi. apply (H i m); auto. Qed.
Lemma parseval x y : ip x y = sum RC n (fun m => rmul RC (rconj RC (cf x m)) (cf y m)).
Proof.
  unfold cf at 1 2. unfold ip at 2 3.
  transitivity (sum RC n (fun m => sum RC n (fun i => sum RC n (fun j => rmul RC (rmul RC (rconj RC (x i)) (y j)) (rmul RC (u i m) (rconj RC (u j m))))))).
  - rewrite sum_swap. unfold ip. apply sum_ext. intros i Hi. rewrite sum_swap.
    transitivity (sum RC n (fun j => if (j =? i)%nat then rmul RC (rconj RC (x i)) (y j) else r0 RC)); [rewrite sum_delta; auto|].
    apply sum_ext. intros j Hj. destruct HE as (_ & _ & H & _). rewrite sum_mul_l, H by auto. unfold delta. destruct (Nat.eqb_spec j i), (Nat.eqb_spec i j); try lia; rc.
  - apply sum_ext. intros m Hm. rewrite sum_conj, <- sum_mul_r. apply sum_ext. intros i _. rewrite <- sum_mul_l. apply sum_ext. intros j _. unfold col. rc.
Qed.
Lemma nn_cf x : nn x = rsum n (fun m => sq (cf x m)).
Proof. unfold nn, rip. rewrite parseval, fst_sum. apply rsum_ext. intros. unfold sq. cbn. ring. Qed.
Lemma cf_mv x m : (m < n)%nat -> cf (mv h x) m = rmul RC (e m, 0) (cf x m).
Proof.
  intros Hm. unfold cf. rewrite herm_ip by auto.
  transitivity (ip (vsc (e m, 0) (col m)) x); [apply ip_ext; [intros i Hi; apply col_eig; auto|auto]|]. rewrite ip_conj, ip_scale_r, (ip_conj (col m) x). generalize (ip (col m) x). intros z. rc.
Qed.
Lemma rip_mv x : rip x (mv h x) = rsum n (fun m => e m * sq (cf x m)).
Proof. unfold rip. rewrite parseval, fst_sum. apply rsum_ext. intros m Hm. rewrite cf_mv by auto. unfold sq. cbn. ring. Qed.
(** Perturbation bounds *)
Section P.
Variable n0 : nat.
Hypothesis Hn0 : (n0 < n)%nat.
Variable lam g : R.
Hypothesis Hg : 0 < g.
Hypothesis Hgap : forall m, (m < n)%nat -> m <> n0 -> g <= Rabs (e m - lam).
Variable chi : vct.
Definition res : vct := fun i => rsub RC (mv h chi i) (rmul RC (lam, 0) (chi i)).
Lemma cf_res m : (m < n)%nat -> cf res m = rmul RC (e m - lam, 0) (cf chi m).
Proof.
  intros Hm. unfold cf. transitivity (ip (col m) (vad (mv h chi) (vsc (- lam, 0) chi))); [apply ip_ext; [auto|]; intros; unfold res, vad, vsc; rc|].
  rewrite ip_add_r, ip_scale_r. fold (cf (mv h chi) m). rewrite cf_mv by auto. unfold cf. generalize (ip (col m) chi). intros z. rc.
Qed.
Lemma nn_res : nn res = rsum n (fun m => (e m - lam) * (e m - lam) * sq (cf chi m)).
Proof. rewrite nn_cf. apply rsum_ext. intros m Hm. rewrite cf_res by auto. unfold sq. cbn. ring. Qed.
Lemma rip_res : rip chi res = rsum n (fun m => (e m - lam) * sq (cf chi m)).
Proof. unfold rip. rewrite parseval, fst_sum. apply rsum_ext. intros m Hm. rewrite cf_res by auto. unfold sq. cbn. ring. Qed.
Definition rest (f : nat -> R) : R := rsum n (fun m => if (m =? n0)%nat then 0 else f m).
Lemma gap2 m : (m < n)%nat -> m <> n0 -> g * g <= (e m - lam) * (e m - lam).
Proof. intros Hm Hne. pose proof (Hgap Hm Hne) as H. unfold Rabs in H. destruct (Rcase_abs _); nra. Qed.
Lemma rest_small : g * g * rest (fun m => sq (cf chi m)) <= nn res.
Proof.
  unfold rest. rewrite <- rsum_scale, nn_res. apply rsum_le. intros m Hm. pose proof (sq_nonneg (cf chi m)). destruct (Nat.eqb_spec m n0) as [->|Hne]; [rewrite Rmult_0_r; apply Rmult_le_pos; [apply Rle_0_sqr|auto]|].
  apply Rmult_le_compat_r; [auto|]. apply gap2; auto.
Qed.
Lemma main_weight : nn chi - nn res / (g * g) <= sq (cf chi n0) <= nn chi.
Proof.
  pose proof rest_small as H. rewrite (nn_cf chi), (@rsum_pick n n0 (fun m => sq (cf chi m)) Hn0). fold (rest (fun m => sq (cf chi m))).
  assert (0 <= rest (fun m => sq (cf chi m))) by (apply rsum_nonneg; intros m _; destruct (m =? n0)%nat; [lra|apply sq_nonneg]).
  assert (rest (fun m => sq (cf chi m)) <= nn res / (g * g)). { apply Rmult_le_reg_l with (g * g); [nra|]. replace (g * g * (nn res / (g * g))) with (nn res) by (field; lra). auto. }
  lra.
Qed.
Lemma energy_bound : Rabs ((e n0 - lam) * sq (cf chi n0)) <= Rabs (rip chi res) + nn res / g.
Proof.
  pose proof rip_res as E. rewrite (@rsum_pick n n0 (fun m => (e m - lam) * sq (cf chi m)) Hn0) in E. set (r := rsum n _) in E.
  assert (Hr : Rabs r <= nn res / g).
  { apply Rle_trans with (rsum n (fun i => Rabs (if (i =? n0)%nat then 0 else (e i - lam) * sq (cf chi i)))); [apply rsum_abs|].
    apply Rmult_le_reg_l with g; [auto|]. replace (g * (nn res / g)) with (nn res) by (field; lra). rewrite <- rsum_scale, nn_res. apply rsum_le. intros m Hm. pose proof (sq_nonneg (cf chi m)).
    destruct (Nat.eqb_spec m n0) as [->|Hne]; [rewrite Rabs_R0, Rmult_0_r; apply Rmult_le_pos; [apply Rle_0_sqr|auto]|]. pose proof (Hgap Hm Hne) as G. rewrite Rabs_mult, (Rabs_pos_eq (sq _)) by auto.
    replace ((e m - lam) * (e m - lam)) with (Rabs (e m - lam) * Rabs (e m - lam)) by (rewrite <- Rabs_mult; apply Rabs_pos_eq; apply Rle_0_sqr).
    rewrite <- !Rmult_assoc. apply Rmult_le_compat_r; [auto|]. apply Rmult_le_compat_r; [apply Rabs_pos|auto]. }
  replace ((e n0 - lam) * sq (cf chi n0)) with (rip chi res + - r) by lra. pose proof (Rabs_triang (rip chi res) (- r)). rewrite Rabs_Ropp in *. lra.
Qed.
(** The part of chi along the eigenvector, and the remainder *)
Definition along : vct := vsc (cf chi n0) (col n0).
Definition perp : vct := fun i => rsub RC (chi i) (along i).
Lemma cf_perp m : (m < n)%nat -> cf perp m = if (m =? n0)%nat then r0 RC else cf chi m.
Proof.
  intros Hm. unfold cf. transitivity (ip (col m) (vad chi (vsc (-1, 0) along))); [apply ip_ext; [auto|]; intros; unfold perp, vad, vsc; rc|].
  rewrite ip_add_r, ip_scale_r. unfold along. rewrite ip_scale_r, col_ortho by auto. unfold delta, cf. destruct (Nat.eqb_spec m n0) as [->|]; [generalize (ip (col n0) chi)|generalize (ip (col m) chi), (ip (col n0) chi)]; intros; rc.
Qed.
Lemma nn_perp : nn perp <= nn res / (g * g).
Proof.
  apply Rmult_le_reg_l with (g * g); [nra|]. replace (g * g * (nn res / (g * g))) with (nn res) by (field; lra). eapply Rle_trans; [|apply rest_small].
  rewrite nn_cf. unfold rest. apply Req_le. f_equal. apply rsum_ext. intros m Hm. rewrite cf_perp by auto. destruct (m =? n0)%nat; [unfold sq; cbn; ring|auto].
Qed.
Lemma nrm_perp : nrm perp <= nrm res / g.
Proof.
  pose proof nn_perp as H. rewrite <- !nrm_sq in H. pose proof (nrm_nonneg perp). pose proof (nrm_nonneg res). assert (Hp : 0 <= nrm res / g) by (apply Rmult_le_pos; [auto|left; apply Rinv_0_lt_compat; auto]).
  replace (nrm res * nrm res / (g * g)) with (nrm res / g * (nrm res / g)) in H by (field; lra). nra.
Qed.
Lemma nrm_along : nrm along <= nrm chi.
Proof.
  unfold nrm. apply sqrt_le_1_alt. unfold along. rewrite nn_scale. assert (nn (col n0) = 1) as ->. { unfold nn, rip. rewrite col_ortho by auto. unfold delta. rewrite Nat.eqb_refl. auto. }
  pose proof main_weight. lra.
Qed.
Lemma expectation_bound a M : 0 <= M -> (forall x, nrm (mv a x) <= M * nrm x) ->
  Rabs (sq (cf chi n0) * rip (col n0) (mv a (col n0)) - rip chi (mv a chi)) <= 2 * M * nrm chi * (nrm res / g) + M * (nrm res / g) * (nrm res / g).
Proof.
  intros HM Ha.
  assert (E1 : rip along (mv a along) = sq (cf chi n0) * rip (col n0) (mv a (col n0))).
  { unfold rip. transitivity (fst (ip (vsc (cf chi n0) (col n0)) (vsc (cf chi n0) (mv a (col n0))))); [f_equal; apply ip_ext; [auto|intros; apply mv_scale]|].
    rewrite ip_scale_r, ip_conj, ip_scale_r, (ip_conj (col n0) (mv a (col n0))). unfold sq. cbn. ring. }
  assert (E2 : rip chi (mv a chi) = rip along (mv a along) + rip along (mv a perp) + (rip perp (mv a along) + rip perp (mv a perp))).
  { rewrite <- !rip_add_r, <- rip_add_l. apply rip_ext; intros i Hi.
    - unfold vad, perp. rc.
    - unfold vad. rewrite <- mv_add. apply mv_ext. intros j Hj. unfold vad, perp. rc. }
  rewrite E2, <- E1.
  assert (B : forall x y, Rabs (rip x (mv a y)) <= M * nrm x * nrm y). { intros x y. eapply Rle_trans; [apply cs|]. pose proof (Ha y). pose proof (nrm_nonneg x). nra. }
  pose proof (B along perp) as B1. pose proof (B perp along) as B2. pose proof (B perp perp) as B3. pose proof nrm_perp as P1. pose proof nrm_along as P2. pose proof (nrm_nonneg perp). pose proof (nrm_nonneg along). pose proof (nrm_nonneg chi).
  set (x := rip along (mv a perp)) in *. set (y := rip perp (mv a along)) in *. set (z := rip perp (mv a perp)) in *.
  replace (rip along (mv a along) - (rip along (mv a along) + x + (y + z))) with (- (x + (y + z))) by ring. rewrite Rabs_Ropp. pose proof (Rabs_triang x (y + z)). pose proof (Rabs_triang y z).
  set (d := nrm res / g) in *. assert (nrm along * nrm perp <= nrm chi * d) by (apply Rmult_le_compat; auto). assert (nrm perp * nrm perp <= d * d) by (apply Rmult_le_compat; auto).
  assert (M * (nrm along * nrm perp) <= M * (nrm chi * d)) by (apply Rmult_le_compat_l; auto). assert (M * (nrm perp * nrm perp) <= M * (d * d)) by (apply Rmult_le_compat_l; auto). nra.
Qed.
End P.
End E.
End V.
