(** * neighbors succeeds for well separated distances. *)
From Coq Require Import List Bool Arith ZArith Reals Lia Lra Psatz Sorting.Permutation Sorting.Sorted.
From Verif Require Import KpmReal KpmRealProofs CvpModel CvpSpec CvpProofs CvpProps CvpGroup LllModel LllSpec LllProofs LatticeModel LatticeSpec LatticeProofs LatticeProps NeighborsModel NeighborsSpec ShellProofs NeighborsProofs NeighborsProofs2 NeighborsProps.
Import ListNotations.
Open Scope R_scope.

Lemma proj_gap h x x' : 0 <= h -> h <= x ^ 2 -> 0 <= x -> x <= x' -> sqrt (x ^ 2 - h) + (x' - x) <= sqrt (x' ^ 2 - h).
Proof.
  intros Hh Hx Px Hl. set (a := sqrt (x ^ 2 - h)). assert (Pa : 0 <= a) by apply sqrt_pos. assert (Ea : a * a = x ^ 2 - h) by (apply sqrt_sqrt; lra).
  assert (Ax : a <= x) by (apply Rsqr_incr_0_var; auto; unfold Rsqr; nra).
  apply Rsqr_incr_0_var; [|apply sqrt_pos]. rewrite Rsqr_sqrt by nra. unfold Rsqr. nra.
Qed.
Lemma last_map_ne {A B} (f : A -> B) l z z' : l <> [] -> last (map f l) z' = f (last l z).
Proof. induction l as [|x l IH]; [congruence|]. intros _. destruct l as [|y l]; [reflexivity|]. cbn [map] in *. rewrite !last_cons by discriminate. apply IH. discriminate. Qed.

Section T.
Variables m d : nat.
Variable prim : nat -> nat -> R.
Variable N : nat.
Variable basis : nat -> nat -> R.
Variable round : R -> Z.
Variable lstsq_mat : (nat -> nat -> R) -> (nat -> nat -> R) -> nat -> nat -> R.
Variable lstsq : (nat -> nat -> R) -> (nat -> R) -> nat -> R.
Variable inv : (nat -> nat -> R) -> nat -> nat -> R.
Variable argsort : (point -> R) -> list point -> list point.
Hypothesis Hm : (0 < m)%nat.
Hypothesis HN : (0 < N)%nat.
Hypothesis L : good_libraries m d round lstsq_mat lstsq inv argsort.
Hypothesis Hi : independent m d prim.
Notation sd := (site_dist d prim basis).
Notation lpos i := (pos m prim (basis i)).
Notation spos i := (site_position prim (basis i)).
Notation zeros := (zeros m).
Notation n_closest i := (n_closest m d prim (basis i) round lstsq_mat lstsq inv argsort).
Notation neighbors := (neighbors m d prim N basis round lstsq_mat lstsq inv argsort).
Notation len t := (dist d (vector prim t) (fun _ => 0)).

Lemma group_total lfuel v t i j n eps l D : reduced m d prim round lstsq_mat lfuel = Some (v, t) -> 0 < eps -> shortest_length m d prim l ->
  (i < N)%nat -> (j < N)%nat -> shells (distances_between m d prim N basis i j) (eps * l) D -> length D = n ->
  exists F, forall cfuel, (F <= cfuel)%nat -> exists tags, n_closest i lfuel cfuel (lpos j zeros) n true eps = Some tags.
Proof.
  intros R Heps Hl Hi' Hj (DN & SD & AD & Cov) Hn.
  destruct (reduced_ok m d prim round lstsq_mat lstsq inv argsort Hm L Hi lfuel v t R) as ((W & U1 & U2) & V & Iv & Lv).
  set (x := fun k => lpos j zeros k - basis i k). set (c := lstsq v x). set (y' := fun k => Rsum m (fun i => c i * v i k)). set (res := fun k => x k - y' k).
  destruct Lv as (_ & Lq & Linv & Lr & Ls). pose proof (rad_pos m d v inv Linv Hm) as Pr. set (rd := rad m d v inv) in *.
  assert (Dp : forall p, lattice_point m p -> sd (i, act m t p) (j, zeros) = dist d (vector v p) x).
  { intros p Lp. unfold site_dist. cbn [fst snd]. transitivity (dist d (spos i (act m t p)) (lpos j zeros)); [apply dist_ext; intros k Hk; rewrite (pos_spec m prim (basis j)) by apply zeros_len; reflexivity|].
    symmetry. exact (dist_act m d prim (basis i) v t p (lpos j zeros) Lp V). }
  assert (Hh : forall p, lattice_point m p -> dist d (vector v p) x ^ 2 = dist d (vector v p) y' ^ 2 + dot d res res).
  { intros p Lp. unfold dist. rewrite !pow2_sqrt by apply dot_pos. set (a := fun k => vector v p k - y' k).
    assert (Ho : dot d a res = 0).
    { transitivity (dot d (fun k => Rsum m (fun i => (IZR (nth i p 0%Z) - c i) * v i k)) res).
      - apply dot_ext; auto. intros k Hk. unfold a, vector, y'. rewrite Lp. rewrite <- Rsum_minus. apply Rsum_ext. intros; ring.
      - rewrite dot_sum_l. rewrite (@Rsum_ext m _ (fun i => 0)); [apply Rsum_0|]. intros a' Ha'. pose proof (Lq x a' Ha') as O. fold c in O. change (dot d (v a') res = 0) in O. rewrite O. ring. }
    transitivity (dot d (fun k => a k - res k) (fun k => a k - res k)).
    + apply dot_ext; intros k Hk; unfold a, res; ring.
    + rewrite dot_minus_l, !dot_minus_r, (dot_comm d res a), Ho. change (dot d (fun k => vector v p k - y' k) (fun k => vector v p k - y' k)) with (dot d a a). ring. }
  set (h := dot d res res) in *. assert (Ph : 0 <= h) by apply dot_pos.
  assert (Rl : 2 * rd <= l).
  { destruct Hl as [(s & Ls' & Ns & ->) _]. destruct (act_surj m t W s U1 Ls') as [Lw Ew]. set (p := act m W s) in *.
    destruct (nonzero_tag m p Lw) as (k & Hk).
    - intros X. apply Ns. rewrite <- Ew, X. apply list_eq_nth with (n := m); [apply act_length|apply repeat_length|]. intros a Ha. rewrite act_nth, nth_zeros by auto.
      rewrite (@Zsum_ext m _ (fun _ => 0%Z)); [apply Zsum_0|]. intros a' Ha'. rewrite nth_zeros. lia.
    - assert (Hkm : (k < m)%nat) by (destruct (Nat.lt_ge_cases k m); auto; rewrite nth_overflow in Hk by (rewrite Lw; auto); congruence).
      assert (B1 : 1 <= Rabs (IZR (nth k p 0%Z))) by (rewrite <- abs_IZR; apply IZR_le; lia).
      pose proof (norm_bound m d v inv Linv Hm k (fun i => IZR (nth i p 0%Z)) 1 Hkm ltac:(lra) B1) as B. fold rd in B.
      assert (Ed : len s = sqrt (dot d (comb m v (fun i => IZR (nth i p 0%Z))) (comb m v (fun i => IZR (nth i p 0%Z))))).
      { unfold dist. f_equal. apply dot_ext; intros a Ha; rewrite Rminus_0_r, <- Ew; rewrite <- (vector_act m v prim t p a) by auto; unfold vector, comb; rewrite Lw; reflexivity. }
      rewrite Ed. lra. }
  set (f := fun z => sqrt (z ^ 2 - h)).
  assert (Fp : forall p, lattice_point m p -> dist d (vector v p) y' = f (sd (i, act m t p) (j, zeros)) /\ h <= sd (i, act m t p) (j, zeros) ^ 2).
  { intros p Lp. rewrite Dp, (Hh p Lp) by auto. assert (P0 : 0 <= dist d (vector v p) y') by apply sqrt_pos. split; [|nra]. unfold f. rewrite (Hh p Lp). replace (dist d (vector v p) y' ^ 2 + h - h) with (dist d (vector v p) y' ^ 2) by ring. symmetry. apply sqrt_pow2. auto. }
  (* elements of D come from lattice points *)
  assert (Pt : forall z, In z D -> exists p, lattice_point m p /\ z = sd (i, act m t p) (j, zeros)).
  { intros z Hz. rewrite Forall_forall in AD. destruct (AD z Hz) as ((i1, s) & (j1, u) & (_ & Ls1) & (_ & Lu) & E1 & E2 & ->). cbn [fst snd] in *. subst i1 j1.
    assert (Lp : lattice_point m (psub s u)) by (unfold lattice_point; rewrite psub_length; auto; rewrite Ls1; auto).
    destruct (act_surj m t W (psub s u) U1 Lp) as [Lw Ew]. exists (act m W (psub s u)). split; auto. rewrite Ew. apply sd_shift; auto. }
  assert (Gap : forall z z', In z D -> z + eps * l < z' -> 0 <= z' -> f z + eps * rd < f z').
  { intros z z' Hz Hl' _. destruct (Pt z Hz) as (p & Lp & Ez). destruct (Fp p Lp) as [_ Hz2]. rewrite <- Ez in Hz2.
    assert (Pz : 0 <= z) by (rewrite Ez; apply sd_pos). assert (Pe : 0 < eps * rd) by (apply Rmult_lt_0_compat; auto). assert (Pl : 2 * (eps * rd) <= eps * l) by nra.
    pose proof (proj_gap h z z' Ph Hz2 Pz ltac:(lra)) as PG. fold (f z) (f z') in PG. lra. }
  assert (Sh : shells (fun y => exists p, lattice_point m p /\ y = dist d (vector v p) (comb m v (lstsq v x))) (eps * rd) (map f D)).
  { change (comb m v (lstsq v x)) with y'. split; [intros X; apply map_eq_nil in X; auto|]. split; [|split].
    - eapply sorted_map; [|exact SD]. cbv beta. intros z z' Hz Hz' Hl'. apply Gap; auto. destruct (Pt z' Hz') as (p & _ & ->). apply sd_pos.
    - apply Forall_forall. intros z Hz. apply in_map_iff in Hz. destruct Hz as (w & <- & Hw). destruct (Pt w Hw) as (p & Lp & ->). exists p. split; auto. symmetry. apply Fp; auto.
    - intros z (p & Lp & ->). rewrite (last_map_ne f D 0 0) by auto. rewrite (proj1 (Fp p Lp)).
      destruct (Cov (sd (i, act m t p) (j, zeros))) as [X|X].
      + exists (i, act m t p), (j, zeros). repeat split; auto; [apply act_length|apply zeros_len].
      + left. apply in_map. auto.
      + right. apply Gap; auto; [apply last_In; auto|apply sd_pos]. }
  destruct (group_terminates m d v (lstsq v) inv round argsort Linv Ls Hm x n eps (map f D) (Rlt_le _ _ Heps) Sh ltac:(rewrite map_length; auto)) as (F & HF).
  exists F. intros cfuel Hc. destruct (HF cfuel Hc) as (ps & E). unfold LatticeModel.n_closest. rewrite R. change (fun k => lpos j zeros k - basis i k) with x. rewrite E. eauto.
Qed.

(** If the reduction of the basis terminates, the distances between sites of each
    pair of sublattices start with n + 1 well separated ones, and so do those
    between any sites, then neighbors(n, eps) returns. *)
Theorem C57_total : forall lfuel vt n eps l D, reduced m d prim round lstsq_mat lfuel = Some vt -> 0 < eps -> shortest_length m d prim l ->
  (forall i j, (i <= j)%nat -> (j < N)%nat -> exists Dij, length Dij = S n /\ shells (distances_between m d prim N basis i j) (eps * l) Dij) ->
  shells (distances m d prim N basis) (eps * l) D -> length D = S n ->
  exists F, forall cfuel, (F <= cfuel)%nat -> exists kinds, neighbors lfuel cfuel n eps = Some kinds.
Proof.
  intros lfuel (v, t) n eps l D R Heps Hl Hp HD Hn.
  destruct (reduced_ok m d prim round lstsq_mat lstsq inv argsort Hm L Hi lfuel v t R) as (_ & _ & _ & Lv).
  destruct (C36_terminates m d v (lstsq v) inv round argsort (fun k => lpos 0%nat zeros k - basis 0%nat k) 2 (1 / 10 ^ 9) Lv ltac:(lia)) as (F0 & HF0).
  assert (G : forall ps, (forall i j, In (i, j) ps -> In (i, j) (sublat_pairs N)) -> exists F, forall cfuel, (F <= cfuel)%nat ->
    exists sites, sequence (map (pair_sites m d prim basis round lstsq_mat lstsq inv argsort lfuel cfuel n eps) ps) = Some sites).
  { induction ps as [|(i, j) ps IH]; intros Hps; [exists 0%nat; intros; exists []; reflexivity|]. destruct IH as (F1 & HF1); [intros; apply Hps; cbn; auto|].
    assert (Hij : In (i, j) (sublat_pairs N)) by (apply Hps; cbn; auto). apply in_pairs in Hij. destruct Hij as (Hi' & Hj & Hle). destruct (Hp i j Hle Hj) as (Dij & Ln & Sh).
    destruct (group_total lfuel v t i j (n + 1) eps l Dij R Heps Hl Hi' Hj Sh ltac:(lia)) as (F2 & HF2). exists (Nat.max F1 F2). intros cfuel Hc.
    destruct (HF1 cfuel ltac:(lia)) as (sites & E1). destruct (HF2 cfuel ltac:(lia)) as (tags & E2).
    cbn [map sequence]. unfold NeighborsModel.pair_sites at 1. rewrite E2. rewrite E1. eauto. }
  destruct (G (sublat_pairs N) ltac:(auto)) as (F1 & HF1). exists (Nat.max F0 F1). intros cfuel Hc.
  destruct (HF1 cfuel ltac:(lia)) as (sites & Es). destruct (HF0 cfuel ltac:(lia)) as (ps & E0).
  unfold NeighborsModel.neighbors. destruct (tolerance _ _ _ _ _ _ _ _ _ _ _ _) as [tol|] eqn:Et.
  - rewrite Es. destruct (tolerance_spec m d prim basis round lstsq_mat lstsq inv argsort Hm L Hi _ _ _ _ Et) as (l' & Hl' & Etol). rewrite (shortest_unique m d prim l l') in HD by auto.
    apply sequence_spec in Es. rewrite (nth_distance m d prim N basis round lstsq_mat lstsq inv argsort Hm HN L Hi lfuel cfuel n eps tol l' D) by (auto; rewrite Etol; auto). eauto.
  - exfalso. unfold NeighborsModel.tolerance, LatticeModel.n_closest in Et. rewrite R, E0 in Et. discriminate.
Qed.
End T.
Print Assumptions C57_total.
