From Coq Require Import List Bool Arith ZArith Reals Lia Lra Psatz Sorting.Permutation Sorting.Sorted.
From Verif Require Import KpmReal KpmRealProofs CvpModel CvpSpec.
Import ListNotations.
Open Scope R_scope.

Lemma Rsum_minus n f g : Rsum n (fun i => f i - g i) = Rsum n f - Rsum n g.
Proof. induction n as [|n IH]; cbn; [|rewrite IH]; lra. Qed.
Lemma Rsum_opp n f : Rsum n (fun i => - f i) = - Rsum n f.
Proof. induction n as [|n IH]; cbn; [|rewrite IH]; lra. Qed.
Lemma Rsum_nonneg n f : (forall i, (i < n)%nat -> 0 <= f i) -> 0 <= Rsum n f.
Proof. induction n as [|n IH]; intros H; cbn; [lra|]. assert (0 <= Rsum n f) by auto. specialize (H n (Nat.lt_succ_diag_r n)). lra. Qed.

(** ** dot products *)
Section Dot.
Variable d : nat.
Notation "u · v" := (dot d u v) (at level 40).
Lemma dot_ext u v u' v' : (forall k, (k < d)%nat -> u k = u' k) -> (forall k, (k < d)%nat -> v k = v' k) -> u · v = u' · v'.
Proof. intros H1 H2. apply Rsum_ext. intros. rewrite H1, H2; auto. Qed.
Lemma dot_comm u v : u · v = v · u. Proof. apply Rsum_ext. intros; ring. Qed.
Lemma dot_pos u : 0 <= u · u. Proof. apply Rsum_nonneg. intros. apply Rle_0_sqr. Qed.
Lemma dot_plus_l u v w : (fun k => u k + v k) · w = u · w + v · w.
Proof. unfold dot. rewrite <- Rsum_plus. apply Rsum_ext; intros; ring. Qed.
Lemma dot_minus_l u v w : (fun k => u k - v k) · w = u · w - v · w.
Proof. unfold dot. rewrite <- Rsum_minus. apply Rsum_ext; intros; ring. Qed.
Lemma dot_scal_l c u v : (fun k => c * u k) · v = c * (u · v).
Proof. unfold dot. rewrite <- Rsum_mult_l. apply Rsum_ext; intros; ring. Qed.
Lemma dot_plus_r u v w : w · (fun k => u k + v k) = w · u + w · v.
Proof. rewrite dot_comm, dot_plus_l, !(dot_comm w). auto. Qed.
Lemma dot_minus_r u v w : w · (fun k => u k - v k) = w · u - w · v.
Proof. rewrite dot_comm, dot_minus_l, !(dot_comm w). auto. Qed.
Lemma dot_scal_r c u v : u · (fun k => c * v k) = c * (u · v).
Proof. rewrite dot_comm, dot_scal_l, dot_comm. auto. Qed.
Lemma dot_sum_l m (f : nat -> nat -> R) (c : nat -> R) v : (fun k => Rsum m (fun i => c i * f i k)) · v = Rsum m (fun i => c i * (f i · v)).
Proof.
  unfold dot. transitivity (Rsum d (fun k => Rsum m (fun i => c i * (f i k * v k)))).
  - apply Rsum_ext. intros. rewrite <- Rsum_mult_r. apply Rsum_ext; intros; ring.
  - rewrite Rsum_swap. apply Rsum_ext. intros. apply Rsum_mult_l.
Qed.
Lemma dot_sum_r m (f : nat -> nat -> R) (c : nat -> R) v : v · (fun k => Rsum m (fun i => c i * f i k)) = Rsum m (fun i => c i * (v · f i)).
Proof. rewrite dot_comm, dot_sum_l. apply Rsum_ext; intros. rewrite dot_comm. auto. Qed.
Lemma cauchy u v : (u · v) * (u · v) <= (u · u) * (v · v).
Proof.
  set (A := u · u). set (B := u · v). set (C := v · v).
  assert (H : forall s t, 0 <= s * s * A - 2 * s * t * B + t * t * C).
  { intros s t. pose proof (dot_pos (fun k => s * u k - t * v k)) as P.
    rewrite dot_minus_l, !dot_minus_r, !dot_scal_l, !dot_scal_r in P. rewrite (dot_comm v u) in P. fold A B C in P. nra. }
  pose proof (H B A) as P. assert (0 <= A) by apply dot_pos. assert (0 <= C) by apply dot_pos.
  destruct (Req_dec A 0) as [E|N]; [|nra].
  pose proof (H (C + 1) B) as P2. rewrite E in *. nra.
Qed.
End Dot.

Lemma Rltb_spec x y : Rltb x y = true <-> x < y.
Proof. unfold Rltb. destruct (Rlt_dec x y); split; auto; discriminate. Qed.
Lemma Rltb_false x y : Rltb x y = false <-> y <= x.
Proof. unfold Rltb. destruct (Rlt_dec x y); split; auto; try discriminate; lra. Qed.

(** ** grids *)
Lemma in_zrange z lo n : In z (zrange lo n) <-> (lo <= z < lo + Z.of_nat n)%Z.
Proof.
  unfold zrange. rewrite in_map_iff. split.
  - intros (k & <- & H). apply in_seq in H. lia.
  - intros H. exists (Z.to_nat (z - lo)). split; [lia|apply in_seq; lia].
Qed.
Lemma zrange_NoDup lo n : NoDup (zrange lo n).
Proof. unfold zrange. apply FinFun.Injective_map_NoDup; [intros x y; lia|apply seq_NoDup]. Qed.
Lemma in_grid rs p : In p (grid rs) <-> Forall2 (fun z r => In z r) p rs.
Proof.
  revert p. induction rs as [|r rs IH]; intros p; cbn.
  - split; [intros [<-|[]]; constructor|]. inversion 1; auto.
  - rewrite in_flat_map. split.
    + intros (z & Hz & Hp). apply in_map_iff in Hp. destruct Hp as (q & <- & Hq). constructor; auto. apply IH; auto.
    + inversion 1; subst. exists x. split; auto. apply in_map, IH; auto.
Qed.
Lemma flatmap_NoDup {A B} (f : A -> list B) (l : list A) : NoDup l -> (forall x, In x l -> NoDup (f x)) ->
  (forall x y z, In x l -> In y l -> In z (f x) -> In z (f y) -> x = y) -> NoDup (flat_map f l).
Proof.
  induction 1 as [|x l Hx Hl IH]; intros H1 H2; cbn; [constructor|].
  assert (N1 : NoDup (f x)) by (apply H1; cbn; auto).
  assert (N2 : NoDup (flat_map f l)) by (apply IH; [intros; apply H1; cbn; auto|intros y z w Hy Hz; apply H2; cbn; auto]).
  assert (Dj : forall z, In z (f x) -> In z (flat_map f l) -> False).
  { intros z Hz Hf. apply in_flat_map in Hf. destruct Hf as (y & Hy & Hzy). assert (x = y) by (eapply H2; cbn; eauto). subst; auto. }
  clear - N1 N2 Dj. induction (f x) as [|a t IHt]; cbn; auto. inversion N1; subst. constructor.
  - rewrite in_app_iff. intros [H|H]; auto. apply (Dj a); cbn; auto.
  - apply IHt; auto. intros z Hz. apply Dj; cbn; auto.
Qed.
Lemma grid_NoDup rs : (forall r, In r rs -> NoDup r) -> NoDup (grid rs).
Proof.
  induction rs as [|r rs IH]; intros H; cbn; [repeat constructor; auto|].
  apply flatmap_NoDup.
  - apply H; cbn; auto.
  - intros z _. apply FinFun.Injective_map_NoDup; [intros x y E; congruence|]. apply IH. intros; apply H; cbn; auto.
  - intros x y z _ _ Hx Hy. apply in_map_iff in Hx, Hy. destruct Hx as (? & <- & _), Hy as (? & E & _). congruence.
Qed.
Lemma in_box c l p : In p (box c l) <-> length p = length c /\ forall i, (i < length c)%nat -> (Z.abs (nth i p 0 - nth i c 0) <= Z.of_nat l)%Z.
Proof.
  unfold box. rewrite in_grid. revert p. induction c as [|x c IH]; intros p; cbn [map length].
  - split; [inversion 1; subst; split; auto; intros; cbn in *; lia|]. intros [H _]. destruct p; [constructor|discriminate].
  - split.
    + intros H. inversion H as [|z r p' rs Hz Hp]; subst. apply IH in Hp. destruct Hp as [E Hp]. apply in_zrange in Hz. split; [cbn; auto|].
      intros [|i] Hi; cbn [nth]; [lia|]. apply Hp. lia.
    + intros [E H]. destruct p as [|z p]; [discriminate|]. constructor.
      * apply in_zrange. specialize (H O ltac:(lia)). cbn [nth] in H. lia.
      * apply IH. split; [cbn in E; lia|]. intros i Hi. apply (H (S i)). lia.
Qed.
Lemma box_NoDup c l : NoDup (box c l).
Proof. apply grid_NoDup. intros r H. apply in_map_iff in H. destruct H as (z & <- & _). apply zrange_NoDup. Qed.
Lemma flat_map_const_len {A B} (f : A -> list B) n l : (forall x, length (f x) = n) -> length (flat_map f l) = (length l * n)%nat.
Proof. intros H. induction l as [|x l IH]; cbn; auto. rewrite app_length, H, IH. auto. Qed.
Lemma box_length c l : length (box c l) = ((2 * l + 1) ^ length c)%nat.
Proof.
  unfold box. induction c as [|x c IH]; cbn [map grid length]; auto.
  rewrite flat_map_const_len with (n := ((2 * l + 1) ^ length c)%nat).
  - unfold zrange. rewrite map_length, seq_length. reflexivity.
  - intros. rewrite map_length. auto.
Qed.

(** ** the geometry of the box *)
Section Geo.
Variables m d : nat.
Variable b : nat -> nat -> R.
Variable inv : (nat -> nat -> R) -> nat -> nat -> R.
Hypothesis Hinv : inv_ok m d b inv.
Notation N := (inv (bbt d b)).
Notation "u · v" := (dot d u v) (at level 40).

Definition comb (x : nat -> R) (k : nat) : R := Rsum m (fun i => x i * b i k).
Definition maxdiag : R := fold_right Rmax 0 (map (fun i => N i i) (seq 0 m)).
Lemma Hinv' i j : (i < m)%nat -> (j < m)%nat -> Rsum m (fun k => N i k * (b k · b j)) = if (i =? j)%nat then 1 else 0.
Proof. intros Hi Hj. exact (Hinv i j Hi Hj). Qed.

Definition dual (i k : nat) : R := Rsum m (fun j => N i j * b j k).
Lemma dual_basis i j : (i < m)%nat -> (j < m)%nat -> dual i · b j = if (i =? j)%nat then 1 else 0.
Proof. intros Hi Hj. unfold dual. rewrite dot_sum_l. apply Hinv'; auto. Qed.
Lemma dual_comb i x : (i < m)%nat -> dual i · comb x = x i.
Proof.
  intros Hi. unfold comb. rewrite dot_sum_r. transitivity (Rsum m (fun j => if (j =? i)%nat then x j else 0)).
  - apply Rsum_ext. intros j Hj. rewrite dual_basis by auto. rewrite (Nat.eqb_sym j i). destruct (i =? j)%nat; ring.
  - apply Rsum_delta; auto.
Qed.
Lemma dual_norm i : (i < m)%nat -> dual i · dual i = N i i.
Proof. intros Hi. change (dual i · comb (N i) = N i i). apply dual_comb; auto. Qed.
Lemma coef_bound i x : (i < m)%nat -> x i * x i <= N i i * (comb x · comb x).
Proof. intros Hi. rewrite <- (dual_norm i Hi), <- (dual_comb i x Hi). apply cauchy. Qed.
Lemma maxdiag_ge i : (i < m)%nat -> N i i <= maxdiag.
Proof.
  intros Hi. unfold maxdiag. assert (H : In i (seq 0 m)) by (apply in_seq; lia). revert H. generalize (seq 0 m).
  induction l as [|j l IH]; [intros []|]. intros [->|H]; cbn; [apply Rmax_l|]. eapply Rle_trans; [apply IH; auto|apply Rmax_r].
Qed.
Lemma diag_pos i : (i < m)%nat -> 0 < N i i.
Proof.
  intros Hi. pose proof (coef_bound i (fun j => if (j =? i)%nat then 1 else 0) Hi) as H. cbn beta in H. rewrite Nat.eqb_refl in H.
  pose proof (dot_pos d (dual i)) as P. rewrite dual_norm in P by auto. destruct P as [P|P]; auto. rewrite <- P in H. lra.
Qed.
Lemma maxdiag_in : maxdiag = 0 \/ exists i, (i < m)%nat /\ maxdiag = N i i.
Proof.
  unfold maxdiag. assert (H : forall i, In i (seq 0 m) -> (i < m)%nat) by (intros i Hi; apply in_seq in Hi; lia). revert H. generalize (seq 0 m).
  induction l as [|j l IH]; intros H; cbn; auto. unfold Rmax. destruct (Rle_dec _ _).
  - fold Rmax. apply IH. intros; apply H; cbn; auto.
  - right. exists j. split; auto. apply H; cbn; auto.
Qed.
Hypothesis Hm : (0 < m)%nat.
Lemma maxdiag_pos : 0 < maxdiag.
Proof. eapply Rlt_le_trans; [apply (diag_pos 0 Hm)|apply maxdiag_ge; auto]. Qed.
Lemma maxdiag_at : exists i, (i < m)%nat /\ maxdiag = N i i.
Proof. destruct maxdiag_in as [E|]; auto. pose proof maxdiag_pos. lra. Qed.
Notation rad := (rad m d b inv).
Lemma rad_pos : 0 < rad.
Proof. unfold rad. apply Rdiv_lt_0_compat; [lra|]. apply sqrt_lt_R0. apply maxdiag_pos. Qed.
Lemma rad_sq : 4 * (rad * rad) * maxdiag = 1.
Proof.
  unfold rad. fold maxdiag. set (s := sqrt maxdiag). assert (Hs : s * s = maxdiag) by (apply sqrt_sqrt; left; apply maxdiag_pos).
  assert (0 < s) by (apply sqrt_lt_R0, maxdiag_pos). rewrite <- Hs. field. lra.
Qed.
(** a point whose coordinate i is away from the target by c has a distance of at least 2 c rad *)
Lemma norm_bound i x c : (i < m)%nat -> 0 <= c -> c <= Rabs (x i) -> 2 * c * rad <= sqrt (comb x · comb x).
Proof.
  intros Hi Hc Hx. pose proof rad_pos as Hr. apply Rsqr_incr_0_var; [|apply sqrt_pos]. rewrite Rsqr_sqrt by apply dot_pos. unfold Rsqr.
  pose proof (coef_bound i x Hi) as H1. pose proof (maxdiag_ge i Hi) as H2. pose proof rad_sq as H3. pose proof (dot_pos d (comb x)) as H4.
  assert (H5 : c * c <= x i * x i) by (pose proof (Rsqr_abs (x i)) as E; unfold Rsqr in E; rewrite E; nra).
  assert (H6 : c * c <= maxdiag * (comb x · comb x)) by nra.
  assert (4 * (rad * rad) * (c * c) <= 4 * (rad * rad) * (maxdiag * (comb x · comb x))) by (apply Rmult_le_compat_l; [nra|auto]).
  replace (4 * (rad * rad) * (maxdiag * (comb x · comb x))) with (comb x · comb x) in H by (rewrite <- Rmult_assoc, H3; ring). lra.
Qed.
End Geo.
