(** * Sorted eigenvalues depend continuously on the matrix. *)
From Coq Require Import Reals List Bool Arith ZArith Lia Lra Psatz Ring.
From Verif Require Import StarRing DiscretizeReal BandsModel BandsSpec BandsLin.
Import ListNotations.
Set Implicit Arguments.
Local Open Scope R_scope.

Lemma rc_dec (x y : RC) : {x = y} + {x <> y}.
Proof.
  destruct (Req_EM_T (fst x) (fst y)) as [E1|E1]; [|right; intros ->; auto]. destruct (Req_EM_T (snd x) (snd y)) as [E2|E2]; [|right; intros ->; auto]. left. apply RCe; auto.
Qed.
Lemma find_nz (f : nat -> RC) k : (exists p, (p < k)%nat /\ f p <> r0 RC) \/ forall p, (p < k)%nat -> f p = r0 RC.
Proof.
  induction k as [|k [(p & Hp & H)|IH]]; [right; intros; lia|left; exists p; split; [lia|auto]|].
  destruct (rc_dec (f k) (r0 RC)) as [E|E]; [|left; exists k; split; [lia|auto]]. right. intros p Hp. destruct (Nat.eq_dec p k) as [->|]; [auto|apply IH; lia].
Qed.
Definition sk (p j : nat) : nat := if (j <? p)%nat then j else S j.
Lemma sum_skip m p (f : nat -> RC) : (p <= m)%nat -> sum RC (S m) f = radd RC (f p) (sum RC m (fun l => f (sk p l))).
Proof.
  intros H. replace (S m) with (p + S (m - p))%nat by lia. rewrite sum_split. replace (S (m - p)) with (1 + (m - p))%nat by lia. rewrite sum_split.
  replace m with (p + (m - p))%nat at 2 by lia. rewrite sum_split.
  rewrite (@sum_ext RC p (fun l => f (sk p l)) f) by (intros i Hi; unfold sk; destruct (Nat.ltb_spec i p); [auto|lia]).
  rewrite (@sum_ext RC (m - p) (fun i => f (sk p (p + i)%nat)) (fun i => f (p + (1 + i))%nat)) by (intros i Hi; unfold sk; destruct (Nat.ltb_spec (p + i) p); [lia|f_equal; lia]).
  rewrite sum_S, Nat.add_0_r. unfold sum at 2. cbn [seq]. rewrite lsum_nil. generalize (sum RC p f), (f p), (sum RC (m - p) (fun i => f (p + (1 + i))%nat)). intros a b c. rc.
Qed.
(** fewer equations than unknowns *)
Lemma underdetermined m : forall A : nat -> nat -> RC, exists c : nat -> RC, (exists j, (j <= m)%nat /\ c j <> r0 RC) /\ forall i, (i < m)%nat -> sum RC (S m) (fun j => rmul RC (A i j) (c j)) = r0 RC.
Proof.
  induction m as [|m IH]; intros A.
  - exists (fun _ => r1 RC). split; [exists 0%nat; split; [auto|]; intros [= E]; lra|intros; lia].
  - destruct (find_nz (A m) (S (S m))) as [(p & Hp & Hnz)|Hz].
    + set (q := cinv (A m p)). assert (Hq : rmul RC (A m p) q = r1 RC) by (apply cinv_ok; auto).
      destruct (IH (fun i j => rsub RC (A i (sk p j)) (rmul RC (rmul RC (A i p) q) (A m (sk p j))))) as (c & (j0 & Hj0 & Hc) & Hs).
      set (cp := ropp RC (rmul RC q (sum RC (S m) (fun l => rmul RC (A m (sk p l)) (c l))))).
      set (c' := fun j => if (j =? p)%nat then cp else c (if (j <? p)%nat then j else (j - 1)%nat)).
      assert (Hsk : forall l, c' (sk p l) = c l). { intros l. unfold c', sk. destruct (Nat.ltb_spec l p). { destruct (Nat.eqb_spec l p); [lia|]. destruct (Nat.ltb_spec l p); [auto|lia]. } destruct (Nat.eqb_spec (S l) p); [lia|]. destruct (Nat.ltb_spec (S l) p); [lia|]. f_equal. lia. }
      assert (Hcp : c' p = cp) by (unfold c'; rewrite Nat.eqb_refl; auto).
      exists c'. split; [exists (sk p j0); split; [unfold sk; destruct (j0 <? p)%nat; lia|rewrite Hsk; auto]|].
      intros i Hi. rewrite (@sum_skip (S m) p _ ltac:(lia)). rewrite Hcp. rewrite (@sum_ext RC (S m) _ (fun l => rmul RC (A i (sk p l)) (c l))) by (intros; rewrite Hsk; auto).
      destruct (Nat.eq_dec i m) as [->|Hne].
      * unfold cp. set (s := sum RC (S m) _). generalize s. intros z. transitivity (radd RC (ropp RC (rmul RC (rmul RC (A m p) q) z)) z); [rc|]. rewrite Hq. rc.
      * specialize (Hs i ltac:(lia)). rewrite <- Hs.
        rewrite (@sum_ext RC (S m) (fun j => rmul RC (rsub RC (A i (sk p j)) (rmul RC (rmul RC (A i p) q) (A m (sk p j)))) (c j)) (fun j => rsub RC (rmul RC (A i (sk p j)) (c j)) (rmul RC (rmul RC (A i p) q) (rmul RC (A m (sk p j)) (c j))))) by (intros; rc).
        rewrite sum_sub, sum_mul_l. unfold cp. generalize (sum RC (S m) (fun l => rmul RC (A m (sk p l)) (c l))), (sum RC (S m) (fun l => rmul RC (A i (sk p l)) (c l))). intros z w. rc.
    + destruct (IH A) as (c & (j0 & Hj0 & Hc) & Hs). exists (fun j => if (j <=? m)%nat then c j else r0 RC). split; [exists j0; split; [lia|]; destruct (Nat.leb_spec j0 m); [auto|lia]|].
      intros i Hi. destruct (Nat.eq_dec i m) as [->|Hne]; [apply sum_zero; intros j Hj; rewrite Hz by lia; rc|]. rewrite sum_S. destruct (Nat.leb_spec (S m) m); [lia|].
      rewrite (@sum_ext RC (S m) _ (fun j => rmul RC (A i j) (c j))) by (intros j Hj; destruct (Nat.leb_spec j m); [auto|lia]). rewrite Hs by lia. rc.
Qed.
Lemma weyl n h h' e e' u u' D : hermitian n h -> hermitian n h' -> eigensystem n h e u -> eigensystem n h' e' u' ->
  (forall x, rip n x (mv n h x) - rip n x (mv n h' x) <= D * nn n x) -> forall m, (m < n)%nat -> e m <= e' m + D.
Proof.
  intros Hh Hh' HE HE' HD m Hm.
  destruct (underdetermined m (fun i j => ip n (col u i) (col u' j))) as (c & (j0 & Hj0 & Hc) & Hs).
  set (x := (fun i => sum RC (S m) (fun j => rmul RC (c j) (u' i j))) : vct).
  assert (Hip : forall y, ip n y x = sum RC (S m) (fun j => rmul RC (c j) (ip n y (col u' j)))).
  { intros y. unfold ip, x. transitivity (sum RC n (fun i => sum RC (S m) (fun j => rmul RC (c j) (rmul RC (rconj RC (y i)) (u' i j))))); [apply sum_ext; intros i _; rewrite <- sum_mul_l; apply sum_ext; intros; rc|].
    rewrite sum_swap. apply sum_ext. intros j _. rewrite sum_mul_l. auto. }
  assert (C1 : forall i, (i < m)%nat -> cf n u x i = r0 RC). { intros i Hi. unfold cf. rewrite Hip, <- (Hs i Hi). apply sum_ext. intros. generalize (ip n (col u i) (col u' i0)). intros z. rc. }
  assert (C2 : forall j, (j < n)%nat -> cf n u' x j = if (j <=? m)%nat then c j else r0 RC).
  { intros j Hj. unfold cf. rewrite Hip. transitivity (sum RC (S m) (fun l => if (l =? j)%nat then c l else r0 RC)).
    - apply sum_ext. intros l Hl. rewrite (col_ortho HE') by lia. unfold delta. destruct (Nat.eqb_spec l j), (Nat.eqb_spec j l); try lia; rc.
    - destruct (Nat.leb_spec j m); [apply (@sum_delta RC (S m) j c); lia|apply sum_delta_out; lia]. }
  assert (Hpos : 0 < nn n x).
  { rewrite (nn_cf HE'), (@rsum_pick n j0 _ ltac:(lia)). rewrite C2 by lia. destruct (Nat.leb_spec j0 m); [|lia].
    assert (0 <= rsum n (fun i => if (i =? j0)%nat then 0 else sq (cf n u' x i))) by (apply rsum_nonneg; intros i _; destruct (i =? j0)%nat; [lra|apply sq_nonneg]).
    assert (0 < sq (c j0)); [|lra]. pose proof (sq_nonneg (c j0)). destruct (Req_dec (sq (c j0)) 0) as [E|]; [|lra]. exfalso. apply Hc. unfold sq in E. apply RCe; cbn; nra. }
  destruct HE as (Srt & HEr). destruct HE' as (Srt' & HEr'). assert (HE : eigensystem n h e u) by (split; auto). assert (HE' : eigensystem n h' e' u') by (split; auto).
  assert (L1 : e m * nn n x <= rip n x (mv n h x)).
  { rewrite (rip_mv Hh HE), (nn_cf HE), <- rsum_scale. apply rsum_le. intros i Hi. destruct (le_lt_dec m i) as [Hmi|Hmi].
    - apply Rmult_le_compat_r; [apply sq_nonneg|]. apply Srt; auto.
    - rewrite C1 by auto. unfold sq. cbn. lra. }
  assert (L2 : rip n x (mv n h' x) <= e' m * nn n x).
  { rewrite (rip_mv Hh' HE'), (nn_cf HE'), <- rsum_scale. apply rsum_le. intros i Hi. destruct (le_lt_dec i m) as [Hmi|Hmi].
    - apply Rmult_le_compat_r; [apply sq_nonneg|]. apply Srt'; auto.
    - rewrite C2 by auto. destruct (Nat.leb_spec i m); [lia|]. unfold sq. cbn. lra. }
  specialize (HD x). apply Rmult_le_reg_r with (nn n x); [auto|]. lra.
Qed.
(** The sorted eigenvalues are unique *)
Lemma weyl_unique n h e e' u u' : hermitian n h -> eigensystem n h e u -> eigensystem n h e' u' -> forall m, (m < n)%nat -> e m = e' m.
Proof.
  intros Hh HE HE' m Hm. assert (H0 : forall x, rip n x (mv n h x) - rip n x (mv n h x) <= 0 * nn n x) by (intros; lra).
  pose proof (@weyl n h h e e' u u' 0 Hh Hh HE HE' H0 m Hm). pose proof (@weyl n h h e' e u' u 0 Hh Hh HE' HE H0 m Hm). lra.
Qed.
