(** * Proofs for C31: the state of a SpectralDensity object. *)
From Coq Require Import List Bool Arith ZArith Ring Lia.
From Verif Require Import StarRing KpmModel KpmSpec.
Import ListNotations.
Set Implicit Arguments.

Lemma set_nth_length {A} i (x : A) l : length (set_nth i x l) = length l.
Proof. revert i. induction l as [|y l IH]; intros [|i]; cbn; auto. Qed.
Lemma set_nth_nth {A} i (x : A) l j : nth_error (set_nth i x l) j = if (i =? j) && (i <? length l) then Some x else nth_error l j.
Proof.
  revert i j. induction l as [|y l IH]; intros [|i] [|j]; cbn; auto; try (rewrite andb_false_r; auto).
  rewrite IH. reflexivity.
Qed.
Lemma set_nth_app {A} (l : list A) x y r : set_nth (length l) x (l ++ y :: r) = l ++ x :: r.
Proof. induction l as [|z l IH]; cbn; [reflexivity|]. rewrite IH. reflexivity. Qed.
Lemma nth_error_ext {A} (l l' : list A) : (forall j, nth_error l j = nth_error l' j) -> l = l'.
Proof.
  revert l'. induction l as [|x l IH]; intros [|y l'] H; auto; try (specialize (H 0); discriminate H).
  pose proof (H 0) as H0. injection H0 as ->. f_equal. apply IH. intros j. exact (H (S j)).
Qed.

Section Vec.
Variable R : StarRing.
Add Ring RringK : (r_theory R).
Notation vec := (list R).
Lemma vsub_length (x y : vec) : length (vsub x y) = Nat.min (length x) (length y).
Proof. unfold vsub. rewrite map_length, combine_length. reflexivity. Qed.
Lemma vscale_length c (x : vec) : length (vscale c x) = length x.
Proof. unfold vscale. apply map_length. Qed.
Lemma vdot_cons a (x : vec) b y : vdot (a :: x) (b :: y) = radd R (rmul R (rconj R a) b) (vdot x y).
Proof. reflexivity. Qed.
Lemma conj_two : rconj R two = two.
Proof. unfold two. rewrite rconj_add, conj1. reflexivity. Qed.
Lemma vdot_l (x y z : vec) : length x = length z -> length y = length z ->
  vdot (vsub (vscale two x) y) z = rsub R (rmul R two (vdot x z)) (vdot y z).
Proof.
  revert x y. induction z as [|c z IH]; intros [|a x] [|b y] H1 H2; try discriminate.
  - unfold vdot. cbn. unfold lsum. cbn. ring.
  - injection H1 as H1. injection H2 as H2.
    change (vsub (vscale two (a :: x)) (b :: y)) with (rsub R (rmul R two a) b :: vsub (vscale two x) y).
    rewrite !vdot_cons, IH by auto. rewrite conj_sub, rconj_mul, conj_two. ring.
Qed.
Lemma vdot_r (x y z : vec) : length x = length z -> length y = length z ->
  vdot z (vsub (vscale two x) y) = rsub R (rmul R two (vdot z x)) (vdot z y).
Proof.
  revert x y. induction z as [|c z IH]; intros [|a x] [|b y] H1 H2; try discriminate.
  - unfold vdot. cbn. unfold lsum. cbn. ring.
  - injection H1 as H1. injection H2 as H2.
    change (vsub (vscale two (a :: x)) (b :: y)) with (rsub R (rmul R two a) b :: vsub (vscale two x) y).
    rewrite !vdot_cons, IH by auto. ring.
Qed.

Section Cheb.
Variable H : vec -> vec.
Lemma cheb_SS n v : cheb H (S (S n)) v = vsub (vscale two (H (cheb H (S n) v))) (cheb H n v).
Proof. reflexivity. Qed.
Variable d : nat.
Hypothesis HH : hermitian H d.
Lemma cheb_length n v : length v = d -> length (cheb H n v) = d.
Proof.
  intros Hv. destruct HH as [HL _]. assert (P : length (cheb H n v) = d /\ length (cheb H (S n) v) = d); [|apply P].
  induction n as [|n [I1 I2]]; [cbn; auto|]. split; auto. rewrite cheb_SS, vsub_length, vscale_length, HL, I1 by auto. lia.
Qed.
Variable v : vec.
Hypothesis Hv : length v = d.
Notation g m n := (vdot (cheb H m v) (cheb H n v)).
Notation mu n := (vdot v (cheb H n v)).
Lemma len n : length (cheb H n v) = d. Proof. apply cheb_length; auto. Qed.
Lemma g_S0 n : vdot (H (cheb H n v)) v = g n 1.
Proof. destruct HH as [HL HS]. rewrite HS by (auto using len). reflexivity. Qed.
Lemma hg m n : radd R (g m (S (S n))) (g m n) = rmul R two (vdot (H (cheb H m v)) (cheb H (S n) v)).
Proof.
  destruct HH as [HL HS]. rewrite (cheb_SS n), vdot_r by (rewrite ?HL; rewrite ?len; auto). rewrite HS by (auto using len). ring.
Qed.
Lemma product m n : n <= m -> rmul R two (g m n) = radd R (mu (m + n)) (mu (m - n)).
Proof.
  destruct HH as [HL HS].
  assert (P : forall m n, rmul R two (g m n) = radd R (mu (m + n)) (mu ((m - n) + (n - m))) /\
                      rmul R two (g (S m) n) = radd R (mu (S m + n)) (mu ((S m - n) + (n - S m)))).
  { clear m n. induction m as [|m IH]; intros n.
    - split.
      + cbn [Nat.add Nat.sub]. rewrite Nat.sub_0_r. change (cheb H 0 v) with v. unfold two. ring.
      + destruct n as [|n].
        * cbn [Nat.add Nat.sub]. change (cheb H 0 v) with v. change (cheb H 1 v) with (H v). rewrite HS by auto. unfold two. ring.
        * change (cheb H 1 v) with (H v). change (H v) with (H (cheb H 0 v)). rewrite <- hg. change (cheb H 0 v) with v.
          replace (1 + S n) with (S (S n)) by lia. replace (1 - S n + (S n - 1)) with n by lia. reflexivity.
    - split; [apply IH|]. destruct n as [|n].
      + rewrite cheb_SS, vdot_l by (rewrite ?HL; rewrite ?len; auto). change (vdot (H (cheb H (S m) v)) (cheb H 0 v)) with (vdot (H (cheb H (S m) v)) v). rewrite g_S0.
        pose proof (proj2 (IH 1)) as E1. pose proof (proj1 (IH 0)) as E0.
        transitivity (rsub R (rmul R two (rmul R two (g (S m) 1))) (rmul R two (g m 0))); [ring|]. rewrite E1, E0.
        replace (S m + 1) with (S (S m) + 0) by lia. replace (S m - 1 + (1 - S m)) with (m + 0) by lia. replace (m - 0 + (0 - m)) with (m + 0) by lia.
        replace (S (S m) - 0 + (0 - S (S m))) with (S (S m) + 0) by lia. unfold two. ring.
      + rewrite cheb_SS, vdot_l by (rewrite ?HL; rewrite ?len; auto).
        transitivity (rsub R (rmul R two (rmul R two (vdot (H (cheb H (S m) v)) (cheb H (S n) v)))) (rmul R two (g m (S n)))); [ring|].
        rewrite <- hg. transitivity (rsub R (radd R (rmul R two (g (S m) (S (S n)))) (rmul R two (g (S m) n))) (rmul R two (g m (S n)))); [ring|].
        rewrite (proj2 (IH (S (S n)))), (proj2 (IH n)), (proj1 (IH (S n))).
        replace (S m + S (S n)) with (S (S m) + S n) by lia. replace (S m - S (S n) + (S (S n) - S m)) with (m - S n + (S n - m)) by lia.
        replace (S m + n) with (m + S n) by lia. replace (S (S m) - S n + (S n - S (S m))) with (S m - n + (n - S m)) by lia. ring. }
  intros Hmn. rewrite (proj1 (P m n)). do 3 f_equal. lia.
Qed.
Lemma even n : rsub R (rmul R two (g n n)) (mu 0) = mu (2 * n).
Proof. rewrite product by lia. replace (n - n) with 0 by lia. replace (n + n) with (2 * n) by lia. ring. Qed.
Lemma odd n : rsub R (rmul R two (g (S n) n)) (mu 1) = mu (2 * n + 1).
Proof. rewrite product by lia. replace (S n - n) with 1 by lia. replace (S n + n) with (2 * n + 1) by lia. ring. Qed.
End Cheb.

(** the rescaled Hamiltonian is Hermitian *)
Lemma vdot_sum (x y : vec) : length x = length y -> vdot x y = sum R (length y) (fun i => rmul R (rconj R (nth i x (r0 R))) (nth i y (r0 R))).
Proof.
  revert x. induction y as [|b y IH]; intros [|a x] E; try discriminate; [reflexivity|]. injection E as E.
  rewrite vdot_cons, IH by auto. unfold sum. cbn [length seq]. rewrite <- seq_shift. unfold lsum at 2. cbn [fold_right nth]. f_equal.
  change (lsum R (fun i => rmul R (rconj R (nth i x (r0 R))) (nth i y (r0 R))) (seq 0 (length y)) = lsum R (fun i => rmul R (rconj R (nth i (a :: x) (r0 R))) (nth i (b :: y) (r0 R))) (map S (seq 0 (length y)))).
  rewrite lsum_map. apply lsum_ext. intros i _. reflexivity.
Qed.
Lemma mul_vec_nth (h : nat -> nat -> R) n v i : i < n -> nth i (mul_vec h n v) (r0 R) = sum R n (fun j => rmul R (h i j) (nth j v (r0 R))).
Proof. intros Hi. unfold mul_vec. apply nth_error_nth. rewrite (map_nth_error _ i (seq 0 n) (d := i)); auto. rewrite (nth_error_nth' _ 0) by (rewrite seq_length; auto). rewrite seq_nth; auto. Qed.
Lemma rescaled_length (h : nat -> nat -> R) n ainv b v : length v = n -> length (@rescaled R h n ainv b v) = n.
Proof. intros E. unfold rescaled. rewrite vscale_length, vsub_length, vscale_length. unfold mul_vec. rewrite map_length, seq_length. lia. Qed.
Lemma nth_vscale c (x : vec) i : nth i (vscale c x) (r0 R) = rmul R c (nth i x (r0 R)).
Proof. unfold vscale. rewrite <- (map_nth (rmul R c)). destruct (Nat.lt_ge_cases i (length x)).
  - apply nth_indep. rewrite map_length. auto.
  - rewrite !nth_overflow; rewrite ?map_length; auto. ring. Qed.
Lemma nth_vsub (x y : vec) i : length x = length y -> nth i (vsub x y) (r0 R) = rsub R (nth i x (r0 R)) (nth i y (r0 R)).
Proof.
  intros E. unfold vsub. destruct (Nat.lt_ge_cases i (length x)).
  - rewrite (nth_error_nth _ i (r0 R) (x := rsub R (nth i x (r0 R)) (nth i y (r0 R)))); auto.
    change (rsub R (nth i x (r0 R)) (nth i y (r0 R))) with ((fun ab => rsub R (fst ab) (snd ab)) (nth i x (r0 R), nth i y (r0 R))). apply map_nth_error.
    rewrite <- combine_nth by auto. apply nth_error_nth'. rewrite combine_length. lia.
  - rewrite !nth_overflow; rewrite ?map_length, ?combine_length; try lia. ring.
Qed.
Lemma rescaled_hermitian (h : nat -> nat -> R) n ainv b : (forall i j, i < n -> j < n -> rconj R (h j i) = h i j) -> rconj R ainv = ainv -> rconj R b = b ->
  hermitian (rescaled h n ainv b) n.
Proof.
  intros Hh Ha Hb. split; [intros v; apply rescaled_length|]. intros x y Hx Hy.
  assert (N : forall v i, length v = n -> i < n -> nth i (rescaled h n ainv b v) (r0 R) = rmul R ainv (rsub R (sum R n (fun j => rmul R (h i j) (nth j v (r0 R)))) (rmul R b (nth i v (r0 R))))).
  { intros v i Hl Hi. unfold rescaled. rewrite nth_vscale, nth_vsub, mul_vec_nth, nth_vscale; auto. unfold mul_vec. rewrite map_length, seq_length, vscale_length. auto. }
  rewrite !vdot_sum; rewrite ?rescaled_length; auto. rewrite Hy.
  transitivity (rmul R ainv (rsub R (sum R n (fun i => sum R n (fun j => rmul R (rmul R (rconj R (nth j x (r0 R))) (h j i)) (nth i y (r0 R))))) (rmul R b (sum R n (fun i => rmul R (rconj R (nth i x (r0 R))) (nth i y (r0 R))))))).
  - rewrite <- (@sum_mul_l R n b), <- sum_sub, <- sum_mul_l. apply sum_ext. intros i Hi. rewrite N by auto. rewrite rconj_mul, Ha, conj_sub, rconj_mul, Hb.
    assert (E : rconj R (sum R n (fun j => rmul R (h i j) (nth j x (r0 R)))) = sum R n (fun j => rmul R (rconj R (nth j x (r0 R))) (h j i))).
    { rewrite sum_conj. apply sum_ext. intros j Hj. rewrite rconj_mul, Hh by auto. ring. }
    rewrite E. transitivity (rmul R ainv (rsub R (rmul R (sum R n (fun j => rmul R (rconj R (nth j x (r0 R))) (h j i))) (nth i y (r0 R))) (rmul R b (rmul R (rconj R (nth i x (r0 R))) (nth i y (r0 R)))))); [ring|].
    f_equal. f_equal. rewrite <- sum_mul_r. reflexivity.
  - etransitivity; [apply f_equal; apply (f_equal (fun t => rsub R t _)); apply sum_swap|]. rewrite <- (@sum_mul_l R n b), <- sum_sub, <- sum_mul_l. apply sum_ext. intros i Hi. rewrite N by auto.
    transitivity (rmul R ainv (rsub R (rmul R (rconj R (nth i x (r0 R))) (sum R n (fun j => rmul R (h i j) (nth j y (r0 R))))) (rmul R b (rmul R (rconj R (nth i x (r0 R))) (nth i y (r0 R)))))); [|ring].
    f_equal. f_equal. rewrite <- sum_mul_l. apply sum_ext. intros j _. ring.
Qed.
End Vec.
