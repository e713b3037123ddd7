(** * Shot noise: the four blocks of a unitary two-terminal matrix agree. *)
From Coq Require Import List Bool Arith ZArith Ring Lia.
From Verif Require Import StarRing SubmatrixModel SolverModel SolverSpec SolverProofs.
Import ListNotations.
Set Implicit Arguments.

Section Noise.
Variable R : StarRing.
Add Ring RringN : (r_theory R).
Local Open Scope star_scope.
Notation "0" := (r0 R) : star_scope.
Notation "1" := (r1 R) : star_scope.
Notation conj := (rconj R).

(** A n x n; f(A) = Tr (A - A^2) *)
Definition fnoise (n : nat) (A : nat -> nat -> R) : R := sum R n (fun a => A a a - sum R n (fun b => A a b * A b a)).
Lemma fnoise_ext n A B : (forall a b, (a < n)%nat -> (b < n)%nat -> A a b = B a b) -> fnoise n A = fnoise n B.
Proof. intros H. unfold fnoise. apply sum_ext. intros a Ha. rewrite H by auto. f_equal. apply sum_ext. intros b Hb. rewrite !H by auto. reflexivity. Qed.
Lemma sum_delta' n k f : (k < n)%nat -> sum R n (fun i => f i * delta R i k) = f k.
Proof.
  intros H. rewrite <- (@sum_delta R n k f H). apply sum_ext. intros i _. unfold delta. destruct (i =? k)%nat; ring.
Qed.
Lemma fnoise_compl n A : fnoise n (fun a b => delta R a b - A a b) = fnoise n A.
Proof.
  unfold fnoise.
  transitivity (sum R n (fun a => A a a - sum R n (fun b => A a b * A b a))); [|reflexivity].
  apply sum_ext. intros a Ha.
  transitivity (delta R a a - A a a - sum R n (fun b => delta R a b * delta R b a - A b a * delta R b a - A a b * delta R b a + A a b * A b a)).
  { f_equal. apply sum_ext. intros b Hb. unfold delta. rewrite (Nat.eqb_sym b a). destruct (a =? b)%nat; ring. }
  rewrite sum_add, !sum_sub, !sum_delta' by auto. ring.
Qed.
Lemma fnoise_cyclic n m (t t' : nat -> nat -> R) :
  fnoise n (fun a a' => sum R m (fun b => t a b * t' b a')) = fnoise m (fun b b' => sum R n (fun a => t' b a * t a b')).
Proof.
  unfold fnoise. rewrite !sum_sub. f_equal.
  - rewrite sum_swap. apply sum_ext. intros b _. apply sum_ext. intros a _. ring.
  - (* sum_a sum_a' (sum_b t a b t' b a') (sum_b' t a' b' t' b' a) *)
    transitivity (sum R n (fun a => sum R n (fun a' => sum R m (fun b => sum R m (fun b' => t a b * t' b a' * (t a' b' * t' b' a)))))).
    { apply sum_ext. intros a _. apply sum_ext. intros a' _. rewrite <- sum_mul_r. apply sum_ext. intros b _. rewrite <- sum_mul_l. reflexivity. }
    transitivity (sum R m (fun b => sum R m (fun b' => sum R n (fun a' => sum R n (fun a => t a b * t' b a' * (t a' b' * t' b' a)))))).
    { transitivity (sum R n (fun a => sum R m (fun b => sum R n (fun a' => sum R m (fun b' => t a b * t' b a' * (t a' b' * t' b' a)))))).
      { apply sum_ext. intros a _. apply sum_swap. }
      rewrite sum_swap. apply sum_ext. intros b _.
      transitivity (sum R n (fun a => sum R m (fun b' => sum R n (fun a' => t a b * t' b a' * (t a' b' * t' b' a))))).
      { apply sum_ext. intros a _. apply sum_swap. }
      rewrite sum_swap. apply sum_ext. intros b' _. apply sum_swap. }
    apply sum_ext. intros b _. apply sum_ext. intros b' _. rewrite <- sum_mul_r. apply sum_ext. intros a' _.
    rewrite <- sum_mul_l. apply sum_ext. intros a _. ring.
Qed.

Variables (sizes : list nat) (full : mode -> mode -> R).
Hypothesis H2 : length sizes = 2%nat.
Hypothesis U : unitary sizes full.
Notation size := (size sizes).
Notation noise := (noise sizes full).

Lemma two z : valid_lead 2 z -> z = 0%Z \/ z = 1%Z.
Proof. unfold valid_lead. lia. Qed.
Lemma modes2 (f : mode -> R) : lsum R f (modes_of sizes (all_leads (length sizes))) = sum R (size 0) (fun a => f (0%Z, a)) + sum R (size 1) (fun a => f (1%Z, a)).
Proof. rewrite lsum_modes, H2. change (all_leads 2) with [0%Z; 1%Z]. rewrite !lsum_cons, lsum_nil. ring. Qed.

Lemma row_compl o a a' : valid_lead 2 o -> (a < size o)%nat -> (a' < size o)%nat ->
  tt_dagger sizes full o 0 a a' + tt_dagger sizes full o 1 a a' = delta R a a'.
Proof.
  intros Ho Ha Ha'. destruct U as [U1 _].
  assert (Hv : valid_lead (length sizes) o) by (rewrite H2; auto).
  destruct (U1 (o, a) (o, a') (in_modes sizes Hv Ha) (in_modes sizes Hv Ha')) as [E1 E2].
  rewrite modes2 in E1, E2. unfold tt_dagger, delta. destruct (Nat.eqb_spec a a') as [->|N]; [apply E1; auto|apply E2; congruence].
Qed.
Lemma noise_in o : valid_lead 2 o -> noise o 0 = noise o 1.
Proof.
  intros Ho. change (fnoise (size o) (tt_dagger sizes full o 0) = fnoise (size o) (tt_dagger sizes full o 1)).
  rewrite <- (fnoise_compl (size o) (tt_dagger sizes full o 1)). apply fnoise_ext. intros a b Ha Hb. rewrite <- (row_compl Ho Ha Hb). ring.
Qed.
Definition t_dagger_t (o i : Z) (b b' : nat) : R := sum R (size o) (fun a => conj (full (o, a) (i, b)) * full (o, a) (i, b')).
Lemma col_compl i b b' : valid_lead 2 i -> (b < size i)%nat -> (b' < size i)%nat -> t_dagger_t 0 i b b' + t_dagger_t 1 i b b' = delta R b b'.
Proof.
  intros Ho Ha Ha'. destruct U as [_ U1].
  assert (Hv : valid_lead (length sizes) i) by (rewrite H2; auto).
  destruct (U1 (i, b) (i, b') (in_modes sizes Hv Ha) (in_modes sizes Hv Ha')) as [E1 E2].
  rewrite modes2 in E1, E2. unfold t_dagger_t, delta. destruct (Nat.eqb_spec b b') as [->|N]; [apply E1; auto|apply E2; congruence].
Qed.
Lemma noise_dag o i : noise o i = fnoise (size i) (t_dagger_t o i).
Proof.
  change (fnoise (size o) (tt_dagger sizes full o i) = fnoise (size i) (t_dagger_t o i)).
  exact (fnoise_cyclic (size o) (size i) (fun a b => full (o, a) (i, b)) (fun b a => conj (full (o, a) (i, b)))).
Qed.
Lemma noise_out i : valid_lead 2 i -> noise 0 i = noise 1 i.
Proof.
  intros Hi. rewrite !noise_dag. rewrite <- (fnoise_compl (size i) (t_dagger_t 1 i)). apply fnoise_ext. intros a b Ha Hb. rewrite <- (col_compl Hi Ha Hb). ring.
Qed.
Lemma noise_all o i o' i' : valid_lead 2 o -> valid_lead 2 i -> valid_lead 2 o' -> valid_lead 2 i' -> noise o i = noise o' i'.
Proof.
  intros Ho Hi Ho' Hi'.
  assert (A : forall o, valid_lead 2 o -> forall i, valid_lead 2 i -> noise o i = noise o 0).
  { intros x Hx z Hz. destruct (two Hz) as [->| ->]; auto. symmetry. apply noise_in; auto. }
  assert (B : forall o, valid_lead 2 o -> noise o 0 = noise 0 0).
  { intros x Hx. destruct (two Hx) as [->| ->]; auto. symmetry. apply noise_out. unfold valid_lead. lia. }
  rewrite (A o), (A o'), (B o), (B o'); auto.
Qed.
Lemma noise_real o i : conj (noise o i) = noise o i.
Proof.
  assert (P : forall a a', conj (tt_dagger sizes full o i a a') = tt_dagger sizes full o i a' a).
  { intros a a'. unfold tt_dagger. rewrite sum_conj. apply sum_ext. intros b _. rewrite rconj_mul, rconj_conj. ring. }
  unfold SolverSpec.noise. rewrite sum_conj. apply sum_ext. intros a _. rewrite conj_sub, P, sum_conj. f_equal. apply sum_ext. intros b _. rewrite rconj_mul, !P. ring.
Qed.
End Noise.
