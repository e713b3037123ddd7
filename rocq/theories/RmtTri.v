(** * Proofs for C53: uniqueness of the QR decomposition. *)
From Coq Require Import List Bool Arith ZArith Ring Lia Setoid Morphisms.
From Verif Require Import StarRing KpmCorrSpec KpmTrace RmtModel RmtSpec RmtProofs RmtGauss RmtAlg.
Import ListNotations.
Set Implicit Arguments.

Section Tri.
Variable R : StarRing.
Add Ring RringRt : (r_theory R).
Variable n : nat.
Notation matrix := (nat -> nat -> R).
Local Open Scope star_scope.
Notation "0" := (r0 R) : star_scope.
Notation "1" := (r1 R) : star_scope.
Notation conj := (rconj R).
Notation im := (ri R).
Notation "x ** y" := (mmul n x y) (at level 40, left associativity).
Notation "x == y" := (@meq R n x y) (at level 70).
Notation I := (@unit_matrix R).
Notation Y := (@pauli_y R).
Variable pos : R -> Prop.
Hypothesis PR : forall x, pos x -> conj x = x.
Hypothesis PI : forall x, pos x -> exists y, x * y = 1.
Hypothesis PS : forall x y, pos x -> pos y -> x * x = y * y -> x = y.
Definition upper (t : matrix) : Prop := forall i j, (j < i)%nat -> (i < n)%nat -> t i j = 0.
Lemma pos_cancel x a : pos x -> a * x = 0 -> a = 0.
Proof. intros P E. destruct (PI P) as [y Hy]. transitivity (a * x * y); [ring [Hy]|rewrite E; ring]. Qed.
Lemma sum_one (f : nat -> R) k : (k < n)%nat -> (forall i, (i < n)%nat -> i <> k -> f i = 0) -> sum R n f = f k.
Proof.
  intros Hk H. rewrite <- (@sum_delta R n k f Hk). apply sum_ext. intros i Hi. destruct (Nat.eqb_spec i k) as [->|N]; auto.
Qed.
Lemma tri_unique (W t t' : matrix) : unitary n W -> W ** t == t' -> upper t -> upper t' -> (forall j, (j < n)%nat -> pos (t j j)) -> (forall j, (j < n)%nat -> pos (t' j j)) -> W == I.
Proof.
  intros [U _] E T T' P P'.
  assert (L : forall j i, (j < i)%nat -> (i < n)%nat -> W i j = 0).
  { intros j. induction j as [j IH] using (well_founded_induction lt_wf). intros i Hj Hi.
    apply (pos_cancel _ (P j ltac:(lia))). rewrite <- (T' i j Hj Hi). rewrite <- (E i j Hi ltac:(lia)). unfold mmul. symmetry.
    apply (@sum_one (fun k => W i k * t k j)); [lia|]. intros k Hk N. destruct (Nat.lt_ge_cases k j) as [Lt|Ge].
    - rewrite (IH k Lt i) by lia. ring.
    - rewrite (T k j) by lia. ring. }
  assert (D : forall i, (i < n)%nat -> (forall k, (k < i)%nat -> W k i = 0) -> conj (W i i) * W i i = 1).
  { intros i Hi Hk. pose proof (U i i Hi Hi) as E1. unfold unit_matrix in E1. rewrite Nat.eqb_refl in E1. rewrite <- E1. unfold mmul, mT, mC. symmetry.
    apply (@sum_one (fun k => conj (W k i) * W k i)); auto. intros k Hk' N. destruct (Nat.lt_ge_cases k i) as [Lt|Ge]; [rewrite Hk by auto; ring|]. rewrite (L i k) by lia. ring. }
  assert (Up : forall i j, (i < j)%nat -> (j < n)%nat -> W i j = 0).
  { intros i. induction i as [i IH] using (well_founded_induction lt_wf). intros j Hi Hj.
    assert (Hki : forall k, (k < i)%nat -> W k i = 0) by (intros k Hk; apply IH; lia).
    pose proof (D i ltac:(lia) Hki) as D1.
    pose proof (U i j ltac:(lia) Hj) as E1. unfold unit_matrix in E1. destruct (Nat.eqb_spec i j) as [?|_]; [lia|].
    assert (E2 : conj (W i i) * W i j = 0).
    { rewrite <- E1. unfold mmul, mT, mC. symmetry. apply (@sum_one (fun k => conj (W k i) * W k j)); [lia|]. intros k Hk N.
      destruct (Nat.lt_ge_cases k i) as [Lt|Ge]; [rewrite Hki by auto; rewrite conj0; ring|]. rewrite (L i k) by lia. rewrite conj0. ring. }
    transitivity (W i i * (conj (W i i) * W i j)); [ring [D1]|rewrite E2; ring]. }
  intros i j Hi Hj. unfold unit_matrix. destruct (Nat.eqb_spec i j) as [<-|N].
  - assert (E1 : W i i * t i i = t' i i).
    { rewrite <- (E i i Hi Hi). unfold mmul. symmetry. apply (@sum_one (fun k => W i k * t k i)); auto. intros k Hk N. destruct (Nat.lt_ge_cases k i) as [Lt|Ge]; [rewrite (L k i) by lia; ring|]. rewrite (T k i) by lia. ring. }
    pose proof (D i Hi (fun k Hk => Up k i Hk Hi)) as D1.
    assert (E2 : t' i i = t i i).
    { apply PS; auto. transitivity (t' i i * conj (t' i i)); [rewrite (PR (P' i Hi)); auto|]. rewrite <- E1, rconj_mul, (PR (P i Hi)). ring [D1]. }
    rewrite E2 in E1. destruct (PI (P i Hi)) as [y Hy]. transitivity (W i i * t i i * y); [ring [Hy]|rewrite E1; auto].
  - destruct (Nat.lt_ge_cases i j); [apply Up|apply L]; lia.
Qed.

(** The Q factor with positive diagonal of the R factor inherits the
    quaternionic structure. *)
Lemma tri_J (u t h : matrix) : (n mod 2 = 0)%nat -> unitary n u -> u ** t == h -> Y ** mC h ** Y == h -> upper t ->
  (forall k, (2 * k + 1 < n)%nat -> t (2 * k)%nat (2 * k + 1)%nat = 0) -> (forall j, (j < n)%nat -> pos (t j j)) -> Y ** mC u ** Y == u.
Proof.
  intros Hn U E HJ T Z P.
  set (u' := Y ** mC u ** Y). set (t' := Y ** mC t ** Y).
  assert (U' : unitary n u') by (apply unitary_J; auto).
  assert (E' : u' ** t' == h). { unfold u', t'. rewrite <- J_mul by auto. rewrite E. auto. }
  assert (W : mT (mC u') ** u == I).
  { apply (@tri_unique _ t t').
    - apply unitary_mul; auto. apply unitary_T, unitary_C; auto.
    - rewrite m_assoc, E, <- E', <- m_assoc. destruct U' as [A _]. rewrite A, m_1l. reflexivity.
    - auto.
    - intros i j Hj Hi. unfold t'. rewrite <- (@flip_Y R n Hn t i j) by lia. unfold flip_tau.
      assert (E0 : t (idx_x i) (idx_x j) = 0).
      { pose proof (@idx_x_lt n i Hn Hi) as Fi. pose proof (@idx_x_lt n j Hn ltac:(lia)) as Fj.
        destruct (two_cases i) as (q & r & -> & Hr). destruct (two_cases j) as (q' & r' & -> & Hr').
        unfold idx_x in *. rewrite !even_2 in *. destruct Hr as [-> | ->]; destruct Hr' as [-> | ->]; cbn [Nat.even] in *; try (apply T; lia).
        destruct (Nat.eq_dec q q') as [<-|Nq]; [|apply T; lia].
        replace (2 * q + 1 - 1)%nat with (2 * q)%nat by lia. replace (2 * q + 0 + 1)%nat with (2 * q + 1)%nat by lia. apply Z. lia. }
      rewrite E0, conj0. ring.
    - auto.
    - intros j Hj. unfold t'. rewrite <- (@flip_Y R n Hn t j j) by lia. unfold flip_tau. pose proof (P _ (@idx_x_lt n j Hn Hj)) as Pj. rewrite (PR Pj).
      pose proof (tau_z_sq R j) as Tz. replace (tau_z R j * t (idx_x j) (idx_x j) * tau_z R j) with (t (idx_x j) (idx_x j)) by ring [Tz]. auto. }
  destruct U' as [_ B]. transitivity (u' ** (mT (mC u') ** u)); [rewrite W, m_1r; reflexivity|]. rewrite <- m_assoc, B, m_1l. reflexivity.
Qed.
End Tri.
