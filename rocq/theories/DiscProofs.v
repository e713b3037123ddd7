(** * Algebra of discrete symmetries. *)
From Coq Require Import List Bool Arith ZArith Ring Lia Setoid Morphisms.
From Verif Require Import StarRing KpmCorrSpec KpmTrace RmtSpec RmtAlg DiscModel DiscSpec.
Import ListNotations.
Set Implicit Arguments.

Section P.
Variable R : StarRing.
Add Ring RringDs : (r_theory R).
Notation matrix := (nat -> nat -> R).
Local Open Scope star_scope.
Notation "0" := (r0 R) : star_scope.
Notation "1" := (r1 R) : star_scope.
Variable n : nat.
Variable eqb : R -> R -> bool.
Variable gt : R -> bool.
Hypothesis Heq : forall x y, eqb x y = true <-> x = y.
Notation "x ** y" := (mmul n x y) (at level 40, left associativity).
Notation "x == y" := (@meq R n x y) (at level 70).
Notation I := (@unit_matrix R).
Notation "x ^+" := (mT (mC x)) (at level 30).
Notation almost_identity := (almost_identity n eqb).
Notation check := (check n eqb).
Notation antiunitary_symmetry := (antiunitary_symmetry n).
Notation unitary_symmetry := (unitary_symmetry n).

Lemma all_below_spec k l f : all_below k l f = true <-> forall i j, i < k -> j < l -> f i j = true.
Proof.
  unfold all_below. rewrite forallb_forall. split.
  - intros H i j Hi Hj. specialize (H i ltac:(apply in_seq; lia)). rewrite forallb_forall in H. apply H. apply in_seq. lia.
  - intros H i Hi. apply in_seq in Hi. apply forallb_forall. intros j Hj. apply in_seq in Hj. apply H; lia.
Qed.
Lemma ai_spec x : almost_identity x = true <-> x == I.
Proof. unfold DiscModel.almost_identity. rewrite all_below_spec. split; intros H i j Hi Hj; apply Heq; auto. Qed.
Lemma ai_false x : almost_identity x = false <-> ~ x == I.
Proof. rewrite <- ai_spec. destruct (almost_identity x); split; congruence. Qed.
Lemma dag_mul x y : (x ** y)^+ == y^+ ** x^+.
Proof. rewrite mC_mul, mT_mul. reflexivity. Qed.
Lemma dag_dag (x : matrix) : x^+^+ == x.
Proof. intros i j _ _. unfold mT, mC. apply rconj_conj. Qed.
Lemma dag_C (x : matrix) : (mC x)^+ == mC (x^+). Proof. reflexivity. Qed.
Lemma right_inverse u y : u^+ ** u == I -> u ** y == I -> u ** u^+ == I.
Proof.
  intros H1 H2. assert (E : u^+ == y) by (rewrite <- (@m_1r R n (u^+)), <- H2, <- m_assoc, H1, m_1l; reflexivity). rewrite E. auto.
Qed.
Lemma mN_I_sq : mN I ** mN I == I.
Proof. rewrite mN_l, mN_r, mNN, m_1l. reflexivity. Qed.
Lemma check_anti t nm : check (Some t) true nm = None <-> antiunitary_symmetry t.
Proof.
  unfold DiscModel.check. change (mT (mC t)) with (t^+). cbn [cond_conj andb]. split.
  - destruct (almost_identity (t^+ ** t)) eqn:E1; [|discriminate]. cbn [negb]. destruct (almost_identity (t ** mC t)) eqn:E2; cbn [orb negb].
    + intros _. apply ai_spec in E1, E2. split; [split; auto|left; auto]. eapply right_inverse; eauto.
    + destruct (almost_identity (mN (t ** mC t))) eqn:E3; [|discriminate]. intros _. apply ai_spec in E1, E3. split; [split; auto|right; rewrite <- E3, mNN; reflexivity].
      apply (@right_inverse t (mN (mC t))); auto. rewrite mN_r. auto.
  - intros [[H1 H2] H3]. apply ai_spec in H1. rewrite H1. cbn [negb]. destruct H3 as [H3|H3].
    + apply ai_spec in H3. rewrite H3. reflexivity.
    + assert (H4 : mN (t ** mC t) == I) by (rewrite H3, mNN; reflexivity). apply ai_spec in H4. rewrite H4, orb_true_r. reflexivity.
Qed.
Lemma check_unit c nm : check (Some c) false nm = None <-> unitary_symmetry c.
Proof.
  unfold DiscModel.check. change (mT (mC c)) with (c^+). cbn [cond_conj andb]. rewrite orb_false_r. split.
  - destruct (almost_identity (c^+ ** c)) eqn:E1; [|discriminate]. cbn [negb]. destruct (almost_identity (c ** c)) eqn:E2; [|discriminate].
    intros _. apply ai_spec in E1, E2. split; auto. split; auto. eapply right_inverse; eauto.
  - intros [[H1 H2] H3]. apply ai_spec in H1, H3. rewrite H1, H3. reflexivity.
Qed.
Lemma check_opt_anti t nm : check t true nm = None <-> opt antiunitary_symmetry t.
Proof. destruct t; [apply check_anti|cbn; tauto]. Qed.
Lemma check_opt_unit t nm : check t false nm = None <-> opt unitary_symmetry t.
Proof. destruct t; [apply check_unit|cbn; tauto]. Qed.

Lemma anti_eq x y : x == y -> antiunitary_symmetry x -> antiunitary_symmetry y.
Proof. intros E [U H]. split; [eapply unitary_eq; eauto|]. rewrite <- E. auto. Qed.
Lemma unit_eq x y : x == y -> unitary_symmetry x -> unitary_symmetry y.
Proof. intros E [U H]. split; [eapply unitary_eq; eauto|]. rewrite <- E. auto. Qed.
Lemma cancel_l u x y : unitary n u -> u ** x == u ** y -> x == y.
Proof. intros [U _] E. rewrite <- (@m_1l R n x), <- U, m_assoc, E, <- m_assoc, U, m_1l. reflexivity. Qed.
Lemma cancel_r u x y : unitary n u -> x ** u == y ** u -> x == y.
Proof. intros [_ U] E. rewrite <- (@m_1r R n x), <- U, <- m_assoc, E, m_assoc, U, m_1r. reflexivity. Qed.
(** p p^* p p^* = 1 *)
Lemma square_square p : antiunitary_symmetry p -> p ** mC p ** p ** mC p == I.
Proof. intros [_ [H|H]]; rewrite (@m_assoc R n (p ** mC p)), H; [apply m_1l|apply mN_I_sq]. Qed.

Lemma product_1 t p : p ** mC t ** (p ** mC t) == I -> (p ** mC t) ** p ** mC t == I.
Proof. intros H. rewrite <- H, !m_assoc. reflexivity. Qed.
Lemma product_2 p c : antiunitary_symmetry p -> unitary_symmetry c -> c ** p ** mC (p ** mC p ** p ** mC c) == I.
Proof.
  intros Hp [_ Hc]. assert (E : mC (p ** mC p ** p ** mC c) == mC p ** p ** mC p ** c) by (rewrite !mC_mul, !mCC; reflexivity). rewrite E.
  transitivity (c ** (p ** mC p ** p ** mC p) ** c); [rewrite !m_assoc; reflexivity|]. rewrite square_square, m_1r; auto.
Qed.
Lemma product_3 t c : antiunitary_symmetry t -> unitary_symmetry c -> c ** (t ** mC t ** c ** t) ** mC t == I.
Proof.
  intros [_ Ht] [_ Hc]. transitivity (c ** (t ** mC t) ** c ** (t ** mC t)); [rewrite !m_assoc; reflexivity|].
  destruct Ht as [H|H]; rewrite H; [rewrite !m_1r; auto|]. rewrite !mN_r, mN_l, !m_1r. rewrite mNN. rewrite mN_l, Hc || rewrite Hc. reflexivity.
Qed.
End P.
