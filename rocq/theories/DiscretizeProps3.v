(** * C63: examples. *)
From Coq Require Import Reals List Bool Arith ZArith Lia Lra Permutation QArith Qcanon.
From Verif Require Import StarRing GaussQ SolverSpec QSolve DiscretizeModel DiscretizeSpec DiscretizeEval DiscretizeProps DiscretizeReal DiscretizeProps2.
Import ListNotations.
Set Implicit Arguments.
Local Open Scope nat_scope.

(** k_x A(x) k_x + 3 with A(x) = x on a grid of spacing 2 *)
Definition ex_env (f : bool) (x : list GaussQ) : GaussQ := if f then rre GaussQ (nth 0 x (r0 GaussQ)) else gq 3 0 1.
Definition ex_h (_ _ : nat) : expression bool := [[Mom bool 0 1; Fn true; Mom bool 0 1]; [Fn false]].
Definition ex_a : list GaussQ := [gq 2 0 1].
Definition ex_o : list GaussQ := [gq 0 0 1].
Definition ex_el (s t : Z) : GaussQ := element [0] 1 GaussQ qinv ex_env (fun _ => r0 GaussQ) ex_a ex_o ex_h [s] [t] 0 0.
Lemma qinv_ok (x : GaussQ) : x <> r0 GaussQ -> rmul GaussQ x (qinv x) = r1 GaussQ.
Proof.
  intros Hx. destruct x as [a b]. assert (Hn : (a * a + b * b)%Qc <> 0%Qc).
  { intros E. apply Hx. pose proof (sq_nonneg a) as Ha. pose proof (sq_nonneg b) as Hb.
    assert (Ea : (a * a)%Qc = 0%Qc). { apply Qcle_antisym; [|auto]. rewrite <- E. rewrite <- (Qcplus_0_r (a * a)) at 1. apply Qcplus_le_compat; [apply Qcle_refl|auto]. }
    assert (Eb : (b * b)%Qc = 0%Qc). { apply Qcle_antisym; [|auto]. rewrite <- E. rewrite <- (Qcplus_0_l (b * b)) at 1. apply Qcplus_le_compat; [auto|apply Qcle_refl]. }
    apply Qcmult_integral in Ea. apply Qcmult_integral in Eb. destruct Ea as [->| ->], Eb as [->| ->]; reflexivity. }
  unfold qinv. cbn [fst snd]. cbn. unfold qi_mul. cbn [fst snd]. f_equal; field; auto.
Qed.
Lemma qinv_conj (x : GaussQ) : rconj GaussQ (qinv x) = qinv (rconj GaussQ x).
Proof.
  destruct x as [a b]. unfold qinv. cbn. replace (- b * - b)%Qc with (b * b)%Qc by ring. f_equal. unfold Qcdiv. ring.
Qed.
Lemma q_two : radd GaussQ (r1 GaussQ) (r1 GaussQ) <> r0 GaussQ.
Proof. cbn. intros [= H]. Qed.
Lemma ex_hermitian : hermitian_expr 1 (fun f => f) ex_h.
Proof. intros i j _ _. apply Permutation_refl. Qed.
(** The hoppings are - A(x + a / 2) / a^2 *)
Example C63_example : qv (ex_el 4 5) = qv (gq (-9) 0 4) /\ qv (ex_el 5 4) = qv (gq (-9) 0 4) /\ qv (ex_el 4 4) = qv (gq 7 0 1) /\ qv (ex_el 4 6) = qv (gq 0 0 1).
Proof. vm_compute. repeat split. Qed.
(** It meets the hypotheses of C63_operator *)
Example C63_example_operator : exists ds : list offset, forall s1 : Z, forall psi : nat -> list GaussQ -> GaussQ,
  lsum GaussQ (fun d => sum GaussQ 1 (fun j => rmul GaussQ (element [0] 1 GaussQ qinv ex_env (fun _ => r0 GaussQ) ex_a ex_o ex_h [s1] (vadd [s1] d) 0 j) (psi j (pos GaussQ ex_a ex_o (vadd [s1] d))))) ds =
  sum GaussQ 1 (fun j => expression_op [0] GaussQ qinv ex_env (fun _ => r0 GaussQ) ex_a (ex_h 0 j) (psi j) (pos GaussQ ex_a ex_o [s1])).
Proof.
  destruct (@C63_operator bool [0] GaussQ qinv ex_env (fun _ => r0 GaussQ) 1) with (fconj := fun f : bool => f) (a := ex_a) (org := ex_o) (h := ex_h) as (ds & _ & _ & H).
  - repeat constructor; intros [].
  - apply qinv_ok.
  - apply q_two.
  - intros f x. destruct f; [cbn; f_equal; ring|apply qv_inj; reflexivity].
  - intros c. apply qv_inj. reflexivity.
  - apply qinv_conj.
  - apply ex_hermitian.
  - intros [|[|i]]; apply qv_inj; reflexivity.
  - reflexivity.
  - reflexivity.
  - exists ds. intros s1 psi. exact (proj2 (H [s1] 0 eq_refl Nat.lt_0_1) psi).
Qed.

(** k_x**2 with 1 component: 2 (1 - cos(k a)) / a^2 *)
Lemma ex_bloch k a : (a <> 0)%R -> bloch [0] (fun f : Empty_set => match f with end) (fun _ => r0 RC) [k] [a] [[Mom Empty_set 0 2]] = re (2 * (1 - cos (k * a)) / (a * a))%R.
Proof.
  intros Ha. unfold bloch, symbol, lattice_momentum, rstep, re. cbn.
  replace (cos (k * a))%R with (cos (k * (a / 2) + k * (a / 2)))%R by (f_equal; field). rewrite cos_plus.
  pose proof (sin2_cos2 (k * (a / 2))) as H. unfold Rsqr in H. set (s := sin (k * (a / 2))%R) in *. set (c := cos (k * (a / 2))%R) in *.
  f_equal; [|ring]. replace (1 - (c * c - s * s))%R with (2 * (s * s))%R by lra. field. auto.
Qed.
Example C63_example_continuum k : continuum [0] (fun f : Empty_set => match f with end) (fun _ => r0 RC) [k] [[Mom Empty_set 0 2]] = re (k * k)%R.
Proof. unfold continuum, symbol, re. cbn. f_equal; ring. Qed.

Lemma q2qc_eq (a b : Q) : (a == b)%Q -> Q2Qc a = Q2Qc b.
Proof. intros E. apply Qc_is_canon. cbn [this Q2Qc]. rewrite !Qred_correct. exact E. Qed.
Lemma q2qc_add (a b : Q) : (Q2Qc a + Q2Qc b)%Qc = Q2Qc (a + b).
Proof. unfold Qcplus. apply q2qc_eq. cbn [this Q2Qc]. rewrite !Qred_correct. reflexivity. Qed.
Lemma q2qc_mul (a b : Q) : (Q2Qc a * Q2Qc b)%Qc = Q2Qc (a * b).
Proof. unfold Qcmult. apply q2qc_eq. cbn [this Q2Qc]. rewrite !Qred_correct. reflexivity. Qed.
Lemma kZ_gq d : fst (kZ GaussQ d) = Q2Qc (inject_Z d).
Proof.
  induction d using Z.peano_ind; [apply Qc_is_canon; reflexivity| |]; rewrite ?Z.sub_1_r, <- ?Z.add_1_r; unfold Z.pred; rewrite kZ_add.
  - change (fst (radd GaussQ (kZ GaussQ d) (kZ GaussQ 1))) with (fst (kZ GaussQ d) + Q2Qc 1)%Qc. rewrite IHd, q2qc_add, inject_Z_plus. reflexivity.
  - change (fst (radd GaussQ (kZ GaussQ d) (kZ GaussQ (-1)))) with (fst (kZ GaussQ d) + - Q2Qc 1)%Qc. rewrite IHd. replace (- Q2Qc 1)%Qc with (Q2Qc (-1)) by (apply Qc_is_canon; reflexivity). rewrite q2qc_add, inject_Z_plus. reflexivity.
Qed.
(** An operator that is not Hermitian, A(x) k_x, is silently replaced by a
    Hermitian one: the statement of C63_operator is wrong for it *)
Definition ex_bad (_ _ : nat) : expression bool := [[Fn true; Mom bool 0 1]].
Definition bad_el (s t : Z) : GaussQ := element [0] 1 GaussQ qinv ex_env (fun _ => r0 GaussQ) ex_a ex_o ex_bad [s] [t] 0 0.
Theorem C63_operator_refuted : ~ forall (h : nat -> nat -> expression bool) (s1 : Z),
  exists ds, NoDup ds /\ (forall s2, ~ In (s2 - s1)%Z ds -> element [0] 1 GaussQ qinv ex_env (fun _ => r0 GaussQ) ex_a ex_o h [s1] [s2] 0 0 = r0 GaussQ) /\
    forall psi : list GaussQ -> GaussQ, lsum GaussQ (fun d => rmul GaussQ (element [0] 1 GaussQ qinv ex_env (fun _ => r0 GaussQ) ex_a ex_o h [s1] [(s1 + d)%Z] 0 0) (psi (pos GaussQ ex_a ex_o [(s1 + d)%Z]))) ds =
      expression_op [0] GaussQ qinv ex_env (fun _ => r0 GaussQ) ex_a (h 0 0) psi (pos GaussQ ex_a ex_o [s1]).
Proof.
  intros H. destruct (H ex_bad 0%Z) as (ds & N & Z0 & E). change (element [0] 1 GaussQ qinv ex_env (fun _ => r0 GaussQ) ex_a ex_o ex_bad) with (element [0] 1 GaussQ qinv ex_env (fun _ => r0 GaussQ) ex_a ex_o ex_bad) in *.
  set (psi := fun x : list GaussQ => if gq_eqb (nth 0 x (r0 GaussQ)) (gq (-2) 0 1) then r1 GaussQ else r0 GaussQ).
  specialize (E psi).
  assert (In (-1)%Z ds).
  { destruct (in_dec Z.eq_dec (-1)%Z ds) as [I|I]; [auto|]. exfalso. specialize (Z0 (-1)%Z I). apply (f_equal qv) in Z0. vm_compute in Z0. discriminate. }
  assert (R : qv (expression_op [0] GaussQ qinv ex_env (fun _ => r0 GaussQ) ex_a (ex_bad 0 0) psi (pos GaussQ ex_a ex_o [0%Z])) = qv (r0 GaussQ)) by (vm_compute; reflexivity).
  rewrite <- E in R. clear E Z0.
  apply in_split in H0. destruct H0 as (l1 & l2 & ->).
  assert (Hz : forall d, d <> (-1)%Z -> rmul GaussQ (element [0] 1 GaussQ qinv ex_env (fun _ => r0 GaussQ) ex_a ex_o ex_bad [0%Z] [(0 + d)%Z] 0 0) (psi (pos GaussQ ex_a ex_o [(0 + d)%Z])) = r0 GaussQ).
  { intros d Hd. replace (psi (pos GaussQ ex_a ex_o [(0 + d)%Z])) with (r0 GaussQ); [cbn; unfold qi_mul; cbn [fst snd]; f_equal; ring|].
    unfold psi. destruct (gq_eqb _ _) eqn:Eq; [|reflexivity]. exfalso. apply gq_eqb_eq in Eq. apply Hd.
    assert (Ef : (Q2Qc (0 # 1) + (fst (kZ GaussQ d) * Q2Qc (2 # 1) - snd (kZ GaussQ d) * Q2Qc (0 # 1)))%Qc = Q2Qc (-2 # 1)) by (apply (f_equal fst) in Eq; exact Eq).
    replace (snd (kZ GaussQ d) * Q2Qc (0 # 1))%Qc with (Q2Qc 0) in Ef by (change (Q2Qc (0 # 1)) with 0%Qc; change (Q2Qc 0) with 0%Qc; ring).
    rewrite kZ_gq, q2qc_mul in Ef. change (Q2Qc (0 # 1)) with 0%Qc in Ef. change (Q2Qc 0) with 0%Qc in Ef. assert (Eg : Q2Qc (inject_Z d * (2 # 1)) = Q2Qc (-2 # 1)) by (rewrite <- Ef; ring).
    apply (f_equal this) in Eg. cbn [this Q2Qc] in Eg. assert (Eh : (inject_Z d * (2 # 1) == -2 # 1)%Q) by (rewrite <- (Qred_correct (inject_Z d * (2 # 1))), Eg; reflexivity).
    unfold Qeq in Eh. cbn in Eh. lia. }
  rewrite lsum_app, lsum_cons in R. apply NoDup_remove in N. destruct N as [_ N].
  rewrite (lsum_zero GaussQ _ l1), (lsum_zero GaussQ _ l2) in R; [|intros d Hd; apply Hz; intros ->; apply N; apply in_or_app; auto|intros d Hd; apply Hz; intros ->; apply N; apply in_or_app; auto].
  revert R. vm_compute. discriminate.
Qed.
