(** * The Gaussian rationals, for examples that need 1/2. *)
From Coq Require Import List Bool ZArith QArith Qcanon Ring.
From Verif Require Import StarRing.
Import ListNotations.

Definition qi_mul (x y : Qc * Qc) : Qc * Qc := (fst x * fst y - snd x * snd y, fst x * snd y + snd x * fst y)%Qc.
Definition GaussQ : StarRing.
Proof.
  refine (@mkSR (Qc * Qc) (0%Qc, 0%Qc) (1%Qc, 0%Qc) (fun x y => (fst x + fst y, snd x + snd y)%Qc) qi_mul
    (fun x y => (fst x - fst y, snd x - snd y)%Qc) (fun x => (- fst x, - snd x)%Qc) (fun x => (fst x, - snd x)%Qc) (0%Qc, 1%Qc) (fun x => (fst x, 0%Qc)) _ _ _ _ _ _ _ _).
  - split; intros; repeat match goal with x : (Qc * Qc)%type |- _ => destruct x end; unfold qi_mul; cbn [fst snd]; f_equal; ring.
  - intros [] []. cbn. f_equal; ring.
  - intros [] []. unfold qi_mul. cbn. f_equal; ring.
  - intros []. cbn. f_equal; ring.
  - unfold qi_mul. cbn [fst snd]. f_equal; ring.
  - cbn. f_equal; ring.
  - intros [a b] H. cbn in H. injection H as H. f_equal.
    assert (E : (b + b = 0)%Qc) by (rewrite <- H at 1; ring).
    destruct (Qc_eq_dec b 0) as [->|Hn]; auto. exfalso.
    assert (E2 : ((1 + 1) * b = 0)%Qc) by (rewrite <- E; ring). apply Qcmult_integral in E2. destruct E2 as [E2|E2]; [discriminate E2|auto].
  - intros [] []. cbn. f_equal; ring.
Defined.
(** [gq a b d] is (a + i b) / d *)
Definition gq (a b : Z) (d : positive) : GaussQ := (Q2Qc (a # d), Q2Qc (b # d)).
(** numerators and denominators, for printing *)
Definition qv (x : GaussQ) : (Z * positive) * (Z * positive) :=
  ((Qnum (this (fst x)), Qden (this (fst x))), (Qnum (this (snd x)), Qden (this (snd x)))).
Lemma qv_inj x y : qv x = qv y -> x = y.
Proof.
  destruct x as [[[a1 a2] Ha] [[b1 b2] Hb]], y as [[[c1 c2] Hc] [[d1 d2] Hd]]. unfold qv. cbn. intros [= -> -> -> ->].
  f_equal; apply Qc_is_canon; reflexivity.
Qed.
Definition gq_eqb (x y : GaussQ) : bool := Qc_eq_bool (fst x) (fst y) && Qc_eq_bool (snd x) (snd y).
Lemma gq_eqb_eq x y : gq_eqb x y = true -> x = y.
Proof. destruct x, y. unfold gq_eqb. cbn. intros H. apply andb_true_iff in H. destruct H as [H1 H2]. apply Qc_eq_bool_correct in H1, H2. subst. reflexivity. Qed.
