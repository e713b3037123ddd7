(** * Fisher-Lee: transmissions from modes and from Green's functions agree. *)
From Coq Require Import List Bool Arith ZArith Ring Lia.
From Verif Require Import StarRing SubmatrixModel SolverModel SolverSpec SolverProofs SolverLinear SolverFlux SolverField.
Import ListNotations.
Set Implicit Arguments.

Section Lead.
Variable R : StarRing.
Add Ring RringFL : (r_theory R).
Notation mat := (mat R).
Notation conj := (rconj R).
Notation "x +! y" := (radd R x y) (at level 50, left associativity).
Notation "x -! y" := (rsub R x y) (at level 50, left associativity).
Notation "x *! y" := (rmul R x y) (at level 40, left associativity).
Notation O0 := (r0 R).

Lemma trip n m m' (f : nat -> R) (a b : nat -> nat -> R) (g : nat -> R) :
  sum R n (fun k => sum R m (fun j => f j *! a k j) *! sum R m' (fun j' => b k j' *! g j')) =
  sum R m (fun j => sum R m' (fun j' => f j *! sum R n (fun k => a k j *! b k j') *! g j')).
Proof.
  transitivity (sum R n (fun k => sum R m (fun j => sum R m' (fun j' => f j *! (a k j *! b k j') *! g j')))).
  - apply sum_ext. intros k _. rewrite <- sum_mul_r. apply sum_ext. intros j _. rewrite <- sum_mul_l. apply sum_ext. intros; ring.
  - rewrite sum_swap. apply sum_ext. intros j _. rewrite sum_swap. apply sum_ext. intros j' _. rewrite sum_mul_r, sum_mul_l. reflexivity.
Qed.
Lemma ii (x z : R) : ri R *! x = ri R *! z -> x = z.
Proof. intros H. transitivity (ropp R (ri R *! (ri R *! x))); [transitivity (ropp R (ri R *! ri R) *! x); [rewrite ri_sq; ring|ring]|]. rewrite H. transitivity (ropp R (ri R *! ri R) *! z); [ring|rewrite ri_sq; ring]. Qed.

Variable m : modes R.
Hypothesis GM : good_modes m.
Hypothesis UC : unit_currents m.
Notation np := (m_nprop m).
Notation r := (mr (m_u m)).
Notation V := (mget (m_v m)).
Notation U := (fun k j => mget (m_u m) k (np + j)).
Notation A := (fun k j => mget (m_ulinv m) k (np + j)).
Notation Ui := (mget (m_u m)).
Notation B := (mget (m_ulinv m)).
Variable Ai : nat -> nat -> R.
Hypothesis HA : inverses r A Ai.

Definition X (j p : nat) : R := sum R r (fun k => Ai j k *! conj (V p k)).
Definition Q (j b : nat) : R := sum R r (fun k => Ai j k *! B k b).
Lemma AX (x : nat -> R) k : k < r -> sum R r (fun j => A k j *! sum R r (fun k' => Ai j k' *! x k')) = x k.
Proof.
  intros Hk. transitivity (sum R r (fun k' => mul r A Ai k k' *! x k')).
  - transitivity (sum R r (fun j => sum R r (fun k' => A k j *! Ai j k' *! x k'))); [apply sum_ext; intros j _; rewrite <- sum_mul_l; apply sum_ext; intros; ring|].
    rewrite sum_swap. apply sum_ext. intros k' _. apply sum_mul_r.
  - transitivity (sum R r (fun k' => if k' =? k then x k' else O0)); [|apply sum_delta; auto].
    apply sum_ext. intros k' Hk'. rewrite (proj1 (HA Hk Hk')). unfold delta. rewrite Nat.eqb_sym. destruct (k' =? k); ring.
Qed.
Lemma AiA (x : nat -> R) j : j < r -> sum R r (fun k => Ai j k *! sum R r (fun j' => A k j' *! x j')) = x j.
Proof.
  intros Hk. transitivity (sum R r (fun k' => mul r Ai A j k' *! x k')).
  - transitivity (sum R r (fun k => sum R r (fun j' => Ai j k *! A k j' *! x j'))); [apply sum_ext; intros k _; rewrite <- sum_mul_l; apply sum_ext; intros; ring|].
    rewrite sum_swap. apply sum_ext. intros k' _. apply sum_mul_r.
  - transitivity (sum R r (fun k' => if k' =? j then x k' else O0)); [|apply sum_delta; auto].
    apply sum_ext. intros k' Hk'. rewrite (proj2 (HA Hk Hk')). unfold delta. rewrite Nat.eqb_sym. destruct (k' =? j); ring.
Qed.
Lemma V_X p k : k < r -> V p k = sum R r (fun j => conj (X j p) *! conj (A k j)).
Proof.
  intros Hk. rewrite <- (rconj_conj R (V p k)), <- (AX (fun k' => conj (V p k')) Hk), sum_conj. apply sum_ext. intros j _. rewrite rconj_mul. unfold X. ring.
Qed.
Lemma B_Q k b : k < r -> B k b = sum R r (fun j => A k j *! Q j b).
Proof. intros Hk. symmetry. exact (AX (fun k' => B k' b) Hk). Qed.

Lemma current_val j j' : sum R r (fun k => conj (mget (m_u m) k j) *! mget (m_ulinv m) k j') -! sum R r (fun k => conj (mget (m_ulinv m) k j) *! mget (m_u m) k j') = ri R *! current m j j'.
Proof.
  unfold current. rewrite sum_sub. match goal with |- ?a -! ?b = _ => transitivity (ropp R (ri R *! ri R) *! (a -! b)); [rewrite ri_sq; ring|ring] end.
Qed.
(** outgoing - outgoing *)
Lemma oo (f g : nat -> R) :
  sum R r (fun j => sum R r (fun j' => f j *! sum R r (fun k => conj (U k j) *! A k j') *! g j')) -!
  sum R r (fun j => sum R r (fun j' => f j *! sum R r (fun k => conj (A k j) *! U k j') *! g j')) = ri R *! sum R np (fun j => f j *! g j).
Proof.
  destruct GM as (G1 & G2 & G3 & G4 & G5 & G6). rewrite <- sum_sub.
  transitivity (sum R r (fun j => if j <? np then ri R *! (f j *! g j) else O0)).
  - apply sum_ext. intros j Hj. rewrite <- sum_sub.
    transitivity (sum R r (fun j' => if j' =? j then (if j <? np then ri R *! (f j *! g j') else O0) else O0)).
    + apply sum_ext. intros j' Hj'.
      transitivity (f j *! (ri R *! current m (np + j) (np + j')) *! g j'); [rewrite <- current_val; ring|].
      rewrite (UC (j := np + j) (j' := np + j')) by lia. rewrite (proj2 (Nat.ltb_ge (np + j) np)) by lia.
      destruct (Nat.eqb_spec j' j) as [->|Hne].
      * rewrite Nat.eqb_refl. destruct (Nat.ltb_spec j np).
        -- rewrite (proj2 (Nat.ltb_lt (np + j) (np + np))) by lia. ring.
        -- rewrite (proj2 (Nat.ltb_ge (np + j) (np + np))) by lia. ring.
      * rewrite (proj2 (Nat.eqb_neq (np + j) (np + j'))) by lia. ring.
    + apply (@sum_delta R r j (fun j' => if j <? np then ri R *! (f j *! g j') else O0)). auto.
  - replace r with (np + (r - np)) by lia. rewrite sum_split. rewrite (@sum_zero R (r - np)).
    2: { intros i _. rewrite (proj2 (Nat.ltb_ge (np + i) np)) by lia. reflexivity. }
    rewrite <- sum_mul_l. rewrite (@sum_ext R np (fun j => if j <? np then ri R *! (f j *! g j) else O0) (fun j => ri R *! (f j *! g j))); [ring|].
    intros j Hj. rewrite (proj2 (Nat.ltb_lt j np) Hj). reflexivity.
Qed.
(** outgoing - incoming *)
Lemma oi j b : j < r -> b < np -> sum R r (fun k => conj (A k j) *! Ui k b) = sum R r (fun k => conj (U k j) *! B k b).
Proof.
  intros Hj Hb. destruct GM as (G1 & G2 & G3 & G4 & G5 & G6). pose proof (current_val (np + j) b) as E.
  rewrite (UC (j := np + j) (j' := b)) in E by lia. rewrite (proj2 (Nat.eqb_neq (np + j) b)) in E by lia.
  match type of E with ?a -! ?c = _ => transitivity (a -! (a -! c)); [ring|rewrite E; ring] end.
Qed.
(** incoming - incoming *)
Lemma inin b b' : b < np -> b' < np -> sum R r (fun k => conj (B k b) *! Ui k b') -! sum R r (fun k => conj (Ui k b) *! B k b') = if b =? b' then ri R else O0.
Proof.
  intros Hb Hb'. destruct GM as (G1 & G2 & G3 & G4 & G5 & G6). pose proof (current_val b b') as E. rewrite (UC (j := b) (j' := b')) in E by lia.
  rewrite (proj2 (Nat.ltb_lt b np) Hb) in E.
  match type of E with ?a -! ?c = _ => transitivity (ropp R (a -! c)); [ring|rewrite E] end. destruct (b =? b'); ring.
Qed.
(** the self-energy, and Gamma *)
Definition S0 (p q : nat) : R := sum R r (fun k => V p k *! sum R r (fun j => U k j *! X j q)).
Lemma gamma_X p q : ri R *! (S0 p q -! conj (S0 q p)) = sum R np (fun j => conj (X j p) *! X j q).
Proof.
  apply ii. rewrite <- (oo (fun j => conj (X j p)) (fun j => X j q)).
  assert (E1 : S0 p q = sum R r (fun j => sum R r (fun j' => conj (X j p) *! sum R r (fun k => conj (A k j) *! U k j') *! X j' q))).
  { rewrite <- (@trip r r r (fun j => conj (X j p)) (fun k j => conj (A k j)) U (fun j => X j q)). unfold S0. apply sum_ext. intros k Hk. rewrite <- (V_X p Hk). reflexivity. }
  assert (E2 : conj (S0 q p) = sum R r (fun j => sum R r (fun j' => conj (X j p) *! sum R r (fun k => conj (U k j) *! A k j') *! X j' q))).
  { rewrite <- (@trip r r r (fun j => conj (X j p)) (fun k j => conj (U k j)) A (fun j => X j q)). unfold S0. rewrite sum_conj. apply sum_ext. intros k Hk.
    rewrite rconj_mul, sum_conj, (V_X q Hk), sum_conj. rewrite (@sum_ext R r (fun i => conj (conj (X i q) *! conj (A k i))) (fun j' => A k j' *! X j' q)) by (intros; rewrite rconj_mul, !rconj_conj; ring).
    rewrite (@sum_ext R r (fun i => conj (U k i *! X i p)) (fun j => conj (X j p) *! conj (U k j))) by (intros; rewrite rconj_mul; ring). ring. }
  rewrite E1, E2. match goal with |- _ = ?a -! ?b => transitivity (ropp R (ri R *! ri R) *! (a -! b)); [ring|rewrite ri_sq; ring] end.
Qed.
(** the source term *)
Definition W (p b : nat) : R := sum R r (fun k => V p k *! (Ui k b -! sum R r (fun j => U k j *! Q j b))).
Lemma W_X p b : b < np -> W p b = ri R *! sum R np (fun j => conj (X j p) *! Q j b).
Proof.
  intros Hb. rewrite <- (oo (fun j => conj (X j p)) (fun j => Q j b)). unfold W.
  transitivity (sum R r (fun k => V p k *! Ui k b) -! sum R r (fun k => V p k *! sum R r (fun j => U k j *! Q j b))).
  { rewrite <- sum_sub. apply sum_ext. intros; ring. }
  f_equal.
  - transitivity (sum R r (fun j => conj (X j p) *! sum R r (fun k => conj (A k j) *! Ui k b))).
    + transitivity (sum R r (fun k => sum R r (fun j => conj (X j p) *! (conj (A k j) *! Ui k b)))).
      { apply sum_ext. intros k Hk. rewrite (V_X p Hk), <- sum_mul_r. apply sum_ext. intros; ring. }
      rewrite sum_swap. apply sum_ext. intros j _. apply sum_mul_l.
    + rewrite <- (@trip r r r (fun j => conj (X j p)) (fun k j => conj (U k j)) A (fun j => Q j b)).
      transitivity (sum R r (fun k => sum R r (fun j => conj (X j p) *! conj (U k j)) *! B k b)).
      * transitivity (sum R r (fun j => sum R r (fun k => conj (X j p) *! (conj (U k j) *! B k b)))).
        { apply sum_ext. intros j Hj. rewrite (oi Hj Hb), <- sum_mul_l. reflexivity. }
        rewrite sum_swap. apply sum_ext. intros k _. rewrite <- sum_mul_r. apply sum_ext. intros; ring.
      * apply sum_ext. intros k Hk. rewrite (B_Q b Hk). reflexivity.
  - rewrite <- (@trip r r r (fun j => conj (X j p)) (fun k j => conj (A k j)) U (fun j => Q j b)). apply sum_ext. intros k Hk. rewrite <- (V_X p Hk). reflexivity.
Qed.
Lemma Q_iso b b' : b < np -> b' < np -> sum R np (fun j => conj (Q j b) *! Q j b') = delta R b b'.
Proof.
  intros Hb Hb'. apply ii.
  rewrite <- (oo (fun j => conj (Q j b)) (fun j => Q j b')).
  assert (P1 : forall b b', b < np -> b' < np -> sum R r (fun k => conj (B k b) *! Ui k b') = sum R r (fun j => sum R r (fun j' => conj (Q j b) *! sum R r (fun k => conj (U k j) *! A k j') *! Q j' b'))).
  { clear b b' Hb Hb'. intros b b' Hb Hb'. rewrite <- (@trip r r r (fun j => conj (Q j b)) (fun k j => conj (U k j)) A (fun j => Q j b')).
    transitivity (sum R r (fun j => conj (Q j b) *! sum R r (fun k => conj (A k j) *! Ui k b'))).
    - transitivity (sum R r (fun k => sum R r (fun j => conj (Q j b) *! (conj (A k j) *! Ui k b')))).
      { apply sum_ext. intros k Hk. rewrite (B_Q b Hk), sum_conj, <- sum_mul_r. apply sum_ext. intros j _. rewrite rconj_mul. ring. }
      rewrite sum_swap. apply sum_ext. intros j _. apply sum_mul_l.
    - transitivity (sum R r (fun k => sum R r (fun j => conj (Q j b) *! conj (U k j)) *! B k b')).
      + transitivity (sum R r (fun j => sum R r (fun k => conj (Q j b) *! (conj (U k j) *! B k b')))).
        { apply sum_ext. intros j Hj. rewrite (oi Hj Hb'), <- sum_mul_l. reflexivity. }
        rewrite sum_swap. apply sum_ext. intros k _. rewrite <- sum_mul_r. apply sum_ext. intros; ring.
      + apply sum_ext. intros k Hk. rewrite (B_Q b' Hk). reflexivity. }
  assert (P2 : sum R r (fun k => conj (Ui k b) *! B k b') = sum R r (fun j => sum R r (fun j' => conj (Q j b) *! sum R r (fun k => conj (A k j) *! U k j') *! Q j' b'))).
  { transitivity (conj (sum R r (fun k => conj (B k b') *! Ui k b))).
    - rewrite sum_conj. apply sum_ext. intros k _. rewrite rconj_mul, rconj_conj. ring.
    - rewrite (P1 b' b Hb' Hb), sum_conj.
      transitivity (sum R r (fun j => sum R r (fun j' => Q j b' *! conj (sum R r (fun k => conj (U k j) *! A k j')) *! conj (Q j' b)))).
      + apply sum_ext. intros j _. rewrite sum_conj. apply sum_ext. intros j' _. rewrite !rconj_mul, rconj_conj. reflexivity.
      + rewrite sum_swap. apply sum_ext. intros j _. apply sum_ext. intros j' _.
        rewrite sum_conj. rewrite (@sum_ext R r (fun i => conj (conj (U i j') *! A i j)) (fun k => conj (A k j) *! U k j')) by (intros; rewrite rconj_mul, rconj_conj; ring). ring. }
  rewrite <- P1, <- P2, inin by auto. unfold delta. destruct (b =? b'); ring.
Qed.
End Lead.

(** ** The trace formulas *)
Section Traces.
Variable R : StarRing.
Add Ring RringFL2 : (r_theory R).
Notation conj := (rconj R).
Notation "x +! y" := (radd R x y) (at level 50, left associativity).
Notation "x -! y" := (rsub R x y) (at level 50, left associativity).
Notation "x *! y" := (rmul R x y) (at level 40, left associativity).
Notation O0 := (r0 R).
Variables (mo mi Lo Li : nat) (Xo : nat -> nat -> R) (Gm : nat -> nat -> R) (Wi : nat -> nat -> R).
Definition Tm (a b : nat) : R := sum R Lo (fun q => Xo a q *! sum R Li (fun p => Gm q p *! Wi p b)).
Lemma T_tr4 : sum R mo (fun a => sum R mi (fun b => conj (Tm a b) *! Tm a b)) =
  sum R Lo (fun p => sum R Lo (fun p' => sum R Li (fun q => sum R Li (fun q' =>
    sum R mo (fun a => conj (Xo a p) *! Xo a p') *! Gm p' q *! sum R mi (fun b => Wi q b *! conj (Wi q' b)) *! conj (Gm p q'))))).
Proof.
  set (Y := fun q b => sum R Li (fun p => Gm q p *! Wi p b)).
  transitivity (sum R mi (fun b => sum R Lo (fun q => sum R Lo (fun q' => conj (Y q b) *! sum R mo (fun a => conj (Xo a q) *! Xo a q') *! Y q' b)))).
  - rewrite sum_swap. apply sum_ext. intros b _. rewrite <- (@trip R mo Lo Lo (fun q => conj (Y q b)) (fun a q => conj (Xo a q)) Xo (fun q' => Y q' b)).
    apply sum_ext. intros a _. unfold Tm. rewrite sum_conj. f_equal. apply sum_ext. intros q _. rewrite rconj_mul. unfold Y. ring.
  - rewrite sum_swap. apply sum_ext. intros p _. rewrite sum_swap. apply sum_ext. intros p' _.
    transitivity (sum R mo (fun a => conj (Xo a p) *! Xo a p') *! sum R mi (fun b => Y p' b *! conj (Y p b))).
    { rewrite <- sum_mul_l. apply sum_ext. intros; ring. }
    transitivity (sum R mo (fun a => conj (Xo a p) *! Xo a p') *! sum R Li (fun q => sum R Li (fun q' => Gm p' q *! sum R mi (fun b => Wi q b *! conj (Wi q' b)) *! conj (Gm p q')))).
    + f_equal. rewrite <- (@trip R mi Li Li (fun q => Gm p' q) (fun b q => Wi q b) (fun b q' => conj (Wi q' b)) (fun q' => conj (Gm p q'))).
      apply sum_ext. intros b _. unfold Y. rewrite sum_conj. f_equal. apply sum_ext. intros q _. rewrite rconj_mul. ring.
    + rewrite <- sum_mul_l. apply sum_ext. intros q _. rewrite <- sum_mul_l. apply sum_ext. intros; ring.
Qed.
End Traces.

Section Refl.
Variable R : StarRing.
Add Ring RringFL3 : (r_theory R).
Notation conj := (rconj R).
Notation "x +! y" := (radd R x y) (at level 50, left associativity).
Notation "x -! y" := (rsub R x y) (at level 50, left associativity).
Notation "x *! y" := (rmul R x y) (at level 40, left associativity).
Notation O0 := (r0 R).
Variable inv : R -> R.
Hypothesis Hinv : forall x, x = O0 \/ x *! inv x = r1 R.
Variable m : modes R.
Hypothesis GM : good_modes m.
Hypothesis UC : unit_currents m.
Variable Ai : nat -> nat -> R.
Hypothesis HA : inverses (mr (m_u m)) (fun k j => mget (m_ulinv m) k (m_nprop m + j)) Ai.
Notation np := (m_nprop m).
Notation X := (X m Ai).
Notation Q := (Q m Ai).
Notation W := (W m Ai).
Definition Gx (p q : nat) : R := sum R np (fun j => conj (X j p) *! X j q).
Lemma Q_iso2 j j' : j < np -> j' < np -> sum R np (fun b => Q j b *! conj (Q j' b)) = delta R j j'.
Proof.
  intros Hj Hj'. apply (@left_right R inv Hinv np (fun b j => conj (Q j b)) (fun j b => Q j b)); auto.
  intros b b' Hb Hb'. apply (@Q_iso R m GM UC Ai HA b b' Hb Hb').
Qed.
Lemma WW p' p : sum R np (fun b => W p' b *! conj (W p b)) = Gx p' p.
Proof.
  transitivity (sum R np (fun b => sum R np (fun j => conj (X j p') *! Q j b) *! sum R np (fun j' => conj (Q j' b) *! X j' p))).
  - apply sum_ext. intros b Hb. rewrite !(@W_X R m GM UC Ai HA) by auto. rewrite rconj_mul, rconj_i, sum_conj.
    rewrite (@sum_ext R np (fun i => conj (conj (X i p) *! Q i b)) (fun j' => conj (Q j' b) *! X j' p)) by (intros; rewrite rconj_mul, rconj_conj; ring).
    match goal with |- ?i *! ?s *! (ropp R ?i *! ?t) = _ => transitivity (ropp R (i *! i) *! (s *! t)); [ring|rewrite ri_sq; ring] end.
  - rewrite (@trip R np np np (fun j => conj (X j p')) (fun b j => Q j b) (fun b j' => conj (Q j' b)) (fun j' => X j' p)).
    unfold Gx. apply sum_ext. intros j Hj.
    transitivity (sum R np (fun j' => if j' =? j then conj (X j p') *! X j' p else O0)).
    + apply sum_ext. intros j' Hj'. rewrite Q_iso2 by auto. unfold delta. rewrite Nat.eqb_sym. destruct (j' =? j); ring.
    + apply (@sum_delta R np j (fun j' => conj (X j p') *! X j' p)). auto.
Qed.
(** conj(W) from Q *)
Lemma QX b q : b < np -> sum R np (fun a => conj (Q a b) *! X a q) = ri R *! conj (W q b).
Proof.
  intros Hb. rewrite (@W_X R m GM UC Ai HA) by auto. rewrite rconj_mul, rconj_i, sum_conj.
  rewrite (@sum_ext R np (fun i => conj (conj (X i q) *! Q i b)) (fun a => conj (Q a b) *! X a q)) by (intros; rewrite rconj_mul, rconj_conj; ring).
  match goal with |- ?s = ?i *! (ropp R ?i *! ?t) => transitivity (ropp R (i *! i) *! s); [rewrite ri_sq; ring|ring] end.
Qed.
Variables (L : nat) (Gm : nat -> nat -> R).
Notation Tm := (Tm R L L X Gm W).
Lemma refl : sum R np (fun a => sum R np (fun b => conj (Tm a b -! Q a b) *! (Tm a b -! Q a b))) =
  sum R np (fun a => sum R np (fun b => conj (Tm a b) *! Tm a b)) +!
  (let t := sum R L (fun p => sum R L (fun p' => Gx p p' *! Gm p' p)) in ropp R (ri R *! (t -! conj t)) +! rnat R np).
Proof.
  cbv zeta. set (t := sum R L (fun p => sum R L (fun p' => Gx p p' *! Gm p' p))).
  assert (C1 : sum R np (fun a => sum R np (fun b => conj (Q a b) *! Tm a b)) = ri R *! t).
  { rewrite sum_swap. transitivity (sum R np (fun b => ri R *! sum R L (fun q => sum R L (fun p => Gm q p *! (W p b *! conj (W q b)))))).
    - apply sum_ext. intros b Hb. rewrite <- sum_mul_l.
      transitivity (sum R L (fun q => sum R np (fun a => conj (Q a b) *! X a q) *! sum R L (fun p => Gm q p *! W p b))).
      + unfold SolverFisher.Tm. transitivity (sum R np (fun a => sum R L (fun q => conj (Q a b) *! X a q *! sum R L (fun p => Gm q p *! W p b)))).
        { apply sum_ext. intros a _. rewrite <- sum_mul_l. apply sum_ext. intros; ring. }
        rewrite sum_swap. apply sum_ext. intros q _. apply sum_mul_r.
      + apply sum_ext. intros q _. rewrite QX by auto. rewrite <- sum_mul_l. rewrite <- sum_mul_l. apply sum_ext. intros; ring.
    - rewrite sum_mul_l. f_equal. etransitivity; [apply sum_swap|]. symmetry. unfold t. etransitivity; [apply sum_swap|]. symmetry. apply sum_ext. intros q _. etransitivity; [apply sum_swap|]. apply sum_ext. intros p _.
      rewrite sum_mul_l, WW. ring. }
  assert (C2 : sum R np (fun a => sum R np (fun b => conj (Tm a b) *! Q a b)) = conj (ri R *! t)).
  { rewrite <- C1, sum_conj. apply sum_ext. intros a _. rewrite sum_conj. apply sum_ext. intros b _. rewrite rconj_mul, rconj_conj. ring. }
  assert (C3 : sum R np (fun a => sum R np (fun b => conj (Q a b) *! Q a b)) = rnat R np).
  { rewrite sum_swap. transitivity (sum R np (fun _ => r1 R)).
    - apply sum_ext. intros b Hb. rewrite (@Q_iso R m GM UC Ai HA b b Hb Hb). unfold delta. rewrite Nat.eqb_refl. reflexivity.
    - clear. induction np as [|k IH]; [reflexivity|]. rewrite sum_S, IH. cbn [rnat]. ring. }
  transitivity (sum R np (fun a => sum R np (fun b => conj (Tm a b) *! Tm a b)) -! sum R np (fun a => sum R np (fun b => conj (Tm a b) *! Q a b)) -!
     (sum R np (fun a => sum R np (fun b => conj (Q a b) *! Tm a b)) -! sum R np (fun a => sum R np (fun b => conj (Q a b) *! Q a b)))).
  - rewrite <- !sum_sub. apply sum_ext. intros a _. rewrite <- !sum_sub. apply sum_ext. intros b _. rewrite conj_sub. ring.
  - rewrite C1, C2, C3, rconj_mul, rconj_i. ring.
Qed.
End Refl.
