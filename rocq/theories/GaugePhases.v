(** * The phases. *)
From Coq Require Import Reals List Bool Arith Lia Lra Permutation.
From Verif Require Import StarRing DiscretizeReal DijkstraModel DijkstraSpec GaugeModel GaugeSpec GaugeProofs GaugeForest GaugeLoops.
Import ListNotations.
Set Implicit Arguments.
Local Open Scope R_scope.

Lemma expi_add x y : rmul RC (expi x) (expi y) = expi (x + y).
Proof. unfold expi. cbn. rewrite cos_plus, sin_plus. f_equal; ring. Qed.
Lemma expi_0 : expi 0 = r1 RC.
Proof. unfold expi. rewrite cos_0, sin_0. reflexivity. Qed.
Lemma expi_conj x : rconj RC (expi x) = expi (- x).
Proof. unfold expi. cbn. rewrite cos_neg, sin_neg. reflexivity. Qed.
Lemma expi_cinv x : cinv (expi x) = expi (- x).
Proof. unfold expi, cinv. cbn. rewrite cos_neg, sin_neg. pose proof (sin2_cos2 x) as H. unfold Rsqr in H. replace (cos x * cos x + sin x * sin x) with 1 by lra. f_equal; field. Qed.
Lemma expi_div x y : cdiv (expi x) (expi y) = expi (x - y).
Proof. unfold cdiv. rewrite expi_cinv, expi_add. f_equal; ring. Qed.
Lemma cdiv_1 (x : RC) : cdiv x (r1 RC) = x.
Proof. rewrite <- expi_0. unfold cdiv. rewrite expi_cinv, Ropp_0, expi_0. destruct x. cbn. f_equal; ring. Qed.
Lemma key_eqb_spec a b : key_eqb a b = true <-> a = b.
Proof. destruct a as [a1 a2], b as [b1 b2]. unfold key_eqb. cbn. rewrite andb_true_iff, !Nat.eqb_eq. split; [intros [-> ->]; auto|intros [= -> ->]; auto]. Qed.
Lemma key_eqb_refl a : key_eqb a a = true. Proof. apply key_eqb_spec. auto. Qed.
Lemma pget_pset ph k v k' : pget (pset ph k v) k' = if key_eqb k k' then Some v else pget ph k'.
Proof.
  induction ph as [|[q u] ph IH]; cbn [pset pget]; [auto|]. destruct (key_eqb q k) eqn:E; cbn [pget].
  - apply key_eqb_spec in E. subst q. destruct (key_eqb k k'); auto.
  - rewrite IH. destruct (key_eqb q k') eqn:E'; [|auto]. destruct (key_eqb k k') eqn:E2; [|auto]. apply key_eqb_spec in E', E2. subst. rewrite key_eqb_refl in E. discriminate.
Qed.

Section Phases.
Variable pos : nat -> vec.
Variable flux : list vec -> R.
Variable A : nat -> nat -> R.
Hypothesis HAs : forall i j, A j i = - A i j.
Hypothesis Hflux : forall w, w <> [] -> flux (map pos w) = sum_around A w.
Variable g : graph.
Hypothesis Hf : full g.
Notation phases_from := (fold_left (fun ph loop => pset ph (last loop O, hd O loop) (cdiv (expi (PI * flux (map pos loop))) (previous_phase ph (r1 RC) loop)))).

Record pinv (pot : nat -> R) (sub : graph) (ph : phases) : Prop := {
  p_val : forall i j, links sub i j -> wrapper ph i j = expi (PI * A i j + pot j - pot i);
  p_one : forall i j, pget ph (i, j) <> None -> links sub i j /\ pget ph (j, i) = None }.

Lemma factor pot sub ph i j (x : RC) : pinv pot sub ph -> (forall x y, links sub x y -> links sub y x) -> links sub i j ->
  cdiv (rmul RC x (get1 ph (i, j))) (get1 ph (j, i)) = rmul RC x (expi (PI * A i j + pot j - pot i)).
Proof.
  intros I Hs Hl. pose proof (p_val I Hl) as Hv. pose proof (p_val I (Hs _ _ Hl)) as Hv'. unfold wrapper in Hv, Hv'. unfold get1. destruct (pget ph (i, j)) as [v|] eqn:E1.
  - destruct (@p_one _ _ _ I i j) as [_ E2]; [congruence|]. rewrite E2, Hv. apply cdiv_1.
  - destruct (pget ph (j, i)) as [v|] eqn:E2; [|rewrite cdiv_1, <- Hv; auto]. rewrite Hv'. unfold cdiv. rewrite expi_cinv. rewrite (HAs i j). replace (- (PI * - A i j + pot i - pot j)) with (PI * A i j + pot j - pot i) by lra. destruct x. cbn. f_equal; ring.
Qed.
Lemma previous_ok pot sub ph : pinv pot sub ph -> (forall x y, links sub x y -> links sub y x) -> forall p a, p <> [] -> along (links sub) p ->
  previous_phase ph (expi a) p = expi (a + PI * sum_along A p + pot (last p O) - pot (hd O p)).
Proof.
  intros I Hs p. induction p as [|i [|j p] IH]; intros a Hp Hal; [congruence|cbn; f_equal; lra|].
  destruct Hal as [Hl Hal]. change (previous_phase ph (expi a) (i :: j :: p)) with (previous_phase ph (cdiv (rmul RC (expi a) (get1 ph (i, j))) (get1 ph (j, i))) (j :: p)).
  rewrite (factor _ I Hs Hl), expi_add, IH; [|discriminate|auto]. rewrite last_cons. change (sum_along A (i :: j :: p)) with (A i j + sum_along A (j :: p)). cbn [hd]. f_equal. lra.
Qed.
Lemma phases_ok pot : forall loops sub ph, valid g sub loops -> sub_of sub g -> (forall x y, links sub x y -> links sub y x) -> pinv pot sub ph ->
  exists sub', (forall i j, edge g i j -> links sub' i j) /\ (forall i j, links sub' i j -> edge g i j) /\ pinv pot sub' (phases_from loops ph).
Proof.
  intros loops sub ph HV Hsub. assert (Hle : forall i j, links sub i j -> edge g i j) by (intros i j; apply sub_links; auto). clear Hsub. revert ph.
  induction HV as [sub Hall|sub sub' p loops Hp Hal He Hn HL HV IH]; intros ph Hsym I; [exists sub; split; [auto|split; auto]|]. cbn [fold_left]. apply IH.
  - intros i j H. apply HL in H. destruct H as [H|[[-> ->]|[-> ->]]]; [auto|auto|]. apply (f_sym Hf), He.
  - intros x y H. apply HL. apply HL in H. destruct H as [H|[[-> ->]|[-> ->]]]; auto.
  - set (i := last p O) in *. set (j := hd O p) in *. rewrite <- expi_0, (previous_ok I Hsym) by auto. fold i j. rewrite Hflux by auto. unfold sum_around. fold i j. rewrite expi_div.
    replace (PI * (sum_along A p + A i j) - (0 + PI * sum_along A p + pot i - pot j)) with (PI * A i j + pot j - pot i) by lra.
    assert (Hij : i <> j) by (intros E; rewrite E in He; apply (f_irr Hf j He)).
    assert (N1 : pget ph (i, j) = None). { destruct (pget ph (i, j)) eqn:E; [|auto]. exfalso. apply Hn. apply (p_one I i j). congruence. }
    assert (N2 : pget ph (j, i) = None). { destruct (pget ph (j, i)) eqn:E; [|auto]. exfalso. apply Hn. apply Hsym. apply (p_one I j i). congruence. }
    assert (K : forall x y, key_eqb (i, j) (x, y) = true <-> (x = i /\ y = j)). { intros x y. rewrite key_eqb_spec. split; [intros [= -> ->]; auto|intros [-> ->]; auto]. }
    constructor.
    + intros x y Hxy. unfold wrapper. rewrite !pget_pset. destruct (key_eqb (i, j) (x, y)) eqn:E; [apply K in E; destruct E as [-> ->]; auto|].
      destruct (key_eqb (i, j) (y, x)) eqn:E'.
      * apply K in E'. destruct E' as [-> ->]. rewrite N2, expi_conj. f_equal. rewrite (HAs i j). lra.
      * apply HL in Hxy. destruct Hxy as [H|[[-> ->]|[-> ->]]]; [apply (p_val I H)| |]; rewrite key_eqb_refl in *; discriminate.
    + intros x y. rewrite !pget_pset. destruct (key_eqb (i, j) (x, y)) eqn:E.
      * intros _. apply K in E. destruct E as [-> ->]. split; [apply HL; auto|]. destruct (key_eqb (i, j) (j, i)) eqn:E; [apply K in E; destruct E; congruence|auto].
      * intros H. destruct (p_one I x y H) as [H1 H2]. split; [apply HL; auto|]. destruct (key_eqb (i, j) (y, x)) eqn:E'; [|auto]. apply K in E'. destruct E' as [-> ->]. congruence.
Qed.
End Phases.

Lemma product_along_expi (f : nat -> nat -> RC) (A : nat -> nat -> R) pot (S : nat -> nat -> Prop) w : (forall i j, S i j -> f i j = expi (PI * A i j + pot j - pot i)) -> w <> [] -> along S w ->
  product_along f w = expi (PI * sum_along A w + pot (last w O) - pot (hd O w)).
Proof.
  intros H. induction w as [|i [|j w] IH]; intros Hw Hal; [congruence|change (product_along f [i]) with (r1 RC); rewrite <- expi_0; f_equal; cbn; lra|]. destruct Hal as [H1 H2].
  change (product_along f (i :: j :: w)) with (rmul RC (f i j) (product_along f (j :: w))). change (sum_along A (i :: j :: w)) with (A i j + sum_along A (j :: w)).
  rewrite (H _ _ H1), IH, expi_add, last_cons; [|discriminate|auto]. cbn [hd]. f_equal. lra.
Qed.
Lemma product_around_expi (f : nat -> nat -> RC) (A : nat -> nat -> R) pot adj w : (forall i j, linked adj i j -> f i j = expi (PI * A i j + pot j - pot i)) -> closed_loop adj w ->
  product_around f w = expi (PI * sum_around A w).
Proof.
  intros H (Hw & Hal & Hl). unfold product_around, sum_around. rewrite (@product_along_expi f A pot (linked adj) w H Hw Hal), (H _ _ Hl), expi_add. f_equal. lra.
Qed.
