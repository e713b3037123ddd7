(** * C58: DiscreteSymmetry holds a consistent set of symmetries and reports the broken ones. *)
From Coq Require Import List Bool Arith ZArith Ring Lia Setoid Morphisms.
From Verif Require Import StarRing KpmCorrSpec KpmTrace RmtSpec RmtAlg DiscModel DiscSpec DiscProofs.
Import ListNotations.
Set Implicit Arguments.

Section C58.
Variable R : StarRing.
Add Ring RringDp : (r_theory R).
Notation matrix := (nat -> nat -> R).
Local Open Scope star_scope.
Notation "0" := (r0 R) : star_scope.
Notation "1" := (r1 R) : star_scope.
Variable n : nat.
Variable eqb : R -> R -> bool.
Variable gt : R -> bool.
Hypothesis Heq : forall x y, eqb x y = true <-> x = y.
Notation "x ** y" := (mmul n x y) (at level 40, left associativity).
Notation "x == y" := (@meq R n x y) (at level 70).
Notation I := (@unit_matrix R).
Notation "x ^+" := (mT (mC x)) (at level 30).
Notation init := (init n eqb gt).
Notation lawful := (@lawful R n).
Notation extends := (@extends R n).
Notation check := (check n eqb).
Notation validate := (validate n eqb).
Notation full p := (mmul (fst p) (snd p) ((snd p)^+)).

Lemma extends_refl x : extends x x. Proof. destruct x; cbn; auto. reflexivity. Qed.
(** what __init__ checks and stores *)
Lemma init_none t p c : (exists d, init None t p c = inl d) <->
  let '(t', p', c') := complete n t p c in check t' true NTime = None /\ check p' true NParticleHole = None /\ check c' false NChiral = None /\
  match t, p, c with Some t, Some p, Some c => c ** p ** mC t == I | _, _, _ => True end.
Proof.
  unfold DiscModel.init. destruct (complete n t p c) as ((t', p'), c') eqn:Ec.
  set (e0 := match t with Some _ => _ | None => _ end).
  assert (E0 : e0 = None <-> match t, p, c with Some t, Some p, Some c => c ** p ** mC t == I | _, _, _ => True end).
  { unfold e0. destruct t as [t1|], p as [p1|], c as [c1|]; try tauto. rewrite <- (@ai_spec R n eqb Heq). destruct (almost_identity n eqb (c1 ** p1 ** mC t1)); split; congruence. }
  rewrite <- E0. destruct e0 as [e|]; [split; [intros (d & H); discriminate|intros (_ & _ & _ & H); discriminate]|].
  destruct (check t' true NTime), (check p' true NParticleHole), (check c' false NChiral); split; try (intros (? & HH); discriminate HH); try (intros (A & B & C & _); discriminate); [intros _; repeat split; reflexivity|intros _; eauto].
Qed.
Lemma init_fields ps t p c d : init ps t p c = inl d -> (time_reversal d, particle_hole d, chiral d) = complete n t p c /\ (exists d', init None t p c = inl d') /\
  match ps, projectors d with
  | None, None => True
  | Some ps, Some ps' => ps' = map (trim n eqb) ps /\ forall i j, i < n -> j < n -> lsum R (fun p => full p i j) ps' = I i j
  | _, _ => False
  end.
Proof.
  unfold DiscModel.init. destruct (complete n t p c) as ((t', p'), c').
  set (e0 := match t with Some _ => _ | None => _ end). destruct e0; [discriminate|].
  destruct (check t' true NTime); [discriminate|]. destruct (check p' true NParticleHole); [discriminate|]. destruct (check c' false NChiral); [discriminate|].
  destruct ps as [ps|]; [|intros [= <-]; cbn; eauto].
  destruct (almost_identity n eqb (msum (map DiscModel.full (map (trim n eqb) ps)))) eqn:Ea; [|discriminate]. cbn [negb].
  destruct (canonical n gt (map (trim n eqb) ps) t' true); [|discriminate]. destruct (canonical n gt (map (trim n eqb) ps) p' true); [|discriminate]. destruct (canonical n gt (map (trim n eqb) ps) c' false); [|discriminate].
  intros [= <-]. cbn [time_reversal particle_hole chiral projectors]. split; [reflexivity|]. split; [eauto|]. split; [reflexivity|].
  apply (@ai_spec R n eqb Heq) in Ea. intros i j Hi Hj. rewrite <- (Ea i j) by auto. unfold msum. clear. induction (map (trim n eqb) ps) as [|q l IH]; [reflexivity|]. cbn [map]. rewrite !lsum_cons, IH. reflexivity.
Qed.

(** A DiscreteSymmetry always holds a lawful set of symmetries that contains
    the given ones; nothing is added if less than two are given. *)
Theorem C58_init : forall ps t p c d, init ps t p c = inl d ->
  lawful (time_reversal d) (particle_hole d) (chiral d) /\
  extends t (time_reversal d) /\ extends p (particle_hole d) /\ extends c (chiral d) /\
  (lawful t p c -> time_reversal d = t /\ particle_hole d = p /\ chiral d = c).
Proof.
  intros ps t p c d H. apply init_fields in H. destruct H as (E & H & _). apply init_none in H. rewrite <- E in H.
  destruct H as (Ht & Hp & Hc & Hprod). apply (@check_opt_anti R n eqb Heq) in Ht, Hp. apply (@check_opt_unit R n eqb Heq) in Hc.
  destruct t as [t|], p as [p|], c as [c|]; cbn [complete] in E; injection E as Et Ep Ec; rewrite ?Et, ?Ep, ?Ec in *;
    refine (conj (conj Ht (conj Hp (conj Hc _))) (conj _ (conj _ (conj _ _)))); cbn [opt DiscSpec.extends] in *; try exact Logic.I; try reflexivity; auto;
    try (intros (_ & _ & _ & []); fail).
  - apply product_1. apply Hc.
  - apply product_3; auto.
  - apply product_2; auto.
Qed.

(** It is accepted iff the given symmetries are part of a lawful set. *)
Theorem C58_accept : forall t p c, (exists d, init None t p c = inl d) <->
  exists t' p' c', lawful t' p' c' /\ extends t t' /\ extends p p' /\ extends c c'.
Proof.
  intros t p c. split.
  - intros (d & H). destruct (C58_init _ _ _ _ H) as (L & A & B & C & _). eauto 10.
  - intros (t' & p' & c' & (Lt & Lp & Lc & L) & Et & Ep & Ec). apply init_none.
    destruct t as [t|], p as [p|], c as [c|]; destruct t' as [t'|], p' as [p'|], c' as [c'|]; cbn [DiscSpec.extends opt] in *; try contradiction; cbn [complete];
      try (assert (Ht : antiunitary_symmetry n t) by (eapply anti_eq; [symmetry; exact Et|auto])); try (assert (Hp : antiunitary_symmetry n p) by (eapply anti_eq; [symmetry; exact Ep|auto])); try (assert (Hc : unitary_symmetry n c) by (eapply unit_eq; [symmetry; exact Ec|auto]));
      rewrite ?(@check_anti R n eqb Heq), ?(@check_unit R n eqb Heq);
      try (repeat split; try apply Ht; try apply Hp; try apply Hc; auto; try (rewrite Et, Ep, Ec; exact L); fail).
    + (* c = p t^* *)
      assert (E : c' == p ** mC t). { assert (X : c' ** (c' ** p' ** mC t') == p' ** mC t') by (rewrite (@m_assoc R n c' p'), <- m_assoc; destruct Lc as [_ ->]; apply m_1l). rewrite L, m_1r in X. rewrite X, Et, Ep. reflexivity. }
      split; [auto|]. split; [auto|]. split; [|auto]. eapply unit_eq; eauto.
    + (* p *)
      assert (E : p' == t ** mC t ** c ** t).
      { apply (@cancel_r R n (mC t)); [apply unitary_C, Ht|]. apply (@cancel_l R n c); [apply Hc|]. rewrite <- !m_assoc. rewrite Et, Ec at 1. rewrite L. pose proof (product_3 Ht Hc) as X. rewrite <- !m_assoc in X. rewrite X. reflexivity. }
      split; [auto|]. split; [|auto]. eapply anti_eq; eauto.
    + assert (E : t' == p ** mC p ** p ** mC c).
      { assert (X : mC t' == mC (p ** mC p ** p ** mC c)). { apply (@cancel_l R n (c ** p)); [apply unitary_mul; [apply Hc|apply Hp]|]. rewrite (product_2 Hp Hc). rewrite Ec, Ep. exact L. } rewrite <- (@mCC R n t'), X, mCC. reflexivity. }
      split; [|auto]. eapply anti_eq; eauto.
Qed.

(** ** validate *)
Lemma pad_fill m (h : matrix) : pad m h == fill_columns m h. Proof. reflexivity. Qed.
Lemma vanishes_spec x y : vanishes n eqb (msub x y) = true <-> x == y.
Proof.
  unfold vanishes. rewrite all_below_spec. split; intros H i j Hi Hj.
  - specialize (H i j Hi Hj). apply Heq in H. unfold msub in H. transitivity (x i j - y i j + y i j); [ring|rewrite H; ring].
  - apply Heq. unfold msub. rewrite H by auto. ring.
Qed.
Lemma mscale_1 (x : matrix) : mscale 1 x == x. Proof. intros i j _ _. unfold mscale. ring. Qed.
Lemma mscale_N (x : matrix) : mscale (- (1)) x == mN x. Proof. intros i j _ _. unfold mscale, mN. ring. Qed.
Lemma move_unitary s x y : unitary n s -> (s^+ ** (x ** s) == y <-> s ** y ** s^+ == x).
Proof.
  intros [U1 U2]. split; intros E.
  - rewrite <- E, <- !m_assoc, U2, m_1l, m_assoc, U2, m_1r. reflexivity.
  - rewrite <- E, !m_assoc, U1, m_1r, <- m_assoc, U1, m_1l. reflexivity.
Qed.
Lemma commutator_inner (s h : matrix) : mT (mT s ** mT h) == h ** s.
Proof. rewrite mT_mul, !mTT. reflexivity. Qed.
Lemma breaks_spec h s cj sg : unitary n s -> (breaks n eqb h (Some s) cj sg = true <-> ~ s ** mscale sg (cond_conj h cj) ** s^+ == h).
Proof.
  intros U. unfold breaks. rewrite negb_true_iff. rewrite <- (move_unitary h (mscale sg (cond_conj h cj)) U).
  assert (X : vanishes n eqb (msub (dag s ** mT (mT s ** mT h)) (mscale sg (cond_conj h cj))) = true <-> s^+ ** (h ** s) == mscale sg (cond_conj h cj)).
  { rewrite vanishes_spec, commutator_inner. reflexivity. }
  destruct (vanishes n eqb _); rewrite <- X; split; congruence.
Qed.
Lemma in_if {A} (b : bool) (x y : A) : In y (if b then [x] else []) <-> b = true /\ x = y.
Proof. destruct b; cbn; split; try tauto; intros [? ?]; try discriminate; auto. Qed.
Lemma validate_in d m h nm : In nm (validate d m h) <->
  match nm with
  | NConserv => breaks_conservation n eqb (pad m h) (projectors d) = true
  | NTime => breaks n eqb (pad m h) (time_reversal d) true 1 = true
  | NParticleHole => breaks n eqb (pad m h) (particle_hole d) true (- (1)) = true
  | NChiral => breaks n eqb (pad m h) (chiral d) false (- (1)) = true
  end.
Proof. unfold DiscModel.validate. rewrite !in_app_iff, !in_if. destruct nm; intuition congruence. Qed.
Lemma mN_swap (s x y : matrix) : s ** mN x ** s^+ == y <-> s ** x ** s^+ == mN y.
Proof.
  split; intros E.
  - rewrite <- E, mN_r, mN_l, mNN. reflexivity.
  - rewrite mN_r, mN_l, E, mNN. reflexivity.
Qed.

(** validate(h) lists exactly the symmetries that the matrix breaks. *)
Theorem C58_validate : forall ps t p c d, init ps t p c = inl d -> forall m h,
  (In NTime (validate d m h) <-> exists t', time_reversal d = Some t' /\ ~ time_symmetric n t' (fill_columns m h)) /\
  (In NParticleHole (validate d m h) <-> exists p', particle_hole d = Some p' /\ ~ particle_symmetric n p' (fill_columns m h)) /\
  (In NChiral (validate d m h) <-> exists c', chiral d = Some c' /\ ~ chiral_symmetric n c' (fill_columns m h)) /\
  (In NConserv (validate d m h) <-> exists ps' q, projectors d = Some ps' /\ In q ps' /\ ~ commute n (full q) (fill_columns m h)).
Proof.
  intros ps t p c d H m h. destruct (C58_init _ _ _ _ H) as ((Lt & Lp & Lc & _) & _). rewrite !validate_in.
  assert (S : forall (P : matrix -> Prop) s b, match s with Some s => b = true <-> ~ P s | None => b = false end -> (b = true <-> exists s', s = Some s' /\ ~ P s')).
  { intros P [s|] b Hb; [rewrite Hb|]; split; [eauto|intros (s' & [= <-] & X); auto|congruence|intros (s' & [=] & _)]. }
  split; [|split; [|split]].
  - apply S. destruct (time_reversal d) as [s|]; [|reflexivity]. rewrite breaks_spec by apply Lt. cbn [cond_conj]. unfold time_symmetric. rewrite mscale_1. reflexivity.
  - apply S. destruct (particle_hole d) as [s|]; [|reflexivity]. rewrite breaks_spec by apply Lp. cbn [cond_conj]. unfold particle_symmetric. rewrite mscale_N, mN_swap. reflexivity.
  - apply S. destruct (chiral d) as [s|]; [|reflexivity]. rewrite breaks_spec by apply Lc. cbn [cond_conj]. unfold chiral_symmetric. rewrite mscale_N, mN_swap. reflexivity.
  - unfold breaks_conservation. destruct (projectors d) as [l|]; [|split; [discriminate|intros (ps' & q & [=] & _)]]. rewrite existsb_exists. split.
    + intros (q & Hq & Hb). exists l, q. split; auto. split; auto. intros X. apply negb_true_iff in Hb. apply not_true_iff_false in Hb. apply Hb. apply vanishes_spec. rewrite commutator_inner. exact X.
    + intros (ps' & q & [= <-] & Hq & X). exists q. split; auto. apply negb_true_iff. apply not_true_iff_false. rewrite vanishes_spec, commutator_inner. exact X.
Qed.
(** ... in this order and each once *)
Theorem C58_names : forall d m h, exists f, validate d m h = filter f [NConserv; NTime; NParticleHole; NChiral].
Proof.
  intros d m h. exists (fun nm => match nm with NConserv => breaks_conservation n eqb (pad m h) (projectors d) | NTime => breaks n eqb (pad m h) (time_reversal d) true 1
    | NParticleHole => breaks n eqb (pad m h) (particle_hole d) true (- (1)) | NChiral => breaks n eqb (pad m h) (chiral d) false (- (1)) end).
  unfold DiscModel.validate. cbn [filter]. repeat match goal with |- context [if ?b then _ else _] => destruct b end; reflexivity.
Qed.

(** If two of three declared symmetries hold, so does the third. *)
Lemma two_imply_third t p c h : antiunitary_symmetry n t -> antiunitary_symmetry n p -> unitary_symmetry n c -> c ** p ** mC t == I ->
  (time_symmetric n t h -> particle_symmetric n p h -> chiral_symmetric n c h) /\
  (time_symmetric n t h -> chiral_symmetric n c h -> particle_symmetric n p h) /\
  (particle_symmetric n p h -> chiral_symmetric n c h -> time_symmetric n t h).
Proof.
  intros (Ut & _) (Up & _) (Uc & Sc) E. unfold time_symmetric, particle_symmetric, chiral_symmetric.
  assert (Ec : c == p ** mC t). { assert (X : c ** (c ** p ** mC t) == p ** mC t) by (rewrite (@m_assoc R n c p), <- m_assoc, Sc; apply m_1l). rewrite E, m_1r in X. exact X. }
  assert (K : forall u x y : matrix, unitary n u -> (u ** x ** u^+ == u ** y ** u^+ <-> x == y)).
  { intros u x y Uu. split; [|intros ->; reflexivity]. intros X. apply (@cancel_l R n u); auto. apply (@cancel_r R n (u^+)); auto. apply unitary_T, unitary_C; auto. }
  (* c h c^+ = p (t h^* t^+)^* p^+ *)
  assert (M : c ** h ** c^+ == p ** mC (t ** mC h ** t^+) ** p^+).
  { assert (X : mC (t^+) == mT t) by (intros i j _ _; unfold mC, mT; apply rconj_conj). rewrite Ec, dag_mul, !mC_mul, X, !mCC. rewrite !m_assoc. reflexivity. }
  split; [|split].
  - intros Ht Hp. rewrite M, Ht. exact Hp.
  - intros Ht Hc. rewrite <- Hc, M, Ht. reflexivity.
  - intros Hp Hc. rewrite M, <- Hp in Hc. apply K in Hc; auto. rewrite <- (@mCC R n (t ** mC h ** t^+)), Hc, mCC. reflexivity.
Qed.
Theorem C58_third : forall ps t p c d, init ps t p c = inl d -> forall m h,
  let broken nm := In nm (validate d m h) in
  (time_reversal d <> None -> particle_hole d <> None -> chiral d <> None ->
   (broken NTime -> broken NParticleHole \/ broken NChiral) /\ (broken NParticleHole -> broken NTime \/ broken NChiral) /\ (broken NChiral -> broken NTime \/ broken NParticleHole)).
Proof.
  intros ps t p c d H m h broken Nt Np Nc. destruct (C58_init _ _ _ _ H) as ((Lt & Lp & Lc & L) & _).
  destruct (C58_validate _ _ _ _ H m h) as (Vt & Vp & Vc & _). unfold broken in *.
  assert (D : forall nm, {In nm (validate d m h)} + {~ In nm (validate d m h)}) by (intros nm; apply in_dec; decide equality).
  destruct (time_reversal d) as [t'|] eqn:E1; [|congruence]. destruct (particle_hole d) as [p'|] eqn:E2; [|congruence]. destruct (chiral d) as [c'|] eqn:E3; [|congruence].
  assert (Gt : ~ In NTime (validate d m h) <-> ~ ~ time_symmetric n t' (fill_columns m h)) by (rewrite Vt; split; [intros X Y; apply X; eauto|intros X (s & [= <-] & Y); auto]).
  assert (Gp : ~ In NParticleHole (validate d m h) <-> ~ ~ particle_symmetric n p' (fill_columns m h)) by (rewrite Vp; split; [intros X Y; apply X; eauto|intros X (s & [= <-] & Y); auto]).
  assert (Gc : ~ In NChiral (validate d m h) <-> ~ ~ chiral_symmetric n c' (fill_columns m h)) by (rewrite Vc; split; [intros X Y; apply X; eauto|intros X (s & [= <-] & Y); auto]).
  destruct (@two_imply_third t' p' c' (fill_columns m h) Lt Lp Lc L) as (T1 & T2 & T3).
  destruct (D NTime), (D NParticleHole), (D NChiral); try tauto; exfalso; tauto.
Qed.
End C58.
Print Assumptions C58_init.
Print Assumptions C58_accept.
Print Assumptions C58_validate.
Print Assumptions C58_third.
