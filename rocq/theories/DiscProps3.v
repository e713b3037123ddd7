(** * C59: the symmetries of an infinite system (lead). *)
From Coq Require Import List Bool Arith ZArith Ring Lia Setoid Morphisms.
From Verif Require Import StarRing KpmCorrSpec KpmTrace RmtSpec RmtAlg DiscModel DiscSpec DiscProofs DiscProps.
Import ListNotations.
Set Implicit Arguments.

Section C59.
Variable R : StarRing.
Add Ring RringDr : (r_theory R).
Notation matrix := (nat -> nat -> R).
Local Open Scope star_scope.
Notation "0" := (r0 R) : star_scope.
Notation "1" := (r1 R) : star_scope.
Notation conj := (rconj R).
Notation im := (ri R).
Variable n : nat.
Variable eqb : R -> R -> bool.
Variable gt : R -> bool.
Hypothesis Heq : forall x y, eqb x y = true <-> x = y.
(** 2 is not a zero divisor *)
Hypothesis Htwo : forall x : R, x + x = 0 -> x = 0.
Notation "x ** y" := (mmul n x y) (at level 40, left associativity).
Notation "x == y" := (@meq R n x y) (at level 70).
Notation I := (@unit_matrix R).
Notation "x ^+" := (mT (mC x)) (at level 30).
Notation init := (init n eqb gt).
Notation validate := (validate n eqb).
Notation full p := (mmul (fst p) (snd p) ((snd p)^+)).
Definition mA (x y : matrix) : matrix := fun i j => x i j + y i j.
Definition m0 : matrix := fun _ _ => 0.

Lemma i_i : im * im = - (1). Proof. apply ri_sq. Qed.
(** a + z b + s z^* b^+ = 0 for all z on the unit circle *)
Lemma circle_zero (a b : matrix) sg : (sg = 1 \/ sg = - (1)) ->
  (on_circle (fun z => forall i j, (i < n)%nat -> (j < n)%nat -> a i j + z * b i j + sg * (conj z * conj (b j i)) = 0) <-> a == m0 /\ b == m0).
Proof.
  intros Hs. split.
  - intros H. assert (H1 := H 1 ltac:(rewrite conj1; ring)). assert (H2 := H (- (1)) ltac:(rewrite conj_opp, conj1; ring)).
    assert (H3 := H im ltac:(rewrite rconj_i; transitivity (- (im * im)); [ring|rewrite i_i; ring])).
    assert (Za : a == m0).
    { intros i j Hi Hj. unfold m0. apply Htwo. specialize (H1 i j Hi Hj). specialize (H2 i j Hi Hj). rewrite conj1 in H1. rewrite conj_opp, conj1 in H2.
      transitivity ((a i j + 1 * b i j + sg * (1 * conj (b j i))) + (a i j + - (1) * b i j + sg * (- (1) * conj (b j i)))); [ring|rewrite H1, H2; ring]. }
    split; auto. intros i j Hi Hj. unfold m0. apply Htwo. specialize (H1 i j Hi Hj). specialize (H3 i j Hi Hj). rewrite (Za i j Hi Hj) in H1, H3. unfold m0 in H1, H3. rewrite conj1 in H1. rewrite rconj_i in H3.
    assert (E3 : b i j - sg * conj (b j i) = 0).
    { transitivity (- im * (0 + im * b i j + sg * (- im * conj (b j i)))); [|rewrite H3; ring]. transitivity (- (im * im) * (b i j - sg * conj (b j i))); [rewrite i_i|]; ring. }
    transitivity ((0 + 1 * b i j + sg * (1 * conj (b j i))) + (b i j - sg * conj (b j i))); [ring|rewrite H1, E3; ring].
  - intros [Za Zb] z Hz i j Hi Hj. rewrite (Za i j), (Zb i j), (Zb j i) by auto. unfold m0. rewrite conj0. ring.
Qed.
Lemma mm_add_r x y z : x ** mA y z == mA (x ** y) (x ** z).
Proof. intros i j Hi Hj. unfold mA, mmul. rewrite <- sum_add. apply sum_ext. intros. ring. Qed.
Lemma mm_add_l x y z : mA y z ** x == mA (y ** x) (z ** x).
Proof. intros i j Hi Hj. unfold mA, mmul. rewrite <- sum_add. apply sum_ext. intros. ring. Qed.
Lemma mm_scale_r k x y : x ** mscale k y == mscale k (x ** y).
Proof. intros i j Hi Hj. unfold mscale, mmul. rewrite <- sum_mul_l. apply sum_ext. intros. ring. Qed.
Lemma mm_scale_l k x y : mscale k x ** y == mscale k (x ** y).
Proof. intros i j Hi Hj. unfold mscale, mmul. rewrite <- sum_mul_l. apply sum_ext. intros. ring. Qed.
Global Instance mA_proper : Proper (@meq R n ==> @meq R n ==> @meq R n) mA.
Proof. intros x x' Ex y y' Ey i j Hi Hj. unfold mA. rewrite Ex, Ey by auto. reflexivity. Qed.
Lemma bloch_eq ham hop z : bloch ham hop z == mA ham (mA (mscale z hop) (mscale (conj z) (hop^+))).
Proof. intros i j _ _. unfold bloch, mA, mscale, mT, mC. ring. Qed.
Lemma bloch_conj ham hop z : mC (bloch ham hop z) == mA (mC ham) (mA (mscale (conj z) (mC hop)) (mscale z (mC (hop^+)))).
Proof. intros i j _ _. unfold bloch, mA, mscale, mT, mC. rewrite !rconj_add, !rconj_mul, !rconj_conj. ring. Qed.
Lemma dag_dag x : (x^+)^+ == x. Proof. intros i j _ _. unfold mT, mC. apply rconj_conj. Qed.
Lemma sandwich u x : u ** x^+ ** u^+ == (u ** x ** u^+)^+.
Proof.
  assert (D : forall x y : matrix, (x ** y)^+ == y^+ ** x^+) by (intros a b; rewrite mC_mul, mT_mul; reflexivity).
  rewrite !D, dag_dag, m_assoc. reflexivity.
Qed.
Lemma sand_sum u a b c x y : u ** mA a (mA (mscale x b) (mscale y c)) ** u^+ == mA (u ** a ** u^+) (mA (mscale x (u ** b ** u^+)) (mscale y (u ** c ** u^+))).
Proof. rewrite !mm_add_r, !mm_add_l, !mm_scale_r, !mm_scale_l. reflexivity. Qed.
Lemma zero_iff (x y : matrix) : (fun i j => x i j - y i j) == m0 <-> x == y.
Proof.
  split; intros E i j Hi Hj.
  - specialize (E i j Hi Hj). cbn in E. unfold m0 in E. transitivity (x i j - y i j + y i j); [ring|rewrite E; ring].
  - cbn. rewrite E by auto. unfold m0. ring.
Qed.

(** the lead has the symmetry iff the Hamiltonian of the unit cell and the hopping have it *)
Definition K (cj : bool) (x : matrix) : matrix := if cj then mC x else x.
Definition Kz (cj : bool) (z : R) : R := if cj then conj z else z.
Lemma Kz_K cj z : Kz cj (Kz cj z) = z. Proof. destruct cj; cbn; auto. apply rconj_conj. Qed.
Lemma Kz_c cj z : z * conj z = 1 -> Kz cj z * conj (Kz cj z) = 1. Proof. destruct cj; cbn; auto. rewrite rconj_conj. intros <-. ring. Qed.
Lemma bloch_K cj ham hop z : K cj (bloch ham hop z) == mA (K cj ham) (mA (mscale (Kz cj z) (K cj hop)) (mscale (conj (Kz cj z)) ((K cj hop)^+))).
Proof. destruct cj; cbn; [|apply bloch_eq]. rewrite bloch_conj. rewrite rconj_conj. reflexivity. Qed.
Lemma lead_iff cj sg (u ham hop : matrix) : conj sg = sg ->
  (on_circle (fun z => u ** K cj (bloch ham hop z) ** u^+ == mscale sg (bloch ham hop (Kz cj z))) <->
   u ** K cj ham ** u^+ == mscale sg ham /\ u ** K cj hop ** u^+ == mscale sg hop).
Proof.
  intros Hsg. rewrite <- (zero_iff (u ** K cj ham ** u^+) (mscale sg ham)), <- (zero_iff (u ** K cj hop ** u^+) (mscale sg hop)).
  set (A := u ** K cj ham ** u^+). set (B := u ** K cj hop ** u^+).
  rewrite <- (@circle_zero (fun i j => A i j - mscale sg ham i j) (fun i j => B i j - mscale sg hop i j) 1) by auto.
  assert (X : forall z, u ** K cj (bloch ham hop z) ** u^+ == mscale sg (bloch ham hop (Kz cj z)) <->
    forall i j, (i < n)%nat -> (j < n)%nat -> A i j - mscale sg ham i j + Kz cj z * (B i j - mscale sg hop i j) + 1 * (conj (Kz cj z) * conj (B j i - mscale sg hop j i)) = 0).
  { intros z. rewrite bloch_K, sand_sum, sandwich, (bloch_eq ham hop (Kz cj z)). fold A B. rewrite <- zero_iff.
    split; intros E i j Hi Hj; specialize (E i j Hi Hj); [unfold m0 in E; rewrite <- E|unfold m0; rewrite <- E]; unfold mA, mscale, mT, mC; rewrite conj_sub, rconj_mul, Hsg; ring. }
  unfold on_circle. split.
  - intros H z Hz. specialize (proj1 (X (Kz cj z)) (H _ (Kz_c cj _ Hz))). rewrite Kz_K. auto.
  - intros H z Hz. apply X. apply H. apply Kz_c; auto.
Qed.
Lemma scale_1 (x : matrix) : mscale 1 x == x. Proof. intros i j _ _. unfold mscale. ring. Qed.
Lemma scale_N (x : matrix) : mscale (- (1)) x == mN x. Proof. intros i j _ _. unfold mscale, mN. ring. Qed.
Lemma conj_N1 : conj (- (1)) = - (1). Proof. rewrite conj_opp, conj1. reflexivity. Qed.
Lemma lead_time_iff (t ham hop : matrix) : lead_time n t ham hop <-> time_symmetric n t ham /\ time_symmetric n t hop.
Proof.
  unfold time_symmetric. pose proof (@lead_iff true 1 t ham hop (conj1 R)) as X. cbn [K Kz] in X. rewrite !scale_1 in X. rewrite <- X. unfold lead_time, on_circle. setoid_rewrite scale_1. reflexivity.
Qed.
Lemma lead_particle_iff (t ham hop : matrix) : lead_particle n t ham hop <-> particle_symmetric n t ham /\ particle_symmetric n t hop.
Proof.
  unfold particle_symmetric. pose proof (@lead_iff true (- (1)) t ham hop conj_N1) as X. cbn [K Kz] in X. rewrite !scale_N in X. rewrite <- X. unfold lead_particle, on_circle. setoid_rewrite scale_N. reflexivity.
Qed.
Lemma lead_chiral_iff (t ham hop : matrix) : lead_chiral n t ham hop <-> chiral_symmetric n t ham /\ chiral_symmetric n t hop.
Proof.
  unfold chiral_symmetric. pose proof (@lead_iff false (- (1)) t ham hop conj_N1) as X. cbn [K Kz] in X. rewrite !scale_N in X. rewrite <- X. unfold lead_chiral, on_circle. setoid_rewrite scale_N. reflexivity.
Qed.
Lemma lead_conserved_iff (q ham hop : matrix) : q^+ == q -> (lead_conserved n q ham hop <-> commute n q ham /\ commute n q hop).
Proof.
  intros Hq. unfold lead_conserved, commute. rewrite <- (zero_iff (q ** ham) (ham ** q)), <- (zero_iff (q ** hop) (hop ** q)).
  rewrite <- (@circle_zero (fun i j => (q ** ham) i j - (ham ** q) i j) (fun i j => (q ** hop) i j - (hop ** q) i j) (- (1))) by auto.
  assert (D : forall x y : matrix, (x ** y)^+ == y^+ ** x^+) by (intros a b; rewrite mC_mul, mT_mul; reflexivity).
  assert (D1 : q ** hop^+ == (hop ** q)^+) by (rewrite D, Hq; reflexivity). assert (D2 : hop^+ ** q == (q ** hop)^+) by (rewrite D, Hq; reflexivity).
  unfold on_circle. assert (X : forall z, q ** bloch ham hop z == bloch ham hop z ** q <-> forall i j, (i < n)%nat -> (j < n)%nat ->
    (q ** ham) i j - (ham ** q) i j + z * ((q ** hop) i j - (hop ** q) i j) + - (1) * (conj z * conj ((q ** hop) j i - (hop ** q) j i)) = 0).
  { intros z. rewrite bloch_eq, !mm_add_r, !mm_add_l, !mm_scale_r, !mm_scale_l, D1, D2. rewrite <- zero_iff.
    split; intros E i j Hi Hj; specialize (E i j Hi Hj); [unfold m0 in E; rewrite <- E|unfold m0; rewrite <- E]; unfold mA, mscale, mT, mC; rewrite conj_sub; ring. }
  split; intros H z Hz; specialize (H z Hz); [apply (proj1 (X z)); auto|apply (proj2 (X z)); auto].
Qed.
Lemma full_herm (p : nat * matrix) : (full p)^+ == full p.
Proof. intros i j _ _. unfold mT, mC, mmul. rewrite sum_conj. apply sum_ext. intros k _. rewrite rconj_mul, rconj_conj. ring. Qed.

Lemma fill_self h : fill_columns n h == h.
Proof. intros i j _ Hj. unfold fill_columns. rewrite (proj2 (Nat.ltb_lt j n)) by auto. reflexivity. Qed.
Lemma dec_and (P Q : Prop) : (P \/ ~ P) -> (~ (P /\ Q) <-> ~ P \/ ~ Q). Proof. tauto. Qed.
Lemma meq_dec (x y : matrix) : x == y \/ ~ x == y.
Proof. pose proof (@vanishes_spec R n eqb Heq x y) as V. destruct (vanishes n eqb (msub x y)); [left; apply V; auto|right; intros E; apply V in E; discriminate]. Qed.

(** InfiniteSystem.validate_symmetries lists exactly the symmetries that the
    Bloch Hamiltonian breaks for some momentum. *)
Theorem C59_validate : forall ps t p c d, init ps t p c = inl d -> forall ham m hop,
  let broken nm := In nm (infinite_validate n eqb d ham m hop) in
  (broken NTime <-> exists t', time_reversal d = Some t' /\ ~ lead_time n t' ham (fill_columns m hop)) /\
  (broken NParticleHole <-> exists p', particle_hole d = Some p' /\ ~ lead_particle n p' ham (fill_columns m hop)) /\
  (broken NChiral <-> exists c', chiral d = Some c' /\ ~ lead_chiral n c' ham (fill_columns m hop)) /\
  (broken NConserv <-> exists ps' q, projectors d = Some ps' /\ In q ps' /\ ~ lead_conserved n (full q) ham (fill_columns m hop)).
Proof.
  intros ps t p c d H ham m hop broken. unfold broken, infinite_validate.
  destruct (@C58_validate R n eqb gt Heq _ _ _ _ _ H n ham) as (A1 & A2 & A3 & A4). destruct (@C58_validate R n eqb gt Heq _ _ _ _ _ H m hop) as (B1 & B2 & B3 & B4).
  rewrite !in_app_iff, A1, A2, A3, A4, B1, B2, B3, B4. clear A1 A2 A3 A4 B1 B2 B3 B4.
  assert (E1 : forall t, time_symmetric n t (fill_columns n ham) <-> time_symmetric n t ham) by (intros s; unfold time_symmetric; rewrite fill_self; reflexivity).
  assert (E2 : forall t, particle_symmetric n t (fill_columns n ham) <-> particle_symmetric n t ham) by (intros s; unfold particle_symmetric; rewrite fill_self; reflexivity).
  assert (E3 : forall t, chiral_symmetric n t (fill_columns n ham) <-> chiral_symmetric n t ham) by (intros s; unfold chiral_symmetric; rewrite fill_self; reflexivity).
  assert (E4 : forall t, commute n t (fill_columns n ham) <-> commute n t ham) by (intros s; unfold commute; rewrite fill_self; reflexivity).
  split; [|split; [|split]].
  - setoid_rewrite E1. setoid_rewrite lead_time_iff. split.
    + intros [(s & A & B)|(s & A & B)]; exists s; tauto.
    + intros (s & A & B). destruct (meq_dec (s ** mC ham ** s^+) ham) as [D|D]; [right|left]; exists s; split; auto; intros X; apply B; split; auto.
  - setoid_rewrite E2. setoid_rewrite lead_particle_iff. split.
    + intros [(s & A & B)|(s & A & B)]; exists s; tauto.
    + intros (s & A & B). destruct (meq_dec (s ** mC ham ** s^+) (mN ham)) as [D|D]; [right|left]; exists s; split; auto; intros X; apply B; split; auto.
  - setoid_rewrite E3. setoid_rewrite lead_chiral_iff. split.
    + intros [(s & A & B)|(s & A & B)]; exists s; tauto.
    + intros (s & A & B). destruct (meq_dec (s ** ham ** s^+) (mN ham)) as [D|D]; [right|left]; exists s; split; auto; intros X; apply B; split; auto.
  - setoid_rewrite E4. split.
    + intros [(l & s & A & B & C)|(l & s & A & B & C)]; exists l, s; rewrite (lead_conserved_iff ham (fill_columns m hop) (full_herm s)); tauto.
    + intros (l & s & A & B & C). rewrite (lead_conserved_iff ham (fill_columns m hop) (full_herm s)) in C. destruct (meq_dec (full s ** ham) (ham ** full s)) as [D|D]; [right|left]; exists l, s; split; auto; split; auto; intros X; apply C; split; auto.
Qed.

Lemma fold_ignore l d : let d' := fold_left (@ignore R) l d in
  projectors d' = (if existsb (fun x => match x with NConserv => true | _ => false end) l then None else projectors d) /\
  time_reversal d' = (if existsb (fun x => match x with NTime => true | _ => false end) l then None else time_reversal d) /\
  particle_hole d' = particle_hole d /\
  chiral d' = (if existsb (fun x => match x with NChiral => true | _ => false end) l then None else chiral d).
Proof.
  cbn zeta. revert d. induction l as [|x l IH]; intros d; [cbn; auto|]. cbn [fold_left existsb]. destruct (IH (ignore d x)) as (A & B & C & D). rewrite A, B, C, D.
  destruct x; cbn; repeat split; auto; match goal with |- context [existsb ?f l] => destruct (existsb f l) end; reflexivity.
Qed.
(** What InfiniteSystem.modes(energy) passes on: the declared conservation law
    and time-reversal symmetry iff the lead has them; the chiral symmetry iff
    the lead has it and the energy is zero; particle-hole symmetry iff the
    energy is zero - also if the lead does not have it. *)
Theorem C59_modes : forall ps t p c d, init ps t p c = inl d -> forall energy ham m hop broken,
  (forall nm, In nm broken <-> In nm (infinite_validate n eqb d ham m hop)) ->
  let d' := modes_symmetries eqb d energy broken in
  (forall s, time_reversal d' = Some s <-> time_reversal d = Some s /\ lead_time n s ham (fill_columns m hop)) /\
  (forall s, chiral d' = Some s <-> energy = 0 /\ chiral d = Some s /\ lead_chiral n s ham (fill_columns m hop)) /\
  (forall l, projectors d' = Some l <-> projectors d = Some l /\ forall q, In q l -> lead_conserved n (full q) ham (fill_columns m hop)) /\
  (forall s, particle_hole d' = Some s <-> energy = 0 /\ particle_hole d = Some s).
Proof.
  intros ps t p c d H energy ham m hop broken Hb d'. destruct (@C59_validate _ _ _ _ _ H ham m hop) as (V1 & V2 & V3 & V4). rewrite <- Hb in V1, V2, V3, V4.
  destruct (fold_ignore broken d) as (F1 & F2 & F3 & F4).
  assert (G : forall nm (f : name -> bool), (forall x, f x = true <-> x = nm) -> existsb f broken = true <-> In nm broken).
  { intros nm f Hf. rewrite existsb_exists. split; [intros (x & A & B); apply Hf in B; subst; auto|intros A; exists nm; split; auto; apply Hf; auto]. }
  pose proof (G NConserv (fun x => match x with NConserv => true | _ => false end) ltac:(intros []; split; congruence)) as G1.
  pose proof (G NTime (fun x => match x with NTime => true | _ => false end) ltac:(intros []; split; congruence)) as G2.
  pose proof (G NChiral (fun x => match x with NChiral => true | _ => false end) ltac:(intros []; split; congruence)) as G3. clear G.
  assert (D1 : forall s, lead_time n s ham (fill_columns m hop) \/ ~ lead_time n s ham (fill_columns m hop)).
  { intros s. rewrite lead_time_iff. destruct (meq_dec (s ** mC ham ** s^+) ham), (meq_dec (s ** mC (fill_columns m hop) ** s^+) (fill_columns m hop)); unfold time_symmetric; tauto. }
  assert (D2 : forall s, lead_chiral n s ham (fill_columns m hop) \/ ~ lead_chiral n s ham (fill_columns m hop)).
  { intros s. rewrite lead_chiral_iff. destruct (meq_dec (s ** ham ** s^+) (mN ham)), (meq_dec (s ** fill_columns m hop ** s^+) (mN (fill_columns m hop))); unfold chiral_symmetric; tauto. }
  assert (D3 : forall q : nat * matrix, lead_conserved n (full q) ham (fill_columns m hop) \/ ~ lead_conserved n (full q) ham (fill_columns m hop)).
  { intros s. rewrite (lead_conserved_iff ham (fill_columns m hop) (full_herm s)). unfold commute. destruct (meq_dec (full s ** ham) (ham ** full s)), (meq_dec (full s ** fill_columns m hop) (fill_columns m hop ** full s)); tauto. }
  assert (P1 : projectors d' = projectors (fold_left (@ignore R) broken d)) by (unfold d', modes_symmetries; destruct (eqb energy 0); reflexivity).
  assert (P2 : time_reversal d' = time_reversal (fold_left (@ignore R) broken d)) by (unfold d', modes_symmetries; destruct (eqb energy 0); reflexivity).
  assert (P3 : particle_hole d' = if eqb energy 0 then particle_hole d else None) by (unfold d', modes_symmetries; destruct (eqb energy 0); [exact F3|reflexivity]).
  assert (P4 : chiral d' = if eqb energy 0 then chiral (fold_left (@ignore R) broken d) else None) by (unfold d', modes_symmetries; destruct (eqb energy 0); reflexivity).
  rewrite F1 in P1. rewrite F2 in P2. rewrite F4 in P4. rewrite P1, P2, P3, P4. clear F1 F2 F3 F4 P1 P2 P3 P4.
  pose proof (Heq energy 0) as He. split; [|split; [|split]].
  - intros s. destruct (existsb (fun x => match x with NTime => true | _ => false end) broken); split.
    + discriminate.
    + intros [A B]. exfalso. destruct (proj1 V1 (proj1 G2 eq_refl)) as (s' & A' & B'). rewrite A in A'. injection A' as <-. auto.
    + intros A. split; auto. destruct (D1 s); auto. exfalso. assert (X : false = true) by (apply G2, V1; eauto). discriminate.
    + tauto.
  - intros s. destruct (eqb energy 0); [|split; [discriminate|intros (A & _); apply He in A; discriminate]]. destruct (existsb (fun x => match x with NChiral => true | _ => false end) broken); split.
    + discriminate.
    + intros (_ & A & B). exfalso. destruct (proj1 V3 (proj1 G3 eq_refl)) as (s' & A' & B'). rewrite A in A'. injection A' as <-. auto.
    + intros A. split; [apply He; auto|]. split; auto. destruct (D2 s); auto. exfalso. assert (X : false = true) by (apply G3, V3; eauto). discriminate.
    + tauto.
  - intros l. destruct (existsb (fun x => match x with NConserv => true | _ => false end) broken); split.
    + discriminate.
    + intros [A B]. exfalso. destruct (proj1 V4 (proj1 G1 eq_refl)) as (l' & q & A' & B' & C'). rewrite A in A'. injection A' as <-. auto.
    + intros A. split; auto. intros q Hq. destruct (D3 q); auto. exfalso. assert (X : false = true) by (apply G1, V4; eauto). discriminate.
    + tauto.
  - intros s. destruct (eqb energy 0); split; try discriminate; [intros A; split; auto; apply He; auto|tauto|intros (A & _); apply He in A; discriminate].
Qed.

(** The matrices passed on (with the energy subtracted) have all symmetries
    passed on along with them, if particle-hole symmetry is not broken. *)
Theorem C59_sound : forall ps t p c d, init ps t p c = inl d -> forall energy ham m hop broken, conj energy = energy ->
  (forall nm, In nm broken <-> In nm (infinite_validate n eqb d ham m hop)) ->
  let d' := modes_symmetries eqb d energy broken in let ham' := shift energy ham in let hop' := fill_columns m hop in
  (forall z i j, bloch ham' hop' z i j = bloch ham hop' z i j - energy * I i j) /\
  opt (fun s => lead_time n s ham' hop') (time_reversal d') /\
  opt (fun s => lead_chiral n s ham' hop') (chiral d') /\
  (forall l q, projectors d' = Some l -> In q l -> lead_conserved n (full q) ham' hop') /\
  (~ In NParticleHole broken -> opt (fun s => lead_particle n s ham' hop') (particle_hole d')).
Proof.
  intros ps t p c d H energy ham m hop broken Hreal Hb d' ham' hop'. destruct (@C59_modes _ _ _ _ _ H energy ham m hop broken Hb) as (M1 & M2 & M3 & M4).
  destruct (@C58_init R n eqb gt Heq _ _ _ _ _ H) as ((Lt & Lp & Lc & _) & _).
  assert (Es : ham' == mA ham (mscale (- energy) I)). { intros i j _ _. unfold ham', shift, mA, mscale, unit_matrix. destruct (i =? j)%nat; ring. }
  assert (E0 : energy = 0 -> ham' == ham). { intros ->. rewrite Es. intros i j _ _. unfold mA, mscale. ring. }
  split; [|split; [|split; [|split]]].
  - intros z i j. unfold bloch, ham', shift, unit_matrix. destruct (i =? j)%nat; ring.
  - fold d' in M1. destruct (time_reversal d') as [s|]; [|exact Logic.I]. cbn [opt]. destruct (proj1 (M1 s) eq_refl) as (A & B). rewrite A in Lt. destruct Lt as [[_ U] _].
    apply lead_time_iff in B. apply lead_time_iff. destruct B as [B1 B2]. split; [|exact B2]. unfold time_symmetric in *. rewrite Es.
    assert (X : mC (mA ham (mscale (- energy) I)) == mA (mC ham) (mscale (- energy) I)). { intros i j _ _. unfold mC, mA, mscale. rewrite rconj_add, rconj_mul, conj_opp, Hreal. f_equal. f_equal. unfold unit_matrix. destruct (i =? j)%nat; [apply conj1|apply conj0]. }
    rewrite X, mm_add_r, mm_add_l, B1, mm_scale_r, mm_scale_l, m_1r, U. reflexivity.
  - fold d' in M2. destruct (chiral d') as [s|]; [|exact Logic.I]. cbn [opt]. destruct (proj1 (M2 s) eq_refl) as (A & B & C). apply lead_chiral_iff in C. apply lead_chiral_iff. unfold chiral_symmetric in *. rewrite (E0 A). exact C.
  - intros l q Hl Hq. fold d' in M3. destruct (proj1 (M3 l) Hl) as (A & B). specialize (B q Hq). apply (lead_conserved_iff _ _ (full_herm q)) in B. apply (lead_conserved_iff _ _ (full_herm q)). destruct B as [B1 B2]. split; [|exact B2].
    unfold commute in *. rewrite Es, mm_add_r, mm_add_l, B1, mm_scale_r, mm_scale_l, m_1r, m_1l. reflexivity.
  - intros Hn. fold d' in M4. destruct (particle_hole d') as [s|]; [|exact Logic.I]. cbn [opt]. destruct (proj1 (M4 s) eq_refl) as (A & B). apply lead_particle_iff. unfold particle_symmetric. rewrite (E0 A).
    change (particle_symmetric n s ham /\ particle_symmetric n s hop').
    destruct (@C59_validate _ _ _ _ _ H ham m hop) as (_ & V2 & _). rewrite Hb in Hn.
    destruct (meq_dec (s ** mC ham ** s^+) (mN ham)) as [X|X]; [destruct (meq_dec (s ** mC hop' ** s^+) (mN hop')) as [Y|Y]; [split; auto|]|]; exfalso; apply Hn, V2; exists s; (split; [auto|]); rewrite lead_particle_iff; intros [Z1 Z2]; auto.
Qed.
End C59.
Print Assumptions C59_validate.
Print Assumptions C59_modes.
Print Assumptions C59_sound.
