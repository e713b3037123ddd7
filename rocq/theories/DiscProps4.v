(** * C58, C59: concrete cases and refuted claims. *)
From Coq Require Import List Bool Arith ZArith QArith Qcanon Lia.
From Verif Require Import StarRing GaussQ KpmCorrSpec RmtSpec RmtAlg SolverSpec QSolve DiscModel DiscSpec DiscProofs DiscProps DiscProps2 DiscProps3.
Import ListNotations.
Local Open Scope nat_scope.

Definition qmat (l : list (list GaussQ)) : nat -> nat -> GaussQ := fun i j => nth j (nth i l []) (gq 0 0 1).
(** x > 0 for complex arrays (numpy compares lexicographically, first the real parts) *)
Definition qgt (x : GaussQ) : bool := negb (Qle_bool (this (fst x)) 0).
Lemma gq_spec x y : gq_eqb x y = true <-> x = y.
Proof.
  split; [apply gq_eqb_eq|]. intros ->. destruct y as [a b]. unfold gq_eqb. cbn [fst snd]. apply andb_true_iff. split; unfold Qc_eq_bool; destruct (Qc_eq_dec _ _); congruence.
Qed.
Lemma gq_two (x : GaussQ) : radd GaussQ x x = r0 GaussQ -> x = r0 GaussQ.
Proof.
  destruct x as [a b]. intros H. pose proof (f_equal fst H : (a + a)%Qc = 0%Qc) as A. pose proof (f_equal snd H : (b + b)%Qc = 0%Qc) as B. assert (T : forall y : Qc, (y + y = 0)%Qc -> y = 0%Qc).
  { intros y Hy. assert (E2 : ((1 + 1) * y = 0)%Qc) by (rewrite <- Hy; ring). apply Qcmult_integral in E2. destruct E2 as [E2|E2]; [discriminate E2|auto]. }
  rewrite (T a A), (T b B). reflexivity.
Qed.
Lemma q2qc_eq (a b : Q) : (a == b)%Q -> Q2Qc a = Q2Qc b.
Proof. intros E. apply Qc_is_canon. cbn [this Q2Qc]. rewrite !Qred_correct. exact E. Qed.
Lemma q2qc_add (a b : Q) : (Q2Qc a + Q2Qc b)%Qc = Q2Qc (a + b).
Proof. unfold Qcplus. apply q2qc_eq. cbn [this Q2Qc]. rewrite !Qred_correct. reflexivity. Qed.
Lemma q2qc_opp (a : Q) : (- Q2Qc a)%Qc = Q2Qc (- a).
Proof. unfold Qcopp. apply q2qc_eq. cbn [this Q2Qc]. rewrite !Qred_correct. reflexivity. Qed.
Lemma from_int_gq z : @from_int GaussQ z = gq z 0 1.
Proof.
  assert (P : forall p, Pos.iter (radd GaussQ (r1 GaussQ)) (r0 GaussQ) p = gq (Zpos p) 0 1).
  { induction p using Pos.peano_ind; [apply qv_inj; reflexivity|]. rewrite Pos.iter_succ, IHp. unfold gq.
    change ((Q2Qc 1 + Q2Qc (Z.pos p # 1), Q2Qc 0 + Q2Qc (0 # 1))%Qc = (Q2Qc (Z.pos (Pos.succ p) # 1), Q2Qc (0 # 1))). rewrite !q2qc_add. f_equal; apply q2qc_eq; unfold Qeq, Qplus; cbn [Qnum Qden]; lia. }
  destruct z; cbn [from_int]; rewrite ?P; [apply qv_inj; reflexivity|reflexivity|]. unfold gq. change ((- Q2Qc (Z.pos p # 1), - Q2Qc (0 # 1))%Qc = (Q2Qc (Z.neg p # 1), Q2Qc (0 # 1))). rewrite !q2qc_opp. f_equal; apply q2qc_eq; unfold Qeq, Qopp; cbn [Qnum Qden]; lia.
Qed.
Lemma from_int_inj x y : @from_int GaussQ x = from_int y -> x = y.
Proof.
  rewrite !from_int_gq. intros H. pose proof (f_equal (fun z : GaussQ => this (fst z)) H) as E. unfold gq in E. cbn [fst this Q2Qc] in E.
  assert (E' : (x # 1 == y # 1)%Q) by (rewrite <- (Qred_correct (x # 1)), <- (Qred_correct (y # 1)), E; reflexivity). unfold Qeq in E'. cbn [Qnum Qden] in E'. lia.
Qed.

(** to evaluate only data *)
Definition given (P : disc GaussQ -> bool) (x : disc GaussQ + derr) : bool := match x with inl d => P d | inr _ => false end.
Lemma given_ok P x : given P x = true -> exists d, x = inl d /\ P d = true.
Proof. destruct x as [d|]; cbn; [eauto|discriminate]. Qed.
Definition name_eqb (x y : name) : bool := match x, y with NConserv, NConserv | NTime, NTime | NParticleHole, NParticleHole | NChiral, NChiral => true | _, _ => false end.
Fixpoint names_eqb (x y : list name) : bool := match x, y with [], [] => true | a :: x, b :: y => name_eqb a b && names_eqb x y | _, _ => false end.
Lemma names_eqb_eq x y : names_eqb x y = true -> x = y.
Proof. revert y. induction x as [|a x IH]; intros [|b y]; cbn; try discriminate; auto. intros H. apply andb_true_iff in H. destruct H as [A B]. rewrite (IH _ B). destruct a, b; cbn in A; try discriminate; reflexivity. Qed.
Definition err (x : disc GaussQ + derr) : option derr := match x with inl _ => None | inr e => Some e end.

Notation Q0 := (gq 0 0 1). Notation Q1 := (gq 1 0 1). Notation Qm := (gq (-1) 0 1). Notation Qi := (gq 0 1 1).
(** ** class DIII *)
Definition exT := qmat [[Q0; Q1]; [Qm; Q0]].
Definition exP := qmat [[Q0; Q1]; [Q1; Q0]].
Definition exHop := qmat [[Q0; Q1]; [Qm; Q0]].
Definition exZ := qmat [[Q1; Q0]; [Q0; Qm]].
Definition ex0 := qmat [].
Example ex_accepted : exists d, init 2 gq_eqb qgt None (Some exT) (Some exP) None = inl d /\
  infinite_validate 2 gq_eqb d ex0 2 exHop = [] /\ infinite_validate 2 gq_eqb d exZ 2 exHop = [NTime; NChiral] /\
  (** hopping from the first orbital only *)
  infinite_validate 2 gq_eqb d ex0 1 exHop = [NTime; NParticleHole].
Proof.
  destruct (given_ok (fun d => names_eqb (infinite_validate 2 gq_eqb d ex0 2 exHop) [] && names_eqb (infinite_validate 2 gq_eqb d exZ 2 exHop) [NTime; NChiral] && names_eqb (infinite_validate 2 gq_eqb d ex0 1 exHop) [NTime; NParticleHole])
    (init 2 gq_eqb qgt None (Some exT) (Some exP) None)) as (d & H & V); [vm_compute; reflexivity|].
  apply andb_true_iff in V. destruct V as [V V3]. apply andb_true_iff in V. destruct V as [V1 V2]. exists d. repeat split; auto; apply names_eqb_eq; auto.
Qed.
(** a square of the wrong sign *)
Example ex_refused : err (init 2 gq_eqb qgt None None None (Some exT)) = Some (ESquare NChiral) /\ err (init 2 gq_eqb qgt None (Some exT) (Some exT) (Some exT)) = Some EProduct.
Proof. vm_compute. auto. Qed.
(** the lead has the symmetries, for all momenta *)
Example ex_lead : exists d, init 2 gq_eqb qgt None (Some exT) (Some exP) None = inl d /\ lead_time 2 exT ex0 (fill_columns 2 exHop) /\ lead_particle 2 exP ex0 (fill_columns 2 exHop).
Proof.
  destruct ex_accepted as (d & H & V & _). exists d. split; [auto|]. destruct (@C59_validate GaussQ 2 gq_eqb qgt gq_spec gq_two _ _ _ _ _ H ex0 2 exHop) as (A & B & _).
  rewrite V in A, B. 
  destruct (@lead_time_iff GaussQ 2 gq_two exT ex0 (fill_columns 2 exHop)) as [_ L1]. destruct (@lead_particle_iff GaussQ 2 gq_two exP ex0 (fill_columns 2 exHop)) as [_ L2].
  split; [apply L1|apply L2]; split; intros i j Hi Hj; repeat (destruct i as [|i]; [|try lia]); repeat (destruct j as [|j]; [|try lia]); try lia; apply qv_inj; vm_compute; reflexivity.
Qed.

(** REFUTED: symmetries passed on by InfiniteSystem.modes are symmetries of
    the lead.  A broken particle-hole symmetry is passed on (system.py:338,
    'particle-hole' is not the name of an attribute). *)
Theorem C59_particle_hole_refuted : ~ forall (R : StarRing) n eqb gt, (forall x y : R, eqb x y = true <-> x = y) -> (forall x : R, radd R x x = r0 R -> x = r0 R) ->
  forall t p c d ham m hop broken, init n eqb gt None t p c = inl d -> (forall nm, In nm broken <-> In nm (infinite_validate n eqb d ham m hop)) ->
  opt (fun s => lead_particle n s ham (fill_columns m hop)) (particle_hole (modes_symmetries eqb d (r0 R) broken)).
Proof.
  intros F. assert (H : exists d, init 2 gq_eqb qgt None None (Some exP) None = inl d /\ particle_hole d = Some exP /\ infinite_validate 2 gq_eqb d (@unit_matrix GaussQ) 2 exHop = [NParticleHole]) .
  { destruct (given_ok (fun d => names_eqb (infinite_validate 2 gq_eqb d (@unit_matrix GaussQ) 2 exHop) [NParticleHole]) (init 2 gq_eqb qgt None None (Some exP) None)) as (d & H & V); [vm_compute; reflexivity|].
    exists d. split; auto. split; [|apply names_eqb_eq; auto]. destruct (@init_fields GaussQ 2 gq_eqb qgt gq_spec _ _ _ _ _ H) as (E & _). cbn [complete] in E. congruence. }
  destruct H as (d & H & Hp & V). specialize (F GaussQ 2 gq_eqb qgt gq_spec gq_two _ _ _ d (@unit_matrix GaussQ) 2 exHop [NParticleHole] H). rewrite V in F. specialize (F (fun nm => iff_refl _)).
  assert (Eq : gq_eqb (r0 GaussQ) (r0 GaussQ) = true) by reflexivity. unfold modes_symmetries in F. cbn [fold_left ignore] in F. rewrite Eq, Hp in F. cbn [opt] in F.
  apply (@lead_particle_iff GaussQ 2 gq_two) in F. destruct F as [F _]. specialize (F 0 0 ltac:(lia) ltac:(lia)). apply (f_equal (fun x => gq_eqb x (r1 GaussQ))) in F. vm_compute in F. discriminate.
Qed.

(** REFUTED: accepted projectors stack to a unitary matrix.  The 1 x 1
    projectors (3/5) and (4/5) are accepted. *)
Theorem C58_stack_refuted : ~ forall (R : StarRing) n eqb gt, is_field R -> (forall x y : R, eqb x y = true <-> x = y) ->
  forall ps t p c d ps', init n eqb gt ps t p c = inl d -> projectors d = Some ps' -> orthonormal n ps'.
Proof.
  intros F. pose (ps := [qmat [[gq 3 0 5]]; qmat [[gq 4 0 5]]]).
  assert (H : exists d ps', init 1 gq_eqb qgt (Some ps) None None None = inl d /\ projectors d = Some ps') .
  { destruct (given_ok (fun _ => true) (init 1 gq_eqb qgt (Some ps) None None None)) as (d & H & _); [vm_compute; reflexivity|]. exists d.
    destruct (@init_fields GaussQ 1 gq_eqb qgt gq_spec _ _ _ _ _ H) as (_ & _ & E). destruct (projectors d) as [ps'|]; [|contradiction]. eauto. }
  destruct H as (d & ps' & H & Hp). destruct (F GaussQ 1 gq_eqb qgt GaussQ_field gq_spec _ _ _ _ _ _ H Hp) as [O _].
  destruct (@init_fields GaussQ 1 gq_eqb qgt gq_spec _ _ _ _ _ H) as (_ & _ & X). rewrite Hp in X. destruct X as [-> _]. specialize (O 0 0 0 0 ltac:(cbn; lia) ltac:(cbn; lia)).
  assert (L : 0 < fst (nth 0 (map (trim 1 gq_eqb) ps) (0, @unit_matrix GaussQ))) by (vm_compute; lia). specialize (O L L). apply (f_equal (fun x => gq_eqb x (r1 GaussQ))) in O. vm_compute in O. discriminate.
Qed.

(** REFUTED: each accepted symmetry has at most one nonzero block per row in
    the basis of the projectors.  Blocks without an element of positive real
    part are not seen (symmetry.py:161: abs is applied to the result of the
    comparison). *)
Theorem C58_canonical_refuted : ~ forall (R : StarRing) n eqb gt, (forall x y : R, eqb x y = true <-> x = y) ->
  forall ps t p c d ps', init n eqb gt ps t p c = inl d -> projectors d = Some ps' ->
  opt (fun s => forall a b e i j k l, a < length ps' -> b < length ps' -> e < length ps' -> b <> e ->
    let q x := snd (nth x ps' (0%nat, @unit_matrix R)) in
    mmul n (mmul n (mT (mC (q a))) s) (q b) i j = r0 R \/ mmul n (mmul n (mT (mC (q a))) s) (q e) k l = r0 R) (chiral d).
Proof.
  intros F. pose (ps := [qmat [[Q1]]; qmat [[Q0]; [Q0; Q1]]]). pose (c := qmat [[gq 3 0 5; gq (-4) 0 5]; [gq (-4) 0 5; gq (-3) 0 5]]).
  assert (H : exists d ps', init 2 gq_eqb qgt (Some ps) None None (Some c) = inl d /\ projectors d = Some ps' /\ chiral d = Some c) .
  { destruct (given_ok (fun _ => true) (init 2 gq_eqb qgt (Some ps) None None (Some c))) as (d & H & _); [vm_compute; reflexivity|]. exists d.
    destruct (@init_fields GaussQ 2 gq_eqb qgt gq_spec _ _ _ _ _ H) as (E0 & _ & E). destruct (projectors d) as [ps'|]; [|contradiction]. exists ps'. split; auto. split; auto. cbn [complete] in E0. congruence. }
  destruct H as (d & ps' & H & Hp & Hc). specialize (F GaussQ 2 gq_eqb qgt gq_spec _ _ _ _ _ _ H Hp). rewrite Hc in F. cbn [opt] in F.
  destruct (@init_fields GaussQ 2 gq_eqb qgt gq_spec _ _ _ _ _ H) as (_ & _ & X). rewrite Hp in X. destruct X as [-> _].
  specialize (F 0 0 1 0 0 0 0 ltac:(cbn; lia) ltac:(cbn; lia) ltac:(cbn; lia) ltac:(lia)). cbv zeta in F. destruct F as [F|F]; apply (proj2 (gq_spec _ _)) in F.
  - match type of F with ?b = true => assert (X : b = false); [idtac|exact (eq_true_false_abs _ F X)] end; clear F; (vm_compute; reflexivity).
  - match type of F with ?b = true => assert (X : b = false); [idtac|exact (eq_true_false_abs _ F X)] end; clear F; (vm_compute; reflexivity).
Qed.
(** ... while positive blocks are *)
Example ex_canonical : err (init 2 gq_eqb qgt (Some [qmat [[Q1]]; qmat [[Q0]; [Q0; Q1]]]) None None (Some (qmat [[gq 3 0 5; gq 4 0 5]; [gq 4 0 5; gq (-3) 0 5]])) ) = Some (ECanonical NChiral).
Proof. vm_compute. reflexivity. Qed.

(** ** a conservation law with eigenvalues 1, -1, 1 *)
Definition exVals (i : nat) : Z := nth i [1; -1; 1]%Z 0%Z.
Definition exVecs := qmat [[gq 3 0 5; gq 4 0 5; Q0]; [gq 4 0 5; gq (-3) 0 5; Q0]; [Q0; Q0; Qi]].
Lemma ex_unitary : RmtSpec.unitary 3 exVecs.
Proof. split; intros i j Hi Hj; do 3 (destruct i as [|i]; [do 3 (destruct j as [|j]; [apply qv_inj; vm_compute; reflexivity|]); lia|]); lia. Qed.
Example ex_conservation : exists d, init 3 gq_eqb qgt (Some (cons_projectors 3 exVals exVecs)) None None None = inl d /\ option_map (map fst) (projectors d) = Some [1; 2] /\
  (forall m h, In NConserv (validate 3 gq_eqb d m h) <-> ~ commute 3 (conservation 3 exVals exVecs) (fill_columns m h)).
Proof.
  assert (H : exists d, init 3 gq_eqb qgt (Some (cons_projectors 3 exVals exVecs)) None None None = inl d /\ option_map (map fst) (projectors d) = Some [1; 2]) .
  { destruct (given_ok (fun d => match option_map (map fst) (projectors d) with Some [1; 2] => true | _ => false end) (init 3 gq_eqb qgt (Some (cons_projectors 3 exVals exVecs)) None None None)) as (d & H & V); [vm_compute; reflexivity|].
    exists d. split; auto. clear H. revert V. generalize (option_map (map fst) (projectors d)). intros [[|[|[]] [|[|[|[]]] []]]|] V; try (exfalso; exact (diff_false_true V)); reflexivity. }
  destruct H as (d & H & Hp). exists d. split; [auto|]. split; [auto|].
  destruct (@C58_conservation GaussQ 3 gq_eqb qgt gq_spec exVals exVecs ex_unitary from_int_inj GaussQ_field None None None) as (_ & X). destruct (X d H) as (_ & _ & _ & _ & Y). exact Y.
Qed.
Print Assumptions C59_particle_hole_refuted.
Print Assumptions C58_stack_refuted.
Print Assumptions C58_canonical_refuted.
