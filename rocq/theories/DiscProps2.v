(** * C58: projectors and conservation laws. *)
From Coq Require Import List Bool Arith ZArith Ring Lia Setoid Morphisms Sorting.Sorted.
From Verif Require Import StarRing KpmCorrSpec KpmTrace RmtSpec RmtAlg SolverModel SolverSpec SolverField DiscModel DiscSpec DiscProofs DiscProps DiscBlocks.
Import ListNotations.
Set Implicit Arguments.

Lemma zinsert_in x l y : In y (zinsert x l) <-> y = x \/ In y l.
Proof.
  induction l as [|z l IH]; cbn; [intuition|]. destruct (Z.ltb_spec x z); [cbn; intuition|]. destruct (Z.eqb_spec x z) as [->|]; cbn; [intuition|]. rewrite IH. intuition.
Qed.
Lemma zinsert_sorted x l : StronglySorted Z.lt l -> StronglySorted Z.lt (zinsert x l).
Proof.
  induction 1 as [|z l S IH F]; cbn; [repeat constructor|]. destruct (Z.ltb_spec x z).
  - constructor; [constructor; auto|]. constructor; auto. eapply Forall_impl; [|exact F]. cbn. intros; lia.
  - destruct (Z.eqb_spec x z) as [->|]; [constructor; auto|]. constructor; auto. rewrite Forall_forall in *. intros y Hy. apply zinsert_in in Hy. destruct Hy as [->|Hy]; [lia|auto].
Qed.
Lemma unique_in l y : In y (unique_sorted l) <-> In y l.
Proof. induction l as [|x l IH]; cbn; [tauto|]. rewrite zinsert_in, IH. intuition. Qed.
Lemma unique_sorted_sorted l : StronglySorted Z.lt (unique_sorted l).
Proof. induction l as [|x l IH]; cbn; [constructor|apply zinsert_sorted; auto]. Qed.
Lemma zsorted_nodup l : StronglySorted Z.lt l -> NoDup l.
Proof. induction 1 as [|z l S IH F]; constructor; auto. intros H. rewrite Forall_forall in F. specialize (F z H). lia. Qed.

Lemma forallb_false_ex {A} (f : A -> bool) l : forallb f l = false -> exists x, In x l /\ f x = false.
Proof. induction l as [|x l IH]; cbn; [discriminate|]. intros H. apply andb_false_iff in H. destruct H as [H|H]; [eauto|]. destruct (IH H) as (y & ? & ?); eauto. Qed.

Section C58.
Variable R : StarRing.
Add Ring RringDq : (r_theory R).
Notation matrix := (nat -> nat -> R).
Local Open Scope star_scope.
Notation "0" := (r0 R) : star_scope.
Notation "1" := (r1 R) : star_scope.
Notation conj := (rconj R).
Notation sum := (sum R).
Notation lsum := (lsum R).
Variable n : nat.
Variable eqb : R -> R -> bool.
Variable gt : R -> bool.
Hypothesis Heq : forall x y, eqb x y = true <-> x = y.
Notation "x ** y" := (mmul n x y) (at level 40, left associativity).
Notation "x == y" := (@meq R n x y) (at level 70).
Notation I := (@unit_matrix R).
Notation "x ^+" := (mT (mC x)) (at level 30).
Notation init := (init n eqb gt).
Notation validate := (validate n eqb).
Notation full p := (mmul (fst p) (snd p) ((snd p)^+)).
Notation dflt := (0%nat, I).

(** Accepted projectors with n columns in total are an orthonormal basis. *)
Theorem C58_projectors : forall ps t p c d, is_field R -> init (Some ps) t p c = inl d ->
  exists ps', projectors d = Some ps' /\ length ps' = length ps /\ (list_sum (map fst ps') = n -> orthonormal n ps').
Proof.
  intros ps t p c d Hf H. destruct (@init_fields R n eqb gt Heq _ _ _ _ _ H) as (_ & _ & X). destruct (projectors d) as [ps'|]; [|contradiction]. destruct X as [-> Hs].
  exists (map (trim n eqb) ps). split; auto. split; [apply map_length|]. intros Hn. apply stack_orthonormal; auto.
Qed.
(** For orthonormal projectors, 'Conservation law' is reported iff the matrix
    is not block diagonal. *)
Theorem C58_blocks : forall ps t p c d, init ps t p c = inl d -> forall ps' m h, projectors d = Some ps' -> orthonormal n ps' ->
  (~ In NConserv (validate d m h) <->
   forall a b i j, a < length ps' -> b < length ps' -> a <> b -> i < fst (nth a ps' dflt) -> j < fst (nth b ps' dflt) ->
     mmul n (mmul n ((snd (nth a ps' dflt))^+) (fill_columns m h)) (snd (nth b ps' dflt)) i j = 0).
Proof.
  intros ps t p c d H ps' m h Hp Ho. rewrite <- (@blocks_iff R n ps' (fill_columns m h) Ho).
  rewrite validate_in, Hp. unfold breaks_conservation. split.
  - intros X q Hq. assert (B : vanishes n eqb (msub (DiscModel.full q ** pad m h) (mT (mT (DiscModel.full q) ** mT (pad m h)))) = true).
    { destruct (vanishes n eqb (msub (DiscModel.full q ** pad m h) (mT (mT (DiscModel.full q) ** mT (pad m h))))) eqn:E; auto. exfalso. apply X. apply existsb_exists. exists q. split; auto. rewrite E. reflexivity. }
    apply (@vanishes_spec R n eqb Heq) in B. rewrite commutator_inner in B. exact B.
  - intros X E. apply existsb_exists in E. destruct E as (q & Hq & E). apply negb_true_iff in E. apply not_true_iff_false in E. apply E. apply (@vanishes_spec R n eqb Heq). rewrite commutator_inner. exact (X q Hq).
Qed.

(** ValueError('... not in canonical form') is raised only if some row of
    blocks has two nonzero blocks. *)
Theorem C58_canonical : forall ps t p c nm, gt 0 = false -> init (Some ps) t p c = inr (ECanonical nm) ->
  exists s cj a b e i j k l, a < length ps /\ b < length ps /\ e < length ps /\ b <> e /\
   let q x := snd (trim n eqb (nth x ps I)) in
   mmul n (mmul n ((q a)^+) s) (if cj : bool then mC (q b) else q b) i j <> 0 /\ mmul n (mmul n ((q a)^+) s) (if cj then mC (q e) else q e) k l <> 0 /\
   (let '(t', p', c') := complete n t p c in match nm with NTime => t' = Some s /\ cj = true | NParticleHole => p' = Some s /\ cj = true | NChiral => c' = Some s /\ cj = false | NConserv => False end).
Proof.
  intros ps t p c nm G0. unfold DiscModel.init. destruct (complete n t p c) as ((t', p'), c').
  set (e0 := match t with Some _ => _ | None => _ end).
  assert (E0 : forall X, e0 = Some (ECanonical X) -> False) by (unfold e0; intros X; destruct t, p, c; try discriminate; destruct (almost_identity _ _ _); discriminate).
  assert (Ck : forall s cj nm' X, check n eqb s cj nm' = Some (ECanonical X) -> False).
  { intros s cj nm' X. destruct s as [s|]; cbn; [|discriminate]. destruct (negb _); [discriminate|]. destruct (negb _); discriminate. }
  assert (Cn : forall s cj, canonical n gt (map (trim n eqb) ps) s cj = false -> exists s' a b e i j k l, s = Some s' /\ a < length ps /\ b < length ps /\ e < length ps /\ b <> e /\
    mmul n (mmul n ((snd (trim n eqb (nth a ps I)))^+) s') (if cj : bool then mC (snd (trim n eqb (nth b ps I))) else snd (trim n eqb (nth b ps I))) i j <> 0 /\
    mmul n (mmul n ((snd (trim n eqb (nth a ps I)))^+) s') (if cj : bool then mC (snd (trim n eqb (nth e ps I))) else snd (trim n eqb (nth e ps I))) k l <> 0).
  { intros s cj. unfold canonical. destruct s as [s|]; [|discriminate]. intros Hf.
    assert (Ex : exists q, In q (map (trim n eqb) ps) /\ (1 < length (filter (nonzero_block n gt s cj q) (map (trim n eqb) ps)))%nat).
    { destruct (forallb_false_ex _ _ Hf) as (q & Hq & L). exists q. split; auto. apply Nat.leb_gt in L. exact L. }
    destruct Ex as (q & Hq & L). apply in_map_iff in Hq. destruct Hq as (q0 & <- & Hq). destruct (In_nth _ _ I Hq) as (a & Ha & <-). set (q := trim n eqb (nth a ps I)) in *.
    assert (Two : exists b e, (b < length ps)%nat /\ (e < length ps)%nat /\ b <> e /\ nonzero_block n gt s cj q (trim n eqb (nth b ps I)) = true /\ nonzero_block n gt s cj q (trim n eqb (nth e ps I)) = true).
    { clearbody q. clear - L. induction ps as [|r l IH]; cbn [map filter length] in L; [lia|]. destruct (nonzero_block n gt s cj q (trim n eqb r)) eqn:E.
      - cbn [length] in L. destruct (filter (nonzero_block n gt s cj q) (map (trim n eqb) l)) as [|z zs] eqn:Ef; [cbn in L; lia|]. assert (Hz : In z (filter (nonzero_block n gt s cj q) (map (trim n eqb) l))) by (rewrite Ef; cbn; auto).
        apply filter_In in Hz. destruct Hz as [Hz Ez]. apply in_map_iff in Hz. destruct Hz as (z0 & <- & Hz). destruct (In_nth _ _ I Hz) as (e & He & <-). exists 0%nat, (Datatypes.S e). cbn [nth length]. repeat split; auto; lia.
      - destruct (IH L) as (b & e & Hb & He & Hne & B1 & B2). exists (Datatypes.S b), (Datatypes.S e). cbn [nth length]. repeat split; auto; lia. }
    destruct Two as (b & e & Hb & He & Hne & B1 & B2).
    assert (NB : forall r, nonzero_block n gt s cj q r = true -> exists i j, mmul n (mmul n ((snd q)^+) s) (if cj then mC (snd r) else snd r) i j <> 0).
    { intros r Hr. unfold nonzero_block in Hr. apply negb_true_iff in Hr. unfold all_below in Hr.
      apply forallb_false_ex in Hr. destruct Hr as (i & _ & Hr). apply forallb_false_ex in Hr. destruct Hr as (j & _ & Hr). apply negb_false_iff in Hr. exists i, j. intros Z. unfold dag, cond_conj in Hr. rewrite Z in Hr. congruence. }
    destruct (NB _ B1) as (i & j & N1). destruct (NB _ B2) as (k & l & N2). exists s, a, b, e, i, j, k, l. auto 10. }
  destruct e0 as [e|]; [intros [= ->]; exfalso; eapply E0; reflexivity|].
  destruct (check n eqb t' true NTime) as [e|] eqn:E1; [intros [= ->]; exfalso; eapply Ck; eauto|].
  destruct (check n eqb p' true NParticleHole) as [e|] eqn:E2; [intros [= ->]; exfalso; eapply Ck; eauto|].
  destruct (check n eqb c' false NChiral) as [e|] eqn:E3; [intros [= ->]; exfalso; eapply Ck; eauto|].
  destruct (negb (almost_identity _ _ _)); [discriminate|].
  destruct (canonical n gt _ t' true) eqn:K1; cbn [negb].
  2:{ intros [= <-]. destruct (Cn _ _ K1) as (s & a & b & e & i & j & k & l & A0 & A1 & A2 & A3 & A4 & A5 & A6). exists s, true, a, b, e, i, j, k, l. repeat split; auto. }
  destruct (canonical n gt _ p' true) eqn:K2; cbn [negb].
  2:{ intros [= <-]. destruct (Cn _ _ K2) as (s & a & b & e & i & j & k & l & A0 & A1 & A2 & A3 & A4 & A5 & A6). exists s, true, a, b, e, i, j, k, l. repeat split; auto. }
  destruct (canonical n gt _ c' false) eqn:K3; cbn [negb]; [discriminate|].
  intros [= <-]. destruct (Cn _ _ K3) as (s & a & b & e & i & j & k & l & A0 & A1 & A2 & A3 & A4 & A5 & A6). exists s, false, a, b, e, i, j, k, l. repeat split; auto.
Qed.

(** ** conservation laws *)
Section Conservation.
Variable vals : nat -> Z.
Variable vecs : matrix.
Hypothesis Hu : RmtSpec.unitary n vecs.
Hypothesis Hchar : forall x y : Z, @from_int R x = from_int y -> x = y.
Let vs := unique_sorted (map vals (seq 0 n)).
Let kept v := filter (fun j => (vals j =? v)%Z) (seq 0 n).
Let P v : matrix := mmul n vecs (fun i j => if ((i =? j) && (vals i =? v)%Z)%nat then 1 else 0).
Lemma one_nonzero : 1 <> 0. Proof. intros E. assert (X : 1%Z = 0%Z) by (apply Hchar; cbn; rewrite E; ring). discriminate. Qed.
Lemma P_val v i j : (j < n)%nat -> P v i j = if (vals j =? v)%Z then vecs i j else 0.
Proof.
  intros Hj. unfold P, mmul. rewrite (@sum_ext R n _ (fun k => if (k =? j)%nat then vecs i k * (if (vals k =? v)%Z then 1 else 0) else 0)).
  - rewrite (@sum_delta R n j (fun k => vecs i k * (if (vals k =? v)%Z then 1 else 0))) by auto. destruct (vals j =? v)%Z; ring.
  - intros k _. destruct (k =? j)%nat; cbn [andb]; [reflexivity|ring].
Qed.
Lemma kept_ok v : filter (fun j => existsb (fun i => negb (eqb (P v i j) 0)) (seq 0 n)) (seq 0 n) = kept v.
Proof.
  apply filter_ext_in. intros j Hj. apply in_seq in Hj. destruct (Z.eqb_spec (vals j) v) as [E|E].
  - apply existsb_exists. destruct (existsb (fun i => negb (eqb (vecs i j) 0)) (seq 0 n)) eqn:X.
    + apply existsb_exists in X. destruct X as (i & Hi & X). exists i. split; auto. rewrite P_val by lia. rewrite (proj2 (Z.eqb_eq _ _) E). auto.
    + exfalso. apply one_nonzero. destruct Hu as [U _]. specialize (U j j ltac:(lia) ltac:(lia)). unfold unit_matrix in U. rewrite Nat.eqb_refl in U. rewrite <- U. unfold mmul. apply sum_zero. intros i Hi.
      assert (Z : vecs i j = 0). { apply Heq. destruct (eqb (vecs i j) 0) eqn:Y; auto. exfalso. apply not_true_iff_false in X. apply X. apply existsb_exists. exists i. split; [apply in_seq; lia|rewrite Y; auto]. } rewrite Z. ring.
  - apply not_true_iff_false. intros X. apply existsb_exists in X. destruct X as (i & Hi & X). rewrite P_val in X by lia. rewrite (proj2 (Z.eqb_neq _ _) E) in X. assert (Y : eqb 0 0 = true) by (apply Heq; auto). rewrite Y in X. discriminate.
Qed.
Lemma trim_P v : trim n eqb (P v) = (length (kept v), fun i j => P v i (nth j (kept v) n)).
Proof. unfold trim. rewrite kept_ok. reflexivity. Qed.
Lemma kept_in v J : In J (kept v) <-> (J < n)%nat /\ vals J = v.
Proof. unfold kept. rewrite filter_In, in_seq, Z.eqb_eq. intuition lia. Qed.
Lemma kept_nodup v : NoDup (kept v). Proof. apply NoDup_filter, seq_NoDup. Qed.
Definition diag (f : nat -> R) : matrix := fun i j => if (i =? j)%nat then f i else 0.
Definition ind v (i : nat) : R := if (vals i =? v)%Z then 1 else 0.
Lemma diag_sandwich f i j : (vecs ** diag f ** vecs^+) i j = sum n (fun J => vecs i J * f J * conj (vecs j J)).
Proof.
  unfold mmul at 1. apply sum_ext. intros J HJ. unfold mT, mC. f_equal. unfold mmul. rewrite (@sum_ext R n _ (fun k => if (k =? J)%nat then vecs i k * f k else 0)).
  - apply (@sum_delta R n J (fun k => vecs i k * f k)); auto.
  - intros k _. unfold diag. destruct (k =? J)%nat; ring.
Qed.
Lemma full_P v i j : full (trim n eqb (P v)) i j = (vecs ** diag (ind v) ** vecs^+) i j.
Proof.
  rewrite diag_sandwich, trim_P. cbn [fst snd]. unfold mmul, mT, mC.
  rewrite <- (@lsum_nth R _ (fun J => P v i J * conj (P v j J)) (kept v) n). unfold kept. rewrite lsum_filter. apply lsum_ext. intros J HJ. apply in_seq in HJ. rewrite !P_val by lia. unfold ind. destruct (vals J =? v)%Z; ring.
Qed.
Lemma lsum_one (l : list Z) z x : NoDup l -> In z l -> lsum (fun v => if (z =? v)%Z then x else 0) l = x.
Proof.
  induction l as [|y l IH]; intros ND Hz; [destruct Hz|]. inversion ND as [|? ? Hy Hl]; subst. rewrite lsum_cons. destruct Hz as [->|Hz].
  - rewrite Z.eqb_refl. rewrite lsum_zero; [ring|]. intros v Hv. destruct (Z.eqb_spec z v) as [->|]; [contradiction|reflexivity].
  - rewrite (proj2 (Z.eqb_neq z y)) by (intros ->; contradiction). rewrite IH by auto. ring.
Qed.
Lemma vs_nodup : NoDup vs. Proof. apply zsorted_nodup, unique_sorted_sorted. Qed.
Lemma vs_in J : (J < n)%nat -> In (vals J) vs. Proof. intros HJ. apply unique_in, in_map, in_seq. lia. Qed.
Lemma full_sum i j : (i < n)%nat -> (j < n)%nat -> lsum (fun p => full p i j) (map (trim n eqb) (cons_projectors n vals vecs)) = I i j.
Proof.
  intros Hi Hj. unfold cons_projectors. fold vs. rewrite map_map, lsum_map. rewrite (@lsum_ext R _ _ (fun v => sum n (fun J => if (vals J =? v)%Z then vecs i J * conj (vecs j J) else 0))).
  - rewrite <- sum_lswap. rewrite (@sum_ext R n _ (fun J => vecs i J * conj (vecs j J))); [|intros J HJ; apply lsum_one; [apply vs_nodup|apply vs_in; auto]].
    destruct Hu as [_ U]. rewrite <- (U i j) by auto. reflexivity.
  - intros v _. fold (P v). rewrite full_P, diag_sandwich. apply sum_ext. intros J _. unfold ind. destruct (vals J =? v)%Z; ring.
Qed.
Lemma nth_proj a : (a < length vs)%nat -> nth a (map (trim n eqb) (cons_projectors n vals vecs)) dflt = trim n eqb (P (nth a vs 0%Z)).
Proof.
  intros Ha. unfold cons_projectors. fold vs. rewrite map_map. rewrite nth_indep with (d' := (fun v => trim n eqb (P v)) 0%Z) by (rewrite map_length; auto). exact (map_nth (fun v => trim n eqb (P v)) vs 0%Z a).
Qed.
Lemma cons_orthonormal : orthonormal n (map (trim n eqb) (cons_projectors n vals vecs)).
Proof.
  split; [|apply full_sum]. intros a b i j Ha Hb. assert (Ln : length (map (trim n eqb) (cons_projectors n vals vecs)) = length vs) by (unfold cons_projectors; rewrite !map_length; reflexivity). rewrite Ln in Ha, Hb.
  rewrite !nth_proj by auto. rewrite !trim_P. cbn [fst snd]. intros Hi Hj. set (v := nth a vs 0%Z) in *. set (w := nth b vs 0%Z) in *.
  destruct (proj1 (kept_in v _) (nth_In (kept v) n Hi)) as [L1 E1]. destruct (proj1 (kept_in w _) (nth_In (kept w) n Hj)) as [L2 E2]. set (J := nth i (kept v) n) in *. set (K := nth j (kept w) n) in *.
  transitivity ((vecs^+ ** vecs) J K).
  - unfold mmul, mT, mC. apply sum_ext. intros x _. fold J K. rewrite !P_val by auto. rewrite E1, E2, !Z.eqb_refl. reflexivity.
  - destruct Hu as [U _]. rewrite U by auto. unfold unit_matrix. destruct (Nat.eqb_spec J K) as [E|E].
    + assert (Ev : v = w) by (rewrite <- E1, <- E2, E; reflexivity). assert (Eab : a = b) by (apply (proj1 (NoDup_nth vs 0%Z) vs_nodup); auto). subst b. rewrite Nat.eqb_refl.
      assert (Eij : i = j). { apply (proj1 (NoDup_nth (kept v) n) (kept_nodup v)); auto. } subst j. rewrite Nat.eqb_refl. reflexivity.
    + destruct (Nat.eqb_spec a b) as [->|]; [|reflexivity]. destruct (Nat.eqb_spec i j) as [->|]; [|reflexivity]. exfalso. apply E. reflexivity.
Qed.
(** commuting with a diagonal matrix in the basis of the eigenvectors *)
Lemma diag_commute f h : commute n (vecs ** diag f ** vecs^+) h <-> forall i j, (i < n)%nat -> (j < n)%nat -> f i * (vecs^+ ** h ** vecs) i j = (vecs^+ ** h ** vecs) i j * f j.
Proof.
  destruct Hu as [U1 U2]. set (h' := vecs^+ ** h ** vecs).
  assert (E : commute n (vecs ** diag f ** vecs^+) h <-> diag f ** h' == h' ** diag f).
  { unfold commute, h'. split; intros X.
    - assert (Y : vecs^+ ** (vecs ** diag f ** vecs^+ ** h) ** vecs == vecs^+ ** (h ** (vecs ** diag f ** vecs^+)) ** vecs) by (rewrite X; reflexivity).
      assert (A : vecs^+ ** (vecs ** diag f ** vecs^+ ** h) ** vecs == diag f ** (vecs^+ ** h ** vecs)) by (rewrite <- !m_assoc, U1, m_1l; reflexivity).
      assert (B : vecs^+ ** (h ** (vecs ** diag f ** vecs^+)) ** vecs == vecs^+ ** h ** vecs ** diag f) by (rewrite !m_assoc, U1, m_1r; reflexivity).
      rewrite <- A, <- B. exact Y.
    - assert (Y : vecs ** (diag f ** (vecs^+ ** h ** vecs)) ** vecs^+ == vecs ** (vecs^+ ** h ** vecs ** diag f) ** vecs^+) by (rewrite X; reflexivity).
      assert (A : vecs ** (diag f ** (vecs^+ ** h ** vecs)) ** vecs^+ == vecs ** diag f ** vecs^+ ** h) by (rewrite !m_assoc, U2, m_1r; reflexivity).
      assert (B : vecs ** (vecs^+ ** h ** vecs ** diag f) ** vecs^+ == h ** (vecs ** diag f ** vecs^+)) by (rewrite <- !m_assoc, U2, m_1l; reflexivity).
      rewrite <- A, <- B. exact Y. }
  rewrite E. assert (D1 : forall i j, (i < n)%nat -> (diag f ** h') i j = f i * h' i j).
  { intros i j Hi. unfold mmul at 1. rewrite (@sum_ext R n _ (fun k => if (k =? i)%nat then f i * h' k j else 0)); [apply (@sum_delta R n i (fun k => f i * h' k j)); auto|]. intros k _. unfold diag. rewrite (Nat.eqb_sym i k). destruct (k =? i)%nat; ring. }
  assert (D2 : forall i j, (j < n)%nat -> (h' ** diag f) i j = h' i j * f j).
  { intros i j Hj. unfold mmul at 1. rewrite (@sum_ext R n _ (fun k => if (k =? j)%nat then h' i k * f k else 0)); [apply (@sum_delta R n j (fun k => h' i k * f k)); auto|]. intros k _. unfold diag. destruct (k =? j)%nat; ring. }
  split; intros X i j Hi Hj; [rewrite <- D1, <- D2 by auto; auto|rewrite D1, D2 by auto; auto].
Qed.
Lemma commute_iff h : is_field R -> ((forall q, In q (map (trim n eqb) (cons_projectors n vals vecs)) -> commute n (full q) h) <-> commute n (conservation n vals vecs) h).
Proof.
  intros (inv & Hinv).
  assert (A : (forall q, In q (map (trim n eqb) (cons_projectors n vals vecs)) -> commute n (full q) h) <-> forall v, In v vs -> commute n (vecs ** diag (ind v) ** vecs^+) h).
  { assert (Ef : forall v, full (trim n eqb (P v)) == vecs ** diag (ind v) ** vecs^+) by (intros v i j _ _; apply full_P).
    unfold cons_projectors. fold vs. rewrite map_map. split.
    - intros X v Hv. specialize (X (trim n eqb (P v)) (in_map (fun v => trim n eqb (P v)) vs v Hv)). unfold commute in *. rewrite <- Ef. exact X.
    - intros X q Hq. apply in_map_iff in Hq. destruct Hq as (v & <- & Hv). fold (P v). unfold commute in *. rewrite Ef. apply X; auto. }
  rewrite A. unfold conservation. fold (diag (fun i => from_int (vals i))). rewrite diag_commute. set (h' := vecs^+ ** h ** vecs).
  split.
  - intros X i j Hi Hj. specialize (X (vals i) (vs_in Hi)). rewrite diag_commute in X. fold h' in X. specialize (X i j Hi Hj). unfold ind in X. rewrite Z.eqb_refl in X.
    destruct (Z.eqb_spec (vals j) (vals i)) as [E|E]; [rewrite E; ring|]. assert (Z : h' i j = 0) by (transitivity (1 * h' i j); [ring|rewrite X; ring]). rewrite Z. ring.
  - intros X v Hv. rewrite diag_commute. fold h'. intros i j Hi Hj. specialize (X i j Hi Hj). unfold ind. destruct (Z.eq_dec (vals i) (vals j)) as [E|E]; [rewrite E; ring|].
    assert (Z : h' i j = 0).
    { destruct (Hinv (@from_int R (vals i) - @from_int R (vals j))) as [Y|Y].
      - exfalso. apply E. apply Hchar. transitivity (@from_int R (vals i) - @from_int R (vals j) + @from_int R (vals j)); [ring|rewrite Y; ring].
      - transitivity ((@from_int R (vals i) - @from_int R (vals j)) * inv (@from_int R (vals i) - @from_int R (vals j)) * h' i j); [rewrite Y; ring|].
        transitivity ((@from_int R (vals i) * h' i j - h' i j * @from_int R (vals j)) * inv (@from_int R (vals i) - @from_int R (vals j))); [ring|rewrite X; ring]. }
    rewrite Z. ring.
Qed.

(** A declared conservation law with integer eigenvalues: its projectors are
    never refused as incomplete; they form orthonormal bases of its
    eigenspaces, in ascending order of the eigenvalues; and it is reported as
    broken iff it does not commute with the matrix. *)
Theorem C58_conservation : is_field R -> forall t p c,
  init (Some (cons_projectors n vals vecs)) t p c <> inr EStack /\
  forall d, init (Some (cons_projectors n vals vecs)) t p c = inl d ->
  exists ps', projectors d = Some ps' /\ orthonormal n ps' /\
  (exists es, StronglySorted Z.lt es /\ length es = length ps' /\ (forall v, In v es <-> exists i, (i < n)%nat /\ vals i = v) /\
     forall a i j, (a < length ps')%nat -> (i < n)%nat -> (j < fst (nth a ps' dflt))%nat -> (conservation n vals vecs ** snd (nth a ps' dflt)) i j = from_int (nth a es 0%Z) * snd (nth a ps' dflt) i j) /\
  forall m h, In NConserv (validate d m h) <-> ~ commute n (conservation n vals vecs) (fill_columns m h).
Proof.
  intros Hf t p c. split.
  - unfold DiscModel.init. destruct (complete n t p c) as ((t', p'), c'). set (e0 := match t with Some _ => _ | None => _ end).
    assert (E0 : e0 <> Some EStack) by (unfold e0; destruct t, p, c; try discriminate; destruct (almost_identity _ _ _); discriminate).
    assert (Ck : forall s cj nm, check n eqb s cj nm <> Some EStack) by (intros [s|] cj nm; cbn; [|discriminate]; destruct (negb _); [discriminate|]; destruct (negb _); discriminate).
    destruct e0 as [e|]; [intros [= ->]; congruence|]. pose proof (Ck t' true NTime) as K1. pose proof (Ck p' true NParticleHole) as K2. pose proof (Ck c' false NChiral) as K3.
    destruct (check n eqb t' true NTime); [intros [= ->]; congruence|]. destruct (check n eqb p' true NParticleHole); [intros [= ->]; congruence|]. destruct (check n eqb c' false NChiral); [intros [= ->]; congruence|].
    assert (Ea : almost_identity n eqb (msum (map DiscModel.full (map (trim n eqb) (cons_projectors n vals vecs)))) = true).
    { apply (@ai_spec R n eqb Heq). intros i j Hi Hj. unfold msum. rewrite lsum_map. apply full_sum; auto. }
    rewrite Ea. cbn [negb]. repeat (destruct (negb _); [discriminate|]). discriminate.
  - intros d H. destruct (@init_fields R n eqb gt Heq _ _ _ _ _ H) as (_ & _ & X). destruct (projectors d) as [ps'|] eqn:Ep; [|contradiction]. destruct X as [E Hs]. subst ps'.
    eexists. split; [reflexivity|]. split; [apply cons_orthonormal|]. split.
    + exists vs. split; [apply unique_sorted_sorted|]. split; [unfold cons_projectors; rewrite !map_length; reflexivity|]. split.
      * intros v. unfold vs. rewrite unique_in, in_map_iff. split; intros (i & A & B); exists i; [apply in_seq in B|split; auto; apply in_seq]; intuition lia.
      * intros a i j Ha Hi Hj. assert (Ln : length (map (trim n eqb) (cons_projectors n vals vecs)) = length vs) by (unfold cons_projectors; rewrite !map_length; reflexivity). rewrite Ln in Ha.
        rewrite !nth_proj in * by auto. rewrite !trim_P in *. cbn [fst snd] in *. set (v := nth a vs 0%Z) in *. destruct (proj1 (kept_in v _) (nth_In (kept v) n Hj)) as [L1 E1]. set (J := nth j (kept v) n) in *.
        transitivity ((conservation n vals vecs ** vecs) i J).
        { change (sum n (fun k => conservation n vals vecs i k * P v k J) = sum n (fun k => conservation n vals vecs i k * vecs k J)). apply sum_ext. intros k Hk. rewrite P_val by auto. rewrite E1, Z.eqb_refl. reflexivity. }
        rewrite P_val by auto. rewrite E1, Z.eqb_refl. unfold conservation. fold (diag (fun i => @from_int R (vals i))).
        assert (Y : vecs ** diag (fun i => @from_int R (vals i)) ** vecs^+ ** vecs == vecs ** diag (fun i => @from_int R (vals i))) by (destruct Hu as [U _]; rewrite !m_assoc, U, m_1r; reflexivity).
        rewrite Y by auto. unfold mmul. rewrite (@sum_ext R n _ (fun k => if (k =? J)%nat then vecs i k * @from_int R (vals k) else 0)); [|intros k _; unfold diag; destruct (k =? J)%nat; ring].
        rewrite (@sum_delta R n J (fun k => vecs i k * @from_int R (vals k))) by auto. rewrite E1. ring.
    + intros m h. rewrite <- (commute_iff (fill_columns m h) Hf). destruct (@C58_validate R n eqb gt Heq _ _ _ _ _ H m h) as (_ & _ & _ & V). rewrite V, Ep. split.
      * intros (ps' & q & [= <-] & Hq & X) Y. apply X. apply Y; auto.
      * intros X. destruct (existsb (fun q => negb (vanishes n eqb (msub (full q ** fill_columns m h) (fill_columns m h ** full q)))) (map (trim n eqb) (cons_projectors n vals vecs))) eqn:E.
        -- apply existsb_exists in E. destruct E as (q & Hq & E). eexists _, q. split; [reflexivity|]. split; auto. intros Y. apply negb_true_iff in E. apply not_true_iff_false in E. apply E. apply (@vanishes_spec R n eqb Heq). exact Y.
        -- exfalso. apply X. intros q Hq. apply (@vanishes_spec R n eqb Heq). destruct (vanishes n eqb (msub (full q ** fill_columns m h) (fill_columns m h ** full q))) eqn:Y; auto. exfalso. apply not_true_iff_false in E. apply E. apply existsb_exists. exists q. split; auto. rewrite Y. reflexivity.
Qed.
End Conservation.
End C58.
Print Assumptions C58_projectors.
Print Assumptions C58_blocks.
Print Assumptions C58_canonical.
Print Assumptions C58_conservation.
