(** * C57: the n-th neighbors of a lattice. *)
From Coq Require Import List Bool Arith ZArith Reals Lia Lra Psatz Sorting.Permutation Sorting.Sorted.
From Verif Require Import KpmReal KpmRealProofs CvpModel CvpSpec CvpProofs LllModel LllSpec LatticeModel LatticeSpec LatticeProofs LatticeProps NeighborsModel NeighborsSpec ShellProofs NeighborsProofs NeighborsProofs2.
Import ListNotations.
Open Scope R_scope.

Lemma sorted_app {A} (P : A -> A -> Prop) l r : StronglySorted P l -> StronglySorted P r -> (forall x y, In x l -> In y r -> P x y) -> StronglySorted P (l ++ r).
Proof.
  intros H1 H2 H3. induction H1 as [|x l S IH F]; cbn; auto. constructor.
  - apply IH. intros; apply H3; cbn; auto.
  - apply Forall_app. split; auto. apply Forall_forall. intros y Hy. apply H3; cbn; auto.
Qed.
Lemma sorted_flat_map {A B} (P : A -> A -> Prop) (Q : B -> B -> Prop) (f : A -> list B) l : StronglySorted P l -> (forall x, In x l -> StronglySorted Q (f x)) ->
  (forall x y a b, In x l -> In y l -> P x y -> In a (f x) -> In b (f y) -> Q a b) -> StronglySorted Q (flat_map f l).
Proof.
  induction 1 as [|x l S IH F]; intros H1 H2; cbn; [constructor|]. apply sorted_app.
  - apply H1. cbn; auto.
  - apply IH; [intros; apply H1; cbn; auto|]. intros u v a b Hu Hv. apply H2; cbn; auto.
  - intros a b Ha Hb. apply in_flat_map in Hb. destruct Hb as (y & Hy & Hb). rewrite Forall_forall in F. apply (H2 x y a b); cbn; auto.
Qed.
Lemma seq_sorted a n : StronglySorted lt (seq a n).
Proof. revert a. induction n as [|n IH]; intros a; cbn; constructor; auto. apply Forall_forall. intros x Hx. apply in_seq in Hx. lia. Qed.
Lemma pairs_sorted N : StronglySorted (fun p q => (fst p < fst q)%nat \/ (fst p = fst q /\ (snd p < snd q)%nat)) (sublat_pairs N).
Proof.
  unfold sublat_pairs. apply sorted_filter. apply (sorted_flat_map lt); [apply seq_sorted| |].
  - intros i _. eapply sorted_map; [|apply (seq_sorted 0 N)]. cbn. intros; right; auto.
  - intros i j a b _ _ Hij Ha Hb. apply in_map_iff in Ha, Hb. destruct Ha as (x & <- & _), Hb as (y & <- & _). left. exact Hij.
Qed.
Lemma sorted_strict {A} (P : A -> A -> Prop) l : StronglySorted P l -> NoDup l -> StronglySorted (fun x y => P x y /\ x <> y) l.
Proof.
  induction 1 as [|x l S IH F]; intros ND; [constructor|]. inversion ND; subst. constructor; auto. rewrite Forall_forall in *. intros y Hy. split; auto. intros ->. contradiction.
Qed.

Section C57.
Variables m d : nat.
Variable prim : nat -> nat -> R.
Variable N : nat.
Variable basis : nat -> nat -> R.
Variable round : R -> Z.
Variable lstsq_mat : (nat -> nat -> R) -> (nat -> nat -> R) -> nat -> nat -> R.
Variable lstsq : (nat -> nat -> R) -> (nat -> R) -> nat -> R.
Variable inv : (nat -> nat -> R) -> nat -> nat -> R.
Variable argsort : (point -> R) -> list point -> list point.
Hypothesis Hm : (0 < m)%nat.
Hypothesis HN : (0 < N)%nat.
Hypothesis L : good_libraries m d round lstsq_mat lstsq inv argsort.
Hypothesis Hi : independent m d prim.
Notation neighbors := (neighbors m d prim N basis round lstsq_mat lstsq inv argsort).
Notation is_site := (is_site m N).
Notation sd := (site_dist d prim basis).
Notation distances := (distances m d prim N basis).
Notation n_closest i := (n_closest m d prim (basis i) round lstsq_mat lstsq inv argsort).
Notation lpos i := (pos m prim (basis i)).

Lemma shortest_unique l l' : shortest_length m d prim l -> shortest_length m d prim l' -> l = l'.
Proof.
  intros [(t & Lt & Nt & ->) H] [(t' & Lt' & Nt' & ->) H']. apply Rle_antisym; auto.
Qed.
(** the pairs of sublattices and the kept tags *)
Lemma neighbors_blocks lfuel cfuel n eps l D kinds : 0 < eps -> shortest_length m d prim l -> shells distances (eps * l) D -> length D = S n ->
  neighbors lfuel cfuel n eps = Some kinds ->
  exists T : nat * nat -> list point, kinds = flat_map (fun p => map (fun t => (t, fst p, snd p)) (T p)) (sublat_pairs N) /\
  forall i j, In (i, j) (sublat_pairs N) -> NoDup (T (i, j)) /\ StronglySorted (fun s t => lex_leb t s = true) (T (i, j)) /\
    forall t, In t (T (i, j)) <-> lattice_point m t /\ sd (i, t) (j, zeros m) = last D 0 /\ (i = j -> (0 < n)%nat -> positive t).
Proof.
  intros Heps Hl HD Hn. unfold NeighborsModel.neighbors. destruct (tolerance _ _ _ _ _ _ _ _ _ _ _ _) as [tol|] eqn:Et; [|discriminate].
  destruct (tolerance_spec m d prim basis round lstsq_mat lstsq inv argsort Hm L Hi _ _ _ _ Et) as (l' & Hl' & Etol).
  rewrite (shortest_unique l l') in HD by auto.
  destruct (sequence _) as [sites|] eqn:Es; [|discriminate]. apply sequence_spec in Es.
  rewrite (nth_distance m d prim N basis round lstsq_mat lstsq inv argsort Hm HN L Hi lfuel cfuel n eps tol l' D) by (auto; rewrite Etol; auto).
  intros [= <-].
  exists (fun p => match n_closest (fst p) lfuel cfuel (lpos (snd p) (zeros m)) (n + 1) true eps with Some tags => kept m d prim basis tol D (fst p) (snd p) tags | None => [] end).
  split.
  - revert sites Es. induction (sublat_pairs N) as [|(i, j) ps IH]; intros [|s sites] Es; try discriminate; [reflexivity|]. cbn [map] in Es. injection Es as E1 E2. cbn [flat_map]. rewrite (IH _ E2). f_equal.
    unfold NeighborsModel.pair_sites in E1. cbn [fst snd]. destruct (n_closest i lfuel cfuel _ _ _ _) as [tags|]; [|discriminate]. injection E1 as <-. reflexivity.
  - intros i j Hp. cbn [fst snd]. pose proof Hp as Hp'. apply in_pairs in Hp'. destruct Hp' as (Hi' & Hj & _).
    assert (Hs : In (pair_sites m d prim basis round lstsq_mat lstsq inv argsort lfuel cfuel n eps (i, j)) (map Some sites)) by (rewrite <- Es; apply in_map; auto). unfold NeighborsModel.pair_sites in Hs.
    destruct (n_closest i lfuel cfuel (lpos j (zeros m)) (n + 1) true eps) as [tags|] eqn:En; [|apply in_map_iff in Hs; destruct Hs as (? & [=] & _)].
    eapply (kept_spec m d prim N basis round lstsq_mat lstsq inv argsort Hm HN L Hi lfuel cfuel n eps tol l' D); eauto. rewrite Etol. auto.
Qed.

(** The result contains one of each hopping and its reverse, of the n-th
    shortest distance and of no other. *)
Theorem C57_neighbors : forall lfuel cfuel n eps l D kinds, 0 < eps -> shortest_length m d prim l -> shells distances (eps * l) D -> length D = S n ->
  neighbors lfuel cfuel n eps = Some kinds ->
  (forall a b, is_site a -> is_site b -> In (kind_of a b) kinds -> sd a b = last D 0) /\
  (forall k, In k kinds -> exists a b, is_site a /\ is_site b /\ k = kind_of a b) /\
  (forall a b, is_site a -> is_site b -> a <> b -> sd a b = last D 0 ->
     (In (kind_of a b) kinds /\ ~ In (kind_of b a) kinds) \/ (~ In (kind_of a b) kinds /\ In (kind_of b a) kinds)) /\
  (forall a, is_site a -> (In (kind_of a a) kinds <-> n = 0%nat)).
Proof.
  intros lfuel cfuel n eps l D kinds Heps Hl HD Hn E.
  destruct (neighbors_blocks _ _ _ _ _ _ _ Heps Hl HD Hn E) as (T & EK & HT).
  assert (Htol : eps * l = eps * l) by auto.
  assert (In1 : forall t i j, In (t, i, j) kinds <-> (i < N /\ j < N /\ i <= j)%nat /\ lattice_point m t /\ sd (i, t) (j, zeros m) = last D 0 /\ (i = j -> (0 < n)%nat -> positive t)).
  { intros t i j. rewrite EK, in_flat_map. split.
    - intros ((i', j') & Hp & Hin). apply in_map_iff in Hin. cbn [fst snd] in Hin. destruct Hin as (t' & [= -> -> ->] & Ht). apply HT in Ht; auto. split; [apply in_pairs; auto|auto].
    - intros (Hp & Ht). apply in_pairs in Hp. exists (i, j). split; auto. apply in_map_iff. exists t. cbn [fst snd]. split; auto. apply HT; auto. }
  assert (Lps : forall t u, lattice_point m t -> lattice_point m u -> lattice_point m (psub t u)) by (intros t u Lt Lu; unfold lattice_point; rewrite psub_length; auto; rewrite Lt; auto).
  assert (Pn : forall t, positive t -> ~ positive (map Z.opp t)).
  { intros t Hp Hq. assert (Nz : exists k, nth k t 0%Z <> 0%Z) by (destruct Hp as (k & _ & Hk); exists k; lia). apply posb_spec in Hp, Hq. rewrite posb_opp, Hp in Hq by auto. discriminate. }
  assert (Sw : forall t u, lattice_point m t -> lattice_point m u -> psub u t = map Z.opp (psub t u)).
  { intros t u Lt Lu. apply list_eq_nth with (n := m); [apply Lps; auto|rewrite map_length; apply Lps; auto|]. intros k Hk. change 0%Z with (Z.opp 0) at 2. rewrite map_nth, !psub_nth by (rewrite Lt, Lu; auto). lia. }
  split; [|split; [|split]].
  - intros (i, t) (j, u) (Hi' & Lt) (Hj & Lu) Hin. cbn [fst snd] in *. apply In1 in Hin. rewrite sd_shift with (m := m) by auto. tauto.
  - intros ((t, i), j) Hin. apply In1 in Hin. destruct Hin as ((Hi' & Hj & _) & Lt & _). exists (i, t), (j, zeros m). split; [split; auto|]. split; [split; auto; apply zeros_len|].
    unfold kind_of. cbn [fst snd]. f_equal. f_equal. apply list_eq_nth with (n := m); auto; [apply Lps; auto; apply zeros_len|]. intros k Hk. rewrite psub_nth by (rewrite Lt; symmetry; apply zeros_len). unfold zeros. rewrite nth_zeros. lia.
  - intros (i, t) (j, u) (Hi' & Lt) (Hj & Lu) Ne Ed. cbn [fst snd] in *. unfold kind_of. cbn [fst snd]. rewrite !In1.
    assert (Ed' : sd (j, u) (i, t) = last D 0) by (rewrite sd_sym; auto). rewrite sd_shift with (m := m) in Ed, Ed' by auto.
    destruct (Nat.lt_trichotomy i j) as [H|[->|H]].
    + left. split; [repeat split; auto; intros; lia|]. intros ((_ & _ & X) & _). lia.
    + (* same sublattice *)
      assert (Nz : psub t u <> zeros m).
      { intros X. apply Ne. f_equal. apply list_eq_nth with (n := m); auto. intros k Hk. assert (Y : nth k (psub t u) 0%Z = 0%Z) by (rewrite X; apply nth_zeros). rewrite psub_nth in Y by (rewrite Lt, Lu; auto). lia. }
      assert (Pn0 : (0 < n)%nat).
      { destruct n; [|lia]. exfalso. assert (Z : last D 0 = 0) by (apply (last_shell_zero m d prim N basis Hm HN Hi 0 eps (eps * l) l D); auto). rewrite sd_same, Z in Ed. apply Nz. apply (len_zero m d prim Hi); auto. }
      destruct (nonzero_tag m (psub t u) (Lps _ _ Lt Lu) Nz) as (k & Hk).
      destruct (posb (psub t u)) eqn:Ep.
      * left. apply posb_spec in Ep. split; [exact (conj (conj Hj (conj Hj (le_n j))) (conj (Lps _ _ Lt Lu) (conj Ed (fun _ _ => Ep))))|]. intros (_ & _ & _ & X). specialize (X eq_refl Pn0). rewrite (Sw t u) in X by auto. exact (Pn _ Ep X).
      * right. split; [intros (_ & _ & _ & X); specialize (X eq_refl Pn0); apply posb_spec in X; congruence|]. refine (conj (conj Hj (conj Hj (le_n j))) (conj (Lps _ _ Lu Lt) (conj Ed' _))). intros _ _. rewrite (Sw t u) by auto. apply posb_spec. rewrite posb_opp, Ep by eauto. reflexivity.
    + right. split; [intros ((_ & _ & X) & _); lia|]. repeat split; auto; [lia|]. intros; lia.
  - intros (i, t) (Hi' & Lt). cbn [fst snd] in *. unfold kind_of. cbn [fst snd]. rewrite In1.
    assert (Z : psub t t = zeros m) by (apply list_eq_nth with (n := m); [apply Lps; auto|apply zeros_len|]; intros k Hk; rewrite psub_nth by auto; unfold zeros; rewrite nth_zeros; lia).
    rewrite Z, sd_same, len_zeros. split.
    + intros (_ & _ & X & _). destruct n; auto. exfalso. pose proof (last_shell_pos m d prim N basis Hm HN Hi (S n) eps (eps * l) l D Heps Hl Htol HD Hn ltac:(lia)). lra.
    + intros ->. split; [auto|]. split; [apply zeros_len|]. split; [|intros; lia]. symmetry. apply (last_shell_zero m d prim N basis Hm HN Hi 0 eps (eps * l) l D); auto.
Qed.

(** They are ordered by sublattices and tags (the lexicographically largest tag
    first) and are all different; of a hopping within a sublattice and its
    reverse, the one with the lexicographically larger tag is returned. *)
Theorem C57_order : forall lfuel cfuel n eps l D kinds, 0 < eps -> shortest_length m d prim l -> shells distances (eps * l) D -> length D = S n ->
  neighbors lfuel cfuel n eps = Some kinds ->
  StronglySorted kind_before kinds /\ NoDup kinds /\
  forall t i j, In (t, i, j) kinds -> (i < j)%nat \/ (i = j /\ (n = 0%nat \/ lex_larger t (map Z.opp t))).
Proof.
  intros lfuel cfuel n eps l D kinds Heps Hl HD Hn E.
  destruct (neighbors_blocks _ _ _ _ _ _ _ Heps Hl HD Hn E) as (T & EK & HT).
  assert (S : StronglySorted kind_before kinds).
  { rewrite EK. eapply sorted_flat_map; [apply pairs_sorted| |].
    - intros (i, j) Hp. cbn [fst snd]. destruct (HT i j Hp) as (ND & S & Sp). pose proof (sorted_strict _ _ S ND) as S'. eapply sorted_map; [|exact S']. cbv beta. intros s t Hs Ht [H1 H2]. right. right. split; auto. split; auto.
      apply lex_larger_spec; auto. apply Sp in Hs, Ht. destruct Hs as [-> _], Ht as [-> _]. auto.
    - intros (i, j) (i', j') a b _ _ H Ha Hb. cbn [fst snd] in *. apply in_map_iff in Ha, Hb. destruct Ha as (s & <- & _), Hb as (t & <- & _). cbn. tauto. }
  split; auto. split.
  - clear - S. induction S as [|((s, i), j) l S IH F]; constructor; auto. intros Hin. rewrite Forall_forall in F. specialize (F _ Hin). cbn in F. destruct F as [F|[F|(_ & _ & k & _ & F)]]; lia.
  - intros t i j Hin. rewrite EK in Hin. apply in_flat_map in Hin. destruct Hin as ((i', j') & Hp & Hin). apply in_map_iff in Hin. cbn [fst snd] in Hin. destruct Hin as (t' & [= -> -> ->] & Ht). apply HT in Ht; auto. destruct Ht as (Lt & _ & Hpos).
    apply in_pairs in Hp. destruct (Nat.eq_dec i j) as [->|]; [right; split; auto|left; lia]. destruct n as [|n']; [left; auto|right]. destruct (Hpos eq_refl ltac:(lia)) as (k & K1 & K2). exists k.
    assert (M : forall a, nth a (map Z.opp t) 0%Z = Z.opp (nth a t 0%Z)) by (intros a; change 0%Z with (Z.opp 0) at 1; apply map_nth).
    split; [intros a Ha; rewrite M, K1 by auto; reflexivity|]. rewrite M. lia.
Qed.
End C57.
Print Assumptions C57_neighbors.
Print Assumptions C57_order.
