(** * The phases of infinite systems. *)
From Coq Require Import Reals List Bool Arith ZArith Lia Lra Permutation.
From Verif Require Import StarRing DiscretizeReal DijkstraModel DijkstraSpec GaugeModel GaugeSpec GaugeProofs GaugeForest GaugeLoops GaugePhases InfGaugeModel InfGaugeSpec InfGaugeProofs.
Import ListNotations.
Set Implicit Arguments.
Local Open Scope R_scope.

Section Phases.
Variable n : nat.
Variable pos : nat -> vec.
Variable flux : list vec -> R.
Variable A : nat -> nat -> R.
Hypothesis HAs : forall i j, A j i = - A i j.
Hypothesis Hflux : forall w, w <> [] -> flux (map pos w) = sum_around A w.
Notation phases_from := (fold_left (fun ph loop => pset ph (last loop O, hd O loop) (cdiv (expi (PI * flux (map pos loop))) (previous_phase_inf n ph (r1 RC) loop)))).
Definition rwrapper (ph : phases) (i j : nat) : RC := wrapper ph (fst (reduce n (i, j))) (snd (reduce n (i, j))).
Lemma reduce_swap i j : reduce n (j, i) = (snd (reduce n (i, j)), fst (reduce n (i, j))).
Proof. unfold reduce. cbn [fst snd]. rewrite andb_comm. destruct (_ && _); reflexivity. Qed.
Lemma reduce_id i j : (i < n)%nat \/ (j < n)%nat -> reduce n (i, j) = (i, j).
Proof. intros H. unfold reduce. cbn [fst snd]. destruct (Nat.leb_spec n i), (Nat.leb_spec n j); cbn; auto; lia. Qed.

Record einv (pot : nat -> R) (sub : graph) (ph : phases) : Prop := {
  e_val : forall i j, links sub i j -> rwrapper ph i j = expi (PI * A i j + pot j - pot i);
  e_one : forall i j, pget ph (i, j) <> None -> links sub i j /\ ((i < n)%nat \/ (j < n)%nat) /\ pget ph (j, i) = None }.

Lemma factor_inf pot sub ph i j (x : RC) : einv pot sub ph -> (forall x y, links sub x y -> links sub y x) -> links sub i j ->
  cdiv (rmul RC x (get1 ph (fst (reduce n (i, j)), snd (reduce n (i, j))))) (get1 ph (snd (reduce n (i, j)), fst (reduce n (i, j)))) = rmul RC x (expi (PI * A i j + pot j - pot i)).
Proof.
  intros I Hs Hl. pose proof (e_val I Hl) as Hv. pose proof (e_val I (Hs _ _ Hl)) as Hv'. unfold rwrapper in Hv, Hv'. rewrite reduce_swap in Hv'. cbn [fst snd] in Hv'. destruct (reduce n (i, j)) as [i' j']. cbn [fst snd] in *. unfold wrapper in Hv, Hv'. unfold get1. destruct (pget ph (i', j')) as [v|] eqn:E1.
  - destruct (@e_one _ _ _ I i' j') as (_ & _ & E2); [congruence|]. rewrite E2, Hv. apply cdiv_1.
  - destruct (pget ph (j', i')) as [v|] eqn:E2; [|rewrite cdiv_1, <- Hv; auto]. rewrite Hv'. unfold cdiv. rewrite expi_cinv. rewrite (HAs i j). replace (- (PI * - A i j + pot i - pot j)) with (PI * A i j + pot j - pot i) by lra. destruct x. cbn. f_equal; ring.
Qed.
Lemma previous_inf_ok pot sub ph : einv pot sub ph -> (forall x y, links sub x y -> links sub y x) -> forall p a, p <> [] -> along (links sub) p ->
  previous_phase_inf n ph (expi a) p = expi (a + PI * sum_along A p + pot (last p O) - pot (hd O p)).
Proof.
  intros I Hs p. induction p as [|i [|j p] IH]; intros a Hp Hal; [congruence|cbn; f_equal; lra|].
  destruct Hal as [Hl Hal].
  replace (previous_phase_inf n ph (expi a) (i :: j :: p)) with (previous_phase_inf n ph (cdiv (rmul RC (expi a) (get1 ph (fst (reduce n (i, j)), snd (reduce n (i, j))))) (get1 ph (snd (reduce n (i, j)), fst (reduce n (i, j))))) (j :: p)) by (cbn [previous_phase_inf]; destruct (reduce n (i, j)); reflexivity).
  rewrite (factor_inf _ I Hs Hl), expi_add, IH; [|discriminate|auto]. rewrite last_cons. change (sum_along A (i :: j :: p)) with (A i j + sum_along A (j :: p)). cbn [hd]. f_equal. lra.
Qed.
Lemma phases_inf_ok g pot : full g -> forall loops sub ph, valid g sub loops -> (forall i j, links sub i j -> edge g i j) -> (forall x y, links sub x y -> links sub y x) ->
  (forall i j, links sub i j -> links sub (fst (reduce n (i, j))) (snd (reduce n (i, j)))) ->
  (forall i j, edge g i j -> ~ links sub i j -> (i < n)%nat \/ (j < n)%nat) ->
  einv pot sub ph ->
  exists sub', (forall i j, edge g i j <-> links sub' i j) /\ einv pot sub' (phases_from loops ph).
Proof.
  intros Hf loops sub ph HV. revert ph.
  induction HV as [sub Hall|sub sub' p loops Hp Hal He Hn HL HV IH]; intros ph Hle Hsym Hred Hnew I; [exists sub; split; [split; auto|auto]|]. cbn [fold_left].
  set (i := last p O) in *. set (j := hd O p) in *. pose proof (Hnew i j He Hn) as Hlt. apply IH.
  - intros x y H. apply HL in H. destruct H as [H|[[-> ->]|[-> ->]]]; [auto|auto|]. apply (f_sym Hf), He.
  - intros x y H. apply HL. apply HL in H. destruct H as [H|[[-> ->]|[-> ->]]]; auto.
  - intros x y H. apply HL in H. apply HL. destruct H as [H|[[-> ->]|[-> ->]]]; [left; auto| |]; rewrite reduce_id by tauto; cbn [fst snd]; auto.
  - intros x y H H'. apply Hnew; [auto|]. intros H2. apply H'. apply HL. auto.
  - rewrite <- expi_0, (previous_inf_ok I Hsym) by auto. fold i j. rewrite Hflux by auto. unfold sum_around. fold i j. rewrite expi_div.
    replace (PI * (sum_along A p + A i j) - (0 + PI * sum_along A p + pot i - pot j)) with (PI * A i j + pot j - pot i) by lra.
    assert (Hij : i <> j) by (intros E; rewrite E in He; apply (f_irr Hf j He)).
    assert (N1 : pget ph (i, j) = None). { destruct (pget ph (i, j)) eqn:E; [|auto]. exfalso. apply Hn. apply (e_one I i j). congruence. }
    assert (N2 : pget ph (j, i) = None). { destruct (pget ph (j, i)) eqn:E; [|auto]. exfalso. apply Hn. apply Hsym. apply (e_one I j i). congruence. }
    assert (K : forall x y, key_eqb (i, j) (x, y) = true <-> (x = i /\ y = j)). { intros x y. rewrite key_eqb_spec. split; [intros [= -> ->]; auto|intros [-> ->]; auto]. }
    constructor.
    + intros x y Hxy. apply HL in Hxy. destruct Hxy as [H|[[-> ->]|[-> ->]]].
      * pose proof (Hred x y H) as Hr. pose proof (Hsym _ _ Hr) as Hr'. rewrite <- (e_val I H). unfold rwrapper. destruct (reduce n (x, y)) as [x' y']. cbn [fst snd] in *. unfold wrapper. rewrite !pget_pset.
        destruct (key_eqb (i, j) (x', y')) eqn:E; [apply K in E; destruct E as [-> ->]; contradiction|]. destruct (key_eqb (i, j) (y', x')) eqn:E'; [apply K in E'; destruct E' as [-> ->]; contradiction|]. reflexivity.
      * unfold rwrapper. rewrite reduce_id by auto. cbn [fst snd]. unfold wrapper. rewrite pget_pset, key_eqb_refl. reflexivity.
      * unfold rwrapper. rewrite reduce_id by tauto. cbn [fst snd]. unfold wrapper. rewrite !pget_pset, key_eqb_refl. destruct (key_eqb (i, j) (j, i)) eqn:E; [apply K in E; destruct E; congruence|].
        rewrite N2, expi_conj. f_equal. rewrite (HAs i j). lra.
    + intros x y. rewrite !pget_pset. destruct (key_eqb (i, j) (x, y)) eqn:E.
      * intros _. apply K in E. destruct E as [-> ->]. split; [apply HL; auto|]. split; [auto|]. destruct (key_eqb (i, j) (j, i)) eqn:E; [apply K in E; destruct E; congruence|auto].
      * intros H. destruct (e_one I x y H) as (H1 & H2 & H3). split; [apply HL; auto|]. split; [auto|]. destruct (key_eqb (i, j) (y, x)) eqn:E'; [|auto]. apply K in E'. destruct E' as [-> ->]. congruence.
Qed.
End Phases.

(** ** The unit cell, and the links between unit cells *)
Section Cell.
Variable n : nat.
Variable adj : list (list nat).
Hypothesis Hadj : infinite_graph n adj.
Lemma cell_length : length (cell_adj n adj) = n.
Proof. unfold cell_adj. rewrite map_length, seq_length. auto. Qed.
Lemma cell_nth i : (i < n)%nat -> nth i (cell_adj n adj) [] = filter (fun j => (j <? n)%nat) (nth i adj []).
Proof. intros H. unfold cell_adj. rewrite (nth_indep _ [] (filter (fun j => (j <? n)%nat) (nth O adj []))) by (rewrite map_length, seq_length; auto). rewrite (map_nth (fun i => filter (fun j => (j <? n)%nat) (nth i adj []))), seq_nth; auto. Qed.
Lemma cell_linked i j : linked (cell_adj n adj) i j <-> (i < n)%nat /\ (j < n)%nat /\ linked adj i j.
Proof.
  unfold linked. split.
  - intros H. destruct (Nat.lt_ge_cases i n) as [Hi|Hi]; [|rewrite nth_overflow in H by (rewrite cell_length; auto); destruct H]. rewrite cell_nth in H by auto. apply filter_In in H. destruct H as [H E]. apply Nat.ltb_lt in E. auto.
  - intros (Hi & Hj & H). rewrite cell_nth by auto. apply filter_In. split; [auto|]. apply Nat.ltb_lt. auto.
Qed.
Lemma cell_graph : system_graph (cell_adj n adj).
Proof.
  destruct Hadj as ((G1 & G2 & G3) & _). split; [|split].
  - intros i. destruct (Nat.lt_ge_cases i n) as [Hi|Hi]; [rewrite cell_nth by auto; apply NoDup_filter, G1|rewrite nth_overflow by (rewrite cell_length; auto); constructor].
  - intros i j H. apply cell_linked in H. destruct H as (H1 & H2 & H3). rewrite cell_length. split; [auto|]. apply cell_linked. split; [auto|]. split; [auto|]. apply G2. auto.
  - intros i H. apply cell_linked in H. apply (G3 i). tauto.
Qed.
Lemma hop_in i j : In (i, j) (hop_links n adj) <-> linked adj i j /\ (n <= j)%nat.
Proof.
  unfold hop_links, linked. rewrite in_flat_map. split.
  - intros (k & _ & H). apply in_map_iff in H. destruct H as (l & [= -> ->] & H). apply filter_In in H. destruct H as [H E]. apply Nat.leb_le in E. auto.
  - intros [H1 H2]. exists i. split; [apply in_seq; destruct (Nat.lt_ge_cases i (length adj)); [lia|rewrite nth_overflow in H1 by auto; destruct H1]|]. apply in_map_iff. exists j. split; [auto|]. apply filter_In. split; [auto|apply Nat.leb_le; auto].
Qed.
Lemma hop_range i j : In (i, j) (hop_links n adj) -> (i < n)%nat /\ (n <= j < 2 * n)%nat /\ (j < length adj)%nat.
Proof.
  rewrite hop_in. intros [H1 H2]. destruct Hadj as ((G1 & G2 & G3) & G4 & G5 & _). split; [|destruct (G2 _ _ H1); lia]. destruct (Nat.lt_ge_cases i n); [auto|]. specialize (G5 i j H H1). lia.
Qed.
Lemma hop_nodup : NoDup (hop_links n adj).
Proof.
  unfold hop_links. destruct Hadj as ((G1 & _ & _) & _). clear Hadj. assert (H : forall l : list nat, NoDup l -> NoDup (flat_map (fun i => map (pair i) (filter (fun j => (n <=? j)%nat) (nth i adj []))) l)).
  { induction 1 as [|i l Hi Hl IH]; [constructor|]. cbn [flat_map].
    assert (App : forall a b : list (nat * nat), NoDup a -> NoDup b -> (forall x, In x a -> ~ In x b) -> NoDup (a ++ b)).
    { induction a as [|x a IHa]; intros b Ha Hb Hab; [auto|]. inversion Ha; subst. cbn. constructor; [rewrite in_app_iff; intros [H|H]; [auto|apply (Hab x); [left; auto|auto]]|apply IHa; auto; intros y Hy; apply Hab; right; auto]. }
    apply App; [|auto|].
    - apply FinFun.Injective_map_NoDup; [intros a b [= ->]; auto|apply NoDup_filter, G1].
    - intros [a b] H1 H2. apply in_map_iff in H1. destruct H1 as (c & [= <- <-] & _). apply in_flat_map in H2. destruct H2 as (k & Hk & H2). apply in_map_iff in H2. destruct H2 as (d & [= -> ->] & _). auto. }
  apply H, seq_NoDup.
Qed.
Variable pos : nat -> vec.
Variable period : vec.
Notation uc := (distance_matrix (cell_adj n adj) (ext_pos n pos period)).
Lemma uc_edge i j : edge uc i j <-> (i < n)%nat /\ (j < n)%nat /\ linked adj i j.
Proof. rewrite distance_edge. apply cell_linked. Qed.
Lemma keys_combine A (l : list (nat * nat)) (d : list A) : length l = length d -> map fst (combine l d) = l.
Proof. revert d. induction l as [|x l IH]; intros [|y d] H; cbn in *; try lia; auto. f_equal. apply IH. lia. Qed.
Lemma all_keys : keys (all_hops n adj pos period) = hop_links n adj.
Proof. unfold keys, all_hops. apply keys_combine. unfold hop_lengths. rewrite !map_length. auto. Qed.
Lemma small_keys : keys (smallest_hop n adj pos period) = hop_links n adj.
Proof. unfold keys, smallest_hop. apply keys_combine. unfold hop_lengths. rewrite map_length, combine_length, seq_length, !map_length. lia. Qed.
Lemma all_good : good_hops n (all_hops n adj pos period).
Proof. split; rewrite all_keys; [apply hop_nodup|]. intros i j H. apply hop_range in H. tauto. Qed.
Lemma small_good : good_hops n (smallest_hop n adj pos period).
Proof. split; rewrite small_keys; [apply hop_nodup|]. intros i j H. apply hop_range in H. tauto. Qed.
Lemma all_some k o : In (k, o) (all_hops n adj pos period) -> exists w, o = Some w /\ 0 <= w.
Proof.
  unfold all_hops. intros H. apply in_combine_r in H. apply in_map_iff in H. destruct H as (w & <- & H). exists w. split; [auto|]. unfold hop_lengths in H. apply in_map_iff in H. destruct H as (ij & <- & _). apply sqrt_pos.
Qed.
Lemma small_sub : Forall2 (fun x y => fst x = fst y /\ (snd x = None \/ snd x = snd y)) (smallest_hop n adj pos period) (all_hops n adj pos period).
Proof.
  unfold smallest_hop, all_hops. generalize (argmin (hop_lengths n adj pos period)) as m. intros m. assert (L : length (hop_links n adj) = length (hop_lengths n adj pos period)) by (unfold hop_lengths; rewrite map_length; auto).
  revert L. generalize (hop_links n adj) as l. generalize (hop_lengths n adj pos period) as d. intros d. generalize O as s. induction d as [|x d IH]; intros s [|k l] L; cbn in *; try lia; constructor; [|apply IH; lia]. cbn. split; [auto|]. destruct (s =? m)%nat; auto.
Qed.
Lemma argmin_lt l : l <> [] -> (argmin l < length l)%nat.
Proof.
  destruct l as [|x l]; [congruence|]. intros _. cbn [argmin length]. assert (H : forall l k b m, (b < k)%nat -> (argmin_from k b m l < k + length l)%nat).
  { clear. induction l as [|y l IH]; intros k b m Hb; cbn [argmin_from length]; [lia|]. destruct (rltb y m); [specialize (IH (S k) k y)|specialize (IH (S k) b m)]; lia. }
  specialize (H l 1%nat O x). lia.
Qed.
Lemma small_one : hop_links n adj <> [] -> exists i0 j0, In (i0, j0) (hop_links n adj) /\ forall i j, (exists w, In ((i, j), Some w) (smallest_hop n adj pos period)) <-> (i = i0 /\ j = j0).
Proof.
  intros Hne. set (m := argmin (hop_lengths n adj pos period)). assert (L : length (hop_lengths n adj pos period) = length (hop_links n adj)) by (unfold hop_lengths; rewrite map_length; auto).
  assert (Hm : (m < length (hop_links n adj))%nat). { rewrite <- L. apply argmin_lt. intros E. rewrite E in L. destruct (hop_links n adj); [congruence|discriminate]. }
  destruct (nth m (hop_links n adj) (O, O)) as [i0 j0] eqn:E0. exists i0, j0. split; [rewrite <- E0; apply nth_In; auto|]. intros i j.
  assert (H : forall d l s, length d = length l -> (exists w, In ((i, j), Some w) (combine l (map (fun kd : nat * R => if (fst kd =? m)%nat then Some (snd kd) else None) (combine (seq s (length d)) d)))) <-> (s <= m < s + length l)%nat /\ nth (m - s) l (O, O) = (i, j)).
  { induction d as [|x d IH]; intros [|k l] s Hl; cbn in Hl; try lia; [cbn; split; [intros [w []]|lia]|]. cbn [length seq combine map fst snd].
    specialize (IH l (S s)). split.
    - intros [w [H|H]].
      + injection H as -> H. destruct (Nat.eqb_spec s m) as [->|]; [|discriminate]. rewrite Nat.sub_diag. cbn. split; [lia|auto].
      + destruct (proj1 (IH ltac:(lia)) (ex_intro _ w H)) as [H1 H2]. split; [lia|]. replace (m - s)%nat with (S (m - S s)) by lia. auto.
    - intros [H1 H2]. destruct (Nat.eq_dec s m) as [->|N].
      + rewrite Nat.sub_diag in H2. cbn in H2. subst k. exists x. left. rewrite Nat.eqb_refl. auto.
      + destruct (proj2 (IH ltac:(lia))) as [w Hw]; [|exists w; right; auto]. split; [lia|]. replace (m - s)%nat with (S (m - S s)) in H2 by lia. auto. }
  unfold smallest_hop. fold m. rewrite (H _ _ O L). rewrite Nat.sub_0_r, E0. split; [intros [_ [= -> ->]]; auto|intros [-> ->]; split; [lia|auto]].
Qed.
End Cell.
