(** * Invariant vector potentials; the graph of two unit cells. *)
From Coq Require Import Reals List Bool Arith ZArith Lia Lra Permutation.
From Verif Require Import StarRing DiscretizeReal DijkstraModel DijkstraSpec GaugeModel GaugeSpec GaugeProofs GaugeForest GaugeLoops GaugePhases InfGaugeModel InfGaugeSpec.
Import ListNotations.
Set Implicit Arguments.
Local Open Scope R_scope.

(** ** A vector potential that is invariant under translations *)
Section Invariant.
Variable flux : site -> site -> site -> R.
Variable A : site -> site -> R.
Hypothesis HAs : forall a b, A b a = - A a b.
Hypothesis HA : forall a b c, flux a b c = A a b + A b c + A c a.
Hypothesis Hinv : forall a b c, flux (translate 1 a) (translate 1 b) (translate 1 c) = flux a b c.
Definition lam (x : site) : R := A (0%Z, O) x - A (translate 1 (0%Z, O)) (translate 1 x).
Lemma lam_ok x y : A (translate 1 x) (translate 1 y) = A x y - lam y + lam x.
Proof.
  pose proof (Hinv (0%Z, O) x y) as H. rewrite !HA in H. unfold lam. pose proof (HAs (0%Z, O) y). pose proof (HAs (translate 1 (0%Z, O)) (translate 1 y)). lra.
Qed.
Fixpoint up (m k : nat) : R := match m with O => 0 | S m => up m k + lam (Z.of_nat m, k) end.
Fixpoint down (m k : nat) : R := match m with O => 0 | S m => down m k + lam ((- Z.of_nat (S m))%Z, k) end.
Definition chi (x : site) : R := up (Z.to_nat (fst x)) (snd x) - down (Z.to_nat (- fst x)) (snd x).
Lemma chi_step x : chi (translate 1 x) = chi x + lam x.
Proof.
  destruct x as [z k]. unfold chi, translate. cbn [fst snd]. destruct (Z_le_gt_dec 0 z) as [H|H].
  - replace (Z.to_nat (z + 1)) with (S (Z.to_nat z)) by lia. replace (Z.to_nat (- (z + 1))) with O by lia. replace (Z.to_nat (- z)) with O by lia. cbn [up down]. rewrite Z2Nat.id by lia. lra.
  - replace (Z.to_nat (z + 1)) with O by lia. replace (Z.to_nat z) with O by lia. replace (Z.to_nat (- z)) with (S (Z.to_nat (- (z + 1)))) by lia. cbn [up down]. replace (- Z.of_nat (S (Z.to_nat (- (z + 1)))))%Z with z by lia. lra.
Qed.
Definition Ainv (x y : site) : R := A x y + chi y - chi x.
Lemma Ainv_sym x y : Ainv y x = - Ainv x y.
Proof. unfold Ainv. rewrite HAs. lra. Qed.
Lemma Ainv_flux a b c : flux a b c = Ainv a b + Ainv b c + Ainv c a.
Proof. rewrite HA. unfold Ainv. lra. Qed.
Lemma Ainv_inv z x y : Ainv (translate z x) (translate z y) = Ainv x y.
Proof.
  assert (H1 : forall x y, Ainv (translate 1 x) (translate 1 y) = Ainv x y) by (intros a b; unfold Ainv; rewrite lam_ok, !chi_step; lra).
  assert (Hn : forall m x y, Ainv (translate (Z.of_nat m) x) (translate (Z.of_nat m) y) = Ainv x y).
  { induction m as [|m IH]; intros [z1 k1] [z2 k2]; [unfold translate; cbn [fst snd]; rewrite !Z.add_0_r; auto|].
    transitivity (Ainv (translate 1 (translate (Z.of_nat m) (z1, k1))) (translate 1 (translate (Z.of_nat m) (z2, k2)))); [|rewrite H1; apply IH].
    unfold translate. cbn [fst snd]. replace (z1 + Z.of_nat (S m))%Z with (z1 + Z.of_nat m + 1)%Z by lia. replace (z2 + Z.of_nat (S m))%Z with (z2 + Z.of_nat m + 1)%Z by lia. reflexivity. }
  destruct (Z_le_gt_dec 0 z) as [H|H]; [rewrite <- (Z2Nat.id z H); apply Hn|].
  rewrite <- (Hn (Z.to_nat (- z)) (translate z x) (translate z y)). destruct x as [z1 k1], y as [z2 k2]. unfold translate. cbn [fst snd]. rewrite Z2Nat.id by lia. replace (z1 + z + - z)%Z with z1 by lia. replace (z2 + z + - z)%Z with z2 by lia. reflexivity.
Qed.
End Invariant.

(** ** Fluxes *)
Section Flux.
Variable dblquad : (R -> R -> R) -> R.
Variable f : field.
Variable tol : R.
Variable P : site -> vec.
Variable A : site -> site -> R.
Hypothesis HAs : forall a b, A b a = - A a b.
Hypothesis HA : forall a b c, flux_through dblquad f tol P a b c = A a b + A b c + A c a.
Lemma triangles_walk o p l : triangles dblquad f false tol (P o) (map P (p :: l)) = walk_sum A ((p :: l) ++ [o]) + A o p.
Proof.
  revert p. induction l as [|q l IH]; intros p; [cbn; pose proof (HAs p o); lra|].
  change (triangles dblquad f false tol (P o) (map P (p :: q :: l))) with (flux_through dblquad f tol P o p q + triangles dblquad f false tol (P o) (map P (q :: l))).
  rewrite (IH q), HA. change (walk_sum A ((p :: q :: l) ++ [o])) with (A p q + walk_sum A ((q :: l) ++ [o])). pose proof (HAs q o). lra.
Qed.
Lemma surface_walk w : surface_integral dblquad f false tol (map P w) = walk_sum A (closed w).
Proof.
  destruct w as [|o [|p l]]; [reflexivity| |].
  - cbn. pose proof (HAs o o). lra.
  - cbn [map surface_integral]. change (P p :: map P l) with (map P (p :: l)). rewrite triangles_walk. unfold closed. change ((o :: p :: l) ++ [o]) with (o :: (p :: l) ++ [o]). destruct ((p :: l) ++ [o]) as [|q r] eqn:E; [discriminate|]. injection E as -> E. cbn [walk_sum]. fold (walk_sum A). lra.
Qed.
(** the same for indices in the graph of two unit cells *)
Lemma ext_stokes n pos period : P = site_pos pos period -> stokes dblquad f tol (ext_pos n pos period) (fun i j => A (ext_site n i) (ext_site n j)).
Proof. intros E. split; [intros; apply HAs|]. intros i j k. unfold ext_pos. rewrite <- E. apply HA. Qed.
End Flux.
Lemma walk_product_expi X (f : X -> X -> RC) (A : X -> X -> R) chi (S : X -> X -> Prop) a l : (forall x y, S x y -> f x y = expi (PI * A x y + chi y - chi x)) -> walk S (a :: l) ->
  walk_product f (a :: l) = expi (PI * walk_sum A (a :: l) + chi (last l a) - chi a).
Proof.
  intros H. revert a. induction l as [|b l IH]; intros a Hw.
  - change (walk_product f [a]) with (r1 RC). rewrite <- expi_0. f_equal. cbn. lra.
  - destruct Hw as [H1 H2]. change (walk_product f (a :: b :: l)) with (rmul RC (f a b) (walk_product f (b :: l))). rewrite (H _ _ H1), (IH b H2), expi_add. f_equal.
    change (walk_sum A (a :: b :: l)) with (A a b + walk_sum A (b :: l)). assert (E : last (b :: l) a = last l b). { clear. revert b. induction l as [|c l IH]; intros b; [auto|]. change (last (c :: l) a = last (c :: l) b). clear IH. revert c. induction l as [|d l IH]; intros c; [auto|]. exact (IH d). }
    rewrite E. lra.
Qed.
Lemma closed_product (f : site -> site -> RC) A chi (S : site -> site -> Prop) w : (forall x y, S x y -> f x y = expi (PI * A x y + chi y - chi x)) -> walk S (closed w) ->
  walk_product f (closed w) = expi (PI * walk_sum A (closed w)).
Proof.
  intros H Hw. destruct w as [|a l]; [cbn; rewrite Rmult_0_r; symmetry; apply expi_0|]. unfold closed in *. change ((a :: l) ++ [a]) with (a :: (l ++ [a])) in *.
  rewrite (@walk_product_expi _ f A chi S a (l ++ [a]) H Hw). rewrite last_last. f_equal. lra.
Qed.

(** ** The graph of two unit cells *)
Section Ext.
Variable n : nat.
Variable uc : graph.
Hypothesis Huc : full uc.
Hypothesis Hlen : length uc = n.
Definition keys (h : list ((nat * nat) * option R)) := map fst h.
Definition good_hops (h : list ((nat * nat) * option R)) : Prop :=
  NoDup (keys h) /\ forall i j, In (i, j) (keys h) -> (i < n)%nat /\ (n <= j < 2 * n)%nat.
Lemma ext_length h : length (extended n uc h) = (2 * n)%nat.
Proof. unfold extended. rewrite map_length, seq_length. auto. Qed.
Lemma ext_row_nth h i : (i < 2 * n)%nat -> row (extended n uc h) i = ext_row n uc h i.
Proof. intros H. unfold row, extended. rewrite (nth_indep _ [] (ext_row n uc h O)) by (rewrite map_length, seq_length; auto). rewrite map_nth, seq_nth; auto. Qed.
Lemma uc_range i j o : In (j, o) (row uc i) -> (j < n)%nat /\ (i < n)%nat.
Proof.
  intros H. assert (E : In j (map fst (row uc i))) by (apply in_map_iff; exists (j, o); auto). split; [rewrite <- Hlen; apply (f_range Huc i); auto|]. rewrite <- Hlen. apply (f_range Huc j), (f_sym Huc), E.
Qed.
Lemma in_shift k r j o : In (j, o) (shift k r) <-> exists j', j = (j' + k)%nat /\ In (j', o) r.
Proof.
  unfold shift. rewrite in_map_iff. split; [intros ([j' o'] & [= <- <-] & H); eauto|intros (j' & -> & H); exists (j', o); auto].
Qed.
Lemma in_ext h i j o : good_hops h -> In (j, o) (row (extended n uc h) i) <->
  ((i < n)%nat /\ In (j, o) (row uc i)) \/ ((n <= i)%nat /\ (n <= j)%nat /\ In ((j - n)%nat, o) (row uc (i - n))) \/ In ((i, j), o) h \/ In ((j, i), o) h.
Proof.
  intros [Hn Hg]. destruct (Nat.lt_ge_cases i (2 * n)) as [Hi|Hi].
  - rewrite ext_row_nth by auto. unfold ext_row. rewrite !in_app_iff.
    assert (E1 : In (j, o) (map (fun h => (snd (fst h), snd h)) (filter (fun h => (fst (fst h) =? i)%nat) h)) <-> In ((i, j), o) h).
    { rewrite in_map_iff. split; [intros ([[a b] c] & [= <- <-] & H); apply filter_In in H; destruct H as [H E]; cbn in E; apply Nat.eqb_eq in E; subst; auto|]. intros H. exists ((i, j), o). split; [auto|]. apply filter_In. split; [auto|apply Nat.eqb_refl]. }
    assert (E2 : In (j, o) (map (fun h => (fst (fst h), snd h)) (filter (fun h => (snd (fst h) =? i)%nat) h)) <-> In ((j, i), o) h).
    { rewrite in_map_iff. split; [intros ([[a b] c] & [= <- <-] & H); apply filter_In in H; destruct H as [H E]; cbn in E; apply Nat.eqb_eq in E; subst; auto|]. intros H. exists ((j, i), o). split; [auto|]. apply filter_In. split; [auto|apply Nat.eqb_refl]. }
    rewrite E1, E2. destruct (Nat.ltb_spec i n) as [H|H].
    + split; [intros [H1|[H1|H1]]; auto|intros [[H1 H2]|[[H1 H2]|[H1|H1]]]; auto; lia].
    + rewrite in_shift. split.
      * intros [(j' & -> & H1)|[H1|H1]]; auto. right. left. split; [auto|]. split; [lia|]. replace (j' + n - n)%nat with j' by lia. auto.
      * intros [[H1 H2]|[(H1 & H2 & H3)|[H1|H1]]]; auto; [lia|]. left. exists (j - n)%nat. split; [lia|auto].
  - split.
    + unfold row. rewrite nth_overflow by (rewrite ext_length; auto). intros [].
    + intros [[H1 H2]|[(H1 & H2 & H3)|[H|H]]]; [lia|apply uc_range in H3; lia| |]; apply (in_map fst) in H; apply Hg in H; lia.
Qed.
Definition ext_edge (h : list ((nat * nat) * option R)) (i j : nat) : Prop :=
  ((i < n)%nat /\ edge uc i j) \/ ((n <= i)%nat /\ (n <= j)%nat /\ edge uc (i - n) (j - n)) \/ In (i, j) (keys h) \/ In (j, i) (keys h).
Lemma edge_in (g : graph) i j : edge g i j <-> exists o, In (j, o) (row g i).
Proof. unfold edge. rewrite in_map_iff. split; [intros ([j' o] & E & H); cbn in E; subst; eauto|intros [o H]; exists (j, o); auto]. Qed.
Lemma keys_in h (k : nat * nat) : In k (keys h) <-> exists o, In (k, o) h.
Proof. unfold keys. rewrite in_map_iff. split; [intros ([k' o] & E & H); cbn in E; subst; eauto|intros [o H]; exists (k, o); auto]. Qed.
Lemma edge_ext h i j : good_hops h -> edge (extended n uc h) i j <-> ext_edge h i j.
Proof.
  intros Hg. unfold ext_edge. rewrite !edge_in, !keys_in. split.
  - intros [o H]. apply in_ext in H; [|auto]. destruct H as [[H1 H2]|[(H1 & H2 & H3)|[H|H]]]; eauto 7.
  - intros [[H1 [o H2]]|[(H1 & H2 & [o H3])|[[o H]|[o H]]]]; exists o; apply in_ext; auto.
Qed.
Lemma links_ext h i j : good_hops h -> links (extended n uc h) i j <->
  ((i < n)%nat /\ edge uc i j) \/ ((n <= i)%nat /\ (n <= j)%nat /\ edge uc (i - n) (j - n)) \/ (exists w, In ((i, j), Some w) h) \/ (exists w, In ((j, i), Some w) h).
Proof.
  intros Hg. unfold links. rewrite !edge_in. split.
  - intros [o H]. apply in_ext in H; [|auto]. destruct H as [[H1 H2]|[(H1 & H2 & H3)|[H|H]]]; eauto 7.
  - intros [[H1 [o H2]]|[(H1 & H2 & [o H3])|[[o H]|[o H]]]]; [destruct (f_some Huc _ _ _ H2) as (w & -> & _)|destruct (f_some Huc _ _ _ H3) as (w & -> & _)| |]; eexists; apply in_ext; eauto.
Qed.
Lemma nodup_app (a b : list nat) : NoDup a -> NoDup b -> (forall x, In x a -> ~ In x b) -> NoDup (a ++ b).
Proof. induction a as [|x a IHa]; intros Ha Hb Hab; [auto|]. inversion Ha; subst. cbn. constructor; [rewrite in_app_iff; intros [H|H]; [auto|apply (Hab x); [left; auto|auto]]|apply IHa; auto; intros y Hy; apply Hab; right; auto]. Qed.
Lemma nodup_proj (A : Type) (p q : A -> nat) (h : list A) i : (forall x y, In x h -> In y h -> q x = i -> q y = i -> p x = p y -> x = y) -> NoDup h -> NoDup (map p (filter (fun x => (q x =? i)%nat) h)).
Proof.
  intros Hinj Hn. induction Hn as [|x h Hx Hn IH]; [constructor|]. cbn [filter]. assert (IH' : NoDup (map p (filter (fun x => (q x =? i)%nat) h))) by (apply IH; intros a b Ha Hb; apply Hinj; right; auto).
  destruct (Nat.eqb_spec (q x) i) as [E|E]; [|auto]. cbn [map]. constructor; [|auto]. intros H. apply in_map_iff in H. destruct H as (y & Ey & Hy). apply filter_In in Hy. destruct Hy as [Hy Hq]. apply Nat.eqb_eq in Hq.
  assert (x = y) by (apply Hinj; auto; [left; auto|right; auto]). subst. auto.
Qed.
Lemma ext_full h : good_hops h -> (forall k o, In (k, o) h -> exists w, o = Some w /\ 0 <= w) -> full (extended n uc h).
Proof.
  intros Hg Hs. pose proof Hg as [Hn Hb]. assert (Hnh : NoDup h) by (apply (NoDup_map_inv fst); auto).
  assert (Hinj : forall x y, In x h -> In y h -> fst x = fst y -> x = y).
  { intros x y Hx Hy E. unfold keys in Hn. clear - Hn Hx Hy E. induction h as [|a h IH]; [destruct Hx|]. cbn in Hn. inversion Hn as [|? ? Ha Hn']; subst. destruct Hx as [->|Hx], Hy as [->|Hy]; auto; exfalso; apply Ha; [rewrite E|rewrite <- E]; apply in_map; auto. }
  constructor.
  - intros i. destruct (Nat.lt_ge_cases i (2 * n)) as [Hi|Hi]; [|unfold row; rewrite nth_overflow by (rewrite ext_length; auto); constructor].
    rewrite ext_row_nth by auto. unfold ext_row. rewrite !map_app, !map_map.
    assert (N1 : NoDup (map (fun x : nat * nat * option R => fst (snd (fst x), snd x)) (filter (fun h => (fst (fst h) =? i)%nat) h))).
    { apply (nodup_proj (fun x => snd (fst x)) (fun x => fst (fst x))); auto. intros [[a b] c] [[a' b'] c'] Hx Hy; cbn; intros -> -> ->. apply Hinj; auto. }
    assert (N2 : NoDup (map (fun x : nat * nat * option R => fst (fst (fst x), snd x)) (filter (fun h => (snd (fst h) =? i)%nat) h))).
    { apply (nodup_proj (fun x => fst (fst x)) (fun x => snd (fst x))); auto. intros [[a b] c] [[a' b'] c'] Hx Hy; cbn; intros -> -> ->. apply Hinj; auto. }
    assert (I1 : forall x, In x (map (fun x : nat * nat * option R => fst (snd (fst x), snd x)) (filter (fun h => (fst (fst h) =? i)%nat) h)) -> (i < n)%nat /\ (n <= x)%nat).
    { intros x H. apply in_map_iff in H. destruct H as ([[a b] c] & <- & H). apply filter_In in H. destruct H as [H E]. cbn in *. apply Nat.eqb_eq in E. subst. apply (in_map fst) in H. apply Hb in H. lia. }
    assert (I2 : forall x, In x (map (fun x : nat * nat * option R => fst (fst (fst x), snd x)) (filter (fun h => (snd (fst h) =? i)%nat) h)) -> (n <= i)%nat /\ (x < n)%nat).
    { intros x H. apply in_map_iff in H. destruct H as ([[a b] c] & <- & H). apply filter_In in H. destruct H as [H E]. cbn in *. apply Nat.eqb_eq in E. subst. apply (in_map fst) in H. apply Hb in H. lia. }
    apply nodup_app; [|apply nodup_app; [auto|auto|intros x H1 H2; apply I1 in H1; apply I2 in H2; lia]|].
    + destruct (i <? n)%nat; [apply (f_nd Huc)|]. unfold shift. rewrite map_map. cbn [fst]. rewrite <- (map_map fst (fun k => (k + n)%nat)). apply FinFun.Injective_map_NoDup; [intros a b; lia|apply (f_nd Huc)].
    + intros x H1 H2. apply in_app_iff in H2. destruct (Nat.ltb_spec i n) as [H|H].
      * apply in_map_iff in H1. destruct H1 as ([j o] & <- & H1). apply uc_range in H1. cbn in H2. destruct H2 as [H2|H2]; [apply I1 in H2|apply I2 in H2]; lia.
      * apply in_map_iff in H1. destruct H1 as ([j o] & <- & H1). apply in_shift in H1. destruct H1 as (j' & -> & H1). cbn in H2. destruct H2 as [H2|H2]; [apply I1 in H2|apply I2 in H2]; lia.
  - intros i j o H. apply in_ext in H; [|auto]. destruct H as [[_ H]|[(_ & _ & H)|[H|H]]]; [apply (f_some Huc _ _ _ H)|apply (f_some Huc _ _ _ H)|apply (Hs _ _ H)|apply (Hs _ _ H)].
  - intros i j H. rewrite ext_length. apply (edge_ext i j Hg) in H. destruct H as [[H1 H2]|[(H1 & H2 & H3)|[H|H]]].
    + apply (f_range Huc) in H2. lia.
    + apply (f_range Huc) in H3. lia.
    + apply Hb in H. lia.
    + apply Hb in H. lia.
  - intros i j H. apply (edge_ext i j Hg) in H. apply (edge_ext j i Hg). destruct H as [[H1 H2]|[(H1 & H2 & H3)|[H|H]]]; unfold ext_edge; auto.
    + left. split; [pose proof (f_range Huc _ _ H2); lia|apply (f_sym Huc), H2].
    + right. left. split; [auto|]. split; [auto|]. apply (f_sym Huc), H3.
  - intros i H. apply (edge_ext i i Hg) in H. destruct H as [[H1 H2]|[(H1 & H2 & H3)|[H|H]]]; [apply (f_irr Huc _ H2)|apply (f_irr Huc _ H3)| |]; apply Hb in H; lia.
Qed.
Lemma ext_sub h h' : Forall2 (fun x y => fst x = fst y /\ (snd x = None \/ snd x = snd y)) h' h -> sub_of (extended n uc h') (extended n uc h).
Proof.
  intros Hh. unfold sub_of, extended. induction (seq 0 (2 * n)) as [|i l IH]; constructor; [|auto]. unfold sub_row, ext_row.
  apply Forall2_app; [|apply Forall2_app].
  - generalize (if (i <? n)%nat then row uc i else shift n (row uc (i - n))). induction l0 as [|x r IHr]; constructor; auto.
  - clear IH. induction Hh as [|[k o] [k' o'] a b [E1 E2] Hh IHh]; [constructor|]. cbn in E1, E2. subst k'. cbn [filter fst]. destruct (fst k =? i)%nat; [|auto]. cbn [map]. constructor; [split; auto|auto].
  - clear IH. induction Hh as [|[k o] [k' o'] a b [E1 E2] Hh IHh]; [constructor|]. cbn in E1, E2. subst k'. cbn [filter fst]. destruct (snd k =? i)%nat; [|auto]. cbn [map]. constructor; [split; auto|auto].
Qed.
End Ext.
