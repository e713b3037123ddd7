(** * Fluxes; sparse matrices. *)
From Coq Require Import Reals List Bool Arith Lia Lra Permutation.
From Verif Require Import StarRing DiscretizeReal DijkstraModel DijkstraSpec GaugeModel GaugeSpec.
Import ListNotations.
Set Implicit Arguments.
Local Open Scope R_scope.

(** ** Fluxes *)
Lemma last_cons (x y : nat) l d : last (x :: y :: l) d = last (y :: l) d. Proof. reflexivity. Qed.
Section Flux.
Variable dblquad : (R -> R -> R) -> R.
Variable f : field.
Variable tol : R.
Variable pos : nat -> vec.
Variable A : nat -> nat -> R.
Hypothesis HA : stokes dblquad f tol pos A.
Lemma A_diag i : A i i = 0.
Proof. pose proof (proj1 HA i i). lra. Qed.
Lemma triangles_sum o p l : triangles dblquad f false tol (pos o) (map pos (p :: l)) = sum_along A (p :: l) + A (last (p :: l) O) o + A o p.
Proof.
  revert p. induction l as [|q l IH]; intros p; [cbn; pose proof (proj1 HA p o); lra|].
  change (triangles dblquad f false tol (pos o) (map pos (p :: q :: l))) with (integrator dblquad f false tol (pos o) (vsub (pos p) (pos o)) (vsub (pos q) (pos o)) (cross (vsub (pos p) (pos o)) (vsub (pos q) (pos o))) + triangles dblquad f false tol (pos o) (map pos (q :: l))).
  rewrite (IH q). rewrite (proj2 HA). rewrite last_cons. change (sum_along A (p :: q :: l)) with (A p q + sum_along A (q :: l)). pose proof (proj1 HA q o). lra.
Qed.
Lemma surface_sum w : w <> [] -> surface_integral dblquad f false tol (map pos w) = sum_around A w.
Proof.
  destruct w as [|o [|p l]]; intros H; [congruence|unfold sum_around; cbn; rewrite A_diag; lra|].
  cbn [map surface_integral]. change (pos p :: map pos l) with (map pos (p :: l)). rewrite triangles_sum. unfold sum_around. rewrite last_cons. change (sum_along A (o :: p :: l)) with (A o p + sum_along A (p :: l)). cbn [hd]. lra.
Qed.
End Flux.
Lemma const_stokes dblquad b tol pos : dimensions b pos -> stokes dblquad (Const b) tol pos (fun i j => vdot b (cross (pos i) (pos j)) / 2).
Proof.
  intros [[Hb Hp]|[Hb Hp]]; split; intros i j; try intros k; pose proof (Hp i) as Pi; pose proof (Hp j) as Pj; try pose proof (Hp k) as Pk;
  destruct b as [|b1 [|b2 [|b3 [|]]]]; try discriminate Hb;
  destruct (pos i) as [|x1 [|y1 [|z1 [|]]]]; try discriminate Pi; destruct (pos j) as [|x2 [|y2 [|z2 [|]]]]; try discriminate Pj; try (destruct (pos k) as [|x3 [|y3 [|z3 [|]]]]; try discriminate Pk);
  unfold integrator, const_triangle; cbn; field.
Qed.
Lemma sum_along_lin f g c w : sum_along (fun i j => c * f i j + g i j) w = c * sum_along f w + sum_along g w.
Proof. induction w as [|i [|j w] IH]; cbn [sum_along] in *; [lra|lra|]. rewrite IH. lra. Qed.
Lemma sum_along_ext f g w : (forall i j, f i j = g i j) -> sum_along f w = sum_along g w.
Proof. intros H. induction w as [|i [|j w] IH]; cbn [sum_along] in *; [lra|lra|]. rewrite IH, H. lra. Qed.
Lemma constant_sum b pos w : dimensions b pos -> sum_around (fun i j => vdot b (cross (pos i) (pos j)) / 2) w = constant_flux b pos w.
Proof.
  intros H. unfold constant_flux, sum_around.
  set (c0 := fun i j => nth 0 (cross (pos i) (pos j)) 0). set (c1 := fun i j => nth 1 (cross (pos i) (pos j)) 0). set (c2 := fun i j => nth 2 (cross (pos i) (pos j)) 0).
  destruct H as [[Hb Hp]|[Hb Hp]]; destruct b as [|b1 [|b2 [|b3 [|]]]]; try discriminate Hb.
  - assert (E : forall i j, vdot [b1] (cross (pos i) (pos j)) / 2 = b1 / 2 * c0 i j + 0).
    { intros i j. unfold c0. pose proof (Hp i) as Pi. pose proof (Hp j) as Pj. destruct (pos i) as [|x1 [|y1 [|]]]; try discriminate Pi. destruct (pos j) as [|x2 [|y2 [|]]]; try discriminate Pj. cbn. field. }
    rewrite (sum_along_ext _ _ w E), E, (sum_along_lin c0 (fun _ _ => 0) (b1 / 2)). assert (Z : sum_along (fun _ _ => 0) w = 0) by (clear; induction w as [|i [|j w] IH]; cbn [sum_along] in *; lra). rewrite Z. cbn [vdot]. unfold c0. field.
  - assert (E : forall i j, vdot [b1; b2; b3] (cross (pos i) (pos j)) / 2 = b1 / 2 * c0 i j + (b2 / 2 * c1 i j + (b3 / 2 * c2 i j + 0))).
    { intros i j. unfold c0, c1, c2. pose proof (Hp i) as Pi. pose proof (Hp j) as Pj. destruct (pos i) as [|x1 [|y1 [|z1 [|]]]]; try discriminate Pi. destruct (pos j) as [|x2 [|y2 [|z2 [|]]]]; try discriminate Pj. cbn. field. }
    rewrite (sum_along_ext _ _ w E), E, (sum_along_lin c0 (fun i j => b2 / 2 * c1 i j + (b3 / 2 * c2 i j + 0)) (b1 / 2)), (sum_along_lin c1 (fun i j => b3 / 2 * c2 i j + 0) (b2 / 2)), (sum_along_lin c2 (fun _ _ => 0) (b3 / 2)).
    assert (Z : sum_along (fun _ _ => 0) w = 0) by (clear; induction w as [|i [|j w] IH]; cbn [sum_along] in *; lra). rewrite Z. cbn [vdot]. unfold c0, c1, c2. field.
Qed.

(** ** Sparse matrices *)
Definition links (a : graph) (i j : nat) : Prop := exists w, In (j, Some w) (row a i).
Definition sub_row (a b : list (nat * option R)) : Prop := Forall2 (fun x y => fst x = fst y /\ (snd x = None \/ snd x = snd y)) a b.
Definition sub_of (a g : graph) : Prop := Forall2 sub_row a g.
(** a complete graph matrix: no missing links *)
Record full (g : graph) : Prop := {
  f_nd : forall i, NoDup (map fst (row g i));
  f_some : forall i j o, In (j, o) (row g i) -> exists w, o = Some w /\ 0 <= w;
  f_range : forall i j, In j (map fst (row g i)) -> (j < length g)%nat;
  f_sym : forall i j, In j (map fst (row g i)) -> In i (map fst (row g j));
  f_irr : forall i, ~ In i (map fst (row g i)) }.
Definition edge (g : graph) (i j : nat) : Prop := In j (map fst (row g i)).

Lemma sub_length a g : sub_of a g -> length a = length g.
Proof. induction 1; cbn; auto. Qed.
Lemma sub_row_nth a g i : sub_of a g -> sub_row (row a i) (row g i).
Proof. intros H. revert i. unfold row. induction H as [|x y a g Hx H IH]; intros [|i]; cbn; auto; constructor. Qed.
Lemma sub_row_in a b j w : sub_row a b -> In (j, Some w) a -> In (j, Some w) b.
Proof.
  induction 1 as [|[k o] [k' o'] a b [H1 H2] H IH]; [intros []|]. cbn in *. intros [[= -> ->]|Hin]; [|right; auto]. left. subst. destruct H2; [discriminate|]. congruence.
Qed.
Lemma sub_links a g i j : sub_of a g -> links a i j -> edge g i j.
Proof. intros H [w Hw]. apply (@sub_row_in _ (row g i)) in Hw; [|apply sub_row_nth; auto]. unfold edge. apply in_map_iff. exists (j, Some w). auto. Qed.
Lemma sub_good a g : full g -> sub_of a g -> good_graph Rplus rltb a.
Proof.
  intros Hf Hs i j w Hin. pose proof (@sub_row_in _ _ j w (sub_row_nth i Hs) Hin) as Hg. split.
  - rewrite (sub_length Hs). apply (f_range Hf i). apply in_map_iff. exists (j, Some w). auto.
  - destruct (f_some Hf _ _ _ Hg) as (w' & [= <-] & H0). intros x. unfold wle, rltb. destruct (Rlt_dec _ _); [lra|auto].
Qed.
Lemma sub_refl g : sub_of g g.
Proof. induction g as [|r g IH]; constructor; [|auto]. induction r as [|x r IHr]; constructor; auto. Qed.
Lemma full_good g : full g -> good_graph Rplus rltb g.
Proof. intros H. apply (sub_good H (sub_refl g)). Qed.
Lemma full_links g i j : full g -> (links g i j <-> edge g i j).
Proof.
  intros Hf. split; [apply sub_links, sub_refl|]. unfold edge. rewrite in_map_iff. intros ([j' o] & E & Hin). cbn in E. subst. destruct (f_some Hf _ _ _ Hin) as (w & -> & _). exists w. auto.
Qed.

Lemma assign_row_ok a b col : sub_row a b -> NoDup (map fst b) -> (forall j o, In (j, o) b -> o <> None) -> In col (map fst b) ->
  exists a', assign_row a b col = Some a' /\ sub_row a' b /\ forall j, (exists w, In (j, Some w) a') <-> (exists w, In (j, Some w) a) \/ j = col.
Proof.
  induction 1 as [|[k o] [k' o'] a b [H1 H2] H IH]; intros Hn Hs Hin; [destruct Hin|]. cbn [fst snd] in *. subst k'. cbn [map fst] in *. inversion Hn as [|? ? Hk Hn']; subst.
  cbn [assign_row]. destruct (Nat.eqb_spec k col) as [->|N].
  - exists ((col, o') :: a). split; [auto|]. split; [constructor; auto|]. intros j. split.
    + intros [w [[= <- _]|Hw]]; [auto|left; exists w; right; auto].
    + intros [[w [[= <- _]|Hw]]|E].
      * destruct o' as [w'|]; [exists w'; left; auto|]. exfalso. apply (Hs col None); [left; auto|auto].
      * exists w. right. auto.
      * subst. destruct o' as [w'|]; [exists w'; left; auto|]. exfalso. apply (Hs col None); [left; auto|auto].
  - destruct Hin as [E|Hin]; [congruence|]. destruct (IH Hn' (fun j o H => Hs j o (or_intror H)) Hin) as (a' & E & S' & L). rewrite E. exists ((k, o) :: a'). split; [auto|]. split; [constructor; auto|].
    intros j. split.
    + intros [w [[= <- ->]|Hw]]; [left; exists w; left; auto|]. destruct (proj1 (L j) (ex_intro _ w Hw)) as [[w' Hw']|E']; [left; exists w'; right; auto|auto].
    + intros [[w [[= <- ->]|Hw]]|E'].
      * exists w. left. auto.
      * destruct (proj2 (L j) (or_introl (ex_intro _ w Hw))) as [w' Hw']. exists w'. right. auto.
      * destruct (proj2 (L j) (or_intror E')) as [w' Hw']. exists w'. right. auto.
Qed.
Lemma assign_csr_ok a g r c : full g -> sub_of a g -> edge g r c -> exists a', assign_csr a g r c = Some a' /\ sub_of a' g /\ forall i j, links a' i j <-> links a i j \/ (i = r /\ j = c).
Proof.
  intros Hf Hs He. pose proof (f_nd Hf r) as Hn. assert (Hss : forall j o, In (j, o) (row g r) -> o <> None) by (intros j o H; destruct (f_some Hf _ _ _ H) as (w & -> & _); discriminate).
  unfold edge in He. clear Hf. revert r Hn Hss He. induction Hs as [|ra rg a g Hr Hs IH]; intros r Hn Hss He; [destruct r; destruct He|]. destruct r as [|r]; cbn [assign_csr].
  - destruct (@assign_row_ok ra rg c Hr Hn Hss He) as (ra' & E & S' & L). rewrite E. exists (ra' :: a). split; [auto|]. split; [constructor; auto|].
    intros [|i] j; unfold links, row; cbn [nth]; [rewrite L; intuition|]. split; [auto|intros [H|[H _]]; [auto|discriminate]].
  - destruct (IH r Hn Hss He) as (a' & E & S' & L). rewrite E. exists (ra :: a'). split; [auto|]. split; [constructor; auto|].
    intros [|i] j; unfold links, row in *; cbn [nth]; [split; [auto|intros [H|[H _]]; [auto|discriminate]]|]. rewrite L. split; (intros [H|[H1 H2]]; [auto|right; split; lia]).
Qed.
Lemma assign_both_ok a g i j : full g -> sub_of a g -> edge g i j -> exists a', assign_both a g i j = Some a' /\ sub_of a' g /\
  forall x y, links a' x y <-> links a x y \/ (x = i /\ y = j) \/ (x = j /\ y = i).
Proof.
  intros Hf Hs He. destruct (assign_csr_ok i j Hf Hs He) as (a1 & E1 & S1 & L1). destruct (assign_csr_ok j i Hf S1 (f_sym Hf _ _ He)) as (a2 & E2 & S2 & L2).
  exists a2. unfold assign_both. rewrite E1. cbn [obind]. rewrite E2. split; [auto|]. split; [auto|]. intros x y. rewrite L2, L1. tauto.
Qed.
Lemma empty_ok g : sub_of (empty_tree g) g /\ forall i j, ~ links (empty_tree g) i j.
Proof.
  split.
  - unfold empty_tree, sub_of. induction g as [|r g IH]; constructor; [|auto]. induction r as [|x r IHr]; constructor; auto.
  - intros i j [w Hw]. unfold row, empty_tree in Hw. change (@nil (nat * option R)) with (map (fun e : nat * option R => (fst e, @None R)) []) in Hw. rewrite map_nth in Hw. apply in_map_iff in Hw. destruct Hw as (e & E & _). discriminate.
Qed.

(** ** The distance matrix *)
Lemma distance_row adj pos i : row (distance_matrix adj pos) i = map (fun j => (j, Some (distance (pos i) (pos j)))) (nth i adj []).
Proof.
  unfold row, distance_matrix. assert (H : forall k, nth i (map (fun ij => map (fun j => (j, Some (distance (pos (fst ij)) (pos j)))) (snd ij)) (combine (seq k (length adj)) adj)) [] = map (fun j => (j, Some (distance (pos (k + i)%nat) (pos j)))) (nth i adj [])); [|apply (H O)].
  revert i. induction adj as [|r adj IH]; intros [|i] k; cbn; auto; [rewrite Nat.add_0_r; auto|]. rewrite IH. replace (S k + i)%nat with (k + S i)%nat by lia. auto.
Qed.
Lemma distance_length adj pos : length (distance_matrix adj pos) = length adj.
Proof. unfold distance_matrix. rewrite map_length, combine_length, seq_length. lia. Qed.
Lemma distance_edge adj pos i j : edge (distance_matrix adj pos) i j <-> linked adj i j.
Proof. unfold edge, linked. rewrite distance_row, map_map, map_id. reflexivity. Qed.
Lemma distance_full adj pos : system_graph adj -> full (distance_matrix adj pos).
Proof.
  intros (H1 & H2 & H3). constructor.
  - intros i. rewrite distance_row, map_map, map_id. auto.
  - intros i j o. rewrite distance_row, in_map_iff. intros (j' & [= <- <-] & _). eexists. split; [reflexivity|apply sqrt_pos].
  - intros i j H. apply distance_edge in H. rewrite distance_length. apply (H2 i j H).
  - intros i j H. apply distance_edge in H. apply distance_edge. apply (H2 i j H).
  - intros i H. apply distance_edge in H. apply (H3 i H).
Qed.
Lemma rweights : ordered_weights Rplus rltb.
Proof.
  constructor; unfold wle, rltb; intros; repeat (destruct (Rlt_dec _ _)); auto; try discriminate; try lra.
Qed.
