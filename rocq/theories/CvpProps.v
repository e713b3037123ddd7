(** * C36: closest lattice vectors and Voronoi cells. *)
From Coq Require Import List Bool Arith ZArith Reals Lia Lra Psatz Sorting.Permutation Sorting.Sorted.
From Verif Require Import KpmReal KpmRealProofs CvpModel CvpSpec CvpProofs CvpMain CvpVoronoi CvpVoronoi2.
Import ListNotations.
Open Scope R_scope.

(** What is assumed: at least one basis vector, linearly independent basis
    vectors (the Gram matrix has the inverse [inv]), and exact library calls. *)
Definition libraries_ok m d b lstsq inv round argsort : Prop :=
  (0 < m)%nat /\ lstsq_ok m d b lstsq /\ inv_ok m d b inv /\ round_ok round /\ argsort_ok argsort.

(** cvp(vec, basis, n): n different lattice points in the order of their
    distance from vec, and no other lattice point is closer than any of them. *)
Theorem C36_closest m d b lstsq inv round argsort fuel vec n rtol ps :
  libraries_ok m d b lstsq inv round argsort -> cvp m d b lstsq inv round argsort fuel vec n false rtol = CDone ps ->
  length ps = n /\ NoDup ps /\ Forall (lattice_point m) ps
  /\ StronglySorted (fun p q => dist d (vector b p) vec <= dist d (vector b q) vec) ps
  /\ forall p q, In p ps -> lattice_point m q -> ~ In q ps -> dist d (vector b p) vec <= dist d (vector b q) vec.
Proof. intros (H1 & H2 & H3 & H4 & H5). apply main_closest; auto. Qed.

(** The search ends, for every target and every n >= 1. *)
Theorem C36_terminates m d b lstsq inv round argsort vec n rtol :
  libraries_ok m d b lstsq inv round argsort -> (0 < n)%nat ->
  exists F, forall fuel, (F <= fuel)%nat -> exists ps, cvp m d b lstsq inv round argsort fuel vec n false rtol = CDone ps.
Proof. intros (H1 & H2 & H3 & H4 & H5). apply main_terminates; auto. Qed.
(** For n = 0 it never does (instead of returning no points). *)
Theorem C36_zero_refuted m d b lstsq inv round argsort fuel vec rtol :
  libraries_ok m d b lstsq inv round argsort -> cvp m d b lstsq inv round argsort fuel vec 0 false rtol = CFuel.
Proof. intros (H1 & H2 & H3 & H4 & H5). apply main_zero; auto. Qed.

(** group_by_length=True: distances from the projection v of vec onto the
    span of the basis.  The points come in n groups of almost equal distance,
    and every lattice point that is not returned is farther than each of them
    by more than the tolerance. *)
Theorem C36_grouped m d b lstsq inv round argsort fuel vec n rtol ps :
  let v := fun k => Rsum m (fun i => lstsq vec i * b i k) in
  let tol := rtol * rad m d b inv in
  libraries_ok m d b lstsq inv round argsort -> (0 < n)%nat -> cvp m d b lstsq inv round argsort fuel vec n true rtol = CDone ps ->
  NoDup ps /\ Forall (lattice_point m) ps /\ ps <> []
  /\ StronglySorted (fun p q => dist d (vector b p) v <= dist d (vector b q) v) ps
  /\ gaps tol (map (fun p => dist d (vector b p) v) ps) = (n - 1)%nat
  /\ forall p q, In p ps -> lattice_point m q -> ~ In q ps -> dist d (vector b p) v + tol < dist d (vector b q) v.
Proof. intros v tol (H1 & H2 & H3 & H4 & H5). apply main_grouped; auto. Qed.

(** voronoi(basis): 2 (2^D - 1) different vectors, the second half the
    negatives of the first, whose half-spaces intersect exactly in the Voronoi
    cell of the origin. *)
Theorem C36_voronoi m d b lstsq inv round argsort fuel rtol vs :
  libraries_ok m d b lstsq inv round argsort -> voronoi m d b lstsq inv round argsort fuel false rtol = Some vs ->
  (exists h, vs = h ++ map (map Z.opp) h /\ length h = (2 ^ m - 1)%nat) /\ NoDup vs /\ Forall (lattice_point m) vs
  /\ forall y, in_cell m d b y <-> forall p, In p vs -> on_side d b y p.
Proof. intros (H1 & H2 & H3 & H4 & H5). apply (main_voronoi m d b lstsq inv round argsort); auto. Qed.
(** voronoi(basis, reduced=True): a minimal set of such vectors: with rtol = 0
    the intersection is still the cell, and for every rtol >= 0 dropping any
    vector enlarges the intersection. *)
Theorem C36_voronoi_reduced m d b lstsq inv round argsort fuel rtol vs :
  libraries_ok m d b lstsq inv round argsort -> voronoi m d b lstsq inv round argsort fuel true rtol = Some vs ->
  (exists h, vs = h ++ map (map Z.opp) h) /\ NoDup vs /\ Forall (lattice_point m) vs
  /\ (rtol = 0 -> forall y, in_cell m d b y <-> forall p, In p vs -> on_side d b y p)
  /\ (0 <= rtol -> forall p, In p vs -> exists y, ~ on_side d b y p /\ forall q, In q vs -> q <> p -> on_side d b y q).
Proof. intros (H1 & H2 & H3 & H4 & H5). apply (main_reduced m d b lstsq inv round argsort); auto. Qed.
Theorem C36_voronoi_terminates m d b lstsq inv round argsort reduced rtol :
  libraries_ok m d b lstsq inv round argsort ->
  exists F, forall fuel, (F <= fuel)%nat -> exists vs, voronoi m d b lstsq inv round argsort fuel reduced rtol = Some vs.
Proof. intros (H1 & H2 & H3 & H4 & H5). apply main_voronoi_terminates; auto. Qed.

(** ** The hypotheses can be met: the lattice of (2, 0) and (1, 2) *)
Definition ex_b (i k : nat) : R := match i, k with O, O => 2 | O, _ => 0 | _, O => 1 | _, _ => 2 end.
Definition ex_inv (_ : nat -> nat -> R) (i j : nat) : R := match i, j with O, O => 5 / 16 | S _, S _ => 1 / 4 | _, _ => - (1 / 8) end.
Definition ex_lstsq (v : nat -> R) (i : nat) : R := match i with O => (2 * v 0%nat - v 1%nat) / 4 | _ => v 1%nat / 2 end.
Definition ex_round (x : R) : Z := up (x - 1 / 2).
Fixpoint insert (key : point -> R) (p : point) (l : list point) : list point :=
  match l with [] => [p] | q :: t => if Rle_dec (key p) (key q) then p :: l else q :: insert key p t end.
Definition ex_sort (key : point -> R) (l : list point) : list point := fold_right (insert key) [] l.
Lemma insert_perm key p l : Permutation (insert key p l) (p :: l).
Proof. induction l as [|q l IH]; cbn; auto. destruct (Rle_dec _ _); auto. rewrite IH. constructor. Qed.
Lemma insert_sorted key p l : StronglySorted (fun p q => key p <= key q) l -> StronglySorted (fun p q => key p <= key q) (insert key p l).
Proof.
  induction 1 as [|q l H1 IH H2]; cbn; [repeat constructor|]. destruct (Rle_dec (key p) (key q)) as [L|N].
  - constructor; [constructor; auto|]. constructor; auto. eapply Forall_impl; [|exact H2]. cbv beta. intros. lra.
  - constructor; auto. eapply Permutation_Forall; [apply Permutation_sym, insert_perm|]. constructor; auto. lra.
Qed.
Lemma ex_ok : libraries_ok 2 2 ex_b ex_lstsq ex_inv ex_round ex_sort.
Proof.
  split; [lia|]. split; [|split; [|split]].
  - intros vec i Hi. destruct i as [|[|i]]; [| |lia]; unfold dot; cbn; field.
  - intros i j Hi Hj. destruct i as [|[|i]], j as [|[|j]]; try lia; unfold dot; cbn; field.
  - intros x. unfold ex_round. destruct (archimed (x - 1 / 2)) as [A B]. apply Rabs_le. lra.
  - intros key l. unfold ex_sort. induction l as [|p l [IH1 IH2]]; cbn; [split; constructor|]. split; [rewrite insert_perm; auto|apply insert_sorted; auto].
Qed.
(** the point closest to (2.1, 0) is the first basis vector *)
Example C36_example : exists fuel, cvp 2 2 ex_b ex_lstsq ex_inv ex_round ex_sort fuel (fun k => match k with O => 21 / 10 | _ => 0 end) 1 false 0 = CDone [[1; 0]%Z].
Proof.
  set (vec := fun k : nat => match k with O => 21 / 10 | _ => 0 end).
  destruct (C36_terminates 2 2 ex_b ex_lstsq ex_inv ex_round ex_sort vec 1 0 ex_ok ltac:(lia)) as (F & H). destruct (H F (le_n F)) as (ps & E). exists F. rewrite E.
  destruct (C36_closest 2 2 ex_b ex_lstsq ex_inv ex_round ex_sort F vec 1 0 ps ex_ok E) as (L & _ & Fa & _ & Cl).
  destruct ps as [|p [|? ?]]; try discriminate. inversion Fa as [|? ? Lp _]; subst. unfold lattice_point in Lp.
  destruct (list_eq_dec Z.eq_dec [1; 0]%Z p) as [<-|N]; auto. exfalso.
  specialize (Cl p [1; 0]%Z ltac:(cbn; auto) eq_refl). assert (Cl2 := Cl ltac:(cbn; intros [Hp|[]]; congruence)). clear Cl.
  destruct p as [|a0 [|b0 [|? ?]]]; try discriminate. unfold dist in Cl2. apply sqrt_le_0 in Cl2; [|apply dot_pos|apply dot_pos].
  unfold dot, vector, vec in Cl2. cbn in Cl2.
  assert (B0 : b0 = 0%Z).
  { destruct (Z.eq_dec b0 0) as [|Nb]; auto. exfalso. assert (Hb : 1 <= IZR b0 * IZR b0) by (rewrite <- mult_IZR; apply IZR_le; nia).
    assert (0 <= (0 + IZR a0 * 2 + IZR b0 * 1 - 21 / 10) * (0 + IZR a0 * 2 + IZR b0 * 1 - 21 / 10)) by apply Rle_0_sqr. nra. }
  subst b0. assert (A0 : a0 = 1%Z); [|subst; auto].
  assert (Q : (2 * IZR a0 - 21 / 10) * (2 * IZR a0 - 21 / 10) <= 1 / 100) by nra.
  assert (2 * IZR a0 <= 22 / 10) by nra. assert (2 <= 2 * IZR a0) by nra.
  assert (1 <= a0)%Z by (apply le_IZR; lra). assert (a0 < 2)%Z by (apply lt_IZR; lra). lia.
Qed.
(** its Voronoi neighbours can be computed, and the cell excludes (1.1, 0) *)
Example C36_voronoi_example : exists fuel vs, voronoi 2 2 ex_b ex_lstsq ex_inv ex_round ex_sort fuel true 0 = Some vs
  /\ vs <> [] /\ exists p, In p vs /\ ~ on_side 2 ex_b (fun k => match k with O => 11 / 10 | _ => 0 end) p.
Proof.
  destruct (C36_voronoi_terminates 2 2 ex_b ex_lstsq ex_inv ex_round ex_sort true 0 ex_ok) as (F & H). destruct (H F (le_n F)) as (vs & E). exists F, vs. split; auto.
  destruct (C36_voronoi_reduced 2 2 ex_b ex_lstsq ex_inv ex_round ex_sort F 0 vs ex_ok E) as (_ & _ & _ & Ce & _). specialize (Ce eq_refl).
  set (y := fun k : nat => match k with O => 11 / 10 | _ => 0 end).
  assert (Nc : ~ in_cell 2 2 ex_b y).
  { intros Hc. specialize (Hc [1; 0]%Z eq_refl). unfold dist in Hc. apply sqrt_le_0 in Hc; [|apply dot_pos|apply dot_pos]. unfold dot, vector, y in Hc. cbn in Hc. lra. }
  assert (Ex : exists p, In p vs /\ ~ on_side 2 ex_b y p).
  { destruct (Exists_dec (fun p => ~ on_side 2 ex_b y p) vs) as [Hx|Hn].
    - intros p. unfold on_side. destruct (Rle_dec (dist 2 y (fun _ => 0)) (dist 2 y (vector ex_b p))); [right; auto|left; auto].
    - apply Exists_exists in Hx. exact Hx.
    - exfalso. apply Nc. apply Ce. intros p Hp. destruct (Rle_dec (dist 2 y (fun _ => 0)) (dist 2 y (vector ex_b p))); auto. exfalso. apply Hn. apply Exists_exists. exists p. auto. }
  split; auto. intros ->. destruct Ex as (p & [] & _).
Qed.
Print Assumptions C36_voronoi_reduced.
