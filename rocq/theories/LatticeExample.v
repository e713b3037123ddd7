(** * C55: libraries as assumed exist for two vectors in the plane, and the
    directions of the flood fill are wrong for a skewed basis. *)
From Coq Require Import List Bool Arith ZArith Reals Lia Lra Psatz Sorting.Permutation Sorting.Sorted.
From Verif Require Import KpmReal KpmRealProofs CvpModel CvpSpec CvpProofs CvpVoronoi CvpVoronoi2 CvpProps LllModel LllSpec LllProofs LllProps LatticeModel LatticeSpec LatticeProofs LatticeProps.
Import ListNotations.
Open Scope R_scope.

Notation gram b := (fun i j => dot 2 (b i) (b j)).
Definition inv2 (G : nat -> nat -> R) (i j : nat) : R :=
  let det := G 0%nat 0%nat * G 1%nat 1%nat - G 0%nat 1%nat * G 1%nat 0%nat in
  match i, j with O, O => G 1%nat 1%nat / det | O, _ => - G 0%nat 1%nat / det | _, O => - G 1%nat 0%nat / det | _, _ => G 0%nat 0%nat / det end.
Definition lstsq2 (b : nat -> nat -> R) (v : nat -> R) (i : nat) : R := Rsum 2 (fun j => inv2 (gram b) i j * dot 2 (b j) v).
Definition det2 (b : nat -> nat -> R) : R := b 0%nat 0%nat * b 1%nat 1%nat - b 0%nat 1%nat * b 1%nat 0%nat.
Definition lstsq_mat2 (b v : nat -> nat -> R) (l i : nat) : R :=
  if Req_EM_T (det2 b) 0 then
    if Req_EM_T (dot 2 (b 0%nat) (b 0%nat)) 0 then
      match l with O => 0 | _ => if Req_EM_T (dot 2 (b 1%nat) (b 1%nat)) 0 then 0 else dot 2 (b 1%nat) (v i) / dot 2 (b 1%nat) (b 1%nat) end
    else match l with O => dot 2 (b 0%nat) (v i) / dot 2 (b 0%nat) (b 0%nat) | _ => 0 end
  else lstsq2 b (v i) l.

Lemma det_gram b : dot 2 (b 0%nat) (b 0%nat) * dot 2 (b 1%nat) (b 1%nat) - dot 2 (b 0%nat) (b 1%nat) * dot 2 (b 1%nat) (b 0%nat) = det2 b * det2 b.
Proof. unfold dot, det2. cbn. ring. Qed.
Lemma indep_det b : independent 2 2 b -> det2 b <> 0.
Proof.
  intros H E. unfold det2 in E.
  assert (A : forall x0 x1, x0 * b 0%nat 0%nat + x1 * b 1%nat 0%nat = 0 -> x0 * b 0%nat 1%nat + x1 * b 1%nat 1%nat = 0 -> x0 = 0 /\ x1 = 0).
  { intros x0 x1 E0 E1. pose proof (H (fun i => match i with O => x0 | _ => x1 end)) as X. cbn in X.
    assert (Y : forall k, (k < 2)%nat -> 0 + x0 * b 0%nat k + x1 * b 1%nat k = 0) by (intros [|[|k]] Hk; [lra|lra|lia]).
    split; [apply (X Y 0%nat); lia|apply (X Y 1%nat); lia]. }
  destruct (A (b 1%nat 1%nat) (- b 0%nat 1%nat)) as [A1 A2]; [lra|lra|].
  destruct (A (b 1%nat 0%nat) (- b 0%nat 0%nat)) as [A3 A4]; [lra|lra|].
  destruct (A 1 0) as [A5 _]; lra.
Qed.
Lemma lstsq2_ok b v i : det2 b <> 0 -> (i < 2)%nat -> dot 2 (b i) (fun k => v k - Rsum 2 (fun j => lstsq2 b v j * b j k)) = 0.
Proof.
  intros Hd Hi. assert (Hg : dot 2 (b 0%nat) (b 0%nat) * dot 2 (b 1%nat) (b 1%nat) - dot 2 (b 0%nat) (b 1%nat) * dot 2 (b 1%nat) (b 0%nat) <> 0) by (rewrite det_gram; nra).
  assert (Ei : forall c, dot 2 (b i) (fun k => v k - Rsum 2 (fun j => c j * b j k)) = dot 2 (b i) v - (c 0%nat * dot 2 (b i) (b 0%nat) + c 1%nat * dot 2 (b i) (b 1%nat))).
  { intros c. rewrite dot_minus_r, dot_sum_r. cbn [Rsum]. ring. }
  rewrite Ei. unfold lstsq2, inv2. cbn [Rsum]. set (g00 := dot 2 (b 0%nat) (b 0%nat)) in *. set (g01 := dot 2 (b 0%nat) (b 1%nat)) in *. set (g10 := dot 2 (b 1%nat) (b 0%nat)) in *. set (g11 := dot 2 (b 1%nat) (b 1%nat)) in *.
  set (w0 := dot 2 (b 0%nat) v). set (w1 := dot 2 (b 1%nat) v). assert (Sy : g10 = g01) by apply dot_comm.
  destruct i as [|[|i]]; [| |lia]; fold g00 g01 g10 g11 w0 w1; rewrite Sy in *; field; auto.
Qed.
Lemma libs2_ok : good_libraries 2 2 ex_round lstsq_mat2 lstsq2 inv2 ex_sort.
Proof.
  destruct ex_ok as (_ & _ & _ & Hr & Hs). split; [|split; [exact Hr|split; [exact Hs|]]].
  - intros b v i j Hi Hj. unfold lstsq_mat2. destruct (Req_EM_T (det2 b) 0) as [E|E]; [|apply lstsq2_ok; auto].
    destruct (Req_EM_T (dot 2 (b 0%nat) (b 0%nat)) 0) as [E0|E0].
    + pose proof (dot_zero 2 _ E0) as Z. pose proof (Z 0%nat ltac:(lia)) as Z0. pose proof (Z 1%nat ltac:(lia)) as Z1.
      destruct (Req_EM_T (dot 2 (b 1%nat) (b 1%nat)) 0) as [E1|E1].
      * pose proof (dot_zero 2 _ E1) as Y. pose proof (Y 0%nat ltac:(lia)) as Y0. pose proof (Y 1%nat ltac:(lia)) as Y1.
        destruct j as [|[|j]]; [| |lia]; unfold dot; cbn; rewrite ?Z0, ?Z1, ?Y0, ?Y1; ring.
      * destruct j as [|[|j]]; [| |lia]; unfold dot in *; cbn in *; rewrite ?Z0, ?Z1; [ring|]. field. intros X. apply E1. lra.
    + unfold det2 in E. destruct j as [|[|j]]; [| |lia]; unfold dot in *; cbn in *; [field; intros X; apply E0; lra|].
      set (a := b 0%nat 0%nat) in *. set (c := b 0%nat 1%nat) in *. set (e := b 1%nat 0%nat) in *. set (f := b 1%nat 1%nat) in *. set (x := v i 0%nat). set (y := v i 1%nat).
      assert (Ne : a * a + c * c <> 0) by (intros X; apply E0; lra).
      assert (Ee : (e * x + f * y) * (a * a + c * c) - (a * x + c * y) * (a * e + c * f) = 0) by (replace (_ - _) with ((a * f - c * e) * (a * y - c * x)) by ring; rewrite E; ring).
      apply Rmult_eq_reg_r with (a * a + c * c); auto. transitivity 0; [|ring]. etransitivity; [|exact Ee]. field. auto.
  - intros b Ib. pose proof (indep_det b Ib) as Hd. split; [intros v i Hi; apply lstsq2_ok; auto|].
    assert (Hg : dot 2 (b 0%nat) (b 0%nat) * dot 2 (b 1%nat) (b 1%nat) - dot 2 (b 0%nat) (b 1%nat) * dot 2 (b 1%nat) (b 0%nat) <> 0) by (rewrite det_gram; nra).
    intros i j Hi Hj. unfold inv2. set (g00 := dot 2 (b 0%nat) (b 0%nat)) in *. set (g01 := dot 2 (b 0%nat) (b 1%nat)) in *. set (g10 := dot 2 (b 1%nat) (b 0%nat)) in *. set (g11 := dot 2 (b 1%nat) (b 1%nat)) in *.
    assert (Sy : g10 = g01) by apply dot_comm. destruct i as [|[|i]], j as [|[|j]]; try lia; cbn [Rsum Nat.eqb]; fold g00 g01 g10 g11; rewrite Sy in *; field; auto.
Qed.

(** The lattice with primitive vectors (1, 0) and (3, 1). *)
Definition skew : nat -> nat -> R := @rows realA [[1; 0]; [3; 1]]%Z.
Lemma skew_indep : independent 2 2 skew.
Proof.
  intros x H. pose proof (H 0%nat ltac:(lia)) as H0. pose proof (H 1%nat ltac:(lia)) as H1. cbn in H0, H1. intros [|[|i]] Hi; [lra|lra|lia].
Qed.
Notation red := (reduced 2 2 skew ex_round lstsq_mat2).
Lemma round3 x : x = 3 -> ex_round x = 3%Z.
Proof. intros ->. apply round_int. apply ex_ok. Qed.
Lemma skew_loop : exists st, loop realA 2 2 (gs_coefficient realA 2) ex_round 5 (134 / 100) 0 (initialize realA 2 2 (gs_coefficient realA 2) ex_round skew) = Some st
  /\ forall i k, (i < 2)%nat -> (k < 2)%nat -> vecs realA st i k = if (i =? k)%nat then 1 else 0.
Proof.
  set (st := initialize realA 2 2 (gs_coefficient realA 2) ex_round skew).
  assert (V : vecs realA st 0%nat 0%nat = 1 /\ vecs realA st 0%nat 1%nat = 0 /\ vecs realA st 1%nat 0%nat = 0 /\ vecs realA st 1%nat 1%nat = 1
    /\ star realA st 0%nat 0%nat = 1 /\ star realA st 0%nat 1%nat = 0 /\ star realA st 1%nat 0%nat = 0 /\ star realA st 1%nat 1%nat = 1).
  { unfold st, initialize, orthogonalize, ll_reduce. cbn. unfold gs_coefficient. cbn. rewrite round3 by field. repeat split; try reflexivity; try field; cbn; lra. }
  destruct V as (V1 & V2 & V3 & V4 & V5 & V6 & V7 & V8).
  clearbody st. exists st. split.
  - cbn [loop Nat.sub Nat.ltb Nat.leb]. replace (in_order realA 2 (134 / 100) 0 st) with true; [reflexivity|].
    symmetry. apply fltb_iff. rewrite !fdot_dot. unfold dot. cbn [Rsum]. revert V5 V6 V7 V8. cbn. intros V5 V6 V7 V8. rewrite V5, V6, V7, V8. lra.
  - intros [|[|i]] [|[|k]] Hi Hk; try lia; cbn; auto.
Qed.

Lemma skew_reduced : exists v t, red 5 = Some (v, t) /\ (forall i k, (i < 2)%nat -> (k < 2)%nat -> v i k = if (i =? k)%nat then 1 else 0)
  /\ t 0%nat 0%nat = 1%Z /\ t 0%nat 1%nat = (-3)%Z /\ t 1%nat 0%nat = 0%Z /\ t 1%nat 1%nat = 1%Z.
Proof.
  destruct skew_loop as (st & E & V). destruct libs2_ok as (L1 & L2 & L3 & L4).
  destruct (C35_no_failure 2 2 ex_round lstsq_mat2 5 skew (134 / 100) L2 L1 skew_indep (le_n 2)) as [(v & t & X)|X].
  - exists v, t. split; [unfold reduced; rewrite X; reflexivity|].
    destruct (C35_transformation 2 2 _ _ _ _ _ _ _ _ L2 L1 skew_indep X) as [_ T].
    assert (Ev : v = vecs realA st). { unfold lll in X. cbn [Nat.ltb Nat.leb] in X. rewrite E in X. cbv zeta in X. destruct (negb _); [discriminate|]. destruct (negb _); [discriminate|]. congruence. }
    rewrite <- Ev in V. split; [exact V|].
    pose proof (T 0%nat 0%nat ltac:(lia) ltac:(lia)) as T00. pose proof (T 0%nat 1%nat ltac:(lia) ltac:(lia)) as T01. pose proof (T 1%nat 0%nat ltac:(lia) ltac:(lia)) as T10. pose proof (T 1%nat 1%nat ltac:(lia) ltac:(lia)) as T11.
    rewrite !V in T00, T01, T10, T11 by lia. cbn in T00, T01, T10, T11. repeat split; apply eq_IZR; lra.
  - exfalso. unfold lll in X. cbn [Nat.ltb Nat.leb] in X. rewrite E in X. cbv zeta in X. destruct (negb _); [discriminate|]. destruct (negb _); discriminate.
Qed.

Lemma skew_deltas : exists lfuel cfuel ds, voronoi_tags 2 2 skew ex_round lstsq_mat2 lstsq2 inv2 ex_sort lfuel cfuel = Some ds
  /\ forall p, In p ds -> exists a b, p = [a; -3 * a + b]%Z /\ (a <> 0 \/ b <> 0)%Z /\ (a * a + b * b <= 2)%Z.
Proof.
  destruct skew_reduced as (v & t & R & V & T00 & T01 & T10 & T11).
  destruct (reduced_ok 2 2 skew ex_round lstsq_mat2 lstsq2 inv2 ex_sort ltac:(lia) libs2_ok skew_indep _ _ _ R) as (_ & _ & _ & Lv).
  destruct (C36_voronoi_terminates 2 2 v (lstsq2 v) inv2 ex_round ex_sort false (1 / 10 ^ 9) Lv) as (F & HF). destruct (HF F (le_n F)) as (vs & E).
  exists 5%nat, F, (map (dot_transf 2 t) vs). split; [unfold voronoi_tags; rewrite R, E; reflexivity|].
  (* the vectors of the reduced lattice *)
  assert (B : forall p, In p vs -> exists a b, p = [a; b] /\ (a <> 0 \/ b <> 0)%Z /\ (a * a + b * b <= 2)%Z).
  { destruct Lv as (Hm & Hl & Hinv & Hr & Hs). unfold voronoi in E. destruct (vertices_of _ _ _ _ _ _ _ _ _) as [h|] eqn:Eh; [|discriminate]. injection E as <-.
    pose proof (halves_of 2 2 v (lstsq2 v) inv2 ex_round ex_sort Hl Hinv Hr Hs Hm F h Eh) as Hh.
    assert (C : forall p, In p h -> exists a b, p = [a; b] /\ (a <> 0 \/ b <> 0)%Z /\ (a * a + b * b <= 2)%Z).
    { unfold halves_ok in Hh. cbn [bits tl flat_map map app] in Hh. 
      assert (One : forall z w p, In [z; w] [[0; 1]; [1; 0]; [1; 1]]%Z -> shortest 2 2 v [z; w] p -> exists a b, p = [a; b] /\ (a <> 0 \/ b <> 0)%Z /\ (a * a + b * b <= 2)%Z).
      { intros z w p Hzw (Lp & Od & Sh). destruct p as [|a [|b [|? ?]]]; try discriminate. exists a, b. split; auto.
        pose proof (Od 0%nat ltac:(lia)) as O0. pose proof (Od 1%nat ltac:(lia)) as O1. unfold cf in O0, O1. cbn [nth] in O0, O1.
        specialize (Sh (fun i => nth i [z; w] 0%Z) ltac:(intros; reflexivity)). unfold sq, lv, dot, cf, comb in Sh. cbn [Rsum nth length] in Sh.
        rewrite !V in Sh by lia. cbn [Nat.eqb] in Sh.
        assert (Q : (a * a + b * b <= z * z + w * w)%Z) by (apply le_IZR; rewrite !plus_IZR, !mult_IZR; lra).
        assert (Z : (z = 0 \/ z = 1)%Z /\ (w = 0 \/ w = 1)%Z) by (cbn in Hzw; repeat destruct Hzw as [Hzw|Hzw]; try (injection Hzw as <- <-; lia); contradiction).
        split; [|nia]. cbn in Hzw. destruct Hzw as [Hzw|[Hzw|[Hzw|[]]]]; injection Hzw as <- <-; [right|left|left]; intros ->; discriminate. }
      intros p Hp. inversion Hh as [|t0 p0 ts0 hs0 S0 Hh0]; subst. inversion Hh0 as [|t1 p1 ts1 hs1 S1 Hh1]; subst. inversion Hh1 as [|t2 p2 ts2 hs2 S2 Hh2]; subst. inversion Hh2; subst.
      cbn in Hp. destruct Hp as [<-|[<-|[<-|[]]]]; eapply One; [|exact S0| |exact S1| |exact S2]; cbn; auto. }
    intros p Hp. apply in_app_iff in Hp. destruct Hp as [Hp|Hp]; [destruct (C p Hp) as (a & b & -> & N0 & N1); exists a, b; auto|].
    apply in_map_iff in Hp. destruct Hp as (q & <- & Hq). destruct (C q Hq) as (a & b & -> & N0 & N1). exists (- a)%Z, (- b)%Z. split; [reflexivity|]. split; [destruct N0; [left|right]; lia|]. lia. }
  assert (T : forall a b, dot_transf 2 t [a; b] = [a; -3 * a + b]%Z).
  { intros a b. unfold dot_transf. cbn [seq map nth Zsum]. rewrite T00, T01, T10, T11. f_equal; [lia|]. f_equal. lia. }
  intros p Hp. apply in_map_iff in Hp. destruct Hp as (q & <- & Hq). destruct (B q Hq) as (a & b & -> & N0 & N1). rewrite T. eauto.
Qed.

(** The half-spaces of the directions used for filling shapes do not enclose
    the Voronoi cell: (0.7, 0) is in all of them, but closer to the site
    (1, 0) than to the origin.  The direction (1, 0) is missing. *)
Example C55_deltas_refuted : exists lfuel cfuel ds, voronoi_tags 2 2 skew ex_round lstsq_mat2 lstsq2 inv2 ex_sort lfuel cfuel = Some ds
  /\ ~ In [1; 0]%Z ds /\ exists y, (forall p, In p ds -> on_side 2 skew y p) /\ ~ in_cell 2 2 skew y.
Proof.
  destruct skew_deltas as (lf & cf & ds & E & B). exists lf, cf, ds. split; [exact E|].
  split.
  - intros H. destruct (B _ H) as (a & b & Ep & N0 & N1). injection Ep as <- E2. nia.
  - exists (fun k => match k with O => 7 / 10 | _ => 0 end). split.
    + intros p Hp. destruct (B p Hp) as (a & b & -> & N0 & N1). unfold on_side, dist. apply sqrt_le_1_alt.
      unfold dot, vector. cbn [Rsum length nth skew rows fZ realA]. rewrite plus_IZR, mult_IZR. set (x := IZR a). set (y := IZR b).
      assert (H : 14 / 10 * (3 * y - 8 * x) <= (3 * y - 8 * x) * (3 * y - 8 * x) + (y - 3 * x) * (y - 3 * x)).
      { set (w := (3 * b - 8 * a)%Z). assert (Ew : 3 * y - 8 * x = IZR w) by (unfold w, x, y; rewrite minus_IZR, !mult_IZR; reflexivity).
        set (u := (b - 3 * a)%Z). assert (Eu : y - 3 * x = IZR u) by (unfold u, x, y; rewrite minus_IZR, !mult_IZR; reflexivity). rewrite Ew, Eu.
        assert (Zu : 0 <= IZR u * IZR u) by apply Rle_0_sqr.
        destruct (Z_le_gt_dec w 0) as [Hw|Hw]; [apply IZR_le in Hw; nra|].
        destruct (Z.eq_dec w 1) as [Hw1|Hw1].
        - assert (u <> 0)%Z by (unfold u, w in *; lia). assert (1 <= IZR u * IZR u) by (rewrite <- mult_IZR; apply IZR_le; nia). rewrite Hw1. lra.
        - assert (2 <= IZR w) by (apply IZR_le; lia). nra. }
      lra.
    + intros H. specialize (H [1; 0]%Z eq_refl). unfold dist in H. apply sqrt_le_0 in H; [|apply dot_pos|apply dot_pos]. unfold dot, vector in H. cbn in H. lra.
Qed.
(** The other claims hold for this lattice as for any other: the site closest
    to the position of the site (-3, 1), which is (0, 1), is found. *)
Example C55_example : exists lfuel cfuel, closest 2 2 skew (fun _ => 1 / 2) ex_round lstsq_mat2 lstsq2 inv2 ex_sort lfuel cfuel (pos 2 skew (fun _ => 1 / 2) [-3; 1]%Z) = Some [-3; 1]%Z
  /\ pos 2 skew (fun _ => 1 / 2) [-3; 1]%Z 0%nat = 1 / 2 /\ pos 2 skew (fun _ => 1 / 2) [-3; 1]%Z 1%nat = 3 / 2.
Proof.
  destruct (C55_total 2 2 skew (fun _ => 1 / 2) ex_round lstsq_mat2 lstsq2 inv2 ex_sort ltac:(lia) libs2_ok skew_indep (pos 2 skew (fun _ => 1 / 2) [-3; 1]%Z) 1 (1 / 10 ^ 9) ltac:(lia) ltac:(lia) ltac:(lia)) as (lf & cf & tags & E).
  exists lf, cf. split; [|unfold pos; cbn; split; lra].
  pose proof (C55_n_closest 2 2 skew (fun _ => 1 / 2) ex_round lstsq_mat2 lstsq2 inv2 ex_sort ltac:(lia) libs2_ok skew_indep _ _ _ _ _ _ E) as (Lt & _). destruct tags as [|t [|? ?]]; try discriminate.
  assert (Ec : closest 2 2 skew (fun _ => 1 / 2) ex_round lstsq_mat2 lstsq2 inv2 ex_sort lf cf (pos 2 skew (fun _ => 1 / 2) [-3; 1]%Z) = Some t) by (unfold closest; rewrite E; reflexivity).
  rewrite Ec. f_equal. eapply (C55_roundtrip 2 2 skew (fun _ => 1 / 2) ex_round lstsq_mat2 lstsq2 inv2 ex_sort ltac:(lia) libs2_ok skew_indep); [reflexivity|exact Ec].
Qed.

(** The square lattice: lll leaves the basis as it is. *)
Definition square : nat -> nat -> R := @rows realA [[1; 0]; [0; 1]]%Z.
Lemma square_indep : independent 2 2 square.
Proof.
  intros x H. pose proof (H 0%nat ltac:(lia)) as H0. pose proof (H 1%nat ltac:(lia)) as H1. cbn in H0, H1. intros [|[|i]] Hi; [lra|lra|lia].
Qed.
Lemma round0 x : x = 0 -> ex_round x = 0%Z.
Proof. intros ->. apply round_int. apply ex_ok. Qed.
Lemma square_reduced : exists v t, reduced 2 2 square ex_round lstsq_mat2 5 = Some (v, t) /\ (forall i j, (i < 2)%nat -> (j < 2)%nat -> t i j = if (i =? j)%nat then 1%Z else 0%Z).
Proof.
  assert (Lp : exists st, loop realA 2 2 (gs_coefficient realA 2) ex_round 5 (134 / 100) 0 (initialize realA 2 2 (gs_coefficient realA 2) ex_round square) = Some st
    /\ forall i k, (i < 2)%nat -> (k < 2)%nat -> vecs realA st i k = if (i =? k)%nat then 1 else 0).
  { set (st := initialize realA 2 2 (gs_coefficient realA 2) ex_round square).
    assert (V : vecs realA st 0%nat 0%nat = 1 /\ vecs realA st 0%nat 1%nat = 0 /\ vecs realA st 1%nat 0%nat = 0 /\ vecs realA st 1%nat 1%nat = 1
      /\ star realA st 0%nat 0%nat = 1 /\ star realA st 0%nat 1%nat = 0 /\ star realA st 1%nat 0%nat = 0 /\ star realA st 1%nat 1%nat = 1).
    { unfold st, initialize, orthogonalize, ll_reduce. cbn. unfold gs_coefficient. cbn. rewrite round0 by field. repeat split; try reflexivity; try field; cbn; lra. }
    destruct V as (V1 & V2 & V3 & V4 & V5 & V6 & V7 & V8).
    clearbody st. exists st. split.
    - cbn [loop Nat.sub Nat.ltb Nat.leb]. replace (in_order realA 2 (134 / 100) 0 st) with true; [reflexivity|].
      symmetry. apply fltb_iff. rewrite !fdot_dot. unfold dot. cbn [Rsum]. revert V5 V6 V7 V8. cbn. intros V5 V6 V7 V8. rewrite V5, V6, V7, V8. lra.
    - intros [|[|i]] [|[|k]] Hi Hk; try lia; cbn; auto. }
  destruct Lp as (st & E & V). destruct libs2_ok as (L1 & L2 & L3 & L4).
  destruct (C35_no_failure 2 2 ex_round lstsq_mat2 5 square (134 / 100) L2 L1 square_indep (le_n 2)) as [(v & t & X)|X].
  - exists v, t. split; [unfold reduced; rewrite X; reflexivity|].
    destruct (C35_transformation 2 2 _ _ _ _ _ _ _ _ L2 L1 square_indep X) as [_ T].
    assert (Ev : v = vecs realA st). { unfold lll in X. cbn [Nat.ltb Nat.leb] in X. rewrite E in X. cbv zeta in X. destruct (negb _); [discriminate|]. destruct (negb _); [discriminate|]. congruence. }
    rewrite <- Ev in V.
    pose proof (T 0%nat 0%nat ltac:(lia) ltac:(lia)) as T00. pose proof (T 0%nat 1%nat ltac:(lia) ltac:(lia)) as T01. pose proof (T 1%nat 0%nat ltac:(lia) ltac:(lia)) as T10. pose proof (T 1%nat 1%nat ltac:(lia) ltac:(lia)) as T11.
    rewrite !V in T00, T01, T10, T11 by lia. cbn in T00, T01, T10, T11. intros [|[|i]] [|[|j]] Hi Hj; try lia; cbn [Nat.eqb]; apply eq_IZR; lra.
  - exfalso. unfold lll in X. cbn [Nat.ltb Nat.leb] in X. rewrite E in X. cbv zeta in X. destruct (negb _); [discriminate|]. destruct (negb _); discriminate.
Qed.
