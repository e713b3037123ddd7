(** * C56: a disc of the square lattice, and a strip of a lattice with a skewed basis. *)
From Coq Require Import List Bool Arith ZArith Reals Lia Lra Psatz.
From Verif Require Import BuilderModel SymmetryModel SymmetryProofs ShapeModel ShapeProps.
From Verif Require Import KpmReal KpmRealProofs CvpModel CvpSpec CvpProofs CvpProps LllModel LllSpec LllProofs LllProps LatticeModel LatticeSpec LatticeProofs LatticeProps LatticeExample.
From Verif Require Import ShapeProps2.
Import ListNotations.
Local Open Scope R_scope.
Notation tag2 := (ts_elt 2).

Lemma tags_of ds : Forall (lattice_point 2) ds -> exists deltas : list tag2, map (@proj1_sig _ _) deltas = ds.
Proof.
  induction 1 as [|p ds Lp _ (l & E)]; [exists []; auto|]. exists (@mk_elt 2 p Lp :: l). cbn. f_equal. exact E.
Qed.
Definition tag_of (a b : Z) : tag2 := @mk_elt 2 [a; b] eq_refl.
Lemma tag_form (t : tag2) : exists a b, t = tag_of a b.
Proof. pose proof (elt_len t) as E. destruct (proj1_sig t) as [|a [|b [|? ?]]] eqn:Et; try discriminate. exists a, b. apply sig_eq. rewrite Et. reflexivity. Qed.

(** The disc of radius 5 around (1/10, 1/5). *)
Definition ex_center (k : nat) : R := match k with O => 1 / 10 | _ => 1 / 5 end.
Definition in_disc (_ : unit) (t : tag2) : bool := if Rle_dec (dist 2 (pos 2 square (fun _ => 0) (proj1_sig t)) ex_center) 5 then true else false.
Example C56_disc_example : forall set_tags set_sites, set_order set_tags -> set_order set_sites ->
  exists lfuel cfuel ds deltas, voronoi_tags 2 2 square ex_round lstsq_mat2 lstsq2 inv2 ex_sort lfuel cfuel = Some ds /\ map (@proj1_sig _ _) deltas = ds /\
  exists lfuel' cfuel' start, closest 2 2 square (fun _ => 0) ex_round lstsq_mat2 lstsq2 inv2 ex_sort lfuel' cfuel' ex_center = Some (proj1_sig start) /\
  exists F, forall fuel, (F <= fuel)%nat -> exists out,
    shape_sites (tdec 2) (tag_add 2) [tt] deltas (fun _ t => t) in_disc set_tags set_sites fuel [start] = Some (out, true) /\
    NoDup out /\ forall s, In (tt, s) out <-> in_disc tt s = true.
Proof.
  intros set_tags set_sites S1 S2. pose proof libs2_ok as L. pose proof square_indep as Hi.
  destruct square_reduced as (v & t & R & T).
  destruct (reduced_ok 2 2 square ex_round lstsq_mat2 lstsq2 inv2 ex_sort ltac:(lia) L Hi _ _ _ R) as (_ & _ & _ & Lv).
  destruct (C36_voronoi_terminates 2 2 v (lstsq2 v) inv2 ex_round ex_sort false (1 / 10 ^ 9) Lv) as (F & HF). destruct (HF F (le_n F)) as (vs & E).
  assert (Ev : voronoi_tags 2 2 square ex_round lstsq_mat2 lstsq2 inv2 ex_sort 5 F = Some (map (dot_transf 2 t) vs)) by (unfold voronoi_tags; rewrite R, E; reflexivity).
  destruct (C55_opposite 2 2 square ex_round lstsq_mat2 lstsq2 inv2 ex_sort ltac:(lia) L Hi _ _ _ Ev) as (Fa & _).
  destruct (tags_of _ Fa) as (deltas & Ed). exists 5%nat, F, (map (dot_transf 2 t) vs), deltas. split; auto. split; auto.
  destruct (C55_total 2 2 square (fun _ => 0) ex_round lstsq_mat2 lstsq2 inv2 ex_sort ltac:(lia) L Hi ex_center 1 (1 / 10 ^ 9) ltac:(lia) ltac:(lia) ltac:(lia)) as (lf & cf & tags & En).
  destruct (C55_n_closest 2 2 square (fun _ => 0) ex_round lstsq_mat2 lstsq2 inv2 ex_sort ltac:(lia) L Hi _ _ _ _ _ _ En) as (Lt & _). destruct tags as [|p [|? ?]]; try discriminate.
  assert (Ec : closest 2 2 square (fun _ => 0) ex_round lstsq_mat2 lstsq2 inv2 ex_sort lf cf ex_center = Some p) by (unfold closest; rewrite En; reflexivity).
  destruct (C55_closest 2 2 square (fun _ => 0) ex_round lstsq_mat2 lstsq2 inv2 ex_sort ltac:(lia) L Hi _ _ _ _ Ec) as (Lp & Cl).
  (* squared distances *)
  assert (D : forall a b, dist 2 (pos 2 square (fun _ => 0) [a; b]) ex_center = sqrt ((IZR a - 1 / 10) ^ 2 + (IZR b - 1 / 5) ^ 2)).
  { intros a b. unfold dist. f_equal. unfold dot, pos. cbn. ring. }
  assert (Far : forall a b, [a; b] <> [0; 0]%Z -> sqrt ((IZR 0 - 1 / 10) ^ 2 + (IZR 0 - 1 / 5) ^ 2) < sqrt ((IZR a - 1 / 10) ^ 2 + (IZR b - 1 / 5) ^ 2)).
  { intros a b N. apply sqrt_lt_1_alt. split; [lra|]. assert (Q : forall z w, (z <> 0)%Z -> 0 <= w -> w <= 1 / 5 -> (4 / 5) * (4 / 5) <= (IZR z - w) ^ 2).
    { intros z w Hz W0 W1. destruct (Z_lt_ge_dec z 0) as [Hl|Hl]; [assert (IZR z <= -1) by (apply IZR_le; lia)|assert (1 <= IZR z) by (apply IZR_le; lia)]; nra. }
    assert (Nab : a <> 0%Z \/ b <> 0%Z) by (destruct (Z.eq_dec a 0); [right; congruence|left; auto]).
    destruct Nab as [Ha|Hb]; [pose proof (Q a (1 / 10) Ha ltac:(lra) ltac:(lra)); pose proof (Rle_0_sqr (IZR b - 1 / 5)) as P; unfold Rsqr in P; nra|].
    pose proof (Q b (1 / 5) Hb ltac:(lra) ltac:(lra)). pose proof (Rle_0_sqr (IZR a - 1 / 10)) as P. unfold Rsqr in P. nra. }
  destruct p as [|pa [|pb [|? ?]]]; try discriminate.
  assert (Ep : [pa; pb] = [0; 0]%Z).
  { destruct (list_eq_dec Z.eq_dec [pa; pb] [0; 0]%Z) as [X|X]; auto. exfalso. specialize (Far _ _ X). specialize (Cl [0; 0]%Z eq_refl). rewrite !D in Cl. lra. }
  rewrite Ep in Ec. clear Ep Cl Lp En Lt pa pb. exists lf, cf, (tag_of 0 0). split; auto.
  assert (Sp : forall s : tag2, dist 2 (site_position square (fun _ => 0) (proj1_sig s)) ex_center = dist 2 (pos 2 square (fun _ => 0) (proj1_sig s)) ex_center).
  { intros s. apply dist_ext. intros k Hk. rewrite pos_spec; auto. apply elt_len. }
  assert (In_ : forall s, in_disc tt s = true <-> dist 2 (site_position square (fun _ => 0) (proj1_sig s)) ex_center <= 5).
  { intros s. rewrite Sp. unfold in_disc. destruct (Rle_dec _ _); split; auto; try discriminate; contradiction. }
  apply (C56_disc 2 2 square (fun _ => 0) ex_round lstsq_mat2 lstsq2 inv2 ex_sort ltac:(lia) L Hi 5%nat F lf cf v t (map (dot_transf 2 t) vs) deltas in_disc (fun _ t => t) set_tags set_sites ex_center 5 (tag_of 0 0)); auto.
  - intros i j Hi' Hj. rewrite !T by auto. rewrite Nat.eqb_sym. reflexivity.
  - intros s Ns. rewrite !Sp. destruct (tag_form s) as (a & b & ->). cbn [tag_of mk_elt proj1_sig]. rewrite !D. apply Rgt_not_eq, Far. intros [= -> ->]. apply Ns. reflexivity.
  - apply In_. rewrite Sp. cbn [tag_of mk_elt proj1_sig]. rewrite D. apply Rle_trans with (sqrt (5 * 5)); [apply sqrt_le_1_alt; lra|rewrite sqrt_square; lra].
  - intros s s' H Hl. apply In_. apply In_ in H. apply Rlt_le. exact (Rlt_le_trans _ _ _ Hl H).
  - intros s H. apply In_. auto.
Qed.

(** The strip of the points with 0 <= x <= 10 and |y| <= 1/2, and the lattice
    with primitive vectors (1, 0) and (3, 1).  The strip contains the sites
    (0, 0), (1, 0), ..., (10, 0), but only the first one is found. *)
Definition in_strip (_ : unit) (t : tag2) : bool :=
  let x := pos 2 skew (fun _ => 0) (proj1_sig t) in
  if Rle_dec 0 (x 0%nat) then if Rle_dec (x 0%nat) 10 then if Rle_dec (Rabs (x 1%nat)) (1 / 2) then true else false else false else false.
Example C56_strip_refuted : exists lfuel cfuel ds deltas,
  voronoi_tags 2 2 skew ex_round lstsq_mat2 lstsq2 inv2 ex_sort lfuel cfuel = Some ds /\ map (@proj1_sig _ _) deltas = ds /\
  (forall n, (0 <= n <= 10)%Z -> in_strip tt (tag_of n 0) = true) /\
  forall set_tags set_sites, set_order set_tags -> set_order set_sites -> exists F, forall fuel, (F <= fuel)%nat -> exists out,
    shape_sites (tdec 2) (tag_add 2) [tt] deltas (fun _ t => t) in_strip set_tags set_sites fuel [tag_of 0 0] = Some (out, true) /\ forall s, In s out <-> s = (tt, tag_of 0 0).
Proof.
  destruct skew_deltas as (lf & cf & ds & Ev & B).
  destruct (C55_opposite 2 2 skew ex_round lstsq_mat2 lstsq2 inv2 ex_sort ltac:(lia) libs2_ok skew_indep _ _ _ Ev) as (Fa & Ng & _).
  destruct (tags_of _ Fa) as (deltas & Eds). exists lf, cf, ds, deltas. split; auto. split; auto.
  assert (P0 : forall a b, pos 2 skew (fun _ => 0) [a; b] 0%nat = IZR a + 3 * IZR b) by (intros; unfold pos; cbn; ring).
  assert (P1 : forall a b, pos 2 skew (fun _ => 0) [a; b] 1%nat = IZR b) by (intros; unfold pos; cbn; ring).
  assert (St : forall n, (0 <= n <= 10)%Z -> in_strip tt (tag_of n 0) = true).
  { intros n Hn. unfold in_strip. cbn [tag_of mk_elt proj1_sig]. rewrite P0, P1. assert (0 <= IZR n <= 10) by (split; apply IZR_le; lia).
    destruct (Rle_dec 0 _); [|exfalso; lra]. destruct (Rle_dec _ 10); [|exfalso; lra]. destruct (Rle_dec _ (1 / 2)) as [|N]; auto. exfalso. apply N. rewrite Rabs_R0. lra. }
  split; auto. intros set_tags set_sites S1 S2.
  assert (Set_ : shape_setting tag2 unit (tag_add 2) [tt] deltas (fun _ t => t) (fun t => t) set_tags set_sites).
  { apply C56_no_symmetry; auto. intros s Hs. assert (X : In (map Z.opp (proj1_sig s)) ds) by (apply Ng; rewrite <- Eds; apply in_map; auto).
    rewrite <- Eds in X. apply in_map_iff in X. destruct X as (u & Eu & Hu). replace (tag_neg 2 s) with u; auto. apply sig_eq. exact Eu. }
  assert (Row : forall a b, in_strip tt (tag_of a b) = true -> b = 0%Z).
  { intros a b. unfold in_strip. cbn [tag_of mk_elt proj1_sig]. rewrite P0, P1. destruct (Rle_dec 0 _); [|discriminate]. destruct (Rle_dec _ 10); [|discriminate]. destruct (Rle_dec _ (1 / 2)) as [H|]; [|discriminate]. intros _.
    rewrite <- abs_IZR in H. assert (X : IZR (Z.abs b) < IZR 1) by lra. apply lt_IZR in X. lia. }
  assert (Only : forall s, reach tag2 unit (tag_add 2) [tt] deltas (fun t => t) in_strip [tag_of 0 0] s -> s = tag_of 0 0).
  { intros s Hs. induction Hs as [t Ht _|t delta _ IH Hd ([] & _ & Ho)].
    - destruct Ht as [<-|[]]. auto.
    - subst t. exfalso. destruct (tag_form delta) as (x & y & ->). assert (Hin : In [x; y] ds) by (rewrite <- Eds; apply (in_map (@proj1_sig _ _) _ _ Hd)).
      destruct (B _ Hin) as (a & b & E & N & Q). pose proof (f_equal (fun l => nth 0 l 0%Z) E) as E1. pose proof (f_equal (fun l => nth 1 l 0%Z) E) as E2. cbn [nth] in E1, E2. subst x y. clear E.
      assert (Et : tag_add 2 (tag_of 0 0) (tag_of a (-3 * a + b)) = tag_of a (-3 * a + b)) by (apply sig_eq; reflexivity).
      cbv beta in Ho. rewrite Et in Ho. apply Row in Ho. nia. }
  exists 1%nat. intros fuel Hf.
  destruct (C56_finite tag2 unit (tdec 2) (tag_add 2) [tt] deltas (fun _ t => t) (fun t => t) in_strip set_tags set_sites Set_ [tag_of 0 0] [tag_of 0 0]) with (fuel := fuel) as [E|(out & E)]; auto.
  - intros s Hs. left. symmetry. auto.
  - exfalso. pose proof (proj1 (C56_error tag2 unit (tdec 2) (tag_add 2) [tt] deltas (fun _ t => t) (fun t => t) in_strip set_tags set_sites Set_ fuel [tag_of 0 0]) E (tag_of 0 0) tt) as X. cbn [In] in X. rewrite St in X by lia. discriminate X; auto.
  - exists out. split; auto. intros ([], s). split.
    + intros Hs. pose proof (C56_sound tag2 unit (tdec 2) (tag_add 2) [tt] deltas (fun _ t => t) (fun t => t) in_strip set_tags set_sites Set_ _ _ _ _ _ _ E Hs) as X. f_equal. apply Only. tauto.
    + intros [= ->]. eapply (C56_complete tag2 unit (tdec 2) (tag_add 2) [tt] deltas (fun _ t => t) (fun t => t) in_strip set_tags set_sites Set_); [|cbn; auto| |exact E].
      * apply (reach_start tag2 unit (tag_add 2) [tt] deltas (fun t => t) in_strip [tag_of 0 0] (tag_of 0 0)); [cbn; auto|]. exists tt. split; [cbn; auto|]. apply St. lia.
      * apply St. lia.
Qed.
