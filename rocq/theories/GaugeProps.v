(** * C65: the Peierls phases of magnetic_gauge. *)
From Coq Require Import Reals List Bool Arith Lia Lra Permutation.
From Verif Require Import StarRing DiscretizeReal DijkstraModel DijkstraSpec DijkstraProofs GaugeModel GaugeSpec GaugeProofs GaugeForest GaugeLoops GaugePhases.
Import ListNotations.
Set Implicit Arguments.
Local Open Scope R_scope.

Section Props.
(** any way to choose among nodes of equal distance, any set.pop, any np.argsort *)
Variable pick : list nat -> (nat -> R) -> list nat -> nat.
Variable pop : list nat -> nat.
Variable argsort : list R -> list nat.
Hypothesis HP : min_oracle rltb pick.
Hypothesis Hpop : pop_ok pop.
Hypothesis Hsort : argsort_ok argsort.
Notation gauge := (magnetic_gauge pick pop argsort).

(** Around every closed loop of hoppings the product of the phases is given by the
    flux through the loop; the phases are unit complex numbers, and the phase of
    the reverse hopping is the complex conjugate.  No exception is raised. *)
Theorem C65_flux adj pos dblquad f tol average A : system_graph adj -> stokes dblquad f tol pos A ->
  exists peierls, gauge adj pos dblquad f tol average = Some peierls /\
    (forall i j, rmul RC (peierls i j) (rconj RC (peierls i j)) = r1 RC) /\
    (forall i j, linked adj i j -> peierls j i = rconj RC (peierls i j)) /\
    (forall w, closed_loop adj w -> product_around peierls w = expi (PI * surface_integral dblquad f false tol (map pos w))).
Proof.
  intros Hg HA. pose proof (distance_full pos Hg) as Hf. set (g := distance_matrix adj pos) in *.
  destruct (forest_ok HP Hpop Hf) as (t & Et & It). destruct (@find_loops_ok pick argsort HP Hsort g Hf t) as (loops & El & V); [apply (v_sub It)|apply (v_sym It)|intros x y H; apply (v_conn It); auto|].
  unfold magnetic_gauge, loops_in_finite. fold g. rewrite Et. cbn [obind]. rewrite El. cbn [option_map]. eexists. split; [reflexivity|].
  destruct (v_pot It (fun i j => PI * A i j)) as [pot Hpot]; [intros x y; rewrite (proj1 HA x y); lra|].
  destruct (@phases_ok pos (surface_integral dblquad f false tol) A (proj1 HA) (@surface_sum dblquad f tol pos A HA) g Hf pot loops t []) as (sub & S1 & S2 & I); [auto|apply (v_sub It)|apply (v_sym It)| |].
  { constructor; [|intros i j H; cbn in H; congruence]. intros i j H. cbn -[r1]. rewrite (Hpot i j H). symmetry. apply expi_0. }
  change (fold_left _ loops []) with (calculate_phases pos (surface_integral dblquad f false tol) (fun ph => previous_phase ph (r1 RC)) loops) in I.
  set (ph := calculate_phases _ _ _ _) in *.
  assert (Hv : forall i j, linked adj i j -> wrapper ph i j = expi (PI * A i j + pot j - pot i)).
  { intros i j H. apply (p_val I). apply S1. apply distance_edge. auto. }
  assert (U : forall x, rmul RC (expi x) (rconj RC (expi x)) = r1 RC) by (intros x; rewrite expi_conj, expi_add, <- expi_0; f_equal; lra).
  split; [|split].
  - intros i j. assert (H1 : wrapper ph i j = r1 RC \/ linked adj i j).
    { unfold wrapper. destruct (pget ph (i, j)) as [v|] eqn:E1; [|destruct (pget ph (j, i)) as [v|] eqn:E2; [|auto]].
      - right. apply (distance_edge adj pos), S2. destruct (@p_one _ _ _ _ I i j) as [Hl _]; [congruence|exact Hl].
      - right. apply (distance_edge adj pos), (f_sym Hf), S2. destruct (@p_one _ _ _ _ I j i) as [Hl _]; [congruence|exact Hl]. }
    destruct H1 as [->|H]; [cbn; f_equal; ring|rewrite (Hv i j H); auto].
  - intros i j H. rewrite (Hv i j H), (Hv j i), expi_conj; [|apply Hg; auto]. f_equal. rewrite (proj1 HA i j). lra.
  - intros w Hw. rewrite (@product_around_expi _ A pot adj w Hv Hw). rewrite (surface_sum HA); [auto|apply Hw].
Qed.
(** A constant field: the flux is the field times the area enclosed by the loop. *)
Theorem C65_constant adj pos dblquad b tol average : system_graph adj -> dimensions b pos ->
  exists peierls, gauge adj pos dblquad (Const b) tol average = Some peierls /\
    (forall i j, rmul RC (peierls i j) (rconj RC (peierls i j)) = r1 RC) /\
    (forall i j, linked adj i j -> peierls j i = rconj RC (peierls i j)) /\
    (forall w, closed_loop adj w -> product_around peierls w = expi (PI * constant_flux b pos w)).
Proof.
  intros Hg Hd. destruct (@C65_flux adj pos dblquad (Const b) tol average _ Hg (const_stokes dblquad tol Hd)) as (p & H1 & H2 & H3 & H4).
  exists p. split; [auto|]. split; [auto|]. split; [auto|]. intros w Hw. rewrite (H4 w Hw), (surface_sum (const_stokes dblquad tol Hd)), (constant_sum w Hd); [auto|apply Hw].
Qed.

Lemma vdot_nonneg a : 0 <= vdot a a.
Proof. induction a as [|x a IH]; cbn; [lra|]. pose proof (Rle_0_sqr x). unfold Rsqr in *. lra. Qed.
(** A field that depends linearly on the position, given as a function. *)
Lemma affine_stokes dblquad b m pos : exact_affine dblquad -> affine_dimensions b m pos ->
  stokes dblquad (Call (affine_field b m)) 0 pos (fun i j => vdot (cross (pos i) (pos j)) (vadd (vadd b (affine_field b m (pos i))) (affine_field b m (pos j))) / 6).
Proof.
  intros Hq [(b1 & x & y & -> & -> & Hp)|(b1 & b2 & b3 & xx & xy & xz & yx & yy & yz & zx & zy & zz & -> & -> & Hz & Hp)]; split; intros i j; try intros k; pose proof (Hp i) as Pi; pose proof (Hp j) as Pj; try pose proof (Hp k) as Pk.
  - destruct (pos i) as [|x1 [|y1 [|]]]; try discriminate Pi; destruct (pos j) as [|x2 [|y2 [|]]]; try discriminate Pj. cbn. field.
  - unfold integrator, quad_triangle. destruct (Rlt_dec _ _) as [H|_]; [exfalso; pose proof (vdot_nonneg (cross (vsub (pos j) (pos i)) (vsub (pos k) (pos i)))); lra|].
    destruct (pos i) as [|x1 [|y1 [|]]]; try discriminate Pi; destruct (pos j) as [|x2 [|y2 [|]]]; try discriminate Pj; destruct (pos k) as [|x3 [|y3 [|]]]; try discriminate Pk. set (N := (x2 - x1) * (y3 - y1) - (y2 - y1) * (x3 - x1)).
    rewrite (Hq (N * (b1 + x * x1 + y * y1)) (N * (x * (x2 - x1) + y * (y2 - y1))) (N * (x * (x3 - x1) + y * (y3 - y1)))); [cbn; unfold N; field|]. intros u v. cbn. fold N. ring.
  - destruct (pos i) as [|x1 [|y1 [|z1 [|]]]]; try discriminate Pi; destruct (pos j) as [|x2 [|y2 [|z2 [|]]]]; try discriminate Pj. cbn. field.
  - unfold integrator, quad_triangle. destruct (Rlt_dec _ _) as [H|_]; [exfalso; pose proof (vdot_nonneg (cross (vsub (pos j) (pos i)) (vsub (pos k) (pos i)))); lra|].
    destruct (pos i) as [|x1 [|y1 [|z1 [|]]]]; try discriminate Pi; destruct (pos j) as [|x2 [|y2 [|z2 [|]]]]; try discriminate Pj; destruct (pos k) as [|x3 [|y3 [|z3 [|]]]]; try discriminate Pk.
    set (n1 := (y2 - y1) * (z3 - z1) - (z2 - z1) * (y3 - y1)). set (n2 := (z2 - z1) * (x3 - x1) - (x2 - x1) * (z3 - z1)). set (n3 := (x2 - x1) * (y3 - y1) - (y2 - y1) * (x3 - x1)).
    rewrite (Hq (n1 * (b1 + xx * x1 + xy * y1 + xz * z1) + n2 * (b2 + yx * x1 + yy * y1 + yz * z1) + n3 * (b3 + zx * x1 + zy * y1 + zz * z1))
      (n1 * (xx * (x2 - x1) + xy * (y2 - y1) + xz * (z2 - z1)) + n2 * (yx * (x2 - x1) + yy * (y2 - y1) + yz * (z2 - z1)) + n3 * (zx * (x2 - x1) + zy * (y2 - y1) + zz * (z2 - z1)))
      (n1 * (xx * (x3 - x1) + xy * (y3 - y1) + xz * (z3 - z1)) + n2 * (yx * (x3 - x1) + yy * (y3 - y1) + yz * (z3 - z1)) + n3 * (zx * (x3 - x1) + zy * (y3 - y1) + zz * (z3 - z1)))).
    + replace zz with (- xx - yy) by lra. cbn. unfold n1, n2, n3. field.
    + intros u v. cbn. fold n1 n2 n3. ring.
Qed.
Theorem C65_affine adj pos dblquad b m average : exact_affine dblquad -> system_graph adj -> affine_dimensions b m pos ->
  exists peierls, gauge adj pos dblquad (Call (affine_field b m)) 0 average = Some peierls /\
    (forall w, closed_loop adj w -> product_around peierls w = expi (PI * affine_flux b m pos w)).
Proof.
  intros Hq Hg Hd. pose proof (affine_stokes Hq Hd) as St. destruct (@C65_flux adj pos dblquad _ 0 average _ Hg St) as (p & H1 & _ & _ & H4).
  exists p. split; [auto|]. intros w Hw. rewrite (H4 w Hw), (surface_sum St); [auto|apply Hw].
Qed.

(** ** Findings *)
(** A triangle *)
Definition tri : list (list nat) := [[1; 2]; [0; 2]; [0; 1]]%nat.
Definition tri_pos (s : R) (i : nat) : vec := match i with 0%nat => [0; 0] | 1%nat => [s; 0] | _ => [0; s] end.
Lemma tri_graph : system_graph tri.
Proof.
  assert (H : forall i j, linked tri i j -> (i < 3)%nat /\ (j < 3)%nat /\ i <> j).
  { intros i j. unfold linked. do 3 (destruct i as [|i]; [cbn; intros [<-|[<-|[]]]; lia|]). destruct i; intros []. }
  split; [|split].
  - intros i. do 3 (destruct i as [|i]; [cbn; constructor; [intros [E|[]]; discriminate|constructor; [intros []|constructor]]|]). destruct i; constructor.
  - intros i j Hl. split; [apply (H i j Hl)|]. unfold linked in *. do 3 (destruct i as [|i]; [cbn in Hl; destruct Hl as [<-|[<-|[]]]; cbn; auto|]). destruct i; destruct Hl.
  - intros i Hl. destruct (H i i Hl) as (_ & _ & E). auto.
Qed.
Lemma tri_loop : closed_loop tri [0; 1; 2]%nat.
Proof. split; [discriminate|]. unfold linked. cbn. auto 6. Qed.
Lemma tri_dim b s : dimensions [b] (tri_pos s).
Proof. left. split; [auto|]. intros [|[|i]]; auto. Qed.
(** With a field that is nonzero, say 1, only at the center of the triangle, the
    integral of the field is 0.  With average=True the flux should be the area 1/2
    times 1, the phase i.  But average is ignored. *)
Theorem C65_average_refuted : exists adj pos f peierls w, system_graph adj /\ closed_loop adj w /\
  gauge adj pos (fun _ => 0) f (1 / 100000000) true = Some peierls /\
  product_around peierls w <> expi (PI * surface_integral (fun _ => 0) f true (1 / 100000000) (map pos w)).
Proof.
  set (f := Call (fun p : vec => match p with [x; y] => if Req_EM_T x (1 / 3) then if Req_EM_T y (1 / 3) then [1] else [0] else [0] | _ => [0] end)).
  destruct (@C65_flux tri (tri_pos 1) (fun _ => 0) f (1 / 100000000) true (fun _ _ => 0) tri_graph) as (p & H1 & _ & _ & H2).
  { split; [intros; lra|]. intros i j k. unfold integrator, f, quad_triangle. destruct (Rlt_dec _ _); lra. }
  exists tri, (tri_pos 1), f, p, [0; 1; 2]%nat. split; [apply tri_graph|]. split; [apply tri_loop|]. split; [exact H1|]. rewrite (H2 _ tri_loop).
  assert (E1 : surface_integral (fun _ => 0) f false (1 / 100000000) (map (tri_pos 1) [0; 1; 2]%nat) = 0).
  { unfold f. cbn -[Rlt_dec]. unfold quad_triangle. destruct (Rlt_dec _ _); lra. }
  assert (E2 : surface_integral (fun _ => 0) f true (1 / 100000000) (map (tri_pos 1) [0; 1; 2]%nat) = 1 / 2).
  { unfold f. cbn -[Req_EM_T]. unfold average_triangle. cbn -[Req_EM_T]. destruct (Req_EM_T _ _) as [_|N]; [|exfalso; apply N; field]. destruct (Req_EM_T _ _) as [_|N]; [|exfalso; apply N; field]. cbn. field. }
  rewrite E1, E2. unfold expi. replace (PI * 0) with 0 by ring. replace (PI * (1 / 2)) with (PI / 2) by field. rewrite cos_0, cos_PI2. intros [= H]. lra.
Qed.
(** tol is compared with the area of the triangles, not with the flux through them.
    For sites that are 1e-5 apart (and the default tolerance) all phases are 1 if the
    field is a function, however large the field is. *)
Theorem C65_tol_refuted : exists adj pos b peierls peierls' w, system_graph adj /\ closed_loop adj w /\
  gauge adj pos (fun h => h 0 0 / 2) (Call (fun _ => [b])) (1 / 100000000) false = Some peierls /\
  gauge adj pos (fun h => h 0 0 / 2) (Const [b]) (1 / 100000000) false = Some peierls' /\
  product_around peierls w = r1 RC /\ product_around peierls' w = expi (PI / 2).
Proof.
  set (s := 1 / 100000). set (b := 10000000000).
  assert (St : stokes (fun h => h 0 0 / 2) (Call (fun _ => [b])) (1 / 100000000) (tri_pos s) (fun _ _ => 0)).
  { split; [intros; lra|]. intros i j k. unfold integrator, quad_triangle. destruct (Rlt_dec _ _) as [H|H]; [lra|]. exfalso. apply H. clear H.
    assert (Hb : forall i, exists x y, tri_pos s i = [x; y] /\ 0 <= x /\ 0 <= y /\ x + y <= 1 / 100000).
    { unfold s. intros [|[|m]]; cbn; eexists; eexists; (split; [reflexivity|lra]). }
    destruct (Hb i) as (x1 & y1 & E1 & B1 & C1 & D1). destruct (Hb j) as (x2 & y2 & E2 & B2 & C2 & D2). destruct (Hb k) as (x3 & y3 & E3 & B3 & C3 & D3). rewrite E1, E2, E3. cbn.
    set (d := 1 / 100000) in *. assert (Hd : 0 < d) by (unfold d; lra). set (q := _ - _).
    assert (Hq : - (2 * d * d) <= q <= 2 * d * d).
    { unfold q. replace ((x2 - x1) * (y3 - y1) - (y2 - y1) * (x3 - x1)) with (x2 * y3 + x3 * y1 + x1 * y2 - x3 * y2 - x1 * y3 - x2 * y1) by ring.
      assert (0 <= x2 * y3 <= d * d) by nra. assert (0 <= x3 * y2 <= d * d) by nra. assert (0 <= x1 * y2) by nra. assert (0 <= x2 * y1) by nra. assert (0 <= x1 * y3) by nra. assert (0 <= x3 * y1) by nra. nra. }
    assert (E : 2 * d * d = 2 / 10000000000) by (unfold d; field). rewrite E in Hq. nra. }
  destruct (@C65_flux tri (tri_pos s) (fun h => h 0 0 / 2) (Call (fun _ => [b])) (1 / 100000000) false _ tri_graph St) as (p & H1 & _ & _ & H2).
  destruct (@C65_constant tri (tri_pos s) (fun h => h 0 0 / 2) [b] (1 / 100000000) false tri_graph (tri_dim b s)) as (p' & H1' & _ & _ & H2').
  exists tri, (tri_pos s), b, p, p', [0; 1; 2]%nat. split; [apply tri_graph|]. split; [apply tri_loop|]. split; [auto|]. split; [auto|]. split.
  - rewrite (H2 _ tri_loop), (surface_sum St) by discriminate. rewrite <- expi_0. f_equal. unfold sum_around. cbn. lra.
  - rewrite (H2' _ tri_loop). f_equal. unfold constant_flux, sum_around, b. cbn. unfold s. field.
Qed.
End Props.

(** ** The assumptions can be met *)
Definition first_pick (_ : list nat) (val : nat -> R) (h : list nat) : nat :=
  fold_left (fun b x => if rltb (val x) (val b) then x else b) (tl h) (hd O h).
Lemma first_pick_min : min_oracle rltb first_pick.
Proof.
  intros tr val h Hh. destruct h as [|a h]; [congruence|]. unfold first_pick. cbn [tl hd].
  assert (H : forall l b, In (fold_left (fun b x => if rltb (val x) (val b) then x else b) l b) (b :: l) /\ forall x, In x (b :: l) -> val (fold_left (fun b x => if rltb (val x) (val b) then x else b) l b) <= val x).
  { induction l as [|c l IH]; intros b; cbn [fold_left]; [split; [left; auto|intros x [->|[]]; lra]|]. destruct (rltb (val c) (val b)) eqn:E0; unfold rltb in E0; destruct (Rlt_dec (val c) (val b)) as [E|E]; try discriminate E0; clear E0.
    - destruct (IH c) as [H1 H2]. split; [right; auto|]. intros x [->|Hx]; [|apply H2; auto]. pose proof (H2 c (or_introl eq_refl)). lra.
    - destruct (IH b) as [H1 H2]. split; [destruct H1; [left; auto|right; right; auto]|]. intros x [->|[->|Hx]]; [apply H2; left; auto| |apply H2; right; auto]. pose proof (H2 b (or_introl eq_refl)). lra. }
  destruct (H h a) as [H1 H2]. split; [auto|]. intros x Hx. specialize (H2 x Hx). set (r := fold_left _ _ _) in *. unfold wle, rltb. clearbody r. destruct (Rlt_dec _ _); [lra|auto].
Qed.
Definition first_pop (l : list nat) : nat := hd O l.
Lemma first_pop_ok : pop_ok first_pop.
Proof. intros [|x l] H; [congruence|left; auto]. Qed.
Definition select_sort (l : list R) : list nat :=
  match l with
  | [] => []
  | _ :: _ => let k := first_pick [] (fun k => nth k l 0) (seq 0 (length l)) in k :: remove Nat.eq_dec k (seq 0 (length l))
  end.
Lemma select_sort_ok : argsort_ok select_sort.
Proof.
  intros [|x l]; [split; [constructor|cbn; lia]|]. set (L := x :: l). unfold select_sort. fold L. unfold L at 1 3.
  destruct (@first_pick_min [] (fun k => nth k L 0) (seq 0 (length L))) as [H1 H2]; [discriminate|]. set (k := first_pick _ _ _) in *. clearbody k. cbv zeta. split.
  - apply NoDup_Permutation.
    + constructor; [apply remove_In|]. assert (H : forall m, NoDup m -> NoDup (remove Nat.eq_dec k m)).
      { induction 1 as [|y m Hy Hm IH]; cbn [remove]; [constructor|]. destruct (Nat.eq_dec k y); [auto|]. constructor; [|auto]. intros H. apply in_remove in H. tauto. }
      apply H, seq_NoDup.
    + apply seq_NoDup.
    + intros y. split; [intros [<-|H]; [auto|apply in_remove in H; tauto]|]. intros H. destruct (Nat.eq_dec y k) as [->|N]; [left; auto|right; apply in_in_remove; auto].
  - intros m Hm. cbn [nth]. assert (Hin : In m (seq 0 (length L))) by (apply in_seq; lia). specialize (H2 m Hin). unfold wle, rltb in H2. destruct (Rlt_dec _ _) as [?|N]; [discriminate H2|]. apply Rnot_lt_le in N. exact N.
Qed.
(** A square of four sites in a constant field: the phase is that of the flux through
    the unit square, and the opposite when the square is traversed backwards. *)
Definition sq : list (list nat) := [[1; 3]; [0; 2]; [1; 3]; [0; 2]]%nat.
Definition sq_pos (i : nat) : vec := match i with 0%nat => [0; 0] | 1%nat => [1; 0] | 2%nat => [1; 1] | _ => [0; 1] end.
Example C65_example b : exists peierls, magnetic_gauge first_pick first_pop select_sort sq sq_pos (fun _ => 0) (Const [b]) 0 false = Some peierls /\
  product_around peierls [0; 1; 2; 3]%nat = expi (PI * b) /\ product_around peierls [3; 2; 1; 0]%nat = expi (- (PI * b)).
Proof.
  destruct (@C65_constant _ _ _ first_pick_min first_pop_ok select_sort_ok sq sq_pos (fun _ => 0) [b] 0 false) as (p & H1 & _ & _ & H2).
  - split; [|split].
    + intros i. do 4 (destruct i as [|i]; [cbn; constructor; [intros [E|[]]; discriminate|constructor; [intros []|constructor]]|]). destruct i; constructor.
    + intros i j Hl. unfold linked in *. do 4 (destruct i as [|i]; [cbn in Hl; destruct Hl as [<-|[<-|[]]]; cbn; split; auto; lia|]). destruct i; destruct Hl.
    + intros i Hl. unfold linked in *. do 4 (destruct i as [|i]; [cbn in Hl; destruct Hl as [E|[E|[]]]; discriminate|]). destruct i; destruct Hl.
  - left. split; [auto|]. intros [|[|[|i]]]; auto.
  - exists p. split; [auto|]. split; rewrite H2; [f_equal; unfold constant_flux, sum_around; cbn; field|split; [discriminate|unfold linked; cbn; auto 8]|f_equal; unfold constant_flux, sum_around; cbn; field|split; [discriminate|unfold linked; cbn; auto 8]].
Qed.
(** The quadrature with three points is exact for polynomials of degree one. *)
Example C65_quadrature : exact_affine (fun h => (h 0 0 + h 1 0 + h 0 1) / 6).
Proof. intros a b c h H. rewrite !H. field. Qed.
