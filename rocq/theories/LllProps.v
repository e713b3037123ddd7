(** * C35: lll returns another basis of the same lattice, with the right
      transformation, which is c-reduced. *)
From Coq Require Import List Bool Arith ZArith QArith Qround Reals Lia Lra Psatz.
From Verif Require Import KpmReal KpmRealProofs CvpModel CvpSpec CvpProofs LllModel LllSpec LllProofs LllMain.
Import ListNotations.
Open Scope R_scope.

Section Props.
Variables m d : nat.

(** Whatever the Gram-Schmidt coefficients, the roundings and the
    least-squares solver give, the returned vectors are integer combinations of
    the given ones by a matrix with an integer inverse: both generate the same
    lattice. *)
Theorem C35_lattice : forall gsc round lstsq fuel basis c vecs transf,
  lll realA m d gsc round lstsq fuel basis c = LDone vecs transf ->
  (exists T, unimodular m T /\ forall i k, (i < m)%nat -> (k < d)%nat -> vecs i k = Rsum m (fun j => IZR (T i j) * basis j k))
  /\ forall x, in_lattice m d vecs x <-> in_lattice m d basis x.
Proof.
  intros gsc round lstsq fuel basis c vecs transf H. unfold lll in H. destruct (d <? m)%nat; [discriminate|].
  destruct (loop _ _ _ _ _ _ _ _ _) as [st|] eqn:E; [|discriminate]. cbv zeta in H.
  destruct (negb _); [discriminate|]. destruct (negb _); [discriminate|]. assert (LllModel.vecs realA st = vecs) by congruence. subst vecs.
  pose proof (unim_trans m d _ _ _ (loop_unim m d gsc round c fuel 0 _ st E) (init_unim m d gsc round basis)) as U.
  split.
  - destruct U as (T & W & H1 & H2 & H3). exists T. split; auto. exists W. auto.
  - intros x. split; apply unim_lattice; auto. apply unim_sym; auto.
Qed.

Lemma zero_resid (v : nat -> nat -> R) (b : nat -> nat -> R) i (x : nat -> R) (T : nat -> Z) : independent m d b ->
  (forall k, (k < d)%nat -> v i k = Rsum m (fun j => IZR (T j) * b j k)) ->
  (forall j, (j < m)%nat -> dot d (b j) (fun k => v i k - Rsum m (fun l => x l * b l k)) = 0) ->
  forall j, (j < m)%nat -> x j = IZR (T j).
Proof.
  intros Hi Hv Ho j Hj. set (r := fun k => v i k - Rsum m (fun l => x l * b l k)) in *.
  assert (Er : forall k, (k < d)%nat -> r k = Rsum m (fun j => (IZR (T j) - x j) * b j k)).
  { intros k Hk. unfold r. rewrite Hv by auto. rewrite <- Rsum_minus. apply Rsum_ext. intros. ring. }
  assert (Z : dot d r r = 0).
  { rewrite (dot_ext d r r (fun k => Rsum m (fun j => (IZR (T j) - x j) * b j k)) r) by auto. rewrite dot_sum_l.
    transitivity (Rsum m (fun _ => 0)); [|apply Rsum_0]. apply Rsum_ext. intros l Hl. rewrite Ho by auto. ring. }
  assert (E : IZR (T j) - x j = 0); [|lra]. apply (Hi (fun j => IZR (T j) - x j)); auto. intros k Hk. rewrite <- Er by auto. apply (dot_zero d r Z k Hk).
Qed.
Lemma round_int round z : round_ok round -> round (IZR z) = z.
Proof.
  intros H. specialize (H (IZR z)). rewrite <- minus_IZR, <- abs_IZR in H. assert (Z.abs (round (IZR z) - z) < 1)%Z; [|lia].
  apply lt_IZR. lra.
Qed.
Lemma resid_coef lstsq basis v (T : nat -> nat -> Z) : independent m d basis -> lstsq_mat_ok m d lstsq ->
  (forall i k, (i < m)%nat -> (k < d)%nat -> v i k = Rsum m (fun j => IZR (T i j) * basis j k)) ->
  forall i j, (i < m)%nat -> (j < m)%nat -> lstsq basis v j i = IZR (T i j).
Proof.
  intros Hi Hl Hv i j H1 H2. apply (zero_resid v basis i (fun l => lstsq basis v l i) (T i)); auto.
Qed.
Lemma transpose_unimodular T : unimodular m T -> unimodular m (fun i j => T j i).
Proof.
  intros (W & H1 & H2). exists (fun i j => W j i). split; intros i j Hi Hj.
  - rewrite (Zsum_ext m (fun l => (T l i * W j l)%Z) (fun l => (W j l * T l i)%Z)) by (intros; ring). rewrite H2 by auto. rewrite Nat.eqb_sym. auto.
  - rewrite (Zsum_ext m (fun l => (W l i * T j l)%Z) (fun l => (T j l * W l i)%Z)) by (intros; ring). rewrite H1 by auto. rewrite Nat.eqb_sym. auto.
Qed.

(** The returned transformation is unimodular, and column i of it has the
    coefficients of the i-th reduced vector in the given basis. *)
Theorem C35_transformation : forall gsc round lstsq fuel basis c vecs transf,
  round_ok round -> lstsq_mat_ok m d lstsq -> independent m d basis ->
  lll realA m d gsc round lstsq fuel basis c = LDone vecs transf ->
  unimodular m transf /\ forall i k, (i < m)%nat -> (k < d)%nat -> vecs i k = Rsum m (fun j => IZR (transf j i) * basis j k).
Proof.
  intros gsc round lstsq fuel basis c vecs transf Hr Hl Hi H. destruct (proj1 (C35_lattice _ _ _ _ _ _ _ _ H)) as (T & UT & HT).
  assert (E : forall i j, (i < m)%nat -> (j < m)%nat -> transf j i = T i j).
  { intros i j Hi' Hj. unfold lll in H. destruct (d <? m)%nat; [discriminate|].
    destruct (loop _ _ _ _ _ _ _ _ _) as [st|] eqn:Es; [|discriminate]. cbv zeta in H.
    destruct (negb _); [discriminate|]. destruct (negb _); [discriminate|]. inversion H; subst. clear H.
    rewrite (resid_coef lstsq basis _ T Hi Hl HT i j Hi' Hj). apply round_int; auto. }
  split.
  - destruct (transpose_unimodular T UT) as (W & H1 & H2). exists W. split; intros i j Hi' Hj.
    + rewrite <- H1 by auto. apply Zsum_ext. intros l Hl'. rewrite E by auto. auto.
    + rewrite <- H2 by auto. apply Zsum_ext. intros l Hl'. rewrite E by auto. auto.
  - intros i k Hi' Hk. rewrite HT by auto. apply Rsum_ext. intros j Hj. rewrite E by auto. auto.
Qed.

(** In exact arithmetic, the result is c-reduced ... *)
Theorem C35_reduced : forall round lstsq fuel basis c vecs transf,
  independent m d basis ->
  lll realA m d (gs_coefficient realA d) round lstsq fuel basis c = LDone vecs transf -> c_reduced m d vecs c.
Proof.
  intros round lstsq fuel basis c vecs transf Hi H. unfold lll in H. destruct (d <? m)%nat; [discriminate|].
  destruct (loop _ _ _ _ _ _ _ _ _) as [st|] eqn:Es; [|discriminate]. cbv zeta in H.
  destruct (negb _); [discriminate|]. destruct (negb _); [discriminate|]. assert (LllModel.vecs realA st = vecs) by congruence. subst vecs.
  destruct (loop_good m d round c fuel 0 _ st (init_good m d round basis Hi) ltac:(intros; lia) Es) as [G O]. apply good_spec with (1 := G) (2 := O).
Qed.

(** ... and the errors for instabilities do not occur. *)
Theorem C35_no_failure : forall round lstsq fuel basis c,
  round_ok round -> lstsq_mat_ok m d lstsq -> independent m d basis -> (m <= d)%nat ->
  (exists vecs transf, lll realA m d (gs_coefficient realA d) round lstsq fuel basis c = LDone vecs transf)
  \/ lll realA m d (gs_coefficient realA d) round lstsq fuel basis c = LFuel.
Proof.
  intros round lstsq fuel basis c Hr Hl Hi Hmd. unfold lll. destruct (Nat.ltb_spec d m); [lia|].
  destruct (loop _ _ _ _ _ _ _ _ _) as [st|] eqn:Es; [|right; auto]. cbv zeta. left.
  destruct (loop_good m d round c fuel 0 _ st (init_good m d round basis Hi) ltac:(intros; lia) Es) as [G O].
  pose proof (unim_trans m d _ _ _ (loop_unim m d _ round c fuel 0 _ st Es) (init_unim m d _ round basis)) as (T & W & H1 & H2 & H3).
  set (b1 := forallb _ _). assert (E1 : b1 = true).
  { apply forallb_forall. intros j Hj. apply in_seq in Hj. apply forallb_forall. intros i Hi'. apply in_seq in Hi'.
    rewrite (resid_coef lstsq basis (LllModel.vecs realA st) T Hi Hl H3 i j) by lia. rewrite (round_int round (T i j) Hr). unfold close. apply negb_true_iff.
    match goal with |- ?x = false => destruct x eqn:E end; auto. apply fltb_iff in E. rewrite !fabs_Rabs in E.
    assert (0 <= Rabs (IZR (T i j))) by apply Rabs_pos.
    cbn [realA fadd fmul fdiv fsub f1 fZ F] in *. replace (IZR (T i j) - IZR (T i j)) with 0 in E by ring. rewrite Rabs_R0 in E.
    assert (0 < 1 / 1000000) by lra. assert (0 < 1 / 100000) by lra. assert (0 <= 1 / 100000 * Rabs (IZR (T i j))) by (apply Rmult_le_pos; lra). lra. }
  rewrite E1. cbn [negb]. rewrite (proj2 (is_c_reduced_good m d c st G) O). cbn [negb]. eauto.
Qed.
End Props.

(** For two vectors in the plane or in space, and c > 4/3 (the documented
    condition), lll does return. *)
Theorem C35_terminates_two : forall d round lstsq basis c, (2 <= d)%nat -> 4 / 3 < c ->
  round_ok round -> lstsq_mat_ok 2 d lstsq -> independent 2 d basis ->
  exists fuel vecs transf, lll realA 2 d (gs_coefficient realA d) round lstsq fuel basis c = LDone vecs transf.
Proof.
  intros d round lstsq basis c Hd Hc Hr Hl Hi. destruct (terminates_two d round Hr c Hc basis Hi) as (fuel & st & E). exists fuel.
  destruct (C35_no_failure 2 d round lstsq fuel basis c Hr Hl Hi Hd) as [(v & t & H)|H]; [eauto|].
  exfalso. unfold lll in H. destruct (Nat.ltb_spec d 2); [lia|]. rewrite E in H. cbv zeta in H. destruct (negb _); [discriminate|]. destruct (negb _); discriminate.
Qed.

(** ** Examples *)
(** the identity basis of the plane satisfies the hypotheses *)
Example C35_hypotheses : independent 2 2 (fun i k => if (i =? k)%nat then 1 else 0).
Proof.
  intros x H i Hi. specialize (H i Hi). rewrite (@Rsum_ext 2 _ (fun j => if (j =? i)%nat then x j else 0)) in H; [rewrite (@Rsum_delta 2 i x) in H; auto|].
  intros j _. destruct (j =? i)%nat; ring.
Qed.
(** least squares and rounding functions as assumed exist: for the lattice of
    one vector in one dimension *)
Example C35_oracles : lstsq_mat_ok 1 1 (fun b v l i => v i 0%nat / b 0%nat 0%nat) /\ round_ok (fun x => (up (x - 1 / 2))%Z).
Proof.
  split.
  - intros b v i j Hi Hj. destruct i; [|lia]. destruct j; [|lia]. unfold dot. cbn. destruct (Req_dec (b 0%nat 0%nat) 0) as [->|N]; [ring|]. field. auto.
  - intros x. destruct (archimed (x - 1 / 2)) as [H1 H2]. apply Rabs_le. lra.
Qed.

(** The same code on rational numbers, with numpy's rounding half to even. *)
Definition half_even (x : Q) : Z :=
  let f := Qfloor x in let r := (x - inject_Z f)%Q in
  if Qle_bool (1 # 2) r then if Qle_bool r (1 # 2) then if Z.even f then f else (f + 1)%Z else (f + 1)%Z else f.
Definition rows {A : arith} (l : list (list Z)) : nat -> nat -> F A := fun i k => fZ A (nth k (nth i l []) 0%Z).
(** The returned basis is c-reduced, but need not be size-reduced: only the
    vector that has been exchanged is reduced again, the coefficients of the
    later vectors, which have changed as well, are not. *)
Definition bad_basis : nat -> nat -> Q := @rows ratA [[-1; -3; 1]; [0; 1; 0]; [0; 1; 1]]%Z.
Definition table (n d : nat) (f : nat -> nat -> Q) : list (list Q) := map (fun i => map (f i) (seq 0 d)) (seq 0 n).
Definition bad_final : option (list (list Q) * list (list Q)) :=
  match loop ratA 3 3 (gs_coefficient ratA 3) half_even 20 (134 # 100)%Q 0 (initialize ratA 3 3 (gs_coefficient ratA 3) half_even bad_basis) with
  | Some st => Some (table 3 3 (vecs ratA st), table 3 3 (u ratA st))
  | None => None
  end.
Example C35_size_reduced_refuted_run :
  exists v w, bad_final = Some (v, w) /\ v = [[0; 1; 0]; [0; -1; 1]; [-1; 0; 0]]%Q /\ nth 0 (nth 1 w []) 0%Q = (-1)%Q.
Proof. do 2 eexists. split; [vm_compute; reflexivity|]. split; reflexivity. Qed.
(** these vectors are indeed not size-reduced *)
Example C35_size_reduced_refuted : ~ size_reduced 3 3 (@rows realA [[0; 1; 0]; [0; -1; 1]; [-1; 0; 0]]%Z).
Proof.
  intros (s & u & (H1 & H2) & H3 & H4).
  pose proof (H1 0 0 ltac:(lia) ltac:(lia))%nat as A0. pose proof (H1 0 1 ltac:(lia) ltac:(lia))%nat as A1. pose proof (H1 0 2 ltac:(lia) ltac:(lia))%nat as A2.
  pose proof (H1 1 0 ltac:(lia) ltac:(lia))%nat as B0. pose proof (H1 1 1 ltac:(lia) ltac:(lia))%nat as B1. pose proof (H1 1 2 ltac:(lia) ltac:(lia))%nat as B2.
  pose proof (H2 0 1 ltac:(lia) ltac:(lia) ltac:(lia))%nat as O. pose proof (H4 1 0 ltac:(lia) ltac:(lia))%nat as U.
  cbn in A0, A1, A2, B0, B1, B2. unfold dot in O. cbn in O. assert (- (1 / 2) <= u 1%nat 0%nat) by (pose proof (Rle_abs (- u 1%nat 0%nat)) as N; rewrite Rabs_Ropp in N; lra).
  set (x := u 1%nat 0%nat) in *. assert (E0 : s 0%nat 0%nat = 0) by lra. assert (E1 : s 0%nat 1%nat = 1) by lra. assert (E2 : s 0%nat 2%nat = 0) by lra.
  rewrite E0, E1, E2 in *. lra.
Qed.
