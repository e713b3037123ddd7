From Coq Require Import List Bool Arith ZArith Reals Lia Lra Psatz Sorting.Permutation Sorting.Sorted.
From Verif Require Import KpmReal KpmRealProofs CvpModel CvpSpec CvpProofs.
Import ListNotations.
Open Scope R_scope.

Lemma ss_app {A} (R : A -> A -> Prop) l1 l2 : StronglySorted R (l1 ++ l2) ->
  StronglySorted R l1 /\ StronglySorted R l2 /\ (forall x y, In x l1 -> In y l2 -> R x y).
Proof.
  induction l1 as [|a l1 IH]; cbn; intros H; [split; [constructor|split; [auto|intros x y []]]|].
  inversion H as [|? ? H1 H2]; subst. apply IH in H1. destruct H1 as (A1 & A2 & A3). rewrite Forall_app in H2. destruct H2 as [F1 F2].
  split; [constructor; auto|]. split; auto. intros x y [->|Hx] Hy; [|auto]. rewrite Forall_forall in F2. auto.
Qed.
Lemma ss_impl {A} (R R' : A -> A -> Prop) l : (forall x y, In x l -> In y l -> R x y -> R' x y) -> StronglySorted R l -> StronglySorted R' l.
Proof.
  intros H. induction 1 as [|a l H1 IH H2]; constructor.
  - apply IH. intros; apply H; cbn; auto.
  - rewrite Forall_forall in *. intros y Hy. apply H; cbn; auto.
Qed.
Lemma NoDup_app_l {A} (l1 l2 : list A) : NoDup (l1 ++ l2) -> NoDup l1.
Proof.
  induction l1; cbn; intros H; constructor; inversion H; subst; auto. intros Hi. apply H2, in_app_iff; auto.
Qed.
Lemma ss_nth {A} (R : A -> A -> Prop) l i j a : StronglySorted R l -> (i < j)%nat -> (j < length l)%nat -> R (nth i l a) (nth j l a).
Proof.
  intros H. revert i j. induction H as [|x l H1 IH H2]; intros i j Hi Hj; [cbn in Hj; lia|].
  destruct j as [|j]; [lia|]. cbn in Hj. destruct i as [|i]; cbn [nth]; [rewrite Forall_forall in H2; apply H2, nth_In; lia|]. apply IH; lia.
Qed.

Section Main.
Variables m d : nat.
Variable b : nat -> nat -> R.
Variable lstsq : (nat -> R) -> nat -> R.
Variable inv : (nat -> nat -> R) -> nat -> nat -> R.
Variable round : R -> Z.
Variable argsort : (point -> R) -> list point -> list point.
Hypothesis Hlstsq : lstsq_ok m d b lstsq.
Hypothesis Hinv : inv_ok m d b inv.
Hypothesis Hround : round_ok round.
Hypothesis Hsort : argsort_ok argsort.
Hypothesis Hm : (0 < m)%nat.
Notation "u · v" := (dot d u v) (at level 40).
Notation rad := (rad m d b inv).
Notation comb := (comb m b).
Notation distance := (distance m d b).
Notation cvp_step := (cvp_step m d b inv argsort).
Notation cvp_loop := (cvp_loop m d b inv argsort).
Notation cvp := (cvp m d b lstsq inv round argsort).

Lemma position_vector p k : length p = m -> position m b p k = vector b p k.
Proof. intros H. unfold position, vector. rewrite H. auto. Qed.

Section Vec.
Variable vec : nat -> R.
Let x := lstsq vec.
Let v := comb x.
Let c : point := map (fun i => round (x i)) (seq 0 m).
Lemma c_len : length c = m. Proof. unfold c. rewrite map_length, seq_length. auto. Qed.
Lemma c_nth i : (i < m)%nat -> nth i c 0%Z = round (x i).
Proof. intros Hi. unfold c. rewrite nth_indep with (d' := round (x 0%nat)) by (rewrite map_length, seq_length; auto). rewrite (map_nth (fun i => round (x i))), seq_nth by auto. auto. Qed.

Lemma distance_dist p : length p = m -> distance v p = dist d (vector b p) v.
Proof.
  intros H. unfold distance, dist. f_equal. apply Rsum_ext. intros k _. rewrite position_vector by auto. auto.
Qed.
Lemma diff_comb p k : position m b p k - v k = comb (fun i => IZR (nth i p 0%Z) - x i) k.
Proof. unfold position, v, comb. rewrite <- Rsum_minus. apply Rsum_ext. intros; ring. Qed.
Lemma distance_comb p : distance v p = sqrt (comb (fun i => IZR (nth i p 0%Z) - x i) · comb (fun i => IZR (nth i p 0%Z) - x i)).
Proof. unfold distance. f_equal. apply Rsum_ext. intros k _. rewrite diff_comb. auto. Qed.
(** points outside the box are far away *)
Lemma outside p l : length p = m -> ~ In p (box c l) -> (2 * INR l + 1) * rad <= distance v p.
Proof.
  intros Lp H. rewrite in_box, c_len in H.
  assert (Ex : exists i, (i < m)%nat /\ (Z.of_nat l < Z.abs (nth i p 0 - nth i c 0))%Z).
  { assert (G : forall n, (n <= m)%nat -> (exists i, (i < n)%nat /\ (Z.of_nat l < Z.abs (nth i p 0 - nth i c 0))%Z) \/ (forall i, (i < n)%nat -> (Z.abs (nth i p 0 - nth i c 0) <= Z.of_nat l)%Z)).
    { induction n as [|n IH]; intros Hn; [right; intros; lia|]. destruct IH as [(i & Hi & E)|IH]; [lia|left; exists i; split; auto; lia|].
      destruct (Z_le_gt_dec (Z.abs (nth n p 0%Z - nth n c 0%Z)) (Z.of_nat l)); [|left; exists n; split; lia].
      right. intros i Hi. destruct (Nat.eq_dec i n) as [->|]; auto. apply IH; lia. }
    destruct (G m) as [E|G']; auto. exfalso. apply H; auto. }
  destruct Ex as (i & Hi & E). rewrite c_nth in E by auto. rewrite distance_comb.
  replace ((2 * INR l + 1) * rad) with (2 * (INR l + 1 / 2) * rad) by field.
  pose proof (pos_INR l) as Pl.
  apply norm_bound with (i := i); auto; [lra|].
  pose proof (Hround (x i)) as Hr. cbv beta.
  assert (E2 : (INR l + 1 <= Rabs (IZR (nth i p 0%Z) - IZR (round (x i))))).
  { rewrite <- minus_IZR, <- abs_IZR, INR_IZR_INZ, <- plus_IZR. apply IZR_le. lia. }
  replace (IZR (nth i p 0%Z) - IZR (round (x i))) with ((IZR (nth i p 0%Z) - x i) - (IZR (round (x i)) - x i)) in E2 by ring.
  pose proof (Rabs_triang (IZR (nth i p 0%Z) - x i) (- (IZR (round (x i)) - x i))) as T. rewrite Rabs_Ropp in T. unfold Rminus at 1 in E2. lra.
Qed.
(** some point of the box is at a distance of at least (2 l - 1) rad *)
Lemma extreme l : exists p, In p (box c l) /\ (2 * INR l - 1) * rad <= distance v p.
Proof.
  set (p := map (fun z => (z + Z.of_nat l)%Z) c).
  assert (Lp : length p = m) by (unfold p; rewrite map_length; apply c_len).
  assert (Np : forall i, (i < m)%nat -> nth i p 0%Z = (round (x i) + Z.of_nat l)%Z).
  { intros i Hi. unfold p. rewrite nth_indep with (d' := (fun z => (z + Z.of_nat l)%Z) 0%Z) by (rewrite map_length, c_len; auto). rewrite (map_nth (fun z => (z + Z.of_nat l)%Z)), c_nth; auto. }
  exists p. split.
  - apply in_box. rewrite c_len. split; auto. intros i Hi. rewrite Np, c_nth by auto. lia.
  - destruct (Req_dec (INR l) 0) as [Z0|Z0].
    + rewrite Z0. pose proof (rad_pos m d b inv Hinv Hm). pose proof (sqrt_pos (Rsum d (fun k => (position m b p k - v k) * (position m b p k - v k)))). unfold distance. lra.
    + assert (1 <= INR l) by (destruct l; [cbn in Z0; lra|rewrite S_INR; pose proof (pos_INR l); lra]).
      rewrite distance_comb. replace ((2 * INR l - 1) * rad) with (2 * (INR l - 1 / 2) * rad) by field.
      apply norm_bound with (i := O); auto; [lra|]. cbv beta. rewrite Np by auto. rewrite plus_IZR, <- INR_IZR_INZ.
      pose proof (Hround (x 0%nat)) as Hr. eapply Rle_trans; [|apply Rle_abs].
      pose proof (Rle_abs (- (IZR (round (x 0%nat)) - x 0%nat))) as Ha. rewrite Rabs_Ropp in Ha. lra.
Qed.
Lemma pythagoras p : length p = m -> dist d (vector b p) vec = sqrt (distance v p * distance v p + dist d v vec * dist d v vec).
Proof.
  intros Lp. rewrite distance_dist by auto. unfold dist at 1. f_equal. unfold dist. rewrite !sqrt_sqrt by apply dot_pos.
  assert (O : forall y, comb y · (fun k => v k - vec k) = 0).
  { intros y. unfold comb. rewrite dot_sum_l. rewrite <- (Rsum_0 m). apply Rsum_ext. intros i Hi.
    replace (b i · (fun k => v k - vec k)) with (- (b i · (fun k => vec k - v k))).
    - unfold v, comb, x. change (fun k => vec k - CvpProofs.comb m b (lstsq vec) k) with (fun k => vec k - Rsum m (fun j => lstsq vec j * b j k)). rewrite Hlstsq by auto. ring.
    - unfold dot. rewrite <- Rsum_opp. apply Rsum_ext; intros; ring. }
  set (e := fun k => v k - vec k). set (y := fun i => IZR (nth i p 0%Z) - x i).
  rewrite (dot_ext d _ _ (fun k => comb y k + e k) (fun k => comb y k + e k)).
  2, 3: intros k _; unfold y, e; rewrite <- diff_comb, position_vector by auto; ring.
  rewrite (dot_ext d (fun k => vector b p k - v k) _ (comb y) (comb y)).
  2, 3: intros k _; unfold y; rewrite <- diff_comb, position_vector by auto; ring.
  rewrite dot_plus_l, !dot_plus_r, (dot_comm d e (comb y)). fold e in O. rewrite !O. ring.
Qed.
Lemma dist_le p q : length p = m -> length q = m -> distance v p <= distance v q -> dist d (vector b p) vec <= dist d (vector b q) vec.
Proof.
  intros Hp Hq H. rewrite !pythagoras by auto. apply sqrt_le_1_alt.
  assert (0 <= distance v p) by apply sqrt_pos. nra.
Qed.

Lemma loop_done fuel n g rtol : forall l r, (1 <= l)%nat -> cvp_loop fuel v c n g rtol l = r -> r = CFuel \/ exists l', (l <= l')%nat /\ cvp_step v c n g rtol l' = Some r.
Proof.
  induction fuel as [|fuel IH]; intros l r Hl; cbn; auto.
  destruct (cvp_step v c n g rtol l) as [r'|] eqn:E.
  - intros <-. right. exists l. auto.
  - intros H. destruct (IH (S l) r ltac:(lia) H) as [|(l' & ? & ?)]; auto. right. exists l'. split; auto. lia.
Qed.

Lemma sorted_box l : let S := argsort (distance v) (box c l) in
  Permutation S (box c l) /\ StronglySorted (fun p q => distance v p <= distance v q) S /\ NoDup S /\ (forall p, In p S -> length p = m).
Proof.
  intros S. destruct (Hsort (distance v) (box c l)) as [P SS]. split; [exact P|]. split; [exact SS|]. split.
  - eapply Permutation_NoDup; [apply Permutation_sym; exact P|apply box_NoDup].
  - intros p Hp. apply (Permutation_in p P) in Hp. apply in_box in Hp. rewrite c_len in Hp. tauto.
Qed.

Theorem main_closest fuel n rtol ps : cvp fuel vec n false rtol = CDone ps ->
  length ps = n /\ NoDup ps /\ Forall (lattice_point m) ps
  /\ StronglySorted (fun p q => dist d (vector b p) vec <= dist d (vector b q) vec) ps
  /\ forall p q, In p ps -> lattice_point m q -> ~ In q ps -> dist d (vector b p) vec <= dist d (vector b q) vec.
Proof.
  unfold cvp. fold x. change (fun k => Rsum m (fun i => x i * b i k)) with v. fold c. intros H.
  apply loop_done in H; [|lia]. destruct H as [|(l & Hl & H)]; [discriminate|].
  unfold cvp_step in H. destruct (length (box c l) <? n)%nat eqn:En; [discriminate|]. apply Nat.ltb_ge in En. cbv zeta in H.
  destruct (sorted_box l) as (P & SS & ND & Ln). set (S := argsort (distance v) (box c l)) in *.
  destruct (Rltb _ _) eqn:Eb; [|discriminate]. apply Rltb_spec in Eb. assert (ps = firstn n S) by congruence. subst ps. clear H.
  assert (LS : length S = length (box c l)) by (apply Permutation_length; auto).
  rewrite <- (firstn_skipn n S) in SS, ND. apply ss_app in SS. destruct SS as (S1 & S2 & S3).
  assert (In1 : forall p, In p (firstn n S) -> length p = m) by (intros p Hp; apply Ln; rewrite <- (firstn_skipn n S); apply in_app_iff; auto).
  assert (Lf : length (firstn n S) = n) by (rewrite firstn_length; lia).
  split; auto. split; [eapply NoDup_app_l; eauto|]. split; [apply Forall_forall; auto|]. split.
  - eapply ss_impl; [|exact S1]. cbv beta. intros p q Hp Hq. apply dist_le; auto.
  - intros p q Hp Hq Nq. apply dist_le; auto.
    destruct (in_dec (list_eq_dec Z.eq_dec) q (box c l)) as [Hi|Ho].
    + apply (Permutation_in q (Permutation_sym P)) in Hi. rewrite <- (firstn_skipn n S) in Hi. apply in_app_iff in Hi. destruct Hi; [contradiction|auto].
    + destruct n as [|n]; [destruct Hp|]. cbn [at_pred] in Eb.
      assert (En2 : nth n (map (distance v) S) 0 = distance v (nth n S [])).
      { rewrite nth_indep with (d' := distance v []) by (rewrite map_length; lia). apply map_nth. }
      rewrite En2 in Eb. apply outside in Ho; auto. pose proof (rad_pos m d b inv Hinv Hm) as Pr.
      assert (Dp : distance v p <= distance v (nth n S [])).
      { apply In_nth with (d := []) in Hp. destruct Hp as (i & Hi & <-). rewrite Lf in Hi.
        assert (Fn : forall j, (j <= n)%nat -> nth j S [] = nth j (firstn (Datatypes.S n) S) []).
        { intros j Hj. rewrite <- (firstn_skipn (Datatypes.S n) S) at 1. apply app_nth1. lia. }
        rewrite Fn by lia. destruct (Nat.eq_dec i n) as [->|]; [lra|].
        apply (ss_nth (fun p q => distance v p <= distance v q)); auto; lia. }
      nra.
Qed.

Lemma last_max (S : list point) : StronglySorted (fun p q => distance v p <= distance v q) S -> forall p, In p S -> distance v p <= last (map (distance v) S) 0.
Proof.
  induction 1 as [|a S H1 IH H2]; intros p; [intros []|]. destruct S as [|a' S]; [intros [->|[]]; cbn; lra|].
  change (last (map (distance v) (a :: a' :: S)) 0) with (last (map (distance v) (a' :: S)) 0). intros [->|Hp]; [|apply IH; auto].
  eapply Rle_trans; [|apply (IH a'); cbn; auto]. inversion H2; subst; auto.
Qed.
(** n = 0: the loop never ends *)
Theorem main_zero fuel rtol : cvp fuel vec 0 false rtol = CFuel.
Proof.
  unfold cvp. fold x. change (fun k => Rsum m (fun i => x i * b i k)) with v. fold c.
  destruct (loop_done fuel 0 false rtol 1 _ (le_n 1) eq_refl) as [|(l & Hl & H)]; auto. exfalso.
  unfold cvp_step in H. destruct (length (box c l) <? 0)%nat eqn:En; [discriminate|]. cbv zeta in H. cbn [at_pred] in H.
  destruct (sorted_box l) as (P & SS & ND & Ln). set (S := argsort (distance v) (box c l)) in *.
  destruct (extreme l) as (p & Hp & Ep). apply (Permutation_in p (Permutation_sym P)) in Hp. pose proof (last_max S SS p Hp) as Lm.
  destruct (Rltb _ _) eqn:Eb; [|discriminate]. apply Rltb_spec in Eb. pose proof (rad_pos m d b inv Hinv Hm). lra.
Qed.

(** grouping *)
Lemma filter_map_S f (s : list nat) : filter f (map S s) = map S (filter (fun i => f (S i)) s).
Proof. induction s as [|i s IH]; auto. cbn. rewrite IH. destruct (f (S i)); auto. Qed.
Lemma boundaries_cons tol a a' l : boundaries tol (a :: a' :: l) = (if Rltb tol (a' - a) then [0%nat] else []) ++ map S (boundaries tol (a' :: l)).
Proof.
  unfold boundaries. cbn [length]. rewrite !Nat.sub_succ, !Nat.sub_0_r. change (seq 0 (S (length l))) with (0%nat :: seq 1 (length l)).
  rewrite <- seq_shift. set (f := fun i => Rltb tol (nth (S i) (a :: a' :: l) 0 - nth i (a :: a' :: l) 0)).
  transitivity ((if f O then [O] else []) ++ filter f (map S (seq 0 (length l)))); [cbn [filter]; destruct (f O); auto|].
  rewrite filter_map_S. reflexivity.
Qed.
Lemma boundaries_gaps tol l : length (boundaries tol l) = gaps tol l.
Proof.
  induction l as [|a l IH]; auto. destruct l as [|a' l]; auto. rewrite boundaries_cons, app_length, map_length, IH. cbn [gaps].
  unfold Rltb. destruct (Rlt_dec tol (a' - a)); auto.
Qed.
Lemma boundaries_cut tol : forall l n, (n < length (boundaries tol l))%nat ->
  let g := nth n (boundaries tol l) 0%nat in
  (S g < length l)%nat /\ tol < nth (S g) l 0 - nth g l 0 /\ gaps tol (firstn (g + 1) l) = n.
Proof.
  induction l as [|a l IH]; intros n Hn; [cbn in Hn; lia|]. destruct l as [|a' l]; [cbn in Hn; lia|].
  rewrite boundaries_cons in *. destruct (Rltb tol (a' - a)) eqn:Eb.
  - cbn [app] in *. destruct n as [|n]; cbn [nth].
    + apply Rltb_spec in Eb. cbn. split; [lia|]. split; auto.
    + cbn [length] in Hn. rewrite map_length in Hn. destruct (IH n ltac:(lia)) as (A1 & A2 & A3).
      rewrite nth_indep with (d' := S 0) by (rewrite map_length; lia). rewrite map_nth. set (g := nth n (boundaries tol (a' :: l)) 0%nat) in *. cbn zeta in *.
      split; [cbn [length] in *; lia|]. split; [cbn [nth] in *; auto|].
      replace (S g + 1)%nat with (S (g + 1)) by lia. cbn [firstn]. destruct (firstn (g + 1) (a' :: l)) as [|h t] eqn:Ef.
      { apply (f_equal (@length R)) in Ef. rewrite firstn_length in Ef. cbn [length] in Ef, A1. lia. }
      assert (h = a') by (replace (g + 1)%nat with (S g) in Ef by lia; cbn in Ef; congruence). subst h.
      apply Rltb_spec in Eb. change (gaps tol (a :: a' :: t)) with ((if Rlt_dec tol (a' - a) then 1 else 0) + gaps tol (a' :: t))%nat. destruct (Rlt_dec _ _); [|lra]. lia.
  - cbn [app] in *. rewrite map_length in Hn. destruct (IH n Hn) as (A1 & A2 & A3).
    rewrite nth_indep with (d' := S 0) by (rewrite map_length; lia). rewrite map_nth. set (g := nth n (boundaries tol (a' :: l)) 0%nat) in *. cbn zeta in *.
    split; [cbn [length] in *; lia|]. split; [cbn [nth] in *; auto|].
    replace (S g + 1)%nat with (S (g + 1)) by lia. cbn [firstn]. destruct (firstn (g + 1) (a' :: l)) as [|h t] eqn:Ef.
    { apply (f_equal (@length R)) in Ef. rewrite firstn_length in Ef. cbn [length] in Ef, A1. lia. }
    assert (h = a') by (replace (g + 1)%nat with (S g) in Ef by lia; cbn in Ef; congruence). subst h.
    apply Rltb_false in Eb. change (gaps tol (a :: a' :: t)) with ((if Rlt_dec tol (a' - a) then 1 else 0) + gaps tol (a' :: t))%nat. destruct (Rlt_dec _ _); [lra|]. lia.
Qed.

(** the result with group_by_length *)
Theorem main_grouped fuel n rtol ps : (0 < n)%nat -> cvp fuel vec n true rtol = CDone ps ->
  NoDup ps /\ Forall (lattice_point m) ps /\ ps <> []
  /\ StronglySorted (fun p q => dist d (vector b p) v <= dist d (vector b q) v) ps
  /\ gaps (rtol * rad) (map (fun p => dist d (vector b p) v) ps) = (n - 1)%nat
  /\ forall p q, In p ps -> lattice_point m q -> ~ In q ps -> dist d (vector b p) v + rtol * rad < dist d (vector b q) v.
Proof.
  intros Hn. unfold cvp. fold x. change (fun k => Rsum m (fun i => x i * b i k)) with v. fold c. intros H.
  apply loop_done in H; [|lia]. destruct H as [|(l & Hl & H)]; [discriminate|].
  unfold cvp_step in H. destruct (length (box c l) <? n)%nat eqn:En; [discriminate|]. apply Nat.ltb_ge in En. cbv zeta in H.
  destruct (sorted_box l) as (P & SS & ND & Ln). set (S := argsort (distance v) (box c l)) in *.
  pose proof (rad_pos m d b inv Hinv Hm) as Pr.
  assert (LS : length S = length (box c l)) by (apply Permutation_length; auto).
  assert (LD : forall p, In p S -> dist d (vector b p) v = distance v p) by (intros p Hp; rewrite distance_dist; auto).
  assert (MD : forall l, (forall p, In p l -> In p S) -> map (fun p => dist d (vector b p) v) l = map (distance v) l) by (intros l0 Hl0; apply map_ext_in; auto).
  set (B := boundaries (rtol * rad) (map (distance v) S)) in *.
  destruct (length B + 1 <? n)%nat eqn:E1; [discriminate|]. apply Nat.ltb_ge in E1.
  destruct (length B + 1 =? n)%nat eqn:E2.
  - apply Nat.eqb_eq in E2. destruct (Rltb _ _) eqn:Eb; [|discriminate]. apply Rltb_spec in Eb. assert (ps = S) by congruence. subst ps.
    split; auto. split; [apply Forall_forall; auto|]. split; [intros E0; rewrite E0 in LS; cbn in LS; lia|]. split; [|split].
    + eapply ss_impl; [|exact SS]. cbv beta. intros p q Hp Hq. rewrite !LD; auto.
    + rewrite MD by auto. rewrite <- boundaries_gaps. fold B. lia.
    + intros p q Hp Hq Nq. rewrite (LD p Hp), <- (distance_dist q Hq).
      assert (Ho : ~ In q (box c l)) by (intros Hi; apply Nq; apply (Permutation_in q (Permutation_sym P)); auto).
      apply outside in Ho; auto. pose proof (last_max S SS p Hp) as Lm. nra.
  - apply Nat.eqb_neq in E2. destruct n as [|n]; [lia|].
    cbn [at_pred] in H.
    set (g := nth n B 0%nat) in *. destruct (boundaries_cut (rtol * rad) (map (distance v) S) n ltac:(fold B; lia)) as (A1 & A2 & A3). fold B g in A1, A2, A3.
    rewrite map_length in A1. destruct (Rltb _ _) eqn:Eb; [|discriminate]. apply Rltb_spec in Eb. assert (ps = firstn (g + 1) S) by congruence. subst ps. clear H.
    assert (Sub : forall p, In p (firstn (g + 1) S) -> In p S) by (intros p Hp; rewrite <- (firstn_skipn (g + 1) S); apply in_app_iff; auto).
    assert (NM : forall i, (i < length S)%nat -> nth i (map (distance v) S) 0 = distance v (nth i S [])).
    { intros i Hi. rewrite nth_indep with (d' := distance v []) by (rewrite map_length; lia). apply map_nth. }
    rewrite !NM in A2 by lia. rewrite NM in Eb by lia.
    pose proof SS as SS0. rewrite <- (firstn_skipn (g + 1) S) in SS, ND. apply ss_app in SS. destruct SS as (S1 & S2 & S3).
    split; [eapply NoDup_app_l; eauto|]. split; [apply Forall_forall; intros q0 Hq0; apply Ln; auto|]. split.
    { intros E0. apply (f_equal (@length _)) in E0. rewrite firstn_length in E0. cbn in E0. lia. }
    split; [|split].
    + eapply ss_impl; [|exact S1]. cbv beta. intros p q Hp Hq. rewrite !LD; auto.
    + rewrite MD by auto. rewrite <- firstn_map. rewrite A3. lia.
    + intros p q Hp Hq Nq. rewrite (LD p (Sub p Hp)), <- (distance_dist q Hq).
      assert (Dp : distance v p <= distance v (nth g S [])).
      { apply In_nth with (d := []) in Hp. destruct Hp as (i & Hi & <-). rewrite firstn_length in Hi.
        assert (Fn : nth i (firstn (g + 1) S) [] = nth i S []) by (rewrite <- (firstn_skipn (g + 1) S) at 2; symmetry; apply app_nth1; rewrite firstn_length; lia).
        rewrite Fn. destruct (Nat.eq_dec i g) as [->|]; [lra|]. apply (ss_nth (fun p q => distance v p <= distance v q)); auto; lia. }
      destruct (in_dec (list_eq_dec Z.eq_dec) q (box c l)) as [Hi|Ho].
      * apply (Permutation_in q (Permutation_sym P)) in Hi. apply In_nth with (d := []) in Hi. destruct Hi as (j & Hj & Ej).
        assert (g < j)%nat.
        { destruct (le_lt_dec j g); auto. exfalso. apply Nq. rewrite <- Ej. replace (nth j S []) with (nth j (firstn (g + 1) S) []).
          - apply nth_In. rewrite firstn_length. lia.
          - rewrite <- (firstn_skipn (g + 1) S) at 2. symmetry; apply app_nth1. rewrite firstn_length. lia. }
        assert (distance v (nth (1 + g) S []) <= distance v q).
        { rewrite <- Ej. destruct (Nat.eq_dec j (1 + g)) as [->|]; [lra|]. apply (ss_nth (fun p q => distance v p <= distance v q)); auto; lia. }
        cbn [Nat.add] in *. lra.
      * apply outside in Ho; auto. nra.
Qed.
End Vec.
End Main.
