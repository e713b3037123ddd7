From Coq Require Import List Bool Arith ZArith Reals Lia Lra Psatz Sorting.Permutation Sorting.Sorted.
From Verif Require Import KpmReal KpmRealProofs CvpModel CvpSpec CvpProofs CvpMain.
Import ListNotations.
Open Scope R_scope.

Lemma dec_all (P : nat -> Prop) n : (forall i, {P i} + {~ P i}) -> (forall i, (i < n)%nat -> P i) \/ exists i, (i < n)%nat /\ ~ P i.
Proof.
  intros D. induction n as [|n [IH|(i & Hi & E)]]; [left; intros; lia| |right; exists i; split; auto; lia].
  destruct (D n); [left|right; exists n; split; auto]. intros i Hi. destruct (Nat.eq_dec i n) as [->|]; auto. apply IH; lia.
Qed.
Lemma nat_bound x y : 0 < y -> exists n, x <= INR n * y.
Proof.
  intros Hy. exists (Z.to_nat (up (x / y))). destruct (archimed (x / y)) as [H _].
  assert (H2 : IZR (up (x / y)) <= INR (Z.to_nat (up (x / y)))).
  { rewrite INR_IZR_INZ. apply IZR_le. lia. }
  assert (x = x / y * y) by (field; lra). nra.
Qed.

Section Vor.
Variables m d : nat.
Variable b : nat -> nat -> R.
Variable lstsq : (nat -> R) -> nat -> R.
Variable inv : (nat -> nat -> R) -> nat -> nat -> R.
Variable round : R -> Z.
Variable argsort : (point -> R) -> list point -> list point.
Hypothesis Hlstsq : lstsq_ok m d b lstsq.
Hypothesis Hinv : inv_ok m d b inv.
Hypothesis Hround : round_ok round.
Hypothesis Hsort : argsort_ok argsort.
Hypothesis Hm : (0 < m)%nat.
Notation "u · v" := (dot d u v) (at level 40).
Notation rad := (rad m d b inv).
Notation comb := (comb m b).
Notation distance := (distance m d b).
Notation cvp_step := (cvp_step m d b inv argsort).
Notation cvp_loop := (cvp_loop m d b inv argsort).
Notation cvp := (cvp m d b lstsq inv round argsort).

(** *** termination *)
Section Term.
Variable vec : nat -> R.
Let x := lstsq vec.
Let v := comb x.
Let c : point := map (fun i => round (x i)) (seq 0 m).
Lemma box_mono l l' : (l <= l')%nat -> incl (box c l) (box c l').
Proof. intros H p Hp. apply in_box in Hp. apply in_box. destruct Hp as [Lp Hp]. split; auto. intros i Hi. specialize (Hp i Hi). lia. Qed.
Lemma pow_ge n : (n < (2 * n + 1) ^ m)%nat.
Proof.
  destruct m as [|m']; [lia|]. cbn [Nat.pow]. assert (1 <= (2 * n + 1) ^ m')%nat by (apply Nat.neq_0_lt_0, Nat.pow_nonzero; lia). nia.
Qed.
Lemma max_in (l : list point) : exists D, forall p, In p l -> distance v p <= D.
Proof.
  induction l as [|a l (D & H)]; [exists 0; intros p []|]. exists (Rmax (distance v a) D). intros p [->|Hp]; [apply Rmax_l|]. eapply Rle_trans; [apply H; auto|apply Rmax_r].
Qed.
Lemma step_returns n rtol : (0 < n)%nat -> exists L, forall l, (L <= l)%nat -> exists ps, cvp_step v c n false rtol l = Some (CDone ps).
Proof.
  intros Hn. destruct (max_in (box c n)) as (D & HD). pose proof (rad_pos m d b inv Hinv Hm) as Pr.
  destruct (nat_bound (D + 2 * rad) (2 * rad)) as (L0 & HL0); [lra|].
  exists (Nat.max n L0). intros l Hl. unfold cvp_step. rewrite box_length.
  assert (Lc : length c = m) by (apply (c_len m lstsq round)). rewrite Lc.
  assert (Pn : (n < (2 * n + 1) ^ m)%nat) by apply pow_ge.
  assert (Pl : ((2 * n + 1) ^ m <= (2 * l + 1) ^ m)%nat) by (apply Nat.pow_le_mono_l; lia).
  destruct (((2 * l + 1) ^ m <? n)%nat) eqn:En; [apply Nat.ltb_lt in En; lia|]. cbv zeta.
  destruct (sorted_box m d b lstsq round argsort Hsort vec l) as (P & SS & ND & Ln). fold x in P, SS, ND, Ln. fold v c in P, SS, ND, Ln.
  set (S := argsort (distance v) (box c l)) in *.
  destruct n as [|n]; [lia|]. cbn [at_pred].
  apply Nat.ltb_ge in En. assert (LSn : (Datatypes.S n < length S)%nat) by (rewrite (Permutation_length P), box_length, Lc; eapply Nat.lt_le_trans; eauto).
  assert (LS : length S = ((2 * l + 1) ^ m)%nat) by (rewrite (Permutation_length P), box_length, Lc; auto).
  assert (En2 : nth n (map (distance v) S) 0 = distance v (nth n S [])).
  { rewrite nth_indep with (d' := distance v []) by (rewrite map_length; clear - LSn; lia). apply map_nth. }
  rewrite En2. destruct (Rltb _ _) eqn:Eb; [eauto|]. exfalso. apply Rltb_false in Eb.
  assert (INR L0 <= INR l) by (apply le_INR; lia).
  assert (HD2 : D < distance v (nth n S [])) by nra.
  assert (Inc : incl (box c (Datatypes.S n)) (firstn n S)).
  { intros p Hp. pose proof (HD p Hp) as Hd. apply (box_mono (Datatypes.S n) l ltac:(lia)) in Hp. apply (Permutation_in p (Permutation_sym P)) in Hp.
    apply In_nth with (d := []) in Hp. destruct Hp as (j & Hj & Ej).
    destruct (le_lt_dec n j) as [Hnj|Hnj].
    - exfalso. assert (distance v (nth n S []) <= distance v p); [|lra]. rewrite <- Ej. destruct (Nat.eq_dec n j) as [->|]; [lra|].
      apply (ss_nth (fun p q => distance v p <= distance v q)); auto; lia.
    - rewrite <- Ej. replace (nth j S []) with (nth j (firstn n S) []).
      + apply nth_In. rewrite firstn_length. lia.
      + rewrite <- (firstn_skipn n S) at 2. symmetry; apply app_nth1. rewrite firstn_length. lia. }
  apply NoDup_incl_length in Inc; [|apply box_NoDup]. rewrite box_length, Lc, firstn_length in Inc. lia.
Qed.
Theorem main_terminates n rtol : (0 < n)%nat -> exists F, forall fuel, (F <= fuel)%nat -> exists ps, cvp fuel vec n false rtol = CDone ps.
Proof.
  intros Hn. destruct (step_returns n rtol Hn) as (L & HL). exists (Datatypes.S L). intros fuel Hf.
  unfold cvp. fold x. change (fun k => Rsum m (fun i => x i * b i k)) with v. fold c.
  assert (Fst : forall l, cvp_step v c n false rtol l = None \/ exists ps, cvp_step v c n false rtol l = Some (CDone ps)).
  { intros l. unfold cvp_step. destruct (_ <? _)%nat; auto. cbv zeta. destruct (Rltb _ _); eauto. }
  assert (G : forall f l, (L < f + l)%nat -> (0 < f)%nat -> exists ps, cvp_loop f v c n false rtol l = CDone ps); [|apply G; lia].
  induction f as [|f IH]; intros l H1 H2; [lia|]. cbn [CvpModel.cvp_loop].
  destruct (le_lt_dec L l) as [Hl|Hl].
  - destruct (HL l Hl) as (ps & ->). eauto.
  - destruct (Fst l) as [->|(ps & ->)]; [|eauto]. apply IH; lia.
Qed.
End Term.

(** *** lattice vectors as functions *)
Definition mk (f : nat -> Z) : point := map f (seq 0 m).
Lemma mk_len f : length (mk f) = m. Proof. unfold mk. rewrite map_length, seq_length. auto. Qed.
Lemma mk_nth f i : (i < m)%nat -> nth i (mk f) 0%Z = f i.
Proof. intros Hi. unfold mk. rewrite nth_indep with (d' := f 0%nat) by (rewrite map_length, seq_length; auto). rewrite (map_nth f), seq_nth by auto. auto. Qed.
Definition lv (f : nat -> Z) : nat -> R := comb (fun i => IZR (f i)).
Definition cf (p : point) (i : nat) : Z := nth i p 0%Z.
Lemma lv_ext f g k : (forall i, (i < m)%nat -> f i = g i) -> lv f k = lv g k.
Proof. intros H. apply Rsum_ext. intros i Hi. rewrite H; auto. Qed.
Lemma vector_lv p k : length p = m -> vector b p k = lv (cf p) k.
Proof. intros H. unfold vector. rewrite H. auto. Qed.
Lemma lv_add f g k : lv (fun i => f i + g i)%Z k = lv f k + lv g k.
Proof. unfold lv, comb. rewrite <- Rsum_plus. apply Rsum_ext. intros. rewrite plus_IZR. ring. Qed.
Lemma lv_sub f g k : lv (fun i => f i - g i)%Z k = lv f k - lv g k.
Proof. unfold lv, comb. rewrite <- Rsum_minus. apply Rsum_ext. intros. rewrite minus_IZR. ring. Qed.
Lemma lv_scal c f k : lv (fun i => c * f i)%Z k = IZR c * lv f k.
Proof. unfold lv, comb. rewrite <- Rsum_mult_l. apply Rsum_ext. intros. rewrite mult_IZR. ring. Qed.
Lemma lv_opp f k : lv (fun i => - f i)%Z k = - lv f k.
Proof. unfold lv, comb. rewrite <- Rsum_opp. apply Rsum_ext. intros. rewrite opp_IZR. ring. Qed.
Definition sq (f : nat -> Z) : R := lv f · lv f.
Lemma sq_ext f g : (forall i, (i < m)%nat -> f i = g i) -> sq f = sq g.
Proof. intros H. apply dot_ext; intros; apply lv_ext; auto. Qed.
Lemma sq_add f g : sq (fun i => f i + g i)%Z = sq f + sq g + 2 * (lv f · lv g).
Proof.
  unfold sq. rewrite (dot_ext d _ _ (fun k => lv f k + lv g k) (fun k => lv f k + lv g k)) by (intros; apply lv_add).
  rewrite dot_plus_l, !dot_plus_r, (dot_comm d (lv g) (lv f)). ring.
Qed.
Lemma sq_opp f : sq (fun i => - f i)%Z = sq f.
Proof. apply Rsum_ext. intros. rewrite !lv_opp. ring. Qed.
Lemma dot_opp_l f u : lv (fun i => - f i)%Z · u = - (lv f · u).
Proof. unfold dot. rewrite <- Rsum_opp. apply Rsum_ext. intros. rewrite lv_opp. ring. Qed.
Definition zero (f : nat -> Z) : Prop := forall i, (i < m)%nat -> f i = 0%Z.
Lemma zero_dec f : zero f \/ exists i, (i < m)%nat /\ f i <> 0%Z.
Proof. apply (dec_all (fun i => f i = 0%Z)). intros. apply Z.eq_dec. Qed.
Lemma sq_min f i : (i < m)%nat -> f i <> 0%Z -> 4 * (rad * rad) <= sq f.
Proof.
  intros Hi Hf. pose proof (rad_pos m d b inv Hinv Hm) as Pr.
  assert (H : 2 * 1 * rad <= sqrt (sq f)).
  { apply (norm_bound m d b inv Hinv Hm i (fun i => IZR (f i))); auto; [lra|]. rewrite <- abs_IZR. apply (IZR_le 1). lia. }
  pose proof (sqrt_sqrt (sq f) (dot_pos d (lv f))) as E. pose proof (sqrt_pos (sq f)). nra.
Qed.
Lemma sq_nonzero_pos f i : (i < m)%nat -> f i <> 0%Z -> 0 < sq f.
Proof. intros Hi Hf. pose proof (sq_min f i Hi Hf). pose proof (rad_pos m d b inv Hinv Hm). nra. Qed.
Lemma zero_sq f : zero f -> forall u, u · lv f = 0.
Proof.
  intros H u. rewrite (dot_ext d u (lv f) u (fun _ => 0)); auto.
  - unfold dot. transitivity (Rsum d (fun _ => 0)); [|apply Rsum_0]. apply Rsum_ext. intros; ring.
  - intros k _. unfold lv, comb. transitivity (Rsum m (fun _ => 0)); [|apply Rsum_0]. apply Rsum_ext. intros i Hi. rewrite H by auto. ring.
Qed.

Section Cell.
Variable y : nat -> R.
Definition side (f : nat -> Z) : Prop := 2 * (y · lv f) <= sq f.
Lemma side_ext f g : (forall i, (i < m)%nat -> f i = g i) -> side f -> side g.
Proof. unfold side. intros H. rewrite (sq_ext f g H), (dot_ext d y (lv f) y (lv g)); auto. intros; apply lv_ext; auto. Qed.
Lemma side_add f g h : (forall i, (i < m)%nat -> h i = (f i + g i)%Z) -> 0 <= lv f · lv g -> side f -> side g -> side h.
Proof.
  intros E H Hf Hg. apply (side_ext (fun i => f i + g i)%Z); [intros; symmetry; auto|]. unfold side in *. rewrite sq_add.
  rewrite (dot_ext d y _ y (fun k => lv f k + lv g k)) by (auto; intros; apply lv_add). rewrite dot_plus_r. lra.
Qed.
Lemma on_side_iff p : length p = m -> on_side d b y p <-> side (cf p).
Proof.
  intros Lp. unfold on_side, dist, side.
  assert (E1 : (fun k => y k - 0) · (fun k => y k - 0) = y · y) by (apply dot_ext; intros; ring).
  assert (E2 : (fun k => y k - vector b p k) · (fun k => y k - vector b p k) = y · y - 2 * (y · lv (cf p)) + sq (cf p)).
  { rewrite dot_minus_l, !dot_minus_r. unfold sq. rewrite (dot_ext d y (vector b p) y (lv (cf p))), (dot_ext d (vector b p) y (lv (cf p)) y), (dot_ext d (vector b p) (vector b p) (lv (cf p)) (lv (cf p))); auto;
      try (intros; apply vector_lv; auto). rewrite (dot_comm d (lv (cf p)) y). ring. }
  rewrite E1, E2. split; intros H.
  - apply sqrt_le_0 in H; [lra|apply dot_pos|]. rewrite <- E2. apply dot_pos.
  - apply sqrt_le_1_alt. lra.
Qed.

(** descent: every constraint follows from those of short representatives *)
Hypothesis rep : forall f, (exists i, (i < m)%nat /\ Z.odd (f i) = true) ->
  exists r, (forall i, (i < m)%nat -> Z.odd (r i) = Z.odd (f i)) /\ sq r <= sq f
    /\ ((side r /\ side (fun i => - r i)%Z)
        \/ exists s, ~ zero s /\ ~ zero (fun i => r i - s i)%Z /\ 0 <= lv s · lv (fun i => r i - s i)%Z).
Lemma half_exists z w : Z.odd z = Z.odd w -> (exists h, z + w = 2 * h)%Z /\ (exists h, z - w = 2 * h)%Z.
Proof.
  intros H. split.
  - assert (Z.even (z + w) = true) by (rewrite <- Z.negb_odd, Z.odd_add, H, xorb_nilpotent; auto). apply Z.even_spec in H0. exact H0.
  - assert (Z.even (z - w) = true) by (rewrite <- Z.negb_odd, Z.odd_sub, H, xorb_nilpotent; auto). apply Z.even_spec in H0. exact H0.
Qed.
Lemma halves z w : Z.odd z = Z.odd w -> (z = (z + w) / 2 + (z - w) / 2 /\ w = (z + w) / 2 - (z - w) / 2)%Z.
Proof.
  intros H. destruct (half_exists z w H) as ((h1 & E1) & (h2 & E2)). rewrite E1, E2.
  rewrite !(Z.mul_comm 2), !Z.div_mul by lia. lia.
Qed.
Lemma nz f : ~ zero f -> exists i, (i < m)%nat /\ f i <> 0%Z.
Proof. intros H. destruct (zero_dec f); [contradiction|auto]. Qed.
Theorem descent : forall f, side f.
Proof.
  set (lam := 4 * (rad * rad)). assert (Pl : 0 < lam) by (pose proof (rad_pos m d b inv Hinv Hm); unfold lam; nra).
  assert (G : forall n f, sq f <= INR n * lam -> side f).
  2: { intros f. destruct (nat_bound (sq f) lam Pl) as (n & Hn). apply (G n f Hn). }
  induction n as [|n IH]; intros f Hf.
  { destruct (zero_dec f) as [Z|(i & Hi & N)]; [|apply (sq_min f i Hi) in N; fold lam in N; cbn in Hf; lra].
    unfold side. rewrite zero_sq by auto. pose proof (dot_pos d (lv f)). unfold sq. lra. }
  rewrite S_INR in Hf.
  (* two nonzero summands at an acute angle *)
  assert (Two : forall a c, ~ zero a -> ~ zero c -> 0 <= lv a · lv c -> (forall i, (i < m)%nat -> f i = (a i + c i)%Z) -> side f).
  { intros a c Ha Hc Hac E. apply nz in Ha, Hc. destruct Ha as (i & Hi & Ni), Hc as (j & Hj & Nj).
    pose proof (sq_min a i Hi Ni) as Ma. pose proof (sq_min c j Hj Nj) as Mc. fold lam in Ma, Mc.
    pose proof (sq_add a c) as Ea. rewrite <- (sq_ext f _ E) in Ea.
    apply (side_add a c f E Hac); apply IH; lra. }
  destruct (dec_all (fun i => Z.odd (f i) = false) m) as [Ev|(i & Hi & Od)]; [intros; apply Bool.bool_dec| |].
  - destruct (zero_dec f) as [Z|(i & Hi & N)].
    { unfold side. rewrite zero_sq by auto. pose proof (dot_pos d (lv f)). unfold sq. lra. }
    assert (E : forall j, (j < m)%nat -> f j = (f j / 2 + f j / 2)%Z).
    { intros j Hj. specialize (Ev j Hj). rewrite <- Z.negb_even in Ev. apply negb_false_iff, Z.even_spec in Ev. destruct Ev as (h & ->). rewrite (Z.mul_comm 2), Z.div_mul by lia. lia. }
    assert (Nz : ~ zero (fun j => f j / 2)%Z) by (intros Z; specialize (Z i Hi); specialize (E i Hi); cbv beta in Z; lia).
    apply (Two (fun j => f j / 2)%Z (fun j => f j / 2)%Z); auto. apply dot_pos.
  - apply not_false_is_true in Od. destruct (rep f) as (r & Par & Sh & Cases); [eauto|].
    assert (Half : forall j, (j < m)%nat -> (f j = (f j + r j) / 2 + (f j - r j) / 2 /\ r j = (f j + r j) / 2 - (f j - r j) / 2)%Z) by (intros j Hj; apply halves; symmetry; auto).
    set (a := fun j => ((f j + r j) / 2)%Z). set (c := fun j => ((f j - r j) / 2)%Z).
    assert (Sf : sq f = sq a + sq c + 2 * (lv a · lv c)).
    { rewrite <- sq_add. apply sq_ext. intros j Hj. apply Half; auto. }
    assert (Sr : sq r = sq a + sq c - 2 * (lv a · lv c)).
    { rewrite (sq_ext r (fun j => a j + - c j)%Z) by (intros j Hj; destruct (Half j Hj) as [_ E]; fold (a j) (c j) in E; lia).
      rewrite sq_add, sq_opp. rewrite (dot_comm d (lv a)), dot_opp_l, (dot_comm d (lv c)). ring. }
    destruct (zero_dec a) as [Za|Na].
    { assert (E : forall j, (j < m)%nat -> (- r j)%Z = f j) by (intros j Hj; destruct (Half j Hj) as [E1 E2]; specialize (Za j Hj); unfold a in Za; lia).
      destruct Cases as [[_ C]|(s & N1 & N2 & Ac)]; [apply (side_ext _ f E C)|].
      apply (Two (fun j => - s j)%Z (fun j => - (r j - s j))%Z).
      - intros Z. apply N1. intros j Hj. specialize (Z j Hj). cbv beta in Z. lia.
      - intros Z. apply N2. intros j Hj. specialize (Z j Hj). cbv beta in Z. cbv beta. lia.
      - rewrite dot_opp_l, dot_comm, dot_opp_l, dot_comm. lra.
      - intros j Hj. rewrite <- E by auto. lia. }
    destruct (zero_dec c) as [Zc|Nc].
    { assert (E : forall j, (j < m)%nat -> r j = f j) by (intros j Hj; destruct (Half j Hj) as [E1 E2]; specialize (Zc j Hj); unfold c in Zc; lia).
      destruct Cases as [[C _]|(s & N1 & N2 & Ac)]; [apply (side_ext _ f E C)|].
      apply (Two s (fun j => r j - s j)%Z); auto. intros j Hj. rewrite <- E by auto. lia. }
    apply (Two a c); [intros Z; destruct Na as (j & Hj & Nj); apply Nj, Z; auto|intros Z; destruct Nc as (j & Hj & Nj); apply Nj, Z; auto|lra|].
    intros j Hj. apply Half; auto.
Qed.
End Cell.
End Vor.
