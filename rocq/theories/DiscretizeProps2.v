(** * C63: the dispersion of a discretized Hamiltonian and the continuum limit. *)
From Coq Require Import Reals List Bool Arith ZArith Lia Lra Ring Permutation.
From Verif Require Import StarRing DiscretizeModel DiscretizeSpec DiscretizeProofs DiscretizeEval DiscretizeMain DiscretizeProps DiscretizeReal.
Import ListNotations.
Set Implicit Arguments.
Local Open Scope R_scope.

(** ** Limits as all grid spacings go to zero *)
Section Limits.
Variable D : nat.
Definition tends (f : list R -> R) (l : R) : Prop := forall eps, 0 < eps -> exists delta, 0 < delta /\
  forall a, length a = D -> (forall i, (i < D)%nat -> 0 < Rabs (nth i a 0) < delta) -> Rabs (f a - l) < eps.
Lemma tends_const l : tends (fun _ => l) l.
Proof. intros eps He. exists 1. split; [lra|]. intros. rewrite Rminus_diag_eq, Rabs_R0 by auto. auto. Qed.
Lemma tends_add f g l m : tends f l -> tends g m -> tends (fun a => f a + g a) (l + m).
Proof.
  intros Hf Hg eps He. destruct (Hf (eps / 2)) as (d1 & H1 & P1); [lra|]. destruct (Hg (eps / 2)) as (d2 & H2 & P2); [lra|].
  exists (Rmin d1 d2). split; [apply Rmin_glb_lt; auto|]. intros a Ha Hs.
  assert (Q1 : Rabs (f a - l) < eps / 2). { apply P1; auto. intros i Hi. destruct (Hs i Hi). split; auto. eapply Rlt_le_trans; [eauto|apply Rmin_l]. }
  assert (Q2 : Rabs (g a - m) < eps / 2). { apply P2; auto. intros i Hi. destruct (Hs i Hi). split; auto. eapply Rlt_le_trans; [eauto|apply Rmin_r]. }
  replace (f a + g a - (l + m)) with ((f a - l) + (g a - m)) by ring. eapply Rle_lt_trans; [apply Rabs_triang|lra].
Qed.
Lemma tends_opp f l : tends f l -> tends (fun a => - f a) (- l).
Proof. intros Hf eps He. destruct (Hf eps He) as (d & H & P). exists d. split; auto. intros a Ha Hs. replace (- f a - - l) with (- (f a - l)) by ring. rewrite Rabs_Ropp. auto. Qed.
Lemma tends_sub f g l m : tends f l -> tends g m -> tends (fun a => f a - g a) (l - m).
Proof. intros Hf Hg. apply tends_add; [auto|apply tends_opp; auto]. Qed.
Lemma tends_ext f g l : (forall a, length a = D -> f a = g a) -> tends f l -> tends g l.
Proof. intros E Hf eps He. destruct (Hf eps He) as (d & H & P). exists d. split; auto. intros. rewrite <- E by auto. auto. Qed.
Lemma tends_mul f g l m : tends f l -> tends g m -> tends (fun a => f a * g a) (l * m).
Proof.
  intros Hf Hg eps He. set (B := Rabs l + Rabs m + 2). assert (HB : 2 <= B) by (unfold B; pose proof (Rabs_pos l); pose proof (Rabs_pos m); lra).
  assert (Hd : 0 < Rmin 1 (eps / (2 * B))). { apply Rmin_glb_lt; [lra|]. apply Rdiv_lt_0_compat; lra. }
  destruct (Hf _ Hd) as (d1 & H1 & P1). destruct (Hg _ Hd) as (d2 & H2 & P2).
  exists (Rmin d1 d2). split; [apply Rmin_glb_lt; auto|]. intros a Ha Hs.
  assert (Q1 : Rabs (f a - l) < Rmin 1 (eps / (2 * B))). { apply P1; auto. intros i Hi. destruct (Hs i Hi). split; auto. eapply Rlt_le_trans; [eauto|apply Rmin_l]. }
  assert (Q2 : Rabs (g a - m) < Rmin 1 (eps / (2 * B))). { apply P2; auto. intros i Hi. destruct (Hs i Hi). split; auto. eapply Rlt_le_trans; [eauto|apply Rmin_r]. }
  set (e := eps / (2 * B)) in *. assert (E1 : Rabs (f a - l) < 1 /\ Rabs (f a - l) < e) by (split; eapply Rlt_le_trans; eauto; [apply Rmin_l|apply Rmin_r]).
  assert (E2 : Rabs (g a - m) < e) by (eapply Rlt_le_trans; eauto; apply Rmin_r).
  replace (f a * g a - l * m) with ((f a - l) * m + f a * (g a - m)) by ring. eapply Rle_lt_trans; [apply Rabs_triang|]. rewrite !Rabs_mult.
  assert (Hfa : Rabs (f a) <= Rabs l + 1). { replace (f a) with (l + (f a - l)) by ring. eapply Rle_trans; [apply Rabs_triang|lra]. }
  assert (Hee : e * (2 * B) = eps) by (unfold e; field; lra).
  pose proof (Rabs_pos (f a - l)). pose proof (Rabs_pos (g a - m)). pose proof (Rabs_pos m). pose proof (Rabs_pos l). pose proof (Rabs_pos (f a)).
  assert (0 < e) by (unfold e; apply Rdiv_lt_0_compat; lra).
  assert (Rabs (f a - l) * Rabs m <= e * Rabs m) by (apply Rmult_le_compat_r; lra).
  assert (Rabs (f a) * Rabs (g a - m) <= (Rabs l + 1) * e) by (apply Rmult_le_compat; lra).
  unfold B in Hee. nra.
Qed.
(** sin(k h) / h *)
Lemma sinc_lim k : derivable_pt_lim (fun x => sin (k * x)) 0 k.
Proof.
  assert (H : derivable_pt_lim (comp sin (fun x => k * x)) 0 (cos (k * 0) * (k * 1))).
  { apply (derivable_pt_lim_comp (fun x => k * x) sin); [|apply derivable_pt_lim_sin]. apply (derivable_pt_lim_scal id k 0 1). apply derivable_pt_lim_id. }
  rewrite Rmult_0_r, cos_0, Rmult_1_l, Rmult_1_r in H. exact H.
Qed.
Lemma tends_sinc k (r : R) i : (i < D)%nat -> 0 < r <= 1 -> tends (fun a => sin (k * (nth i a 0 * r)) / (nth i a 0 * r)) k.
Proof.
  intros Hi Hr eps He. destruct (@sinc_lim k eps He) as [d Hd]. exists (RIneq.pos d). split; [apply cond_pos|]. intros a Ha Hs. specialize (Hs i Hi).
  set (x := nth i a 0 * r). assert (Hx : x <> 0). { unfold x. apply Rmult_integral_contrapositive_currified; [|lra]. intros E. rewrite E, Rabs_R0 in Hs. lra. }
  assert (Hxd : Rabs x < d). { unfold x. rewrite Rabs_mult. rewrite (Rabs_right r) by lra. destruct Hs. nra. }
  specialize (Hd x Hx Hxd). rewrite Rplus_0_l, Rmult_0_r, sin_0, Rminus_0_r in Hd. auto.
Qed.
Definition ctends (f : list R -> RC) (l : RC) : Prop := tends (fun a => fst (f a)) (fst l) /\ tends (fun a => snd (f a)) (snd l).
Lemma ctends_const l : ctends (fun _ => l) l. Proof. split; apply tends_const. Qed.
Lemma ctends_add f g l m : ctends f l -> ctends g m -> ctends (fun a => radd RC (f a) (g a)) (radd RC l m).
Proof. intros [] []. split; cbn; apply tends_add; auto. Qed.
Lemma ctends_mul f g l m : ctends f l -> ctends g m -> ctends (fun a => rmul RC (f a) (g a)) (rmul RC l m).
Proof. intros [] []. split; cbn; [apply tends_sub|apply tends_add]; apply tends_mul; auto. Qed.
Lemma ctends_pow f l e : ctends f l -> ctends (fun a => kpow RC (f a) e) (kpow RC l e).
Proof. intros H. induction e; cbn [kpow]; [apply ctends_const|apply ctends_mul; auto]. Qed.
Lemma ctends_lsum A (f : A -> list R -> RC) (l : A -> RC) xs : (forall x, In x xs -> ctends (f x) (l x)) -> ctends (fun a => lsum RC (fun x => f x a) xs) (lsum RC l xs).
Proof. induction xs as [|x xs IH]; intros H; [exact (ctends_const (r0 RC))|]. change (ctends (fun a => radd RC (f x a) (lsum RC (fun x => f x a) xs)) (radd RC (l x) (lsum RC l xs))). apply ctends_add; [apply H; left; auto|apply IH; intros; apply H; right; auto]. Qed.
End Limits.

Section Props.
Variable F : Type.
Variable coords : list nat.
Variable n : nat.
Variable val : F -> RC.
Variable kpar : nat -> RC.
Variable fconj : F -> F.
Hypothesis Hnd : NoDup coords.
Hypothesis Hval : forall f, val (fconj f) = rconj RC (val f).
Hypothesis Hpar : forall c, rconj RC (kpar c) = kpar c.
Notation D := (length coords).

(** If all functions are constants, plane waves times a spinor v are mapped by the
    discretized Hamiltonian to plane waves: the spinor is multiplied by the Bloch
    Hamiltonian, the given operator with the momentum k_c replaced by
    sin(k_c h) / h where h is the grid spacing, or half of it *)
Theorem C63_dispersion a org k (h : nat -> nat -> expression F) : hermitian_expr n fconj h -> length a = D -> length org = D -> length k = D ->
  (forall i, (i < D)%nat -> nth i a 0 <> 0) ->
  exists ds, NoDup ds /\ (forall d, In d ds -> length d = D) /\ forall s1 i, length s1 = D -> (i < n)%nat ->
    (forall s2 j, length s2 = D -> (j < n)%nat -> ~ In (vsub s2 s1) ds -> element coords n RC cinv (cenv val) kpar (map re a) org h s1 s2 i j = r0 RC) /\
    (forall v : nat -> RC,
      lsum RC (fun d => sum RC n (fun j => rmul RC (element coords n RC cinv (cenv val) kpar (map re a) org h s1 (vadd s1 d) i j)
                                                  (rmul RC (v j) (wave k (pos RC (map re a) org (vadd s1 d)))))) ds =
      rmul RC (sum RC n (fun j => rmul RC (bloch coords val kpar k a (h i j)) (v j))) (wave k (pos RC (map re a) org s1))).
Proof.
  intros Hh Ha Ho Hk Hn.
  destruct (@C63_operator F coords RC cinv (cenv val) kpar n Hnd cinv_ok c_two fconj (fun f x => Hval f) Hpar cinv_conj (map re a) org h) as (ds & H1 & H2 & H3); auto.
  { intros i. clear. revert i. induction a as [|x a IH]; intros [|i]; [cbn; f_equal; ring|cbn; f_equal; ring|cbn; unfold re; f_equal; ring|apply IH]. }
  { rewrite map_length. auto. }
  exists ds. split; [auto|]. split; [auto|]. intros s1 i Hs Hi. destruct (H3 s1 i Hs Hi) as [H4 H5]. split; [auto|]. intros v.
  rewrite (H5 (fun j x => rmul RC (v j) (wave k x))). rewrite <- sum_mul_r. apply sum_ext. intros j Hj. apply expression_wave; auto.
  unfold pos. rewrite move_length; rewrite ?map_length; lia.
Qed.
(** When the grid spacings go to zero, the Bloch Hamiltonian goes to the given
    operator *)
Theorem C63_continuum k e : length k = D -> ctends D (fun a => bloch coords val kpar k a e) (continuum coords val kpar k e).
Proof.
  intros Hk. unfold bloch, continuum. apply ctends_lsum. intros s _.
  assert (H : forall s', ctends D (fun a => symbol coords val kpar (lattice_momentum coords k a s) s') (symbol coords val kpar (fun i => nth i k 0) s')); [|apply H].
  induction s' as [|f s' IH]; [exact (ctends_const D (r1 RC))|]. destruct f as [g|c m].
  { change (ctends D (fun a => rmul RC (val g) (symbol coords val kpar (lattice_momentum coords k a s) s')) (rmul RC (val g) (symbol coords val kpar (fun i => nth i k 0) s'))). apply ctends_mul; [apply ctends_const|apply IH]. }
  change (ctends D (fun a => rmul RC (match position c coords with Some i => kpow RC (re (lattice_momentum coords k a s i)) m | None => kpow RC (kpar c) m end) (symbol coords val kpar (lattice_momentum coords k a s) s'))
                   (rmul RC (match position c coords with Some i => kpow RC (re (nth i k 0)) m | None => kpow RC (kpar c) m end) (symbol coords val kpar (fun i => nth i k 0) s'))). apply ctends_mul; [|apply IH].
  destruct (position c coords) as [i|] eqn:E; [|apply ctends_const]. apply ctends_pow. destruct (position_lt _ _ E) as [Hi _].
  split; cbn; [|apply tends_const]. unfold lattice_momentum, rstep. destruct (_ && _).
  - apply (tends_ext (f := fun a => sin (nth i k 0 * (nth i a 0 * / 2)) / (nth i a 0 * / 2))); [reflexivity|]. apply tends_sinc; [auto|lra].
  - apply (tends_ext (f := fun a => sin (nth i k 0 * (nth i a 0 * 1)) / (nth i a 0 * 1))); [intros; rewrite Rmult_1_r; reflexivity|]. apply tends_sinc; [auto|lra].
Qed.
End Props.
