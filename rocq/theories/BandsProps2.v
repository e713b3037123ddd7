(** * C67: examples, and what Bands does not do. *)
From Coq Require Import Reals List Bool Arith ZArith Lia Lra Psatz Ring.
From Verif Require Import StarRing DiscretizeReal BandsModel BandsSpec BandsLin BandsWeyl BandsProofs BandsSecond BandsProps.
Import ListNotations.
Set Implicit Arguments.
Local Open Scope R_scope.

(** ** A chain with one site per unit cell and hopping 1: E = 2 cos k *)
Definition one_eigh (n : nat) (a : mat) : (nat -> R) * mat := (fun _ => fst (a 0%nat 0%nat), fun _ _ => r1 RC).
Definition one_eigvalsh (n : nat) (a : mat) : nat -> R := fst (one_eigh n a).
Definition zero_mat : mat := fun _ _ => r0 RC.
Definition one_mat : mat := fun _ _ => r1 RC.
Definition one_bands : bands := {| size := 1; ham := zero_mat; hop := padded 1 one_mat |}.
Lemma one_make : make_bands rc_dec 1 zero_mat 1 one_mat = Some one_bands.
Proof.
  unfold make_bands. cbn [forallb seq]. destruct (rc_dec _ _) as [_|N]; [reflexivity|]. exfalso. apply N. unfold dagger, zero_mat. rc.
Qed.
Lemma one_ok : eigh_ok one_eigh 1 zero_mat (padded 1 one_mat) /\ eigvalsh_ok one_eigvalsh 1 zero_mat (padded 1 one_mat).
Proof.
  assert (G : eigh_ok one_eigh 1 zero_mat (padded 1 one_mat)).
  { intros k a Ha. pose proof (Ha 0%nat 0%nat ltac:(lia) ltac:(lia)) as H0. assert (Hi : snd (a 0%nat 0%nat) = 0) by (rewrite H0; unfold bloch_matrix, padded, zero_mat, one_mat; cbn; ring).
    split; [|split; [|split]]; intros i j Hi' Hj; cbn [fst snd one_eigh]; assert (i = 0)%nat by lia; assert (j = 0)%nat by lia; subst; try lra; unfold sum; cbn [seq]; rewrite lsum_cons, lsum_nil; unfold delta; cbn [Nat.eqb]; apply RCe; cbn; rewrite ?Hi; ring. }
  split; [exact G|]. intros k a Ha. exists (snd (one_eigh 1 a)). apply (G k a Ha).
Qed.
Lemma one_call uninit k : exists e v c, call one_eigh one_eigvalsh uninit one_bands k 2 false = Some (Tuple [RealArray e; RealArray v; RealArray c]) /\
  e 0%nat = 2 * cos k /\ v 0%nat = -2 * sin k /\ c 0%nat = -2 * cos k - 8 * uninit 0%nat 0%nat * (sin k * sin k).
Proof.
  do 3 eexists. split; [reflexivity|]. split; [|split].
  - cbn. ring.
  - unfold velocities. cbn. ring.
  - unfold curvatures, ediff, abs2. cbn. destruct (Req_EM_T _ 0) as [_|N]; [|exfalso; apply N; ring].
    match goal with |- context [sqrt ?x] => replace x with (Rsqr (2 * sin k)) by (unfold Rsqr; ring) end. rewrite sqrt_Rsqr_abs. set (y := 2 * sin k). assert (A : Rabs y * Rabs y = y * y) by (rewrite <- Rabs_mult; apply Rabs_pos_eq, Rle_0_sqr). transitivity (-2 * cos k - 2 * uninit 0%nat 0%nat * (Rabs y * Rabs y)); [ring|rewrite A; unfold y; ring].
Qed.
Example C67_example k : exists e v c, call one_eigh one_eigvalsh (fun _ _ => 0) one_bands k 2 false = Some (Tuple [RealArray e; RealArray v; RealArray c]) /\
  e 0%nat = 2 * cos k /\ v 0%nat = -2 * sin k /\ c 0%nat = -2 * cos k /\ nondegenerate 1 e 0 /\ make_bands rc_dec 1 zero_mat 1 one_mat = Some one_bands /\ eigh_ok one_eigh 1 zero_mat (padded 1 one_mat).
Proof.
  destruct (one_call (fun _ _ => 0) k) as (e & v & c & H1 & H2 & H3 & H4). exists e, v, c. split; [exact H1|]. split; [auto|]. split; [auto|]. split; [lra|]. split; [split; [auto|intros; lia]|]. split; [apply one_make|apply one_ok].
Qed.
(** ** The curvature of this chain is wrong whenever the uninitialized memory is not zero *)
Theorem C67_curvature_refuted (x : R) : x <> 0 -> exists eigh eigvalsh h v b, eigh_ok eigh 1 h (padded 1 v) /\ eigvalsh_ok eigvalsh 1 h (padded 1 v) /\ make_bands rc_dec 1 h 1 v = Some b /\
  exists e v' c, (forall k, call eigh eigvalsh (fun _ _ => x) b k 2 false = Some (Tuple [RealArray (e k); RealArray (v' k); RealArray (c k)])) /\
    exists k, nondegenerate 1 (e k) 0 /\ ~ derivable_pt_lim (fun q => v' q 0%nat) k (c k 0%nat).
Proof.
  intros Hx. exists one_eigh, one_eigvalsh, zero_mat, one_mat, one_bands. split; [apply one_ok|]. split; [apply one_ok|]. split; [apply one_make|].
  destruct (@C67_curvature one_eigh one_eigvalsh (fun _ _ => x) 1 zero_mat one_mat 1 (proj1 one_ok) one_bands one_make) as (e & v' & c & Hc & HD).
  exists e, v', c. assert (HC : forall k, call one_eigh one_eigvalsh (fun _ _ => x) one_bands k 2 false = Some (Tuple [RealArray (e k); RealArray (v' k); RealArray (c k)])).
  { intros k. destruct (Hc k false) as [l Hl]. destruct (one_call (fun _ _ => x) k) as (e1 & v1 & c1 & H1 & _). rewrite Hl in *. injection H1 as -> -> -> ->. auto. }
  split; [exact HC|]. exists (PI / 2). assert (Hn : nondegenerate 1 (e (PI / 2)) 0) by (split; [auto|intros; lia]). split; [exact Hn|]. intros D. destruct (HD _ _ Hn) as [_ D'].
  pose proof (uniqueness_limite _ _ _ _ D D') as EQ. cbn beta in EQ. destruct (one_call (fun _ _ => x) (PI / 2)) as (e1 & v1 & c1 & H1 & _ & Hv & _). rewrite HC in H1. injection H1 as _ H1 _. rewrite <- H1 in Hv. rewrite sin_PI2 in Hv. rewrite Hv in EQ. apply Hx. lra.
Qed.

(** ** Two bands that cross: H = sin k sigma_x.  At k = 0 both returned velocities are 0,
    though the energies are + sin k and - sin k *)
Definition sgn (s : R) : R := if Rlt_dec s 0 then -1 else 1.
Definition two_eigh (n : nat) (a : mat) : (nat -> R) * mat :=
  let s := fst (a 0%nat 1%nat) in
  if Req_EM_T s 0 then (fun _ => 0, delta)
  else (fun j => if (j =? 0)%nat then - Rabs s else Rabs s,
        fun i j => match i, j with
          | O, _ => (/ sqrt 2, 0)
          | _, O => (- sgn s * / sqrt 2, 0)
          | _, _ => (sgn s * / sqrt 2, 0) end).
Definition two_hop : mat := fun i j => if (i =? j)%nat then r0 RC else (0, 1 / 2).
Definition two_bands : bands := {| size := 2; ham := zero_mat; hop := padded 2 two_hop |}.
Lemma two_make : make_bands rc_dec 2 zero_mat 2 two_hop = Some two_bands.
Proof.
  assert (Z : forall i j, zero_mat i j = dagger zero_mat i j) by (intros; unfold dagger, zero_mat; rc).
  unfold make_bands. cbn [forallb seq]. repeat (destruct (rc_dec _ _) as [_|N]; [|exfalso; apply N, Z]). reflexivity.
Qed.
Lemma two_bloch k i j : (i < 2)%nat -> (j < 2)%nat -> bloch_matrix zero_mat (padded 2 two_hop) k i j = if (i =? j)%nat then r0 RC else (sin k, 0).
Proof.
  intros Hi Hj. unfold bloch_matrix, padded, two_hop, zero_mat. destruct i as [|[|]]; [| |lia]; (destruct j as [|[|]]; [| |lia]); cbn; f_equal; field.
Qed.
Lemma sgn_sq s : sgn s * sgn s = 1. Proof. unfold sgn. destruct (Rlt_dec s 0); lra. Qed.
Lemma sgn_abs s : sgn s * s = Rabs s. Proof. unfold sgn, Rabs. destruct (Rlt_dec s 0), (Rcase_abs s); lra. Qed.
Lemma sgn_abs2 s : s = sgn s * Rabs s. Proof. rewrite <- sgn_abs, <- Rmult_assoc, sgn_sq. ring. Qed.
Lemma two_ok : eigh_ok two_eigh 2 zero_mat (padded 2 two_hop).
Proof.
  intros k a Ha. assert (Hb : forall i j, (i < 2)%nat -> (j < 2)%nat -> a i j = if (i =? j)%nat then r0 RC else (sin k, 0)) by (intros; rewrite Ha, two_bloch; auto).
  unfold two_eigh. rewrite (Hb 0%nat 1%nat) by lia. cbn [Nat.eqb fst]. set (s := sin k) in *. clearbody s.
  assert (Q : / sqrt 2 * / sqrt 2 = 1 / 2) by (rewrite <- Rinv_mult, sqrt_sqrt by lra; lra).
  destruct (Req_EM_T s 0) as [Hs|Hs].
  - cbn [fst snd]. split; [intros; lra|]. unfold sum; cbn [seq].
    split; [|split]; intros i j Hi Hj; (destruct i as [|[|]]; [| |lia]); (destruct j as [|[|]]; [| |lia]); rewrite !lsum_cons, lsum_nil, ?Hb by lia; unfold delta; cbn; rewrite ?Hs; f_equal; ring.
  - pose proof (sgn_sq s) as S1. pose proof (sgn_abs s) as S2. pose proof (sgn_abs2 s) as S3. cbn [fst snd]. split.
    { intros i j Hi Hj. pose proof (Rabs_pos s). destruct i as [|[|]]; [| |lia]; (destruct j as [|[|]]; [| |lia]); cbn; try lra; lia. }
    set (y := / sqrt 2) in *. clearbody y. set (z := sgn s) in *. clearbody z. unfold sum; cbn [seq].
    split; [|split]; intros i j Hi Hj; (destruct i as [|[|]]; [| |lia]); (destruct j as [|[|]]; [| |lia]); rewrite !lsum_cons, lsum_nil, ?Hb by lia; unfold delta; cbn; f_equal; try ring; try nra.
Qed.
Theorem C67_degenerate_refuted : exists eigh h v b, eigh_ok eigh 2 h (padded 2 v) /\ make_bands rc_dec 2 h 2 v = Some b /\
  forall eigvalsh uninit, exists e v', call eigh eigvalsh uninit b 0 1 false = Some (Tuple [RealArray e; RealArray v']) /\
    forall m, (m < 2)%nat -> forall x : R -> R, (forall k, band_energy 2 h (padded 2 v) k (x k)) -> ~ derivable_pt_lim x 0 (v' m).
Proof.
  exists two_eigh, zero_mat, two_hop, two_bands. split; [apply two_ok|]. split; [apply two_make|]. intros eigvalsh uninit.
  rewrite (@call_order two_eigh eigvalsh uninit 2 zero_mat two_hop 2 two_bands two_make 1 false 0) by lia. eexists. eexists. split; [reflexivity|].
  assert (HU : U two_eigh 2 two_bands 0 = delta).
  { unfold U, two_eigh. destruct (Req_EM_T _ 0) as [_|N]; [reflexivity|]. exfalso. apply N. unfold h0, madd, dagger, bmat. cbn. rewrite sin_0, cos_0. ring. }
  intros m Hm x Hx.
  assert (HV : V two_eigh 2 two_bands 1 0 m = 0).
  { unfold V. rewrite HU. unfold velocities. cbn [Nat.eqb andb]. unfold ph1p, mmul, h1, mscale, madd, mneg, dagger, bmat. destruct m as [|[|]]; [| |lia]; cbn; ring. }
  rewrite HV. assert (Hxs : forall k, x k * x k = sin k * sin k).
  { intros k. destruct (proj1 (@energy_iff two_eigh 2 zero_mat two_hop 2 two_ok two_bands two_make k (x k)) (Hx k)) as (j & Hj & Ej). rewrite <- Ej. unfold E, two_eigh.
    assert (Hs : fst (h0 two_bands k 0%nat 1%nat) = sin k). { unfold h0, madd, dagger, bmat. cbn. field. } rewrite Hs. destruct (Req_EM_T (sin k) 0) as [Z|Z]; cbn [fst]; [rewrite Z; ring|]. rewrite (tt_abs (sin k)). destruct (j =? 0)%nat; ring. }
  intros D. assert (x0 : x 0 = 0) by (specialize (Hxs 0); rewrite sin_0 in Hxs; nra).
  pose proof (derivable_pt_lim_mult x x 0 _ _ D D) as _. destruct (D (1 / 4) ltac:(lra)) as [d Hd]. destruct d as [d Hd0]. cbn in Hd.
  set (t := Rmin (d / 2) 1). assert (Ht : 0 < t) by (apply Rmin_glb_lt; lra). pose proof (Rmin_l (d / 2) 1) as T1. pose proof (Rmin_r (d / 2) 1) as T2. fold t in T1, T2.
  specialize (Hd t ltac:(lra) ltac:(rewrite Rabs_pos_eq; lra)). rewrite Rplus_0_l, x0, !Rminus_0_r in Hd. unfold Rdiv in Hd. rewrite Rabs_mult, (Rabs_pos_eq (/ t)) in Hd by (left; apply Rinv_0_lt_compat; auto).
  assert (B : Rabs (x t) < 1 / 4 * t). { apply Rmult_lt_reg_r with (/ t); [apply Rinv_0_lt_compat; auto|]. replace (1 / 4 * t * / t) with (1 * / 4) by (field; lra). exact Hd. }
  assert (B2 : Rabs (x t) = Rabs (sin t)). { apply Rsqr_eq_abs_0. exact (Hxs t). }
  pose proof (@sin_bound2 t ltac:(rewrite Rabs_pos_eq; lra)) as S. rewrite B2 in B. pose proof (Rle_abs (sin t)). pose proof (Rle_abs (t - sin t)). nra.
Qed.
(** ** A Bands object exists exactly for Hermitian cell Hamiltonians *)
Theorem C67_hermitian n h cols v : (exists b, make_bands rc_dec n h cols v = Some b) <-> hermitian n h.
Proof.
  split.
  - intros [b Hb]. pose proof (@b_herm n h v cols b Hb) as H. pose proof (@b_eq n h v cols b Hb) as E. rewrite E in H. exact H.
  - intros H. unfold make_bands. destruct (forallb _ _) eqn:E; [eexists; reflexivity|]. exfalso.
    assert (T : forallb (fun i => forallb (fun j => if rc_dec (h i j) (dagger h i j) then true else false) (seq 0 n)) (seq 0 n) = true); [|congruence].
    apply forallb_forall. intros i Hi. apply in_seq in Hi. apply forallb_forall. intros j Hj. apply in_seq in Hj. destruct (rc_dec _ _) as [|N]; [auto|]. exfalso. apply N. apply H; lia.
Qed.
