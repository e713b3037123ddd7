(** * Termination of cvp(..., group_by_length=True), and of neighbors. *)
From Coq Require Import List Bool Arith ZArith Reals Lia Lra Psatz Sorting.Permutation Sorting.Sorted.
From Verif Require Import KpmReal KpmRealProofs CvpModel CvpSpec CvpProofs CvpMain CvpVoronoi CvpProps LatticeSpec NeighborsSpec ShellProofs.
Import ListNotations.
Open Scope R_scope.

Section G.
Variables m d : nat.
Variable b : nat -> nat -> R.
Variable lstsq : (nat -> R) -> nat -> R.
Variable inv : (nat -> nat -> R) -> nat -> nat -> R.
Variable round : R -> Z.
Variable argsort : (point -> R) -> list point -> list point.
Hypothesis Hinv : inv_ok m d b inv.
Hypothesis Hsort : argsort_ok argsort.
Hypothesis Hm : (0 < m)%nat.
Notation rad := (rad m d b inv).
Notation distance := (distance m d b).
Variable vec : nat -> R.
Let x := lstsq vec.
Let v := comb m b x.
Let c : point := map (fun i => round (x i)) (seq 0 m).
Variables (n : nat) (rtol : R) (E : list R).
Hypothesis Hr : 0 <= rtol.
Hypothesis HE : shells (fun y => exists p, lattice_point m p /\ y = dist d (vector b p) v) (rtol * rad) E.
Hypothesis Hn : length E = n.

Lemma in_some_box p : lattice_point m p -> exists l0, forall l, (l0 <= l)%nat -> In p (box c l).
Proof.
  intros Lp. assert (Lc : length c = m) by (unfold c; rewrite map_length, seq_length; auto).
  assert (G : forall k, exists l0, forall i, (i < k)%nat -> (Z.abs (nth i p 0 - nth i c 0) <= Z.of_nat l0)%Z).
  { induction k as [|k (l0 & H)]; [exists 0%nat; intros; lia|]. exists (Nat.max l0 (Z.to_nat (Z.abs (nth k p 0 - nth k c 0)))%Z). intros i Hi. destruct (Nat.eq_dec i k) as [->|]; [lia|]. specialize (H i ltac:(lia)). lia. }
  destruct (G m) as (l0 & H). exists l0. intros l Hl. apply in_box. rewrite Lc. split; auto. intros i Hi. specialize (H i Hi). lia.
Qed.
Lemma group_returns : exists L, forall l, (L <= l)%nat -> exists ps, cvp_step m d b inv argsort v c n true rtol l = Some (CDone ps).
Proof.
  pose proof (rad_pos m d b inv Hinv Hm) as Pr. destruct HE as (NE & SE & AE & Cov).
  assert (Pt : 0 <= rtol * rad) by (apply Rmult_le_pos; lra).
  assert (A : exists L, forall l, (L <= l)%nat -> forall y, In y E -> exists p, In p (box c l) /\ y = distance v p).
  { clear SE Cov NE. revert AE. generalize E. intros E0 AE. induction AE as [|y E' (p & Lp & ->) _ (L & H)]; [exists 0%nat; intros l _ y []|]. destruct (in_some_box p Lp) as (l0 & H0). exists (Nat.max L l0). intros l Hl z [<-|Hz]; [|apply H; auto; lia].
    exists p. split; [apply H0; lia|]. symmetry. apply distance_dist. auto. }
  destruct A as (L1 & H1). destruct (nat_bound (last E 0 + (2 + rtol) * rad) (2 * rad) ltac:(lra)) as (L0 & HL0).
  exists (Nat.max L1 L0). intros l Hl. unfold cvp_step.
  destruct (sorted_box m d b lstsq round argsort Hsort vec l) as (P & SS & ND & Ln). fold x in P, SS, ND, Ln. change (comb m b x) with v in P, SS, ND, Ln. fold c in P, SS, ND, Ln.
  set (S := argsort (distance v) (box c l)) in *. set (ds := map (distance v) S).
  assert (Sd : StronglySorted Rle ds).
  { unfold ds. clear - SS. induction SS as [|p S SS IH F]; cbn; constructor; auto. apply Forall_forall. intros y Hy. apply in_map_iff in Hy. destruct Hy as (q & <- & Hq). rewrite Forall_forall in F. auto. }
  assert (Sh : shells (fun y => In y ds) (rtol * rad) E).
  { split; auto. split; auto. split.
    - apply Forall_forall. intros y Hy. destruct (H1 l ltac:(lia) y Hy) as (p & Hp & ->). apply in_map. apply (Permutation_in p (Permutation_sym P)). auto.
    - intros y Hy. apply in_map_iff in Hy. destruct Hy as (p & <- & Hp). apply Cov. exists p. split; [apply Ln; auto|]. apply distance_dist. apply Ln; auto. }
  assert (LS : (n <= length S)%nat).
  { assert (NDE : NoDup E). { clear - SE Pt. induction SE as [|a E' S' IH F]; constructor; auto. intros Hin. rewrite Forall_forall in F. specialize (F a Hin). lra. }
    replace (length S) with (length ds) by (unfold ds; apply map_length). rewrite <- Hn. apply NoDup_incl_length; auto. intros y Hy. destruct Sh as (_ & _ & F & _). rewrite Forall_forall in F. auto. }
  rewrite <- (Permutation_length P). rewrite (proj2 (Nat.ltb_ge _ _)) by lia. cbv zeta. fold ds.
  assert (Lt : last E 0 < (2 * INR l - 1 - rtol) * rad).
  { assert (INR L0 <= INR l) by (apply le_INR; lia). nra. }
  assert (Pn : (0 < n)%nat) by (rewrite <- Hn; destruct E; [congruence|cbn; lia]).
  rewrite boundaries_bnd. destruct (shells_boundaries (rtol * rad) Pt ds 0%nat E Sd Sh) as [(E1 & E2)|(g & E1 & E2 & E3)]; rewrite Hn in *.
  - rewrite E1. replace (n - 1 + 1)%nat with n by lia. rewrite Nat.ltb_irrefl, Nat.eqb_refl. rewrite E2. rewrite (proj2 (Rltb_spec _ _) Lt). eauto.
  - assert (X : (n - 1 < length (bnd (rtol * rad) 0 ds))%nat) by (apply nth_error_Some; rewrite E1; discriminate).
    rewrite (proj2 (Nat.ltb_ge _ _)) by lia. rewrite (proj2 (Nat.eqb_neq _ _)) by lia. destruct n as [|n']; [lia|]. cbn [at_pred].
    replace (Datatypes.S n' - 1)%nat with n' in E1 by lia.
    rewrite (nth_error_nth (bnd (rtol * rad) 0 ds) n' 0%nat E1). rewrite Nat.sub_0_r in E3. rewrite E3, (proj2 (Rltb_spec _ _) Lt). eauto.
Qed.
Lemma group_terminates : exists F, forall fuel, (F <= fuel)%nat -> exists ps, cvp m d b lstsq inv round argsort fuel vec n true rtol = CDone ps.
Proof.
  assert (Pn : (0 < n)%nat) by (destruct HE as (NE & _); rewrite <- Hn; destruct E; [congruence|cbn; lia]).
  destruct group_returns as (L & HL). exists (Datatypes.S L). intros fuel Hf.
  unfold cvp. fold x. change (fun k => Rsum m (fun i => x i * b i k)) with v. fold c.
  assert (Fst : forall l, cvp_step m d b inv argsort v c n true rtol l = None \/ exists ps, cvp_step m d b inv argsort v c n true rtol l = Some (CDone ps)).
  { intros l. unfold cvp_step. destruct (_ <? _)%nat; auto. cbv zeta. destruct (_ <? _)%nat; auto. destruct (_ =? _)%nat; [destruct (Rltb _ _); eauto|]. destruct n; [lia|]. destruct (Rltb _ _); eauto. }
  assert (G : forall f l, (L < f + l)%nat -> (0 < f)%nat -> exists ps, cvp_loop m d b inv argsort f v c n true rtol l = CDone ps); [|apply G; lia].
  induction f as [|f IH]; intros l H1 H2; [lia|]. cbn [CvpModel.cvp_loop].
  destruct (le_lt_dec L l) as [Hl|Hl].
  - destruct (HL l Hl) as (ps & ->). eauto.
  - destruct (Fst l) as [->|(ps & ->)]; [|eauto]. apply IH; lia.
Qed.
End G.
