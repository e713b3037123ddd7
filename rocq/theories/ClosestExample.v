(** * C68: a two-dimensional crystal with two sublattices. *)
From Coq Require Import List Bool Arith ZArith Reals Lia Lra Psatz.
From Verif Require Import KpmReal KpmRealProofs CvpModel CvpSpec CvpProofs CvpProps LllModel LllSpec LatticeModel LatticeSpec LatticeProofs LatticeProps LatticeExample ClosestModel ClosestSpec ClosestProps.
Import ListNotations.
Open Scope R_scope.

(** sublattices 0 and 1, the second one in the middle of the squares of the first;
    periods (2, 1) and (-1, 1); one site of each sublattice *)
Definition ex_fpos (fam : nat) : option (point -> nat -> R) :=
  match fam with
  | 0%nat => Some (fun tag k => IZR (nth k tag 0%Z))
  | 1%nat => Some (fun tag k => IZR (nth k tag 0%Z) + 1 / 2)
  | _ => None
  end.
Definition ex_smat (fam i c : nat) : Z :=
  match i, c with 0%nat, 0%nat => 2 | 0%nat, 1%nat => 1 | 1%nat, 0%nat => -1 | 1%nat, 1%nat => 1 | _, _ => 0 end%Z.
Definition ex_periods (i k : nat) : R := IZR (ex_smat 0 i k).
Definition ex_sites : list site := [(0%nat, [0; 0]%Z); (1%nat, [0; 0]%Z)].
Definition ex_target (k : nat) : R := match k with O => 71 / 10 | _ => 2 end.

Lemma ex_translational : translational 2 2 ex_fpos ex_smat (fun _ => 2%nat) ex_periods.
Proof.
  split.
  - intros x Hx. pose proof (Hx 0%nat ltac:(lia)) as H0. pose proof (Hx 1%nat ltac:(lia)) as H1. unfold ex_periods in *. cbn in H0, H1. intros [|[|i]] Hi; [lra|lra|lia].
  - intros fam f tag e k Hf Hl He Hk. unfold lattice_point in He. destruct tag as [|t0 [|t1 [|]]]; try discriminate. destruct e as [|e0 [|e1 [|]]]; try discriminate.
    unfold vector, ex_periods, sym_act. cbn [fst snd length Rsum Zsum seq map nth].
    destruct fam as [|[|fam]]; [| |discriminate]; injection Hf as <-; (destruct k as [|[|k]]; [| |lia]); cbn [nth ex_smat]; rewrite !plus_IZR, !mult_IZR; ring.
Qed.
Lemma ex_good : good_sites ex_fpos (fun _ => 2%nat) ex_sites.
Proof. intros s [<-|[<-|[]]]; split; auto; discriminate. Qed.

Lemma sqr_bound x y : x * x + y * y <= 1 / 100 -> -1 / 10 <= x <= 1 / 10.
Proof. intros H. assert (x * x <= 1 / 100) by (pose proof (Rle_0_sqr y) as Y; unfold Rsqr in Y; lra). split; nra. Qed.
(** the site closest to (7.1, 2) is the site (7, 2) of sublattice 0, outside of the
    stored unit cell *)
Example C68_example : exists lfuel cfuel, closest 2 2 ex_fpos ex_smat ex_round lstsq_mat2 lstsq2 inv2 ex_sort lfuel cfuel ex_sites ex_target = Some (Some (0%nat, [7; 2]%Z)).
Proof.
  destruct (C68_total 2 2 ex_fpos ex_smat (fun _ => 2%nat) ex_periods ex_round lstsq_mat2 lstsq2 inv2 ex_sort libs2_ok ex_translational ex_sites ex_target (le_n 2) (le_n 2) ltac:(discriminate) ex_good) as (lf & cf & s & H).
  exists lf, cf. rewrite H. f_equal. f_equal.
  destruct (C68_closest 2 2 ex_fpos ex_smat (fun _ => 2%nat) ex_periods ex_round lstsq_mat2 lstsq2 inv2 ex_sort libs2_ok ex_translational lf cf ex_sites ex_target s ex_good H) as ((s0 & e & Hin & He & ->) & p & (f & Hf & ->) & B).
  specialize (B (0%nat, [0; 0]%Z) [3; -1]%Z (fun k => IZR (nth k [7; 2]%Z 0%Z)) ltac:(left; auto) eq_refl ltac:(exists (fun tag k => IZR (nth k tag 0%Z)); split; reflexivity)).
  unfold dist in B. apply sqrt_le_0 in B; [|apply dot_pos|apply dot_pos]. unfold lattice_point in He. destruct e as [|e0 [|e1 [|]]]; try discriminate.
  assert (Int : forall a b : Z, (IZR a - 71 / 10) * (IZR a - 71 / 10) + (IZR b - 2) * (IZR b - 2) <= 1 / 100 -> a = 7%Z /\ b = 2%Z).
  { intros a b Hab. pose proof (sqr_bound _ _ Hab) as A. rewrite Rplus_comm in Hab. pose proof (sqr_bound _ _ Hab) as C. split.
    - assert (6 < a)%Z by (apply lt_IZR; lra). assert (a < 8)%Z by (apply lt_IZR; lra). lia.
    - assert (1 < b)%Z by (apply lt_IZR; lra). assert (b < 3)%Z by (apply lt_IZR; lra). lia. }
  destruct Hin as [<-|[<-|[]]]; cbn [fst snd sym_act] in Hf |- *; unfold sym_act in *; cbn [fst snd length seq map nth Zsum ex_smat] in *; injection Hf as <-; unfold dot, ex_target in B; cbn [Rsum nth] in B.
  - destruct (Int (0 + (0 + e0 * 2 + e1 * -1))%Z (0 + (0 + e0 * 1 + e1 * 1))%Z) as [-> ->]; [lra|reflexivity].
  - exfalso. set (a := (0 + (0 + e0 * 2 + e1 * -1))%Z) in *. set (b := (0 + (0 + e0 * 1 + e1 * 1))%Z) in *. assert (A : -1 / 10 <= IZR a + 1 / 2 - 71 / 10 <= 1 / 10) by (apply sqr_bound with (IZR b + 1 / 2 - 2); lra).
    assert (6 < a)%Z by (apply lt_IZR; lra). assert (a < 7)%Z by (apply lt_IZR; lra). lia.
Qed.
