(** * C57 for a centered square lattice. *)
From Coq Require Import List Bool Arith ZArith Reals Lia Lra Psatz Sorting.Permutation Sorting.Sorted.
From Verif Require Import KpmReal KpmRealProofs CvpModel CvpSpec CvpProofs CvpProps LllModel LllSpec LllProofs LllProps LatticeModel LatticeSpec LatticeProofs LatticeProps LatticeExample NeighborsModel NeighborsSpec ShellProofs NeighborsProofs NeighborsProofs2 NeighborsProps NeighborsProps2.
Import ListNotations.
Open Scope R_scope.

(** two sublattices, the second displaced by (1/2, 1/2) *)
Definition centered (i k : nat) : R := match i with O => 0 | _ => 1 / 2 end.
Notation csd := (site_dist 2 square centered).

Lemma two a : lattice_point 2 a -> exists x y, a = [x; y].
Proof. destruct a as [|x [|y [|? ?]]]; try discriminate. eauto. Qed.
Lemma sd_shape a b : is_site 2 2 a -> is_site 2 2 b -> exists k : Z, csd a b = sqrt (IZR k / 2) /\ (0 <= k)%Z /\
  exists x y, (k = if Nat.eqb (fst a) (fst b) then 2 * (x * x + y * y) else 1 + 2 * (x * (x - 1) + y * (y - 1)))%Z.
Proof.
  destruct a as (i, s), b as (j, t). intros (Hi & Ls) (Hj & Lt). cbn [fst snd] in *. destruct (two s Ls) as (x & y & ->), (two t Lt) as (z & w & ->).
  assert (G : forall k : Z, dot 2 (fun q => site_position square (centered i) [x; y] q - site_position square (centered j) [z; w] q) (fun q => site_position square (centered i) [x; y] q - site_position square (centered j) [z; w] q) = IZR k / 2 -> csd (i, [x; y]) (j, [z; w]) = sqrt (IZR k / 2) /\ (0 <= k)%Z).
  { intros k E. split; [unfold site_dist, dist; cbn [fst snd]; rewrite E; reflexivity|]. apply le_IZR. pose proof (dot_pos 2 (fun q => site_position square (centered i) [x; y] q - site_position square (centered j) [z; w] q)) as P. rewrite E in P. lra. }
  unfold dot, site_position, vector in G. cbn [Rsum length nth square rows fZ realA] in G.
  destruct i as [|[|i]], j as [|[|j]]; try lia; cbn [Nat.eqb centered] in *.
  - exists (2 * ((x - z) * (x - z) + (y - w) * (y - w)))%Z. destruct (G (2 * ((x - z) * (x - z) + (y - w) * (y - w)))%Z) as [G1 G2]; [rewrite mult_IZR, plus_IZR, !mult_IZR, !minus_IZR; field|]. eauto 6.
  - exists (1 + 2 * ((x - z) * (x - z - 1) + (y - w) * (y - w - 1)))%Z. destruct (G (1 + 2 * ((x - z) * (x - z - 1) + (y - w) * (y - w - 1)))%Z) as [G1 G2]; [rewrite plus_IZR, mult_IZR, plus_IZR, !mult_IZR, !minus_IZR; field|]. eauto 6.
  - exists (1 + 2 * ((z - x) * (z - x - 1) + (w - y) * (w - y - 1)))%Z. destruct (G (1 + 2 * ((z - x) * (z - x - 1) + (w - y) * (w - y - 1)))%Z) as [G1 G2]; [rewrite plus_IZR, mult_IZR, plus_IZR, !mult_IZR, !minus_IZR; field|]. eauto 6.
  - exists (2 * ((x - z) * (x - z) + (y - w) * (y - w)))%Z. destruct (G (2 * ((x - z) * (x - z) + (y - w) * (y - w)))%Z) as [G1 G2]; [rewrite mult_IZR, plus_IZR, !mult_IZR, !minus_IZR; field|]. eauto 6.
Qed.
Lemma sq_between x lo hi : 0 <= lo -> 0 < hi -> lo * lo <= x -> x < hi * hi -> lo <= sqrt x < hi.
Proof.
  intros H1 H2 H3 H4. split.
  - rewrite <- (sqrt_square lo) by auto. apply sqrt_le_1_alt. auto.
  - rewrite <- (sqrt_square hi) by lra. apply sqrt_lt_1_alt. split; nra.
Qed.
Lemma sq_low x lo : 0 <= lo -> lo * lo <= x -> lo <= sqrt x.
Proof. intros H1 H2. rewrite <- (sqrt_square lo) by auto. apply sqrt_le_1_alt. auto. Qed.
Lemma s0 i : (i < 2)%nat -> is_site 2 2 (i, [0; 0]%Z). Proof. intros; split; [auto|reflexivity]. Qed.
Lemma s1 i : (i < 2)%nat -> is_site 2 2 (i, [1; 0]%Z). Proof. intros; split; [auto|reflexivity]. Qed.
Lemma s2 i : (i < 2)%nat -> is_site 2 2 (i, [2; 0]%Z). Proof. intros; split; [auto|reflexivity]. Qed.
Ltac dval := unfold site_dist, dist, dot, site_position, vector; cbn [fst snd Rsum length nth square rows fZ realA centered]; f_equal; lra.
Lemma d_same i : (i < 2)%nat -> csd (i, [0; 0]%Z) (i, [0; 0]%Z) = 0 /\ csd (i, [1; 0]%Z) (i, [0; 0]%Z) = 1.
Proof. intros Hi. split; [transitivity (sqrt 0); [|apply sqrt_0]|transitivity (sqrt 1); [|apply sqrt_1]]; destruct i as [|[|i]]; try lia; dval. Qed.
Lemma d_diff : csd (0%nat, [0; 0]%Z) (1%nat, [0; 0]%Z) = sqrt (1 / 2) /\ csd (0%nat, [2; 0]%Z) (1%nat, [0; 0]%Z) = sqrt (5 / 2).
Proof. split; dval. Qed.
Lemma half_between : 7 / 10 <= sqrt (1 / 2) < 8 / 10. Proof. apply sq_between; lra. Qed.
Lemma five_between : 15 / 10 <= sqrt (5 / 2) < 16 / 10. Proof. apply sq_between; lra. Qed.
Lemma shells_all : shells (distances 2 2 square 2 centered) (1 / 10 ^ 8 * 1) [0; sqrt (1 / 2)].
Proof.
  pose proof half_between as B. split; [discriminate|]. split; [|split].
  - repeat constructor. lra.
  - repeat constructor.
    + exists (0%nat, [0; 0]%Z), (0%nat, [0; 0]%Z). split; [apply s0; lia|]. split; [apply s0; lia|]. symmetry. apply d_same. lia.
    + exists (0%nat, [0; 0]%Z), (1%nat, [0; 0]%Z). split; [apply s0; lia|]. split; [apply s0; lia|]. symmetry. apply d_diff.
  - intros x (a & b & Sa & Sb & ->). destruct (sd_shape a b Sa Sb) as (k & -> & Pk & _). cbn [last In].
    destruct (Z.eq_dec k 0) as [->|]; [left; left; replace (0 / 2) with 0 by lra; rewrite sqrt_0; auto|].
    destruct (Z.eq_dec k 1) as [->|]; [left; right; left; auto|]. right. assert (2 <= IZR k) by (apply IZR_le; lia). assert (1 <= sqrt (IZR k / 2)) by (apply sq_low; lra). lra.
Qed.
Lemma even_prod x : exists y, (x * (x - 1) = 2 * y /\ 0 <= y)%Z.
Proof. destruct (Z.Even_or_Odd x) as [[y ->]|[y ->]]; [exists (y * (2 * y - 1))%Z|exists ((2 * y + 1) * y)%Z]; split; nia. Qed.
Lemma shells_pair i j : (i <= j)%nat -> (j < 2)%nat -> exists D, length D = 2%nat /\ shells (distances_between 2 2 square 2 centered i j) (1 / 10 ^ 8 * 1) D.
Proof.
  intros Hij Hj. pose proof half_between as B. pose proof five_between as B5. destruct (Nat.eq_dec i j) as [<-|Ne].
  - exists [0; 1]. split; [reflexivity|]. destruct (d_same i Hj) as [D0 D1]. split; [discriminate|]. split; [|split].
    + repeat constructor. lra.
    + repeat constructor.
      * exists (i, [0; 0]%Z), (i, [0; 0]%Z). repeat split; auto.
      * exists (i, [1; 0]%Z), (i, [0; 0]%Z). repeat split; auto.
    + intros x (a & b & Sa & Sb & Ea & Eb & ->). destruct (sd_shape a b Sa Sb) as (k & -> & Pk & x & y & Ek). rewrite Ea, Eb, Nat.eqb_refl in Ek. cbn [last In].
      destruct (Z.eq_dec k 0) as [->|]; [left; left; replace (0 / 2) with 0 by lra; rewrite sqrt_0; auto|].
      destruct (Z.eq_dec k 2) as [->|]; [left; right; left; replace (2 / 2) with 1 by lra; rewrite sqrt_1; auto|]. right. assert (4 <= IZR k) by (apply IZR_le; lia). assert (14 / 10 <= sqrt (IZR k / 2)) by (apply sq_low; lra). lra.
  - assert (i = 0 /\ j = 1)%nat as [-> ->] by lia. exists [sqrt (1 / 2); sqrt (5 / 2)]. split; [reflexivity|]. destruct d_diff as [D0 D1]. split; [discriminate|]. split; [|split].
    + repeat constructor. lra.
    + repeat constructor.
      * exists (0%nat, [0; 0]%Z), (1%nat, [0; 0]%Z). repeat split; auto.
      * exists (0%nat, [2; 0]%Z), (1%nat, [0; 0]%Z). repeat split; auto.
    + intros x (a & b & Sa & Sb & Ea & Eb & ->). destruct (sd_shape a b Sa Sb) as (k & -> & Pk & x & y & Ek). rewrite Ea, Eb in Ek. cbn [Nat.eqb] in Ek. cbn [last In].
      destruct (even_prod x) as (x' & Ex & Px), (even_prod y) as (y' & Ey & Py). rewrite Ex, Ey in Ek.
      destruct (Z.eq_dec k 1) as [->|]; [left; left; auto|].
      destruct (Z.eq_dec k 5) as [->|]; [left; right; left; auto|]. right. assert (9 <= IZR k) by (apply IZR_le; lia). assert (2 <= sqrt (IZR k / 2)) by (apply sq_low; lra). lra.
Qed.
Lemma shortest_square : shortest_length 2 2 square 1.
Proof.
  assert (E : forall x y, dist 2 (vector square [x; y]) (fun _ => 0) = sqrt (IZR (x * x + y * y))).
  { intros x y. unfold dist, dot, vector. cbn [Rsum length nth square rows fZ realA]. f_equal. rewrite plus_IZR, !mult_IZR. ring. }
  split.
  - exists [1; 0]%Z. split; [reflexivity|]. split; [discriminate|]. rewrite E. symmetry. apply sqrt_1.
  - intros t Lt Nt. destruct (two t Lt) as (x & y & ->). rewrite E. apply sq_low; [lra|]. rewrite Rmult_1_r. apply IZR_le. destruct (Z.eq_dec x 0) as [->|]; [|nia]. destruct (Z.eq_dec y 0) as [->|]; [contradiction|nia].
Qed.

Lemma kb_irrefl x : ~ kind_before x x.
Proof. destruct x as ((s, i), j). cbn. intros [H|[H|(_ & _ & k & _ & H)]]; lia. Qed.
Lemma kb_asym x y : kind_before x y -> kind_before y x -> False.
Proof.
  destruct x as ((s, i), j), y as ((t, i'), j'). cbn. intros [H|[H|(E1 & E2 & k & K1 & K2)]] [H'|[H'|(E1' & E2' & k' & K1' & K2')]]; try lia.
  destruct (Nat.lt_trichotomy k k') as [X|[->|X]]; [|lia|]; [specialize (K1' _ X)|specialize (K1 _ X)]; lia.
Qed.
Lemma sorted_same (l r : list (point * nat * nat)) : StronglySorted kind_before l -> StronglySorted kind_before r -> (forall x, In x l <-> In x r) -> l = r.
Proof.
  intros Hl. revert r. induction Hl as [|x l S IH F]; intros r Hr E.
  - destruct r as [|y r]; auto. exfalso. apply (E y). cbn; auto.
  - destruct Hr as [|y r Sr Fr]; [exfalso; apply (E x); cbn; auto|]. rewrite Forall_forall in F, Fr.
    assert (x = y). { assert (X : In x (y :: r)) by (apply E; cbn; auto). destruct X as [X|X]; auto. assert (Y : In y (x :: l)) by (apply E; cbn; auto). destruct Y as [Y|Y]; auto. exfalso. eapply kb_asym; eauto. }
    subst y. f_equal. apply IH; auto. intros z. split; intros Hz.
    + destruct (proj1 (E z) (or_intror Hz)) as [<-|H]; auto. exfalso. exact (kb_irrefl x (F x Hz)).
    + destruct (proj2 (E z) (or_intror Hz)) as [<-|H]; auto. exfalso. exact (kb_irrefl x (Fr x Hz)).
Qed.

(** The nearest neighbors: the four hoppings between the sublattices. *)
Example C57_example : exists lfuel cfuel, neighbors 2 2 square 2 centered ex_round lstsq_mat2 lstsq2 inv2 ex_sort lfuel cfuel 1 (1 / 10 ^ 8) =
  Some [([1; 1], 0%nat, 1%nat); ([1; 0], 0%nat, 1%nat); ([0; 1], 0%nat, 1%nat); ([0; 0], 0%nat, 1%nat)]%Z.
Proof.
  destruct square_reduced as (v & t & R & _).
  destruct (C57_total 2 2 square 2 centered ex_round lstsq_mat2 lstsq2 inv2 ex_sort ltac:(lia) ltac:(lia) libs2_ok square_indep 5 _ 1 (1 / 10 ^ 8) 1 _ R ltac:(lra) shortest_square shells_pair shells_all eq_refl) as (F & HF).
  exists 5%nat, F. destruct (HF F (le_n F)) as (kinds & E). rewrite E. f_equal.
  destruct (C57_neighbors 2 2 square 2 centered ex_round lstsq_mat2 lstsq2 inv2 ex_sort ltac:(lia) ltac:(lia) libs2_ok square_indep _ _ 1%nat (1 / 10 ^ 8) 1 [0; sqrt (1 / 2)] kinds ltac:(lra) shortest_square shells_all eq_refl E) as (P1 & P2 & P3 & P4).
  destruct (C57_order 2 2 square 2 centered ex_round lstsq_mat2 lstsq2 inv2 ex_sort ltac:(lia) ltac:(lia) libs2_ok square_indep _ _ 1%nat (1 / 10 ^ 8) 1 [0; sqrt (1 / 2)] kinds ltac:(lra) shortest_square shells_all eq_refl E) as (O1 & O2 & O3).
  cbn [last] in *. pose proof half_between as B.
  assert (Sq : forall k, sqrt (IZR k / 2) = sqrt (1 / 2) -> (0 <= k)%Z -> k = 1%Z).
  { intros k Ek Pk. apply sqrt_inj in Ek; [apply eq_IZR; lra|apply IZR_le in Pk; lra|lra]. }
  apply sorted_same; auto.
  - repeat match goal with |- StronglySorted _ _ => constructor | |- Forall _ _ => constructor end; cbn; right; right; (split; [reflexivity|]); (split; [reflexivity|]);
      first [exists 0%nat; split; [intros; lia|cbn; lia] | exists 1%nat; split; [intros [|i] H; [reflexivity|lia]|cbn; lia]].
  - intros ((s, i), j). split.
    + intros Hin. destruct (P2 _ Hin) as (a & b & Sa & Sb & Ek). rewrite Ek in Hin. pose proof (P1 a b Sa Sb Hin) as D. destruct (sd_shape a b Sa Sb) as (k & Ed & Pk & x & y & Ekk). rewrite Ed in D. apply Sq in D; auto.
      destruct a as (i', s'), b as (j', t'), Sa as (Hi & Ls), Sb as (Hj & Lt). unfold kind_of in Ek. cbn [fst snd] in *. injection Ek as -> -> ->. rewrite D in *.
      destruct (Nat.eqb_spec i' j') as [->|Ne]; [lia|]. pose proof Hin as Hin'. apply O3 in Hin'. cbn [fst snd] in Hin'. assert (i' = 0 /\ j' = 1)%nat as [-> ->] by lia.
      destruct (two s' Ls) as (x1 & y1 & ->), (two t' Lt) as (x2 & y2 & ->). cbn [psub combine map fst snd].
      assert (Q : ((x1 - x2) * (x1 - x2 - 1) + (y1 - y2) * (y1 - y2 - 1) = 0)%Z).
      { unfold site_dist, dist in Ed. cbn [fst snd] in Ed. apply sqrt_inj in Ed; [|apply dot_pos|lra]. unfold dot, site_position, vector in Ed. cbn [Rsum length nth square rows fZ realA centered] in Ed.
        apply eq_IZR. rewrite plus_IZR, !mult_IZR, !minus_IZR. lra. }
      assert (X : (x1 - x2 = 0 \/ x1 - x2 = 1)%Z /\ (y1 - y2 = 0 \/ y1 - y2 = 1)%Z).
      { clear - Q. revert Q. generalize (x1 - x2)%Z (y1 - y2)%Z. intros a b Q. assert (0 <= a * (a - 1))%Z by nia. assert (0 <= b * (b - 1))%Z by nia. assert (a * (a - 1) = 0)%Z as Za by lia. assert (b * (b - 1) = 0)%Z as Zb by lia. apply Z.mul_eq_0 in Za, Zb. lia. }
      destruct X as [[->| ->] [->| ->]]; cbn; auto.
    + assert (G : forall x y, In (x, y) [(1, 1); (1, 0); (0, 1); (0, 0)]%Z -> In ([x; y], 0%nat, 1%nat) kinds).
      { intros x y Hxy. assert (D : csd (0%nat, [x; y]) (1%nat, [0; 0]%Z) = sqrt (1 / 2)) by (cbn in Hxy; repeat destruct Hxy as [Hxy|Hxy]; try (injection Hxy as <- <-; dval); contradiction).
        assert (Sa : is_site 2 2 (0%nat, [x; y])) by (split; [cbn; lia|reflexivity]). assert (Sb : is_site 2 2 (1%nat, [0; 0]%Z)) by (apply s0; lia).
        assert (Kd : kind_of (0%nat, [x; y]) (1%nat, [0; 0]%Z) = ([x; y], 0%nat, 1%nat)) by (unfold kind_of; cbn [fst snd psub combine map]; rewrite !Z.sub_0_r; reflexivity).
        destruct (P3 _ _ Sa Sb ltac:(discriminate) D) as [[H _]|[_ H]]; [rewrite Kd in H; auto|]. exfalso. unfold kind_of in H. cbn [fst snd] in H. apply O3 in H. lia. }
      intros Hin. cbn in Hin. repeat destruct Hin as [Hin|Hin]; try (injection Hin as <- <- <-; apply G; cbn; auto); contradiction.
Qed.
