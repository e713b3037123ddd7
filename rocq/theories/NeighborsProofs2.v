(** * The n-th neighbors of a lattice. *)
From Coq Require Import List Bool Arith ZArith Reals Lia Lra Psatz Sorting.Permutation Sorting.Sorted.
From Verif Require Import KpmReal KpmRealProofs CvpModel CvpSpec CvpProofs LllModel LllSpec LatticeModel LatticeSpec LatticeProofs LatticeProps NeighborsModel NeighborsSpec ShellProofs NeighborsProofs.
Import ListNotations.
Open Scope R_scope.

Lemma sequence_spec {A} (l : list (option A)) r : sequence l = Some r -> l = map Some r.
Proof.
  revert r. induction l as [|[x|] l IH]; intros r; cbn; try discriminate; [intros [= <-]; auto|].
  destruct (sequence l) as [q|]; [|discriminate]. intros [= <-]. cbn. f_equal. auto.
Qed.
Lemma psub_length t u : length t = length u -> length (psub t u) = length t.
Proof. intros E. unfold psub. rewrite map_length, combine_length, E. lia. Qed.
Lemma psub_nth t u k : length t = length u -> nth k (psub t u) 0%Z = (nth k t 0 - nth k u 0)%Z.
Proof.
  revert u k. induction t as [|x t IH]; intros [|y u] k E; try discriminate; destruct k; cbn; auto. apply IH. auto.
Qed.
Lemma nth_zeros m k : nth k (repeat 0%Z m) 0%Z = 0%Z.
Proof. revert k. induction m; intros [|k]; cbn; auto. Qed.

Lemma in_pairs N i j : In (i, j) (sublat_pairs N) <-> (i < N /\ j < N /\ i <= j)%nat.
Proof.
  unfold sublat_pairs. rewrite filter_In, in_flat_map. cbn [fst snd]. rewrite Nat.leb_le. split.
  - intros [(a & Ha & Hin) H]. apply in_map_iff in Hin. destruct Hin as (b & [= -> ->] & Hb). apply in_seq in Ha, Hb. lia.
  - intros (H1 & H2 & H3). split; auto. exists i. split; [apply in_seq; lia|]. apply in_map. apply in_seq. lia.
Qed.

Lemma nonzero_tag m t : lattice_point m t -> t <> repeat 0%Z m -> exists k, nth k t 0%Z <> 0%Z.
Proof.
  intros Lt Nt. destruct (existsb (fun z => negb (z =? 0)%Z) t) eqn:Ex.
  - apply existsb_exists in Ex. destruct Ex as (z & Hz & Ez). apply In_nth with (d := 0%Z) in Hz. destruct Hz as (k & _ & <-). exists k. apply negb_true_iff, Z.eqb_neq in Ez. auto.
  - exfalso. apply Nt. apply list_eq_nth with (n := m); auto; [apply repeat_length|]. intros k Hk. rewrite nth_zeros.
    destruct (Z.eq_dec (nth k t 0%Z) 0) as [|Ne]; auto. exfalso. 
    assert (X : existsb (fun z => negb (z =? 0)%Z) t = true) by (apply existsb_exists; exists (nth k t 0%Z); split; [apply nth_In; rewrite Lt; auto|apply negb_true_iff, Z.eqb_neq; auto]). congruence.
Qed.
Section P.
Variables m d : nat.
Variable prim : nat -> nat -> R.
Variable N : nat.
Variable basis : nat -> nat -> R.
Variable round : R -> Z.
Variable lstsq_mat : (nat -> nat -> R) -> (nat -> nat -> R) -> nat -> nat -> R.
Variable lstsq : (nat -> nat -> R) -> (nat -> R) -> nat -> R.
Variable inv : (nat -> nat -> R) -> nat -> nat -> R.
Variable argsort : (point -> R) -> list point -> list point.
Hypothesis Hm : (0 < m)%nat.
Hypothesis HN : (0 < N)%nat.
Hypothesis L : good_libraries m d round lstsq_mat lstsq inv argsort.
Hypothesis Hi : independent m d prim.
Notation zeros := (zeros m).
Notation spos i := (site_position prim (basis i)).
Notation lpos i := (pos m prim (basis i)).
Notation sd := (site_dist d prim basis).
Notation is_site := (is_site m N).
Notation len t := (dist d (vector prim t) (fun _ => 0)).

Lemma zeros_len : lattice_point m zeros.
Proof. apply repeat_length. Qed.
Lemma vector_zeros k : vector prim zeros k = 0.
Proof. unfold vector, NeighborsModel.zeros. rewrite repeat_length. rewrite (@Rsum_ext m _ (fun _ => 0)); [apply Rsum_0|]. intros i Hi'. rewrite nth_zeros. ring. Qed.
Lemma len_zeros : len zeros = 0.
Proof. transitivity (dist d (fun _ => 0) (fun _ => 0)); [apply dist_ext; intros; rewrite vector_zeros; ring|apply dist_self]. Qed.
Lemma vector_psub t u k : lattice_point m t -> lattice_point m u -> vector prim (psub t u) k = vector prim t k - vector prim u k.
Proof.
  intros Lt Lu. unfold vector. rewrite psub_length, Lt, Lu by (rewrite Lt; auto). rewrite <- Rsum_minus. apply Rsum_ext. intros i Hi'. rewrite psub_nth, minus_IZR by (rewrite Lt; auto). ring.
Qed.
Lemma dist_sym u v : dist d u v = dist d v u.
Proof. unfold dist. f_equal. unfold dot. apply Rsum_ext. intros; ring. Qed.
Lemma sd_sym a b : sd a b = sd b a.
Proof. apply dist_sym. Qed.
Lemma dist_shift u v u' v' : (forall k, (k < d)%nat -> u k - v k = u' k - v' k) -> dist d u v = dist d u' v'.
Proof. intros H. unfold dist. f_equal. unfold dot. apply Rsum_ext. intros k Hk. rewrite H; auto. Qed.
Lemma sd_shift i j t u : lattice_point m t -> lattice_point m u -> sd (i, t) (j, u) = sd (i, psub t u) (j, zeros).
Proof.
  intros Lt Lu. apply dist_shift. intros k Hk. unfold site_position. cbn [fst snd]. rewrite vector_psub, vector_zeros by auto. ring.
Qed.
Lemma sd_same i t : sd (i, t) (i, zeros) = len t.
Proof. apply dist_shift. intros k Hk. unfold site_position. cbn [fst snd]. rewrite vector_zeros. ring. Qed.
Lemma norm_dist i j t : lattice_point m t -> norm d (fun k => lpos i t k - lpos j zeros k) = sd (i, t) (j, zeros).
Proof.
  intros Lt. unfold norm, site_dist, dist. f_equal. unfold dot. apply Rsum_ext. intros k Hk. cbn [fst snd].
  rewrite !pos_spec by (auto; apply zeros_len). reflexivity.
Qed.
Lemma sd_pos a b : 0 <= sd a b.
Proof. apply sqrt_pos. Qed.
Lemma len_zero t : lattice_point m t -> len t = 0 -> t = zeros.
Proof.
  intros Lt H. apply (vector_inj m d prim Hi); auto; [apply zeros_len|]. intros k Hk. rewrite vector_zeros. apply (dist_zero d _ (fun _ => 0)); auto. rewrite H. lra.
Qed.
Lemma len_pos t : lattice_point m t -> t <> zeros -> 0 < len t.
Proof.
  intros Lt N0. assert (0 <= len t) by apply sqrt_pos. destruct (Req_dec (len t) 0) as [E|E]; [|lra]. exfalso. apply N0. apply len_zero; auto.
Qed.
Lemma len_opp t : len (map Z.opp t) = len t.
Proof.
  rewrite dist_sym. apply dist_shift. intros k Hk. unfold vector. rewrite map_length. 
  rewrite (@Rsum_ext (length t) (fun i => IZR (nth i (map Z.opp t) 0%Z) * prim i k) (fun i => -1 * (IZR (nth i t 0%Z) * prim i k))).
  - rewrite Rsum_mult_l. ring.
  - intros i Hi'. change 0%Z with (Z.opp 0) at 1. rewrite map_nth, opp_IZR. ring.
Qed.

Section N.
Variables lfuel cfuel : nat.
Notation n_closest i := (n_closest m d prim (basis i) round lstsq_mat lstsq inv argsort lfuel cfuel).
Notation tolerance := (tolerance m d prim basis round lstsq_mat lstsq inv argsort lfuel cfuel).
Notation pair_sites := (pair_sites m d prim basis round lstsq_mat lstsq inv argsort lfuel cfuel).
Notation neighbors := (neighbors m d prim N basis round lstsq_mat lstsq inv argsort lfuel cfuel).

Lemma tolerance_spec eps tol : tolerance eps = Some tol -> exists l, shortest_length m d prim l /\ tol = eps * l.
Proof.
  unfold NeighborsModel.tolerance. destruct (n_closest 0%nat _ 2 false _) as [tags|] eqn:E; [|discriminate]. intros [= <-].
  destruct (C55_n_closest m d prim (basis 0%nat) round lstsq_mat lstsq inv argsort Hm L Hi _ _ _ _ _ _ E) as (E1 & ND & Fa & S & Cl).
  destruct tags as [|a [|b [|? ?]]]; try discriminate. cbn [last].
  inversion Fa as [|? ? La Fb]; subst. inversion Fb as [|? ? Lb _]; subst.
  assert (D : forall t, lattice_point m t -> dist d (spos 0%nat t) (lpos 0%nat zeros) = len t).
  { intros t Lt. rewrite <- (sd_same 0%nat t). unfold site_dist. cbn [fst snd]. apply dist_shift. intros k Hk. rewrite pos_spec by apply zeros_len. reflexivity. }
  assert (Dab : len a <= len b) by (inversion S as [|? ? _ F]; subst; inversion F; subst; rewrite !D in H1 by auto; auto).
  assert (D0 : len zeros = 0) by apply len_zeros.
  assert (Ea : a = zeros).
  { destruct (in_dec (list_eq_dec Z.eq_dec) zeros [a; b]) as [[H|[H|[]]]|H]; auto.
    - subst b. rewrite D0 in Dab. apply len_zero; auto. apply Rle_antisym; auto. apply sqrt_pos.
    - specialize (Cl a zeros (or_introl eq_refl) zeros_len H). rewrite !D, D0 in Cl by (auto; apply zeros_len). apply len_zero; auto. apply Rle_antisym; auto. apply sqrt_pos. }
  subst a. assert (Nb : b <> zeros) by (inversion ND as [|? ? Hn _]; subst; intros ->; apply Hn; left; auto).
  exists (len b). split.
  - split; [exists b; auto|]. intros t Lt Nt. destruct (list_eq_dec Z.eq_dec t b) as [->|Ntb]; [lra|].
    rewrite <- !D by auto. apply Cl; auto; [right; left; auto|]. intros [H|[H|[]]]; [apply Nt; rewrite <- H; reflexivity|congruence].
  - f_equal. unfold norm, dist. f_equal. unfold dot, vec, vector. apply Rsum_ext. intros k Hk. rewrite Lb. ring.
Qed.

Section Shells.
Variables (n : nat) (eps tol l : R) (D : list R).
Hypothesis Heps : 0 < eps.
Hypothesis Hl : shortest_length m d prim l.
Hypothesis Htol : tol = eps * l.
Hypothesis HD : shells (distances m d prim N basis) tol D.
Hypothesis Hn : length D = S n.

Lemma tol_pos : 0 < tol.
Proof. rewrite Htol. apply Rmult_lt_0_compat; auto. destruct Hl as [(t & Lt & Nt & ->) _]. apply len_pos; auto. Qed.
Lemma pair_dist i j t : (i < N)%nat -> (j < N)%nat -> lattice_point m t -> distances m d prim N basis (sd (i, t) (j, zeros)).
Proof. intros Hi' Hj Lt. exists (i, t), (j, zeros). repeat split; auto; apply zeros_len. Qed.

(** all hoppings up to the n-th shell are found *)
Lemma pair_complete i j tags : (i < N)%nat -> (j < N)%nat -> n_closest i (lpos j zeros) (n + 1) true eps = Some tags ->
  NoDup tags /\ Forall (lattice_point m) tags /\ forall t, lattice_point m t -> sd (i, t) (j, zeros) <= last D 0 -> In t tags.
Proof.
  intros Hi' Hj E. pose proof tol_pos as Pt.
  destruct (C55_grouped m d prim (basis i) round lstsq_mat lstsq inv argsort Hm L Hi _ _ _ _ _ _ (ltac:(lia) : (0 < n + 1)%nat) (Rlt_le _ _ Heps) E) as (y & h & tl & Hh & Ph & Ht & Ptl & ND & Fa & Ne & S & G & Cl).
  specialize (Ptl Heps). split; auto. split; auto. intros t Lt Hle.
  destruct (in_dec (list_eq_dec Z.eq_dec) t tags) as [|Nin]; auto. exfalso.
  assert (Q : forall s, In s tags -> lattice_point m s) by (apply Forall_forall; auto).
  assert (Ed : forall s, lattice_point m s -> sd (i, s) (j, zeros) = dist d (spos i s) (lpos j zeros)).
  { intros s Ls. apply dist_shift. intros k Hk. cbn [fst snd]. rewrite (pos_spec m prim (basis j)) by apply zeros_len. reflexivity. }
  (* the projected distance as a function of the distance *)
  assert (Ey : forall s, lattice_point m s -> dist d (spos i s) y = sqrt (sd (i, s) (j, zeros) ^ 2 - h)).
  { intros s Ls. rewrite Ed by auto. rewrite (Hh s Ls). replace (dist d (spos i s) y ^ 2 + h - h) with (dist d (spos i s) y ^ 2) by ring. symmetry. apply sqrt_pow2. apply sqrt_pos. }
  assert (Lt' : forall s, In s tags -> sd (i, s) (j, zeros) < sd (i, t) (j, zeros)).
  { intros s Hs. specialize (Cl s t Hs Lt Nin). pose proof (Hh s (Q s Hs)) as H1. pose proof (Hh t Lt) as H2. rewrite <- !Ed in H1, H2 by auto.
    assert (P1 : 0 <= dist d (spos i s) y) by apply sqrt_pos. assert (P2 : 0 <= sd (i, t) (j, zeros)) by apply sd_pos. assert (P3 : 0 <= sd (i, s) (j, zeros)) by apply sd_pos.
    apply Rsqr_incrst_0; auto. unfold Rsqr. nra. }
  destruct HD as (DN & SD & AD & Cov).
  assert (InD : forall s, lattice_point m s -> sd (i, s) (j, zeros) <= last D 0 -> In (sd (i, s) (j, zeros)) D).
  { intros s Ls Hs. destruct (Cov _ (pair_dist i j s Hi' Hj Ls)); auto. lra. }
  set (dt := sd (i, t) (j, zeros)) in *.
  set (E0 := filter (fun x => Rltb x dt) D).
  assert (LE : (length E0 < length D)%nat).
  { assert (X : In dt D) by (apply InD; auto). unfold E0. clear - X. induction D as [|a D' IH]; [destruct X|]. cbn. destruct X as [->|X].
    - replace (Rltb dt dt) with false by (symmetry; apply Rltb_false; lra). clear. induction D' as [|b D' IH]; cbn; [lia|]. destruct (Rltb b dt); cbn; lia.
    - specialize (IH X). destruct (Rltb a dt); cbn; lia. }
  assert (V : (gaps tl (map (fun s => dist d (spos i s) y) tags) + 1 <= length (map (fun x => sqrt (x ^ 2 - h)) E0))%nat).
  { apply gaps_values; [lra| | |].
    - eapply sorted_map; [|exact S]. cbv beta. auto.
    - intros X. apply map_eq_nil in X. auto.
    - intros x Hx. apply in_map_iff in Hx. destruct Hx as (s & <- & Hs). rewrite Ey by auto. apply in_map_iff. exists (sd (i, s) (j, zeros)). split; auto. apply filter_In. split; [|apply Rltb_spec; auto]. apply InD; auto. specialize (Lt' s Hs). lra. }
  rewrite map_length, G in V. lia.
Qed.

(** the smallest distance is 0 *)
Lemma first_shell : exists D', D = 0 :: D'.
Proof.
  destruct HD as (DN & SD & AD & Cov). destruct D as [|a D'] eqn:ED; [congruence|]. exists D'. f_equal.
  assert (Z : distances m d prim N basis 0) by (exists (0%nat, zeros), (0%nat, zeros); repeat split; auto; try apply zeros_len; symmetry; apply dist_self).
  assert (A : 0 <= a) by (destruct (Forall_inv AD) as (x & y & _ & _ & ->); apply sd_pos).
  pose proof tol_pos. pose proof (sorted_last tol (a :: D') ltac:(lra) SD a (or_introl eq_refl)) as La.
  destruct (Cov 0 Z) as [[->|X]|X]; auto; [|lra]. destruct (StronglySorted_inv SD) as [_ F]. rewrite Forall_forall in F. specialize (F 0 X). lra.
Qed.
Lemma last_shell_pos : (0 < n)%nat -> 0 < last D 0.
Proof.
  intros H. destruct first_shell as (D' & E). destruct HD as (_ & SD & _). pose proof tol_pos. rewrite E in *. destruct D' as [|b D']; [cbn in Hn; lia|].
  rewrite last_cons by discriminate. destruct (StronglySorted_inv SD) as [SD' F]. pose proof (Forall_inv F) as Fb. cbv beta in Fb.
  pose proof (sorted_last tol (b :: D') ltac:(lra) SD' b (or_introl eq_refl)). lra.
Qed.
Lemma last_shell_zero : n = 0%nat -> last D 0 = 0.
Proof. intros H. destruct first_shell as (D' & E). rewrite E in *. destruct D'; [reflexivity|cbn in Hn; lia]. Qed.
Lemma near_shell x : distances m d prim N basis x -> (Rltb (Rabs (x - last D 0)) tol = true <-> x = last D 0).
Proof.
  intros Hx. pose proof tol_pos. destruct HD as (DN & SD & AD & Cov). rewrite Rltb_spec. split; [|intros ->; replace (last D 0 - last D 0) with 0 by ring; rewrite Rabs_R0; auto].
  intros Hr. destruct (Cov x Hx) as [Hin|Hf].
  - eapply (sorted_sep tol D); eauto; [lra|apply last_In; auto|lra].
  - rewrite Rabs_right in Hr by lra. lra.
Qed.

(** the sorted tags of a pair of sublattices at the n-th distance *)
Definition shell_tags (i j : nat) (tags : list point) : list point :=
  rev (lexsort (map fst (filter (fun td => Rltb (Rabs (snd td - last D 0)) tol) (combine tags (map (fun tag => norm d (fun k => lpos i tag k - lpos j zeros k)) tags))))).
Lemma shell_tags_spec i j tags : (i < N)%nat -> (j < N)%nat -> n_closest i (lpos j zeros) (n + 1) true eps = Some tags ->
  NoDup (shell_tags i j tags) /\ StronglySorted (fun s t => lex_leb t s = true) (shell_tags i j tags) /\
  forall t, In t (shell_tags i j tags) <-> lattice_point m t /\ sd (i, t) (j, zeros) = last D 0.
Proof.
  intros Hi' Hj E. destruct (pair_complete i j tags Hi' Hj E) as (ND & Fa & Co). rewrite Forall_forall in Fa.
  set (F := filter (fun t => Rltb (Rabs (sd (i, t) (j, zeros) - last D 0)) tol) tags).
  assert (Ef : map fst (filter (fun td => Rltb (Rabs (snd td - last D 0)) tol) (combine tags (map (fun tag => norm d (fun k => lpos i tag k - lpos j zeros k)) tags))) = F).
  { unfold F. clear - Fa. induction tags as [|t tags IH]; [reflexivity|]. cbn [map combine filter snd]. rewrite norm_dist by (apply Fa; cbn; auto).
    destruct (Rltb _ tol); cbn [map fst]; [f_equal|]; apply IH; intros; apply Fa; cbn; auto. }
  unfold shell_tags. rewrite Ef. split; [|split].
  - apply NoDup_rev. eapply Permutation_NoDup; [symmetry; apply lexsort_perm|]. apply NoDup_filter. auto.
  - apply (sorted_rev (fun s t => lex_leb s t = true)). apply lexsort_sorted.
  - intros t. rewrite <- in_rev. split.
    + intros Ht. apply (Permutation_in t (lexsort_perm F)) in Ht. apply filter_In in Ht. destruct Ht as [Ht Hr]. split; auto. apply near_shell in Hr; auto. apply pair_dist; auto.
    + intros [Lt Et]. apply (Permutation_in t (Permutation_sym (lexsort_perm F))). apply filter_In. split; [apply Co; auto; lra|]. apply near_shell; auto. apply pair_dist; auto.
Qed.
(** those that are kept *)
Definition kept (i j : nat) (tags : list point) : list point :=
  let T := shell_tags i j tags in if (j =? i)%nat && (1 <? length T)%nat then firstn (length T / 2) T else T.
Lemma kept_spec i j tags : (i < N)%nat -> (j < N)%nat -> n_closest i (lpos j zeros) (n + 1) true eps = Some tags ->
  NoDup (kept i j tags) /\ StronglySorted (fun s t => lex_leb t s = true) (kept i j tags) /\
  forall t, In t (kept i j tags) <-> lattice_point m t /\ sd (i, t) (j, zeros) = last D 0 /\ (i = j -> (0 < n)%nat -> positive t).
Proof.
  intros Hi' Hj E. destruct (shell_tags_spec i j tags Hi' Hj E) as (ND & S & Co). unfold kept. set (T := shell_tags i j tags) in *. cbv zeta.
  destruct (Nat.eq_dec j i) as [->|Nji]; [rewrite Nat.eqb_refl|rewrite (proj2 (Nat.eqb_neq j i)) by auto].
  2: { cbn [andb]. split; auto. split; auto. intros t. rewrite Co. split; [intros [? ?]; repeat split; auto; intros; congruence|tauto]. }
  cbn [andb]. destruct (Nat.eq_dec n 0) as [En|En].
  - (* the site itself *)
    assert (Z : last D 0 = 0) by (apply last_shell_zero; auto).
    assert (Only : forall t, In t T -> t = zeros) by (intros t Ht; apply Co in Ht; destruct Ht as [Lt Et]; rewrite sd_same, Z in Et; apply len_zero; auto).
    assert (Len : (length T <= 1)%nat) by (apply (NoDup_incl_length ND (l' := [zeros])); intros t Ht; left; symmetry; auto).
    rewrite (proj2 (Nat.ltb_ge 1 (length T))) by lia. split; auto. split; auto. intros t. rewrite Co. split; [intros [? ?]; repeat split; auto; intros; lia|tauto].
  - assert (Pz : 0 < last D 0) by (apply last_shell_pos; lia).
    assert (Nz : forall t, In t T -> exists k, nth k t 0%Z <> 0%Z).
    { intros t Ht. apply Co in Ht. destruct Ht as [Lt Et]. apply (nonzero_tag m); auto. intros ->. change (repeat 0%Z m) with zeros in Et. rewrite sd_same, len_zeros in Et. lra. }
    assert (FH : firstn (length T / 2) T = filter posb T).
    { apply (first_half m); auto.
      - intros t Ht. apply Co in Ht. apply Ht.
      - intros t Ht. apply Co in Ht. destruct Ht as [Lt Et]. apply Co. split; [unfold lattice_point; rewrite map_length; auto|]. rewrite sd_same in *. rewrite len_opp. auto. }
    assert (EK : (if (1 <? length T)%nat then firstn (length T / 2) T else T) = filter posb T).
    { destruct (Nat.ltb_spec 1 (length T)) as [H|H]; auto. destruct T as [|t [|u T']] eqn:ET; [reflexivity| |cbn in H; lia]. exfalso.
      assert (Ht : In t [t]) by (left; auto). pose proof (Nz t Ht) as (k & Hk). apply Co in Ht. destruct Ht as [Lt Et].
      assert (Ho : In (map Z.opp t) [t]) by (apply Co; split; [unfold lattice_point; rewrite map_length; auto|rewrite sd_same in *; rewrite len_opp; auto]).
      destruct Ho as [Ho|[]]. apply Hk. assert (X : nth k (map Z.opp t) 0%Z = Z.opp (nth k t 0%Z)) by (change 0%Z with (Z.opp 0) at 1; apply map_nth). rewrite <- Ho in X. lia. }
    rewrite EK. split; [apply NoDup_filter; auto|]. split; [apply sorted_filter; auto|]. intros t. rewrite filter_In, Co, posb_spec. split; [intros [[? ?] ?]; repeat split; auto|]. intros (? & ? & X). repeat split; auto. apply X; auto. lia.
Qed.

Lemma nth_distance sites : map (pair_sites n eps) (sublat_pairs N) = map Some sites ->
  nth_dist n tol (rsort (flat_map (fun s => snd s) sites)) = Some (last D 0).
Proof.
  intros E. pose proof tol_pos as Pt.
  set (ds := rsort (flat_map (fun s => snd s) sites)).
  assert (Sd : StronglySorted Rle ds) by apply rsort_sorted.
  assert (In1 : forall x, In x ds <-> exists i j tags t, In (i, j) (sublat_pairs N) /\ n_closest i (lpos j zeros) (n + 1) true eps = Some tags /\ In t tags /\ x = norm d (fun k => lpos i t k - lpos j zeros k)).
  { intros x. split.
    - intros Hx. apply (Permutation_in x (rsort_perm _)) in Hx. apply in_flat_map in Hx. destruct Hx as (s & Hs & Hx). assert (Hs' : In (Some s) (map (pair_sites n eps) (sublat_pairs N))) by (rewrite E; apply in_map; auto).
      apply in_map_iff in Hs'. destruct Hs' as ((i, j) & Ep & Hp). unfold NeighborsModel.pair_sites in Ep. destruct (n_closest i _ _ _ _) as [tags|] eqn:En; [|discriminate]. injection Ep as <-. cbn [snd] in Hx.
      apply in_map_iff in Hx. destruct Hx as (t & <- & Ht). exists i, j, tags, t. auto.
    - intros (i & j & tags & t & Hp & En & Ht & ->). apply (Permutation_in _ (Permutation_sym (rsort_perm _))). apply in_flat_map.
      assert (Hs : In (pair_sites n eps (i, j)) (map Some sites)) by (rewrite <- E; apply in_map; auto). unfold NeighborsModel.pair_sites in Hs. rewrite En in Hs. apply in_map_iff in Hs. destruct Hs as (s & Es & Hs).
      exists s. split; auto. injection Es as ->. cbn [snd]. apply in_map_iff. exists t. auto. }
  destruct HD as (DN & SD & AD & Cov).
  assert (Sh : shells (fun x => In x ds) tol D).
  { split; auto. split; auto. split.
    - rewrite Forall_forall in *. intros x Hx. destruct (AD x Hx) as ((i, t) & (j, u) & (Ha & Lt) & (Hb & Lu) & Ex). cbn [fst snd] in *.
      assert (One : forall i j t u, (i < N)%nat -> (j < N)%nat -> lattice_point m t -> lattice_point m u -> x = sd (i, t) (j, u) -> (i <= j)%nat -> In x ds).
      { clear i t j u Ha Lt Hb Lu Ex. intros i j t u Hi' Hj Lt Lu Ex Hij. assert (Hp : In (i, j) (sublat_pairs N)) by (apply in_pairs; auto).
        assert (Hs : In (pair_sites n eps (i, j)) (map Some sites)) by (rewrite <- E; apply in_map; auto). unfold NeighborsModel.pair_sites in Hs.
        destruct (n_closest i (lpos j zeros) (n + 1) true eps) as [tags|] eqn:En; [|apply in_map_iff in Hs; destruct Hs as (? & [=] & _)].
        destruct (pair_complete i j tags Hi' Hj En) as (_ & Fa & Co). rewrite sd_shift in Ex by auto.
        assert (Lp : lattice_point m (psub t u)) by (unfold lattice_point; rewrite psub_length; auto; rewrite Lt; auto).
        apply In1. exists i, j, tags, (psub t u). split; auto. split; auto. split; [|rewrite norm_dist; auto]. apply Co; auto. rewrite <- Ex. apply (sorted_last tol); auto. lra. }
      destruct (le_lt_dec i j) as [H|H]; [apply (One i j t u); auto|apply (One j i u t); auto; [rewrite sd_sym; auto|lia]].
    - intros x Hx. apply Cov. apply In1 in Hx. destruct Hx as (i & j & tags & t & Hp & En & Ht & ->). apply in_pairs in Hp. destruct Hp as (Hi' & Hj & _).
      destruct (pair_complete i j tags Hi' Hj En) as (_ & Fa & _). rewrite Forall_forall in Fa. rewrite norm_dist by auto. apply pair_dist; auto. }
  unfold nth_dist. rewrite boundaries_bnd. destruct (shells_boundaries tol ltac:(lra) ds 0%nat D Sd Sh) as [(E1 & E2)|(g & E1 & E2 & E3)]; rewrite Hn in *; cbn [Nat.sub] in *; rewrite Nat.sub_0_r in E1.
  - rewrite E1, Nat.eqb_refl. rewrite E2. destruct ds; auto. exfalso. destruct Sh as (_ & _ & Fa & _). destruct D as [|x0 D0]; [congruence|]. destruct (Forall_inv Fa).
  - assert (X : (n < length (bnd tol 0 ds))%nat) by (apply nth_error_Some; rewrite E1; discriminate). rewrite (proj2 (Nat.eqb_neq _ _)) by lia. rewrite E1. rewrite Nat.sub_0_r in E3. rewrite E3. auto.
Qed.
End Shells.
End N.
End P.
