(** * C55: positions of lattice sites and the sites closest to a point. *)
From Coq Require Import List Bool Arith ZArith Reals Lia Lra Sorting.Permutation Sorting.Sorted.
From Verif Require Import KpmReal KpmRealProofs CvpModel CvpSpec CvpProofs CvpVoronoi2 CvpProps LllModel LllSpec LllProofs LllProps LatticeModel LatticeSpec LatticeProofs.
Import ListNotations.
Open Scope R_scope.

Lemma dot_zero d u : dot d u u = 0 -> forall k, (k < d)%nat -> u k = 0.
Proof.
  unfold dot. induction d as [|n IH]; intros H k Hk; [lia|]. cbn in H.
  assert (0 <= Rsum n (fun i => u i * u i)) by (apply Rsum_nonneg; intros; apply Rle_0_sqr). assert (0 <= u n * u n) by apply Rle_0_sqr.
  destruct (Nat.eq_dec k n) as [->|]; [|apply IH; [lra|lia]]. assert (u n * u n = 0) by lra. apply Rmult_integral in H2. tauto.
Qed.
Section C55.
Variables m d : nat.
Variable prim : nat -> nat -> R.
Variable offset : nat -> R.
Variable round : R -> Z.
Variable lstsq_mat : (nat -> nat -> R) -> (nat -> nat -> R) -> nat -> nat -> R.
Variable lstsq : (nat -> nat -> R) -> (nat -> R) -> nat -> R.
Variable inv : (nat -> nat -> R) -> nat -> nat -> R.
Variable argsort : (point -> R) -> list point -> list point.
Hypothesis Hm : (0 < m)%nat.
Hypothesis L : good_libraries m d round lstsq_mat lstsq inv argsort.
Hypothesis Hi : independent m d prim.
Notation reduced := (reduced m d prim round lstsq_mat).
Notation n_closest := (n_closest m d prim offset round lstsq_mat lstsq inv argsort).
Notation closest := (closest m d prim offset round lstsq_mat lstsq inv argsort).
Notation voronoi_tags := (voronoi_tags m d prim round lstsq_mat lstsq inv argsort).
Notation spos := (site_position prim offset).

(** n_closest(x, n): the tags of n different sites, in the order of their
    distance from x; no other site of the lattice is closer. *)
Theorem C55_n_closest : forall lfuel cfuel x n rtol tags, n_closest lfuel cfuel x n false rtol = Some tags ->
  length tags = n /\ NoDup tags /\ Forall (lattice_point m) tags /\
  StronglySorted (fun s t => dist d (spos s) x <= dist d (spos t) x) tags /\
  forall s t, In s tags -> lattice_point m t -> ~ In t tags -> dist d (spos s) x <= dist d (spos t) x.
Proof. intros lfuel cfuel x n rtol tags. apply main_closest; auto. Qed.

(** group_by_length=True: as a function of the tag, the squared distance from x
    and that from its projection y onto the span of the lattice differ by a
    constant.  The sites come in n groups of almost equal distance from y, and
    all others are farther by more than the tolerance, which is at most rtol / 2
    times the length of any lattice vector. *)
Theorem C55_grouped : forall lfuel cfuel x n rtol tags, (0 < n)%nat -> 0 <= rtol -> n_closest lfuel cfuel x n true rtol = Some tags ->
  exists y h tol,
    (forall tag, lattice_point m tag -> dist d (spos tag) x ^ 2 = dist d (spos tag) y ^ 2 + h) /\ 0 <= h /\
    (forall tag, lattice_point m tag -> (exists k, nth k tag 0%Z <> 0%Z) -> 2 * tol <= rtol * dist d (vector prim tag) (fun _ => 0)) /\ (0 < rtol -> 0 < tol) /\
    NoDup tags /\ Forall (lattice_point m) tags /\ tags <> [] /\
    StronglySorted (fun s t => dist d (spos s) y <= dist d (spos t) y) tags /\
    gaps tol (map (fun s => dist d (spos s) y) tags) = (n - 1)%nat /\
    forall s t, In s tags -> lattice_point m t -> ~ In t tags -> dist d (spos s) y + tol < dist d (spos t) y.
Proof. intros lfuel cfuel x n rtol tags. apply main_grouped; auto. Qed.

(** closest(x): no site is closer to x than the returned one *)
Theorem C55_closest : forall lfuel cfuel x tag, closest lfuel cfuel x = Some tag ->
  lattice_point m tag /\ forall t, lattice_point m t -> dist d (pos m prim offset tag) x <= dist d (pos m prim offset t) x.
Proof.
  intros lfuel cfuel x tag. unfold LatticeModel.closest. destruct (n_closest lfuel cfuel x 1 false _) as [[|t l]|] eqn:E; try discriminate. intros [= ->].
  destruct (C55_n_closest _ _ _ _ _ _ E) as (E1 & E2 & E3 & E4 & E5). inversion E3 as [|? ? Lt _]; subst. split; auto. intros q Lq.
  assert (D : forall p, lattice_point m p -> dist d (pos m prim offset p) x = dist d (spos p) x) by (intros p Lp; apply dist_ext; intros k Hk; rewrite pos_spec; auto).
  rewrite !D by auto. destruct (list_eq_dec Z.eq_dec tag q) as [->|N]; [apply Rle_refl|]. apply E5; cbn; auto. intros [?|Hin]; auto. destruct l; [auto|discriminate].
Qed.

Lemma dist_zero u v : dist d u v <= 0 -> forall k, (k < d)%nat -> u k = v k.
Proof.
  intros H k Hk. assert (E : dist d u v = 0) by (apply Rle_antisym; auto; apply sqrt_pos). unfold dist in E. apply sqrt_eq_0 in E; [|apply dot_pos].
  pose proof (dot_zero d _ E k Hk) as Z. cbv beta in Z. lra.
Qed.
Lemma dist_self u : dist d u u = 0.
Proof. unfold dist. rewrite <- sqrt_0. f_equal. unfold dot. rewrite (@Rsum_ext d _ (fun _ => 0)); [apply Rsum_0|]. intros; ring. Qed.
Lemma vector_inj s t : lattice_point m s -> lattice_point m t -> (forall k, (k < d)%nat -> vector prim s k = vector prim t k) -> s = t.
Proof.
  intros Ls Lt H. apply list_eq_nth with (n := m); auto. intros i Hi'.
  assert (Z : IZR (nth i s 0%Z) - IZR (nth i t 0%Z) = 0).
  { apply (Hi (fun i => IZR (nth i s 0%Z) - IZR (nth i t 0%Z))); auto. intros k Hk. specialize (H k Hk). unfold vector in H. rewrite Ls, Lt in H.
    rewrite (@Rsum_ext m _ (fun j => IZR (nth j s 0%Z) * prim j k - IZR (nth j t 0%Z) * prim j k)) by (intros; ring). rewrite Rsum_minus. lra. }
  apply eq_IZR. lra.
Qed.
(** the site closest to the position of a site is that site *)
Theorem C55_roundtrip : forall lfuel cfuel tag t, lattice_point m tag -> closest lfuel cfuel (pos m prim offset tag) = Some t -> t = tag.
Proof.
  intros lfuel cfuel tag t Lt E. destruct (C55_closest _ _ _ _ E) as [Lt' Cl]. specialize (Cl tag Lt). rewrite dist_self in Cl.
  apply vector_inj; auto. intros k Hk. pose proof (dist_zero _ _ Cl k Hk) as Z. rewrite !pos_spec in Z by auto. unfold site_position in Z. lra.
Qed.

(** the search succeeds in one or two lattice dimensions *)
Theorem C55_total : forall x n rtol, (m <= 2)%nat -> (m <= d)%nat -> (0 < n)%nat -> exists lfuel cfuel tags, n_closest lfuel cfuel x n false rtol = Some tags.
Proof.
  intros x n rtol Hm2 Hd Hn. destruct L as (L1 & L2 & L3 & L4).
  assert (R : exists lfuel v t, reduced lfuel = Some (v, t)).
  { unfold LatticeModel.reduced. destruct (Nat.eq_dec m 2) as [E|E].
    - clear - E Hd L1 L2 Hi. revert Hd L1 Hi. rewrite E. intros Hd L1 Hi. destruct (C35_terminates_two d round lstsq_mat prim (134 / 100) Hd ltac:(lra) L2 L1 Hi) as (f & v & t & X). exists f, v, t. rewrite X. reflexivity.
    - exists 1%nat. destruct (C35_no_failure m d round lstsq_mat 1 prim (134 / 100) L2 L1 Hi Hd) as [(v & t & X)|X].
      + exists v, t. rewrite X. reflexivity.
      + exfalso. assert (E1 : m = 1%nat) by lia. clear - X E1 Hd. unfold lll in X. destruct (Nat.ltb_spec d m); [lia|].
        assert (Lp : forall st, loop realA m d (gs_coefficient realA d) round 1 (134 / 100) 0 st = Some st) by (intros; cbn [loop]; destruct (Nat.ltb_spec 0 (m - 1)); [lia|reflexivity]).
        rewrite Lp in X. cbv zeta in X. destruct (negb _); [discriminate|]. destruct (negb _); discriminate. }
  destruct R as (lf & v & t & R). destruct (reduced_ok _ _ _ _ _ _ _ _ Hm (conj L1 (conj L2 (conj L3 L4))) Hi _ _ _ R) as (_ & _ & _ & Lv).
  destruct (C36_terminates _ _ _ _ _ _ _ (fun k => x k - offset k) n rtol Lv Hn) as (F & HF). destruct (HF F (le_n F)) as (ps & E).
  exists lf, F. unfold LatticeModel.n_closest. rewrite R, E. eauto.
Qed.

(** The vectors along which shapes are filled come in pairs of opposite ones. *)
Theorem C55_opposite : forall lfuel cfuel ds, voronoi_tags lfuel cfuel = Some ds ->
  Forall (lattice_point m) ds /\ (forall p, In p ds -> In (map Z.opp p) ds) /\ ds <> [].
Proof.
  intros lfuel cfuel ds. unfold LatticeModel.voronoi_tags. destruct (reduced lfuel) as [(v, t)|] eqn:R; [|discriminate]. destruct (voronoi _ _ _ _ _ _ _ _ _ _) as [vs|] eqn:E; [|discriminate]. intros [= <-].
  destruct (reduced_ok _ _ _ _ _ _ _ _ Hm L Hi _ _ _ R) as (_ & _ & _ & Lv).
  destruct (C36_voronoi _ _ _ _ _ _ _ _ _ _ Lv E) as ((h & Eh & Lh) & ND & Fa & Ce).
  assert (Len : forall p, length (dot_transf m t p) = m) by (intros p; unfold dot_transf; rewrite map_length, seq_length; auto).
  split; [|split].
  - apply Forall_forall. intros p Hp. apply in_map_iff in Hp. destruct Hp as (q & <- & _). apply Len.
  - intros p Hp. apply in_map_iff in Hp. destruct Hp as (q & <- & Hq). apply in_map_iff. exists (map Z.opp q). split.
    + apply list_eq_nth with (n := m); [apply Len|rewrite map_length; apply Len|]. intros j Hj. change 0%Z with (Z.opp 0) at 2. rewrite map_nth. unfold dot_transf. rewrite !nth_map_seq by auto.
      transitivity (Zsum m (fun i => -1 * (nth i q 0 * t i j))%Z); [|rewrite Zsum_mult_l; lia]. apply Zsum_ext. intros i Hi'. change 0%Z with (Z.opp 0) at 1. rewrite map_nth. ring.
    + rewrite Eh in Hq |- *. apply in_app_iff in Hq. apply in_app_iff. destruct Hq as [Hq|Hq]; [right; apply in_map; auto|left]. apply in_map_iff in Hq. destruct Hq as (r & <- & Hr). rewrite map_map. rewrite (map_ext _ (fun z => z)) by (intros; lia). rewrite map_id. auto.
  - intros X. apply map_eq_nil in X. rewrite Eh in X. apply app_eq_nil in X. destruct X as [-> _]. cbn in Lh.
    assert (2 <= 2 ^ m)%nat by (change 2%nat with (2 ^ 1)%nat at 1; apply Nat.pow_le_mono_r; lia). lia.
Qed.

(** The vectors along which shapes are filled.  If the transformation matrix is
    symmetric, they describe the Voronoi cell of the origin, ... *)
Theorem C55_deltas : forall lfuel cfuel v t ds, reduced lfuel = Some (v, t) -> (forall i j, (i < m)%nat -> (j < m)%nat -> t i j = t j i) ->
  voronoi_tags lfuel cfuel = Some ds ->
  NoDup ds /\ Forall (lattice_point m) ds /\ (forall p, In p ds -> In (map Z.opp p) ds) /\
  (forall y, in_cell m d prim y <-> forall p, In p ds -> on_side d prim y p) /\
  (* from every site one of these vectors leads closer to any other one *)
  (forall s, lattice_point m s -> s <> repeat 0%Z m -> exists p, In p ds /\ dist d (vector prim s) (vector prim p) < dist d (vector prim s) (fun _ => 0)).
Proof.
  intros lfuel cfuel v t ds R Sy. unfold LatticeModel.voronoi_tags. rewrite R. destruct (voronoi _ _ _ _ _ _ _ _ _ _) as [vs|] eqn:E; [|discriminate]. intros [= <-].
  destruct (reduced_ok _ _ _ _ _ _ _ _ Hm L Hi _ _ _ R) as ((W & U1 & U2) & V & Iv & Lv).
  destruct (C36_voronoi _ _ _ _ _ _ _ _ _ _ Lv E) as ((h & Eh & _) & ND & Fa & Ce).
  assert (Ea : forall p, dot_transf m t p = act m t p).
  { intros p. apply list_eq_nth with (n := m); [unfold dot_transf; rewrite map_length, seq_length; auto|apply act_length|]. intros j Hj. rewrite act_nth by auto. unfold dot_transf. rewrite nth_map_seq by auto. apply Zsum_ext. intros i Hi'. rewrite Sy; auto. }
  rewrite (map_ext _ _ Ea). assert (Q : forall p, In p vs -> lattice_point m p) by (apply Forall_forall; auto).
  assert (Os : forall y p, lattice_point m p -> on_side d v y p <-> on_side d prim y (act m t p)).
  { intros y p Lp. unfold on_side. assert (X : dist d y (vector v p) = dist d y (vector prim (act m t p))) by (apply dist_ext; intros k Hk; rewrite (vector_act m v prim t p k); auto). rewrite X. tauto. }
  assert (Cell : forall y, in_cell m d prim y <-> forall p, In p (map (act m t) vs) -> on_side d prim y p).
  { intros y. transitivity (in_cell m d v y).
    - split; intros H p Lp.
      + assert (X : on_side d prim y (act m t p)) by (apply H, act_length). apply Os in X; auto.
      + destruct (act_surj m t W p U1 Lp) as [Lw Ew]. rewrite <- Ew. apply (Os y (act m W p) Lw). apply H; auto.
    - rewrite Ce. split; intros H p Hp.
      + apply in_map_iff in Hp. destruct Hp as (q & <- & Hq). apply Os; auto.
      + apply Os; auto. apply H. apply in_map; auto. }
  split; [eapply NoDup_map_act; eauto|]. split; [apply Forall_map_act|]. split; [|split; [exact Cell|]].
  - intros p Hp. apply in_map_iff in Hp. destruct Hp as (q & <- & Hq). apply in_map_iff. exists (map Z.opp q). split.
    + apply list_eq_nth with (n := m); [apply act_length|rewrite map_length; apply act_length|]. intros j Hj. change 0%Z with (Z.opp 0) at 2. rewrite map_nth, !act_nth by auto.
      transitivity (Zsum m (fun i => -1 * (nth i q 0 * t j i))%Z); [|rewrite Zsum_mult_l; lia]. apply Zsum_ext. intros i Hi'. change 0%Z with (Z.opp 0) at 1. rewrite map_nth. ring.
    + rewrite Eh in Hq |- *. apply in_app_iff in Hq. apply in_app_iff. destruct Hq as [Hq|Hq]; [right; apply in_map; auto|left]. apply in_map_iff in Hq. destruct Hq as (r & <- & Hr). rewrite map_map. rewrite (map_ext _ (fun z => z)) by (intros; lia). rewrite map_id. auto.
  - intros s Ls Ns. assert (Nc : ~ in_cell m d prim (vector prim s)).
    { intros H. specialize (H s Ls). rewrite dist_self in H. apply Ns. apply vector_inj; auto; [apply repeat_length|]. intros k Hk. rewrite (dist_zero _ _ H k Hk). unfold vector. rewrite repeat_length.
      rewrite (@Rsum_ext m _ (fun _ => 0)); [rewrite Rsum_0; auto|]. intros i Hi'. replace (nth i (repeat 0%Z m) 0%Z) with 0%Z by (clear; revert i; induction m; intros [|i]; cbn; auto). ring. }
    destruct (Exists_dec (fun p => ~ on_side d prim (vector prim s) p) (map (act m t) vs)) as [Hx|Hx].
    + intros p. unfold on_side. destruct (Rle_dec (dist d (vector prim s) (fun _ => 0)) (dist d (vector prim s) (vector prim p))); [right; auto|left; auto].
    + apply Exists_exists in Hx. destruct Hx as (p & Hp & Hx). exists p. split; auto. unfold on_side in Hx. apply Rnot_le_lt. auto.
    + exfalso. apply Nc, Cell. intros p Hp. destruct (Rle_dec (dist d (vector prim s) (fun _ => 0)) (dist d (vector prim s) (vector prim p))) as [X|X]; [exact X|]. exfalso. apply Hx. apply Exists_exists. exists p. auto.
Qed.
(** lat.vec gives the displacement of sites whose tags differ by its argument. *)
Theorem C55_vec : forall s t u k, lattice_point m s -> lattice_point m t -> lattice_point m u ->
  (forall i, (i < m)%nat -> nth i s 0 = nth i t 0 + nth i u 0)%Z -> site_position prim offset s k - site_position prim offset t k = vec m prim u k.
Proof.
  intros s t u k Ls Lt Lu E. unfold site_position, vector, vec. rewrite Ls, Lt.
  assert (X : Rsum m (fun i => IZR (nth i s 0%Z) * prim i k) = Rsum m (fun i => IZR (nth i t 0%Z) * prim i k) + Rsum m (fun i => IZR (nth i u 0%Z) * prim i k)).
  { rewrite <- Rsum_plus. apply Rsum_ext. intros i Hlt. rewrite E, plus_IZR by auto. ring. }
  rewrite X. ring.
Qed.
End C55.
Print Assumptions C55_n_closest.
Print Assumptions C55_grouped.
Print Assumptions C55_roundtrip.
Print Assumptions C55_total.
Print Assumptions C55_deltas.
Print Assumptions C55_opposite.
