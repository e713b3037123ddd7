(** * Proofs about LatticeModel.v. *)
From Coq Require Import List Bool Arith ZArith Reals Lia Lra Sorting.Permutation Sorting.Sorted.
From Verif Require Import KpmReal KpmRealProofs CvpModel CvpSpec CvpProofs CvpProps LllModel LllSpec LllProofs LllProps LatticeModel LatticeSpec.
Import ListNotations.
Open Scope R_scope.

Lemma nth_map_seq (f : nat -> Z) n i : (i < n)%nat -> nth i (map f (seq 0 n)) 0%Z = f i.
Proof. intros H. rewrite nth_indep with (d' := f 0%nat) by (rewrite map_length, seq_length; auto). rewrite map_nth. rewrite seq_nth by auto. reflexivity. Qed.
Lemma dist_ext d u v u' v' : (forall k, (k < d)%nat -> u k - v k = u' k - v' k) -> dist d u v = dist d u' v'.
Proof. intros H. unfold dist. f_equal. apply dot_ext; auto. Qed.
Lemma list_eq_nth (p q : point) n : length p = n -> length q = n -> (forall i, (i < n)%nat -> nth i p 0%Z = nth i q 0%Z) -> p = q.
Proof. intros Hp Hq H. apply nth_ext with (d := 0%Z) (d' := 0%Z); [congruence|]. intros i Hi. apply H. lia. Qed.

Section P.
Variables m d : nat.

(** action of an integer matrix on tags *)
Definition act (T : nat -> nat -> Z) (p : point) : point := dot_transf_T m T p.
Lemma act_length T p : length (act T p) = m.
Proof. unfold act, dot_transf_T. rewrite map_length, seq_length. reflexivity. Qed.
Lemma act_nth T p j : (j < m)%nat -> nth j (act T p) 0%Z = Zsum m (fun i => nth i p 0 * T j i)%Z.
Proof. intros H. unfold act, dot_transf_T. rewrite nth_map_seq; auto. Qed.
Lemma act_inverse T W p : inverse_of m W T -> lattice_point m p -> act W (act T p) = p.
Proof.
  intros H Lp. apply list_eq_nth with (n := m); auto using act_length. intros j Hj. rewrite act_nth by auto.
  transitivity (Zsum m (fun i => Zsum m (fun l => nth l p 0 * (W j i * T i l)))%Z).
  - apply Zsum_ext. intros i Hi. rewrite act_nth by auto. rewrite <- Zsum_mult_r. apply Zsum_ext. intros; ring.
  - rewrite Zsum_swap. transitivity (Zsum m (fun l => if (l =? j)%nat then nth l p 0%Z else 0%Z)).
    + apply Zsum_ext. intros l Hl. rewrite Zsum_mult_l. rewrite (H j l) by auto. rewrite Nat.eqb_sym. destruct (l =? j)%nat; lia.
    + apply (@Zsum_delta m j (fun l => nth l p 0%Z)). auto.
Qed.
Lemma act_inj T W p q : inverse_of m W T -> lattice_point m p -> lattice_point m q -> act T p = act T q -> p = q.
Proof. intros H Lp Lq E. rewrite <- (act_inverse T W p), <- (act_inverse T W q), E by auto. reflexivity. Qed.

(** vectors of two bases related by T *)
Lemma vector_act (v prim : nat -> nat -> R) T p k : lattice_point m p ->
  (forall i, (i < m)%nat -> v i k = Rsum m (fun j => IZR (T j i) * prim j k)) -> vector v p k = vector prim (act T p) k.
Proof.
  intros Lp H. unfold vector. rewrite Lp, act_length. transitivity (Rsum m (fun i => Rsum m (fun j => IZR (nth i p 0%Z) * (IZR (T j i) * prim j k)))).
  - apply Rsum_ext. intros i Hi. rewrite H by auto. rewrite Rsum_mult_l. reflexivity.
  - rewrite Rsum_swap. apply Rsum_ext. intros j Hj. rewrite act_nth by auto. rewrite IZR_Zsum, <- Rsum_mult_r. apply Rsum_ext. intros i Hi. rewrite mult_IZR. ring.
Qed.

Lemma independent_transfer (v prim : nat -> nat -> R) T : unimodular m T -> independent m d prim ->
  (forall i k, (i < m)%nat -> (k < d)%nat -> v i k = Rsum m (fun j => IZR (T j i) * prim j k)) -> independent m d v.
Proof.
  intros (W & H1 & H2) Hi Hv x Hx.
  assert (A : forall j, (j < m)%nat -> Rsum m (fun i => IZR (T j i) * x i) = 0).
  { apply Hi. intros k Hk. rewrite <- (Hx k Hk). transitivity (Rsum m (fun j => Rsum m (fun i => IZR (T j i) * x i * prim j k))).
    - apply Rsum_ext. intros j Hj. rewrite Rsum_mult_r. reflexivity.
    - rewrite Rsum_swap. apply Rsum_ext. intros i Hi'. rewrite Hv by auto. rewrite <- Rsum_mult_l. apply Rsum_ext. intros; ring. }
  intros i Hi'. transitivity (Rsum m (fun l => if (l =? i)%nat then x l else 0)); [symmetry; apply Rsum_delta; auto|].
  transitivity (Rsum m (fun l => Rsum m (fun j => IZR (W i j) * (IZR (T j l) * x l)))).
  - apply Rsum_ext. intros l Hl. pose proof (H2 i l Hi' Hl) as E. apply (f_equal IZR) in E. rewrite IZR_Zsum in E.
    rewrite (@Rsum_ext m _ (fun j => IZR (W i j) * IZR (T j l) * x l)) by (intros; ring). rewrite Rsum_mult_r.
    rewrite (@Rsum_ext m _ (fun j => IZR (W i j * T j l)%Z)) by (intros; rewrite mult_IZR; ring). rewrite E. rewrite Nat.eqb_sym. destruct (i =? l)%nat; ring.
  - rewrite Rsum_swap. rewrite (@Rsum_ext m _ (fun j => 0)); [apply Rsum_0|]. intros j Hj. rewrite Rsum_mult_l, A by auto. ring.
Qed.

Variable prim : nat -> nat -> R.
Variable offset : nat -> R.
Variable round : R -> Z.
Variable lstsq_mat : (nat -> nat -> R) -> (nat -> nat -> R) -> nat -> nat -> R.
Variable lstsq : (nat -> nat -> R) -> (nat -> R) -> nat -> R.
Variable inv : (nat -> nat -> R) -> nat -> nat -> R.
Variable argsort : (point -> R) -> list point -> list point.
Hypothesis Hm : (0 < m)%nat.
Hypothesis L : good_libraries m d round lstsq_mat lstsq inv argsort.
Hypothesis Hi : independent m d prim.
Notation reduced := (reduced m d prim round lstsq_mat).
Notation n_closest := (n_closest m d prim offset round lstsq_mat lstsq inv argsort).
Notation spos := (site_position prim offset).

Lemma reduced_ok lfuel v t : reduced lfuel = Some (v, t) ->
  unimodular m t /\ (forall i k, (i < m)%nat -> (k < d)%nat -> v i k = Rsum m (fun j => IZR (t j i) * prim j k)) /\
  independent m d v /\ libraries_ok m d v (lstsq v) inv round argsort.
Proof.
  unfold LatticeModel.reduced. destruct (lll _ _ _ _ _ _ _ _ _) as [v' t'| | |] eqn:E; try discriminate. intros [= -> ->].
  destruct L as (L1 & L2 & L3 & L4). destruct (C35_transformation m d _ _ _ _ _ _ _ _ L2 L1 Hi E) as [U V]. split; auto. split; auto.
  assert (I : independent m d v) by (eapply independent_transfer; eauto). split; auto. destruct (L4 v I) as [L5 L6]. exact (conj Hm (conj L5 (conj L6 (conj L2 L3)))).
Qed.

Lemma dist_act v t p x : lattice_point m p -> (forall i k, (i < m)%nat -> (k < d)%nat -> v i k = Rsum m (fun j => IZR (t j i) * prim j k)) ->
  dist d (vector v p) (fun k => x k - offset k) = dist d (spos (act t p)) x.
Proof.
  intros Lp V. apply dist_ext. intros k Hk. unfold site_position. rewrite (vector_act v prim t p k) by auto. ring.
Qed.

Lemma pos_spec tag k : lattice_point m tag -> pos m prim offset tag k = spos tag k.
Proof. intros H. unfold pos, site_position, vector. rewrite H. ring. Qed.

Lemma Forall_map_act t ps : Forall (lattice_point m) (map (act t) ps).
Proof. apply Forall_forall. intros q Hq. apply in_map_iff in Hq. destruct Hq as (p & <- & _). apply act_length. Qed.
Lemma NoDup_map_act t W ps : inverse_of m W t -> NoDup ps -> Forall (lattice_point m) ps -> NoDup (map (act t) ps).
Proof.
  intros HW. induction 1 as [|p ps Hn Hd IH]; cbn; constructor; inversion H; subst; auto.
  intros Hin. apply in_map_iff in Hin. destruct Hin as (q & E & Hq). assert (Lq : lattice_point m q) by (eapply Forall_forall in H3; eauto). apply (act_inj t W) in E; auto. congruence.
Qed.
Lemma act_surj t W q : inverse_of m t W -> lattice_point m q -> lattice_point m (act W q) /\ act t (act W q) = q.
Proof. intros H Lq. split; [apply act_length|]. apply act_inverse; auto. Qed.
Lemma sorted_map {A B} (f : A -> B) (R1 : A -> A -> Prop) (R2 : B -> B -> Prop) l :
  (forall x y, In x l -> In y l -> R1 x y -> R2 (f x) (f y)) -> StronglySorted R1 l -> StronglySorted R2 (map f l).
Proof.
  intros H S. induction S as [|x l S IH F]; cbn; constructor.
  - apply IH. intros; apply H; cbn; auto.
  - apply Forall_forall. intros y Hy. apply in_map_iff in Hy. destruct Hy as (z & <- & Hz). apply H; cbn; auto. eapply Forall_forall in F; eauto.
Qed.

Lemma main_closest lfuel cfuel x n rtol tags : n_closest lfuel cfuel x n false rtol = Some tags ->
  length tags = n /\ NoDup tags /\ Forall (lattice_point m) tags /\
  StronglySorted (fun s t => dist d (spos s) x <= dist d (spos t) x) tags /\
  forall s t, In s tags -> lattice_point m t -> ~ In t tags -> dist d (spos s) x <= dist d (spos t) x.
Proof.
  unfold LatticeModel.n_closest. destruct (reduced lfuel) as [[v t]|] eqn:E; [|discriminate].
  destruct (cvp _ _ _ _ _ _ _ _ _ _ _ _) as [ps| |] eqn:Ec; try discriminate. intros [= <-].
  destruct (reduced_ok _ _ _ E) as ((W & U1 & U2) & V & Iv & Lv).
  destruct (C36_closest _ _ _ _ _ _ _ _ _ _ _ _ Lv Ec) as (P1 & P2 & P3 & P4 & P5). change (dot_transf_T m t) with (act t).
  assert (Q : forall p, In p ps -> lattice_point m p) by (apply Forall_forall; auto).
  split; [rewrite map_length; auto|]. split; [eapply NoDup_map_act; eauto|]. split; [apply Forall_map_act|]. split.
  - eapply sorted_map; [|exact P4]. cbv beta. intros p q Hp Hq H. rewrite !(dist_act v t) in H by auto. auto.
  - intros s q Hs Lq Nq. apply in_map_iff in Hs. destruct Hs as (p & <- & Hp). destruct (act_surj t W q U1 Lq) as [Lw Ew].
    specialize (P5 p (act W q) Hp Lw). rewrite !(dist_act v t) in P5 by auto. rewrite Ew in P5. apply P5. intros Hin. apply Nq. rewrite <- Ew. apply in_map. auto.
Qed.

(** gaps only depend on the numbers *)
Lemma main_grouped lfuel cfuel x n rtol tags : (0 < n)%nat -> 0 <= rtol -> n_closest lfuel cfuel x n true rtol = Some tags ->
  exists y h tol,
    (forall tag, lattice_point m tag -> dist d (spos tag) x ^ 2 = dist d (spos tag) y ^ 2 + h) /\ 0 <= h /\
    (forall tag, lattice_point m tag -> (exists k, nth k tag 0%Z <> 0%Z) -> 2 * tol <= rtol * dist d (vector prim tag) (fun _ => 0)) /\ (0 < rtol -> 0 < tol) /\
    NoDup tags /\ Forall (lattice_point m) tags /\ tags <> [] /\
    StronglySorted (fun s t => dist d (spos s) y <= dist d (spos t) y) tags /\
    gaps tol (map (fun s => dist d (spos s) y) tags) = (n - 1)%nat /\
    forall s t, In s tags -> lattice_point m t -> ~ In t tags -> dist d (spos s) y + tol < dist d (spos t) y.
Proof.
  intros Hn Hr. unfold LatticeModel.n_closest. destruct (reduced lfuel) as [[v t]|] eqn:E; [|discriminate].
  destruct (cvp _ _ _ _ _ _ _ _ _ _ _ _) as [ps| |] eqn:Ec; try discriminate. intros [= <-].
  destruct (reduced_ok _ _ _ E) as ((W & U1 & U2) & V & Iv & Lv).
  pose proof (C36_grouped _ _ _ _ _ _ _ _ _ _ _ _ Lv Hn Ec) as G. cbv zeta in G. destruct G as (P1 & P2 & P0 & P3 & P4 & P5). change (dot_transf_T m t) with (act t).
  set (c := lstsq v (fun k => x k - offset k)) in *. set (y' := fun k => Rsum m (fun i => c i * v i k)) in *. set (y := fun k => offset k + y' k).
  assert (Dy : forall p, lattice_point m p -> dist d (vector v p) y' = dist d (spos (act t p)) y).
  { intros p Lp. rewrite <- (dist_act v t p y) by auto. apply dist_ext. intros k Hk. unfold y. ring. }
  assert (Q : forall p, In p ps -> lattice_point m p) by (apply Forall_forall; auto).
  destruct Lv as (_ & Lq & Linv & _ & _).
  set (res := fun k => x k - offset k - y' k). exists y, (dot d res res), (rtol * rad m d v inv).
  assert (Hrad : 0 < rad m d v inv) by (apply rad_pos; auto).
  split; [|split; [apply dot_pos|split; [|split; [|split; [|split; [|split; [|split; [|split]]]]]]]].
  - intros tag Lt. destruct (act_surj t W tag U1 Lt) as [Lw Ew]. set (p := act W tag) in *. rewrite <- Ew. rewrite <- Dy by auto. rewrite <- (dist_act v t p x) by auto.
    unfold dist. rewrite !pow2_sqrt by apply dot_pos.
    set (a := fun k => vector v p k - y' k).
    assert (Ho : dot d a res = 0).
    { transitivity (dot d (fun k => Rsum m (fun i => (IZR (nth i p 0%Z) - c i) * v i k)) res).
      - apply dot_ext; auto. intros k Hk. unfold a, vector, y'. rewrite Lw. rewrite <- Rsum_minus. apply Rsum_ext. intros; ring.
      - rewrite dot_sum_l. rewrite (@Rsum_ext m _ (fun i => 0)); [apply Rsum_0|]. intros i Hi'. 
        pose proof (Lq (fun k => x k - offset k) i Hi') as O. fold c in O. change (dot d (v i) res = 0) in O. rewrite O. ring. }
    transitivity (dot d (fun k => a k - res k) (fun k => a k - res k)).
    + apply dot_ext; intros k Hk; unfold a, res; ring.
    + rewrite dot_minus_l, !dot_minus_r, (dot_comm d res a), Ho. change (dot d (fun k => vector v p k - y' k) (fun k => vector v p k - y' k)) with (dot d a a). ring.
  - intros tag Lt (k & Hk). destruct (act_surj t W tag U1 Lt) as [Lw Ew]. set (p := act W tag) in *.
    assert (Hp : exists i, (i < m)%nat /\ nth i p 0%Z <> 0%Z).
    { destruct (Nat.lt_ge_cases k m) as [Hkm|Hkm]; [|rewrite nth_overflow in Hk by (rewrite Lt; auto); congruence]. 
      rewrite <- Ew in Hk. rewrite act_nth in Hk by auto.
      destruct (existsb (fun i => negb (nth i p 0%Z =? 0)%Z) (seq 0 m)) eqn:X.
      - apply existsb_exists in X. destruct X as (i & Hi' & X). apply in_seq in Hi'. exists i. split; [lia|]. apply negb_true_iff, Z.eqb_neq in X. auto.
      - exfalso. apply Hk. rewrite (@Zsum_ext m _ (fun _ => 0%Z)); [apply Zsum_0|]. intros i Hi'.
        assert (Y : nth i p 0%Z = 0%Z); [|rewrite Y; lia]. destruct (Z.eq_dec (nth i p 0%Z) 0) as [|Ne]; auto. exfalso.
        apply (eq_true_false_abs _ (proj2 (existsb_exists _ _) (ex_intro _ i (conj (proj2 (in_seq m 0 i) ltac:(lia)) (proj2 (negb_true_iff _) (proj2 (Z.eqb_neq _ _) Ne))))) X). }
    destruct Hp as (i & Hi' & Ni).
    pose proof (norm_bound m d v inv Linv Hm i (fun i => IZR (nth i p 0%Z)) 1 Hi' ltac:(lra)) as B.
    assert (1 <= Rabs (IZR (nth i p 0%Z))) as B1 by (rewrite <- abs_IZR; apply IZR_le; lia). specialize (B B1).
    assert (Ed : dist d (vector prim tag) (fun _ => 0) = sqrt (dot d (comb m v (fun i => IZR (nth i p 0%Z))) (comb m v (fun i => IZR (nth i p 0%Z))))).
    { unfold dist. f_equal. apply dot_ext; intros j Hj; rewrite Rminus_0_r, <- Ew; rewrite <- (vector_act v prim t p j) by auto; unfold vector, comb; rewrite Lw; reflexivity. }
    rewrite Ed. nra.
  - intros. apply Rmult_lt_0_compat; auto.
  - eapply NoDup_map_act; eauto.
  - apply Forall_map_act.
  - intros H. apply map_eq_nil in H. auto.
  - eapply sorted_map; [|exact P3]. cbv beta. intros p q Hp Hq H. rewrite !Dy in H by auto. auto.
  - rewrite <- P4. f_equal. rewrite map_map. apply map_ext_in. intros p Hp. symmetry. apply Dy. auto.
  - intros s q Hs Lq' Nq. apply in_map_iff in Hs. destruct Hs as (p & <- & Hp). destruct (act_surj t W q U1 Lq') as [Lw Ew].
    specialize (P5 p (act W q) Hp Lw). rewrite !Dy in P5 by auto. rewrite Ew in P5. apply P5. intros Hin. apply Nq. rewrite <- Ew. apply in_map. auto.
Qed.
End P.
