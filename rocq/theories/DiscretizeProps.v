(** * C63: discretize. *)
From Coq Require Import List Bool Arith ZArith Lia Ring Permutation.
From Verif Require Import StarRing DiscretizeModel DiscretizeSpec DiscretizeProofs DiscretizeEval DiscretizeMain.
Import ListNotations.
Set Implicit Arguments.

Section Props.
Variable F : Type.
Variable coords : list nat.
Variable K : StarRing.
Add Ring KringP : (r_theory K).
Variable kinv : K -> K.
Variable env : F -> list K -> K.
Variable kpar : nat -> K.
Variable n : nat.
Notation D := (length coords).
Notation "x +! y" := (radd K x y) (at level 50, left associativity).
Notation "x -! y" := (rsub K x y) (at level 50, left associativity).
Notation "x *! y" := (rmul K x y) (at level 40, left associativity).
Notation O0 := (r0 K).
Notation I1 := (r1 K).
Notation dsum := (@discretize_summand F coords).
Notation gs s := (map (half s) coords).
Hypothesis Hnd : NoDup coords.
Hypothesis Hinv : forall x, x <> O0 -> x *! kinv x = I1.
Hypothesis Htwo : I1 +! I1 <> O0.

Lemma one_neq : I1 <> O0.
Proof. intros E. apply Htwo. rewrite E. ring. Qed.
Lemma kinv1 : kinv I1 = I1.
Proof. transitivity (I1 *! kinv I1); [ring|apply Hinv, one_neq]. Qed.
Lemma rescaled_steps a (s : summand F) : length a = D -> rescaled K kinv a (gs s) = steps coords K kinv a s.
Proof.
  unfold rescaled, steps. clear Hnd. revert a. induction coords as [|c l IH]; intros [|x a] H; try discriminate; [reflexivity|]. cbn. f_equal; [|apply IH; cbn in H; lia].
  unfold step, half, kdiv. destruct (_ && _); [rewrite kZ_2; reflexivity|]. rewrite kZ_1, kinv1. ring.
Qed.
Lemma steps_length a (s : summand F) : length a = D -> length (steps coords K kinv a s) = D.
Proof. intros H. unfold steps. rewrite map_length, combine_length. lia. Qed.
Lemma move_mul a (s : summand F) d x : length a = D -> length d = D -> length x = D -> move K (rescaled K kinv a (gs s)) (mul_off (gs s) d) x = move K a d x.
Proof.
  unfold move, rescaled, mul_off. clear Hnd. revert a d x. induction coords as [|c l IH]; intros [|y a] [|z d] [|x0 x] H1 H2 H3; try discriminate; [reflexivity|]. cbn. f_equal; [|apply IH; cbn in *; lia].
  unfold kdiv, half. destruct (_ && _).
  - rewrite kZ_mul2, kZ_2. f_equal. transitivity (((I1 +! I1) *! kinv (I1 +! I1)) *! (kZ K z *! y)); [ring|]. rewrite Hinv by auto. ring.
  - rewrite kZ_1, kinv1. replace (1 * z)%Z with z by lia. ring.
Qed.
Lemma move_div a (s : summand F) t x : length a = D -> length x = D -> In t (dsum s) -> move K a (div_off (t_off t) (gs s)) x = move K (rescaled K kinv a (gs s)) (t_off t) x.
Proof. intros Ha Hx Ht. rewrite <- (@move_mul a s (div_off (t_off t) (gs s)) x) by (auto; apply div_off_length; auto). rewrite mul_div; auto. Qed.

(** Applying all hoppings to a wave function *)
Lemma full_operator a (h : nat -> nat -> expression F) (psi : nat -> list K -> K) x i : length a = D -> length x = D -> i < n ->
  lsum K (fun kv => sum K n (fun j => value K kinv env kpar a (snd kv) x i j *! psi j (move K a (fst kv) x))) (tb_full coords n h) =
  sum K n (fun j => expression_op coords K kinv env kpar a (h i j) (psi j) x).
Proof.
  intros Ha Hx Hi.
  transitivity (dtotal K (fun k (p : nat * nat * coef F) => if (fst (fst p) =? i) && (snd (fst p) <? n) then eval_coef K kinv env kpar a (snd p) x *! psi (snd (fst p)) (move K a k x) else O0) (tb_full coords n h)).
  { unfold dtotal. apply lsum_ext. intros [k v] _. cbn [fst snd]. unfold value.
    transitivity (lsum K (fun p : nat * nat * coef F => sum K n (fun j => if snd (fst p) =? j then (if fst (fst p) =? i then eval_coef K kinv env kpar a (snd p) x else O0) *! psi j (move K a k x) else O0)) v).
    - rewrite <- sum_lswap. apply sum_ext. intros j Hj. rewrite <- lsum_mul_r. apply lsum_ext. intros [[i' j'] c] _. cbn [fst snd]. destruct (i' =? i), (j' =? j); cbn; ring.
    - apply lsum_ext. intros [[i' j'] c] _. cbn [fst snd]. destruct (Nat.ltb_spec j' n) as [Hj|Hj].
      + rewrite (@sum_ext K n _ (fun j => if j =? j' then (if i' =? i then eval_coef K kinv env kpar a c x else O0) *! psi j (move K a k x) else O0)) by (intros; rewrite (Nat.eqb_sym j'); auto).
        rewrite sum_delta by auto. destruct (i' =? i); cbn; ring.
      + rewrite sum_zero; [rewrite andb_false_r; auto|]. intros j Hj'. rewrite (proj2 (Nat.eqb_neq j' j)) by lia. auto. }
  rewrite tb_total by auto. cbn [fst snd].
  transitivity (sum K n (fun i' => if i' =? i then sum K n (fun j => expression_op coords K kinv env kpar a (h i' j) (psi j) x) else O0)).
  - apply sum_ext. intros i' Hi'. destruct (Nat.eqb_spec i' i) as [->|Ne].
    + apply sum_ext. intros j Hj. rewrite (proj2 (Nat.ltb_lt j n) Hj). cbn [andb]. unfold expression_op. apply lsum_ext. intros s _. unfold summand_op.
      rewrite <- (rescaled_steps a s Ha), <- acts_summand by (auto; rewrite rescaled_steps, steps_length by auto; auto).
      unfold acts, gen. apply lsum_ext. intros t Ht. rewrite (move_div a s t x) by auto. reflexivity.
    + apply sum_zero. intros j Hj. apply lsum_zero. intros s _. apply lsum_zero. intros; reflexivity.
  - apply sum_delta. auto.
Qed.

(** ** The matrix elements of the system *)
Definition full_value a (h : nat -> nat -> expression F) d x i j : K := match lookup d (tb_full coords n h) with Some v => value K kinv env kpar a v x i j | None => O0 end.
Lemma full_value_kern a h d x i j : length a = D -> length x = D -> length d = D -> i < n -> j < n ->
  full_value a h d x i j = lsum K (fun s => kern coords K kinv env kpar (rescaled K kinv a (gs s)) s (mul_off (gs s) d) x) (h i j).
Proof.
  intros Ha Hx Hd Hi Hj. unfold full_value.
  transitivity (dtotal K (fun k (p : nat * nat * coef F) => if off_eqb k d then (if (fst (fst p) =? i) && (snd (fst p) =? j) then eval_coef K kinv env kpar a (snd p) x else O0) else O0) (tb_full coords n h)).
  { rewrite dtotal_lookup by (apply tb_nodup; auto). reflexivity. }
  rewrite tb_total by auto. cbn [fst snd].
  transitivity (sum K n (fun i' => if i' =? i then sum K n (fun j' => if j' =? j then lsum K (fun s => kern coords K kinv env kpar (rescaled K kinv a (gs s)) s (mul_off (gs s) d) x) (h i' j') else O0) else O0)).
  2: { rewrite sum_delta by auto. rewrite sum_delta by auto. reflexivity. }
  apply sum_ext. intros i' _. destruct (Nat.eqb_spec i' i) as [->|Ni].
  - apply sum_ext. intros j' _. destruct (Nat.eqb_spec j' j) as [->|Nj]; cbn [andb].
    + apply lsum_ext. intros s _. unfold kern, gen. apply lsum_ext. intros t Ht. unfold delta.
      replace (off_eqb (t_off t) (mul_off (gs s) d)) with (off_eqb (div_off (t_off t) (gs s)) d); [|apply eq_true_iff_eq; rewrite !off_eqb_eq; apply div_off_iff; auto].
      destruct (off_eqb (div_off (t_off t) (gs s)) d); unfold eval_coef; cbn [c_scale c_term]; ring.
    + apply lsum_zero. intros s _. apply lsum_zero. intros t _. destruct (off_eqb _ _); reflexivity.
  - apply sum_zero. intros j' _. apply lsum_zero. intros s _. apply lsum_zero. intros t _. cbn [andb]. destruct (off_eqb _ _); reflexivity.
Qed.
Lemma lookup_none_keys V d (l : list (offset * V)) : lookup d l = None <-> ~ In d (map fst l).
Proof.
  induction l as [|[k v] l IH]; cbn; [intuition|]. destruct (off_eqb k d) eqn:E.
  - apply off_eqb_eq in E. subst. split; [discriminate|]. intros H. exfalso. apply H. auto.
  - rewrite IH. split; [|intuition]. intros H [->|H']; [rewrite off_eqb_refl in E; discriminate|auto].
Qed.
Lemma lookup_filter (h : nat -> nat -> expression F) d : lookup d (discretize_symbolic coords n h) = if existsb (off_eqb d) (wanted coords n h) then lookup d (tb_full coords n h) else None.
Proof.
  unfold discretize_symbolic. generalize (wanted coords n h) as w. intros w. induction (tb_full coords n h) as [|[k v] l IH]; cbn [filter lookup]; [destruct (existsb _ _); reflexivity|].
  cbn [fst]. destruct (off_eqb k d) eqn:E.
  - apply off_eqb_eq in E. subst. destruct (existsb (off_eqb d) w) eqn:Ew; [cbn; rewrite off_eqb_refl; reflexivity|rewrite IH; auto].
  - destruct (existsb (off_eqb k) w); [cbn; rewrite E|]; exact IH.
Qed.
Lemma wanted_spec (h : nat -> nat -> expression F) d : In d (wanted coords n h) <-> In d (map fst (tb_full coords n h)) /\ lex_leb (zeros coords) d = true.
Proof.
  unfold wanted. apply (@wanted_half D); [apply tb_nodup; auto|apply keys_length; auto|apply keys_sym; auto| |apply neg_zeros].
  apply tb_keys; auto.
Qed.

Variable fconj : F -> F.
Hypothesis Henv : forall f x, env (fconj f) x = rconj K (env f x).
Hypothesis Hpar : forall c, rconj K (kpar c) = kpar c.
Hypothesis Hinvc : forall x, rconj K (kinv x) = kinv (rconj K x).
Definition hermitian_expr (h : nat -> nat -> expression F) : Prop := forall i j, i < n -> j < n -> Permutation (h j i) (map (adjoint fconj) (h i j)).

Lemma lsum_perm A (f : A -> K) l l' : Permutation l l' -> lsum K f l = lsum K f l'.
Proof. induction 1; rewrite ?lsum_cons; [reflexivity|rewrite IHPermutation; reflexivity|ring|congruence]. Qed.
Lemma count_app c s s' : count_mom (F := F) c (s ++ s') = count_mom c s + count_mom c s'.
Proof. induction s as [|f s IH]; [reflexivity|]. cbn [app]. rewrite !count_cons, IH. lia. Qed.
Lemma count_adjoint c s : count_mom c (adjoint fconj s) = count_mom c s.
Proof.
  induction s as [|f s IH]; [reflexivity|]. change (adjoint fconj (f :: s)) with (adjoint fconj s ++ [adjoint_factor fconj f]). rewrite count_app, IH, (count_cons c f s). destruct f as [g|c0 e]; cbn; [lia|]. destruct (c =? c0); lia.
Qed.
Lemma gs_adjoint s : gs (adjoint fconj s) = gs s.
Proof. apply map_ext. intros c. unfold half. rewrite count_adjoint. reflexivity. Qed.
Lemma rescaled_real a (s : summand F) i : (forall i, rconj K (nth i a O0) = nth i a O0) -> length a = D -> rconj K (nth i (rescaled K kinv a (gs s)) O0) = nth i (rescaled K kinv a (gs s)) O0.
Proof.
  intros Hr. unfold rescaled. clear Hnd. revert a Hr i. induction coords as [|c l IH]; intros [|x a] Hr i H; try discriminate; [destruct i; apply conj0|]. cbn. destruct i as [|i].
  - unfold kdiv. rewrite rconj_mul, Hinvc, kZ_conj. pose proof (Hr 0) as H0. cbn in H0. rewrite H0. reflexivity.
  - apply IH; [intros j; apply (Hr (S j))|cbn in H; lia].
Qed.
Lemma full_hermitian a h d x i j : hermitian_expr h -> (forall i, rconj K (nth i a O0) = nth i a O0) -> length a = D -> length x = D -> length d = D -> i < n -> j < n ->
  full_value a h d x j i = rconj K (full_value a h (neg d) (move K a d x) i j).
Proof.
  intros Hh Hr Ha Hx Hd Hi Hj. assert (Hnl : length (neg d) = D) by (unfold neg; rewrite map_length; auto).
  rewrite !full_value_kern by (auto; rewrite move_length; lia). rewrite (lsum_perm _ (Hh i j Hi Hj)), lsum_map, lsum_conj. apply lsum_ext. intros s _. rewrite gs_adjoint.
  set (hs := rescaled K kinv a (gs s)). assert (Hhs : length hs = D) by (unfold hs; rewrite rescaled_steps, steps_length by auto; auto).
  assert (Hm : length (mul_off (gs s) d) = D) by (unfold mul_off; rewrite map_length, combine_length, map_length; lia).
  rewrite (@kern_adjoint F coords K kinv env kpar fconj Henv Hpar Hinvc hs s (mul_off (gs s) d) x Hx Hhs Hm) by (intros; apply rescaled_real; auto).
  rewrite neg_mul. unfold hs. rewrite move_mul by auto. reflexivity.
Qed.

Definition vadd (t d : offset) : offset := map (fun p => (fst p + snd p)%Z) (combine t d).
Lemma vsub_vadd s d : length s = length d -> vsub (vadd s d) s = d.
Proof. unfold vsub, vadd. revert d. induction s as [|x s IH]; intros [|y d] H; try discriminate; [reflexivity|]. cbn. f_equal; [lia|apply IH; cbn in H; lia]. Qed.
Lemma vadd_vsub s t : length s = length t -> vadd s (vsub t s) = t.
Proof. unfold vsub, vadd. revert t. induction s as [|x s IH]; intros [|y d] H; try discriminate; [reflexivity|]. cbn. f_equal; [lia|apply IH; cbn in H; lia]. Qed.
Lemma neg_vsub s t : neg (vsub s t) = vsub t s.
Proof. unfold neg, vsub. revert t. induction s as [|x s IH]; intros [|y d]; try reflexivity. cbn. f_equal; [lia|apply IH]. Qed.
Lemma pos_vadd a org s d : length a = length org -> length s = length org -> length d = length org -> pos K a org (vadd s d) = move K a d (pos K a org s).
Proof.
  unfold pos, move, vadd. revert a s d. induction org as [|o org IH]; intros [|y a] [|x s] [|z d] H1 H2 H3; try discriminate; [reflexivity|]. cbn. f_equal; [rewrite kZ_add; ring|apply IH; cbn in *; lia].
Qed.
Lemma vsub_length s t : length s = D -> length t = D -> length (vsub s t) = D.
Proof. intros. unfold vsub. rewrite map_length, combine_length. lia. Qed.
Lemma element_full a org h s1 s2 i j : hermitian_expr h -> (forall i, rconj K (nth i a O0) = nth i a O0) -> length a = D -> length org = D -> length s1 = D -> length s2 = D -> i < n -> j < n ->
  element coords n K kinv env kpar a org h s1 s2 i j = full_value a h (vsub s2 s1) (pos K a org s1) i j.
Proof.
  intros Hh Hr Ha Ho H1 H2 Hi Hj. unfold element. rewrite !lookup_filter. set (d := vsub s2 s1). assert (Hd : length d = D) by (apply vsub_length; auto).
  assert (Ed : vsub s1 s2 = neg d) by (symmetry; apply neg_vsub). rewrite Ed.
  assert (Hw : forall d, existsb (off_eqb d) (wanted coords n h) = true <-> In d (map fst (tb_full coords n h)) /\ lex_leb (zeros coords) d = true).
  { intros d'. rewrite <- wanted_spec, existsb_exists. split; [intros (y & Hy & E); apply off_eqb_eq in E; subst; auto|intros H; exists d'; split; [auto|apply off_eqb_refl]]. }
  unfold full_value at 1. destruct (existsb (off_eqb d) (wanted coords n h)) eqn:E1.
  { apply Hw in E1. destruct E1 as [E1 _]. destruct (lookup d (tb_full coords n h)) eqn:E; [reflexivity|]. apply lookup_none_keys in E. contradiction. }
  assert (Ep : pos K a org s2 = move K a d (pos K a org s1)) by (rewrite <- pos_vadd by lia; unfold d; rewrite vadd_vsub by lia; auto).
  assert (Hp1 : length (pos K a org s1) = D) by (unfold pos; rewrite move_length; lia).
  destruct (existsb (off_eqb (neg d)) (wanted coords n h)) eqn:E2.
  - pose proof (@full_hermitian a h d (pos K a org s1) j i Hh Hr Ha Hp1 Hd Hj Hi) as Hf. unfold full_value in Hf. rewrite <- Ep in Hf. rewrite Hf. destruct (lookup (neg d) (tb_full coords n h)); [reflexivity|rewrite conj0; reflexivity].
  - destruct (lookup d (tb_full coords n h)) eqn:E; [|reflexivity]. exfalso.
    assert (Hk : In d (map fst (tb_full coords n h))). { destruct (in_dec (list_eq_dec Z.eq_dec) d (map fst (tb_full coords n h))) as [H|H]; [auto|]. apply lookup_none_keys in H. congruence. }
    destruct (@lex_total (zeros coords) d) as [L|L]; [rewrite zeros_length; auto| |].
    + enough (existsb (off_eqb d) (wanted coords n h) = true) by congruence. apply Hw. auto.
    + enough (existsb (off_eqb (neg d)) (wanted coords n h) = true) by congruence. apply Hw. split; [apply keys_sym; auto|]. rewrite <- (neg_zeros coords), lex_neg by (rewrite zeros_length; auto). auto.
Qed.

(** For a Hermitian operator, the Hamiltonian of the system acts on wave functions
    like the given operator with the momenta replaced by central differences:
    only finitely many sites s1 + d are coupled to s1, and summing over
    them gives the operator applied to psi at the position of s1. *)
Theorem C63_operator a org h : hermitian_expr h -> (forall i, rconj K (nth i a O0) = nth i a O0) -> length a = D -> length org = D ->
  exists ds, NoDup ds /\ (forall d, In d ds -> length d = D) /\ forall s1 i, length s1 = D -> i < n ->
    (forall s2 j, length s2 = D -> j < n -> ~ In (vsub s2 s1) ds -> element coords n K kinv env kpar a org h s1 s2 i j = O0) /\
    (forall psi : nat -> list K -> K,
      lsum K (fun d => sum K n (fun j => element coords n K kinv env kpar a org h s1 (vadd s1 d) i j *! psi j (pos K a org (vadd s1 d)))) ds =
      sum K n (fun j => expression_op coords K kinv env kpar a (h i j) (psi j) (pos K a org s1))).
Proof.
  intros Hh Hr Ha Ho. exists (map fst (tb_full coords n h)). split; [apply tb_nodup; auto|]. split; [apply keys_length; auto|]. intros s1 i H1 Hi. split.
  - intros s2 j H2 Hj Hin. rewrite element_full by auto. unfold full_value. rewrite (proj2 (lookup_none_keys _ _) Hin). reflexivity.
  - intros psi. rewrite lsum_map. assert (Hp1 : length (pos K a org s1) = D) by (unfold pos; rewrite move_length; lia). rewrite <- (full_operator a h psi (pos K a org s1)) by auto.
    apply lsum_ext. intros [k v] Hkv. cbn [fst snd]. assert (Hk : length k = D) by (apply (@keys_length F coords Hnd n h k); apply in_map_iff; exists (k, v); auto).
    apply sum_ext. intros j Hj. rewrite element_full by (auto; unfold vadd; rewrite map_length, combine_length; lia). rewrite vsub_vadd, pos_vadd by lia. f_equal. unfold full_value.
    replace (lookup k (tb_full coords n h)) with (Some v); [reflexivity|]. symmetry. pose proof (tb_nodup coords n h) as N. revert N Hkv. clear. induction (tb_full coords n h) as [|[k' v'] l IH]; [intros _ []|].
    cbn [map fst lookup]. inversion 1 as [|? ? Hn Hd]; subst. intros [[= -> ->]|H]; [rewrite off_eqb_refl; auto|]. destruct (off_eqb k' k) eqn:E; [|apply IH; auto].
    exfalso. apply off_eqb_eq in E. subst. apply Hn. apply in_map_iff. exists (k, v). auto.
Qed.

(** The Hamiltonian is Hermitian *)
Theorem C63_hermitian a org h s1 s2 i j : hermitian_expr h -> (forall i, rconj K (nth i a O0) = nth i a O0) -> length a = D -> length org = D -> length s1 = D -> length s2 = D -> i < n -> j < n ->
  element coords n K kinv env kpar a org h s2 s1 j i = rconj K (element coords n K kinv env kpar a org h s1 s2 i j).
Proof.
  intros Hh Hr Ha Ho H1 H2 Hi Hj. rewrite !element_full by auto.
  assert (Hp : length (pos K a org s2) = D) by (unfold pos; rewrite move_length; lia).
  rewrite (@full_hermitian a h (vsub s1 s2) (pos K a org s2) i j Hh Hr Ha Hp) by (auto; apply vsub_length; auto). rewrite neg_vsub, <- pos_vadd by (rewrite ?vsub_length; lia). rewrite vadd_vsub by lia. reflexivity.
Qed.

(** discretize_symbolic returns the onsite term and one of each pair of opposite
    hoppings, whether or not the operator is Hermitian *)
Theorem C63_half (h : nat -> nat -> expression F) d : d <> zeros coords -> In d (map fst (tb_full coords n h)) ->
  In (zeros coords) (map fst (discretize_symbolic coords n h)) /\
  ((In d (map fst (discretize_symbolic coords n h)) /\ ~ In (map Z.opp d) (map fst (discretize_symbolic coords n h))) \/
   (~ In d (map fst (discretize_symbolic coords n h)) /\ In (map Z.opp d) (map fst (discretize_symbolic coords n h)))).
Proof.
  intros Hz Hk. assert (Hl : length d = D) by (apply (@keys_length F coords Hnd n h); auto).
  assert (Hd : forall d, In d (map fst (discretize_symbolic coords n h)) <-> In d (map fst (tb_full coords n h)) /\ lex_leb (zeros coords) d = true).
  { intros d'. rewrite <- wanted_spec. unfold discretize_symbolic. rewrite in_map_iff. split.
    - intros ([k v] & <- & H). apply filter_In in H. destruct H as [_ H]. apply existsb_exists in H. destruct H as (y & Hy & E). apply off_eqb_eq in E. cbn in *. subst. auto.
    - intros H. pose proof (proj1 (wanted_spec _ _) H) as [H2 _]. apply in_map_iff in H2. destruct H2 as ([k v] & <- & H2). exists (k, v). split; [auto|]. apply filter_In. split; [auto|]. apply existsb_exists. exists k. split; [auto|apply off_eqb_refl]. }
  split; [apply Hd; split; [apply tb_keys; auto|destruct (@lex_total (zeros coords) (zeros coords) eq_refl); auto]|].
  change (map Z.opp d) with (neg d). rewrite !Hd.
  assert (Hn : lex_leb (zeros coords) (neg d) = lex_leb d (zeros coords)). { rewrite <- (neg_zeros coords) at 1. apply lex_neg. rewrite zeros_length. auto. }
  rewrite Hn. destruct (@lex_total (zeros coords) d) as [L|L]; [rewrite zeros_length; auto|left|right].
  - split; [auto|]. intros [_ L2]. apply Hz. apply lex_antisym; rewrite ?zeros_length; auto.
  - split; [|split; [apply keys_sym; auto|auto]]. intros [_ L2]. apply Hz. apply lex_antisym; rewrite ?zeros_length; auto.
Qed.
End Props.
