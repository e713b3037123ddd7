(** * Evaluation of the discretized Hamiltonian. *)
From Coq Require Import List Bool Arith ZArith Lia Ring Permutation.
From Verif Require Import StarRing DiscretizeModel DiscretizeSpec DiscretizeProofs.
Import ListNotations.
Set Implicit Arguments.

Lemma iter_S A n (f : A -> A) x : Nat.iter (S n) f x = f (Nat.iter n f x). Proof. reflexivity. Qed.
Lemma iter_0 A (f : A -> A) x : Nat.iter 0 f x = x. Proof. reflexivity. Qed.
Lemma bump_comm i s j r o : bump i s (bump j r o) = bump j r (bump i s o).
Proof. revert i j. induction o as [|x o IH]; intros [|i] [|j]; cbn; auto; f_equal; auto; lia. Qed.
Lemma bump_inv i s o d : bump i s o = d <-> o = bump i (- s) d.
Proof.
  revert i d. induction o as [|x o IH]; intros i d.
  - destruct d as [|y d]; destruct i; cbn; split; auto; discriminate.
  - destruct d as [|y d]; destruct i as [|i]; cbn; try (split; discriminate).
    + split; intros [= E ->]; f_equal; lia.
    + specialize (IH i d). split; intros [= -> E]; f_equal; apply IH; auto.
Qed.
Definition neg (o : offset) : offset := map Z.opp o.
Lemma neg_bump i s o : neg (bump i s o) = bump i (- s) (neg o).
Proof. revert i. induction o as [|x o IH]; intros [|i]; cbn; auto; f_equal; auto; lia. Qed.
Lemma neg_neg o : neg (neg o) = o.
Proof. induction o as [|x o IH]; cbn; auto. f_equal; [lia|auto]. Qed.
Lemma off_eqb_bump i s o d : off_eqb (bump i s o) d = off_eqb o (bump i (- s) d).
Proof. apply eq_true_iff_eq. rewrite !off_eqb_eq. apply bump_inv. Qed.

Section Eval.
Variable F : Type.
Variable coords : list nat.
Variable K : StarRing.
Add Ring Kring : (r_theory K).
Variable kinv : K -> K.
Variable env : F -> list K -> K.
Variable kpar : nat -> K.
Notation D := (length coords).
Notation "x +! y" := (radd K x y) (at level 50, left associativity).
Notation "x -! y" := (rsub K x y) (at level 50, left associativity).
Notation "x *! y" := (rmul K x y) (at level 40, left associativity).
Notation O0 := (r0 K).
Notation I1 := (r1 K).
Notation dsum := (@discretize_summand F coords).
Notation ev := (eval_term K kinv env kpar).

Lemma kZ_succ z : kZ K (Z.succ z) = kZ K z +! I1.
Proof.
  assert (A : forall x y z0, x +! (y +! z0) = (x +! y) +! z0) by (intros; ring).
  destruct z as [|p|p]; [cbn; ring|cbn [kZ Z.succ Z.add]|].
  - replace (p + 1)%positive with (Pos.succ p) by lia. rewrite (@Pos.iter_op_succ _ _ A). ring.
  - destruct (Pos.eq_dec p 1) as [->|Ne]; [cbn; ring|]. replace (Z.succ (Z.neg p)) with (Z.neg (Pos.pred p)) by lia. cbn [kZ].
    rewrite <- (Pos.succ_pred p Ne) at 2. rewrite (@Pos.iter_op_succ _ _ A). ring.
Qed.
Lemma kZ_add a b : kZ K (a + b) = kZ K a +! kZ K b.
Proof.
  induction b using Z.peano_ind.
  - rewrite Z.add_0_r. cbn. ring.
  - replace (a + Z.succ b)%Z with (Z.succ (a + b)) by lia. rewrite !kZ_succ, IHb. ring.
  - assert (E1 : kZ K b = kZ K (Z.pred b) +! I1) by (rewrite <- kZ_succ; f_equal; lia). assert (E2 : kZ K (a + b) = kZ K (a + Z.pred b) +! I1) by (rewrite <- kZ_succ; f_equal; lia).
    rewrite E1, E2 in IHb. transitivity (kZ K (a + Z.pred b) +! I1 -! I1); [ring|rewrite IHb; ring].
Qed.
Lemma kZ_opp a : kZ K (- a) = ropp K (kZ K a).
Proof. assert (E : kZ K (a + - a) = kZ K a +! kZ K (- a)) by apply kZ_add. rewrite Z.add_opp_diag_r in E. cbn in E. transitivity (kZ K a +! kZ K (- a) -! kZ K a); [ring|rewrite <- E; ring]. Qed.
Lemma kZ_1 : kZ K 1 = I1. Proof. reflexivity. Qed.
Lemma kZ_2 : kZ K 2 = I1 +! I1. Proof. cbn. ring. Qed.
Lemma kZ_mul2 a : kZ K (2 * a) = (I1 +! I1) *! kZ K a.
Proof. replace (2 * a)%Z with (a + a)%Z by lia. rewrite kZ_add. ring. Qed.
Lemma kZ_conj z : rconj K (kZ K z) = kZ K z.
Proof.
  induction z using Z.peano_ind; [apply conj0|rewrite kZ_succ, rconj_add, IHz, conj1; auto|].
  assert (E1 : kZ K z = kZ K (Z.pred z) +! I1) by (rewrite <- kZ_succ; f_equal; lia).
  assert (E2 : kZ K (Z.pred z) = kZ K z -! I1) by (rewrite E1; ring). rewrite E2, conj_sub, IHz, conj1. reflexivity.
Qed.

Lemma moved_length i h (x : list K) : length (moved K i h x) = length x.
Proof. revert i. induction x as [|y x IH]; intros [|i]; cbn; auto. Qed.
Lemma move_length h o (x : list K) : length h = length x -> length o = length x -> length (move K h o x) = length x.
Proof. intros H1 H2. unfold move. rewrite map_length, !combine_length. lia. Qed.
Lemma move_bump h i s o x : move K h (bump i s o) x = move K h o (moved K i (kZ K s *! nth i h O0) x).
Proof.
  revert h i x. induction o as [|z o IH]; intros h i x.
  - destruct i; cbn; destruct x; destruct h; reflexivity.
  - destruct x as [|y x]; [destruct i; reflexivity|]. destruct h as [|k h]; [destruct i; cbn; destruct x; reflexivity|]. unfold move in *. destruct i as [|i]; cbn.
    + f_equal. rewrite kZ_add. ring.
    + f_equal. apply IH.
Qed.
Lemma moved_move h i s o x : length h = length x -> length o = length x -> moved K i (kZ K s *! nth i h O0) (move K h o x) = move K h (bump i s o) x.
Proof.
  revert h i x. induction o as [|z o IH]; intros h i x H1 H2.
  - destruct x; [|discriminate]. destruct i; reflexivity.
  - destruct x as [|y x]; [discriminate|]. destruct h as [|k h]; [discriminate|]. unfold move in *. destruct i as [|i]; cbn.
    + f_equal. rewrite kZ_add. ring.
    + f_equal. apply IH; cbn in *; lia.
Qed.
Lemma move_zeros h x : length x = D -> length h = D -> move K h (zeros coords) x = x.
Proof.
  intros Hx Hh. unfold zeros. rewrite <- Hx. assert (Hl : length h = length x) by lia. clear -Hl. revert h Hl. induction x as [|y x IH]; intros [|k h] H; try discriminate; [reflexivity|].
  cbn [length repeat]. unfold move in *. cbn. f_equal; [ring|apply IH; auto].
Qed.

(** ** Terms *)
Definition kap (h : list K) (i : nat) : K := ropp K (ri K) *! kinv ((I1 +! I1) *! nth i h O0).
Lemma ev_mom h i b t x : ev h (mom_term i b t) x = (if b then ropp K (kap h i) else kap h i) *! ev h t (moved K i (if b then ropp K (nth i h O0) else nth i h O0) x).
Proof.
  unfold eval_term, mom_term, shift_term. cbn [t_neg t_npow t_den t_facs].
  assert (E : forall l : list (factor F * offset), fold_right (fun p r => eval_factor K env kpar (fst p) (move K h (snd p) x) *! r) I1 (map (fun p => (fst p, bump i (if b then -1 else 1)%Z (snd p))) l) =
    fold_right (fun p r => eval_factor K env kpar (fst p) (move K h (snd p) (moved K i (if b then ropp K (nth i h O0) else nth i h O0) x)) *! r) I1 l).
  { induction l as [|p l IH]; [reflexivity|]. cbn [map fold_right fst snd]. rewrite IH, move_bump.
    replace (kZ K (if b then (-1)%Z else 1%Z) *! nth i h O0) with (if b then ropp K (nth i h O0) else nth i h O0) by (destruct b; cbn; ring). reflexivity. }
  rewrite E. unfold kap. rewrite <- kZ_2. cbn [kpow fold_right]. destruct b, (t_neg t); cbn [xorb]; ring.
Qed.
Lemma ev_mult h f t x : length x = D -> length h = D -> ev h (mult coords f t) x = eval_factor K env kpar f x *! ev h t x.
Proof. intros H1 H2. unfold eval_term, mult. cbn [t_neg t_npow t_den t_facs fold_right fst snd]. rewrite move_zeros by auto. ring. Qed.

Definition gen (h : list K) (ts : list (term F)) (G : offset -> K) (x : list K) : K := lsum K (fun t => ev h t x *! G (t_off t)) ts.
Lemma gen_ext h ts G G' x : (forall t, In t ts -> G (t_off t) = G' (t_off t)) -> gen h ts G x = gen h ts G' x.
Proof. intros H. apply lsum_ext. intros t Ht. rewrite H; auto. Qed.
Lemma gen_app h a b G x : gen h (a ++ b) G x = gen h a G x +! gen h b G x. Proof. apply lsum_app. Qed.
Lemma gen_diff h i ts G x : gen h (differentiate i ts) G x =
  kap h i *! (gen h ts (fun o => G (bump i 1 o)) (moved K i (nth i h O0) x) -! gen h ts (fun o => G (bump i (-1) o)) (moved K i (ropp K (nth i h O0)) x)).
Proof.
  unfold gen, differentiate. rewrite lsum_app, !lsum_map.
  rewrite (@lsum_ext K _ (fun t => ev h (mom_term i false t) x *! G (t_off (mom_term i false t))) (fun t => kap h i *! (ev h t (moved K i (nth i h O0) x) *! G (bump i 1 (t_off t))))).
  2: { intros t _. rewrite ev_mom. cbn [mom_term shift_term t_off]. ring. }
  rewrite (@lsum_ext K _ (fun t => ev h (mom_term i true t) x *! G (t_off (mom_term i true t))) (fun t => ropp K (kap h i) *! (ev h t (moved K i (ropp K (nth i h O0)) x) *! G (bump i (-1) (t_off t))))).
  2: { intros t _. rewrite ev_mom. cbn [mom_term shift_term t_off]. ring. }
  rewrite !lsum_mul_l. ring.
Qed.
Lemma gen_mult h f ts G x : length x = D -> length h = D -> gen h (map (mult coords f) ts) G x = eval_factor K env kpar f x *! gen h ts G x.
Proof.
  intros H1 H2. unfold gen. rewrite lsum_map, <- lsum_mul_l. apply lsum_ext. intros t _. rewrite ev_mult by auto. cbn [mult t_off]. ring.
Qed.
(** The terms act like the operators *)
Definition acts (h : list K) (ts : list (term F)) (phi : list K -> K) (x : list K) : K := gen h ts (fun o => phi (move K h o x)) x.
Lemma central_eq h i phi x : central K kinv i (nth i h O0) phi x = kap h i *! (phi (moved K i (nth i h O0) x) -! phi (moved K i (ropp K (nth i h O0)) x)).
Proof. reflexivity. Qed.
Lemma acts_factor h f ts phi psi x : length x = D -> length h = D -> (forall x, length x = D -> acts h ts phi x = psi x) ->
  acts h (apply_factor coords f ts) phi x = factor_op coords K kinv env kpar h f psi x.
Proof.
  intros Hx Hh H. destruct f as [g|c e].
  - cbn [apply_factor factor_op]. unfold acts. rewrite gen_mult by auto. cbn [eval_factor]. f_equal. apply H; auto.
  - rewrite apply_mom. cbn [factor_op]. destruct (position c coords) as [i|].
    + revert x Hx. induction e as [|e IH]; intros x Hx; rewrite ?iter_S, ?iter_0; [apply H; auto|]. unfold acts. rewrite gen_diff, central_eq. f_equal.
      assert (E : forall s, gen h (Nat.iter e (@differentiate F i) ts) (fun o => phi (move K h (bump i s o) x)) (moved K i (kZ K s *! nth i h O0) x) =
        Nat.iter e (central K kinv i (nth i h O0)) psi (moved K i (kZ K s *! nth i h O0) x)).
      { intros s. rewrite <- (IH (moved K i (kZ K s *! nth i h O0) x)) by (rewrite moved_length; auto). unfold acts. apply gen_ext. intros t _. rewrite move_bump. reflexivity. }
      pose proof (E 1%Z) as E1. pose proof (E (-1)%Z) as E2. replace (kZ K 1 *! nth i h O0) with (nth i h O0) in E1 by (cbn; ring). replace (kZ K (-1) *! nth i h O0) with (ropp K (nth i h O0)) in E2 by (cbn; ring).
      rewrite <- E1, <- E2. reflexivity.
    + unfold acts. rewrite gen_mult by auto. cbn [eval_factor]. f_equal. apply H; auto.
Qed.
Lemma acts_summand h s phi x : length x = D -> length h = D -> acts h (dsum s) phi x = fold_right (factor_op coords K kinv env kpar h) phi s x.
Proof.
  intros Hx Hh. revert x Hx. induction s as [|f s IH]; intros x Hx.
  - cbn [discretize_summand fold_right]. unfold acts, gen. rewrite lsum_cons, lsum_nil. cbn [t_off]. rewrite move_zeros by auto. unfold eval_term; cbn. ring.
  - cbn [discretize_summand fold_right]. fold (dsum s). apply acts_factor; auto.
Qed.

(** ** Products extended on the right *)
Lemma gen_fold_app h s a b G x : length x = D -> length h = D ->
  gen h (fold_right (apply_factor coords) (a ++ b) s) G x = gen h (fold_right (apply_factor coords) a s) G x +! gen h (fold_right (apply_factor coords) b s) G x.
Proof.
  intros Hx Hh. revert G x Hx. induction s as [|f s IH]; intros G x Hx; cbn [fold_right]; [apply gen_app|]. destruct f as [g|c e].
  - cbn [apply_factor]. rewrite !gen_mult, IH by auto. ring.
  - rewrite !apply_mom. destruct (position c coords) as [i|].
    + revert G x Hx. induction e as [|e IHe]; intros G x Hx; rewrite ?iter_S, ?iter_0; [apply IH; auto|]. rewrite !gen_diff, !IHe by (rewrite moved_length; auto). ring.
    + rewrite !gen_mult, IH by auto. ring.
Qed.
(** a base term whose value is independent of the position *)
Lemma gen_fold_mom h s i b t G x : length x = D -> length h = D -> t_facs t = [] ->
  gen h (fold_right (apply_factor coords) [mom_term i b t] s) G x =
  (if b then ropp K (kap h i) else kap h i) *! gen h (fold_right (apply_factor coords) [t] s) (fun o => G (bump i (if b then -1 else 1) o)) x.
Proof.
  intros Hx Hh Hf. revert G x Hx. induction s as [|f s IH]; intros G x Hx; cbn [fold_right].
  { unfold gen. rewrite !lsum_cons, !lsum_nil, ev_mom. cbn [mom_term t_off shift_term]. assert (E : forall y, ev h t y = ev h t x) by (intros y; unfold eval_term; rewrite Hf; reflexivity). rewrite E. ring. }
  destruct f as [g|c e].
  - cbn [apply_factor]. rewrite !gen_mult, IH by auto. ring.
  - rewrite !apply_mom. destruct (position c coords) as [j|].
    + revert G x Hx. induction e as [|e IHe]; intros G x Hx; rewrite ?iter_S, ?iter_0; [apply IH; auto|]. rewrite !gen_diff, !IHe by (rewrite moved_length; auto).
      rewrite (@gen_ext h _ (fun o => G (bump j 1 (bump i (if b then -1 else 1) o))) (fun o => G (bump i (if b then -1 else 1) (bump j 1 o)))) by (intros; rewrite bump_comm; reflexivity).
      rewrite (@gen_ext h _ (fun o => G (bump j (-1) (bump i (if b then -1 else 1) o))) (fun o => G (bump i (if b then -1 else 1) (bump j (-1) o)))) by (intros; rewrite bump_comm; reflexivity). ring.
    + rewrite !gen_mult, IH by auto. ring.
Qed.
Lemma gen_fold_diff h s i b G x : length x = D -> length h = D -> (forall t, In t b -> t_facs t = []) ->
  gen h (fold_right (apply_factor coords) (differentiate i b) s) G x =
  kap h i *! (gen h (fold_right (apply_factor coords) b s) (fun o => G (bump i 1 o)) x -! gen h (fold_right (apply_factor coords) b s) (fun o => G (bump i (-1) o)) x).
Proof.
  intros Hx Hh Hf. unfold differentiate. rewrite gen_fold_app by auto.
  assert (N : forall G, gen h (fold_right (apply_factor coords) [] s) G x = O0).
  { intros G'. transitivity (gen h (fold_right (apply_factor coords) ([] ++ []) s) G' x -! gen h (fold_right (apply_factor coords) [] s) G' x); [rewrite gen_fold_app by auto; ring|cbn; ring]. }
  assert (E : forall c, gen h (fold_right (apply_factor coords) (map (mom_term i c) b) s) G x = (if c then ropp K (kap h i) else kap h i) *! gen h (fold_right (apply_factor coords) b s) (fun o => G (bump i (if c then -1 else 1) o)) x).
  { intros c. induction b as [|t b IH]; [cbn [map]; rewrite !N; ring|]. cbn [map]. change (mom_term i c t :: map (mom_term i c) b) with ([mom_term i c t] ++ map (mom_term i c) b). change (t :: b) with ([t] ++ b).
    rewrite !gen_fold_app by auto. rewrite gen_fold_mom, IH; auto; [ring|intros; apply Hf; right; auto|apply Hf; left; auto]. }
  rewrite !E. ring.
Qed.
Lemma gen_fold_mult h s f b G x : length x = D -> length h = D -> (forall t, In t b -> t_facs t = [] /\ t_off t = zeros coords) ->
  gen h (fold_right (apply_factor coords) (map (mult coords f) b) s) G x =
  gen h (fold_right (apply_factor coords) b s) (fun o => eval_factor K env kpar f (move K h o x) *! G o) x.
Proof.
  intros Hx Hh Hf. revert G x Hx. induction s as [|g s IH]; intros G x Hx; cbn [fold_right].
  { rewrite gen_mult by auto. unfold gen. rewrite <- lsum_mul_l. apply lsum_ext. intros t Ht. rewrite (proj2 (Hf t Ht)), move_zeros by auto. ring. }
  destruct g as [g|c e].
  - cbn [apply_factor]. rewrite !gen_mult, IH by auto. reflexivity.
  - rewrite !apply_mom. destruct (position c coords) as [j|].
    + revert G x Hx. induction e as [|e IHe]; intros G x Hx; rewrite ?iter_S, ?iter_0; [apply IH; auto|]. rewrite !gen_diff, !IHe by (rewrite moved_length; auto).
      assert (E : forall s0, moved K j (kZ K s0 *! nth j h O0) x = moved K j (kZ K s0 *! nth j h O0) x -> gen h (Nat.iter e (@differentiate F j) (fold_right (apply_factor coords) b s)) (fun o => eval_factor K env kpar f (move K h o (moved K j (kZ K s0 *! nth j h O0) x)) *! G (bump j s0 o)) (moved K j (kZ K s0 *! nth j h O0) x) =
        gen h (Nat.iter e (@differentiate F j) (fold_right (apply_factor coords) b s)) (fun o => eval_factor K env kpar f (move K h (bump j s0 o) x) *! G (bump j s0 o)) (moved K j (kZ K s0 *! nth j h O0) x)).
      { intros s0 _. apply gen_ext. intros t _. rewrite move_bump. reflexivity. }
      pose proof (E 1%Z eq_refl) as E1. pose proof (E (-1)%Z eq_refl) as E2. replace (kZ K 1 *! nth j h O0) with (nth j h O0) in E1 by (cbn; ring). replace (kZ K (-1) *! nth j h O0) with (ropp K (nth j h O0)) in E2 by (cbn; ring).
      rewrite E1, E2. reflexivity.
    + rewrite !gen_mult, IH by auto. reflexivity.
Qed.

(** ** The kernel of the adjoint *)
Variable fconj : F -> F.
Hypothesis Henv : forall f x, env (fconj f) x = rconj K (env f x).
Hypothesis Hpar : forall c, rconj K (kpar c) = kpar c.
Hypothesis Hinvc : forall x, rconj K (kinv x) = kinv (rconj K x).
Definition delta (d : offset) (o : offset) : K := if off_eqb o d then I1 else O0.
Definition kern (h : list K) (s : summand F) (d : offset) (x : list K) : K := gen h (dsum s) (delta d) x.
Lemma conj_kap h i : rconj K (nth i h O0) = nth i h O0 -> rconj K (kap h i) = ropp K (kap h i).
Proof. intros H. unfold kap. rewrite rconj_mul, conj_opp, rconj_i, Hinvc, rconj_mul, rconj_add, conj1, H. ring. Qed.
Lemma conj_kpow x e : rconj K (kpow K x e) = kpow K (rconj K x) e.
Proof. induction e as [|e IH]; cbn; [apply conj1|]. rewrite rconj_mul, IH. reflexivity. Qed.
Lemma eval_adjoint f x : eval_factor K env kpar (adjoint_factor fconj f) x = rconj K (eval_factor K env kpar f x).
Proof. destruct f as [g|c e]; cbn; [apply Henv|]. rewrite conj_kpow, Hpar. reflexivity. Qed.
Lemma kern_adjoint h s d x : length x = D -> length h = D -> length d = D -> (forall i, rconj K (nth i h O0) = nth i h O0) ->
  kern h (adjoint fconj s) d x = rconj K (kern h s (neg d) (move K h d x)).
Proof.
  intros Hx Hh Hd Hr. revert d Hd. induction s as [|f s IH]; intros d Hd.
  { unfold kern, adjoint, gen. cbn [discretize_summand fold_right map rev]. rewrite !lsum_cons, !lsum_nil. cbn [t_off]. unfold eval_term, delta. cbn. rewrite rconj_add, conj0, !rconj_mul, !conj1.
    f_equal. f_equal. replace (off_eqb (zeros coords) (neg d)) with (off_eqb (zeros coords) d); [destruct (off_eqb (zeros coords) d); rewrite ?conj1, ?conj0; reflexivity|].
    apply eq_true_iff_eq. rewrite !off_eqb_eq. assert (Ez : neg (zeros coords) = zeros coords). { unfold neg, zeros. clear. induction D as [|m IHm]; cbn; [auto|f_equal; auto]. }
    split; intros E; [rewrite <- E; auto|]. rewrite <- (neg_neg d), <- E. auto. }
  assert (Ea : adjoint fconj (f :: s) = adjoint fconj s ++ [adjoint_factor fconj f]) by reflexivity. rewrite Ea. clear Ea.
  set (sd := adjoint fconj s) in *. unfold kern at 1, discretize_summand. rewrite fold_right_app. cbn [fold_right]. set (t0 := mkTerm false 0 [] [] (zeros coords)).
  assert (Hmul : forall f, gen h (fold_right (apply_factor coords) (map (mult coords (adjoint_factor fconj f)) [t0]) sd) (delta d) x = rconj K (eval_factor K env kpar f (move K h d x)) *! rconj K (kern h s (neg d) (move K h d x))).
  { intros g. rewrite gen_fold_mult; auto; [|intros t [<-|[]]; auto]. rewrite <- IH by auto. unfold kern, gen. rewrite <- lsum_mul_l. apply lsum_ext. intros t _.
    unfold delta. destruct (off_eqb (t_off t) d) eqn:E; [|ring]. apply off_eqb_eq in E. rewrite E, eval_adjoint. ring. }
  assert (Hm : length (move K h d x) = D) by (rewrite move_length; lia).
  destruct f as [g|c e].
  - specialize (Hmul (Fn g)). cbn [adjoint_factor apply_factor] in *. rewrite Hmul. unfold kern at 2. cbn [discretize_summand fold_right apply_factor]. fold (dsum s). rewrite gen_mult, rconj_mul by auto. reflexivity.
  - cbn [adjoint_factor]. rewrite apply_mom. unfold kern. cbn [discretize_summand fold_right]. fold (dsum s). rewrite apply_mom. destruct (position c coords) as [i|].
    2: { specialize (Hmul (Mom F c e)). cbn [adjoint_factor] in Hmul. rewrite Hmul, gen_mult, rconj_mul by auto. reflexivity. }
    clear Hmul Hm.
    assert (Hbase : forall e t, In t (Nat.iter e (@differentiate F i) [t0]) -> t_facs t = []).
    { induction e0 as [|e0 IHe]; rewrite ?iter_S, ?iter_0; [intros t [<-|[]]; auto|]. intros t Ht. apply in_differentiate in Ht. destruct Ht as (t' & Ht & b & ->). cbn. rewrite (IHe _ Ht). reflexivity. }
    revert d Hd. induction e as [|e IHe]; intros d Hd; rewrite ?iter_S, ?iter_0; [apply IH; auto|].
    rewrite gen_fold_diff by (auto; apply Hbase). rewrite gen_diff, rconj_mul, conj_sub, conj_kap by auto.
    assert (E1 : forall r ts y, gen h ts (fun o => delta d (bump i r o)) y = gen h ts (delta (bump i (- r) d)) y).
    { intros. apply gen_ext. intros t _. unfold delta. rewrite off_eqb_bump. reflexivity. }
    assert (E2 : forall r ts y, gen h ts (fun o => delta (neg d) (bump i r o)) y = gen h ts (delta (neg (bump i r d))) y).
    { intros. apply gen_ext. intros t _. unfold delta. rewrite off_eqb_bump, neg_bump. reflexivity. }
    rewrite !E1, !E2. rewrite !IHe by (rewrite bump_length; auto).
    pose proof (@moved_move h i 1 d x ltac:(lia) ltac:(lia)) as M1. pose proof (@moved_move h i (-1) d x ltac:(lia) ltac:(lia)) as M2.
    replace (kZ K 1 *! nth i h O0) with (nth i h O0) in M1 by (cbn; ring). replace (kZ K (-1) *! nth i h O0) with (ropp K (nth i h O0)) in M2 by (cbn; ring).
    rewrite M1, M2. cbn [Z.opp]. ring.
Qed.
End Eval.
