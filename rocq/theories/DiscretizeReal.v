(** * C63 over the complex numbers: the dispersion of a discretized Hamiltonian. *)
From Coq Require Import Reals List Bool Arith ZArith Lia Lra Ring Permutation.
From Verif Require Import StarRing DiscretizeModel DiscretizeSpec DiscretizeProofs DiscretizeEval DiscretizeMain DiscretizeProps.
Import ListNotations.
Set Implicit Arguments.
Local Open Scope R_scope.

(** The complex numbers: pairs of real numbers *)
Definition RC : StarRing.
Proof.
  refine (@mkSR (R * R) (0, 0) (1, 0)
    (fun x y => (fst x + fst y, snd x + snd y))
    (fun x y => (fst x * fst y - snd x * snd y, fst x * snd y + snd x * fst y))
    (fun x y => (fst x - fst y, snd x - snd y))
    (fun x => (- fst x, - snd x))
    (fun x => (fst x, - snd x)) (0, 1) (fun x => (fst x, 0)) _ _ _ _ _ _ _ _).
  - constructor; intros; repeat match goal with x : (R * R)%type |- _ => destruct x end; cbn; f_equal; ring.
  - intros [] []; cbn; f_equal; ring.
  - intros [] []; cbn; f_equal; ring.
  - intros []; cbn; f_equal; ring.
  - cbn; f_equal; ring.
  - cbn; f_equal; ring.
  - intros [x y]; cbn. intros [= H]. f_equal. lra.
  - intros [] []; cbn; f_equal; ring.
Defined.
Definition cinv (x : RC) : RC := (fst x / (fst x * fst x + snd x * snd x), - snd x / (fst x * fst x + snd x * snd x)).
Lemma cinv_ok (x : RC) : x <> r0 RC -> rmul RC x (cinv x) = r1 RC.
Proof.
  destruct x as [x y]. intros H. cbn. assert (x * x + y * y <> 0). { intros E. apply H. assert (x = 0) by nra. assert (y = 0) by nra. subst. reflexivity. } f_equal; field; auto.
Qed.
Lemma cinv_conj (x : RC) : rconj RC (cinv x) = cinv (rconj RC x).
Proof. destruct x as [x y]. unfold cinv. cbn. replace (- y * - y) with (y * y) by ring. f_equal. unfold Rdiv. ring. Qed.
Lemma c_two : radd RC (r1 RC) (r1 RC) <> r0 RC.
Proof. cbn. intros [= H]. lra. Qed.
(** A real number; the plane wave exp(i k.x) *)
Definition re (x : R) : RC := (x, 0).
Fixpoint dot (k : list R) (x : list RC) : R := match k, x with a :: k', b :: x' => a * fst b + dot k' x' | _, _ => 0 end.
Definition wave (k : list R) (x : list RC) : RC := (cos (dot k x), sin (dot k x)).

Lemma cinv_re x : x <> 0 -> cinv (re x) = re (/ x).
Proof. intros H. unfold cinv, re. cbn. f_equal; field; auto. Qed.

Section Disp.
Variable F : Type.
Variable coords : list nat.
Variable val : F -> RC.
Variable kpar : nat -> RC.
Notation D := (length coords).
(** the constants do not depend on the position *)
Definition cenv (f : F) (_ : list RC) : RC := val f.
(** The value of a product when the momenta in coords are replaced by numbers *)
Definition symbol (mom : nat -> R) (s : summand F) : RC :=
  fold_right (fun f r => rmul RC (match f with
    | Fn g => val g
    | Mom _ c e => match position c coords with Some i => kpow RC (re (mom i)) e | None => kpow RC (kpar c) e end
    end) r) (r1 RC) s.
(** The step in the direction i: the grid spacing, or half of it if the number of
    momenta is even *)
Definition rstep (a : list R) (s : summand F) (i : nat) : R :=
  let m := count_mom (nth i coords 0%nat) s in
  if (0 <? m)%nat && Nat.even m then nth i a 0 / 2 else nth i a 0.
(** the momentum of a plane wave on a grid *)
Definition lattice_momentum (k a : list R) (s : summand F) (i : nat) : R := sin (nth i k 0 * rstep a s i) / rstep a s i.
Definition bloch (k a : list R) (e : expression F) : RC := lsum RC (fun s => symbol (lattice_momentum k a s) s) e.
(** the operator on the plane wave in the continuum *)
Definition continuum (k : list R) (e : expression F) : RC := lsum RC (symbol (fun i => nth i k 0)) e.

Lemma dot_moved k x i h : (i < length k)%nat -> (i < length x)%nat -> dot k (moved RC i (re h) x) = dot k x + nth i k 0 * h.
Proof.
  revert x i. induction k as [|a k IH]; intros [|b x] [|i] H1 H2; cbn in *; try lia; [ring|]. rewrite IH by lia. ring.
Qed.
Lemma moved_length (K : StarRing) i h (x : list K) : length (moved K i h x) = length x.
Proof. revert i. induction x as [|b x IH]; intros [|i]; cbn; auto. Qed.
Lemma step_nz (s : summand F) a i : (i < D)%nat -> length a = D -> nth i a 0 <> 0 -> rstep a s i <> 0.
Proof. intros Hi Ha Hn. unfold rstep. destruct (_ && _); lra. Qed.
Lemma steps_nth (s : summand F) a i : (i < D)%nat -> length a = D -> nth i (steps coords RC cinv (map re a) s) (r0 RC) = re (rstep a s i).
Proof.
  unfold steps, rstep. revert a i. induction coords as [|c l IH]; intros [|x a] [|i] Hi Ha; cbn in *; try lia.
  - unfold step. destruct (_ && _); [|reflexivity]. unfold cinv, re. cbn. f_equal; field.
  - apply IH; lia.
Qed.
Lemma central_wave i h k x (v : RC) : h <> 0 -> (i < length k)%nat -> (i < length x)%nat ->
  central RC cinv i (re h) (fun x => rmul RC v (wave k x)) x = rmul RC (re (sin (nth i k 0 * h) / h)) (rmul RC v (wave k x)).
Proof.
  intros Hh Hk Hx. unfold central. change (ropp RC (re h)) with ((- h, - 0) : RC). rewrite Ropp_0. change ((- h, 0) : RC) with (re (- h)). unfold wave. rewrite !dot_moved by auto.
  replace (rmul RC (radd RC (r1 RC) (r1 RC)) (re h)) with (re (2 * h)) by (unfold re; cbn; f_equal; ring). rewrite cinv_re by lra.
  set (t := nth i k 0 * h). replace (nth i k 0 * - h) with (- t) by (unfold t; ring). rewrite !cos_plus, !sin_plus, cos_neg, sin_neg.
  destruct v as [p q]. unfold re. cbn. f_equal; field; auto.
Qed.
Lemma central_ext (K : StarRing) kinv i h (f g : list K -> K) D' x : (forall x, length x = D' -> f x = g x) -> length x = D' -> central K kinv i h f x = central K kinv i h g x.
Proof. intros H Hx. unfold central. rewrite !H by (rewrite moved_length; auto). reflexivity. Qed.
Lemma iter_wave i h k (v : RC) e : h <> 0 -> (i < length k)%nat -> forall x, length x = length k ->
  Nat.iter e (central RC cinv i (re h)) (fun x => rmul RC v (wave k x)) x = rmul RC (rmul RC (kpow RC (re (sin (nth i k 0 * h) / h)) e) v) (wave k x).
Proof.
  intros Hh Hi. induction e as [|e IH]; intros x Hx; [rewrite iter_0; unfold re; cbn; f_equal; ring|]. rewrite iter_S.
  rewrite (@central_ext RC cinv i (re h) _ _ (length k) x IH Hx). rewrite central_wave by (auto; lia). cbn [kpow]. pose proof (r_theory RC) as T. destruct T. rewrite !Rmul_assoc. reflexivity.
Qed.
Lemma iter_central_ext (K : StarRing) kinv i h (f g : list K -> K) D' e : (forall x, length x = D' -> f x = g x) -> forall x, length x = D' -> Nat.iter e (central K kinv i h) f x = Nat.iter e (central K kinv i h) g x.
Proof.
  intros H. induction e as [|e IH]; intros x Hx; [rewrite !iter_0; auto|]. rewrite !iter_S. apply (@central_ext K kinv i h _ _ D'); auto.
Qed.
Lemma position_lt c l i : position c l = Some i -> (i < length l)%nat /\ nth i l 0%nat = c.
Proof.
  revert i. induction l as [|x l IH]; intros i; cbn; [discriminate|]. destruct (Nat.eqb_spec c x) as [->|N]; [intros [= <-]; split; [lia|auto]|].
  destruct (position c l); cbn; [|discriminate]. intros [= <-]. destruct (IH n eq_refl). split; [lia|auto].
Qed.
Lemma summand_wave a k s0 (v : RC) : length a = D -> length k = D -> (forall i, (i < D)%nat -> nth i a 0 <> 0) -> forall s x, length x = D ->
  fold_right (factor_op coords RC cinv cenv kpar (steps coords RC cinv (map re a) s0)) (fun x => rmul RC v (wave k x)) s x =
  rmul RC (rmul RC (symbol (lattice_momentum k a s0) s) v) (wave k x).
Proof.
  intros Ha Hk Hn. pose proof (r_theory RC) as T. destruct T. induction s as [|f s IH]; intros x Hx; [cbn [symbol fold_right]; rewrite Rmul_1_l; reflexivity|]. cbn [fold_right symbol]. fold (symbol (lattice_momentum k a s0) s).
  destruct f as [g|c e]; cbn [factor_op].
  - rewrite IH by auto. unfold cenv. rewrite !Rmul_assoc. reflexivity.
  - destruct (position c coords) as [i|] eqn:E; [|rewrite IH by auto; rewrite !Rmul_assoc; reflexivity].
    destruct (position_lt _ _ E) as [Hi _]. rewrite steps_nth by auto.
    rewrite (@iter_central_ext RC cinv i _ _ _ D e IH x Hx). rewrite iter_wave by (try lia; apply step_nz; auto). unfold lattice_momentum. rewrite !Rmul_assoc. reflexivity.
Qed.
Lemma expression_wave a k e (v : RC) x : length a = D -> length k = D -> (forall i, (i < D)%nat -> nth i a 0 <> 0) -> length x = D ->
  expression_op coords RC cinv cenv kpar (map re a) e (fun x => rmul RC v (wave k x)) x = rmul RC (rmul RC (bloch k a e) v) (wave k x).
Proof.
  intros Ha Hk Hn Hx. unfold expression_op, bloch, summand_op. pose proof (r_theory RC) as T. destruct T. rewrite <- !lsum_mul_r. apply lsum_ext. intros s _. apply summand_wave; auto.
Qed.
End Disp.
