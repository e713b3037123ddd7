(** * Commutative rings with conjugation and an imaginary unit.

    Stand-in for Python's complex numbers in exact arithmetic: the theorems
    quantify over all such rings (the complex numbers, the Gaussian rationals,
    the Gaussian integers, ...).  [rre] is the attribute .real (seen as a
    complex number). *)
From Coq Require Import List Bool Arith ZArith Ring Lia.
Import ListNotations.
Set Implicit Arguments.

Record StarRing := mkSR {
  car :> Type;
  r0 : car; r1 : car;
  radd : car -> car -> car; rmul : car -> car -> car; rsub : car -> car -> car; ropp : car -> car;
  rconj : car -> car;
  ri : car;
  rre : car -> car;
  r_theory : ring_theory r0 r1 radd rmul rsub ropp (@eq car);
  rconj_add : forall x y, rconj (radd x y) = radd (rconj x) (rconj y);
  rconj_mul : forall x y, rconj (rmul x y) = rmul (rconj x) (rconj y);
  rconj_conj : forall x, rconj (rconj x) = x;
  ri_sq : rmul ri ri = ropp r1;
  rconj_i : rconj ri = ropp ri;
  rre_self : forall x, rconj x = x -> rre x = x;
  rre_add : forall x y, rre (radd x y) = radd (rre x) (rre y) }.

Declare Scope star_scope.
Delimit Scope star_scope with star.
Notation "x + y" := (radd _ x y) : star_scope.
Notation "x * y" := (rmul _ x y) : star_scope.
Notation "x - y" := (rsub _ x y) : star_scope.
Notation "- x" := (ropp _ x) : star_scope.

Section Sums.
Variable R : StarRing.
Add Ring Rring : (r_theory R).
Local Open Scope star_scope.
Notation "0" := (r0 R) : star_scope.
Notation "1" := (r1 R) : star_scope.
Notation conj := (rconj R).

(** Sum over a list, and over 0 .. n-1. *)
Definition lsum {A : Type} (f : A -> R) (l : list A) : R := fold_right (fun x s => f x + s) 0 l.
Definition sum (n : nat) (f : nat -> R) : R := lsum f (seq 0 n).

Lemma conj0 : conj 0 = 0.
Proof.
  assert (H : conj 0 + conj 0 = conj 0) by (rewrite <- rconj_add; f_equal; ring).
  transitivity (conj 0 + conj 0 - conj 0); [ring|rewrite H; ring].
Qed.
Lemma conj_opp x : conj (- x) = - conj x.
Proof.
  assert (H : conj (- x) + conj x = 0). { rewrite <- rconj_add, <- conj0. f_equal. ring. }
  transitivity (conj (- x) + conj x - conj x); [ring|rewrite H; ring].
Qed.
Lemma conj_sub x y : conj (x - y) = conj x - conj y.
Proof. replace (x - y) with (x + - y) by ring. rewrite rconj_add, conj_opp. ring. Qed.
Lemma conj1 : conj 1 = 1.
Proof.
  transitivity (conj 1 * conj (conj 1)); [|rewrite <- rconj_mul].
  - rewrite rconj_conj. ring.
  - replace (1 * conj 1) with (conj 1) by ring. apply rconj_conj.
Qed.

Section L.
Variable A : Type.
Implicit Types (f g : A -> R) (l : list A).
Lemma lsum_nil f : lsum f [] = 0. Proof. reflexivity. Qed.
Lemma lsum_cons f x l : lsum f (x :: l) = f x + lsum f l. Proof. reflexivity. Qed.
Lemma lsum_app f l l' : lsum f (l ++ l') = lsum f l + lsum f l'.
Proof. induction l as [|x l IH]; [cbn [app]; rewrite lsum_nil; ring|cbn [app]; rewrite !lsum_cons, IH; ring]. Qed.
Lemma lsum_ext f g l : (forall x, In x l -> f x = g x) -> lsum f l = lsum g l.
Proof.
  induction l as [|x l IH]; intros H; [reflexivity|]. rewrite !lsum_cons. rewrite (H x), IH; auto; [|left; auto].
  intros; apply H; right; auto.
Qed.
Lemma lsum_add f g l : lsum (fun x => f x + g x) l = lsum f l + lsum g l.
Proof. induction l as [|x l IH]; [rewrite !lsum_nil; ring|rewrite !lsum_cons, IH; ring]. Qed.
Lemma lsum_sub f g l : lsum (fun x => f x - g x) l = lsum f l - lsum g l.
Proof. induction l as [|x l IH]; [rewrite !lsum_nil; ring|rewrite !lsum_cons, IH; ring]. Qed.
Lemma lsum_opp f l : lsum (fun x => - f x) l = - lsum f l.
Proof. induction l as [|x l IH]; [rewrite !lsum_nil; ring|rewrite !lsum_cons, IH; ring]. Qed.
Lemma lsum_mul_l c f l : lsum (fun x => c * f x) l = c * lsum f l.
Proof. induction l as [|x l IH]; [rewrite !lsum_nil; ring|rewrite !lsum_cons, IH; ring]. Qed.
Lemma lsum_mul_r c f l : lsum (fun x => f x * c) l = lsum f l * c.
Proof. induction l as [|x l IH]; [rewrite !lsum_nil; ring|rewrite !lsum_cons, IH; ring]. Qed.
Lemma lsum_0 l : lsum (fun _ => 0) l = 0.
Proof. induction l as [|x l IH]; [reflexivity|rewrite !lsum_cons, IH; ring]. Qed.
Lemma lsum_zero f l : (forall x, In x l -> f x = 0) -> lsum f l = 0.
Proof. intros H. rewrite (lsum_ext f (fun _ => 0) l H). apply lsum_0. Qed.
Lemma lsum_conj f l : conj (lsum f l) = lsum (fun x => conj (f x)) l.
Proof. induction l as [|x l IH]; [apply conj0|rewrite !lsum_cons, rconj_add, IH; reflexivity]. Qed.
Lemma lsum_re f l : rre R (lsum f l) = lsum (fun x => rre R (f x)) l.
Proof.
  induction l as [|x l IH]; [apply rre_self; apply conj0|]. rewrite !lsum_cons, rre_add, IH. reflexivity.
Qed.
Lemma lsum_filter f (p : A -> bool) l : lsum f (filter p l) = lsum (fun x => if p x then f x else 0) l.
Proof. induction l as [|x l IH]; [reflexivity|]. cbn [filter]. rewrite lsum_cons. destruct (p x); [rewrite lsum_cons, IH; ring|rewrite IH; ring]. Qed.
Lemma fold_left_lsum f l : forall t, fold_left (fun s x => s + f x) l t = t + lsum f l.
Proof. induction l as [|x l IH]; intros t; [cbn [fold_left]; rewrite lsum_nil; ring|]. cbn [fold_left]. rewrite IH, lsum_cons. ring. Qed.
End L.

Lemma lsum_map (A B : Type) (g : A -> B) (f : B -> R) l : lsum f (map g l) = lsum (fun x => f (g x)) l.
Proof. induction l as [|x l IH]; [reflexivity|]. cbn [map]. rewrite !lsum_cons, IH. reflexivity. Qed.
Lemma lsum_flat_map (A B : Type) (g : A -> list B) (f : B -> R) l : lsum f (flat_map g l) = lsum (fun x => lsum f (g x)) l.
Proof. induction l as [|x l IH]; [reflexivity|]. cbn [flat_map]. rewrite lsum_app, lsum_cons, IH. reflexivity. Qed.
Lemma lsum_swap (A B : Type) (f : A -> B -> R) l l' :
  lsum (fun x => lsum (fun y => f x y) l') l = lsum (fun y => lsum (fun x => f x y) l) l'.
Proof.
  induction l as [|x l IH].
  - rewrite lsum_nil. symmetry. apply lsum_zero. intros. apply lsum_nil.
  - rewrite lsum_cons, IH, <- lsum_add. apply lsum_ext. intros. rewrite lsum_cons. reflexivity.
Qed.

Lemma sum_ext n f g : (forall i, (i < n)%nat -> f i = g i) -> sum n f = sum n g.
Proof. intros H. apply lsum_ext. intros x Hx. apply in_seq in Hx. apply H. lia. Qed.
Lemma sum_0 n : sum n (fun _ => 0) = 0. Proof. apply lsum_0. Qed.
Lemma sum_zero n f : (forall i, (i < n)%nat -> f i = 0) -> sum n f = 0.
Proof. intros H. apply lsum_zero. intros x Hx. apply in_seq in Hx. apply H. lia. Qed.
Lemma sum_S n f : sum (S n) f = sum n f + f n.
Proof. unfold sum. rewrite seq_S, lsum_app, lsum_cons, lsum_nil. cbn [Nat.add]. ring. Qed.
Lemma sum_add n f g : sum n (fun i => f i + g i) = sum n f + sum n g. Proof. apply lsum_add. Qed.
Lemma sum_sub n f g : sum n (fun i => f i - g i) = sum n f - sum n g. Proof. apply lsum_sub. Qed.
Lemma sum_mul_l n c f : sum n (fun i => c * f i) = c * sum n f. Proof. apply lsum_mul_l. Qed.
Lemma sum_mul_r n c f : sum n (fun i => f i * c) = sum n f * c. Proof. apply lsum_mul_r. Qed.
Lemma sum_conj n f : conj (sum n f) = sum n (fun i => conj (f i)). Proof. apply lsum_conj. Qed.
Lemma sum_swap n m f : sum n (fun i => sum m (fun j => f i j)) = sum m (fun j => sum n (fun i => f i j)).
Proof. apply lsum_swap. Qed.
Lemma sum_lswap (A : Type) n (f : nat -> A -> R) l : sum n (fun i => lsum (fun x => f i x) l) = lsum (fun x => sum n (fun i => f i x)) l.
Proof. apply lsum_swap. Qed.
Lemma sum_split n m f : sum (n + m) f = sum n f + sum m (fun i => f (n + i)%nat).
Proof.
  induction m as [|m IH]; [rewrite Nat.add_0_r; unfold sum at 3; cbn; ring|].
  replace (n + S m)%nat with (S (n + m))%nat by lia. rewrite !sum_S, IH. ring.
Qed.
(** Kronecker delta *)
Lemma sum_delta n k f : (k < n)%nat -> sum n (fun i => if (i =? k)%nat then f i else 0) = f k.
Proof.
  intros H. replace n with (k + S (n - k - 1))%nat by lia. rewrite sum_split.
  rewrite (sum_zero (n := k)) by (intros i Hi; destruct (Nat.eqb_spec i k); [lia|auto]).
  replace (S (n - k - 1)) with (1 + (n - k - 1))%nat by lia. rewrite sum_split.
  rewrite (sum_zero (n := (n - k - 1))) by (intros i Hi; destruct (Nat.eqb_spec (k + (1 + i)) k); [lia|auto]).
  unfold sum. cbn. rewrite Nat.add_0_r, Nat.eqb_refl. ring.
Qed.
Lemma sum_delta_out n k f : (n <= k)%nat -> sum n (fun i => if (i =? k)%nat then f i else 0) = 0.
Proof. intros H. apply sum_zero. intros i Hi. destruct (Nat.eqb_spec i k); [lia|auto]. Qed.
End Sums.

(** The Gaussian integers are an instance. *)
Definition zi_mul (x y : Z * Z) : Z * Z := (fst x * fst y - snd x * snd y, fst x * snd y + snd x * fst y)%Z.
Definition GaussZ : StarRing.
Proof.
  refine (@mkSR (Z * Z)%type (0, 0)%Z (1, 0)%Z (fun x y => (fst x + fst y, snd x + snd y)%Z) zi_mul
    (fun x y => (fst x - fst y, snd x - snd y)%Z) (fun x => (- fst x, - snd x)%Z)
    (fun x => (fst x, - snd x)%Z) (0, 1)%Z (fun x => (fst x, 0)%Z) _ _ _ _ _ _ _ _).
  - constructor; intros; unfold zi_mul; repeat match goal with x : (Z * Z)%type |- _ => destruct x end; cbn [fst snd]; f_equal; ring.
  - intros [] []; cbn [fst snd]; f_equal; ring.
  - intros [] []; unfold zi_mul; cbn [fst snd]; f_equal; ring.
  - intros []; cbn [fst snd]; f_equal; ring.
  - reflexivity.
  - reflexivity.
  - intros [a b]; cbn; intros H; injection H as H; f_equal; lia.
  - intros [] []; cbn [fst snd]; f_equal; ring.
Defined.
