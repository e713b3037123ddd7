(** * Traces by local vectors. *)
From Coq Require Import List Bool Arith ZArith Ring Lia.
From Verif Require Import StarRing KpmModel KpmSpec KpmProofs KpmCorrModel KpmCorrSpec.
Import ListNotations.
Set Implicit Arguments.

Section Trace.
Variable R : StarRing.
Add Ring RringKT : (r_theory R).
Notation vec := (list R).
Notation matrix := (nat -> nat -> R).
Variable d : nat.
Definition acts (F : vec -> vec) (x : matrix) : Prop :=
  forall v, length v = d -> length (F v) = d /\ forall i, i < d -> nth i (F v) (r0 R) = sum R d (fun j => rmul R (x i j) (nth j v (r0 R))).
Lemma acts_ext F x y : acts F x -> (forall i j, i < d -> j < d -> x i j = y i j) -> acts F y.
Proof. intros A E v Hv. destruct (A v Hv) as [L N]. split; auto. intros i Hi. rewrite N by auto. apply sum_ext. intros j Hj. rewrite E by auto. reflexivity. Qed.
Lemma acts_mul x : acts (mul_vec x d) x.
Proof. intros v Hv. split; [unfold mul_vec; rewrite map_length, seq_length; auto|]. intros i Hi. apply mul_vec_nth; auto. Qed.
Lemma unit_sum f i : i < d -> sum R d (fun j => rmul R (unit_matrix i j) (f j)) = f i.
Proof.
  intros Hi. rewrite <- (@sum_delta R d i f Hi). apply sum_ext. intros j _. unfold unit_matrix. rewrite (Nat.eqb_sym i j). destruct (j =? i); ring.
Qed.
Lemma acts_id : acts (fun v => v) unit_matrix.
Proof. intros v Hv. split; auto. intros i Hi. symmetry. apply (unit_sum (fun j => nth j v (r0 R))); auto. Qed.
Lemma acts_comp F G x y : acts F x -> acts G y -> acts (fun v => F (G v)) (mmul d x y).
Proof.
  intros AF AG v Hv. destruct (AG v Hv) as [LG NG]. destruct (AF _ LG) as [LF NF]. split; auto. intros i Hi. rewrite NF by auto.
  transitivity (sum R d (fun j => sum R d (fun k => rmul R (rmul R (x i j) (y j k)) (nth k v (r0 R))))).
  - apply sum_ext. intros j Hj. rewrite NG by auto. rewrite <- sum_mul_l. apply sum_ext. intros k _. ring.
  - etransitivity; [apply sum_swap|]. apply sum_ext. intros k _. unfold mmul. rewrite <- sum_mul_r. apply sum_ext. intros; ring.
Qed.
Lemma acts_rescaled h ainv b : acts (rescaled h d ainv b) (scaled h ainv b).
Proof.
  intros v Hv. split; [apply rescaled_length; auto|]. intros i Hi. unfold rescaled. rewrite nth_vscale, nth_vsub, mul_vec_nth, nth_vscale; auto.
  2: { unfold mul_vec. rewrite map_length, seq_length, vscale_length. auto. }
  rewrite <- (unit_sum (fun j => nth j v (r0 R)) Hi), <- sum_mul_l, <- sum_sub, <- sum_mul_l. apply sum_ext. intros j _. unfold scaled. ring.
Qed.
Lemma cheb_matrix_SS (x : matrix) n i j : cheb_matrix d x (S (S n)) i j = rsub R (rmul R two (mmul d x (cheb_matrix d x (S n)) i j)) (cheb_matrix d x n i j).
Proof. reflexivity. Qed.
Lemma acts_cheb F x n : acts F x -> acts (cheb F n) (cheb_matrix d x n).
Proof.
  intros A. assert (P : acts (cheb F n) (cheb_matrix d x n) /\ acts (cheb F (S n)) (cheb_matrix d x (S n))); [|apply P].
  induction n as [|n [I1 I2]]; [split; [apply acts_id|exact A]|]. split; auto. intros v Hv. rewrite cheb_SS.
  destruct (I1 v Hv) as [L1 N1]. destruct (@acts_comp F (cheb F (S n)) _ _ A I2 v Hv) as [L2 N2].
  split; [rewrite vsub_length, vscale_length; lia|]. intros i Hi. rewrite nth_vsub by (rewrite vscale_length; congruence). rewrite nth_vscale, N1, N2 by auto.
  rewrite <- sum_mul_l, <- sum_sub. apply sum_ext. intros j _. rewrite cheb_matrix_SS. ring.
Qed.
(** ** Hermitian *)
Definition herm (x : matrix) : Prop := forall i j, i < d -> j < d -> rconj R (x j i) = x i j.
Lemma mmul_assoc (x y z : matrix) i j : mmul d x (mmul d y z) i j = mmul d (mmul d x y) z i j.
Proof.
  unfold mmul. transitivity (sum R d (fun k => sum R d (fun l => rmul R (rmul R (x i k) (y k l)) (z l j)))).
  - apply sum_ext. intros k _. rewrite <- sum_mul_l. apply sum_ext. intros; ring.
  - etransitivity; [apply sum_swap|]. apply sum_ext. intros k _. rewrite <- sum_mul_r. reflexivity.
Qed.
Lemma mmul_ext (x y x' y' : matrix) i j : (forall k, k < d -> x i k = x' i k) -> (forall k, k < d -> y k j = y' k j) -> mmul d x y i j = mmul d x' y' i j.
Proof. intros E1 E2. apply sum_ext. intros k Hk. rewrite E1, E2 by auto. reflexivity. Qed.
Lemma mmul_1l (x : matrix) i j : i < d -> mmul d unit_matrix x i j = x i j.
Proof. intros Hi. apply (unit_sum (fun k => x k j)); auto. Qed.
Lemma mmul_1r (x : matrix) i j : j < d -> mmul d x unit_matrix i j = x i j.
Proof.
  intros Hj. unfold mmul. rewrite <- (unit_sum (fun k => x i k) Hj). apply sum_ext. intros k _. unfold unit_matrix. rewrite (Nat.eqb_sym k j). ring.
Qed.
Lemma cheb_comm (x : matrix) n i j : i < d -> j < d -> mmul d x (cheb_matrix d x n) i j = mmul d (cheb_matrix d x n) x i j.
Proof.
  assert (P : (forall i j, i < d -> j < d -> mmul d x (cheb_matrix d x n) i j = mmul d (cheb_matrix d x n) x i j) /\
              (forall i j, i < d -> j < d -> mmul d x (cheb_matrix d x (S n)) i j = mmul d (cheb_matrix d x (S n)) x i j)); [|apply P].
  induction n as [|n [I1 I2]].
  - split; intros k l Hk Hl; [|reflexivity]. change (cheb_matrix d x 0) with (@unit_matrix R). rewrite mmul_1l, mmul_1r by auto. reflexivity.
  - split; auto. intros k l Hk Hl.
    transitivity (rsub R (rmul R two (mmul d x (mmul d x (cheb_matrix d x (S n))) k l)) (mmul d x (cheb_matrix d x n) k l)).
    + unfold mmul at 1 2 4. rewrite <- sum_mul_l, <- sum_sub. apply sum_ext. intros m _. rewrite cheb_matrix_SS. ring.
    + transitivity (rsub R (rmul R two (mmul d (mmul d x (cheb_matrix d x (S n))) x k l)) (mmul d (cheb_matrix d x n) x k l)).
      * rewrite <- mmul_assoc. f_equal; [|apply I1; auto]. f_equal. apply mmul_ext; auto.
      * unfold mmul at 1 3 4. rewrite <- sum_mul_l, <- sum_sub. apply sum_ext. intros m _. rewrite cheb_matrix_SS. ring.
Qed.
Lemma mmul_conj (x y : matrix) i j : herm x -> herm y -> i < d -> j < d -> rconj R (mmul d x y j i) = mmul d y x i j.
Proof. intros Hx Hy Hi Hj. unfold mmul. rewrite sum_conj. apply sum_ext. intros k Hk. rewrite rconj_mul, Hx, Hy by auto. ring. Qed.
Lemma unit_herm : herm unit_matrix.
Proof. intros i j _ _. unfold unit_matrix. rewrite Nat.eqb_sym. destruct (i =? j); [apply conj1|apply conj0]. Qed.
Lemma cheb_herm (x : matrix) n : herm x -> herm (cheb_matrix d x n).
Proof.
  intros Hx. assert (P : herm (cheb_matrix d x n) /\ herm (cheb_matrix d x (S n))); [|apply P].
  induction n as [|n [I1 I2]]; [split; [apply unit_herm|exact Hx]|]. split; auto. intros i j Hi Hj. rewrite !cheb_matrix_SS, conj_sub, rconj_mul, I1 by auto.
  rewrite (@mmul_conj x (cheb_matrix d x (S n))), <- cheb_comm by auto. f_equal. f_equal. unfold two. rewrite rconj_add, conj1. reflexivity.
Qed.
Lemma scaled_herm h ainv b : herm h -> rconj R ainv = ainv -> rconj R b = b -> herm (scaled h ainv b).
Proof. intros Hh Ha Hb i j Hi Hj. unfold scaled. rewrite rconj_mul, conj_sub, rconj_mul, Ha, Hb, Hh, unit_herm by auto. reflexivity. Qed.
(** ** Local vectors *)
Definition evec (r : nat) : vec := map (fun i => if i =? r then r1 R else r0 R) (seq 0 d).
Lemma evec_length r : length (evec r) = d. Proof. unfold evec. rewrite map_length, seq_length. auto. Qed.
Lemma evec_nth r i : i < d -> nth i (evec r) (r0 R) = unit_matrix i r.
Proof. intros Hi. unfold evec. apply nth_error_nth. rewrite (map_nth_error _ i (seq 0 d) (d := i)); auto. rewrite (nth_error_nth' _ 0) by (rewrite seq_length; auto). rewrite seq_nth; auto. Qed.
Lemma acts_evec F x r i : acts F x -> r < d -> i < d -> nth i (F (evec r)) (r0 R) = x i r.
Proof.
  intros A Hr Hi. destruct (A _ (evec_length r)) as [_ N]. rewrite N by auto. rewrite <- (@mmul_1r x i r Hr). apply sum_ext. intros j Hj. rewrite evec_nth by auto. reflexivity.
Qed.
Lemma vdot_evec F G x y r : acts F x -> acts G y -> r < d -> vdot (F (evec r)) (G (evec r)) = sum R d (fun i => rmul R (rconj R (x i r)) (y i r)).
Proof.
  intros AF AG Hr. destruct (AF _ (evec_length r)) as [LF _]. destruct (AG _ (evec_length r)) as [LG _].
  rewrite vdot_sum by congruence. rewrite LG. apply sum_ext. intros i Hi. rewrite (acts_evec AF), (acts_evec AG) by auto. reflexivity.
Qed.
Lemma vdot_evec_diag G y r : acts G y -> r < d -> vdot (evec r) (G (evec r)) = y r r.
Proof.
  intros AG Hr. rewrite (@vdot_evec (fun v => v) G unit_matrix y r acts_id AG Hr). rewrite <- (@mmul_1l y r r Hr). apply sum_ext. intros i Hi. rewrite (unit_herm Hr Hi). reflexivity.
Qed.
Lemma local_nth orbs r o : nth_error orbs r = Some o -> local_vector d orbs r = Some (evec o).
Proof. intros E. unfold local_vector. rewrite E. reflexivity. Qed.
Lemma seq_local r : local_vector d (seq 0 d) r = if r <? d then Some (evec r) else None.
Proof.
  destruct (Nat.ltb_spec r d) as [Hr|Hr].
  - apply local_nth. rewrite (nth_error_nth' _ 0) by (rewrite seq_length; auto). rewrite seq_nth; auto.
  - unfold local_vector. rewrite (proj2 (nth_error_None _ _)); auto. rewrite seq_length. auto.
Qed.
End Trace.
