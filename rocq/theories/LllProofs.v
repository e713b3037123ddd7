From Coq Require Import List Bool Arith ZArith Reals Lia Lra Psatz.
From Verif Require Import KpmReal KpmRealProofs CvpModel CvpSpec CvpProofs LllModel LllSpec.
Import ListNotations.
Open Scope R_scope.

(** ** sums of integers *)
Lemma Zsum_ext n f g : (forall i, (i < n)%nat -> f i = g i) -> Zsum n f = Zsum n g.
Proof. induction n as [|n IH]; intros E; cbn; [auto|]. rewrite IH, E; auto. Qed.
Lemma Zsum_0 n : Zsum n (fun _ => 0%Z) = 0%Z. Proof. induction n as [|n IH]; cbn; [|rewrite IH]; lia. Qed.
Lemma Zsum_plus n f g : Zsum n (fun i => f i + g i)%Z = (Zsum n f + Zsum n g)%Z. Proof. induction n as [|n IH]; cbn; [|rewrite IH]; lia. Qed.
Lemma Zsum_mult_l n c f : Zsum n (fun i => c * f i)%Z = (c * Zsum n f)%Z. Proof. induction n as [|n IH]; cbn; [|rewrite IH]; lia. Qed.
Lemma Zsum_mult_r n c f : Zsum n (fun i => f i * c)%Z = (Zsum n f * c)%Z. Proof. induction n as [|n IH]; cbn; [|rewrite IH]; lia. Qed.
Lemma Zsum_swap n m f : Zsum n (fun i => Zsum m (fun j => f i j)) = Zsum m (fun j => Zsum n (fun i => f i j)).
Proof. induction n as [|n IH]; cbn; [rewrite Zsum_0; auto|]. rewrite IH, <- Zsum_plus. reflexivity. Qed.
Lemma Zsum_delta n k f : (k < n)%nat -> Zsum n (fun i => if (i =? k)%nat then f i else 0%Z) = f k.
Proof.
  induction n as [|n IH]; intros Hk; [lia|]. cbn. destruct (Nat.eqb_spec n k) as [->|Hne].
  - rewrite (Zsum_ext k _ (fun _ => 0%Z)); [rewrite Zsum_0; lia|]. intros i Hi. destruct (Nat.eqb_spec i k); auto; lia.
  - rewrite IH by lia. lia.
Qed.
Lemma IZR_Zsum n f : IZR (Zsum n f) = Rsum n (fun i => IZR (f i)).
Proof. induction n as [|n IH]; cbn; auto. rewrite plus_IZR, IH. auto. Qed.

Notation ident := (fun i j : nat => if (i =? j)%nat then 1%Z else 0%Z).
Definition zmul (m : nat) (T W : nat -> nat -> Z) (i j : nat) : Z := Zsum m (fun l => T i l * W l j)%Z.
Lemma zmul_ext m T T' W W' i j : (i < m)%nat -> (j < m)%nat -> (forall i j, (i < m)%nat -> (j < m)%nat -> T i j = T' i j) -> (forall i j, (i < m)%nat -> (j < m)%nat -> W i j = W' i j) -> zmul m T W i j = zmul m T' W' i j.
Proof. intros Hi Hj H1 H2. apply Zsum_ext. intros. rewrite H1, H2; auto. Qed.
Lemma zmul_assoc m T W V i j : zmul m (zmul m T W) V i j = zmul m T (zmul m W V) i j.
Proof.
  unfold zmul. transitivity (Zsum m (fun l => Zsum m (fun p => T i p * W p l * V l j)%Z)).
  - apply Zsum_ext. intros. rewrite <- Zsum_mult_r. auto.
  - rewrite Zsum_swap. apply Zsum_ext. intros. rewrite <- Zsum_mult_l. apply Zsum_ext. intros; ring.
Qed.
Lemma zmul_id_l m T i j : (i < m)%nat -> zmul m ident T i j = T i j.
Proof.
  intros Hi. unfold zmul. rewrite (Zsum_ext m _ (fun l => if (l =? i)%nat then T l j else 0%Z)); [apply (Zsum_delta m i (fun l => T l j)); auto|].
  intros l _. rewrite Nat.eqb_sym. destruct (l =? i)%nat; ring.
Qed.
Lemma zmul_inv m T T' W W' : inverse_of m T T' -> inverse_of m W W' -> inverse_of m (zmul m T W) (zmul m W' T').
Proof.
  intros H1 H2 i j Hi Hj. change (zmul m (zmul m T W) (zmul m W' T') i j = ident i j). rewrite zmul_assoc.
  rewrite (zmul_ext m T T _ T'); auto; [apply H1; auto|]. intros a b Ha Hb. rewrite <- zmul_assoc.
  rewrite (zmul_ext m _ ident T' T'); auto. apply zmul_id_l; auto.
Qed.

(** ** arrays *)
Section Arr.
Notation mat := (nat -> nat -> R).
Lemma tab_ok n (f : nat -> R) i : (i < n)%nat -> tab realA n f i = f i.
Proof.
  intros Hi. unfold tab. cbn [f0 realA]. rewrite nth_indep with (d' := f 0%nat) by (rewrite map_length, seq_length; auto). rewrite map_nth, seq_nth; auto.
Qed.
Lemma set_row_eq n (M : mat) i f k : (k < n)%nat -> set_row realA n M i f i k = f k.
Proof. intros Hk. unfold set_row. rewrite Nat.eqb_refl. apply tab_ok; auto. Qed.
Lemma set_row_ne n (M : mat) i f a : a <> i -> set_row realA n M i f a = M a.
Proof. intros H. unfold set_row. destruct (Nat.eqb_spec a i); [contradiction|auto]. Qed.
Lemma set_entry_get n (M : mat) i j x a k : (k < n)%nat -> set_entry realA n M i j x a k = if (a =? i)%nat && (k =? j)%nat then x else M a k.
Proof.
  intros Hk. unfold set_entry. destruct (Nat.eqb_spec a i) as [->|N]; cbn [andb]; [rewrite set_row_eq by auto|rewrite set_row_ne by auto]; auto.
Qed.
Lemma swap_get (M : mat) i a : swap_rows realA M i (S i) a = if (a =? i)%nat then M (S i) else if (a =? S i)%nat then M i else M a.
Proof. reflexivity. Qed.
Lemma fsum_Rsum n f : fsum realA n f = Rsum n f. Proof. induction n as [|n IH]; cbn; [auto|]. cbn in IH. rewrite IH. auto. Qed.
Lemma fdot_dot d a b : fdot realA d a b = dot d a b. Proof. apply fsum_Rsum. Qed.
Lemma fltb_iff x y : fltb realA x y = true <-> x < y. Proof. cbn. destruct (Rlt_dec x y); split; auto; discriminate. Qed.
Lemma fabs_Rabs x : fabs realA x = Rabs x.
Proof. unfold fabs, Rabs. cbn. destruct (Rlt_dec x 0), (Rcase_abs x); lra. Qed.
End Arr.

(** ** the lattice *)
Section Lattice.
Variables m d : nat.
Notation mat := (nat -> nat -> R).
Definition unim (v w : mat) : Prop := exists T T', inverse_of m T T' /\ inverse_of m T' T
  /\ (forall i k, (i < m)%nat -> (k < d)%nat -> v i k = Rsum m (fun j => IZR (T i j) * w j k)).
Lemma unim_ext v v' w : (forall i k, (i < m)%nat -> (k < d)%nat -> v i k = v' i k) -> unim v w -> unim v' w.
Proof. intros E (T & T' & H1 & H2 & H3). exists T, T'. split; auto. split; auto. intros. rewrite <- E; auto. Qed.
Lemma unim_refl v : unim v v.
Proof.
  exists ident, ident. assert (H : inverse_of m ident ident) by (intros i j Hi Hj; apply (zmul_id_l m ident); auto). split; auto. split; auto.
  intros i k Hi Hk. symmetry. rewrite (@Rsum_ext m _ (fun j => if (j =? i)%nat then v j k else 0)); [apply (@Rsum_delta m i (fun j => v j k)); auto|].
  intros j _. rewrite Nat.eqb_sym. destruct (j =? i)%nat; ring.
Qed.
Lemma unim_trans v w x : unim v w -> unim w x -> unim v x.
Proof.
  intros (T & T' & H1 & H2 & H3) (W & W' & K1 & K2 & K3). exists (zmul m T W), (zmul m W' T').
  split; [apply zmul_inv; auto|]. split; [apply zmul_inv; auto|].
  intros i k Hi Hk. rewrite H3 by auto. rewrite (@Rsum_ext m _ (fun j => Rsum m (fun l => IZR (T i j) * (IZR (W j l) * x l k)))).
  - rewrite Rsum_swap. apply Rsum_ext. intros l Hl. unfold zmul. rewrite IZR_Zsum, <- Rsum_mult_r. apply Rsum_ext. intros. rewrite mult_IZR. ring.
  - intros j Hj. rewrite K3 by auto. rewrite Rsum_mult_l. auto.
Qed.
(** v_i - z v_j *)
Definition elem (i j : nat) (z : Z) (a b : nat) : Z := (ident a b + (if (a =? i)%nat then if (b =? j)%nat then z else 0 else 0))%Z.
Lemma elem_mul i j z y : (i < m)%nat -> (j < m)%nat -> i <> j -> (z + y = 0)%Z -> inverse_of m (elem i j z) (elem i j y).
Proof.
  intros Hi Hj Hij E a b Ha Hb. unfold elem.
  rewrite (Zsum_ext m _ (fun l => (if (l =? a)%nat then elem i j y l b else 0) + (if (l =? j)%nat then (if (a =? i)%nat then z else 0) * elem i j y l b else 0))%Z).
  - rewrite Zsum_plus, (Zsum_delta m a (fun l => elem i j y l b)) by auto. rewrite (Zsum_delta m j (fun l => (if (a =? i)%nat then z else 0) * elem i j y l b)%Z) by auto.
    unfold elem. destruct (Nat.eqb_spec a i) as [->|]; [|lia]. destruct (Nat.eqb_spec j i); [lia|]. rewrite (Nat.eqb_sym j b). destruct (b =? j)%nat; lia.
  - intros l Hl. unfold elem. rewrite (Nat.eqb_sym a l). destruct (l =? a)%nat, (a =? i)%nat, (l =? j)%nat; ring.
Qed.
Lemma unim_rowop (v v' : mat) i j z : (i < m)%nat -> (j < m)%nat -> i <> j ->
  (forall k, (k < d)%nat -> v' i k = v i k - IZR z * v j k) -> (forall a, a <> i -> v' a = v a) -> unim v' v.
Proof.
  intros Hi Hj Hij E1 E2. exists (elem i j (- z)), (elem i j z). split; [apply elem_mul; auto; lia|]. split; [apply elem_mul; auto; lia|].
  intros a k Ha Hk.
  rewrite (@Rsum_ext m _ (fun l => (if (l =? a)%nat then v l k else 0) + (if (l =? j)%nat then (if (a =? i)%nat then - IZR z else 0) * v l k else 0))).
  - rewrite Rsum_plus, (@Rsum_delta m a (fun l => v l k)) by auto. rewrite (@Rsum_delta m j (fun l => (if (a =? i)%nat then - IZR z else 0) * v l k)) by auto.
    destruct (Nat.eqb_spec a i) as [->|N]; [rewrite E1 by auto; ring|rewrite E2 by auto; ring].
  - intros l Hl. unfold elem. rewrite plus_IZR, (Nat.eqb_sym a l). destruct (l =? a)%nat, (a =? i)%nat, (l =? j)%nat; rewrite ?opp_IZR; cbn [IZR IPR]; ring.
Qed.
Definition perm (i a : nat) : nat := if (a =? i)%nat then S i else if (a =? S i)%nat then i else a.
Lemma perm_perm i a : perm i (perm i a) = a.
Proof. unfold perm. destruct (Nat.eqb_spec a i); [rewrite Nat.eqb_refl|destruct (Nat.eqb_spec a (S i))]; repeat match goal with |- context [(?x =? ?y)%nat] => destruct (Nat.eqb_spec x y) end; lia. Qed.
Lemma perm_lt i a : (S i < m)%nat -> (a < m)%nat -> (perm i a < m)%nat.
Proof. unfold perm. intros. destruct (a =? i)%nat; auto. destruct (a =? S i)%nat; auto. lia. Qed.
Lemma unim_perm (v v' : mat) i : (S i < m)%nat -> (forall a, v' a = v (perm i a)) -> unim v' v.
Proof.
  intros Hi E. assert (H : inverse_of m (fun a b => ident (perm i a) b) (fun a b => ident (perm i a) b)).
  { intros a b Ha Hb. rewrite (Zsum_ext m _ (fun l => if (l =? perm i a)%nat then ident (perm i l) b else 0%Z)).
    - rewrite (Zsum_delta m (perm i a) (fun l => ident (perm i l) b)) by (apply perm_lt; auto). rewrite perm_perm. auto.
    - intros l _. rewrite (Nat.eqb_sym l). destruct (perm i a =? l)%nat; lia. }
  exists (fun a b => ident (perm i a) b), (fun a b => ident (perm i a) b). split; auto. split; auto.
  intros a k Ha Hk. rewrite E. symmetry. rewrite (@Rsum_ext m _ (fun j => if (j =? perm i a)%nat then v j k else 0)); [apply (@Rsum_delta m (perm i a) (fun j => v j k)), perm_lt; auto|].
  intros j _. rewrite Nat.eqb_sym. destruct (j =? perm i a)%nat; ring.
Qed.
Lemma unim_lattice v w : unim v w -> forall x, in_lattice m d v x -> in_lattice m d w x.
Proof.
  intros (T & T' & H1 & H2 & H3) x (z & Hz). exists (fun j => Zsum m (fun i => z i * T i j)%Z). intros k Hk. rewrite Hz by auto.
  rewrite (@Rsum_ext m _ (fun i => Rsum m (fun j => IZR (z i) * (IZR (T i j) * w j k)))).
  - rewrite Rsum_swap. apply Rsum_ext. intros j Hj. rewrite IZR_Zsum, <- Rsum_mult_r. apply Rsum_ext. intros. rewrite mult_IZR. ring.
  - intros i Hi. rewrite H3 by auto. rewrite Rsum_mult_l. auto.
Qed.
Lemma unim_sym v w : unim v w -> unim w v.
Proof.
  intros (T & T' & H1 & H2 & H3). exists T', T. split; auto. split; auto. intros i k Hi Hk.
  rewrite (@Rsum_ext m _ (fun j => Rsum m (fun l => IZR (T' i j) * (IZR (T j l) * w l k)))).
  - rewrite Rsum_swap. rewrite (@Rsum_ext m _ (fun l => if (l =? i)%nat then w l k else 0)); [rewrite (@Rsum_delta m i (fun l => w l k)); auto|].
    intros l Hl. transitivity (IZR (Zsum m (fun j => T' i j * T j l)%Z) * w l k).
    + rewrite IZR_Zsum, <- Rsum_mult_r. apply Rsum_ext. intros. rewrite mult_IZR. ring.
    + rewrite H2 by auto. rewrite Nat.eqb_sym. destruct (l =? i)%nat; ring.
  - intros j Hj. rewrite H3 by auto. rewrite Rsum_mult_l. auto.
Qed.

Variable gsc : (nat -> R) -> (nat -> R) -> R.
Variable round : R -> Z.
Notation ll_reduce := (ll_reduce realA m d round).
Notation vecs := (vecs realA).
Lemma reduce_unim i st : (i < m)%nat -> unim (vecs (ll_reduce i st)) (vecs st).
Proof.
  intros Hi. unfold ll_reduce. assert (H : forall j, In j (rev (seq 0 i)) -> (j < i)%nat) by (intros j Hj; apply in_rev, in_seq in Hj; lia).
  revert H st. generalize (rev (seq 0 i)). induction l as [|j l IH]; intros H st; cbn [fold_left]; [apply unim_refl|].
  eapply unim_trans; [apply IH; intros; apply H; cbn; auto|]. cbn [LllModel.vecs].
  assert (j < i)%nat by (apply H; cbn; auto).
  apply unim_rowop with (i := i) (j := j) (z := round (u realA st i j)); auto; try lia.
  - intros k Hk. rewrite set_row_eq by auto. reflexivity.
  - intros a Ha. rewrite set_row_ne by auto. auto.
Qed.
Lemma orth_vecs i st : vecs (orthogonalize realA m d gsc i st) = vecs st.
Proof. unfold orthogonalize. generalize (seq 0 i). intros l. revert st. induction l as [|j l IH]; intros st; cbn [fold_left]; auto. rewrite IH. auto. Qed.
Lemma init_unim basis : unim (vecs (initialize realA m d gsc round basis)) basis.
Proof.
  unfold initialize. assert (H : forall j, In j (seq 0 m) -> (j < m)%nat) by (intros j Hj; apply in_seq in Hj; lia).
  set (st0 := mkState realA basis basis _). assert (E0 : vecs st0 = basis) by reflexivity. rewrite <- E0. clearbody st0. clear E0.
  revert H st0. generalize (seq 0 m). induction l as [|j l IH]; intros H st; cbn [fold_left]; [apply unim_refl|].
  eapply unim_trans; [apply IH; intros; apply H; cbn; auto|]. rewrite <- (orth_vecs j st). apply reduce_unim. apply H; cbn; auto.
Qed.
Lemma exchange_unim i st : (S i < m)%nat -> unim (vecs (exchange realA m d gsc round i st)) (vecs st).
Proof.
  intros Hi. unfold exchange. cbv zeta. set (st1 := mkState realA _ _ _).
  assert (U : unim (vecs st1) (vecs st)).
  { apply unim_perm with (i := i); auto. intros a. unfold st1. cbn [LllModel.vecs]. rewrite swap_get. unfold perm. destruct (a =? i)%nat; auto. destruct (a =? S i)%nat; auto. }
  destruct (fltb _ _ _); auto. eapply unim_trans; [apply reduce_unim; auto|auto].
Qed.
Lemma loop_unim c : forall fuel i st st', loop realA m d gsc round fuel c i st = Some st' -> unim (vecs st') (vecs st).
Proof.
  induction fuel as [|fuel IH]; intros i st st'; cbn [loop]; [discriminate|].
  destruct (i <? m - 1)%nat eqn:E; [|intros H; assert (st = st') by congruence; subst; apply unim_refl]. apply Nat.ltb_lt in E.
  destruct (in_order _ _ _ _ _); intros H; apply IH in H; auto. eapply unim_trans; [exact H|]. apply exchange_unim. lia.
Qed.
End Lattice.
