(** * Square matrices over a field: a left inverse is a right inverse. *)
From Coq Require Import List Bool Arith ZArith Ring Lia.
From Verif Require Import StarRing SubmatrixModel SolverModel SolverSpec.
Import ListNotations.
Set Implicit Arguments.

Section Field.
Variable R : StarRing.
Add Ring RringFd : (r_theory R).
Notation "x +! y" := (radd R x y) (at level 50, left associativity).
Notation "x -! y" := (rsub R x y) (at level 50, left associativity).
Notation "x *! y" := (rmul R x y) (at level 40, left associativity).
Notation O0 := (r0 R).
Variable inv : R -> R.
Hypothesis Hinv : forall x, x = O0 \/ x *! inv x = r1 R.

Definition skip (j k : nat) : nat := if k <? j then k else S k.
Definition unskip (j k : nat) : nat := if k <? j then k else k - 1.
Lemma unskip_skip j k : unskip j (skip j k) = k.
Proof. unfold skip, unskip. destruct (k <? j) eqn:E; [rewrite E; auto|]. apply Nat.ltb_ge in E. rewrite (proj2 (Nat.ltb_ge (S k) j)) by lia. lia. Qed.
Lemma skip_neq j k : skip j k <> j.
Proof. unfold skip. destruct (k <? j) eqn:E; [apply Nat.ltb_lt in E|apply Nat.ltb_ge in E]; lia. Qed.
Lemma skip_lt j k m : k < m -> skip j k < S m.
Proof. unfold skip. destruct (k <? j); lia. Qed.
Lemma sum_skip m j (f : nat -> R) : j <= m -> sum R (S m) f = f j +! sum R m (fun k => f (skip j k)).
Proof.
  intros H. replace (S m) with (j + S (m - j)) by lia. rewrite sum_split. replace (S (m - j)) with (1 + (m - j)) by lia. rewrite sum_split.
  replace (sum R m (fun k => f (skip j k))) with (sum R (j + (m - j)) (fun k => f (skip j k))) by (f_equal; lia). rewrite sum_split.
  rewrite (@sum_ext R j (fun k => f (skip j k)) f).
  2: { intros i Hi. unfold skip. rewrite (proj2 (Nat.ltb_lt i j) Hi). reflexivity. }
  rewrite (@sum_ext R (m - j) (fun i => f (skip j (j + i))) (fun i => f (j + (1 + i)))).
  2: { intros i Hi. unfold skip. rewrite (proj2 (Nat.ltb_ge (j + i) j)) by lia. f_equal. lia. }
  assert (E1 : sum R 1 (fun i => f (j + i)) = f j) by (unfold sum; cbn [seq]; rewrite lsum_cons, lsum_nil, Nat.add_0_r; ring). rewrite E1. ring.
Qed.

Lemma find_row m (a : nat -> R) : (exists j, j < m /\ a j *! inv (a j) = r1 R) \/ (forall j, j < m -> a j = O0).
Proof.
  induction m as [|m [(j & Hj & E)|IH]]; [right; intros; lia|left; exists j; auto|].
  destruct (Hinv (a m)) as [E|E]; [|left; exists m; auto]. right. intros j Hj. destruct (Nat.eq_dec j m) as [->|]; [auto|apply IH; lia].
Qed.
(** m equations in m + 1 unknowns have a nontrivial solution *)
Lemma kernel : forall m (A : nat -> nat -> R), exists c : nat -> R,
  (forall r, r < m -> sum R (S m) (fun k => A r k *! c k) = O0) /\ exists i d, i < S m /\ c i *! d = r1 R.
Proof.
  induction m as [|m IH]; intros A.
  - exists (fun _ => r1 R). split; [intros; lia|]. exists 0, (r1 R). split; [lia|ring].
  - destruct (find_row (S (S m)) (A 0)) as [(j & Hj & E)|Z].
    + destruct (IH (fun r k => A (S r) (skip j k) -! A (S r) j *! inv (A 0 j) *! A 0 (skip j k))) as (c' & C1 & i & d & Hi & Hd).
      set (s := sum R (S m) (fun k => A 0 (skip j k) *! c' k)).
      exists (fun k => if k =? j then ropp R (inv (A 0 j) *! s) else c' (unskip j k)).
      assert (F : forall r, sum R (S (S m)) (fun k => A r k *! (if k =? j then ropp R (inv (A 0 j) *! s) else c' (unskip j k))) = sum R (S m) (fun k => A r (skip j k) *! c' k) -! A r j *! inv (A 0 j) *! s).
      { intros r. rewrite (@sum_skip (S m) j) by lia. rewrite Nat.eqb_refl.
        rewrite (@sum_ext R (S m) (fun k => A r (skip j k) *! (if skip j k =? j then ropp R (inv (A 0 j) *! s) else c' (unskip j (skip j k)))) (fun k => A r (skip j k) *! c' k)); [ring|].
        intros k _. rewrite unskip_skip. destruct (Nat.eqb_spec (skip j k) j) as [e|]; [exfalso; eapply skip_neq; eauto|reflexivity]. }
      split.
      * intros [|r] Hr; rewrite F.
        -- fold s. rewrite E. ring.
        -- specialize (C1 r ltac:(lia)). rewrite <- C1. rewrite (@sum_ext R (S m) (fun k => (A (S r) (skip j k) -! A (S r) j *! inv (A 0 j) *! A 0 (skip j k)) *! c' k) (fun k => A (S r) (skip j k) *! c' k -! A (S r) j *! inv (A 0 j) *! (A 0 (skip j k) *! c' k))) by (intros; ring).
           rewrite sum_sub, sum_mul_l. reflexivity.
      * exists (skip j i), d. split; [apply skip_lt; auto|]. destruct (Nat.eqb_spec (skip j i) j) as [e|]; [exfalso; eapply skip_neq; eauto|]. rewrite unskip_skip. auto.
    + destruct (IH (fun r k => A (S r) k)) as (c' & C1 & i & d & Hi & Hd).
      exists (fun k => if k <? S m then c' k else O0). split.
      * assert (F : forall r, sum R (S (S m)) (fun k => A r k *! (if k <? S m then c' k else O0)) = sum R (S m) (fun k => A r k *! c' k)).
        { intros r. rewrite sum_S. rewrite Nat.ltb_irrefl. rewrite (@sum_ext R (S m) (fun k => A r k *! (if k <? S m then c' k else O0)) (fun k => A r k *! c' k)); [ring|].
          intros k Hk. rewrite (proj2 (Nat.ltb_lt k (S m)) Hk). reflexivity. }
        intros [|r] Hr; rewrite F; [|apply C1; lia]. apply sum_zero. intros k Hk. rewrite Z by lia. ring.
      * exists i, d. split; [lia|]. rewrite (proj2 (Nat.ltb_lt i (S m)) Hi). auto.
Qed.
Theorem left_right n (A B : nat -> nat -> R) :
  (forall i j, i < n -> j < n -> mul n A B i j = delta R i j) -> forall i j, i < n -> j < n -> mul n B A i j = delta R i j.
Proof.
  intros H i j Hi Hj.
  (* B is injective, hence surjective *)
  assert (Sur : forall y : nat -> R, exists z : nat -> R, forall r, r < n -> sum R n (fun k => B r k *! z k) = y r).
  { intros y. destruct (kernel n (fun r k => if k <? n then B r k else y r)) as (c & C & i0 & d & Hi0 & Hd).
    assert (C' : forall r, r < n -> sum R n (fun k => B r k *! c k) +! y r *! c n = O0).
    { intros r Hr. rewrite <- (C r Hr), sum_S, Nat.ltb_irrefl. f_equal. apply sum_ext. intros k Hk. rewrite (proj2 (Nat.ltb_lt k n) Hk). reflexivity. }
    destruct (Hinv (c n)) as [E|E].
    - assert (Z : forall k, k < n -> c k = O0).
      { intros k Hk. transitivity (sum R n (fun u => delta R k u *! c u)).
        - symmetry. transitivity (sum R n (fun u => if u =? k then c u else O0)); [apply sum_ext; intros u _; unfold delta; rewrite Nat.eqb_sym; destruct (u =? k); ring|]. apply sum_delta. auto.
        - transitivity (sum R n (fun u => sum R n (fun w => A k w *! (B w u *! c u)))).
          { apply sum_ext. intros u Hu. rewrite <- (H k u Hk Hu). unfold mul. rewrite <- sum_mul_r. apply sum_ext. intros; ring. }
          rewrite sum_swap. apply sum_zero. intros w Hw. rewrite sum_mul_l. specialize (C' w Hw). rewrite E in C'.
          replace (sum R n (fun u => B w u *! c u)) with (sum R n (fun k0 => B w k0 *! c k0) +! y w *! O0) by ring. rewrite C'. ring. }
      assert (Ei : c i0 = O0) by (destruct (Nat.eq_dec i0 n) as [->|]; [auto|apply Z; lia]).
      assert (One : r1 R = O0) by (rewrite <- Hd, Ei; ring).
      exists (fun _ => O0). intros r Hr. transitivity (r1 R *! y r); [|ring]. rewrite One. transitivity (r1 R *! sum R n (fun k => B r k *! O0)); [ring|]. rewrite One. ring.
    - exists (fun k => ropp R (inv (c n)) *! c k). intros r Hr.
      rewrite (@sum_ext R n (fun k => B r k *! (ropp R (inv (c n)) *! c k)) (fun k => ropp R (inv (c n)) *! (B r k *! c k))) by (intros; ring). rewrite sum_mul_l.
      transitivity (y r *! (c n *! inv (c n)) -! inv (c n) *! (sum R n (fun k => B r k *! c k) +! y r *! c n)); [ring|]. rewrite (C' r Hr), E. ring. }
  destruct (Sur (fun r => delta R r j)) as (z & Hz).
  (* z = A e_j *)
  assert (Ez : forall k, k < n -> z k = A k j).
  { intros k Hk. transitivity (sum R n (fun u => delta R k u *! z u)).
    - symmetry. transitivity (sum R n (fun u => if u =? k then z u else O0)); [apply sum_ext; intros u _; unfold delta; rewrite Nat.eqb_sym; destruct (u =? k); ring|]. apply sum_delta. auto.
    - transitivity (sum R n (fun u => sum R n (fun w => A k w *! (B w u *! z u)))).
      { apply sum_ext. intros u Hu. rewrite <- (H k u Hk Hu). unfold mul. rewrite <- sum_mul_r. apply sum_ext. intros; ring. }
      rewrite sum_swap. transitivity (sum R n (fun w => if w =? j then A k w else O0)).
      + apply sum_ext. intros w Hw. rewrite sum_mul_l, (Hz w Hw). unfold delta. destruct (w =? j); ring.
      + apply (@sum_delta R n j (fun w => A k w)). auto. }
  unfold mul. rewrite (@sum_ext R n (fun k => B i k *! A k j) (fun k => B i k *! z k)) by (intros k Hk; rewrite Ez by auto; reflexivity). apply Hz. auto.
Qed.
End Field.
