(** * Projectors and conservation laws. *)
From Coq Require Import List Bool Arith ZArith Ring Lia Setoid Morphisms Sorting.Sorted.
From Verif Require Import StarRing KpmCorrSpec KpmTrace RmtSpec RmtAlg SolverModel SolverSpec SolverField DiscModel DiscSpec DiscProofs DiscProps.
Import ListNotations.
Set Implicit Arguments.

Section P.
Variable R : StarRing.
Add Ring RringDb : (r_theory R).
Notation matrix := (nat -> nat -> R).
Local Open Scope star_scope.
Notation "0" := (r0 R) : star_scope.
Notation "1" := (r1 R) : star_scope.
Notation conj := (rconj R).
Notation sum := (sum R).
Notation lsum := (lsum R).
Variable n : nat.
Notation "x ** y" := (mmul n x y) (at level 40, left associativity).
Notation "x == y" := (@meq R n x y) (at level 70).
Notation I := (@unit_matrix R).
Notation "x ^+" := (mT (mC x)) (at level 30).
Notation full p := (mmul (fst p) (snd p) ((snd p)^+)).
Notation dflt := (0%nat, I).

Lemma mm_assoc k l (x y z : matrix) i j : mmul k x (mmul l y z) i j = mmul l (mmul k x y) z i j.
Proof.
  unfold mmul. transitivity (sum k (fun a => sum l (fun b => rmul R (rmul R (x i a) (y a b)) (z b j)))).
  - apply sum_ext. intros a _. rewrite <- sum_mul_l. apply sum_ext. intros; ring.
  - etransitivity; [apply sum_swap|]. apply sum_ext. intros a _. rewrite <- sum_mul_r. reflexivity.
Qed.
Lemma mm_unfold k (x y : matrix) i j : mmul k x y i j = sum k (fun a => x i a * y a j). Proof. reflexivity. Qed.
Lemma lsum_nth {A} (f : A -> R) l z : lsum f l = sum (length l) (fun i => f (nth i l z)).
Proof.
  induction l as [|x l IH] using rev_ind; [reflexivity|]. rewrite lsum_app, lsum_cons, lsum_nil, app_length, Nat.add_1_r, sum_S.
  rewrite app_nth2, Nat.sub_diag by lia. cbn [nth]. rewrite IH. rewrite (@sum_ext R (length l) (fun i => f (nth i (l ++ [x]) z)) (fun i => f (nth i l z))) by (intros; rewrite app_nth1 by auto; reflexivity). ring.
Qed.

(** the columns of all projectors *)
Definition columns (ps : list (nat * matrix)) : list (nat -> R) := flat_map (fun p => map (fun j i => snd p i j) (seq 0 (fst p))) ps.
Definition offset (ps : list (nat * matrix)) (a : nat) : nat := list_sum (map fst (firstn a ps)).
Lemma columns_length ps : length (columns ps) = list_sum (map fst ps).
Proof. induction ps as [|p ps IH]; [reflexivity|]. cbn [columns flat_map map]. unfold columns in IH. rewrite app_length, map_length, seq_length. cbn [list_sum fold_right]. fold (list_sum (map fst ps)). rewrite IH. reflexivity. Qed.
Lemma columns_nth ps a i z : a < length ps -> i < fst (nth a ps dflt) -> nth (offset ps a + i)%nat (columns ps) z = (fun x => snd (nth a ps dflt) x i) /\ (offset ps a + i < list_sum (map fst ps))%nat.
Proof.
  revert a. induction ps as [|p ps IH]; intros [|a] Ha Hi; cbn [length] in Ha; try lia.
  - cbn [nth] in *. unfold offset. cbn [firstn map list_sum fold_right columns flat_map Nat.add]. split; [|fold (list_sum (map fst ps)); lia].
    rewrite app_nth1 by (rewrite map_length, seq_length; auto). rewrite nth_indep with (d' := (fun j x => snd p x j) 0%nat) by (rewrite map_length, seq_length; auto). rewrite (map_nth (fun j x => snd p x j)), seq_nth by auto. reflexivity.
  - cbn [nth] in *. destruct (IH a ltac:(lia) Hi) as [E1 E2]. unfold offset in *. cbn [firstn map list_sum fold_right] in *. change (fold_right Nat.add 0%nat (map fst (firstn a ps))) with (list_sum (map fst (firstn a ps))) in *. change (fold_right Nat.add 0%nat (map fst ps)) with (list_sum (map fst ps)) in *. split; [|lia].
    cbn [columns flat_map]. rewrite app_nth2 by (rewrite map_length, seq_length; lia). rewrite map_length, seq_length. replace (fst p + list_sum (map fst (firstn a ps)) + i - fst p)%nat with (list_sum (map fst (firstn a ps)) + i)%nat by lia. exact E1.
Qed.
Lemma offset_mono ps a b : (a < b -> a < length ps -> offset ps a + fst (nth a ps dflt) <= offset ps b)%nat.
Proof.
  revert a b. induction ps as [|p ps IH]; intros [|a] [|b] Hab Ha; cbn [length] in Ha; try lia; unfold offset in *; cbn [firstn map list_sum fold_right nth]; try lia.
  specialize (IH a b ltac:(lia) ltac:(lia)). fold (list_sum (map fst (firstn a ps))) (list_sum (map fst (firstn b ps))). lia.
Qed.
Lemma offset_inj ps a b i j : a < length ps -> b < length ps -> i < fst (nth a ps dflt) -> j < fst (nth b ps dflt) -> (offset ps a + i =? offset ps b + j)%nat = ((a =? b) && (i =? j))%nat.
Proof.
  intros Ha Hb Hi Hj. destruct (Nat.lt_trichotomy a b) as [H|[->|H]].
  - pose proof (offset_mono ps H Ha). rewrite (proj2 (Nat.eqb_neq a b)) by lia. apply Nat.eqb_neq. lia.
  - rewrite Nat.eqb_refl. cbn [andb]. destruct (Nat.eqb_spec i j) as [->|]; [apply Nat.eqb_refl|apply Nat.eqb_neq; lia].
  - pose proof (offset_mono ps H Hb). rewrite (proj2 (Nat.eqb_neq a b)) by lia. apply Nat.eqb_neq. lia.
Qed.
Lemma stack_orthonormal ps : is_field R -> list_sum (map fst ps) = n -> (forall i j, i < n -> j < n -> lsum (fun p => full p i j) ps = I i j) -> orthonormal n ps.
Proof.
  intros (inv & Hinv) Hn Hs. split; auto. intros a b i j Ha Hb Hi Hj.
  set (S := fun x J => nth J (columns ps) (fun _ => 0) x).
  assert (SS : forall x y, x < n -> y < n -> mul n S (S^+) x y = delta R x y).
  { intros x y Hx Hy. transitivity (lsum (fun p => full p x y) ps); [|rewrite Hs by auto; unfold unit_matrix, delta; reflexivity].
    transitivity (sum (length (columns ps)) (fun J => nth J (columns ps) (fun _ => 0) x * conj (nth J (columns ps) (fun _ => 0) y))); [rewrite columns_length, Hn; reflexivity|].
    rewrite <- (@lsum_nth _ (fun c => c x * conj (c y)) (columns ps) (fun _ => 0)). unfold columns. rewrite lsum_flat_map. apply lsum_ext. intros p _. rewrite lsum_map. reflexivity. }
  pose proof (@left_right R inv Hinv n _ _ SS) as LR.
  destruct (columns_nth ps (fun _ => 0) Ha Hi) as [Ea La]. destruct (columns_nth ps (fun _ => 0) Hb Hj) as [Eb Lb]. rewrite Hn in La, Lb.
  specialize (LR _ _ La Lb). unfold delta in LR. rewrite offset_inj in LR by auto. rewrite <- LR. unfold mmul, mul. apply sum_ext. intros x Hx. unfold S, mT, mC. rewrite Ea, Eb. reflexivity.
Qed.

(** block diagonal iff commuting with the projectors *)
Lemma blocks_iff ps h : orthonormal n ps ->
  ((forall q, In q ps -> commute n (full q) h) <->
   forall a b i j, a < length ps -> b < length ps -> a <> b -> i < fst (nth a ps dflt) -> j < fst (nth b ps dflt) -> mmul n (mmul n ((snd (nth a ps dflt))^+) h) (snd (nth b ps dflt)) i j = 0).
Proof.
  intros [Ho Hs]. split.
  - intros Hc a b i j Ha Hb Hab Hi Hj. set (p := nth a ps dflt) in *. set (q := nth b ps dflt) in *. specialize (Hc p (nth_In _ _ Ha)).
    (* p^+ h q = p^+ (p p^+) h q = p^+ h p p^+ q = 0 *)
    transitivity (mmul n (mmul n (mmul n ((snd p)^+) (full p)) h) (snd q) i j).
    + apply mmul_ext; [|auto]. intros k Hk. apply mmul_ext; [|auto]. intros l Hl. rewrite mm_assoc. rewrite (@mm_unfold (fst p) (mmul n ((snd p)^+) (snd p))).
      rewrite (@sum_ext R (fst p) _ (fun x => if (x =? i)%nat then (snd p)^+ x l else 0)); [symmetry; apply (@sum_delta R (fst p) i (fun x => ((snd p)^+) x l)); auto|].
      intros x Hx. specialize (Ho a a i x Ha Ha Hi Hx). fold p in Ho. rewrite Ho. rewrite Nat.eqb_refl, (Nat.eqb_sym i x). cbn [andb]. destruct (x =? i)%nat; ring.
    + transitivity (mmul n (mmul n ((snd p)^+) h) (mmul n (full p) (snd q)) i j).
      * rewrite mm_assoc. apply mmul_ext; [|auto]. intros k Hk. rewrite <- !mm_assoc. apply mmul_ext; auto.
      * rewrite (@mm_unfold n (mmul n ((snd p)^+) h)). apply sum_zero. intros k Hk. rewrite <- mm_assoc. rewrite (@mm_unfold (fst p) (snd p)). rewrite sum_zero; [ring|]. intros x Hx. specialize (Ho a b x j Ha Hb Hx Hj). fold p q in Ho. rewrite Ho. rewrite (proj2 (Nat.eqb_neq a b)) by auto. cbn [andb]. ring.
  - intros Hz q Hq. destruct (In_nth _ _ dflt Hq) as (a & Ha & <-). set (p := nth a ps dflt).
    assert (Z : forall b x y, b < length ps -> a <> b -> mmul n (mmul n (full p) h) (full (nth b ps dflt)) x y = 0 /\ mmul n (mmul n (full (nth b ps dflt)) h) (full p) x y = 0).
    { assert (G : forall b c x y, b < length ps -> c < length ps -> b <> c -> mmul n (mmul n (full (nth b ps dflt)) h) (full (nth c ps dflt)) x y = 0).
      { intros b c x y Hb Hc Hbc. set (u := nth b ps dflt) in *. set (v := nth c ps dflt) in *.
        rewrite mm_assoc. rewrite (@mm_unfold (fst v)). apply sum_zero. intros k Hk.
        assert (E : mmul n (mmul n (full u) h) (snd v) x k = 0).
        { rewrite <- !mm_assoc. rewrite (@mm_unfold (fst u)). apply sum_zero. intros l Hl. rewrite mm_assoc. specialize (Hz b c l k Hb Hc Hbc Hl Hk). fold u v in Hz. rewrite Hz. ring. }
        rewrite E. ring. }
      intros b x y Hb Hab. split; [exact (G a b x y Ha Hb Hab)|exact (G b a x y Hb Ha (not_eq_sym Hab))]. }
    assert (E1 : full p ** h == full p ** h ** full p).
    { intros x y Hx Hy. transitivity (mmul n (mmul n (full p) h) (fun i j => lsum (fun q => full q i j) ps) x y).
      - rewrite <- (@m_1r R n (mmul n (full p) h) x y) by auto. apply mmul_ext; intros k Hk; [reflexivity|symmetry; apply Hs; auto].
      - transitivity (lsum (fun q => mmul n (mmul n (full p) h) (full q) x y) ps).
        + rewrite (@mm_unfold n (mmul n (full p) h)). rewrite (@sum_ext R n _ (fun k => lsum (fun q => mmul n (full p) h x k * full q k y) ps)) by (intros; rewrite lsum_mul_l; reflexivity). apply sum_lswap.
        + rewrite (@lsum_nth _ (fun q => mmul n (mmul n (full p) h) (full q) x y) ps dflt).
          rewrite (@sum_ext R (length ps) _ (fun b => if (b =? a)%nat then mmul n (mmul n (full p) h) (full (nth b ps dflt)) x y else 0)); [apply (@sum_delta R (length ps) a (fun b => mmul n (mmul n (full p) h) (full (nth b ps dflt)) x y)); auto|].
          intros b Hb. destruct (Nat.eqb_spec b a) as [->|Hne]; auto. exact (proj1 (Z b x y Hb (not_eq_sym Hne))). }
    assert (E2 : h ** full p == full p ** h ** full p).
    { intros x y Hx Hy. transitivity (mmul n (fun i j => lsum (fun q => full q i j) ps) (mmul n h (full p)) x y).
      - rewrite <- (@m_1l R n (mmul n h (full p)) x y) by auto. apply mmul_ext; intros k Hk; [symmetry; apply Hs; auto|reflexivity].
      - transitivity (lsum (fun q => mmul n (mmul n (full q) h) (full p) x y) ps).
        + transitivity (lsum (fun q => mmul n (full q) (mmul n h (full p)) x y) ps); [|apply lsum_ext; intros; apply mm_assoc].
          rewrite (@mm_unfold n (fun i j => lsum (fun q => full q i j) ps)). rewrite (@sum_ext R n _ (fun k => lsum (fun q => full q x k * mmul n h (full p) k y) ps)) by (intros; rewrite lsum_mul_r; reflexivity). apply sum_lswap.
        + rewrite (@lsum_nth _ (fun q => mmul n (mmul n (full q) h) (full p) x y) ps dflt).
          rewrite (@sum_ext R (length ps) _ (fun b => if (b =? a)%nat then mmul n (mmul n (full (nth b ps dflt)) h) (full p) x y else 0)); [apply (@sum_delta R (length ps) a (fun b => mmul n (mmul n (full (nth b ps dflt)) h) (full p) x y)); auto|].
          intros b Hb. destruct (Nat.eqb_spec b a) as [->|Hne]; auto. exact (proj2 (Z b x y Hb (not_eq_sym Hne))). }
    unfold commute. rewrite E1, E2. reflexivity.
Qed.
End P.
