(** * Conservation of current in scattering states. *)
From Coq Require Import List Bool Arith ZArith Ring Lia.
From Verif Require Import StarRing SubmatrixModel SolverModel SolverSpec SolverProofs SolverLinear SolverLinear2.
Import ListNotations.
Set Implicit Arguments.

Section Flux.
Variable R : StarRing.
Add Ring RringFx : (r_theory R).
Notation mat := (mat R).
Notation conj := (rconj R).
Notation "x +! y" := (radd R x y) (at level 50, left associativity).
Notation "x -! y" := (rsub R x y) (at level 50, left associativity).
Notation "x *! y" := (rmul R x y) (at level 40, left associativity).
Notation O0 := (r0 R).
Lemma conj_sub x y : conj (x -! y) = conj x -! conj y.
Proof.
  assert (E : forall z, conj (ropp R z) = ropp R (conj z)).
  { intros z. assert (F : conj z +! conj (ropp R z) = O0) by (rewrite <- rconj_add; replace (z +! ropp R z) with O0 by ring; apply conj0).
    transitivity (conj z +! conj (ropp R z) -! conj z); [ring|rewrite F; ring]. }
  replace (x -! y) with (x +! ropp R y) by ring. rewrite rconj_add, E. ring.
Qed.

(** amplitudes of all modes of a lead *)
Definition allamp (np : nat) (inc amp : nat -> R) (j : nat) : R := if j <? np then inc j else amp (j - np).
Lemma sum_all np r (f inc amp : nat -> R) :
  sum R r (fun j => f (np + j) *! amp j) +! sum R np (fun j => f j *! inc j) = sum R (np + r) (fun j => f j *! allamp np inc amp j).
Proof.
  rewrite sum_split. rewrite (@sum_ext R np (fun j => f j *! allamp np inc amp j) (fun j => f j *! inc j)).
  2: { intros j Hj. unfold allamp. rewrite (proj2 (Nat.ltb_lt j np) Hj). reflexivity. }
  rewrite (@sum_ext R r (fun j => f (np + j) *! allamp np inc amp (np + j)) (fun j => f (np + j) *! amp j)); [ring|].
  intros j Hj. unfold allamp. rewrite (proj2 (Nat.ltb_ge (np + j) np)) by lia. replace (np + j - np) with j by lia. reflexivity.
Qed.

Section One.
Variable m : modes R.
Hypothesis GM : good_modes m.
Hypothesis UC : unit_currents m.
Notation np := (m_nprop m).
Notation r := (mr (m_u m)).
Variables (c1 c2 : nat -> R).
Notation N := (np + r).
Definition uc (c : nat -> R) (k : nat) : R := sum R N (fun j => mget (m_u m) k j *! c j).
Definition lc (c : nat -> R) (k : nat) : R := sum R N (fun j => mget (m_ulinv m) k j *! c j).
Lemma mode_current :
  ri R *! (sum R r (fun k => conj (lc c1 k) *! uc c2 k) -! sum R r (fun k => conj (uc c1 k) *! lc c2 k)) =
  sum R np (fun j => conj (c1 (np + j)) *! c2 (np + j)) -! sum R np (fun j => conj (c1 j) *! c2 j).
Proof.
  assert (E : forall f g : nat -> nat -> R, sum R r (fun k => conj (sum R N (fun j => f k j *! c1 j)) *! sum R N (fun j => g k j *! c2 j)) =
     sum R N (fun j => sum R N (fun j' => conj (c1 j) *! c2 j' *! sum R r (fun k => conj (f k j) *! g k j')))).
  { intros f g.
    transitivity (sum R r (fun k => sum R N (fun j => sum R N (fun j' => conj (c1 j) *! c2 j' *! (conj (f k j) *! g k j'))))).
    - apply sum_ext. intros k _. rewrite sum_conj, <- sum_mul_r. apply sum_ext. intros j _. rewrite <- sum_mul_l. apply sum_ext. intros j' _. rewrite rconj_mul. ring.
    - rewrite sum_swap. apply sum_ext. intros j _. rewrite sum_swap. apply sum_ext. intros j' _. apply sum_mul_l. }
  unfold lc, uc. rewrite (E (mget (m_ulinv m)) (mget (m_u m))), (E (mget (m_u m)) (mget (m_ulinv m))). rewrite <- sum_sub, <- sum_mul_l.
  transitivity (sum R N (fun j => sum R N (fun j' => if j' =? j then conj (c1 j) *! c2 j' *! (if j <? np then ropp R (r1 R) else if j <? np + np then r1 R else O0) else O0))).
  - apply sum_ext. intros j Hj. rewrite <- sum_sub, <- sum_mul_l. apply sum_ext. intros j' Hj'.
    destruct GM as (_ & _ & G3 & _). assert (U := UC). specialize (U j j'). rewrite G3 in U. specialize (U Hj Hj').
    transitivity (conj (c1 j) *! c2 j' *! current m j j').
    + unfold current. rewrite sum_sub. ring.
    + rewrite U, Nat.eqb_sym. destruct (j' =? j); [|ring]. reflexivity.
  - transitivity (sum R N (fun j => conj (c1 j) *! c2 j *! (if j <? np then ropp R (r1 R) else if j <? np + np then r1 R else O0))).
    { apply sum_ext. intros j Hj. apply (@sum_delta R N j (fun j' => conj (c1 j) *! c2 j' *! (if j <? np then ropp R (r1 R) else if j <? np + np then r1 R else O0))). auto. }
    destruct GM as (_ & _ & _ & _ & _ & G6). replace r with (np + (r - np)) by lia. rewrite !sum_split.
    rewrite (@sum_ext R np (fun j => conj (c1 j) *! c2 j *! (if j <? np then ropp R (r1 R) else if j <? np + np then r1 R else O0)) (fun j => ropp R (r1 R) *! (conj (c1 j) *! c2 j))).
    2: { intros j Hj. rewrite (proj2 (Nat.ltb_lt j np) Hj). ring. }
    rewrite (@sum_ext R np (fun i => conj (c1 (np + i)) *! c2 (np + i) *! (if np + i <? np then ropp R (r1 R) else if np + i <? np + np then r1 R else O0)) (fun i => conj (c1 (np + i)) *! c2 (np + i))).
    2: { intros j Hj. rewrite (proj2 (Nat.ltb_ge (np + j) np)) by lia. rewrite (proj2 (Nat.ltb_lt (np + j) (np + np))) by lia. ring. }
    rewrite (@sum_zero R (r - np)).
    2: { intros j Hj. rewrite (proj2 (Nat.ltb_ge _ np)) by lia. rewrite (proj2 (Nat.ltb_ge _ (np + np))) by lia. ring. }
    rewrite sum_mul_l. ring.
Qed.
End One.

Variable y : syst R.
Hypothesis GS : good_syst y.
Hypothesis HH : hermitian_ham y.
Variable en : R.
Hypothesis Hreal : conj en = en.
Hypothesis UC : forall l m, In l (y_leads y) -> l_modes l = Some m -> unit_currents m.
Notation n := (mr (y_ham y)).
Notation leads := (y_leads y).
Notation nl := (length leads).
Notation orbs := (lead_orbs (y_norb y)).
Variables (inc1 inc2 amp1 amp2 : nat -> nat -> R) (psi1 psi2 : nat -> R).
Hypothesis S1 : scattering y en inc1 psi1 amp1.
Hypothesis S2 : scattering y en inc2 psi2 amp2.

Definition kern (inc : nat -> nat -> R) (psi : nat -> R) (amp : nat -> nat -> R) (num : nat) (l : lead R) (p : nat) : R :=
  match l_modes l with
  | None => sum R (length (orbs l)) (fun q => mget (l_sigma l) p q *! psi (nth q (orbs l) 0))
  | Some m => sum R (mr (m_u m)) (fun j => vu m p (m_nprop m + j) *! amp num j) +! sum R (m_nprop m) (fun j => vu m p j *! inc num j)
  end.
Lemma pull (g : nat -> R) inc psi amp num l : In l leads ->
  sum R n (fun x => g x *! lead_force y inc psi amp num l x) = sum R (length (orbs l)) (fun p => g (nth p (orbs l) 0) *! kern inc psi amp num l p).
Proof.
  intros Hl. unfold lead_force.
  transitivity (sum R n (fun x => sum R (length (orbs l)) (fun p => if nth p (orbs l) 0 =? x then g x *! kern inc psi amp num l p else O0))).
  - apply sum_ext. intros x _. cbv zeta. rewrite <- sum_mul_l. apply sum_ext. intros p _. fold (kern inc psi amp num l p). destruct (nth p (orbs l) 0 =? x); [reflexivity|ring].
  - rewrite sum_swap. apply sum_ext. intros p Hp.
    apply (@sum_delta2 R n (nth p (orbs l) 0) (fun x => g x *! kern inc psi amp num l p)). apply (@orbs_lt R y GS l); auto. apply nth_In. auto.
Qed.
Definition bal (num : nat) (l : lead R) : R :=
  sum R (length (orbs l)) (fun p => conj (psi1 (nth p (orbs l) 0)) *! kern inc2 psi2 amp2 num l p) -!
  sum R (length (orbs l)) (fun p => conj (kern inc1 psi1 amp1 num l p) *! psi2 (nth p (orbs l) 0)).
Lemma bal_current num l : nth_error leads num = Some l -> ri R *! bal num l = lead_current y inc1 psi1 amp1 inc2 psi2 amp2 num l.
Proof.
  intros Hn. assert (Hl : In l leads) by (eapply nth_error_In; eauto). unfold bal, kern, lead_current. destruct (l_modes l) as [m|] eqn:Em.
  - assert (GM : good_modes m) by (apply (proj2 (proj2 (proj2 GS)) l m); auto).
    assert (G : forall inc psi amp, scattering y en inc psi amp -> forall k, k < mr (m_u m) ->
       sum R (length (orbs l)) (fun p => conj (mget (m_v m) p k) *! psi (nth p (orbs l) 0)) = lc m (allamp (m_nprop m) (inc num) (amp num)) k).
    { intros inc psi amp [_ Sc] k Hk. rewrite (Sc num l m Hn Em k Hk). apply sum_all. }
    assert (K : forall (inc amp : nat -> nat -> R) p, sum R (mr (m_u m)) (fun j => vu m p (m_nprop m + j) *! amp num j) +! sum R (m_nprop m) (fun j => vu m p j *! inc num j) =
       sum R (mr (m_u m)) (fun k => mget (m_v m) p k *! uc m (allamp (m_nprop m) (inc num) (amp num)) k)).
    { intros inc amp p. rewrite sum_all. unfold uc, vu. destruct GM as (_ & G2 & _). rewrite G2.
      transitivity (sum R (m_nprop m + mr (m_u m)) (fun j => sum R (mr (m_u m)) (fun k => mget (m_v m) p k *! (mget (m_u m) k j *! allamp (m_nprop m) (inc num) (amp num) j)))).
      - apply sum_ext. intros j _. rewrite <- sum_mul_r. apply sum_ext. intros; ring.
      - rewrite sum_swap. apply sum_ext. intros k _. apply sum_mul_l. }
    rewrite <- (@sum_ext R (m_nprop m) (fun j => conj (allamp (m_nprop m) (inc1 num) (amp1 num) (m_nprop m + j)) *! allamp (m_nprop m) (inc2 num) (amp2 num) (m_nprop m + j)) (fun j => conj (amp1 num j) *! amp2 num j)).
    2: { intros j _. unfold allamp. rewrite (proj2 (Nat.ltb_ge (m_nprop m + j) (m_nprop m))) by lia. replace (m_nprop m + j - m_nprop m) with j by lia. reflexivity. }
    rewrite <- (@sum_ext R (m_nprop m) (fun j => conj (allamp (m_nprop m) (inc1 num) (amp1 num) j) *! allamp (m_nprop m) (inc2 num) (amp2 num) j) (fun j => conj (inc1 num j) *! inc2 num j)).
    2: { intros j Hj. unfold allamp. rewrite (proj2 (Nat.ltb_lt j (m_nprop m)) Hj). reflexivity. }
    rewrite <- (@mode_current m GM (UC l Hl Em)). f_equal. f_equal.
    + transitivity (sum R (length (orbs l)) (fun p => sum R (mr (m_u m)) (fun k => conj (conj (mget (m_v m) p k) *! psi1 (nth p (orbs l) 0)) *! uc m (allamp (m_nprop m) (inc2 num) (amp2 num)) k))).
      * apply sum_ext. intros p _. rewrite (K inc2 amp2 p), <- sum_mul_l. apply sum_ext. intros k _. rewrite rconj_mul, rconj_conj. ring.
      * rewrite sum_swap. apply sum_ext. intros k Hk. rewrite sum_mul_r, <- sum_conj, (G inc1 psi1 amp1 S1 k Hk). reflexivity.
    + transitivity (sum R (length (orbs l)) (fun p => sum R (mr (m_u m)) (fun k => conj (uc m (allamp (m_nprop m) (inc1 num) (amp1 num)) k) *! (conj (mget (m_v m) p k) *! psi2 (nth p (orbs l) 0))))).
      * apply sum_ext. intros p _. rewrite (K inc1 amp1 p), sum_conj, <- sum_mul_r. apply sum_ext. intros k _. rewrite rconj_mul. ring.
      * rewrite sum_swap. apply sum_ext. intros k Hk. rewrite sum_mul_l, (G inc2 psi2 amp2 S2 k Hk). reflexivity.
  - set (L := length (orbs l)). set (o := fun p => nth p (orbs l) 0).
    transitivity (ri R *! (sum R L (fun p => sum R L (fun q => conj (psi1 (o p)) *! mget (l_sigma l) p q *! psi2 (o q))) -! sum R L (fun p => sum R L (fun q => conj (psi1 (o p)) *! conj (mget (l_sigma l) q p) *! psi2 (o q))))).
    + f_equal. f_equal.
      * apply sum_ext. intros p _. rewrite <- sum_mul_l. apply sum_ext. intros q _. unfold o. ring.
      * transitivity (sum R L (fun p => sum R L (fun q => conj (psi1 (o q)) *! conj (mget (l_sigma l) p q) *! psi2 (o p)))); [|apply sum_swap].
        apply sum_ext. intros p _. rewrite sum_conj, <- sum_mul_r. apply sum_ext. intros q _. rewrite rconj_mul. unfold o. ring.
    + rewrite <- sum_sub, <- sum_mul_l. apply sum_ext. intros p _. rewrite <- sum_sub, <- sum_mul_l. apply sum_ext. intros q _. unfold o. ring.
Qed.
Theorem flux : lsum R (fun nl => lead_current y inc1 psi1 amp1 inc2 psi2 amp2 (fst nl) (snd nl)) (combine (seq 0 nl) leads) = O0.
Proof.
  assert (Hc : forall kl, In kl (combine (seq 0 nl) leads) -> nth_error leads (fst kl) = Some (snd kl)).
  { assert (G : forall (ls : list (lead R)) s kl, In kl (combine (seq s (length ls)) ls) -> s <= fst kl /\ nth_error ls (fst kl - s) = Some (snd kl)).
    { clear. induction ls as [|a ls IH]; intros s kl H; [destruct H|]. cbn in H. destruct H as [<-|H]; [cbn; rewrite Nat.sub_diag; auto|].
      apply IH in H. destruct H as [H1 H2]. split; [lia|]. replace (fst kl - s) with (S (fst kl - S s)) by lia. exact H2. }
    intros kl H. apply G in H. destruct H as [_ H]. rewrite Nat.sub_0_r in H. auto. }
  rewrite (lsum_ext R _ (fun kl => ri R *! bal (fst kl) (snd kl))).
  2: { intros kl Hk. symmetry. apply bal_current. auto. }
  rewrite lsum_mul_l. assert (E : lsum R (fun kl => bal (fst kl) (snd kl)) (combine (seq 0 nl) leads) = O0); [|rewrite E; ring].
  set (H1 := fun x z => mget (y_ham y) x z -! en *! delta R x z).
  assert (A1 : forall x, x < n -> sum R n (fun z => H1 x z *! psi1 z) +! lsum R (fun nl => lead_force y inc1 psi1 amp1 (fst nl) (snd nl) x) (combine (seq 0 nl) leads) = O0) by exact (proj1 S1).
  assert (A2 : forall x, x < n -> sum R n (fun z => H1 x z *! psi2 z) +! lsum R (fun nl => lead_force y inc2 psi2 amp2 (fst nl) (snd nl) x) (combine (seq 0 nl) leads) = O0) by exact (proj1 S2).
  assert (Hh : forall x z, x < n -> z < n -> conj (H1 x z) = H1 z x).
  { intros x z Hx Hz. unfold H1. rewrite conj_sub, rconj_mul, Hreal, HH by auto. unfold delta. rewrite (Nat.eqb_sym z x). destruct (x =? z); [rewrite conj1|rewrite conj0]; reflexivity. }
  assert (B2 : sum R n (fun x => conj (psi1 x) *! sum R n (fun z => H1 x z *! psi2 z)) +! lsum R (fun kl => sum R n (fun x => conj (psi1 x) *! lead_force y inc2 psi2 amp2 (fst kl) (snd kl) x)) (combine (seq 0 nl) leads) = O0).
  { rewrite <- sum_lswap, <- sum_add. apply sum_zero. intros x Hx. rewrite lsum_mul_l. 
    transitivity (conj (psi1 x) *! (sum R n (fun z => H1 x z *! psi2 z) +! lsum R (fun nl => lead_force y inc2 psi2 amp2 (fst nl) (snd nl) x) (combine (seq 0 nl) leads))); [ring|]. rewrite (A2 x Hx). ring. }
  assert (B1 : sum R n (fun x => conj (sum R n (fun z => H1 x z *! psi1 z)) *! psi2 x) +! lsum R (fun kl => sum R n (fun x => conj (lead_force y inc1 psi1 amp1 (fst kl) (snd kl) x) *! psi2 x)) (combine (seq 0 nl) leads) = O0).
  { rewrite <- sum_lswap, <- sum_add. apply sum_zero. intros x Hx. rewrite lsum_mul_r, <- lsum_conj.
    transitivity (conj (sum R n (fun z => H1 x z *! psi1 z) +! lsum R (fun nl => lead_force y inc1 psi1 amp1 (fst nl) (snd nl) x) (combine (seq 0 nl) leads)) *! psi2 x); [rewrite rconj_add; ring|]. rewrite (A1 x Hx), conj0. ring. }
  assert (EH : sum R n (fun x => conj (psi1 x) *! sum R n (fun z => H1 x z *! psi2 z)) = sum R n (fun x => conj (sum R n (fun z => H1 x z *! psi1 z)) *! psi2 x)).
  { transitivity (sum R n (fun x => sum R n (fun z => conj (psi1 x) *! H1 x z *! psi2 z))).
    - apply sum_ext. intros x _. rewrite <- sum_mul_l. apply sum_ext. intros; ring.
    - rewrite sum_swap. apply sum_ext. intros z Hz. rewrite sum_conj, <- sum_mul_r. apply sum_ext. intros x Hx. rewrite rconj_mul, Hh by auto. ring. }
  unfold bal. rewrite lsum_sub.
  assert (P2 : lsum R (fun kl => sum R n (fun x => conj (psi1 x) *! lead_force y inc2 psi2 amp2 (fst kl) (snd kl) x)) (combine (seq 0 nl) leads) =
     lsum R (fun kl => sum R (length (orbs (snd kl))) (fun p => conj (psi1 (nth p (orbs (snd kl)) 0)) *! kern inc2 psi2 amp2 (fst kl) (snd kl) p)) (combine (seq 0 nl) leads)).
  { apply lsum_ext. intros kl Hk. apply (@pull (fun x => conj (psi1 x))). eapply nth_error_In; eauto. }
  assert (P1 : lsum R (fun kl => sum R n (fun x => conj (lead_force y inc1 psi1 amp1 (fst kl) (snd kl) x) *! psi2 x)) (combine (seq 0 nl) leads) =
     lsum R (fun kl => sum R (length (orbs (snd kl))) (fun p => conj (kern inc1 psi1 amp1 (fst kl) (snd kl) p) *! psi2 (nth p (orbs (snd kl)) 0))) (combine (seq 0 nl) leads)).
  { apply lsum_ext. intros kl Hk.
    transitivity (conj (sum R n (fun x => conj (psi2 x) *! lead_force y inc1 psi1 amp1 (fst kl) (snd kl) x))).
    - rewrite sum_conj. apply sum_ext. intros x _. rewrite rconj_mul, rconj_conj. ring.
    - rewrite (@pull (fun x => conj (psi2 x)) inc1 psi1 amp1 (fst kl) (snd kl)) by (eapply nth_error_In; eauto). rewrite sum_conj. apply sum_ext. intros p _. rewrite rconj_mul, rconj_conj. ring. }
  rewrite <- P1, <- P2.
  transitivity ((sum R n (fun x => conj (psi1 x) *! sum R n (fun z => H1 x z *! psi2 z)) +! lsum R (fun kl => sum R n (fun x => conj (psi1 x) *! lead_force y inc2 psi2 amp2 (fst kl) (snd kl) x)) (combine (seq 0 nl) leads)) -!
     (sum R n (fun x => conj (sum R n (fun z => H1 x z *! psi1 z)) *! psi2 x) +! lsum R (fun kl => sum R n (fun x => conj (lead_force y inc1 psi1 amp1 (fst kl) (snd kl) x) *! psi2 x)) (combine (seq 0 nl) leads))).
  - rewrite EH. ring.
  - rewrite B1, B2. ring.
Qed.
End Flux.
