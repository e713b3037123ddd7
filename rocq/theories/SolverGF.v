(** * Green's functions: transmissions and their sum rules. *)
From Coq Require Import List Bool Arith ZArith Ring Lia.
From Verif Require Import StarRing SubmatrixModel SolverModel SolverSpec SolverProofs.
Import ListNotations.
Set Implicit Arguments.

Section GF.
Variable R : StarRing.
Add Ring RringG : (r_theory R).
Notation mat := (mat R).
Notation conj := (rconj R).
Notation "x +! y" := (radd R x y) (at level 50, left associativity).
Notation "x -! y" := (rsub R x y) (at level 50, left associativity).
Notation "x *! y" := (rmul R x y) (at level 40, left associativity).
Notation O0 := (r0 R).
Variables (n : nat) (h : nat -> nat -> R) (en : R) (coords : list (list nat)) (sigmas : list mat) (G : nat -> nat -> R).
Hypothesis Hgood : good_sigmas n coords sigmas.
Notation D := (inverse_gf h en coords sigmas).
Hypothesis Hherm : forall u v, u < n -> v < n -> conj (h v u) = h u v.
Hypothesis Hreal : conj en = en.
Hypothesis HG : inverses n D G.
Notation nl := (length sigmas).
Notation orb := (orb coords).
Notation len := (len coords).
Notation gam := (gam sigmas).
Notation tr4 := (tr4 coords sigmas G).
Notation tr2 := (tr2 coords sigmas G).

Lemma len_cs : length coords = nl.
Proof. clear -Hgood. unfold good_sigmas in Hgood. induction Hgood; cbn; auto. Qed.
Lemma good_at l : valid_lead nl l -> mr (sig sigmas l) = len l /\ mc (sig sigmas l) = len l /\ forall p, p < len l -> orb l p < n.
Proof.
  intros [H1 H2]. assert (Hk : Z.to_nat l < length coords) by (rewrite len_cs; lia).
  unfold len, orb, sig. destruct (nth_error coords (Z.to_nat l)) as [c|] eqn:Ec; [|apply nth_error_None in Ec; lia].
  destruct (@F2_nth_error _ _ _ _ _ _ _ Hgood Ec) as (s & Es & G1 & G2 & G3). rewrite (nth_error_nth _ _ _ Ec), (nth_error_nth _ _ _ Es).
  split; auto. split; auto. intros p Hp. apply G3. apply nth_In. auto.
Qed.

Lemma gam_herm l p q : conj (gam l p q) = gam l q p.
Proof. unfold SolverSpec.gam. rewrite rconj_mul, conj_sub, rconj_conj, rconj_i. ring. Qed.

(** total Gamma on the orbitals of the system *)
Definition emb (l : Z) (f : nat -> nat -> R) (x z : nat) : R :=
  sum R (len l) (fun p => sum R (len l) (fun q => if (orb l p =? x) && (orb l q =? z) then f p q else O0)).
Definition Gam (x z : nat) : R := lsum R (fun l => emb l (gam l) x z) (all_leads nl).

Lemma emb_apply l f (a b : nat -> R) : valid_lead nl l ->
  sum R n (fun x => sum R n (fun z => a x *! emb l f x z *! b z)) = sum R (len l) (fun p => sum R (len l) (fun q => a (orb l p) *! f p q *! b (orb l q))).
Proof.
  intros Hl. destruct (good_at Hl) as (_ & _ & Hlt).
  transitivity (sum R n (fun x => sum R n (fun z => sum R (len l) (fun p => sum R (len l) (fun q => if orb l p =? x then if orb l q =? z then a x *! f p q *! b z else O0 else O0))))).
  { apply sum_ext. intros x _. apply sum_ext. intros z _. unfold emb. rewrite <- sum_mul_l, <- sum_mul_r. apply sum_ext. intros p _. rewrite <- sum_mul_l, <- sum_mul_r. apply sum_ext. intros q _.
    destruct (orb l p =? x); cbn [andb]; [destruct (orb l q =? z)|]; ring. }
  transitivity (sum R (len l) (fun p => sum R (len l) (fun q => sum R n (fun x => sum R n (fun z => if orb l p =? x then if orb l q =? z then a x *! f p q *! b z else O0 else O0))))).
  { transitivity (sum R n (fun x => sum R (len l) (fun p => sum R n (fun z => sum R (len l) (fun q => if orb l p =? x then if orb l q =? z then a x *! f p q *! b z else O0 else O0))))).
    { apply sum_ext. intros x _. apply sum_swap. }
    rewrite sum_swap. apply sum_ext. intros p _.
    transitivity (sum R n (fun x => sum R (len l) (fun q => sum R n (fun z => if orb l p =? x then if orb l q =? z then a x *! f p q *! b z else O0 else O0)))).
    { apply sum_ext. intros x _. apply sum_swap. }
    apply sum_swap. }
  apply sum_ext. intros p Hp. apply sum_ext. intros q Hq.
  transitivity (sum R n (fun x => if x =? orb l p then a x *! f p q *! b (orb l q) else O0)).
  - apply sum_ext. intros x _. rewrite (Nat.eqb_sym x). destruct (orb l p =? x); [|apply sum_0].
    transitivity (sum R n (fun z => if z =? orb l q then a x *! f p q *! b z else O0)); [apply sum_ext; intros z _; rewrite Nat.eqb_sym; reflexivity|].
    apply (@sum_delta R n (orb l q) (fun z => a x *! f p q *! b z)). auto.
  - apply (@sum_delta R n (orb l p) (fun x => a x *! f p q *! b (orb l q))). auto.
Qed.
Lemma Gam_apply (a b : nat -> R) : sum R n (fun x => sum R n (fun z => a x *! Gam x z *! b z)) =
  lsum R (fun l => sum R (len l) (fun p => sum R (len l) (fun q => a (orb l p) *! gam l p q *! b (orb l q)))) (all_leads nl).
Proof.
  transitivity (lsum R (fun l => sum R n (fun x => sum R n (fun z => a x *! emb l (gam l) x z *! b z))) (all_leads nl)).
  - rewrite <- sum_lswap. apply sum_ext. intros x _. rewrite <- sum_lswap. apply sum_ext. intros z _. unfold Gam. rewrite <- lsum_mul_l, <- lsum_mul_r. reflexivity.
  - apply lsum_ext. intros l Hl. apply emb_apply. apply in_map_iff in Hl. destruct Hl as (k & <- & Hk). apply in_seq in Hk. unfold valid_lead. lia.
Qed.

(** sum of the self-energies *)
Definition S_ (x z : nat) : R := lsum R (fun l => emb l (fun p q => mget (sig sigmas l) p q) x z) (all_leads nl).
Lemma combine_all {A B} (l : list A) (l' : list B) (f : A * B -> R) da db : length l = length l' ->
  lsum R f (combine l l') = lsum R (fun z => f (nth (Z.to_nat z) l da, nth (Z.to_nat z) l' db)) (all_leads (length l')).
Proof.
  intros HL. rewrite lsum_all_leads. revert l HL. induction l' as [|b l' IH]; intros [|a l] HL; try discriminate; [reflexivity|].
  cbn [combine length]. rewrite lsum_cons, IH by (cbn in HL; lia). change (S (length l')) with (1 + length l'). rewrite sum_split. f_equal.
  - rewrite sum_S. change (sum R 0 ?g) with O0. cbn. match goal with |- ?a = _ => transitivity (O0 +! a); [ring|reflexivity] end.
  - apply sum_ext. intros i _. replace (Z.to_nat (Z.of_nat (1 + i))) with (S i) by lia. rewrite Nat2Z.id. reflexivity.
Qed.
Lemma D_eq x z : D x z = en *! delta R x z -! h x z -! S_ x z.
Proof.
  unfold inverse_gf, S_. f_equal. rewrite (@combine_all _ _ coords sigmas _ [] (mkMat 0 0 (fun _ _ => O0)) len_cs). reflexivity.
Qed.
Lemma delta_conj x z : conj (delta R x z) = delta R z x.
Proof. unfold delta. rewrite Nat.eqb_sym. destruct (z =? x); [apply conj1|apply conj0]. Qed.
Lemma Gam_D x z : x < n -> z < n -> Gam x z = ri R *! (conj (D z x) -! D x z).
Proof.
  intros Hx Hz. rewrite !D_eq. rewrite !conj_sub, rconj_mul, Hreal, Hherm, delta_conj by auto.
  assert (E : Gam x z = ri R *! (S_ x z -! conj (S_ z x))).
  { unfold Gam, S_. rewrite lsum_conj, <- lsum_sub, <- lsum_mul_l. apply lsum_ext. intros l _. unfold emb. rewrite !sum_conj.
    transitivity (ri R *! (sum R (len l) (fun p => sum R (len l) (fun q => if (orb l p =? x) && (orb l q =? z) then mget (sig sigmas l) p q else O0)) -!
                           sum R (len l) (fun p => sum R (len l) (fun q => if (orb l p =? x) && (orb l q =? z) then conj (mget (sig sigmas l) q p) else O0)))).
    - rewrite <- sum_sub, <- sum_mul_l. apply sum_ext. intros p _. rewrite <- sum_sub, <- sum_mul_l. apply sum_ext. intros q _.
      unfold SolverSpec.gam. destruct ((orb l p =? x) && (orb l q =? z)); ring.
    - f_equal. f_equal. rewrite sum_swap. apply sum_ext. intros p _. rewrite sum_conj. apply sum_ext. intros q _. rewrite andb_comm. destruct ((orb l p =? z) && (orb l q =? x)); auto. symmetry. apply conj0. }
  rewrite E. ring.
Qed.

Lemma inv_l x z : x < n -> z < n -> sum R n (fun u => G x u *! D u z) = delta R x z.
Proof. intros Hx Hz. apply (HG Hx Hz). Qed.
Lemma inv_r x z : x < n -> z < n -> sum R n (fun u => D x u *! G u z) = delta R x z.
Proof. intros Hx Hz. apply (HG Hx Hz). Qed.
Lemma sum_delta_l k (f : nat -> R) : k < n -> sum R n (fun i => delta R k i *! f i) = f k.
Proof.
  intros H. rewrite <- (@sum_delta R n k f H). apply sum_ext. intros i _. unfold delta. rewrite Nat.eqb_sym. destruct (i =? k); ring.
Qed.
(** G Gamma G^dagger = i (G - G^dagger) = G^dagger Gamma G *)
Lemma GGG x z : x < n -> z < n -> sum R n (fun u => sum R n (fun v => G x u *! Gam u v *! conj (G z v))) = ri R *! (G x z -! conj (G z x)).
Proof.
  intros Hx Hz.
  transitivity (ri R *! (sum R n (fun u => G x u *! conj (sum R n (fun v => G z v *! D v u))) -! sum R n (fun v => sum R n (fun u => G x u *! D u v) *! conj (G z v)))).
  - transitivity (sum R n (fun u => sum R n (fun v => ri R *! (G x u *! (conj (G z v) *! conj (D v u))) -! ri R *! (G x u *! D u v *! conj (G z v))))).
    { apply sum_ext. intros u Hu. apply sum_ext. intros v Hv. rewrite Gam_D by auto. ring. }
    transitivity (sum R n (fun u => sum R n (fun v => ri R *! (G x u *! (conj (G z v) *! conj (D v u))))) -! sum R n (fun u => sum R n (fun v => ri R *! (G x u *! D u v *! conj (G z v))))).
    { rewrite <- sum_sub. apply sum_ext. intros u _. apply sum_sub. }
    transitivity (ri R *! sum R n (fun u => G x u *! conj (sum R n (fun v => G z v *! D v u))) -! ri R *! sum R n (fun v => sum R n (fun u => G x u *! D u v) *! conj (G z v))); [|ring].
    f_equal.
    + rewrite <- sum_mul_l. apply sum_ext. intros u _. rewrite sum_mul_l, sum_mul_l, sum_conj. f_equal. f_equal. apply sum_ext. intros v _. rewrite rconj_mul. reflexivity.
    + rewrite sum_swap, <- sum_mul_l. apply sum_ext. intros v _. rewrite sum_mul_l, sum_mul_r. reflexivity.
  - f_equal. f_equal.
    + transitivity (sum R n (fun u => delta R z u *! G x u)); [|apply sum_delta_l; auto].
      apply sum_ext. intros u Hu. rewrite inv_l by auto. rewrite delta_conj. unfold delta. rewrite Nat.eqb_sym. destruct (z =? u); ring.
    + transitivity (sum R n (fun v => delta R x v *! conj (G z v))); [|apply (sum_delta_l (fun v => conj (G z v))); auto].
      apply sum_ext. intros v Hv. rewrite inv_l by auto. reflexivity.
Qed.
Lemma GGG' u v : u < n -> v < n -> sum R n (fun x => sum R n (fun z => conj (G x u) *! Gam x z *! G z v)) = ri R *! (G u v -! conj (G v u)).
Proof.
  intros Hu Hv.
  transitivity (ri R *! (sum R n (fun z => conj (sum R n (fun x => D z x *! G x u)) *! G z v) -! sum R n (fun x => conj (G x u) *! sum R n (fun z => D x z *! G z v)))).
  - transitivity (sum R n (fun x => sum R n (fun z => ri R *! (conj (D z x) *! conj (G x u) *! G z v))) -! sum R n (fun x => sum R n (fun z => ri R *! (conj (G x u) *! (D x z *! G z v))))).
    { rewrite <- sum_sub. apply sum_ext. intros x Hx. rewrite <- sum_sub. apply sum_ext. intros z Hz. rewrite Gam_D by auto. ring. }
    transitivity (ri R *! sum R n (fun z => conj (sum R n (fun x => D z x *! G x u)) *! G z v) -! ri R *! sum R n (fun x => conj (G x u) *! sum R n (fun z => D x z *! G z v))); [|ring].
    f_equal.
    + rewrite sum_swap, <- sum_mul_l. apply sum_ext. intros z _. rewrite sum_mul_l, sum_conj, <- sum_mul_r. f_equal. apply sum_ext. intros x _. rewrite rconj_mul. reflexivity.
    + rewrite <- sum_mul_l. apply sum_ext. intros x _. rewrite sum_mul_l, sum_mul_l. reflexivity.
  - f_equal. f_equal.
    + transitivity (sum R n (fun z => delta R u z *! G z v)); [|apply (sum_delta_l (fun z => G z v)); auto].
      apply sum_ext. intros z Hz. rewrite inv_r by auto. rewrite delta_conj. reflexivity.
    + transitivity (sum R n (fun x => delta R v x *! conj (G x u))); [|apply (sum_delta_l (fun x => conj (G x u))); auto].
      apply sum_ext. intros x Hx. rewrite inv_r by auto. unfold delta. rewrite Nat.eqb_sym. destruct (v =? x); ring.
Qed.

(** tr2 and its conjugate *)
Lemma tr2_conj l : conj (tr2 l) = sum R (len l) (fun p => sum R (len l) (fun p' => gam l p p' *! conj (G (orb l p) (orb l p')))).
Proof.
  unfold SolverSpec.tr2. rewrite sum_conj.
  transitivity (sum R (len l) (fun p => sum R (len l) (fun p' => gam l p' p *! conj (G (orb l p') (orb l p))))).
  - apply sum_ext. intros p _. rewrite sum_conj. apply sum_ext. intros p' _. rewrite rconj_mul, gam_herm. reflexivity.
  - apply sum_swap.
Qed.
Lemma two_tr2 l : ri R *! (tr2 l -! conj (tr2 l)) = sum R (len l) (fun p => sum R (len l) (fun p' => gam l p p' *! (ri R *! (G (orb l p') (orb l p) -! conj (G (orb l p) (orb l p')))))).
Proof.
  rewrite tr2_conj. unfold SolverSpec.tr2. rewrite <- sum_sub, <- sum_mul_l. apply sum_ext. intros p _. rewrite <- sum_sub, <- sum_mul_l. apply sum_ext. intros p' _. ring.
Qed.

Lemma tr4_row o : valid_lead nl o -> lsum R (fun i => tr4 o i) (all_leads nl) = ri R *! (tr2 o -! conj (tr2 o)).
Proof.
  intros Ho. rewrite two_tr2. destruct (good_at Ho) as (_ & _ & Hlt). unfold SolverSpec.tr4. rewrite <- sum_lswap. apply sum_ext. intros p Hp. rewrite <- sum_lswap. apply sum_ext. intros p' Hp'.
  rewrite <- GGG by auto. rewrite (Gam_apply (fun u => G (orb o p') u) (fun v => conj (G (orb o p) v))).
  rewrite <- lsum_mul_l. apply lsum_ext. intros i _. rewrite <- sum_mul_l. apply sum_ext. intros q _. rewrite <- sum_mul_l. apply sum_ext. intros q' _. ring.
Qed.
Lemma tr4_col i : valid_lead nl i -> lsum R (fun o => tr4 o i) (all_leads nl) = ri R *! (tr2 i -! conj (tr2 i)).
Proof.
  intros Hi. rewrite two_tr2. destruct (good_at Hi) as (_ & _ & Hlt).
  transitivity (lsum R (fun o => sum R (len i) (fun q => sum R (len i) (fun q' => sum R (len o) (fun p => sum R (len o) (fun p' =>
    gam i q q' *! (conj (G (orb o p) (orb i q')) *! gam o p p' *! G (orb o p') (orb i q))))))) (all_leads nl)).
  { apply lsum_ext. intros o _. unfold SolverSpec.tr4.
    transitivity (sum R (len o) (fun p => sum R (len i) (fun q => sum R (len o) (fun p' => sum R (len i) (fun q' => gam o p p' *! G (orb o p') (orb i q) *! gam i q q' *! conj (G (orb o p) (orb i q'))))))).
    { apply sum_ext. intros p _. apply sum_swap. }
    rewrite sum_swap. apply sum_ext. intros q _.
    transitivity (sum R (len o) (fun p => sum R (len i) (fun q' => sum R (len o) (fun p' => gam o p p' *! G (orb o p') (orb i q) *! gam i q q' *! conj (G (orb o p) (orb i q')))))).
    { apply sum_ext. intros p _. apply sum_swap. }
    rewrite sum_swap. apply sum_ext. intros q' _. apply sum_ext. intros p _. apply sum_ext. intros p' _. ring. }
  rewrite <- sum_lswap. apply sum_ext. intros q Hq. rewrite <- sum_lswap. apply sum_ext. intros q' Hq'.
  rewrite <- GGG' by auto. rewrite (Gam_apply (fun x => conj (G x (orb i q'))) (fun z => G z (orb i q))).
  rewrite <- lsum_mul_l. apply lsum_ext. intros o _. rewrite <- sum_mul_l. apply sum_ext. intros p _. rewrite <- sum_mul_l. reflexivity.
Qed.

Variable nch : mat -> nat.
Notation gfT := (gfT coords sigmas G nch).
Lemma lsum_pick (x : Z) (f : Z -> R) (c : R) l : NoDup l -> In x l -> lsum R (fun z => if (x =? z)%Z then f z +! c else f z) l = lsum R f l +! c.
Proof.
  induction l as [|a l IH]; intros HN Hx; [destruct Hx|]. inversion HN; subst. rewrite !lsum_cons. destruct Hx as [->|Hx].
  - rewrite Z.eqb_refl. rewrite (lsum_ext R (fun z => if (x =? z)%Z then f z +! c else f z) f); [ring|]. intros z Hz. destruct (Z.eqb_spec x z); [subst; contradiction|auto].
  - destruct (Z.eqb_spec x a); [subst; contradiction|]. rewrite IH by auto. ring.
Qed.
Lemma all_in l : valid_lead nl l -> In l (all_leads nl).
Proof. intros [H1 H2]. unfold all_leads. apply in_map_iff. exists (Z.to_nat l). split; [lia|]. apply in_seq. lia. Qed.
Theorem gfT_row o : valid_lead nl o -> lsum R (fun i => gfT o i) (all_leads nl) = rnat R (nch (sig sigmas o)).
Proof.
  intros Ho.
  transitivity (lsum R (fun i => if (o =? i)%Z then tr4 o i +! (ropp R (ri R *! (tr2 o -! conj (tr2 o))) +! rnat R (nch (sig sigmas o))) else tr4 o i) (all_leads nl)).
  - apply lsum_ext. intros i _. unfold SolverSpec.gfT. destruct (Z.eqb_spec o i); [subst; reflexivity|reflexivity].
  - rewrite lsum_pick; [|apply all_leads_NoDup|apply all_in; auto]. rewrite tr4_row by auto. ring.
Qed.
Theorem gfT_col i : valid_lead nl i -> lsum R (fun o => gfT o i) (all_leads nl) = rnat R (nch (sig sigmas i)).
Proof.
  intros Hi.
  transitivity (lsum R (fun o => if (i =? o)%Z then tr4 o i +! (ropp R (ri R *! (tr2 i -! conj (tr2 i))) +! rnat R (nch (sig sigmas i))) else tr4 o i) (all_leads nl)).
  - apply lsum_ext. intros o _. unfold SolverSpec.gfT. rewrite Z.eqb_sym. reflexivity.
  - rewrite (@lsum_pick i (fun o => tr4 o i)); [|apply all_leads_NoDup|apply all_in; auto]. rewrite tr4_col by auto. ring.
Qed.
End GF.
Arguments good_at {R n coords sigmas} Hgood {l}.
