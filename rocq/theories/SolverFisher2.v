(** * Fisher-Lee for systems. *)
From Coq Require Import List Bool Arith ZArith Ring Lia.
From Verif Require Import StarRing SubmatrixModel SolverModel SolverSpec SolverProofs SolverLinear SolverFlux SolverField SolverFisher.
Import ListNotations.
Set Implicit Arguments.

Section Sys.
Variable R : StarRing.
Add Ring RringFS : (r_theory R).
Notation mat := (mat R).
Notation conj := (rconj R).
Notation "x +! y" := (radd R x y) (at level 50, left associativity).
Notation "x -! y" := (rsub R x y) (at level 50, left associativity).
Notation "x *! y" := (rmul R x y) (at level 40, left associativity).
Notation O0 := (r0 R).
Variable lsolve : mat -> mat -> sres mat.
Hypothesis EL : exact_lsolve lsolve.

(** the computed self-energy *)
Lemma selfenergy_S0 m s Ai : good_modes m -> inverses (mr (m_u m)) (fun k j => mget (m_ulinv m) k (m_nprop m + j)) Ai -> mode_selfenergy lsolve m = inl s ->
  mr s = mr (m_v m) /\ mc s = mr (m_v m) /\ forall p q, p < mr (m_v m) -> q < mr (m_v m) -> mget s p q = S0 m Ai p q.
Proof.
  intros GM HA H. destruct GM as (G1 & G2 & G3 & G4 & G5 & G6). unfold mode_selfenergy in H.
  apply sbind_inl in H. destruct H as (x & Hx & H). apply EL in Hx. destruct Hx as (X1 & X2 & X3). cbn [mr mc mget cols_from mconjt] in *.
  apply sbind_inl in H. destruct H as (vu0 & Hv & H). unfold mdot in Hv, H. cbn [mr mc mget cols_from] in *.
  destruct (Nat.eqb_spec (mc (m_v m)) (mr (m_u m))) as [Ev|]; [|discriminate]. injection Hv as <-. cbn [mr mc mget] in *.
  destruct (Nat.eqb_spec (mc (m_u m) - m_nprop m) (mr x)) as [Ex|]; [|discriminate]. injection H as <-. cbn [mr mc mget].
  split; auto. split; auto. intros p q Hp Hq.
  replace (mc (m_u m) - m_nprop m) with (mr (m_u m)) by lia. rewrite Ev. replace (mc (m_ulinv m) - m_nprop m) with (mr (m_u m)) in * by lia. rewrite G1 in X3.
  assert (E : forall j, j < mr (m_u m) -> mget x j q = X m Ai j q).
  { intros j Hj. rewrite <- (@AiA R m Ai HA (fun j' => mget x j' q) j Hj). unfold X. apply sum_ext. intros k Hk. f_equal. apply (X3 k q Hk Hq). }
  unfold S0.
  transitivity (sum R (mr (m_u m)) (fun k => sum R (mr (m_u m)) (fun k0 => mget (m_v m) p k0 *! (mget (m_u m) k0 (m_nprop m + k) *! X m Ai k q)))).
  - apply sum_ext. intros k Hk. rewrite (E k Hk), <- sum_mul_r. apply sum_ext. intros; ring.
  - rewrite sum_swap. apply sum_ext. intros k _. apply sum_mul_l.
Qed.

Variable y : syst R.
Hypothesis GS : good_syst y.
Variable en : R.
Notation n := (mr (y_ham y)).
Notation leads := (y_leads y).
Notation nl := (length leads).
Notation orbs := (lead_orbs (y_norb y)).
Notation coords := (map orbs leads).
Notation sigmas := (map (@l_sigma R) leads).
Hypothesis ML : forall l, In l leads -> mode_lead lsolve y l.

Section State.
Variables (i b : nat) (psi : nat -> R) (amp : nat -> nat -> R).
Hypothesis Sc : scattering y en (unit_mode i b) psi amp.
Variables (li : lead R) (mi : modes R) (Aii : nat -> nat -> R).
Hypothesis Hli : nth_error leads i = Some li.
Hypothesis Hmi : l_modes li = Some mi.
Hypothesis Hb : b < m_nprop mi.
Hypothesis HAi : inverses (mr (m_u mi)) (fun k j => mget (m_ulinv mi) k (m_nprop mi + j)) Aii.

Section OneLead.
Variables (k : nat) (ld : lead R) (m : modes R) (Ai : nat -> nat -> R).
Hypothesis Hk : nth_error leads k = Some ld.
Hypothesis Hm : l_modes ld = Some m.
Hypothesis HA : inverses (mr (m_u m)) (fun k j => mget (m_ulinv m) k (m_nprop m + j)) Ai.
Lemma inc_sum (f : nat -> R) : sum R (m_nprop m) (fun j => f j *! unit_mode i b k j) = if k =? i then f b else O0.
Proof.
  destruct (Nat.eqb_spec k i) as [->|Hne].
  - assert (m = mi) by congruence. subst m.
    transitivity (sum R (m_nprop mi) (fun j => if j =? b then f j else O0)); [|apply sum_delta; auto].
    apply sum_ext. intros j _. unfold unit_mode. rewrite Nat.eqb_refl. cbn [andb]. destruct (j =? b); ring.
  - apply sum_zero. intros j _. unfold unit_mode. rewrite (proj2 (Nat.eqb_neq k i) Hne). cbn [andb]. ring.
Qed.
Lemma amp_val j : j < mr (m_u m) -> amp k j = sum R (length (orbs ld)) (fun q => X m Ai j q *! psi (nth q (orbs ld) 0)) -! (if k =? i then Q m Ai j b else O0).
Proof.
  intros Hj. rewrite <- (@AiA R m Ai HA (fun j' => amp k j') j Hj).
  transitivity (sum R (mr (m_u m)) (fun kk => Ai j kk *! (sum R (length (orbs ld)) (fun p => conj (mget (m_v m) p kk) *! psi (nth p (orbs ld) 0)) -! (if k =? i then mget (m_ulinv m) kk b else O0)))).
  - apply sum_ext. intros kk Hkk. f_equal. pose proof (proj2 Sc k ld m Hk Hm kk Hkk) as E. cbv zeta in E. rewrite (inc_sum (fun j0 => mget (m_ulinv m) kk j0)) in E. rewrite E. ring.
  - transitivity (sum R (mr (m_u m)) (fun kk => sum R (length (orbs ld)) (fun p => Ai j kk *! conj (mget (m_v m) p kk) *! psi (nth p (orbs ld) 0)) -! Ai j kk *! (if k =? i then mget (m_ulinv m) kk b else O0))).
    { apply sum_ext. intros kk _. transitivity (Ai j kk *! sum R (length (orbs ld)) (fun p => conj (mget (m_v m) p kk) *! psi (nth p (orbs ld) 0)) -! Ai j kk *! (if k =? i then mget (m_ulinv m) kk b else O0)); [ring|].
      f_equal. rewrite <- sum_mul_l. apply sum_ext. intros; ring. }
    rewrite sum_sub. f_equal.
    + rewrite sum_swap. apply sum_ext. intros p _. unfold X. apply sum_mul_r.
    + destruct (k =? i); [reflexivity|]. apply sum_zero. intros; ring.
Qed.
Lemma force_val p : 
  sum R (mr (m_u m)) (fun j => vu m p (m_nprop m + j) *! amp k j) +! sum R (m_nprop m) (fun j => vu m p j *! unit_mode i b k j) =
  sum R (length (orbs ld)) (fun q => S0 m Ai p q *! psi (nth q (orbs ld) 0)) +! (if k =? i then W m Ai p b else O0).
Proof.
  assert (GM : good_modes m) by (apply (proj2 (proj2 (proj2 GS)) ld m); auto; eapply nth_error_In; eauto). destruct GM as (G1 & G2 & _).
  rewrite (inc_sum (fun j => vu m p j)). unfold vu. rewrite G2.
  set (r := mr (m_u m)). set (np := m_nprop m). set (V := mget (m_v m)). set (u := mget (m_u m)).
  transitivity (sum R r (fun j => sum R r (fun kk => V p kk *! u kk (np + j)) *! sum R (length (orbs ld)) (fun q => X m Ai j q *! psi (nth q (orbs ld) 0))) -!
     (if k =? i then sum R r (fun j => sum R r (fun kk => V p kk *! u kk (np + j)) *! Q m Ai j b) else O0) +! (if k =? i then sum R r (fun kk => V p kk *! u kk b) else O0)).
  - f_equal. transitivity (sum R r (fun j => sum R r (fun kk => V p kk *! u kk (np + j)) *! (sum R (length (orbs ld)) (fun q => X m Ai j q *! psi (nth q (orbs ld) 0)) -! (if k =? i then Q m Ai j b else O0)))).
    + apply sum_ext. intros j Hj. rewrite (amp_val Hj). reflexivity.
    + destruct (k =? i).
      * rewrite <- sum_sub. apply sum_ext. intros; ring.
      * match goal with |- _ = ?a -! _ => transitivity a; [|ring] end. apply sum_ext. intros; ring.
  - assert (E1 : sum R r (fun j => sum R r (fun kk => V p kk *! u kk (np + j)) *! sum R (length (orbs ld)) (fun q => X m Ai j q *! psi (nth q (orbs ld) 0))) = sum R (length (orbs ld)) (fun q => S0 m Ai p q *! psi (nth q (orbs ld) 0))).
    { rewrite (@trip R r r (length (orbs ld)) (fun kk => V p kk) (fun j kk => u kk (np + j)) (fun j q => X m Ai j q) (fun q => psi (nth q (orbs ld) 0))).
      rewrite sum_swap. apply sum_ext. intros q _. unfold S0. rewrite <- sum_mul_r. reflexivity. }
    rewrite E1. destruct (k =? i); [|ring].
    assert (E2 : W m Ai p b = sum R r (fun kk => V p kk *! u kk b) -! sum R r (fun j => sum R r (fun kk => V p kk *! u kk (np + j)) *! Q m Ai j b)); [|rewrite E2; ring].
    unfold W. fold r np V u.
    transitivity (sum R r (fun kk => V p kk *! u kk b) -! sum R r (fun kk => V p kk *! sum R r (fun j => u kk (np + j) *! Q m Ai j b))).
    { rewrite <- sum_sub. apply sum_ext. intros; ring. }
    f_equal. transitivity (sum R r (fun kk => sum R r (fun j => V p kk *! u kk (np + j) *! Q m Ai j b))); [apply sum_ext; intros kk _; rewrite <- sum_mul_l; apply sum_ext; intros; ring|].
    rewrite sum_swap. apply sum_ext. intros j _. apply sum_mul_r.
Qed.
Lemma lead_force_val x : mr (m_v m) = length (orbs ld) -> mode_selfenergy lsolve m = inl (l_sigma ld) ->
  lead_force y (unit_mode i b) psi amp k ld x =
  force_sigma R (orbs ld) (l_sigma ld) psi x +! (if k =? i then sum R (length (orbs ld)) (fun p => if nth p (orbs ld) 0 =? x then W m Ai p b else O0) else O0).
Proof.
  intros Hv Hs. assert (GM : good_modes m) by (apply (proj2 (proj2 (proj2 GS)) ld m); auto; eapply nth_error_In; eauto).
  destruct (selfenergy_S0 GM HA Hs) as (_ & _ & E). rewrite Hv in E.
  unfold lead_force, force_sigma. cbv zeta. rewrite Hm.
  transitivity (sum R (length (orbs ld)) (fun p => (if nth p (orbs ld) 0 =? x then sum R (length (orbs ld)) (fun q => mget (l_sigma ld) p q *! psi (nth q (orbs ld) 0)) else O0) +! (if k =? i then if nth p (orbs ld) 0 =? x then W m Ai p b else O0 else O0))).
  - apply sum_ext. intros p Hp. destruct (nth p (orbs ld) 0 =? x); [|destruct (k =? i); ring].
    rewrite force_val. f_equal. apply sum_ext. intros q Hq. rewrite E by auto. reflexivity.
  - rewrite sum_add. f_equal. destruct (k =? i); [reflexivity|apply sum_0].
Qed.
End OneLead.

Lemma lsum_combine_delta (F : R) (ls : list (lead R)) : forall s j, s <= j < s + length ls -> lsum R (fun kl => if fst kl =? j then F else O0) (combine (seq s (length ls)) ls) = F.
Proof.
  induction ls as [|a ls IH]; intros s j H; cbn [length] in H; [lia|]. cbn [length seq combine]. rewrite lsum_cons. cbn [fst]. destruct (Nat.eqb_spec s j) as [->|Hne].
  - assert (E : forall s', j < s' -> lsum R (fun kl => if fst kl =? j then F else O0) (combine (seq s' (length ls)) ls) = O0); [|rewrite E by lia; ring].
    clear. induction ls as [|a ls IH]; intros s' Hs; [reflexivity|]. cbn [length seq combine]. rewrite lsum_cons, IH by lia. cbn [fst]. rewrite (proj2 (Nat.eqb_neq s' j)) by lia. ring.
  - rewrite IH by lia. ring.
Qed.
Lemma embed_force l X x : In l leads -> force_sigma R (orbs l) (l_sigma l) X x = sum R n (fun z => embed (orbs l) (l_sigma l) x z *! X z).
Proof.
  intros Hl. symmetry. unfold embed, force_sigma.
  transitivity (sum R n (fun c => sum R (length (orbs l)) (fun p => sum R (length (orbs l)) (fun q => if nth p (orbs l) 0 =? x then if nth q (orbs l) 0 =? c then mget (l_sigma l) p q *! X c else O0 else O0)))).
  { apply sum_ext. intros c _. rewrite <- sum_mul_r. apply sum_ext. intros p _. rewrite <- sum_mul_r. apply sum_ext. intros q _. destruct (nth p (orbs l) 0 =? x); cbn [andb]; [destruct (nth q (orbs l) 0 =? c)|]; ring. }
  rewrite sum_swap. apply sum_ext. intros p _. destruct (nth p (orbs l) 0 =? x).
  - rewrite sum_swap. apply sum_ext. intros q Hq. rewrite (@sum_delta2 R n (nth q (orbs l) 0) (fun c => mget (l_sigma l) p q *! X c)); auto. apply (@orbs_lt R y GS l); auto. apply nth_In. auto.
  - transitivity (sum R n (fun _ => O0)); [apply sum_ext; intros; apply sum_0|apply sum_0].
Qed.
Variable G : nat -> nat -> R.
Hypothesis HG : inverses n (inverse_gf (mget (y_ham y)) en coords sigmas) G.
Lemma psi_val x : x < n -> psi x = sum R (length (orbs li)) (fun p => G x (nth p (orbs li) 0) *! W mi Aii p b).
Proof.
  intros Hx. assert (Hin : In li leads) by (eapply nth_error_In; eauto).
  set (D := inverse_gf (mget (y_ham y)) en coords sigmas) in *.
  set (src := fun x => sum R (length (orbs li)) (fun p => if nth p (orbs li) 0 =? x then W mi Aii p b else O0)).
  assert (HD : forall x, x < n -> sum R n (fun z => D x z *! psi z) = src x).
  { clear x Hx. intros x Hx. pose proof (proj1 Sc x Hx) as E.
    assert (EF : lsum R (fun kl => lead_force y (unit_mode i b) psi amp (fst kl) (snd kl) x) (combine (seq 0 nl) leads) =
       lsum R (fun l => force_sigma R (orbs l) (l_sigma l) psi x) leads +! src x).
    { transitivity (lsum R (fun kl => force_sigma R (orbs (snd kl)) (l_sigma (snd kl)) psi x +! (if fst kl =? i then src x else O0)) (combine (seq 0 nl) leads)).
      - apply lsum_ext. intros [k ld] Hk. cbn [fst snd].
        assert (Hk' : nth_error leads k = Some ld).
        { assert (G0 : forall (ls : list (lead R)) s k ld, In (k, ld) (combine (seq s (length ls)) ls) -> s <= k /\ nth_error ls (k - s) = Some ld).
          { clear. induction ls as [|a ls IH]; intros s k ld H; [destruct H|]. cbn in H. destruct H as [[= <- <-]|H]; [rewrite Nat.sub_diag; auto|].
            apply IH in H. destruct H as [H1 H2]. split; [lia|]. replace (k - s) with (S (k - S s)) by lia. exact H2. }
          apply G0 in Hk. destruct Hk as [_ Hk]. rewrite Nat.sub_0_r in Hk. auto. }
        destruct (ML ld (nth_error_In _ _ Hk')) as (m & Hm & _ & (Ai & HA) & Hv & Hs).
        destruct (Nat.eqb_spec k i) as [->|Hne].
        + assert (ld = li) by congruence. subst ld. assert (m = mi) by congruence. subst m.
          rewrite (@lead_force_val i li mi Aii Hli Hmi HAi x Hv Hs), Nat.eqb_refl. reflexivity.
        + rewrite (@lead_force_val k ld m Ai Hk' Hm HA x Hv Hs), (proj2 (Nat.eqb_neq k i) Hne). reflexivity.
      - rewrite lsum_add. f_equal.
        + generalize 0 as s. generalize leads as ls. induction ls as [|a ls IH]; intros s; [reflexivity|]. cbn [length seq combine]. rewrite !lsum_cons, IH. reflexivity.
        + apply lsum_combine_delta. split; [lia|]. cbn [Nat.add]. apply nth_error_Some. congruence. }
    rewrite EF in E.
    assert (ED : sum R n (fun z => D x z *! psi z) = ropp R (sum R n (fun z => (mget (y_ham y) x z -! en *! delta R x z) *! psi z)) -! lsum R (fun l => force_sigma R (orbs l) (l_sigma l) psi x) leads).
    { rewrite (lsum_ext R _ (fun l => sum R n (fun z => embed (orbs l) (l_sigma l) x z *! psi z))) by (intros l Hl; apply embed_force; auto).
      rewrite <- sum_lswap. unfold sum at 2. rewrite <- lsum_opp. fold (sum R n (fun z => ropp R ((mget (y_ham y) x z -! en *! delta R x z) *! psi z))). rewrite <- sum_sub. apply sum_ext. intros z _.
      rewrite lsum_mul_r. unfold D, inverse_gf.
      assert (EC : lsum R (fun cs => embed (fst cs) (snd cs) x z) (combine coords sigmas) = lsum R (fun l => embed (orbs l) (l_sigma l) x z) leads).
      { generalize leads as lx. induction lx as [|a lx IH]; [reflexivity|]. cbn [map combine]. rewrite !lsum_cons, IH. reflexivity. }
      rewrite EC. ring. }
    rewrite ED. match type of E with ?a +! (?b0 +! ?c) = _ => transitivity (c -! (a +! (b0 +! c))); [ring|rewrite E; ring] end. }
  transitivity (sum R n (fun z => mul n G D x z *! psi z)).
  - transitivity (sum R n (fun z => if z =? x then psi z else O0)); [symmetry; apply sum_delta; auto|]. apply sum_ext. intros z Hz. rewrite (proj2 (HG Hx Hz)). unfold delta. rewrite (Nat.eqb_sym x z). destruct (z =? x); ring.
  - transitivity (sum R n (fun z => G x z *! src z)).
    + transitivity (sum R n (fun z => sum R n (fun u => G x u *! (D u z *! psi z)))); [apply sum_ext; intros z _; unfold mul; rewrite <- sum_mul_r; apply sum_ext; intros; ring|].
      rewrite sum_swap. apply sum_ext. intros u Hu. rewrite sum_mul_l, HD by auto. reflexivity.
    + unfold src. transitivity (sum R n (fun z => sum R (length (orbs li)) (fun p => if nth p (orbs li) 0 =? z then G x z *! W mi Aii p b else O0))).
      * apply sum_ext. intros z _. rewrite <- sum_mul_l. apply sum_ext. intros p _. destruct (nth p (orbs li) 0 =? z); ring.
      * rewrite sum_swap. apply sum_ext. intros p Hp. apply (@sum_delta2 R n (nth p (orbs li) 0) (fun z => G x z *! W mi Aii p b)). apply (@orbs_lt R y GS li); auto. apply nth_In. auto.
Qed.
(** the outgoing amplitudes *)
Lemma amp_G o lo mo Aio : nth_error leads o = Some lo -> l_modes lo = Some mo ->
  inverses (mr (m_u mo)) (fun k j => mget (m_ulinv mo) k (m_nprop mo + j)) Aio -> forall a, a < mr (m_u mo) ->
  amp o a = Tm R (length (orbs lo)) (length (orbs li)) (X mo Aio) (fun q p => G (nth q (orbs lo) 0) (nth p (orbs li) 0)) (W mi Aii) a b -! (if o =? i then Q mo Aio a b else O0).
Proof.
  intros Hlo Hmo HAo a Ha. rewrite (@amp_val o lo mo Aio Hlo Hmo HAo a Ha). f_equal. unfold Tm. apply sum_ext. intros q Hq. f_equal.
  apply psi_val. apply (@orbs_lt R y GS lo); [eapply nth_error_In; eauto|]. apply nth_In. auto.
Qed.
End State.
End Sys.
