(** * Scattering matrices are unitary and do not depend on how they are computed. *)
From Coq Require Import List Bool Arith ZArith Ring Lia.
From Verif Require SubmatrixMain.
From Verif Require Import StarRing SubmatrixModel SolverModel SolverSpec SolverProofs SolverLinear SolverLinear2 SolverMain SolverFlux SolverField.
Import ListNotations.
Set Implicit Arguments.

Section Unitary.
Variable R : StarRing.
Add Ring RringUn : (r_theory R).
Notation mat := (mat R).
Notation conj := (rconj R).
Notation "x +! y" := (radd R x y) (at level 50, left associativity).
Notation "x -! y" := (rsub R x y) (at level 50, left associativity).
Notation "x *! y" := (rmul R x y) (at level 40, left associativity).
Notation O0 := (r0 R).

Lemma sum_nth {A} (l : list A) d (F : A -> R) : sum R (length l) (fun r => F (nth r l d)) = lsum R F l.
Proof.
  induction l as [|a l IH]; [reflexivity|]. cbn [length]. rewrite lsum_cons, <- IH. replace (S (length l)) with (1 + length l) by lia. rewrite sum_split.
  unfold sum at 1. cbn [seq]. rewrite lsum_cons, lsum_nil. cbn [nth Nat.add]. ring.
Qed.
Lemma lsum_modes (y : syst R) (F : mode -> R) :
  lsum R F (modes_of (mode_counts y) (all_leads (length (y_leads y)))) =
  lsum R (fun kl => sum R (lead_nmodes (snd kl)) (fun j => F (Z.of_nat (fst kl), j))) (combine (seq 0 (length (y_leads y))) (y_leads y)).
Proof.
  unfold modes_of. rewrite lsum_flat_map. unfold all_leads. rewrite lsum_map.
  assert (G : forall (ls : list (lead R)) s (f : nat -> R) (g : nat * lead R -> R), (forall k l, nth_error ls k = Some l -> f (s + k) = g (s + k, l)) ->
     lsum R f (seq s (length ls)) = lsum R g (combine (seq s (length ls)) ls)).
  { induction ls as [|a ls IH]; intros s f g H; [reflexivity|]. cbn [length seq combine]. rewrite !lsum_cons. f_equal.
    - specialize (H 0 a eq_refl). rewrite Nat.add_0_r in H. auto.
    - apply IH. intros k l Hk. specialize (H (S k) l Hk). rewrite Nat.add_succ_comm. auto. }
  apply G. intros k l Hk. cbn [Nat.add fst snd]. unfold size, mode_counts. rewrite Nat2Z.id. rewrite (nth_error_nth _ _ 0 (map_nth_error lead_nmodes _ _ Hk)). rewrite lsum_map. reflexivity.
Qed.

Variable herm_ok : mat -> bool.
Variable solve : mat -> mat -> list nat -> sres mat.
Hypothesis EX : exact_solver solve.
Variable y : syst R.
Hypothesis GS : good_syst y.
Hypothesis HH : hermitian_ham y.
Variable en : R.
Hypothesis Hreal : conj en = en.
Hypothesis UC : forall l m, In l (y_leads y) -> l_modes l = Some m -> unit_currents m.
Hypothesis HN : no_empty_lead y.
Hypothesis NS : forall l, In l (y_leads y) -> l_modes l <> None.
Notation n := (mr (y_ham y)).
Notation leads := (y_leads y).
Notation nl := (length leads).
Notation counts := (mode_counts y).
Notation ms := (modes_of counts (all_leads nl)).

(** inner products of outgoing and of incoming amplitudes agree *)
Lemma flux_modes inc1 psi1 amp1 inc2 psi2 amp2 : scattering y en inc1 psi1 amp1 -> scattering y en inc2 psi2 amp2 ->
  lsum R (fun x => conj (amp1 (Z.to_nat (fst x)) (snd x)) *! amp2 (Z.to_nat (fst x)) (snd x)) ms =
  lsum R (fun x => conj (inc1 (Z.to_nat (fst x)) (snd x)) *! inc2 (Z.to_nat (fst x)) (snd x)) ms.
Proof.
  intros S1 S2. pose proof (@flux R y GS HH en Hreal UC inc1 inc2 amp1 amp2 psi1 psi2 S1 S2) as F.
  rewrite !lsum_modes. cbn [fst snd].
  match goal with |- ?a = ?b => transitivity (b +! (a -! b)); [ring|]; assert (E : a -! b = O0); [|rewrite E; ring] end.
  rewrite <- lsum_sub, <- F. apply lsum_ext. intros [k l] Hk. cbn [fst snd]. unfold lead_current, lead_nmodes.
  destruct (l_modes l) as [m|] eqn:Em; [rewrite Nat2Z.id; reflexivity|]. exfalso. apply (NS l); auto. eapply in_combine_r; eauto.
Qed.
Lemma modes_NoDup sizes k : NoDup (modes_of sizes (all_leads k)).
Proof.
  unfold modes_of, all_leads. rewrite flat_map_concat_map, map_map, <- flat_map_concat_map.
  apply SubmatrixMain.flat_map_NoDup; [apply seq_NoDup| |].
  - intros a _. apply FinFun.Injective_map_NoDup; [intros x x' [= ->]; auto|apply seq_NoDup].
  - intros a b x Ha Hb Hx Hx'. apply in_map_iff in Hx, Hx'. destruct Hx as (p & <- & _), Hx' as (p' & [= E E'] & _). lia.
Qed.
Lemma lsum_unit (F : mode -> R) (l : list mode) x : NoDup l -> In x l -> (forall z, In z l -> z <> x -> F z = O0) -> lsum R F l = F x.
Proof.
  induction l as [|a l IH]; intros Hnd Hx H0; [destruct Hx|]. inversion Hnd; subst. rewrite lsum_cons. destruct Hx as [->|Hx].
  - assert (E : lsum R F l = O0). { transitivity (lsum R (fun _ : mode => O0) l); [apply lsum_ext; intros z Hz; apply H0; [right; auto|intros ->; auto]|apply lsum_0]. } rewrite E. ring.
  - rewrite (H0 a); [|left; auto|intros ->; auto]. rewrite IH; auto; [ring|]. intros z Hz. apply H0. right; auto.
Qed.
Lemma lsum_incoming l b l' b' : In (l, b) ms -> In (l', b') ms ->
  lsum R (fun x => conj (unit_mode (R := R) (Z.to_nat l) b (Z.to_nat (fst x)) (snd x)) *! unit_mode (R := R) (Z.to_nat l') b' (Z.to_nat (fst x)) (snd x)) ms = if mode_eqb (l, b) (l', b') then r1 R else O0.
Proof.
  intros H1 H2.
  assert (Pos : forall z, In z ms -> (0 <= fst z)%Z). { intros [a c] Hz. unfold modes_of, all_leads in Hz. apply in_flat_map in Hz. destruct Hz as (u & Hu & Hz). apply in_map_iff in Hu, Hz. destruct Hu as (v & <- & _), Hz as (w & [= <- <-] & _). cbn. lia. }
  assert (U : forall l0 b0 z, In (l0, b0) ms -> In z ms -> unit_mode (R := R) (Z.to_nat l0) b0 (Z.to_nat (fst z)) (snd z) = if mode_eqb (l0, b0) z then r1 R else O0).
  { intros l0 b0 z Hz0 Hz. pose proof (Pos _ Hz0) as P0. pose proof (Pos _ Hz) as P1. cbn [fst] in P0. unfold unit_mode, mode_eqb. cbn [fst snd]. rewrite (Nat.eqb_sym (snd z)).
    destruct (Nat.eqb_spec (Z.to_nat (fst z)) (Z.to_nat l0)); destruct (Z.eqb_spec l0 (fst z)); auto; exfalso; lia. }
  rewrite (@lsum_unit _ ms (l, b) (modes_NoDup _ _) H1).
  - rewrite (U l b (l, b)), (U l' b' (l, b)) by auto. unfold mode_eqb. cbn [fst snd]. rewrite Z.eqb_refl, Nat.eqb_refl. cbn [andb]. rewrite (Z.eqb_sym l' l), (Nat.eqb_sym b' b), conj1. destruct ((l =? l')%Z && (b =? b')); ring.
  - intros z Hz Hne. rewrite (U l b z) by auto. destruct (mode_eqb (l, b) z) eqn:E; [|rewrite conj0; ring]. exfalso. apply Hne. unfold mode_eqb in E. destruct z as [z1 z2]. cbn in E. apply andb_true_iff in E. destruct E as [E1 E2]. apply Z.eqb_eq in E1. apply Nat.eqb_eq in E2. congruence.
Qed.

(** ** Isometry *)
Lemma in_all_leads z : In z (all_leads nl) -> (0 <= z)%Z.
Proof. unfold all_leads. intros H. apply in_map_iff in H. destruct H as (k & <- & _). lia. Qed.
Lemma sub_modes l : good_leads nl l -> forall x, In x (modes_of counts l) -> In x ms.
Proof.
  intros [_ Hv] x Hx. unfold modes_of in *. apply in_flat_map in Hx. destruct Hx as (z & Hz & Hx). apply in_flat_map. exists z. split; auto.
  destruct (Hv z Hz). unfold all_leads. apply in_map_iff. exists (Z.to_nat z). split; [lia|]. apply in_seq. lia.
Qed.
Theorem smatrix_isometry inn check q : nonneg_leads (lead_list nl inn) -> smatrix herm_ok solve y en None inn check = inl q ->
  forall c c' x x', nth_error (modes_of counts (lead_list nl inn)) c = Some x -> nth_error (modes_of counts (lead_list nl inn)) c' = Some x' ->
  sum R (mr (q_data q)) (fun r => conj (mget (q_data q) r c) *! mget (q_data q) r c') = if mode_eqb x x' then r1 R else O0.
Proof.
  intros Hi H c c' [l b] [l' b'] Hc Hc'.
  destruct (@smatrix_scattering R herm_ok solve EX y GS en check None inn q HN (fun z Hz => in_all_leads z Hz) Hi H) as (_ & Gi & _ & M1 & _ & MS).
  cbn [lead_list] in M1, MS.
  assert (I1 : In (l, b) ms) by (eapply sub_modes; eauto; eapply nth_error_In; eauto).
  assert (I2 : In (l', b') ms) by (eapply sub_modes; eauto; eapply nth_error_In; eauto).
  assert (NE : ms <> []) by (intros E; rewrite E in I1; destruct I1). specialize (MS NE).
  destruct (MS c l b Hc) as (psi1 & amp1 & S1 & A1). destruct (MS c' l' b' Hc') as (psi2 & amp2 & S2 & A2).
  rewrite <- (lsum_incoming l b l' b' I1 I2), <- (flux_modes S1 S2), M1, <- (sum_nth ms (0%Z, 0)).
  apply sum_ext. intros r Hr. destruct (nth_error ms r) as [[k a]|] eqn:Er; [|apply nth_error_None in Er; lia].
  rewrite (A1 r k a Er), (A2 r k a Er), (nth_error_nth _ _ _ Er). reflexivity.
Qed.

(** ** Unitarity *)
Lemma mode_eqb_iff x x' : mode_eqb x x' = true <-> x = x'.
Proof. destruct x as [a b], x' as [a' b']. unfold mode_eqb. cbn. rewrite andb_true_iff, Z.eqb_eq, Nat.eqb_eq. split; [intros [-> ->]; auto|intros [= -> ->]; auto]. Qed.
Lemma mode_index_nth l : NoDup l -> forall k x, nth_error l k = Some x -> mode_index x l = k.
Proof.
  induction 1 as [|a l Ha Hl IH]; intros k x Hk; [destruct k; discriminate|]. cbn [mode_index]. destruct k; cbn in Hk.
  - injection Hk as ->. rewrite (proj2 (mode_eqb_iff x x) eq_refl). reflexivity.
  - destruct (mode_eqb x a) eqn:E; [|rewrite (IH k x Hk); auto]. apply mode_eqb_iff in E. subst. exfalso. apply Ha. eapply nth_error_In; eauto.
Qed.
Theorem smatrix_unitary check q : is_field R -> smatrix herm_ok solve y en None None check = inl q ->
  data_for counts (elem counts (all_leads nl) (all_leads nl) (q_data q)) (all_leads nl) (all_leads nl) (q_data q) /\
  unitary counts (elem counts (all_leads nl) (all_leads nl) (q_data q)).
Proof.
  intros (inv & Hinv) H. pose proof H as H'.
  assert (Hn0 : nonneg_leads (all_leads nl)) by exact in_all_leads.
  destruct (@smatrix_scattering R herm_ok solve EX y GS en check None None q HN Hn0 Hn0 H') as (_ & _ & _ & M1 & M2 & _). cbn [lead_list] in *.
  pose proof (@smatrix_isometry None check q Hn0 H) as Iso. cbn [lead_list] in Iso. set (D := q_data q) in *.
  split.
  - split; [auto|split; [auto|]]. intros r c x x' Hr Hc. unfold elem. rewrite (mode_index_nth (modes_NoDup _ _) _ Hr), (mode_index_nth (modes_NoDup _ _) _ Hc). reflexivity.
  - assert (Hpos : forall x, In x ms -> exists k, nth_error ms k = Some x /\ k < length ms /\ mode_index x ms = k).
    { intros x Hx. apply In_nth_error in Hx. destruct Hx as (k & Hk). exists k. split; auto. split; [apply nth_error_Some; congruence|]. apply mode_index_nth; auto. apply modes_NoDup. }
    assert (Hidx : forall k, k < length ms -> mode_index (nth k ms (0%Z, 0)) ms = k).
    { intros k Hk. destruct (nth_error ms k) as [x|] eqn:E; [|apply nth_error_None in E; lia]. rewrite (nth_error_nth _ _ _ E). apply mode_index_nth; auto. apply modes_NoDup. }
    assert (L : forall i j, i < length ms -> j < length ms -> mul (length ms) (fun i k => conj (mget D k i)) (fun k j => mget D k j) i j = delta R i j).
    { intros i j Hi Hj. destruct (nth_error ms i) as [x|] eqn:Ei; [|apply nth_error_None in Ei; lia]. destruct (nth_error ms j) as [x'|] eqn:Ej; [|apply nth_error_None in Ej; lia].
      unfold mul. rewrite M1 in Iso. rewrite (Iso i j x x' Ei Ej). unfold delta. destruct (Nat.eqb_spec i j) as [->|Hne].
      - assert (x = x') by congruence. subst x'. rewrite (proj2 (mode_eqb_iff x x) eq_refl). reflexivity.
      - destruct (mode_eqb x x') eqn:E; auto. apply mode_eqb_iff in E. subst x'. exfalso. apply Hne. pose proof (modes_NoDup counts nl) as ND. rewrite NoDup_nth_error in ND. apply ND; [auto|congruence]. }
    pose proof (@left_right R inv Hinv (length ms) _ _ L) as L'.
    assert (Elen : length counts = nl) by (unfold mode_counts; apply map_length).
    unfold unitary. rewrite Elen. unfold elem. split; intros x x' Hx Hx'; destruct (Hpos x Hx) as (i & Ei & Hi & Ii), (Hpos x' Hx') as (j & Ej & Hj & Ij).
    + assert (E : lsum R (fun y0 => mget D (mode_index x ms) (mode_index y0 ms) *! conj (mget D (mode_index x' ms) (mode_index y0 ms))) ms = delta R i j).
      { rewrite <- (L' i j Hi Hj). unfold mul. rewrite <- (sum_nth ms (0%Z, 0)). apply sum_ext. intros k Hk. rewrite Hidx, Ii, Ij by auto. reflexivity. }
      rewrite E. unfold delta. split.
      * intros Exx. assert (Eij : i = j) by congruence. rewrite Eij, Nat.eqb_refl. reflexivity.
      * intros Hne. destruct (Nat.eqb_spec i j) as [Eij|]; auto. exfalso. apply Hne. congruence.
    + assert (E : lsum R (fun y0 => conj (mget D (mode_index y0 ms) (mode_index x ms)) *! mget D (mode_index y0 ms) (mode_index x' ms)) ms = delta R i j).
      { rewrite <- (L i j Hi Hj). unfold mul. rewrite <- (sum_nth ms (0%Z, 0)). apply sum_ext. intros k Hk. rewrite Hidx, Ii, Ij by auto. reflexivity. }
      rewrite E. unfold delta. split.
      * intros Exx. assert (Eij : i = j) by congruence. rewrite Eij, Nat.eqb_refl. reflexivity.
      * intros Hne. destruct (Nat.eqb_spec i j) as [Eij|]; auto. exfalso. apply Hne. congruence.
Qed.

(** ** Uniqueness *)
Lemma scattering_sub inc psi1 amp1 psi2 amp2 : scattering y en inc psi1 amp1 -> scattering y en inc psi2 amp2 ->
  scattering y en (fun _ _ => O0) (fun x => psi1 x -! psi2 x) (fun l a => amp1 l a -! amp2 l a).
Proof.
  intros [A1 B1] [A2 B2].
  assert (S2 : forall k (f g1 g2 : nat -> R), sum R k (fun z => f z *! (g1 z -! g2 z)) = sum R k (fun z => f z *! g1 z) -! sum R k (fun z => f z *! g2 z)).
  { intros k f g1 g2. rewrite <- sum_sub. apply sum_ext. intros; ring. }
  assert (S0 : forall k (f : nat -> R), sum R k (fun z => f z *! O0) = O0) by (intros; apply sum_zero; intros; ring).
  split.
  - intros x Hx. rewrite S2.
    rewrite (lsum_ext R (fun nl0 => lead_force y (fun _ _ => O0) (fun x0 => psi1 x0 -! psi2 x0) (fun l a => amp1 l a -! amp2 l a) (fst nl0) (snd nl0) x)
       (fun nl0 => lead_force y inc psi1 amp1 (fst nl0) (snd nl0) x -! lead_force y inc psi2 amp2 (fst nl0) (snd nl0) x)).
    + rewrite lsum_sub. specialize (A1 x Hx). specialize (A2 x Hx).
      match type of A1 with ?a +! ?b = _ => match type of A2 with ?c +! ?d = _ => transitivity ((a +! b) -! (c +! d)); [ring|rewrite A1, A2; ring] end end.
    + intros [k l] _. cbn [fst snd]. unfold lead_force. cbv zeta. rewrite <- sum_sub. apply sum_ext. intros p _. destruct (nth p (lead_orbs (y_norb y) l) 0 =? x); [|ring].
      destruct (l_modes l); [rewrite S2, S0; ring|apply S2].
  - intros num l m Hn Em k Hk. cbv zeta. rewrite !S2, S0, (B1 num l m Hn Em k Hk), (B2 num l m Hn Em k Hk). ring.
Qed.
Theorem amplitudes_unique : positive R -> forall inc psi1 amp1 psi2 amp2, scattering y en inc psi1 amp1 -> scattering y en inc psi2 amp2 ->
  forall x, In x ms -> amp1 (Z.to_nat (fst x)) (snd x) = amp2 (Z.to_nat (fst x)) (snd x).
Proof.
  intros HP inc psi1 amp1 psi2 amp2 S1 S2 x Hx. pose proof (scattering_sub S1 S2) as S. pose proof (flux_modes S S) as F.
  assert (F0 : lsum R (fun _ : mode => conj O0 *! O0) ms = O0). { transitivity (lsum R (fun _ : mode => O0) ms); [apply lsum_ext; intros; ring|apply lsum_0]. }
  pose proof (eq_trans F F0 : lsum R (fun x0 => conj (amp1 (Z.to_nat (fst x0)) (snd x0) -! amp2 (Z.to_nat (fst x0)) (snd x0)) *! (amp1 (Z.to_nat (fst x0)) (snd x0) -! amp2 (Z.to_nat (fst x0)) (snd x0))) ms = O0) as F1. clear F. rename F1 into F.
  rewrite <- (sum_nth ms (0%Z, 0)) in F.
  apply In_nth_error in Hx. destruct Hx as (k & Hk). assert (Hlt : k < length ms) by (apply nth_error_Some; congruence).
  pose proof (HP _ (fun r => amp1 (Z.to_nat (fst (nth r ms (0%Z, 0)))) (snd (nth r ms (0%Z, 0))) -! amp2 (Z.to_nat (fst (nth r ms (0%Z, 0)))) (snd (nth r ms (0%Z, 0)))) F k Hlt) as E. cbv beta in E.
  rewrite (nth_error_nth _ _ _ Hk) in E. transitivity (amp2 (Z.to_nat (fst x)) (snd x) +! (amp1 (Z.to_nat (fst x)) (snd x) -! amp2 (Z.to_nat (fst x)) (snd x))); [ring|]. rewrite E. ring.
Qed.
End Unitary.

Section Agree.
Variable R : StarRing.
Variables (herm1 herm2 : mat R -> bool) (solve1 solve2 : mat R -> mat R -> list nat -> sres (mat R)).
Hypothesis (EX1 : exact_solver solve1) (EX2 : exact_solver solve2).
Variable y : syst R.
Hypothesis GS : good_syst y.
Hypothesis HH : hermitian_ham y.
Variable en : R.
Hypothesis Hreal : rconj R en = en.
Hypothesis UC : forall l m, In l (y_leads y) -> l_modes l = Some m -> unit_currents m.
Hypothesis HN : no_empty_lead y.
Hypothesis NS : forall l, In l (y_leads y) -> l_modes l <> None.
Notation nl := (length (y_leads y)).
Notation counts := (mode_counts y).
Theorem smatrix_agree out1 inn1 check1 q1 out2 inn2 check2 q2 : positive R ->
  nonneg_leads (lead_list nl out1) -> nonneg_leads (lead_list nl inn1) -> nonneg_leads (lead_list nl out2) -> nonneg_leads (lead_list nl inn2) ->
  smatrix herm1 solve1 y en out1 inn1 check1 = inl q1 -> smatrix herm2 solve2 y en out2 inn2 check2 = inl q2 ->
  forall x x' r1 c1 r2 c2,
    nth_error (modes_of counts (lead_list nl out1)) r1 = Some x -> nth_error (modes_of counts (lead_list nl inn1)) c1 = Some x' ->
    nth_error (modes_of counts (lead_list nl out2)) r2 = Some x -> nth_error (modes_of counts (lead_list nl inn2)) c2 = Some x' ->
    mget (q_data q1) r1 c1 = mget (q_data q2) r2 c2.
Proof.
  intros HP O1 I1 O2 I2 H1 H2 [l a] [l' b] r1 c1 r2 c2 R1 C1 R2 C2.
  destruct (@smatrix_scattering R herm1 solve1 EX1 y GS en check1 out1 inn1 q1 HN O1 I1 H1) as (G1 & _ & _ & _ & _ & M1).
  destruct (@smatrix_scattering R herm2 solve2 EX2 y GS en check2 out2 inn2 q2 HN O2 I2 H2) as (_ & _ & _ & _ & _ & M2).
  assert (N1 : modes_of counts (lead_list nl out1) <> []) by (intros E; rewrite E in R1; destruct r1; discriminate).
  assert (N2 : modes_of counts (lead_list nl out2) <> []) by (intros E; rewrite E in R2; destruct r2; discriminate).
  destruct (M1 N1 c1 l' b C1) as (psi1 & amp1 & S1 & A1). destruct (M2 N2 c2 l' b C2) as (psi2 & amp2 & S2 & A2).
  rewrite (A1 r1 l a R1), (A2 r2 l a R2).
  apply (@amplitudes_unique R y GS HH en Hreal UC NS HP _ _ _ _ _ S1 S2 (l, a)). apply (@sub_modes R y (lead_list nl out1) G1). eapply nth_error_In; eauto.
Qed.
End Agree.
