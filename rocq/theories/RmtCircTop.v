(** * Proofs for C53: the results of circular. *)
From Coq Require Import List Bool Arith ZArith Ring Lia Setoid Morphisms.
From Verif Require Import StarRing KpmCorrSpec KpmTrace RmtModel RmtSpec RmtProofs RmtGauss RmtAlg RmtTri RmtCirc RmtCircMain.
Import ListNotations.
Set Implicit Arguments.

Section Top.
Variable R : StarRing.
Add Ring RringRct : (r_theory R).
Notation matrix := (nat -> nat -> R).
Local Open Scope star_scope.
Notation "0" := (r0 R) : star_scope.
Notation "1" := (r1 R) : star_scope.
Notation conj := (rconj R).
Notation im := (ri R).
Variables (qr : matrix -> matrix * matrix) (phase : R -> R) (is_zero : R -> bool) (detpos : matrix -> bool).
Variables (n : nat) (charge : option Z) (g1 g2 : matrix) (bits : nat -> bool).
Notation "x ** y" := (mmul n x y) (at level 40, left associativity).
Notation "x == y" := (@meq R n x y) (at level 70).
Notation I := (@unit_matrix R).
Notation Y := (@pauli_y R).
Variable pos : R -> Prop.
Hypothesis PN : positive_numbers pos.
Hypothesis R1 : forall i j, conj (g1 i j) = g1 i j.
Hypothesis Z0 : forall x, is_zero x = true -> x = 0.
Definition good (s : sym) : Prop := qr_ok n (circular_input s g1 g2) (qq qr s g1 g2) (rr qr s g1 g2)
  /\ forall j, (j < n)%nat -> is_phase pos (rr qr s g1 g2 j j) (phase (rr qr s g1 g2 j j)).
Notation circ s := (circular qr phase is_zero detpos n s charge g1 g2 bits).
Notation sw s := (swapped qr phase detpos n s charge g1 g2).
Notation u s := (u1 qr phase detpos n s charge g1 g2).
Notation uz s := (u0 qr phase s g1 g2).

Lemma circ_inl s w : circ s = inl w -> size_ok n s /\ zero_ok qr is_zero n s g1 g2 /\ d_charge s charge /\ (sw s = true -> (2 <= n)%nat) /\ finish qr phase detpos n s charge g1 g2 bits = inl w.
Proof.
  intros E. destruct (@circular_split R qr phase is_zero detpos n s charge g1 g2 bits) as (A & B & C & D & F).
  cbv zeta in *. rewrite E in *.
  assert (S : size_ok n s). { destruct (Nat.eq_dec (n mod 2) 0) as [e|e]; [intros _; auto|]. intros H. exfalso. assert (N : ~ size_ok n s) by (intros N; apply e, N, H). discriminate (A N). }
  assert (Zo : zero_ok qr is_zero n s g1 g2). { unfold zero_ok. destruct (forallb _ _) eqn:Ef; auto. intros Hp. exfalso.
    assert (N : ~ zero_ok qr is_zero n s g1 g2) by (intros N; specialize (N Hp); congruence). discriminate (B S N). }
  assert (Dc : d_charge s charge). { intros c Hc Hd. destruct (Z.eq_dec c 1) as [|N1]; auto. destruct (Z.eq_dec c (-1)) as [|N2]; auto. exfalso.
    assert (N : ~ d_charge s charge) by (intros N; destruct (N c Hc Hd); auto). discriminate (C S Zo N). }
  assert (Sw : sw s = true -> (2 <= n)%nat). { intros Hs. destruct (Nat.lt_ge_cases n 2) as [L|L]; auto. discriminate (D S Zo Dc Hs L). }
  repeat split; auto. rewrite <- F; auto.
Qed.
Lemma u1_unitary s : good s -> (sw s = true -> (2 <= n)%nat) -> unitary n (u s).
Proof.
  intros [Q Ph] Sw. unfold u1. assert (U : unitary n (uz s)) by (apply (@u_unitary R n pos s g1 g2 (qq qr s g1 g2) (rr qr s g1 g2) phase Q Ph)).
  destruct (swapped qr phase detpos n s charge g1 g2); auto. apply swap_unitary; auto.
Qed.
Lemma u1_real s : good s -> (sw s = true -> (2 <= n)%nat) -> sq_p s = 1%Z -> mC (u s) == u s.
Proof.
  intros [Q Ph] Sw Hp. unfold u1. assert (U : mC (uz s) == uz s) by (apply (@u_real R n pos s g1 g2 (qq qr s g1 g2) (rr qr s g1 g2) phase R1 Q Ph Hp)).
  destruct (swapped qr phase detpos n s charge g1 g2); auto. intros i j Hi Hj. unfold mC. apply (U (last_two n i) j); auto. apply last_two_lt; auto.
Qed.
Lemma u1_J s : good s -> size_ok n s -> zero_ok qr is_zero n s g1 g2 -> sq_p s = (-1)%Z -> Y ** mC (u s) ** Y == u s.
Proof.
  intros [Q Ph] Sz Zo Hp. unfold u1. assert (Sw : swapped qr phase detpos n s charge g1 g2 = false).
  { unfold swapped. destruct charge; auto. destruct s; try discriminate Hp; reflexivity. }
  rewrite Sw. assert (Hn : (n mod 2 = 0)%nat) by (apply Sz; auto).
  apply (@u_J R n pos PN s g1 g2 (qq qr s g1 g2) (rr qr s g1 g2) phase Q Ph Hn Hp).
  intros k Hk. apply Z0. specialize (Zo Hp). rewrite forallb_forall in Zo. apply Zo. apply in_seq. pose proof (Nat.div_mod n 2 ltac:(lia)). lia.
Qed.
Lemma f_ci s (v : matrix) : size_ok n s -> sq_p s = (-1)%Z -> (fun i j => im * tau_z R j * sum R n (fun k => v k i * v k (idx_x j))) == mT v ** v ** Y.
Proof. intros Sz Hp i j Hi Hj. rewrite Y_mul_r by (auto; apply Sz; auto). reflexivity. Qed.
Lemma f_aii s (v : matrix) : size_ok n s -> sq_t s = (-1)%Z -> (fun i j => im * sum R n (fun k => (v k i * tau_z R k) * v (idx_x k) j)) == mN (mT v ** (Y ** v)).
Proof.
  intros Sz Ht i j Hi Hj. unfold mN. unfold mmul at 1. rewrite <- sum_mul_l. transitivity (sum R n (fun k => - (1) * (mT v i k * (Y ** v) k j))).
  - apply sum_ext. intros k Hk. rewrite Y_mul_l by (auto; apply Sz; auto). unfold mT. ring.
  - rewrite sum_mul_l. ring.
Qed.
Lemma f_chiral d (v : matrix) : (fun i j => sum R n (fun k => (d k * conj (v k i)) * v k j)) == mT (mC v) ** (dmat R d ** v).
Proof. intros i j Hi Hj. unfold mmul at 1. apply sum_ext. intros k Hk. rewrite dmat_l by auto. unfold mT, mC. ring. Qed.
Lemma diag_ok s d : chiral_diag n s charge bits = inl d -> (forall i, conj (d i) = d i) /\ (forall i, d i * d i = 1) /\ (s = SCII -> forall i, d (idx_x i) = d i).
Proof.
  assert (Hb : forall b : bool, conj (if b then 1 else - (1)) = (if b then 1 else - (1)) /\ (if b then 1 else - (1)) * (if b then 1 else - (1)) = 1).
  { intros [|]; split; rewrite ?conj_opp, ?conj1; try reflexivity; ring. }
  assert (Hx : forall i, (idx_x i / 2 = i / 2)%nat).
  { intros i. unfold idx_x. destruct (two_cases i) as (q & r & -> & [-> | ->]); rewrite even_2; cbn [Nat.even].
    - replace (2 * q + 0 + 1)%nat with (1 + q * 2)%nat by lia. replace (2 * q + 0)%nat with (0 + q * 2)%nat by lia. rewrite !Nat.div_add by lia. reflexivity.
    - replace (2 * q + 1 - 1)%nat with (0 + q * 2)%nat by lia. replace (2 * q + 1)%nat with (1 + q * 2)%nat by lia. rewrite !Nat.div_add by lia. reflexivity. }
  assert (Hl : forall i m, (idx_x i <? 2 * m)%nat = (i <? 2 * m)%nat).
  { intros i m. unfold idx_x. destruct (two_cases i) as (q & r & -> & [-> | ->]); rewrite even_2; cbn [Nat.even];
    match goal with |- (?a <? ?b)%nat = (?c <? ?d)%nat => destruct (Nat.ltb_spec a b); destruct (Nat.ltb_spec c d) end; auto; lia. }
  unfold chiral_diag. destruct s; destruct charge as [c|];
    try (destruct ((_ <=? _)%Z && (_ <=? _)%Z); [|discriminate]); (match goal with |- inl ?x = inl ?y -> _ => let E := fresh in intros E; assert (x = y) by congruence; subst y end);
    (split; [intros i; apply Hb|split; [intros i; apply Hb|intros Hs; try discriminate Hs; intros i; cbv beta; rewrite ?Hl, ?Hx; reflexivity]]).
Qed.
Lemma finish_ok s w : good s -> circ s = inl w -> unitary n w /\ circ_c n s w /\ circ_t n s w /\ circ_p n s w.
Proof.
  intros G E. destruct (circ_inl s E) as (Sz & Zo & Dc & Sw & F). clear E.
  pose proof (u1_unitary G Sw) as U. pose proof (u1_real G Sw) as Rl. pose proof (u1_J G Sz Zo) as J.
  unfold finish in F. unfold circ_c, circ_t, circ_p. destruct s; cbn [doc_c] in *.
  - injection F as <-. repeat split; auto; try discriminate; apply U.
  - injection F as <-. change (fun i j => sum R n (fun k => u SAI k i * u SAI k j)) with (mT (u SAI) ** (u SAI)).
    destruct (ai_ok U) as [A B]. split; auto. split; [discriminate|]. split; auto.
  - injection F as <-. destruct (@aii_ok R n (u SAII) ltac:(apply Sz; auto) U) as (A & B & _).
    pose proof (@f_aii SAII (u SAII) Sz eq_refl) as E. split; [apply (unitary_eq (symmetry E)); exact A|]. split; [discriminate|]. split; [rewrite E; exact B|auto].
  - destruct (chiral_diag n SAIII charge bits) as [d|] eqn:Ed; [|discriminate]. injection F as <-. destruct (diag_ok SAIII Ed) as (D1 & D2 & _).
    destruct (@chiral_ok R n d (u SAIII) D1 D2 U) as (A & B & _). pose proof (f_chiral d (u SAIII)) as E.
    split; [apply (unitary_eq (symmetry E)); exact A|]. split; [intros _; rewrite E; exact B|auto].
  - destruct (chiral_diag n SBDI charge bits) as [d|] eqn:Ed; [|discriminate]. injection F as <-. destruct (diag_ok SBDI Ed) as (D1 & D2 & _).
    destruct (@chiral_ok R n d (u SBDI) D1 D2 U) as (A & B & C & _). pose proof (f_chiral d (u SBDI)) as E. destruct (C (Rl eq_refl)) as [C1 C2].
    split; [apply (unitary_eq (symmetry E)); exact A|]. split; [intros _; rewrite E; exact B|]. split; rewrite E; auto.
  - destruct (chiral_diag n SCII charge bits) as [d|] eqn:Ed; [|discriminate]. injection F as <-. destruct (diag_ok SCII Ed) as (D1 & D2 & D3).
    destruct (@chiral_ok R n d (u SCII) D1 D2 U) as (A & B & _ & C). pose proof (f_chiral d (u SCII)) as E.
    destruct (C ltac:(apply Sz; auto) (fun i _ => D3 eq_refl i) (J eq_refl)) as [C1 C2].
    split; [apply (unitary_eq (symmetry E)); exact A|]. split; [intros _; rewrite E; exact B|]. split; rewrite E; auto.
  - injection F as <-. split; [auto|]. split; [discriminate|]. split; [auto|]. symmetry. auto.
  - injection F as <-. destruct (@aii_ok R n (u SDIII) ltac:(apply Sz; auto) U) as (A & B & C). destruct (C (Rl eq_refl)) as [C1 C2].
    pose proof (@f_aii SDIII (u SDIII) Sz eq_refl) as E. split; [apply (unitary_eq (symmetry E)); exact A|]. split; [intros _; rewrite E; exact C2|]. split; rewrite E; auto.
  - injection F as <-. split; [auto|]. split; [discriminate|]. split; [auto|]. symmetry. auto.
  - injection F as <-. destruct (@ci_ok R n (u SCI) ltac:(apply Sz; auto) U (J eq_refl)) as (A & B & C & D).
    pose proof (@f_ci SCI (u SCI) Sz eq_refl) as E. split; [apply (unitary_eq (symmetry E)); exact A|]. split; [intros _; rewrite E; exact B|]. split; rewrite E; auto.
Qed.
(** the trace *)
Lemma trace_chiral d (v : matrix) : unitary n v -> trace n (fun i j => sum R n (fun k => (d k * conj (v k i)) * v k j)) = sum R n d.
Proof.
  intros [_ B]. unfold trace. etransitivity; [apply sum_swap|]. apply sum_ext. intros k Hk.
  transitivity (d k * (v ** mT (mC v)) k k).
  - unfold mmul. rewrite <- sum_mul_l. apply sum_ext. intros i _. unfold mT, mC. ring.
  - rewrite B by auto. unfold unit_matrix. rewrite Nat.eqb_refl. ring.
Qed.
Lemma sum_signs m k : (k <= m)%nat -> sum R m (fun i => if negb (i <? k)%nat then 1 else - (1)) = sum R m (fun _ => 1) - (1 + 1) * sum R k (fun _ => 1).
Proof.
  intros H. replace m with (k + (m - k))%nat by lia. rewrite !sum_split.
  rewrite (@sum_ext R k (fun i => if negb (i <? k)%nat then 1 else - (1)) (fun i => - (1) * 1)) by (intros i Hi; destruct (Nat.ltb_spec i k); [cbn [negb]; ring|lia]).
  rewrite (@sum_ext R (m - k) (fun i => if negb (k + i <? k)%nat then 1 else - (1)) (fun i => 1)) by (intros i Hi; destruct (Nat.ltb_spec (k + i) k); [lia|reflexivity]).
  rewrite sum_mul_l. ring.
Qed.
Lemma trace_ok s w c : good s -> circ s = inl w -> charge = Some c ->
  (s = SAIII \/ s = SBDI -> trace n w = sum R n (fun _ => 1) - (1 + 1) * sum R (Z.to_nat c) (fun _ => 1))
  /\ (s = SCII -> trace n w = sum R n (fun _ => 1) - (1 + 1) * sum R (2 * Z.to_nat c) (fun _ => 1)).
Proof.
  intros G E Hc. destruct (circ_inl s E) as (Sz & Zo & Dc & Sw & F). clear E. pose proof (u1_unitary G Sw) as U. unfold finish in F.
  assert (A : forall d k, chiral_diag n s charge bits = inl d -> (k <= n)%nat -> d = (fun i => if negb (i <? k)%nat then 1 else - (1)) ->
    trace n (fun i j => sum R n (fun k0 => (d k0 * conj (u s k0 i)) * u s k0 j)) = sum R n (fun _ => 1) - (1 + 1) * sum R k (fun _ => 1)).
  { intros d k _ Hk ->. rewrite (trace_chiral _ U). apply sum_signs; auto. }
  split.
  - intros [-> | ->]; (destruct (chiral_diag n _ charge bits) as [d|] eqn:Ed; [|discriminate]); injection F as <-; unfold chiral_diag in Ed; rewrite Hc in Ed;
    (destruct ((0 <=? c)%Z && (c <=? Z.of_nat n)%Z) eqn:Eb; [|discriminate]); apply andb_true_iff in Eb; destruct Eb as [B1 B2]; apply Z.leb_le in B1, B2; injection Ed as <-; eapply A; eauto; lia.
  - intros ->; (destruct (chiral_diag n _ charge bits) as [d|] eqn:Ed; [|discriminate]); injection F as <-; unfold chiral_diag in Ed; rewrite Hc in Ed;
    (destruct ((0 <=? c)%Z && (c <=? Z.of_nat (n / 2))%Z) eqn:Eb; [|discriminate]); apply andb_true_iff in Eb; destruct Eb as [B1 B2]; apply Z.leb_le in B1, B2; injection Ed as <-. pose proof (Nat.div_mod n 2 ltac:(lia)). eapply A; eauto. lia.
Qed.
(** the determinant *)
Hypothesis Dext : forall a b, meq n a b -> detpos a = detpos b.
Hypothesis Dswap : forall a, (2 <= n)%nat -> unitary n a -> meq n (mC a) a -> detpos (swap_last n a) = negb (detpos a).
Lemma det_ok s c : good s -> (sw s = true -> (2 <= n)%nat) -> charge = Some c -> s = SD \/ s = SDIII -> dsign detpos n s (u s) = (0 <? c)%Z.
Proof.
  intros G Sw Hc Hs. unfold u1. destruct (sw s) eqn:Es.
  - specialize (Sw eq_refl). destruct G as [Q Ph].
    assert (U : unitary n (uz s)) by (apply (@u_unitary R n pos s g1 g2 (qq qr s g1 g2) (rr qr s g1 g2) phase Q Ph)).
    assert (Rl : mC (uz s) == uz s) by (apply (@u_real R n pos s g1 g2 (qq qr s g1 g2) (rr qr s g1 g2) phase R1 Q Ph); destruct Hs as [-> | ->]; reflexivity).
    assert (E : detpos (fun i j => uz s (last_two n i) j) = negb (detpos (uz s))).
    { rewrite <- (Dswap Sw U Rl). apply Dext. intros i j _ _. unfold swap_last, last_two. destruct (i =? n - 1)%nat; auto. destruct (i =? n - 2)%nat; auto. }
    unfold swapped in Es. rewrite Hc in Es. destruct Hs as [-> | ->]; unfold dsign in *; cbn [is_d andb] in Es; rewrite E; destruct (detpos (uz _)); destruct (0 <? c)%Z; try discriminate; auto;
      destruct (Nat.even (n / 2)); try discriminate; auto.
  - clear Sw. unfold swapped in Es. rewrite Hc in Es. destruct Hs as [-> | ->]; cbn [is_d andb] in Es; unfold dsign in *; destruct (0 <? c)%Z; destruct (detpos (uz _)); try discriminate; auto;
      destruct (Nat.even (n / 2)); try discriminate; auto.
Qed.
End Top.
