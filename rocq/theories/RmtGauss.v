(** * Proofs for C32: the symmetries of the Gaussian ensembles. *)
From Coq Require Import List Bool Arith ZArith Ring Lia.
From Verif Require Import StarRing KpmCorrSpec RmtModel RmtSpec RmtProofs.
Import ListNotations.
Set Implicit Arguments.

Section Gauss.
Variable R : StarRing.
Add Ring RringRg : (r_theory R).
Notation matrix := (nat -> nat -> R).
Local Open Scope star_scope.
Notation "0" := (r0 R) : star_scope.
Notation "1" := (r1 R) : star_scope.
Notation conj := (rconj R).
Notation im := (ri R).
Variables (n : nat) (g1 g2 : matrix) (factor half isqrt2 : R).
Hypothesis R1 : forall i j, conj (g1 i j) = g1 i j.
Hypothesis R2 : forall i j, conj (g2 i j) = g2 i j.
Hypothesis Rf : conj factor = factor.
Hypothesis Rh : conj half = half.
Hypothesis Rs : conj isqrt2 = isqrt2.

Lemma tz_cases i : tau_z R i = 1 \/ tau_z R i = - (1).
Proof. unfold tau_z. destruct (Nat.even i); auto. Qed.
Lemma sz_cases i : sigma_z R i = 1 \/ sigma_z R i = - (1).
Proof. unfold sigma_z. destruct (i mod 4 <? 2)%nat; auto. Qed.

Ltac push := unfold mC, mT, flip_tau, flip_sigma; cbn [fst snd]; repeat progress (rewrite ?rconj_add, ?rconj_mul, ?conj_sub, ?conj_opp, ?conj1, ?conj0, ?rconj_conj, ?rconj_i, ?R1, ?R2, ?Rf, ?Rh, ?Rs, ?tau_z_conj, ?sigma_z_conj, ?idx_x_2, ?idx_s_2, ?tau_z_idx, ?sigma_z_idx, ?tau_z_s).
Ltac fin i j := pose proof (tau_z_sq R i) as Ti; pose proof (tau_z_sq R j) as Tj; pose proof (sigma_z_sq R i) as Si; pose proof (sigma_z_sq R j) as Sj; pose proof (ri_sq R) as IM; ring [Ti Tj Si Sj IM].

Lemma even_of s : (has_c s || (sq_t s =? -1)%Z || (sq_p s =? -1)%Z) && negb (n mod 2 =? 0)%nat = false ->
  has_c s || (sq_t s =? -1)%Z || (sq_p s =? -1)%Z = true -> (n mod 2 = 0)%nat.
Proof. intros E1 E2. rewrite E2 in E1. cbn [andb] in E1. apply negb_false_iff in E1. apply Nat.eqb_eq; auto. Qed.
Lemma mod4_of s : s = SCII -> match s with SCII => negb (n mod 4 =? 0)%nat | _ => false end = false -> (n mod 4 = 0)%nat.
Proof. intros ->. intros E. apply negb_false_iff in E. apply Nat.eqb_eq; auto. Qed.

Lemma gauss_herm s h : gaussian n s g1 g2 factor half isqrt2 = inl h -> hermitian_matrix n h.
Proof.
  unfold gaussian. destruct (_ && _) eqn:E1; [discriminate|]. destruct (match s with SCII => _ | _ => _ end) eqn:E2; [discriminate|].
  intros E. injection E as <-. intros i j Hi Hj. clear E1 E2. destruct s; cbn -[tau_z sigma_z]; push; fin i j.
Qed.
Lemma gauss_chiral s h : gaussian n s g1 g2 factor half isqrt2 = inl h -> has_c s = true -> forall i j, h i j = - (tau_z R i * h i j * tau_z R j).
Proof.
  unfold gaussian. destruct (_ && _) eqn:E1; [discriminate|]. destruct (match s with SCII => _ | _ => _ end) eqn:E2; [discriminate|].
  intros E Hc. injection E as <-. intros i j. clear E1 E2. destruct s; try discriminate Hc; cbn -[tau_z sigma_z idx_x idx_sigma_x Nat.modulo]; push; fin i j.
Qed.
(** elementwise forms of the antiunitary symmetries *)
Lemma gauss_tau s h : gaussian n s g1 g2 factor half isqrt2 = inl h -> (s = SAII \/ s = SDIII) -> forall i j, h i j = tau_z R i * conj (h (idx_x i) (idx_x j)) * tau_z R j.
Proof.
  unfold gaussian. destruct (_ && _) eqn:E1; [discriminate|]. destruct (match s with SCII => _ | _ => _ end) eqn:E2; [discriminate|].
  intros E Hs. injection E as <-. intros i j. clear E1 E2. destruct Hs as [-> | ->]; cbn -[tau_z sigma_z idx_x idx_sigma_x Nat.modulo]; push; fin i j.
Qed.
Lemma gauss_ntau s h : gaussian n s g1 g2 factor half isqrt2 = inl h -> (s = SC \/ s = SCI) -> forall i j, h i j = - (tau_z R i * conj (h (idx_x i) (idx_x j)) * tau_z R j).
Proof.
  unfold gaussian. destruct (_ && _) eqn:E1; [discriminate|]. destruct (match s with SCII => _ | _ => _ end) eqn:E2; [discriminate|].
  intros E Hs. injection E as <-. intros i j. clear E1 E2. destruct Hs as [-> | ->]; cbn -[tau_z sigma_z idx_x idx_sigma_x Nat.modulo]; push; fin i j.
Qed.
Lemma gauss_sigma s h : gaussian n s g1 g2 factor half isqrt2 = inl h -> s = SCII -> forall i j, h i j = sigma_z R i * conj (h (idx_sigma_x i) (idx_sigma_x j)) * sigma_z R j.
Proof.
  unfold gaussian. destruct (_ && _) eqn:E1; [discriminate|]. destruct (match s with SCII => _ | _ => _ end) eqn:E2; [discriminate|].
  intros E ->. injection E as <-. intros i j. clear E1 E2. cbn -[tau_z sigma_z idx_x idx_sigma_x Nat.modulo]; push; fin i j.
Qed.
Lemma gauss_real s h : gaussian n s g1 g2 factor half isqrt2 = inl h -> s = SAI -> forall i j, h i j = conj (h i j).
Proof.
  unfold gaussian. destruct (_ && _) eqn:E1; [discriminate|]. destruct (match s with SCII => _ | _ => _ end) eqn:E2; [discriminate|].
  intros E ->. injection E as <-. intros i j. clear E1 E2. cbn -[tau_z sigma_z idx_x idx_sigma_x Nat.modulo]; push; fin i j.
Qed.
Lemma gauss_imag s h : gaussian n s g1 g2 factor half isqrt2 = inl h -> (s = SD \/ s = SBDI) -> forall i j, h i j = - conj (h i j).
Proof.
  unfold gaussian. destruct (_ && _) eqn:E1; [discriminate|]. destruct (match s with SCII => _ | _ => _ end) eqn:E2; [discriminate|].
  intros E Hs. injection E as <-. intros i j. clear E1 E2. destruct Hs as [-> | ->]; cbn -[tau_z sigma_z idx_x idx_sigma_x Nat.modulo]; push; fin i j.
Qed.
Lemma gauss_sizes s h : gaussian n s g1 g2 factor half isqrt2 = inl h ->
  (has_c s || (sq_t s =? -1)%Z || (sq_p s =? -1)%Z = true -> (n mod 2 = 0)%nat) /\ (s = SCII -> (n mod 4 = 0)%nat).
Proof.
  unfold gaussian. destruct (_ && _) eqn:E1; [discriminate|]. destruct (match s with SCII => _ | _ => _ end) eqn:E2; [discriminate|]. intros _. split.
  - apply even_of; auto.
  - intros Hs. eapply mod4_of; eauto.
Qed.
Lemma scale_anti (a : R) (w b : nat -> R) f (m h : matrix) i j : @mono R n m f w -> (i < n)%nat -> (j < n)%nat -> (forall k, w k = a * b k) -> a * conj a = 1 ->
  antiunitary n m h i j = b i * conj (h (f i) (f j)) * conj (b j).
Proof. intros M Hi Hj E Ha. rewrite (@mono_anti _ n m f w h i j M Hi Hj). rewrite !E, rconj_mul. ring [Ha]. Qed.
Lemma im_conj : im * conj im = 1.
Proof. rewrite rconj_i. pose proof (ri_sq R) as IM. ring [IM]. Qed.
Lemma nim_conj : (- im) * conj (- im) = 1.
Proof. rewrite conj_opp, rconj_i. pose proof (ri_sq R) as IM. ring [IM]. Qed.

(** all matrices that occur, as monomial matrices *)
Lemma mono_ny : (n mod 2 = 0)%nat -> @mono R n (kron [[0; - im]; [im; 0]]) idx_x (fun i => - im * tau_z R i).
Proof. intros Hn. replace im with (- - im) at 2 by ring. apply mono_y; auto. Qed.
Lemma mono_ext m f w w' : @mono R n m f w -> (forall i, w i = w' i) -> @mono R n m f w'.
Proof. intros M E i Hi. destruct (M i Hi) as [A B]. split; auto. intros k Hk. rewrite B, E by auto. reflexivity. Qed.

Ltac kron_solve := match goal with |- context [(?q =? ?q')%nat] => destruct (Nat.eqb_spec q q') as [?|?] end; cbn [nth];
  match goal with |- context [(?a =? ?b)%nat] => destruct (Nat.eqb_spec a b) as [?|?] end; try lia; try ring.
Lemma mono_nsy : (n mod 4 = 0)%nat -> @mono R n (kron (doc_y0 R)) idx_sigma_x (fun i => - im * sigma_z R i).
Proof.
  intros Hn. apply mono4; auto. { intros; apply idx_s_lt; auto. } unfold doc_y0.
  intros q q' r r' Hr Hr'; unfold idx_sigma_x, sigma_z; rewrite !mod4 by lia;
  destruct r as [|[|[|[|r]]]]; [| | | |lia]; destruct r' as [|[|[|[|r']]]]; try lia; cbn [Nat.ltb Nat.leb]; kron_solve.
Qed.
Lemma mono_nszy : (n mod 4 = 0)%nat -> @mono R n (kron (doc_yz R)) idx_sigma_x (fun i => - im * (sigma_z R i * tau_z R i)).
Proof.
  intros Hn. apply mono4; auto. { intros; apply idx_s_lt; auto. } unfold doc_yz.
  intros q q' r r' Hr Hr'. unfold idx_sigma_x, sigma_z, tau_z; rewrite !mod4 by lia. replace (4 * q + r)%nat with (2 * (2 * q) + r)%nat by lia. rewrite even_2.
  destruct r as [|[|[|[|r]]]]; [| | | |lia]; destruct r' as [|[|[|[|r']]]]; try lia; cbn [Nat.ltb Nat.leb Nat.even]; kron_solve.
Qed.
(** monomial matrices with unit entries are unitary *)
Lemma mono_unitary (u : matrix) f w : @mono R n u f w -> (forall i, f (f i) = i) -> (forall i, w i * conj (w i) = 1) -> unitary n u.
Proof.
  intros M Hff Hw. split; intros i j Hi Hj; unfold mmul, mT, mC, unit_matrix.
  - destruct (M i Hi) as [Fi _]. rewrite <- (@sum_delta R n (f i) (fun k => if (i =? j)%nat then 1 else 0) Fi). apply sum_ext. intros k Hk. destruct (M k Hk) as [Fk Ek].
    rewrite !Ek by auto.
    destruct (Nat.eqb_spec k (f i)) as [->|N].
    + rewrite Hff, Nat.eqb_refl, (Nat.eqb_sym j i). destruct (i =? j)%nat; [|ring]. specialize (Hw (f i)). transitivity (w (f i) * conj (w (f i))); [ring|auto].
    + destruct (Nat.eqb_spec i (f k)) as [E|_]; [exfalso; apply N; rewrite E; auto|]. rewrite conj0. ring.
  - destruct (M i Hi) as [Fi _]. rewrite (@mono_sum _ n u f w (fun k => conj (u j k)) i M Hi). destruct (M j Hj) as [Fj Ej]. rewrite Ej by auto.
    destruct (Nat.eqb_spec (f i) (f j)) as [E|N]; destruct (Nat.eqb_spec i j) as [E'|N'].
    + subst j. apply Hw.
    + exfalso. apply N'. rewrite <- (Hff i), E. apply Hff.
    + exfalso. apply N. subst; auto.
    + rewrite conj0. ring.
Qed.
(** what has to be checked for one antiunitary operator *)
Definition anti_ok (m : list (list R)) (sg : R) (h h' : matrix) : Prop :=
  unitary n (kron m) /\ meq n (square n (kron m)) (mscale sg unit_matrix) /\ meq n h' (antiunitary n (kron m) h).
Lemma anti_ok_i (m : list (list R)) sg (h h' : matrix) (a : R) (b : nat -> R) f : @mono R n (kron m) f (fun i => a * b i) -> (forall i, f (f i) = i) ->
  a * conj a = 1 -> (forall i, conj (b i) = b i) -> (forall i, b i * b i = 1) -> (forall i, b i * b (f i) = sg) ->
  (forall i j, (i < n)%nat -> (j < n)%nat -> h' i j = b i * conj (h (f i) (f j)) * b j) -> anti_ok m sg h h'.
Proof.
  intros M Hff Ha Hb Hb2 Hsg H. split; [|split].
  - apply (@mono_unitary _ f _ M Hff). intros i. cbv beta. rewrite rconj_mul, Hb. specialize (Hb2 i). ring [Ha Hb2].
  - intros i j Hi Hj. rewrite (@mono_square _ n _ f _ i j M Hff Hi Hj). cbv beta. unfold mscale, unit_matrix. destruct (i =? j)%nat; [|ring]. rewrite rconj_mul, Hb, <- (Hsg i). ring [Ha].
  - intros i j Hi Hj. rewrite (@scale_anti a _ b f (kron m) h i j M Hi Hj (fun _ => eq_refl) Ha), Hb. auto.
Qed.
End Gauss.
