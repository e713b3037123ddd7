(** * C53: the circular random matrix ensembles. *)
From Coq Require Import List Bool Arith ZArith Ring Lia.
From Verif Require Import StarRing GaussQ QSolve KpmCorrSpec RmtModel RmtSpec RmtProofs RmtGauss RmtAlg RmtTri RmtCirc RmtCircMain RmtCircTop.
Import ListNotations.
Set Implicit Arguments.

(** Whatever random numbers are drawn, a matrix returned by circular is
    unitary and has the chiral, time-reversal and particle-hole symmetries of
    its class.  [qr] is numpy's QR decomposition (assumed correct for the
    matrix that is decomposed), [phase x] is x / |x| (defined for the diagonal
    of its R factor), [is_zero] the comparison with zero (taken to be exact). *)
Theorem C53_symmetries (R : StarRing) (pos : R -> Prop) qr phase is_zero detpos n s charge g1 g2 bits w :
  positive_numbers pos -> (forall i j, rconj R (g1 i j) = g1 i j) -> (forall x, is_zero x = true -> x = r0 R) ->
  let h := circular_input s g1 g2 in
  qr_ok n h (fst (qr h)) (snd (qr h)) -> (forall j, j < n -> is_phase pos (snd (qr h) j j) (phase (snd (qr h) j j))) ->
  circular qr phase is_zero detpos n s charge g1 g2 bits = inl w ->
  unitary n w /\ circ_c n s w /\ circ_t n s w /\ circ_p n s w.
Proof.
  intros PN R1 Z0 h Q Ph E. exact (@finish_ok R qr phase is_zero detpos n charge g1 g2 bits pos PN R1 Z0 s w (Logic.conj Q Ph) E).
Qed.

(** In the chiral classes the charge is the number of negative eigenvalues
    (pairs of them in class CII): the trace is n - 2 charge. *)
Theorem C53_trace (R : StarRing) (pos : R -> Prop) qr phase is_zero detpos n s c g1 g2 bits w :
  let h := circular_input s g1 g2 in
  qr_ok n h (fst (qr h)) (snd (qr h)) -> (forall j, j < n -> is_phase pos (snd (qr h) j j) (phase (snd (qr h) j j))) ->
  circular qr phase is_zero detpos n s (Some c) g1 g2 bits = inl w ->
  let of_nat k := sum R k (fun _ => r1 R) in
  (s = SAIII \/ s = SBDI -> (0 <= c <= Z.of_nat n)%Z /\ trace n w = rsub R (of_nat n) (of_nat (2 * Z.to_nat c)))
  /\ (s = SCII -> (0 <= 2 * c <= Z.of_nat n)%Z /\ trace n w = rsub R (of_nat n) (of_nat (4 * Z.to_nat c))).
Proof.
  intros h Q Ph E. cbv zeta.
  assert (D : forall k, sum R (2 * k) (fun _ => r1 R) = rmul R (radd R (r1 R) (r1 R)) (sum R k (fun _ => r1 R))).
  { intros k. replace (2 * k) with (k + k) by lia. rewrite sum_split. pose proof (r_theory R) as T. destruct T. rewrite Rdistr_l, !Rmul_1_l. reflexivity. }
  destruct (@trace_ok R qr phase is_zero detpos n (Some c) g1 g2 bits pos s w c (Logic.conj Q Ph) E eq_refl) as [A B].
  destruct (@circ_inl R qr phase is_zero detpos n (Some c) g1 g2 bits s w E) as (_ & _ & _ & _ & F).
  split; intros Hs.
  - split; [|rewrite D; auto]. unfold finish, chiral_diag in F.
    destruct Hs as [-> | ->]; (destruct ((0 <=? c)%Z && (c <=? Z.of_nat n)%Z) eqn:Eb; [|discriminate]); apply andb_true_iff in Eb; destruct Eb as [B1 B2]; apply Z.leb_le in B1, B2; lia.
  - split; [|replace (4 * Z.to_nat c) with (2 * (2 * Z.to_nat c)) by lia; rewrite D; auto]. unfold finish, chiral_diag in F. subst s.
    destruct ((0 <=? c)%Z && (c <=? Z.of_nat (n / 2))%Z) eqn:Eb; [|discriminate]. apply andb_true_iff in Eb; destruct Eb as [B1 B2]; apply Z.leb_le in B1, B2.
    pose proof (Nat.div_mod n 2 ltac:(lia)). lia.
Qed.

(** In class D the charge is the sign of the determinant.  In class DIII the
    result is i o^T tau_z tau_x o with o orthogonal, and the charge is the sign
    of det(o) (-1)^(n/2), that is of the Pfaffian of i times the result. *)
Theorem C53_det (R : StarRing) (pos : R -> Prop) qr phase is_zero (detpos : (nat -> nat -> R) -> bool) n s c g1 g2 bits w :
  (forall i j, rconj R (g1 i j) = g1 i j) ->
  let h := circular_input s g1 g2 in
  qr_ok n h (fst (qr h)) (snd (qr h)) -> (forall j, j < n -> is_phase pos (snd (qr h) j j) (phase (snd (qr h) j j))) ->
  (forall a b, meq n a b -> detpos a = detpos b) ->
  (forall a, 2 <= n -> unitary n a -> meq n (mC a) a -> detpos (swap_last n a) = negb (detpos a)) ->
  circular qr phase is_zero detpos n s (Some c) g1 g2 bits = inl w ->
  (s = SD -> (c = 1 \/ c = -1)%Z /\ detpos w = (0 <? c)%Z)
  /\ (s = SDIII -> (c = 1 \/ c = -1)%Z /\ exists o, unitary n o /\ meq n (mC o) o
      /\ meq n w (mscale (ri R) (mmul n (mT o) (mmul n (kron [[r0 R; r1 R]; [ropp R (r1 R); r0 R]]) o)))
      /\ xorb (detpos o) (Nat.odd (n / 2)) = (0 <? c)%Z).
Proof.
  intros R1 h Q Ph Dext Dswap E.
  destruct (@circ_inl R qr phase is_zero detpos n (Some c) g1 g2 bits s w E) as (Sz & _ & Dc & Sw & F).
  pose proof (@det_ok R qr phase detpos n (Some c) g1 g2 pos R1 Dext Dswap s c (Logic.conj Q Ph) Sw eq_refl) as D.
  split; intros ->.
  - split; [apply (Dc c); auto|]. specialize (D (or_introl eq_refl)). injection F as <-. exact D.
  - split; [apply (Dc c); auto|]. specialize (D (or_intror eq_refl)). injection F as <-. eexists. split; [|split; [|split]].
    + apply (@u1_unitary R qr phase detpos n (Some c) g1 g2 pos SDIII (Logic.conj Q Ph) Sw).
    + apply (@u1_real R qr phase detpos n (Some c) g1 g2 pos R1 SDIII (Logic.conj Q Ph) Sw eq_refl).
    + intros i j Hi Hj. unfold mscale. f_equal. unfold mmul at 1. apply sum_ext. intros k Hk.
      assert (Hn : n mod 2 = 0) by (apply Sz; auto). pose proof (@mono_y R n (r1 R) Hn) as M.
      unfold mmul, mT. rewrite (mono_sum (fun l => u1 qr phase detpos n SDIII (Some c) g1 g2 l j) M Hk). pose proof (r_theory R) as T. destruct T. rewrite Rmul_1_l, Rmul_assoc. reflexivity.
    + rewrite <- Nat.negb_even. exact D.
Qed.

(** When a matrix is returned, and which exception is raised otherwise:
    ValueError for the sizes and charges the docstring excludes, RuntimeError
    only when the QR decomposition of a quaternionic matrix lacks the expected
    structure, and an undocumented IndexError for the 1 x 1 matrices of class
    D with the determinant of the wrong sign. *)
Theorem C53_outcome (R : StarRing) qr phase is_zero detpos n s charge (g1 g2 : nat -> nat -> R) bits :
  let c := circular qr phase is_zero detpos n s charge g1 g2 bits in
  let r := snd (qr (circular_input s g1 g2)) in
  let structure := (s = SC \/ s = SCI \/ s = SCII) -> forall k, 2 * k + 1 < n -> is_zero (r (2 * k) (2 * k + 1)) = true in
  (~ circ_size n s -> c = inr RValue)
  /\ (circ_size n s -> ~ structure -> c = inr RRuntime)
  /\ (circ_size n s -> structure -> ~ circ_charge n s charge -> c = inr RValue)
  /\ (circ_size n s -> structure -> circ_charge n s charge -> 2 <= n \/ charge = None \/ (s <> SD /\ s <> SDIII) -> exists w, c = inl w)
  /\ (forall e, c = inr e -> e = RIndex -> n < 2 /\ (s = SD \/ s = SDIII)).
Proof.
  intros c r structure.
  assert (Es : circ_size n s <-> size_ok n s).
  { unfold circ_size, size_ok. assert (H2 : n mod 2 = 0 <-> exists k, n = 2 * k).
    { split; [intros E; exists (n / 2); rewrite (Nat.div_mod n 2) at 1 by lia; lia|]. intros [k ->]. rewrite Nat.mul_comm. apply Nat.mod_mul. lia. }
    destruct s; cbn [sq_t sq_p]; rewrite H2; try (split; [intros H _; exact H|intros H; apply H; auto]); split; auto; intros _ [F|F]; discriminate F. }
  assert (Ez : structure <-> zero_ok qr is_zero n s g1 g2).
  { unfold structure, zero_ok. rewrite forallb_forall. change (rr qr s g1 g2) with r.
    assert (Hp : (s = SC \/ s = SCI \/ s = SCII) <-> sq_p s = (-1)%Z) by (destruct s; cbn; split; auto; try discriminate; intros [F|[F|F]]; discriminate F). rewrite Hp.
    pose proof (Nat.div_mod n 2 ltac:(lia)) as Hd. pose proof (Nat.mod_upper_bound n 2 ltac:(lia)) as Hm. split.
    - intros H Hs k Hk. apply in_seq in Hk. apply H; auto. lia.
    - intros H Hs k Hk. apply H; auto. apply in_seq. lia. }
  destruct (@circular_split R qr phase is_zero detpos n s charge g1 g2 bits) as (A & B & C & D & F). cbv zeta in A, B, C, D, F. fold c in A, B, C, D, F.
  rewrite Es, Ez.
  assert (Ec : circ_charge n s charge -> d_charge s charge).
  { unfold circ_charge, d_charge. intros H c0 -> Hd. destruct s; try discriminate Hd; auto. }
  assert (Sw : swapped qr phase detpos n s charge g1 g2 = true -> charge <> None /\ (s = SD \/ s = SDIII)).
  { unfold swapped. destruct charge; [|discriminate]. unfold is_d. destruct s; cbn; try discriminate; intros _; split; auto; discriminate. }
  split; [auto|]. split; [auto|]. split; [|split].
  - intros H1 H2 Hc. destruct (is_d s) eqn:Ed.
    + apply C; auto. intros Hd. apply Hc. unfold circ_charge. destruct charge as [c0|]; auto. specialize (Hd c0 eq_refl Ed). destruct s; auto; discriminate Ed.
    + assert (Hd : d_charge s charge) by (intros c0 _ G; congruence).
      rewrite F; auto.
      * unfold finish, chiral_diag. unfold circ_charge in Hc. destruct charge as [c0|]; [|contradiction Hc; exact I].
        destruct s; try (contradiction Hc; exact I); try discriminate Ed;
        match goal with |- context [if ?b then _ else _] => destruct b eqn:Eb end; try reflexivity; apply andb_true_iff in Eb; destruct Eb as [B1 B2]; apply Z.leb_le in B1, B2; contradiction Hc; lia.
      * intros Hs. apply Sw in Hs. destruct Hs as [_ [-> | ->]]; discriminate Ed.
  - intros H1 H2 Hc Hn. rewrite F; auto.
    + unfold finish, chiral_diag. unfold circ_charge in Hc. destruct s; try (eexists; reflexivity); (destruct charge as [c0|]; [|eexists; reflexivity]);
      match goal with |- context [if ?b then _ else _] => destruct b eqn:Eb end; try (eexists; reflexivity); apply andb_false_iff in Eb; rewrite !Z.leb_gt in Eb; lia.
    + intros Hs. apply Sw in Hs. destruct Hs as [Hs1 Hs2]. destruct Hn as [?|[?|[? ?]]]; auto; [contradiction|]. destruct Hs2; contradiction.
  - intros e He ->.
    assert (Dz : {size_ok n s} + {~ size_ok n s}).
    { unfold size_ok. destruct (Nat.eq_dec (n mod 2) 0); [left; auto|]. destruct (Z.eq_dec (sq_t s) (-1)); [right; auto|]. destruct (Z.eq_dec (sq_p s) (-1)); [right; auto|]. left. intros [?|?]; contradiction. }
    destruct Dz as [S|S]; [|rewrite (A S) in He; discriminate].
    assert (Dz : {zero_ok qr is_zero n s g1 g2} + {~ zero_ok qr is_zero n s g1 g2}).
    { unfold zero_ok. destruct (forallb _ _); [left; auto|]. destruct (Z.eq_dec (sq_p s) (-1)) as [e|e]; [right; intros H; discriminate (H e)|left; intros H; contradiction]. }
    destruct Dz as [Z|Z]; [|rewrite (B S Z) in He; discriminate].
    assert (Dd : {d_charge s charge} + {~ d_charge s charge}).
    { unfold d_charge. destruct charge as [c0|]; [|left; discriminate]. destruct (is_d s); [|left; discriminate]. destruct (Z.eq_dec c0 1); [left; intros ? [= <-]; auto|]. destruct (Z.eq_dec c0 (-1)); [left; intros ? [= <-]; auto|].
      right. intros H. destruct (H c0 eq_refl eq_refl); auto. }
    destruct Dd as [Dd|Dd]; [|rewrite (C S Z Dd) in He; discriminate].
    destruct (swapped qr phase detpos n s charge g1 g2) eqn:Hs.
    + destruct (Nat.lt_ge_cases n 2) as [L|L]; [split; auto; apply Sw; auto|].
      rewrite F in He by auto. exfalso. destruct (Sw eq_refl) as [_ [-> | ->]]; discriminate He.
    + rewrite F in He by (auto; discriminate). exfalso. unfold finish, chiral_diag in He.
      destruct s; try discriminate He; destruct charge as [c0|]; try discriminate He; match type of He with context [if ?b then _ else _] => destruct b end; discriminate He.
Qed.

(** ** Examples over the Gaussian rationals: a 3-4-5 rotation *)
Definition ex_pos (x : GaussQ) : Prop := x = gq 5 0 1.
Example C53_example_pos : positive_numbers ex_pos.
Proof. split; unfold ex_pos; [intros x ->; apply qv_inj; vm_compute; reflexivity|intros x ->; exists (gq 1 0 5); apply qv_inj; vm_compute; reflexivity|intros x y -> ->; reflexivity]. Qed.
Definition ex_entry (a b : Z) (i j : nat) : GaussQ := match i, j with 0, 0 => gq a 0 1 | 0, 1 => gq b 0 1 | _, _ => r0 GaussQ end.
(** the draws of class C: only g2 is nonzero *)
Definition ex_g1 : nat -> nat -> GaussQ := fun _ _ => r0 GaussQ.
Definition ex_g2 : nat -> nat -> GaussQ := ex_entry (-3) (-4).
(** the draws of class D *)
Definition ex_d1 : nat -> nat -> GaussQ := fun i j => match i, j with 0, 0 => gq 3 0 1 | 0, 1 => gq 4 0 1 | 1, 0 => gq (-4) 0 1 | _, _ => gq 3 0 1 end.
(** a QR decomposition of these matrices, with a negative diagonal *)
Definition ex_qr (h : nat -> nat -> GaussQ) : (nat -> nat -> GaussQ) * (nat -> nat -> GaussQ) :=
  (fun i j => rmul GaussQ (gq (-1) 0 5) (h i j), fun i j => if i =? j then gq (-5) 0 1 else r0 GaussQ).
Definition ex_phase (x : GaussQ) : GaussQ := gq (-1) 0 1.
Definition ex_det (m : nat -> nat -> GaussQ) : bool :=
  (0 <? fst (fst (qv (rsub GaussQ (rmul GaussQ (m 0%nat 0%nat) (m 1%nat 1%nat)) (rmul GaussQ (m 0%nat 1%nat) (m 1%nat 0%nat))))))%Z.
Ltac two i H := destruct i as [|[|i]]; [| |lia].
Ltac ex_qr_tac :=
  split; [split; intros i j Hi Hj; two i Hi; two j Hj; apply qv_inj; vm_compute; reflexivity
         |intros i j Hi Hj; two i Hi; two j Hj; apply qv_inj; vm_compute; reflexivity
         |intros i j Hj Hi; two i Hi; two j Hj; try lia; apply qv_inj; vm_compute; reflexivity
         |intros _; split; intros i j Hi Hj; two i Hi; two j Hj; apply qv_inj; vm_compute; reflexivity].
Example C53_example_qr_C : let h := circular_input SC ex_g1 ex_g2 in qr_ok 2 h (fst (ex_qr h)) (snd (ex_qr h)).
Proof. cbv zeta. ex_qr_tac. Qed.
Example C53_example_qr_D : let h := circular_input SD ex_d1 ex_g2 in qr_ok 2 h (fst (ex_qr h)) (snd (ex_qr h)).
Proof. cbv zeta. ex_qr_tac. Qed.
Example C53_example_phase h : forall j, j < 2 -> is_phase ex_pos (snd (ex_qr h) j j) (ex_phase (snd (ex_qr h) j j)).
Proof. intros j Hj. cbn [ex_qr snd]. rewrite Nat.eqb_refl. repeat split; intros; apply qv_inj; vm_compute; reflexivity. Qed.
Definition show (m : (nat -> nat -> GaussQ) + rerr) := match m with inl m => inl (map (fun i => map (fun j => qv (m i j)) [0; 1]) [0; 1]) | inr e => inr e end.
Definition qval (a : Z) (d : positive) := ((a, d), (0%Z, 1%positive)).
Example C53_example_C : show (circular ex_qr ex_phase gq_zero ex_det 2 SC None ex_g1 ex_g2 (fun _ => true)) =
  inl [[qval 3 5; qval 4 5]; [qval (-4) 5; qval 3 5]].
Proof. vm_compute. reflexivity. Qed.
(** class D with both charges *)
Example C53_example_D : show (circular ex_qr ex_phase gq_zero ex_det 2 SD (Some 1%Z) ex_d1 ex_g2 (fun _ => true)) = inl [[qval 3 5; qval 4 5]; [qval (-4) 5; qval 3 5]]
  /\ show (circular ex_qr ex_phase gq_zero ex_det 2 SD (Some (-1)%Z) ex_d1 ex_g2 (fun _ => true)) = inl [[qval (-4) 5; qval 3 5]; [qval 3 5; qval 4 5]].
Proof. split; vm_compute; reflexivity. Qed.
(** class CII: all eigenvalues are -1 *)
Example C53_example_CII : show (circular ex_qr ex_phase gq_zero ex_det 2 SCII (Some 1%Z) ex_g1 ex_g2 (fun _ => true)) =
  inl [[qval (-1) 1; qval 0 1]; [qval 0 1; qval (-1) 1]].
Proof. vm_compute. reflexivity. Qed.
(** the IndexError: circular(1, 'D', charge=-1) when the 1 x 1 matrix is (1) *)
Example C53_example_index : circular (fun h => (unit_matrix, fun _ _ => gq 5 0 1)) (fun _ => r1 GaussQ) gq_zero (fun m => gq_eqb (m 0 0) (r1 GaussQ)) 1 SD (Some (-1)%Z) (fun _ _ => gq 5 0 1) ex_g2 (fun _ => true) = inr RIndex.
Proof. vm_compute. reflexivity. Qed.
