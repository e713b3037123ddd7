(** * Proofs for C53: the branches of circular. *)
From Coq Require Import List Bool Arith ZArith Ring Lia Setoid Morphisms.
From Verif Require Import StarRing KpmCorrSpec KpmTrace RmtModel RmtSpec RmtProofs RmtGauss RmtAlg RmtTri RmtCirc.
Import ListNotations.
Set Implicit Arguments.

Section Main.
Variable R : StarRing.
Add Ring RringRcm : (r_theory R).
Notation matrix := (nat -> nat -> R).
Local Open Scope star_scope.
Notation "0" := (r0 R) : star_scope.
Notation "1" := (r1 R) : star_scope.
Notation conj := (rconj R).
Notation im := (ri R).
Variables (qr : matrix -> matrix * matrix) (phase : R -> R) (is_zero : R -> bool) (detpos : matrix -> bool).
Variables (n : nat) (s : sym) (charge : option Z) (g1 g2 : matrix) (bits : nat -> bool).
Notation "x ** y" := (mmul n x y) (at level 40, left associativity).
Notation "x == y" := (@meq R n x y) (at level 70).
Notation I := (@unit_matrix R).
Notation Y := (@pauli_y R).
Definition qq : matrix := fst (qr (circular_input s g1 g2)).
Definition rr : matrix := snd (qr (circular_input s g1 g2)).
Definition u0 : matrix := fun i j => qq i j * phase (rr j j).
Definition dsign (m : matrix) : bool := match s with SDIII => xorb (detpos m) (negb (Nat.even (n / 2))) | _ => detpos m end.
Definition is_d : bool := match s with SD | SDIII => true | _ => false end.
Definition swapped : bool := match charge with Some c => is_d && xorb (0 <? c)%Z (dsign u0) | None => false end.
Definition u1 : matrix := if swapped then fun i j => u0 (last_two n i) j else u0.
Definition size_ok : Prop := (sq_t s = -1 \/ sq_p s = -1)%Z -> (n mod 2 = 0)%nat.
Definition zero_ok : Prop := sq_p s = (-1)%Z -> forallb (fun k => is_zero (rr (2 * k)%nat (2 * k + 1)%nat)) (seq 0 (n / 2)) = true.
Definition finish : matrix + rerr :=
  match s with
  | SAI => inl (fun i j => sum R n (fun k => u1 k i * u1 k j))
  | SCI => inl (fun i j => im * tau_z R j * sum R n (fun k => u1 k i * u1 k (idx_x j)))
  | SAII | SDIII => inl (fun i j => im * sum R n (fun k => (u1 k i * tau_z R k) * u1 (idx_x k) j))
  | SAIII | SBDI | SCII => match chiral_diag n s charge bits with inr e => inr e | inl diag => inl (fun i j => sum R n (fun k => (diag k * conj (u1 k i)) * u1 k j)) end
  | _ => inl u1
  end.
Definition d_charge : Prop := forall c, charge = Some c -> is_d = true -> (c = 1 \/ c = -1)%Z.
Lemma dec_ok (b1 b2 : bool) (z : bool) (A : Prop) : (A <-> b1 || b2 = true) -> ((b1 || b2) && negb z = false <-> (A -> z = true)).
Proof. intros H. rewrite H. destruct (b1 || b2), z; cbn; split; auto; intros; try discriminate; try reflexivity. symmetry; auto. Qed.
End Main.
Arguments u0 {R}. Arguments u1 {R}. Arguments swapped {R}. Arguments finish {R}. Arguments zero_ok {R}. Arguments rr {R}. Arguments qq {R}. Arguments dsign {R}.
Section Split.
Variable R : StarRing.
Notation matrix := (nat -> nat -> R).
Lemma circular_split (qr : matrix -> matrix * matrix) (phase : R -> R) (is_zero : R -> bool) (detpos : matrix -> bool) (n : nat) (s : sym) (charge : option Z) (g1 g2 : matrix) (bits : nat -> bool) :
  let size_ok := size_ok n s in let zero_ok := zero_ok qr is_zero n s g1 g2 in let d_charge := d_charge s charge in let swapped := swapped qr phase detpos n s charge g1 g2 in
  let finish := finish qr phase detpos n s charge g1 g2 bits in
  let c := circular qr phase is_zero detpos n s charge g1 g2 bits in
  (~ size_ok -> c = inr RValue) /\ (size_ok -> ~ zero_ok -> c = inr RRuntime)
  /\ (size_ok -> zero_ok -> ~ d_charge -> c = inr RValue)
  /\ (size_ok -> zero_ok -> d_charge -> swapped = true -> (n < 2)%nat -> c = inr RIndex)
  /\ (size_ok -> zero_ok -> d_charge -> (swapped = true -> (2 <= n)%nat) -> c = finish).
Proof.
  intros so zo dc sw fi c. unfold c, circular.
  assert (S1 : ((sq_t s =? -1)%Z || (sq_p s =? -1)%Z) && negb (n mod 2 =? 0)%nat = false <-> so).
  { unfold so, size_ok. rewrite <- (Nat.eqb_eq (n mod 2) 0). apply dec_ok. rewrite orb_true_iff, !Z.eqb_eq. reflexivity. }
  destruct (_ && negb (n mod 2 =? 0)%nat) eqn:E1.
  { assert (~ so) by (rewrite <- S1; discriminate). repeat split; intros; try reflexivity; exfalso; auto. }
  assert (Sz : so) by (apply S1; auto). clear S1.
  split; [intros F; contradiction|].
  fold (rr qr s g1 g2) (qq qr s g1 g2).
  assert (S2 : (sq_p s =? -1)%Z && negb (forallb (fun k => is_zero (rr qr s g1 g2 (2 * k)%nat (2 * k + 1)%nat)) (seq 0 (n / 2))) = false <-> zo).
  { unfold zo, zero_ok. rewrite <- (Z.eqb_eq (sq_p s)). destruct (sq_p s =? -1)%Z; destruct (forallb _ _); cbn; split; auto; intros; try discriminate; try reflexivity. symmetry; auto. }
  destruct ((sq_p s =? -1)%Z && negb (forallb (fun k => is_zero (rr qr s g1 g2 (2 * k)%nat (2 * k + 1)%nat)) (seq 0 (n / 2)))) eqn:E2.
  { assert (~ zo) by (rewrite <- S2; discriminate). repeat split; intros; try reflexivity; exfalso; auto. }
  assert (Sr : zo) by (apply S2; auto). clear S2 E1 E2.
  split; [intros _ F; contradiction|].
  change (fun i j : nat => rmul R (qq qr s g1 g2 i j) (phase (rr qr s g1 g2 j j))) with (u0 qr phase s g1 g2).
  clearbody so zo.
  destruct (is_d s) eqn:Ed.
  2: { assert (Dc : dc) by (intros c0 _ F; congruence).
       assert (Sw : sw = false) by (unfold sw, swapped; rewrite Ed; destruct charge; reflexivity).
       split; [intros; contradiction|]. split; [congruence|]. intros _ _ _ _. unfold fi, finish, u1. fold sw. rewrite Sw.
       clear - Ed. revert Ed. unfold is_d. destruct s; intros; try discriminate; destruct charge; reflexivity. }
  destruct charge as [c0|] eqn:Ec.
  2: { assert (Dc : dc) by (intros c0 F; congruence).
       assert (Sw : sw = false) by (unfold sw, swapped; reflexivity).
       split; [intros; contradiction|]. split; [congruence|]. intros _ _ _ _. unfold fi, finish, u1. fold sw. rewrite Sw. clear - Ed. revert Ed. unfold is_d. destruct s; intros; try discriminate; reflexivity. }
  assert (Db : ((c0 =? -1)%Z || (c0 =? 1)%Z) = true <-> dc).
  { unfold dc, d_charge. rewrite orb_true_iff, !Z.eqb_eq, Ed. split; [intros H c1 [= <-] _; tauto|]. intros H. destruct (H c0 eq_refl eq_refl); tauto. }
  assert (Sw : sw = xorb (0 <? c0)%Z (dsign detpos n s (u0 qr phase s g1 g2))) by (unfold sw, swapped; rewrite Ed; reflexivity).
  destruct ((c0 =? -1)%Z || (c0 =? 1)%Z) eqn:E3.
  2: { assert (~ dc) by (rewrite <- Db; discriminate). cbn [negb]. repeat split; intros; try contradiction. clear - Ed. revert Ed. unfold is_d. destruct s; intros; try discriminate; reflexivity. }
  assert (Dc : dc) by (apply Db; auto). clear Db. cbn [negb].
  split; [intros; contradiction|].
  unfold fi, finish, u1. fold sw. rewrite Sw. clear - Ed. revert Ed. unfold is_d, dsign.
  destruct s; intros; try discriminate; (split; [intros _ _ _ Hs Hn; rewrite Hs; destruct (Nat.ltb_spec n 2); [reflexivity|lia]|]);
  intros _ _ _ Hs; (match goal with |- context [xorb ?a ?b] => destruct (xorb a b) end); try reflexivity; specialize (Hs eq_refl); destruct (Nat.ltb_spec n 2); try lia; reflexivity.
Qed.
End Split.
