(** * Proofs for C32. *)
From Coq Require Import List Bool Arith ZArith Ring Lia.
From Verif Require Import StarRing KpmCorrSpec RmtModel RmtSpec.
Import ListNotations.
Set Implicit Arguments.

Section Kron.
Variable R : StarRing.
Add Ring RringRm : (r_theory R).
Notation matrix := (nat -> nat -> R).
Local Open Scope star_scope.
Notation "0" := (r0 R) : star_scope.
Notation "1" := (r1 R) : star_scope.
Notation conj := (rconj R).
Notation im := (ri R).

Lemma kron_at (m : list (list R)) K q r q' r' : length m = K -> (r < K)%nat -> (r' < K)%nat ->
  kron m (K * q + r)%nat (K * q' + r')%nat = if (q =? q')%nat then nth r' (nth r m []) 0 else 0.
Proof.
  intros L Hr Hr'. unfold kron. rewrite L.
  rewrite !(Nat.mul_comm K), !Nat.div_add_l by lia. rewrite !(Nat.div_small _ K) by auto. rewrite !Nat.add_0_r.
  rewrite !(Nat.add_comm (_ * K)), !Nat.mod_add, !Nat.mod_small by lia. reflexivity.
Qed.
(** a matrix with one nonzero element in each row *)
Definition mono (n : nat) (u : matrix) (f : nat -> nat) (w : nat -> R) : Prop :=
  forall i, (i < n)%nat -> (f i < n)%nat /\ forall k, (k < n)%nat -> u i k = if (k =? f i)%nat then w i else 0.
Lemma mono_sum n u f w g i : mono n u f w -> (i < n)%nat -> sum R n (fun k => u i k * g k) = w i * g (f i).
Proof.
  intros M Hi. destruct (M i Hi) as [Hf E]. rewrite <- (@sum_delta R n (f i) (fun k => w i * g k) Hf). apply sum_ext. intros k Hk. rewrite E by auto. destruct (k =? f i)%nat; ring.
Qed.
Lemma mono_anti n u f w h i j : mono n u f w -> (i < n)%nat -> (j < n)%nat -> antiunitary n u h i j = w i * conj (h (f i) (f j)) * conj (w j).
Proof.
  intros M Hi Hj. unfold antiunitary, mmul, mC, mT.
  transitivity (sum R n (fun l => conj (u j l) * (w i * conj (h (f i) l)))).
  - apply sum_ext. intros l Hl. rewrite (@mono_sum n u f w (fun k => conj (h k l)) i M Hi). ring.
  - assert (MC : mono n (fun a b => conj (u a b)) f (fun a => conj (w a))).
    { intros a Ha. destruct (M a Ha) as [Hf E]. split; auto. intros k Hk. rewrite E by auto. destruct (k =? f a)%nat; auto. apply conj0. }
    rewrite (@mono_sum n _ f _ (fun l => w i * conj (h (f i) l)) j MC Hj). ring.
Qed.
Lemma mono_square n u f w i j : mono n u f w -> (forall i, f (f i) = i) -> (i < n)%nat -> (j < n)%nat -> square n u i j = if (i =? j)%nat then w i * conj (w (f i)) else 0.
Proof.
  intros M Hff Hi Hj. unfold square, mmul, mC. rewrite (@mono_sum n u f w (fun k => conj (u k j)) i M Hi).
  destruct (M i Hi) as [Hf _]. destruct (M (f i) Hf) as [_ E]. rewrite E by auto. rewrite Hff, (Nat.eqb_sym j i). destruct (i =? j)%nat; [reflexivity|rewrite conj0; ring].
Qed.
Lemma two_cases i : exists q r, (i = 2 * q + r)%nat /\ (r = 0 \/ r = 1)%nat.
Proof. exists (i / 2)%nat, (i mod 2)%nat. split; [apply Nat.div_mod; lia|]. pose proof (Nat.mod_upper_bound i 2). lia. Qed.
Lemma four_cases i : exists q r, (i = 4 * q + r)%nat /\ (r = 0 \/ r = 1 \/ r = 2 \/ r = 3)%nat.
Proof. exists (i / 4)%nat, (i mod 4)%nat. split; [apply Nat.div_mod; lia|]. pose proof (Nat.mod_upper_bound i 4). lia. Qed.
Lemma even_2 q r : Nat.even (2 * q + r) = Nat.even r.
Proof. rewrite Nat.even_add, Nat.even_mul. cbn [Nat.even orb]. destruct (Nat.even r); reflexivity. Qed.
Lemma mod4 q r : (r < 4)%nat -> ((4 * q + r) mod 4 = r)%nat.
Proof. intros Hr. rewrite Nat.mul_comm, Nat.add_comm, Nat.mod_add by lia. apply Nat.mod_small. auto. Qed.
Lemma idx_x_lt n i : (n mod 2 = 0)%nat -> (i < n)%nat -> (idx_x i < n)%nat.
Proof.
  intros Hn Hi. pose proof (Nat.div_mod n 2 ltac:(lia)). unfold idx_x. destruct (two_cases i) as (q & r & -> & Hr). rewrite even_2. destruct Hr as [-> | ->]; cbn [Nat.even]; lia.
Qed.
Lemma idx_x_2 i : idx_x (idx_x i) = i.
Proof.
  unfold idx_x. destruct (two_cases i) as (q & r & -> & [-> | ->]); rewrite even_2; cbn [Nat.even].
  - replace (2 * q + 0 + 1)%nat with (2 * q + 1)%nat by lia. rewrite even_2. cbn [Nat.even]. lia.
  - replace (2 * q + 1 - 1)%nat with (2 * q + 0)%nat by lia. rewrite even_2. cbn [Nat.even]. lia.
Qed.
Lemma tau_z_idx i : tau_z R (idx_x i) = - tau_z R i.
Proof.
  unfold idx_x, tau_z. destruct (two_cases i) as (q & r & -> & [-> | ->]); rewrite even_2; cbn [Nat.even].
  - replace (2 * q + 0 + 1)%nat with (2 * q + 1)%nat by lia. rewrite even_2. reflexivity.
  - replace (2 * q + 1 - 1)%nat with (2 * q + 0)%nat by lia. rewrite even_2. cbn [Nat.even]. ring.
Qed.
Lemma tau_z_sq i : tau_z R i * tau_z R i = 1. Proof. unfold tau_z. destruct (Nat.even i); ring. Qed.
Lemma tau_z_conj i : conj (tau_z R i) = tau_z R i. Proof. unfold tau_z. destruct (Nat.even i); rewrite ?conj_opp, ?conj1; auto. Qed.
Lemma idx_s_lt n i : (n mod 4 = 0)%nat -> (i < n)%nat -> (idx_sigma_x i < n)%nat.
Proof.
  intros Hn Hi. pose proof (Nat.div_mod n 4 ltac:(lia)). unfold idx_sigma_x. destruct (four_cases i) as (q & r & -> & Hr). rewrite mod4 by lia.
  destruct Hr as [-> |[-> |[-> | ->]]]; cbn [Nat.ltb Nat.leb]; lia.
Qed.
Lemma idx_s_2 i : idx_sigma_x (idx_sigma_x i) = i.
Proof.
  unfold idx_sigma_x. destruct (four_cases i) as (q & r & -> & [-> |[-> |[-> | ->]]]); rewrite mod4 by lia; cbn [Nat.ltb Nat.leb].
  - replace (4 * q + 0 + 2)%nat with (4 * q + 2)%nat by lia. rewrite mod4 by lia. cbn [Nat.ltb Nat.leb]. lia.
  - replace (4 * q + 1 + 2)%nat with (4 * q + 3)%nat by lia. rewrite mod4 by lia. cbn [Nat.ltb Nat.leb]. lia.
  - replace (4 * q + 2 - 2)%nat with (4 * q + 0)%nat by lia. rewrite mod4 by lia. cbn [Nat.ltb Nat.leb]. lia.
  - replace (4 * q + 3 - 2)%nat with (4 * q + 1)%nat by lia. rewrite mod4 by lia. cbn [Nat.ltb Nat.leb]. lia.
Qed.
Lemma sigma_z_idx i : sigma_z R (idx_sigma_x i) = - sigma_z R i.
Proof.
  unfold idx_sigma_x, sigma_z. destruct (four_cases i) as (q & r & -> & [-> |[-> |[-> | ->]]]); rewrite mod4 by lia; cbn [Nat.ltb Nat.leb].
  - replace (4 * q + 0 + 2)%nat with (4 * q + 2)%nat by lia. rewrite mod4 by lia. reflexivity.
  - replace (4 * q + 1 + 2)%nat with (4 * q + 3)%nat by lia. rewrite mod4 by lia. reflexivity.
  - replace (4 * q + 2 - 2)%nat with (4 * q + 0)%nat by lia. rewrite mod4 by lia. cbn [Nat.ltb Nat.leb]. ring.
  - replace (4 * q + 3 - 2)%nat with (4 * q + 1)%nat by lia. rewrite mod4 by lia. cbn [Nat.ltb Nat.leb]. ring.
Qed.
Lemma sigma_z_sq i : sigma_z R i * sigma_z R i = 1. Proof. unfold sigma_z. destruct (i mod 4 <? 2)%nat; ring. Qed.
Lemma sigma_z_conj i : conj (sigma_z R i) = sigma_z R i. Proof. unfold sigma_z. destruct (i mod 4 <? 2)%nat; rewrite ?conj_opp, ?conj1; auto. Qed.
(** tau_z and the sigma index do not interfere *)
Lemma tau_z_s i : tau_z R (idx_sigma_x i) = tau_z R i.
Proof.
  unfold idx_sigma_x, tau_z. assert (E : forall a, Nat.even (4 * a + 2) = true) by (intros a; replace (4 * a + 2)%nat with (2 * (2 * a + 1) + 0)%nat by lia; rewrite even_2; auto).
  destruct (four_cases i) as (q & r & -> & [-> |[-> |[-> | ->]]]); rewrite mod4 by lia; cbn [Nat.ltb Nat.leb].
  - replace (4 * q + 0 + 2)%nat with (2 * (2 * q + 1) + 0)%nat by lia. replace (4 * q + 0)%nat with (2 * (2 * q) + 0)%nat by lia. rewrite !even_2. auto.
  - replace (4 * q + 1 + 2)%nat with (2 * (2 * q + 1) + 1)%nat by lia. replace (4 * q + 1)%nat with (2 * (2 * q) + 1)%nat by lia. rewrite !even_2. auto.
  - replace (4 * q + 2 - 2)%nat with (2 * (2 * q) + 0)%nat by lia. replace (4 * q + 2)%nat with (2 * (2 * q + 1) + 0)%nat by lia. rewrite !even_2. auto.
  - replace (4 * q + 3 - 2)%nat with (2 * (2 * q) + 1)%nat by lia. replace (4 * q + 3)%nat with (2 * (2 * q + 1) + 1)%nat by lia. rewrite !even_2. auto.
Qed.
Ltac kron_solve := match goal with |- context [(?q =? ?q')%nat] => destruct (Nat.eqb_spec q q') as [?|?] end; cbn [nth];
  match goal with |- context [(?a =? ?b)%nat] => destruct (Nat.eqb_spec a b) as [?|?] end; try lia; try ring.
Lemma mono1 n : mono n (kron [[1]]) (fun i => i) (fun _ => 1).
Proof.
  intros i Hi. split; auto. intros k Hk. pose proof (@kron_at [[1]] 1 i 0 k 0 eq_refl ltac:(lia) ltac:(lia)) as E. replace (1 * i + 0)%nat with i in E by lia. replace (1 * k + 0)%nat with k in E by lia. rewrite E.
  rewrite Nat.eqb_sym. destruct (k =? i)%nat; reflexivity.
Qed.
Lemma mono2 n a b c d f w : (n mod 2 = 0)%nat -> (forall i, (i < n)%nat -> (f i < n)%nat) ->
  (forall q q' r r', (r < 2)%nat -> (r' < 2)%nat -> (if (q =? q')%nat then nth r' (nth r [[a; b]; [c; d]] []) 0 else 0) = if (2 * q' + r' =? f (2 * q + r))%nat then w (2 * q + r)%nat else 0) ->
  mono n (kron [[a; b]; [c; d]]) f w.
Proof.
  intros Hn Hf H i Hi. split; auto. intros k Hk. destruct (two_cases i) as (q & r & -> & Hr). destruct (two_cases k) as (q' & r' & -> & Hr').
  rewrite (@kron_at _ 2) by (auto; lia). apply H; lia.
Qed.
Lemma mono4 n m f w : length m = 4%nat -> (forall i, (i < n)%nat -> (f i < n)%nat) ->
  (forall q q' r r', (r < 4)%nat -> (r' < 4)%nat -> (if (q =? q')%nat then nth r' (nth r m []) 0 else 0) = if (4 * q' + r' =? f (4 * q + r))%nat then w (4 * q + r)%nat else 0) ->
  mono n (kron m) f w.
Proof.
  intros Lm Hf H i Hi. split; auto. intros k Hk. destruct (four_cases i) as (q & r & -> & Hr). destruct (four_cases k) as (q' & r' & -> & Hr').
  rewrite (@kron_at _ 4) by (auto; lia). apply H; lia.
Qed.
Ltac two_solve := intros q q' r r' Hr Hr'; unfold idx_x, tau_z; rewrite !even_2; destruct r as [|[|r]]; [| |lia]; destruct r' as [|[|r']]; [| |lia| | |lia]; cbn [Nat.even]; kron_solve.
Lemma mono_y n a : (n mod 2 = 0)%nat -> mono n (kron [[0; a]; [- a; 0]]) idx_x (fun i => a * tau_z R i).
Proof. intros Hn. apply mono2; auto. { intros; apply idx_x_lt; auto. } two_solve. Qed.
Lemma mono_x n : (n mod 2 = 0)%nat -> mono n (kron [[0; 1]; [1; 0]]) idx_x (fun i => 1).
Proof. intros Hn. apply mono2; auto. { intros; apply idx_x_lt; auto. } two_solve. Qed.
Lemma mono_z n : (n mod 2 = 0)%nat -> mono n (kron [[1; 0]; [0; - (1)]]) (fun i => i) (tau_z R).
Proof. intros Hn. apply mono2; auto. two_solve. Qed.
Ltac four_solve := intros q q' r r' Hr Hr'; unfold idx_sigma_x, sigma_z; rewrite !mod4 by lia;
  destruct r as [|[|[|[|r]]]]; [| | | |lia]; destruct r' as [|[|[|[|r']]]]; try lia; cbn [Nat.ltb Nat.leb]; kron_solve.
Lemma mono_sy n : (n mod 4 = 0)%nat -> mono n (kron [[0; 0; im; 0]; [0; 0; 0; im]; [- im; 0; 0; 0]; [0; - im; 0; 0]]) idx_sigma_x (fun i => im * sigma_z R i).
Proof. intros Hn. apply mono4; auto. { intros; apply idx_s_lt; auto. } four_solve. Qed.
Lemma mono_szy n : (n mod 4 = 0)%nat -> mono n (kron [[0; 0; im; 0]; [0; 0; 0; - im]; [- im; 0; 0; 0]; [0; im; 0; 0]]) idx_sigma_x (fun i => im * sigma_z R i * tau_z R i).
Proof.
  intros Hn. apply mono4; auto. { intros; apply idx_s_lt; auto. }
  intros q q' r r' Hr Hr'. unfold idx_sigma_x, sigma_z, tau_z; rewrite !mod4 by lia. replace (4 * q + r)%nat with (2 * (2 * q) + r)%nat by lia. rewrite even_2.
  destruct r as [|[|[|[|r]]]]; [| | | |lia]; destruct r' as [|[|[|[|r']]]]; try lia; cbn [Nat.ltb Nat.leb Nat.even]; kron_solve.
Qed.
End Kron.
