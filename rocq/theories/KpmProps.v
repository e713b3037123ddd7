(** * C31: Chebyshev moments of the kernel polynomial method. *)
From Coq Require Import List Bool Arith ZArith Ring Lia.
From Verif Require Import StarRing KpmModel KpmSpec KpmProofs KpmMain.
Import ListNotations.
Set Implicit Arguments.

Section Props.
Variable R : StarRing.
Add Ring RringKP : (r_theory R).
Notation vec := (list R).

(** ** operator given: moment n of vector r is operator(v_r, T_n(H) v_r) *)
(** for every history of successful or refused calls, any H, any operator (even
    one whose values are arrays) *)
Theorem C31_moments_operator (next : nat -> option vec) H A zero inj dbl (op : vec -> vec -> A) limit nv acc nm cs s :
  history next H zero inj dbl (Some op) limit nv acc nm cs s ->
  forall r, r < s_nvec s -> exists v, next r = Some v /\
    nth_error (s_moments s) r = Some (map (fun n => op v (cheb H n v)) (seq 0 (s_num s))).
Proof.
  intros Hh r Hr.
  destruct (@history_ok R next H A zero inj dbl (Some op) (fun v n => op v (cheb H n v)) (fun _ => True)
    (fun _ _ _ => I) ltac:(intros o [= <-]; auto) ltac:(discriminate) ltac:(discriminate) ltac:(discriminate) _ _ _ _ _ _ Hh) as (vs & Hok & _).
  destruct (sd_nvec Hok) as [Nv Lv]. destruct Hok as (_ & ((_ & Hn) & _) & Hm & _).
  rewrite Nv in Hr. pose proof (Hn r Hr) as E. destruct (nth_error vs r) as [v|] eqn:Ev; [|apply nth_error_None in Ev; lia].
  exists v. split; auto. rewrite Hm. rewrite (map_nth_error _ r vs Ev). reflexivity.
Qed.

(** ** operator None: the doubling trick *)
(** Hermitian Hamiltonian h of size d, rescaled to (h - b) / a with real a, b *)
Section None.
Variables (h : nat -> nat -> R) (d : nat) (ainv b : R).
Notation H := (rescaled h d ainv b).
Variables (next : nat -> option vec) (zero : R).
Hypothesis Hh : forall i j, i < d -> j < d -> rconj R (h j i) = h i j.
Hypothesis Ha : rconj R ainv = ainv.
Hypothesis Hb : rconj R b = b.
Hypothesis Hlen : forall k v, next k = Some v -> length v = d.
Notation dbl := (fun x m => rsub R (rmul R two x) m).
Lemma none_ok : hermitian H d. Proof. apply rescaled_hermitian; auto. Qed.
Lemma none_even v n : length v = d -> rsub R (rmul R two (vdot (cheb H n v) (cheb H n v))) (vdot v v) = vdot v (cheb H (2 * n) v).
Proof. intros Hv. exact (@even R H d none_ok v Hv n). Qed.
Lemma none_odd v n : length v = d -> rsub R (rmul R two (vdot (cheb H (S n) v) (cheb H n v))) (vdot v (H v)) = vdot v (cheb H (2 * n + 1) v).
Proof. intros Hv. exact (@odd R H d none_ok v Hv n). Qed.
Lemma none_history limit nv acc nm cs s : history next H zero (fun x => x) dbl None limit nv acc nm cs s ->
  exists vs, sd_ok next H None (fun v n => vdot v (cheb H n v)) vs s /\ f_acc (s_fac s) = acc /\ f_max (s_fac s) = limit.
Proof.
  intros Hs. refine (@history_ok R next H R zero (fun x => x) dbl None (fun v n => vdot v (cheb H n v)) (fun v => length v = d) Hlen _ _ _ _ _ _ _ _ _ _ Hs).
  - discriminate.
  - intros _ v _. split; reflexivity.
  - intros _ v n Hv. apply none_even; auto.
  - intros _ v n Hv. apply none_odd; auto.
Qed.
Theorem C31_moments limit nv acc nm cs s :
  history next H zero (fun x => x) dbl None limit nv acc nm cs s ->
  forall r, r < s_nvec s -> exists v, next r = Some v /\
    nth_error (s_moments s) r = Some (map (fun n => vdot v (cheb H n v)) (seq 0 (s_num s))).
Proof.
  intros Hs r Hr. destruct (none_history Hs) as (vs & Hok & _).
  destruct (sd_nvec Hok) as [Nv Lv]. destruct Hok as (_ & ((_ & Hn) & _) & Hm & _).
  rewrite Nv in Hr. pose proof (Hn r Hr) as E. destruct (nth_error vs r) as [v|] eqn:Ev; [|apply nth_error_None in Ev; lia].
  exists v. split; auto. rewrite Hm. rewrite (map_nth_error _ r vs Ev). reflexivity.
Qed.
(** the same moments, in whatever steps they were computed *)
Theorem C31_incremental limit nv acc nm cs s limit' nv' acc' nm' cs' s' :
  history next H zero (fun x => x) dbl None limit nv acc nm cs s ->
  history next H zero (fun x => x) dbl None limit' nv' acc' nm' cs' s' ->
  s_num s = s_num s' -> s_nvec s = s_nvec s' -> s_moments s = s_moments s'.
Proof.
  intros H1 H2 En Ev. apply nth_error_ext. intros r. destruct (Nat.lt_ge_cases r (s_nvec s)) as [Hr|Hr].
  - destruct (C31_moments H1 Hr) as (v & E1 & ->). destruct (C31_moments H2 (r := r)) as (v' & E2 & ->); [congruence|].
    assert (v = v') by congruence. subst v'. rewrite En. reflexivity.
  - rewrite !(proj2 (nth_error_None _ _)); auto. fold (s_nvec s'). lia.
Qed.
(** ** The methods, after any history *)
Theorem C31_add_moments limit nv acc nm cs s k :
  history next H zero (fun x => x) dbl None limit nv acc nm cs s ->
  if (k <=? 0)%Z || negb acc then add_moments next H zero (fun x => x) dbl None k s = (s, Some KValue)
  else exists s', add_moments next H zero (fun x => x) dbl None k s = (s', None) /\ s_num s' = s_num s + Z.to_nat k /\ s_nvec s' = s_nvec s.
Proof.
  intros Hs. destruct (none_history Hs) as (vs & Hok & Eacc & _).
  pose proof (@add_moments_spec R next H R zero (fun x => x) dbl None (fun v n => vdot v (cheb H n v)) (fun v => length v = d) Hlen ltac:(discriminate)
    ltac:(intros _ v n Hv; apply none_even; auto) ltac:(intros _ v n Hv; apply none_odd; auto) vs s k Hok) as S.
  rewrite Eacc in S. destruct ((k <=? 0)%Z || negb acc); [exact S|]. destruct S as (s' & E & Hok' & E1 & E2 & _).
  exists s'. split; [exact E|]. split; auto. rewrite (proj1 (sd_nvec Hok')), (proj1 (sd_nvec Hok)). auto.
Qed.
Theorem C31_add_vectors limit nv acc nm cs s k :
  history next H zero (fun x => x) dbl None limit nv acc nm cs s ->
  (exists i, s_nvec s <= i /\ i < s_nvec s + Z.to_nat k /\ next i = None) \/
  if (k <=? 0)%Z || match limit with Some m => m <? s_nvec s + Z.to_nat k | None => false end
  then add_vectors next H zero (fun x => x) dbl None k s = (s, Some KValue)
  else exists s', add_vectors next H zero (fun x => x) dbl None k s = (s', None) /\ s_num s' = s_num s /\ s_nvec s' = s_nvec s + Z.to_nat k.
Proof.
  intros Hs. destruct (none_history Hs) as (vs & Hok & Eacc & Elim).
  pose proof (@add_vectors_spec R next H R zero (fun x => x) dbl None (fun v n => vdot v (cheb H n v)) (fun v => length v = d) Hlen ltac:(discriminate)
    ltac:(intros _ v _; split; reflexivity) ltac:(intros _ v n Hv; apply none_even; auto) ltac:(intros _ v n Hv; apply none_odd; auto) vs s k Hok) as S.
  rewrite Elim in S. rewrite <- (proj1 (sd_nvec Hok)) in S. destruct ((k <=? 0)%Z || _); [right; exact S|].
  destruct (add_vectors _ _ _ _ _ _ _ _) as [s' [e|]]; [left; apply S|right].
  destruct S as (vs' & Hok' & E1 & E2 & _). exists s'. split; auto. split; auto. rewrite (proj1 (sd_nvec Hok')). auto.
Qed.
(** the constructor: succeeds unless the numbers are bad (num_moments = 1
    fails with IndexError) or the factory runs out of vectors *)
Theorem C31_init limit nv acc nm : let n := match nv with Some k => Some k | None => option_map Z.of_nat limit end in
  match sd_init next H zero (fun x => x) dbl None limit nv acc nm with
  | (s, None) => exists k, n = Some k /\ (0 < k)%Z /\ (2 <= nm)%Z /\ s_num s = Z.to_nat nm /\ s_nvec s = Z.to_nat k
  | (_, Some KIndex) => nm = 1%Z
  | (_, Some KStop) => exists i k, n = Some k /\ i < Z.to_nat k /\ next i = None
  | (_, Some KValue) => (nm <= 0)%Z \/ n = None \/ exists k, n = Some k /\ ((k <= 0)%Z \/ exists m, limit = Some m /\ m < Z.to_nat k)
  end.
Proof.
  intros n. pose proof (@init_spec R next H R zero (fun x => x) dbl None (fun v n => vdot v (cheb H n v)) (fun v => length v = d) Hlen ltac:(discriminate)
    ltac:(intros _ v _; split; reflexivity) ltac:(intros _ v n' Hv; apply none_even; auto) ltac:(intros _ v n' Hv; apply none_odd; auto) limit nv acc nm) as S.
  cbv zeta in S. fold n in S. destruct (sd_init _ _ _ _ _ _ _ _ _ _) as [s [e|]].
  - destruct S as [[-> E]|[[-> E]|[-> E]]]; auto.
  - destruct S as (H2 & k & vs & En & Hk & Hok & E1 & E2 & _). exists k. repeat split; auto. rewrite (proj1 (sd_nvec Hok)). auto.
Qed.
End None.
End Props.

(** ** Examples: a Hermitian 2 x 2 matrix over the Gaussian integers *)
Definition ex_h (i j : nat) : GaussZ := match i, j with 0, 0 => (1, 0)%Z | 0, 1 => (2, 1)%Z | 1, 0 => (2, -1)%Z | 1, 1 => (-3, 0)%Z | _, _ => (0, 0)%Z end.
Definition ex_next (k : nat) : option (list GaussZ) := Some [(Z.of_nat k, 1%Z); (1, Z.of_nat k - 1)%Z].
Definition ex_H := @rescaled GaussZ ex_h 2 (1, 0)%Z (1, 0)%Z.
Notation ex_dbl := (fun x m => rsub GaussZ (rmul GaussZ two x) m).
Notation ex_init := (sd_init ex_next (@rescaled GaussZ ex_h 2 (1, 0)%Z (1, 0)%Z) (r0 GaussZ) (fun x => x) ex_dbl None).
Notation ex_addm := (@add_moments GaussZ ex_next (@rescaled GaussZ ex_h 2 (1, 0)%Z (1, 0)%Z) GaussZ (r0 GaussZ) (fun x => x) ex_dbl None).
Notation ex_addv := (@add_vectors GaussZ ex_next (@rescaled GaussZ ex_h 2 (1, 0)%Z (1, 0)%Z) GaussZ (r0 GaussZ) (fun x => x) ex_dbl None).
Example C31_hyps : (forall i j, i < 2 -> j < 2 -> rconj GaussZ (ex_h j i) = ex_h i j) /\ forall k v, ex_next k = Some v -> length v = 2.
Proof. split; [|intros k v [= <-]; reflexivity]. intros [|[|i]] [|[|j]] Hi Hj; try lia; reflexivity. Qed.
(** 3 moments, then 4 more, a refused call, a further vector *)
Example C31_history_nonvacuous : exists s,
  history ex_next (@rescaled GaussZ ex_h 2 (1, 0)%Z (1, 0)%Z) (r0 GaussZ) (fun x => x) ex_dbl None None (Some 2%Z) true 3%Z [CMoments 4; CMoments 0; CVectors 1] s /\
  s_num s = 7 /\ s_nvec s = 3 /\ option_map (fun l => nth 6 l (r0 GaussZ)) (nth_error (s_moments s) 2) = Some (vdot ([(2, 1)%Z; (1, 1)%Z] : list GaussZ) (cheb ex_H 6 ([(2, 1)%Z; (1, 1)%Z] : list GaussZ))).
Proof.
  set (x0 := ex_init None (Some 2%Z) true 3%Z). set (x1 := ex_addm 4%Z (fst x0)). set (x2 := ex_addm 0%Z (fst x1)). set (x3 := ex_addv 1%Z (fst x2)).
  assert (N0 : snd x0 = None) by (vm_compute; reflexivity). assert (N1 : snd x1 = None) by (vm_compute; reflexivity).
  assert (N2 : snd x2 = Some KValue) by (vm_compute; reflexivity). assert (N3 : snd x3 = None) by (vm_compute; reflexivity).
  assert (G : s_num (fst x3) = 7 /\ s_nvec (fst x3) = 3 /\ option_map (fun l => nth 6 l (r0 GaussZ)) (nth_error (s_moments (fst x3)) 2) = Some (vdot ([(2, 1)%Z; (1, 1)%Z] : list GaussZ) (cheb ex_H 6 ([(2, 1)%Z; (1, 1)%Z] : list GaussZ)))) by (vm_compute; auto).
  exists (fst x3). split; [|exact G]. clear G.
  refine (@HCall _ _ _ _ _ _ _ _ _ _ _ _ [CMoments 4; CMoments 0] (fst x2) (CVectors 1) _ (snd x3) _ (surjective_pairing x3) (or_introl N3)).
  refine (@HCall _ _ _ _ _ _ _ _ _ _ _ _ [CMoments 4] (fst x1) (CMoments 0) _ (snd x2) _ (surjective_pairing x2) (or_intror N2)).
  refine (@HCall _ _ _ _ _ _ _ _ _ _ _ _ [] (fst x0) (CMoments 4) _ (snd x1) _ (surjective_pairing x1) (or_introl N1)).
  apply HInit. rewrite <- N0. apply (surjective_pairing x0).
Qed.
(** num_moments = 1 is refused only by accident: IndexError *)
Example C31_one_moment_refuted : snd (ex_init None (Some 2%Z) true 1%Z) = Some KIndex. Proof. vm_compute. reflexivity. Qed.
(** a factory that runs out of vectors (without a length) leaves an object that counts vectors without moments *)
Definition ex_short (k : nat) : option (list GaussZ) := if k <? 1 then ex_next k else None.
Example C31_stop_refuted :
  let s := fst (sd_init ex_short (@rescaled GaussZ ex_h 2 (1, 0)%Z (1, 0)%Z) (r0 GaussZ) (fun x => x) ex_dbl None None (Some 1%Z) true 3%Z) in
  let r := add_vectors ex_short (@rescaled GaussZ ex_h 2 (1, 0)%Z (1, 0)%Z) (r0 GaussZ) (fun x => x) ex_dbl None 2%Z s in
  snd r = Some KStop /\ s_nvec (fst r) = 3 /\ nth_error (s_moments (fst r)) 1 = Some [].
Proof. vm_compute. auto. Qed.
