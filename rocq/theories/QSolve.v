(** * A checked linear solver over the Gaussian rationals, for examples. *)
From Coq Require Import List Bool Arith ZArith Ring Lia Qcanon QArith.
From Verif Require Import StarRing SubmatrixModel SolverModel SolverSpec GaussQ.
Import ListNotations.
Set Implicit Arguments.
Local Open Scope nat_scope.
(** Gaussian elimination whose result is checked: an exact solver. *)
Definition qinv (x : GaussQ) : GaussQ :=
  let n := Qcanon.Qcplus (Qcanon.Qcmult (fst x) (fst x)) (Qcanon.Qcmult (snd x) (snd x)) in
  (Qcanon.Qcdiv (fst x) n, Qcanon.Qcopp (Qcanon.Qcdiv (snd x) n)).
Definition gq_zero (x : GaussQ) : bool := gq_eqb x (r0 GaussQ).
Fixpoint take_pivot (c : nat) (rows : list (list GaussQ)) : option (list GaussQ * list (list GaussQ)) :=
  match rows with
  | [] => None
  | r :: rs => if gq_zero (nth c r (r0 GaussQ)) then match take_pivot c rs with Some (p, rest) => Some (p, r :: rest) | None => None end else Some (r, rs)
  end.
Definition row_sub (p : list GaussQ) (c : nat) (r : list GaussQ) : list GaussQ :=
  let f := nth c r (r0 GaussQ) in map (fun ab => rsub GaussQ (fst ab) (rmul GaussQ f (snd ab))) (combine r p).
Fixpoint eliminate (fuel c : nat) (done todo : list (list GaussQ)) : list (list GaussQ) :=
  match fuel with
  | 0 => done
  | S fuel => match take_pivot c todo with
    | None => done
    | Some (p, rest) => let p' := map (rmul GaussQ (qinv (nth c p (r0 GaussQ)))) p in
        eliminate fuel (S c) (map (row_sub p' c) done ++ [p']) (map (row_sub p' c) rest)
    end
  end.
Definition rows_of (a b : mat GaussQ) : list (list GaussQ) :=
  map (fun r => map (mget a r) (seq 0 (mc a)) ++ map (mget b r) (seq 0 (mc b))) (seq 0 (mr a)).
Definition gauss (a b : mat GaussQ) : nat -> nat -> GaussQ :=
  let e := eliminate (mc a) 0 [] (rows_of a b) in fun r j => nth (mc a + j) (nth r e []) (r0 GaussQ).
Definition checked (a b : mat GaussQ) (x : nat -> nat -> GaussQ) : bool :=
  forallb (fun r => forallb (fun j => gq_eqb (sum GaussQ (mc a) (fun c => rmul GaussQ (mget a r c) (x c j))) (mget b r j)) (seq 0 (mc b))) (seq 0 (mr a)).
Definition qsolve (a b : mat GaussQ) (kept : list nat) : sres (mat GaussQ) :=
  let x := gauss a b in if checked a b x then inl (mkMat (length kept) (mc b) (fun p j => x (nth p kept 0) j)) else inr SValue.
Definition qlsolve (a b : mat GaussQ) : sres (mat GaussQ) :=
  let x := gauss a b in if checked a b x then inl (mkMat (mc a) (mc b) x) else inr SValue.
Lemma checked_ok a b x : checked a b x = true -> forall r j, r < mr a -> j < mc b -> sum GaussQ (mc a) (fun c => rmul GaussQ (mget a r c) (x c j)) = mget b r j.
Proof.
  intros H r j Hr Hj. unfold checked in H. rewrite forallb_forall in H. 
  assert (Ir : In r (seq 0 (mr a))) by (apply in_seq; lia). assert (Ij : In j (seq 0 (mc b))) by (apply in_seq; lia).
  specialize (H r Ir). cbv beta in H. rewrite forallb_forall in H. specialize (H j Ij). apply gq_eqb_eq in H. exact H.
Qed.
Lemma qsolve_exact : exact_solver qsolve.
Proof.
  intros A B kept D H. unfold qsolve in H. cbv zeta in H. destruct (checked A B (gauss A B)) eqn:E; [|discriminate]. injection H as <-.
  exists (gauss A B). split; [apply checked_ok; auto|]. cbn [mr mc mget]. auto.
Qed.
Lemma qlsolve_exact : exact_lsolve qlsolve.
Proof.
  intros A B X H. unfold qlsolve in H. cbv zeta in H. destruct (checked A B (gauss A B)) eqn:E; [|discriminate]. injection H as <-.
  cbn [mr mc mget]. split; auto. split; auto. apply checked_ok; auto.
Qed.

Import QArith Qcanon.
Local Open Scope Qc_scope.
Lemma sq_nonneg (a : Qc) : 0 <= a * a.
Proof.
  unfold Qcle, Qcmult, Q2Qc. cbn [this]. setoid_rewrite Qred_correct. generalize (this a). intros q.
  destruct q as [x p]. unfold Qle. cbn. nia.
Qed.
Lemma GaussQ_field : is_field GaussQ.
Proof.
  exists qinv. intros [a b]. destruct (Qc_eq_dec (a * a + b * b) 0) as [E|E].
  - left. assert (E1 : a * a = 0 /\ b * b = 0). { pose proof (sq_nonneg a). pose proof (sq_nonneg b). split; apply Qcle_antisym; auto.
      - rewrite <- E. rewrite <- (Qcplus_0_r (a * a)) at 1. apply Qcplus_le_compat; [apply Qcle_refl|auto].
      - rewrite <- E. rewrite <- (Qcplus_0_l (b * b)) at 1. apply Qcplus_le_compat; [auto|apply Qcle_refl]. }
    destruct E1 as [E1 E2]. apply Qcmult_integral in E1, E2. assert (a = 0) by tauto. assert (b = 0) by tauto. subst. reflexivity.
  - right. unfold qinv. cbn [fst snd rmul GaussQ r1]. unfold qi_mul. cbn [fst snd]. f_equal; field; auto.
Qed.

Lemma sum_fst n (f : nat -> GaussQ) : fst (sum GaussQ n f) = nat_rect (fun _ => Qc) 0 (fun k s => s + fst (f k)) n.
Proof. induction n as [|n IH]; [reflexivity|]. rewrite sum_S. cbn [nat_rect]. rewrite <- IH. reflexivity. Qed.
Lemma GaussQ_positive : SolverSpec.positive GaussQ.
Proof.
  intros n f H. assert (E : nat_rect (fun _ => Qc) 0 (fun k s => s + fst (rmul GaussQ (rconj GaussQ (f k)) (f k))) n = 0) by (rewrite <- (sum_fst n (fun k => rmul GaussQ (rconj GaussQ (f k)) (f k))), H; reflexivity).
  clear H. assert (V : forall k, fst (rmul GaussQ (rconj GaussQ (f k)) (f k)) = fst (f k) * fst (f k) + snd (f k) * snd (f k)).
  { intros k. destruct (f k) as [a b]. cbn. unfold qi_mul. cbn. ring. }
  assert (NN : forall k, 0 <= fst (rmul GaussQ (rconj GaussQ (f k)) (f k))).
  { intros k. rewrite V. rewrite <- (Qcplus_0_r 0). apply Qcplus_le_compat; apply sq_nonneg. }
  assert (Z0 : forall a b : Qc, 0 <= a -> 0 <= b -> a + b = 0 -> a = 0 /\ b = 0).
  { intros a b Ha Hb E0. split; apply Qcle_antisym; auto; rewrite <- E0; [rewrite <- (Qcplus_0_r a) at 1|rewrite <- (Qcplus_0_l b) at 1]; apply Qcplus_le_compat; auto; apply Qcle_refl. }
  assert (NS : forall n, 0 <= nat_rect (fun _ => Qc) 0 (fun k s => s + fst (rmul GaussQ (rconj GaussQ (f k)) (f k))) n).
  { clear -NN. induction n as [|n IH]; [apply Qcle_refl|]. cbn [nat_rect]. rewrite <- (Qcplus_0_r 0). apply Qcplus_le_compat; auto. }
  induction n as [|n IH]; intros i Hi; [lia|]. cbn [nat_rect] in E. apply Z0 in E; auto. destruct E as [E1 E2].
  destruct (Nat.eq_dec i n) as [->|Hne]; [|apply IH; auto; lia].
  rewrite V in E2. apply Z0 in E2; try apply sq_nonneg. destruct E2 as [A B]. apply Qcmult_integral in A, B.
  destruct (f n) as [a b]. cbn in *. assert (a = 0) by tauto. assert (b = 0) by tauto. subst. reflexivity.
Qed.
