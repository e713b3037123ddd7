From Coq Require Import List Bool Arith ZArith Reals Lia Lra Psatz.
From Verif Require Import KpmReal KpmRealProofs CvpModel CvpSpec CvpProofs LllModel LllSpec LllProofs.
Import ListNotations.
Open Scope R_scope.
Ltac rring := change (F realA) with R in *; first [ring | match goal with |- @eq _ ?a ?b => change (@eq R a b) end; ring].
Ltac rfield := change (F realA) with R in *; first [field | match goal with |- @eq _ ?a ?b => change (@eq R a b) end; field].

Lemma Rsum_two m i f : (S i < m)%nat -> Rsum m f = f i + f (S i) + Rsum m (fun j => if (j =? i)%nat || (j =? S i)%nat then 0 else f j).
Proof.
  intros H. rewrite (@Rsum_ext m f (fun j => (if (j =? i)%nat then f j else 0) + (if (j =? S i)%nat then f j else 0) + (if (j =? i)%nat || (j =? S i)%nat then 0 else f j))).
  - rewrite !Rsum_plus, (@Rsum_delta m i f), (@Rsum_delta m (S i) f); auto; lia.
  - intros j _. destruct (Nat.eqb_spec j i) as [->|]; [destruct (Nat.eqb_spec i (S i)); [lia|]|]; cbn; [lra|]. destruct (j =? S i)%nat; cbn; lra.
Qed.
Lemma dot_zero d x : dot d x x = 0 -> forall k, (k < d)%nat -> x k = 0.
Proof.
  unfold dot. induction d as [|d IH]; intros H k Hk; [lia|]. cbn in H. assert (0 <= Rsum d (fun k => x k * x k)) by (apply Rsum_nonneg; intros; nra).
  assert (0 <= x d * x d) by nra. destruct (Nat.eq_dec k d) as [->|]; [nra|]. apply IH; [lra|lia].
Qed.

Section Main.
Variables m d : nat.
Variable round : R -> Z.
Notation mat := (nat -> nat -> R).
Notation gsc := (gs_coefficient realA d).
Notation "x · y" := (dot d x y) (at level 40).
Notation vecs := (vecs realA).
Notation star := (star realA).
Notation u := (u realA).
Notation ll_reduce := (ll_reduce realA m d round).
Lemma gsc_eq a b : gsc a b = (a · b) / (b · b). Proof. unfold gs_coefficient. rewrite !fdot_dot. reflexivity. Qed.

(** the first n vectors are orthogonalized *)
Definition good (n : nat) (st : state realA) : Prop :=
  (forall i, (i < n)%nat -> u st i i = 1) /\ (forall i j, (i < n)%nat -> (i < j)%nat -> (j < m)%nat -> u st i j = 0)
  /\ (forall i k, (i < n)%nat -> (k < d)%nat -> vecs st i k = Rsum m (fun j => u st i j * star st j k))
  /\ (forall i j, (i < n)%nat -> (j < n)%nat -> i <> j -> star st i · star st j = 0)
  /\ (forall i, (i < n)%nat -> 0 < star st i · star st i).

Lemma reduce_good n i st : (n <= m)%nat -> (i < n)%nat -> good n st -> good n (ll_reduce i st) /\ star (ll_reduce i st) = star st /\ (forall a, a <> i -> vecs (ll_reduce i st) a = vecs st a /\ u (ll_reduce i st) a = u st a).
Proof.
  intros Hn Hi. unfold ll_reduce. assert (H : forall j, In j (rev (seq 0 i)) -> (j < i)%nat) by (intros j Hj; apply in_rev, in_seq in Hj; lia).
  revert H st. generalize (rev (seq 0 i)). induction l as [|j l IH]; intros H st G; cbn [fold_left]; [auto|].
  assert (Hj : (j < i)%nat) by (apply H; cbn; auto). set (st1 := mkState realA _ _ _).
  assert (G1 : good n st1).
  { destruct G as (G1 & G2 & G3 & G4 & G5). unfold st1. split; [|split; [|split; [|split]]]; cbn [LllModel.vecs LllModel.star LllModel.u]; auto.
    - intros a Ha. destruct (Nat.eq_dec a i) as [->|]; [|rewrite set_row_ne by auto; auto]. rewrite set_row_eq by lia. rewrite (G1 i), (G2 j i) by lia. cbn [realA F fsub fmul fZ f0 f1] in *. rring.
    - intros a b Ha Hab Hb. destruct (Nat.eq_dec a i) as [->|]; [|rewrite set_row_ne by auto; auto]. rewrite set_row_eq by lia. rewrite (G2 i b), (G2 j b) by lia. cbn [realA F fsub fmul fZ f0 f1] in *. rring.
    - intros a k Ha Hk. destruct (Nat.eq_dec a i) as [->|]; [|rewrite !set_row_ne by auto; auto]. rewrite set_row_eq by lia. rewrite !G3 by lia. cbn [realA F fsub fmul fZ f0 f1] in *.
      rewrite <- Rsum_mult_l, <- Rsum_minus. apply Rsum_ext. intros b Hb. rewrite set_row_eq by lia. rring. }
  destruct (IH ltac:(intros; apply H; cbn; auto) st1 G1) as (A1 & A2 & A3). split; auto. split; [rewrite A2; reflexivity|].
  intros a Ha. destruct (A3 a Ha) as [E1 E2]. rewrite E1, E2. unfold st1. cbn [LllModel.vecs LllModel.u]. rewrite !set_row_ne by auto. auto.
Qed.

(** the reduced vector has a small last coefficient *)
Lemma reduce_coef i st : (S i < m)%nat -> good m st -> round_ok round -> Rabs (u (ll_reduce (S i) st) (S i) i) <= 1 / 2.
Proof.
  intros Hi G Hr. unfold LllModel.ll_reduce. rewrite seq_S, rev_app_distr. cbn [rev app Nat.add fold_left].
  match goal with |- context [fold_left ?f ?l ?s] => set (stp := f); set (st1 := s) end.
  assert (B : Rabs (u st1 (S i) i) <= 1 / 2).
  { unfold st1. cbn [LllModel.u]. rewrite set_row_eq by lia. destruct G as (G1 & _). rewrite (G1 i) by lia. cbn [realA fsub fmul fZ].
    specialize (Hr (u st (S i) i)). rewrite Rabs_minus_sym in Hr. rewrite Rmult_1_r. exact Hr. }
  assert (Z : forall j, (j < i)%nat -> u st1 j i = 0).
  { intros j Hj. unfold st1. cbn [LllModel.u]. rewrite set_row_ne by lia. destruct G as (_ & G2 & _). apply G2; lia. }
  assert (H : forall j, In j (rev (seq 0 i)) -> (j < i)%nat) by (intros j Hj; apply in_rev, in_seq in Hj; lia).
  revert H B Z. generalize st1. generalize (rev (seq 0 i)). clear st1. induction l as [|j l IH]; intros st1 H B Z; cbn [fold_left]; auto.
  apply IH.
  - intros; apply H; cbn; auto.
  - unfold stp. cbn [LllModel.u]. rewrite set_row_eq by lia. rewrite (Z j) by (apply H; cbn; auto). cbn [realA fsub fmul fZ]. rewrite Rmult_0_r, Rminus_0_r. auto.
  - intros j' Hj'. unfold stp. cbn [LllModel.u]. rewrite set_row_ne by lia. auto.
Qed.

Section Init.
Variable basis : mat.
Hypothesis Hind : independent m d basis.
(** orthogonalize: rows other than i are untouched *)
Definition pre (i : nat) (st : state realA) : Prop :=
  (forall a, (i <= a)%nat -> vecs st a = basis a /\ star st a = basis a /\ (forall b, (b < m)%nat -> u st a b = if (a =? b)%nat then 1 else 0))
  /\ (forall a, (a < i)%nat -> exists w, w a = 1 /\ (forall b, (a < b)%nat -> w b = 0) /\ forall k, (k < d)%nat -> star st a k = Rsum m (fun b => w b * basis b k)).
Lemma dot_star n st i j : good n st -> (n <= m)%nat -> (i < n)%nat -> (j < n)%nat -> vecs st i · star st j = u st i j * (star st j · star st j).
Proof.
  intros (G1 & G2 & G3 & G4 & G5) Hn Hi Hj. rewrite (dot_ext d (vecs st i) (star st j) (fun k => Rsum m (fun l => u st i l * star st l k)) (star st j)); auto.
  rewrite dot_sum_l. rewrite (@Rsum_ext m _ (fun l => if (l =? j)%nat then u st i l * (star st l · star st j) else 0)).
  - apply (@Rsum_delta m j (fun l => u st i l * (star st l · star st j))). lia.
  - intros l Hl. destruct (Nat.eqb_spec l j); auto. destruct (le_lt_dec n l); [rewrite G2 by lia; rring|rewrite G4 by auto; rring].
Qed.
Lemma orth_spec i st : (i < m)%nat -> good i st -> pre i st ->
  let st' := orthogonalize realA m d gsc i st in
  vecs st' = vecs st /\ (forall a, a <> i -> star st' a = star st a /\ u st' a = u st a)
  /\ (forall b, (b < m)%nat -> u st' i b = if (b <? i)%nat then gsc (vecs st i) (star st b) else if (i =? b)%nat then 1 else 0)
  /\ (forall k, (k < d)%nat -> star st' i k = basis i k - Rsum i (fun j => gsc (vecs st i) (star st j) * star st j k)).
Proof.
  intros Hi G P. destruct (proj1 P i (le_n i)) as (P1 & P2 & P3). cbv zeta. unfold orthogonalize.
  assert (Gn : forall n, (n <= i)%nat -> let st' := fold_left (fun st j => let x := gsc (vecs st i) (star st j) in mkState realA (vecs st) (set_row realA d (star st) i (fun k => fsub realA (star st i k) (fmul realA x (star st j k)))) (set_entry realA m (u st) i j x)) (seq 0 n) st in
     vecs st' = vecs st /\ (forall a, a <> i -> star st' a = star st a /\ u st' a = u st a)
     /\ (forall b, (b < m)%nat -> u st' i b = if (b <? n)%nat then gsc (vecs st i) (star st b) else if (i =? b)%nat then 1 else 0)
     /\ (forall k, (k < d)%nat -> star st' i k = basis i k - Rsum n (fun j => gsc (vecs st i) (star st j) * star st j k))).
  2: { exact (Gn i (le_n i)). }
  induction n as [|n IH]; intros Hn.
  - cbn. split; auto. split; auto. split; [intros b Hb; rewrite P3; auto|]. intros k Hk. rewrite P2. rring.
  - rewrite seq_S, fold_left_app. destruct (IH ltac:(lia)) as (A1 & A2 & A3 & A4). clear IH. cbn [fold_left Nat.add].
    set (st1 := fold_left _ (seq 0 n) st) in *. cbv zeta. cbn [LllModel.vecs LllModel.star LllModel.u].
    destruct (A2 n ltac:(lia)) as (B1 & B2). split; auto. split; [|split].
    + intros a Ha. rewrite set_row_ne by auto. destruct (A2 a Ha). split; auto. unfold set_entry. rewrite set_row_ne; auto.
    + intros b Hb. rewrite set_entry_get by auto. rewrite Nat.eqb_refl. cbn [andb]. rewrite A3 by auto. rewrite A1, B1.
      destruct (Nat.eqb_spec b n) as [->|]; [destruct (Nat.ltb_spec n (S n)); [auto|lia]|].
      destruct (Nat.ltb_spec b n), (Nat.ltb_spec b (S n)); auto; lia.
    + intros k Hk. rewrite set_row_eq by auto. rewrite A4 by auto. rewrite A1, B1. cbn [Rsum realA F fsub fmul fZ f0 f1] in *. rring.
Qed.
Lemma orth_good i st : (i < m)%nat -> good i st -> pre i st ->
  good (S i) (orthogonalize realA m d gsc i st) /\ (forall a, (S i <= a)%nat -> vecs (orthogonalize realA m d gsc i st) a = basis a)
  /\ pre (S i) (orthogonalize realA m d gsc i st).
Proof.
  intros Hi G P. pose proof (orth_spec i st Hi G P) as S1. cbv zeta in S1. set (st' := orthogonalize realA m d gsc i st) in *. destruct S1 as (S1 & S2 & S3 & S4).
  destruct P as [P1 P2]. destruct (P1 i (le_n i)) as (Vi & _ & _). pose proof G as (G1 & G2 & G3 & G4 & G5).
  assert (Ort : forall j, (j < i)%nat -> star st' i · star st j = 0).
  { intros j Hj. rewrite (dot_ext d (star st' i) (star st j) (fun k => basis i k - Rsum i (fun j => gsc (vecs st i) (star st j) * star st j k)) (star st j)); auto.
    rewrite dot_minus_l, dot_sum_l. rewrite (@Rsum_ext i _ (fun l => if (l =? j)%nat then gsc (vecs st i) (star st l) * (star st l · star st j) else 0)).
    - rewrite (@Rsum_delta i j (fun l => gsc (vecs st i) (star st l) * (star st l · star st j))) by auto. rewrite gsc_eq, Vi. rfield. specialize (G5 j Hj). lra.
    - intros l Hl. destruct (Nat.eqb_spec l j); auto. rewrite G4 by auto. rring. }
  assert (Wi : exists w, w i = 1 /\ (forall b, (i < b)%nat -> w b = 0) /\ forall k, (k < d)%nat -> star st' i k = Rsum m (fun b => w b * basis b k)).
  { assert (Wn : forall n, (n <= i)%nat -> exists w, (forall b, (i <= b)%nat -> w b = 0) /\ forall k, (k < d)%nat -> Rsum n (fun j => gsc (vecs st i) (star st j) * star st j k) = Rsum m (fun b => w b * basis b k)).
    { induction n as [|n IH]; intros Hn.
      - exists (fun _ => 0). split; auto. intros k _. cbn. symmetry. transitivity (Rsum m (fun _ => 0)); [apply Rsum_ext; intros; rring|apply Rsum_0].
      - destruct (IH ltac:(lia)) as (w & W1 & W2). destruct (P2 n ltac:(lia)) as (w' & V1 & V2 & V3).
        exists (fun b => w b + gsc (vecs st i) (star st n) * w' b). split; [intros b Hb; rewrite W1, V2 by lia; rring|].
        intros k Hk. cbn [Rsum]. rewrite W2, V3 by auto. rewrite <- Rsum_mult_l, <- Rsum_plus. apply Rsum_ext. intros; rring. }
    destruct (Wn i (le_n i)) as (w & W1 & W2). exists (fun b => (if (b =? i)%nat then 1 else 0) - w b). split; [rewrite Nat.eqb_refl, W1 by lia; rring|].
    split; [intros b Hb; rewrite W1 by lia; destruct (Nat.eqb_spec b i); [lia|rring]|].
    intros k Hk. rewrite S4, W2 by auto. rewrite (@Rsum_ext m (fun b => ((if (b =? i)%nat then 1 else 0) - w b) * basis b k) (fun b => (if (b =? i)%nat then basis b k else 0) - w b * basis b k)) by (intros b _; destruct (b =? i)%nat; rring).
    rewrite Rsum_minus, (@Rsum_delta m i (fun b => basis b k)) by auto. auto. }
  assert (Pos : 0 < star st' i · star st' i).
  { destruct (dot_pos d (star st' i)) as [|E]; auto. exfalso. symmetry in E. destruct Wi as (w & W1 & _ & W3).
    assert (Z : w i = 0); [|lra]. apply (Hind w); auto. intros k Hk. rewrite <- W3 by auto. apply (dot_zero d _ E k Hk). }
  split; [|split].
  - split; [|split; [|split; [|split]]].
    + intros a Ha. destruct (Nat.eq_dec a i) as [->|]; [|rewrite (proj2 (S2 a ltac:(auto))); apply G1; lia]. rewrite S3 by auto. rewrite Nat.ltb_irrefl, Nat.eqb_refl. auto.
    + intros a b Ha Hab Hb. destruct (Nat.eq_dec a i) as [->|]; [|rewrite (proj2 (S2 a ltac:(auto))); apply G2; lia]. rewrite S3 by auto.
      destruct (Nat.ltb_spec b i); [lia|]. destruct (Nat.eqb_spec i b); [lia|auto].
    + intros a k Ha Hk. rewrite S1. destruct (Nat.eq_dec a i) as [->|Na].
      * rewrite Vi. rewrite (@Rsum_ext m (fun j => u st' i j * star st' j k) (fun j => (if (j =? i)%nat then star st' i k else 0) + (if (j <? i)%nat then gsc (vecs st i) (star st j) * star st j k else 0))).
        -- rewrite Rsum_plus, (@Rsum_delta m i (fun _ => star st' i k)) by auto. rewrite S4 by auto. rewrite (@Rsum_trunc m i).
           ++ rewrite (@Rsum_ext i (fun j => if (j <? i)%nat then gsc (vecs st i) (star st j) * star st j k else 0) (fun j => gsc (vecs st i) (star st j) * star st j k)); [rring|]. intros j Hj. destruct (Nat.ltb_spec j i); [auto|lia].
           ++ lia.
           ++ intros j Hj _. destruct (Nat.ltb_spec j i); [lia|auto].
        -- intros j Hj. rewrite S3 by auto. destruct (Nat.ltb_spec j i).
           ++ destruct (Nat.eqb_spec j i); [lia|]. rewrite (proj1 (S2 j ltac:(auto))). rring.
           ++ rewrite (Nat.eqb_sym i j). destruct (Nat.eqb_spec j i) as [->|]; rring.
      * rewrite G3 by (auto; lia). apply Rsum_ext. intros j Hj. rewrite (proj2 (S2 a Na)). destruct (Nat.eq_dec j i) as [->|Nj]; [|rewrite (proj1 (S2 j Nj)); auto]. rewrite G2 by lia. rring.
    + intros a b Ha Hb Hab. destruct (Nat.eq_dec a i) as [->|Na].
      * rewrite (proj1 (S2 b ltac:(auto))). apply Ort. lia.
      * rewrite (proj1 (S2 a Na)). destruct (Nat.eq_dec b i) as [->|Nb]; [rewrite dot_comm; apply Ort; lia|]. rewrite (proj1 (S2 b Nb)). apply G4; auto; lia.
    + intros a Ha. destruct (Nat.eq_dec a i) as [->|Na]; auto. rewrite (proj1 (S2 a Na)). apply G5; lia.
  - intros a Ha. rewrite S1. apply (P1 a). lia.
  - split.
    + intros a Ha. destruct (P1 a ltac:(lia)) as (A1 & A2 & A3). rewrite S1. destruct (S2 a ltac:(lia)) as (B1 & B2). rewrite B1, B2. auto.
    + intros a Ha. destruct (Nat.eq_dec a i) as [->|Na]; auto. rewrite (proj1 (S2 a Na)). apply P2. lia.
Qed.
Definition init_upto (n : nat) : state realA := fold_left (fun st i => ll_reduce i (orthogonalize realA m d gsc i st)) (seq 0 n) (mkState realA basis basis (fun i j => if (i =? j)%nat then 1 else 0)).
Lemma init_pre : forall n, (n <= m)%nat -> good n (init_upto n) /\ pre n (init_upto n).
Proof.
  unfold init_upto. set (st0 := mkState realA basis basis _).
  induction n as [|n IH]; intros Hn.
  - cbn. split; [repeat split; intros; lia|]. split; [|intros; lia]. intros a _. unfold st0. cbn. repeat split.
  - rewrite seq_S, fold_left_app. cbn [fold_left Nat.add]. destruct (IH ltac:(lia)) as [G P]. set (st := fold_left _ (seq 0 n) st0) in *.
    destruct (orth_good n st ltac:(lia) G P) as (G' & V' & P'). set (st' := orthogonalize realA m d gsc n st) in *.
    destruct (reduce_good (S n) n st' Hn ltac:(lia) G') as (R1 & R2 & R3). split; auto. split.
    + intros a Ha. destruct (proj1 P' a Ha) as (A1 & A2 & A3). destruct (R3 a ltac:(lia)) as (E1 & E2). rewrite E1, E2, R2. auto.
    + intros a Ha. rewrite R2. apply (proj2 P' a Ha).
Qed.
Lemma init_good : good m (initialize realA m d gsc round basis).
Proof. apply init_pre; auto. Qed.
Lemma init_last n : (m = S (S n))%nat -> round_ok round -> Rabs (u (initialize realA m d gsc round basis) (S n) n) <= 1 / 2.
Proof.
  intros Hm Hr. assert (E : initialize realA m d gsc round basis = ll_reduce (S n) (orthogonalize realA m d gsc (S n) (init_upto (S n)))).
  { unfold initialize, init_upto. rewrite Hm at 1. rewrite seq_S, fold_left_app. reflexivity. }
  rewrite E. destruct (init_pre (S n) ltac:(lia)) as [G P]. apply reduce_coef; auto; [lia|].
  pose proof (proj1 (orth_good (S n) (init_upto (S n)) ltac:(lia) G P)) as G'. rewrite <- Hm in G'. exact G'.
Qed.
End Init.

(** the exchange *)
Lemma fold_entries (i : nat) (v s : mat) : forall l (U : mat), NoDup l -> (S i < m)%nat -> (forall j, In j l -> (S i < j)%nat) ->
  let U' := fold_left (fun U j => set_entry realA m (set_entry realA m U j i (gsc (v j) (s i))) j (S i) (gsc (v j) (s (S i)))) l U in
  forall a b, (b < m)%nat -> (In a l -> U' a b = if (b =? i)%nat then gsc (v a) (s i) else if (b =? S i)%nat then gsc (v a) (s (S i)) else U a b) /\ (~ In a l -> U' a b = U a b).
Proof.
  induction l as [|j l IH]; intros U ND Hi Hl U' a b Hb; [cbn; split; [intros []|auto]|].
  inversion ND; subst. cbn [fold_left] in U'. specialize (IH (set_entry realA m (set_entry realA m U j i (gsc (v j) (s i))) j (S i) (gsc (v j) (s (S i)))) H2 Hi ltac:(intros; apply Hl; cbn; auto) a b Hb).
  cbv zeta in IH. destruct IH as [I1 I2]. subst U'. split.
  - intros [->|Ha].
    + rewrite I2 by auto. rewrite !set_entry_get by auto. rewrite Nat.eqb_refl. cbn [andb]. destruct (Nat.eqb_spec b (S i)), (Nat.eqb_spec b i); auto; lia.
    + rewrite I1 by auto. destruct (Nat.eqb_spec b i); auto. destruct (Nat.eqb_spec b (S i)); auto. rewrite !set_entry_get by auto. destruct (Nat.eqb_spec a j) as [->|]; [contradiction|]. auto.
  - intros Ha. cbn in Ha. rewrite I2 by tauto. rewrite !set_entry_get by auto. destruct (Nat.eqb_spec a j) as [->|]; [tauto|]. auto.
Qed.
Lemma exchange_full i st : (S i < m)%nat -> good m st ->
  good m (exchange realA m d gsc round i st) /\ (forall a, a <> i -> a <> S i -> star (exchange realA m d gsc round i st) a = star st a)
  /\ star (exchange realA m d gsc round i st) i · star (exchange realA m d gsc round i st) i = star st (S i) · star st (S i) + u st (S i) i * u st (S i) i * (star st i · star st i)
  /\ star (exchange realA m d gsc round i st) (S i) · star (exchange realA m d gsc round i st) (S i) = (star st i · star st i) * (star st (S i) · star st (S i)) / (star st (S i) · star st (S i) + u st (S i) i * u st (S i) i * (star st i · star st i))
  /\ (round_ok round -> Rabs (u (exchange realA m d gsc round i st) (S i) i) <= 1 / 2).
Proof.
  intros Hi G. pose proof G as (G1 & G2 & G3 & G4 & G5). unfold exchange. cbv zeta.
  set (mu := u st (S i) i). set (star1 := set_row realA d (star st) (S i) _). set (nu := gsc (vecs st i) (star1 (S i))).
  set (star2 := set_row realA d star1 i _). set (vecs3 := swap_rows realA (vecs st) i (S i)). set (star3 := swap_rows realA star2 i (S i)).
  set (u3 := set_entry realA m (set_entry realA m (set_entry realA m (set_entry realA m (u st) i i nu) i (S i) _) (S i) i _) (S i) (S i) _).
  set (u4 := swap_rows realA u3 i (S i)). set (u5 := fold_left _ (seq (i + 2) (m - (i + 2))) u4).
  set (r1 := star st i · star st i). set (r2 := star st (S i) · star st (S i)). set (r' := r2 + mu * mu * r1).
  assert (P1 : 0 < r1) by (apply G5; lia). assert (P2 : 0 < r2) by (apply G5; lia). assert (P' : 0 < r') by (unfold r'; nra).
  (* the new stars *)
  assert (Si : forall k, (k < d)%nat -> star3 i k = star st (S i) k + mu * star st i k).
  { intros k Hk. unfold star3. rewrite swap_get, Nat.eqb_refl. unfold star2. rewrite set_row_ne by lia. unfold star1. rewrite set_row_eq by auto. reflexivity. }
  assert (S1i : forall k, (k < d)%nat -> star1 (S i) k = star3 i k).
  { intros k Hk. unfold star3. rewrite swap_get, Nat.eqb_refl. unfold star2. rewrite set_row_ne by lia. auto. }
  assert (Di : forall x, x · star3 i = x · star st (S i) + mu * (x · star st i)).
  { intros x. rewrite (dot_ext d x (star3 i) x (fun k => star st (S i) k + mu * star st i k)) by auto. rewrite dot_plus_r, dot_scal_r. auto. }
  assert (O12 : star st i · star st (S i) = 0) by (apply G4; lia).
  assert (Ri : star3 i · star3 i = r').
  { rewrite Di, !(dot_comm d (star3 i)), !Di. rewrite (dot_comm d (star st (S i)) (star st i)), O12. fold r1 r2. unfold r'. rring. }
  assert (Nu : nu = mu * r1 / r').
  { unfold nu. rewrite gsc_eq. rewrite (dot_ext d (vecs st i) (star1 (S i)) (vecs st i) (star3 i)) by auto. rewrite (dot_ext d (star1 (S i)) (star1 (S i)) (star3 i) (star3 i)) by auto.
    rewrite Ri, Di. rewrite !(dot_star m st i) by (auto; lia). rewrite G1, G2 by lia. fold r1 r2. f_equal. rring. }
  assert (Sj : forall k, (k < d)%nat -> star3 (S i) k = star st i k - nu * star3 i k).
  { intros k Hk. unfold star3 at 1. rewrite swap_get. destruct (Nat.eqb_spec (S i) i); [lia|]. rewrite Nat.eqb_refl. unfold star2. rewrite set_row_eq by auto. cbn [realA fsub fmul]. rewrite S1i by auto. unfold star1. rewrite set_row_ne by lia. auto. }
  assert (So : forall a, a <> i -> a <> S i -> star3 a = star st a).
  { intros a Ha Hb. unfold star3. rewrite swap_get. destruct (Nat.eqb_spec a i); [lia|]. destruct (Nat.eqb_spec a (S i)); [lia|]. unfold star2. rewrite set_row_ne by auto. unfold star1. rewrite set_row_ne by auto. auto. }
  assert (Dj : forall x, x · star3 (S i) = x · star st i - nu * (x · star3 i)).
  { intros x. rewrite (dot_ext d x (star3 (S i)) x (fun k => star st i k - nu * star3 i k)) by auto. rewrite dot_minus_r, dot_scal_r. auto. }
  assert (O' : star3 i · star3 (S i) = 0).
  { rewrite Dj, Ri, (dot_comm d (star3 i)), Di. rewrite O12. fold r1. rewrite Nu. rfield. lra. }
  assert (Rj : star3 (S i) · star3 (S i) = r1 * r2 / r').
  { rewrite Dj, (dot_comm d (star3 (S i)) (star3 i)), O'. rewrite (dot_comm d (star3 (S i))), Dj, Di, O12. fold r1. rewrite Nu. unfold r'. rfield. unfold r' in P'. lra. }
  (* the new coefficients *)
  assert (U3 : forall a b, (b < m)%nat -> u3 a b = if (a =? i)%nat then (if (b =? i)%nat then nu else if (b =? S i)%nat then 1 else u st i b)
     else if (a =? S i)%nat then (if (b =? i)%nat then 1 else if (b =? S i)%nat then 0 else u st (S i) b) else u st a b).
  { intros a b Hb. unfold u3. rewrite !set_entry_get by auto. cbn [f0 f1 realA].
    destruct (Nat.eqb_spec a i) as [->|N1]; [destruct (Nat.eqb_spec i (S i)); [lia|]; cbn [andb]; destruct (Nat.eqb_spec b (S i)), (Nat.eqb_spec b i); auto; lia|].
    destruct (Nat.eqb_spec a (S i)) as [->|N2]; cbn [andb]; auto. destruct (Nat.eqb_spec b (S i)), (Nat.eqb_spec b i); auto; lia. }
  assert (U5 : forall a b, (a < m)%nat -> (b < m)%nat -> u5 a b = if (a =? i)%nat then u3 (S i) b else if (a =? S i)%nat then u3 i b
     else if (a <? i)%nat then u st a b else if (b =? i)%nat then gsc (vecs st a) (star3 i) else if (b =? S i)%nat then gsc (vecs st a) (star3 (S i)) else u st a b).
  { intros a b Ha Hb. unfold u5. destruct (fold_entries i vecs3 star3 (seq (i + 2) (m - (i + 2))) u4 (seq_NoDup _ _) Hi ltac:(intros j Hj; apply in_seq in Hj; lia) a b Hb) as [E1 E2].
    assert (U4 : u4 a b = if (a =? i)%nat then u3 (S i) b else if (a =? S i)%nat then u3 i b else u3 a b) by (unfold u4; rewrite swap_get; destruct (a =? i)%nat; auto; destruct (a =? S i)%nat; auto).
    destruct (Nat.eqb_spec a i) as [Ea|N1]; [rewrite E2 by (intros X; apply in_seq in X; lia); rewrite U4; auto|].
    destruct (Nat.eqb_spec a (S i)) as [Ea|N2]; [rewrite E2 by (intros X; apply in_seq in X; lia); rewrite U4; auto|].
    assert (U3a : u3 a b = u st a b) by (rewrite U3 by auto; destruct (Nat.eqb_spec a i); [lia|]; destruct (Nat.eqb_spec a (S i)); [lia|auto]).
    destruct (Nat.ltb_spec a i); [rewrite E2 by (intros X; apply in_seq in X; lia); rewrite U4; auto|].
    rewrite E1 by (apply in_seq; lia). assert (V3 : vecs3 a = vecs st a) by (unfold vecs3; rewrite swap_get; destruct (Nat.eqb_spec a i); [lia|]; destruct (Nat.eqb_spec a (S i)); [lia|auto]).
    rewrite V3, U4, U3a. auto. }
  assert (Gs : good m (mkState realA vecs3 star3 u5)).
  { split; [|split; [|split; [|split]]]; cbn [LllModel.vecs LllModel.star LllModel.u].
    - intros a Ha. rewrite U5 by auto. destruct (Nat.eqb_spec a i) as [->|N1]; [rewrite U3 by auto; destruct (Nat.eqb_spec (S i) i); [lia|]; rewrite !Nat.eqb_refl; auto|].
      destruct (Nat.eqb_spec a (S i)) as [->|N2]; [rewrite U3 by auto; rewrite !Nat.eqb_refl; destruct (Nat.eqb_spec (S i) i); [lia|auto]|].
      destruct (a <? i)%nat; auto.
    - intros a b Ha Hab Hb. rewrite U5 by auto. destruct (Nat.eqb_spec a i) as [->|N1].
      { rewrite U3 by auto. destruct (Nat.eqb_spec (S i) i); [lia|]. rewrite Nat.eqb_refl. destruct (Nat.eqb_spec b i); [lia|]. destruct (Nat.eqb_spec b (S i)); auto. apply G2; lia. }
      destruct (Nat.eqb_spec a (S i)) as [->|N2].
      { rewrite U3 by auto. rewrite Nat.eqb_refl. destruct (Nat.eqb_spec b i); [lia|]. destruct (Nat.eqb_spec b (S i)); [lia|]. apply G2; lia. }
      destruct (Nat.ltb_spec a i); [apply G2; lia|]. destruct (Nat.eqb_spec b i); [lia|]. destruct (Nat.eqb_spec b (S i)); [lia|]. apply G2; lia.
    - intros a k Ha Hk. rewrite (Rsum_two m i) by auto. rewrite Si, Sj, Si by auto.
      set (p := star st i k). set (q := star st (S i) k).
      assert (Rest : forall e, (e < m)%nat -> vecs st e k = u st e i * p + u st e (S i) * q + Rsum m (fun j => if (j =? i)%nat || (j =? S i)%nat then 0 else u st e j * star st j k)).
      { intros e He. rewrite G3 by auto. exact (Rsum_two m i (fun j => u st e j * star st j k) Hi). }
      assert (Rx : forall e, (forall j, (j < m)%nat -> j <> i -> j <> S i -> u5 a j = u st e j) -> Rsum m (fun j => if (j =? i)%nat || (j =? S i)%nat then 0 else u5 a j * star3 j k) = Rsum m (fun j => if (j =? i)%nat || (j =? S i)%nat then 0 else u st e j * star st j k)).
      { intros e He. apply Rsum_ext. intros j Hj. destruct (Nat.eqb_spec j i); auto. destruct (Nat.eqb_spec j (S i)); cbn [orb]; auto. rewrite So, He by auto. auto. }
      unfold vecs3. rewrite swap_get. destruct (Nat.eqb_spec a i) as [Ea|N1]; [|destruct (Nat.eqb_spec a (S i)) as [Ea|N2]].
      + rewrite (Rest (S i)) by (auto; lia). rewrite (Rx (S i)). 2: { intros j Hj Nj Nj'. rewrite U5 by auto; destruct (Nat.eqb_spec a i); [|lia]; rewrite U3 by auto; destruct (Nat.eqb_spec (S i) i); [lia|]; rewrite Nat.eqb_refl; destruct (Nat.eqb_spec j i); [lia|]; destruct (Nat.eqb_spec j (S i)); [lia|auto]. }
        rewrite !U5 by (auto; lia). destruct (Nat.eqb_spec a i); [|lia]. rewrite !U3 by (auto; lia). destruct (Nat.eqb_spec (S i) i); [lia|]. rewrite !Nat.eqb_refl. rewrite (G1 (S i)) by lia. fold mu. rring.
      + rewrite (Rest i) by (auto; lia). rewrite (Rx i). 2: { intros j Hj Nj Nj'. rewrite U5 by auto; destruct (Nat.eqb_spec a i); [lia|]; destruct (Nat.eqb_spec a (S i)); [|lia]; rewrite U3 by auto; rewrite Nat.eqb_refl; destruct (Nat.eqb_spec j i); [lia|]; destruct (Nat.eqb_spec j (S i)); [lia|auto]. }
        rewrite !U5 by (auto; lia). destruct (Nat.eqb_spec a i); [lia|]. destruct (Nat.eqb_spec a (S i)); [|lia]. rewrite !U3 by (auto; lia). rewrite !Nat.eqb_refl. destruct (Nat.eqb_spec (S i) i); [lia|]. rewrite (G1 i), (G2 i) by lia. rring.
      + rewrite (Rest a) by (auto; lia). rewrite (Rx a). 2: { intros j Hj Nj Nj'. rewrite U5 by auto; destruct (Nat.eqb_spec a i); [lia|]; destruct (Nat.eqb_spec a (S i)); [lia|]; destruct (a <? i)%nat; auto; destruct (Nat.eqb_spec j i); [lia|]; destruct (Nat.eqb_spec j (S i)); [lia|auto]. }
        f_equal. rewrite !U5 by (auto; lia). destruct (Nat.eqb_spec a i); [lia|]. destruct (Nat.eqb_spec a (S i)); [lia|]. destruct (Nat.ltb_spec a i); [rewrite !G2 by lia; rring|].
        rewrite !Nat.eqb_refl. destruct (Nat.eqb_spec (S i) i); [lia|]. rewrite !gsc_eq, Rj, Ri, Dj, Di. rewrite !(dot_star m st a) by (auto; lia). fold r1 r2. rewrite Nu.
        set (x := u st a i). set (y := u st a (S i)). unfold r'. rfield. unfold r' in P'. repeat split; lra.
    - intros a b Ha Hb Hab.
      assert (Oo : forall e, (e < m)%nat -> e <> i -> e <> S i -> star st e · star3 i = 0 /\ star st e · star3 (S i) = 0).
      { intros e He N1 N2. assert (E : star st e · star3 i = 0) by (rewrite Di, !G4 by (auto; lia); rring). split; auto. rewrite Dj, E, G4 by (auto; lia). rring. }
      destruct (Nat.eq_dec a i) as [->|A1]; [|destruct (Nat.eq_dec a (S i)) as [->|A2]].
      + destruct (Nat.eq_dec b (S i)) as [->|]; auto. rewrite (So b) by auto. rewrite dot_comm. apply Oo; auto.
      + destruct (Nat.eq_dec b i) as [->|]; [rewrite dot_comm; auto|]. rewrite (So b) by auto. rewrite dot_comm. apply Oo; auto.
      + rewrite (So a) by auto. destruct (Nat.eq_dec b i) as [->|]; [apply Oo; auto|]. destruct (Nat.eq_dec b (S i)) as [->|]; [apply Oo; auto|]. rewrite So by auto. apply G4; auto.
    - intros a Ha. destruct (Nat.eq_dec a i) as [->|A1]; [rewrite Ri; auto|]. destruct (Nat.eq_dec a (S i)) as [->|A2]; [rewrite Rj; apply Rdiv_lt_0_compat; [nra|auto]|]. rewrite So by auto. apply G5; auto. }
  destruct (fltb _ _ _) eqn:Eu.
  - destruct (reduce_good m (S i) _ (le_n m) Hi Gs) as (R1 & R2 & R3). split; auto. split; [intros a Ha Hb; rewrite R2; cbn [LllModel.star]; apply So; auto|].
    rewrite R2. cbn [LllModel.star]. split; [exact Ri|split; [exact Rj|]]. intros Hr. apply reduce_coef; auto.
  - split; auto. split; auto. cbn [LllModel.star LllModel.u]. split; [exact Ri|split; [exact Rj|]]. intros _. apply Rnot_lt_le. intros X.
    rewrite <- fabs_Rabs in X. apply (proj2 (fltb_iff _ _)) in X. assert (X' : false = true) by exact (eq_trans (eq_sym Eu) X). discriminate.
Qed.
Lemma exchange_good i st : (S i < m)%nat -> good m st ->
  good m (exchange realA m d gsc round i st) /\ forall a, a <> i -> a <> S i -> star (exchange realA m d gsc round i st) a = star st a.
Proof. intros Hi G. destruct (exchange_full i st Hi G) as (A & B & _). auto. Qed.

Lemma in_order_iff c i st : in_order realA d c i st = true <-> star st i · star st i < c * (star st (S i) · star st (S i)).
Proof. unfold in_order. rewrite fltb_iff, !fdot_dot. reflexivity. Qed.
Lemma loop_good c : forall fuel i st st', good m st -> (forall k, (k < i)%nat -> (S k < m)%nat -> in_order realA d c k st = true) ->
  loop realA m d gsc round fuel c i st = Some st' -> good m st' /\ forall k, (S k < m)%nat -> in_order realA d c k st' = true.
Proof.
  induction fuel as [|fuel IH]; intros i st st' G O; cbn [loop]; [discriminate|].
  destruct (i <? m - 1)%nat eqn:E.
  - apply Nat.ltb_lt in E. destruct (in_order realA d c i st) eqn:Ei.
    + apply IH; auto. intros k Hk Hm. destruct (Nat.eq_dec k i) as [->|]; auto. apply O; lia.
    + destruct (exchange_good i st ltac:(lia) G) as [G' S']. apply IH; auto.
      intros k Hk Hm. unfold in_order. rewrite !S' by lia. apply (O k); lia.
  - intros H. assert (st = st') by congruence. subst st'. split; auto. intros k Hk. apply O; auto. apply Nat.ltb_ge in E. lia.
Qed.

(** Gram-Schmidt once more *)
Lemma gs_good st : good m st -> forall i k, (i < m)%nat -> (k < d)%nat -> gs realA m d gsc (vecs st) i k = star st i k.
Proof.
  intros G. pose proof G as (G1 & G2 & G3 & G4 & G5). unfold gs.
  set (row := fun (mat : nat -> nat -> R) i => fold_left (fun (mat : nat -> nat -> R) j => let x := gsc (mat i) (mat j) in set_row realA d mat i (fun k => fsub realA (mat i k) (fmul realA x (mat j k)))) (seq 0 i) mat).
  assert (Row : forall M i, (i < m)%nat -> (forall a k, (a < i)%nat -> (k < d)%nat -> M a k = star st a k) -> (forall k, (k < d)%nat -> M i k = vecs st i k) ->
      (forall a, a <> i -> row M i a = M a) /\ (forall k, (k < d)%nat -> row M i i k = star st i k)).
  { intros M i Hi H1 H2. set (stp := fun (mat : nat -> nat -> R) j => let x := gsc (mat i) (mat j) in set_row realA d mat i (fun k => fsub realA (mat i k) (fmul realA x (mat j k)))).
    assert (Gn : forall n, (n <= i)%nat -> let M' := fold_left stp (seq 0 n) M in
        (forall a, a <> i -> M' a = M a) /\ (forall k, (k < d)%nat -> M' i k = vecs st i k - Rsum n (fun j => u st i j * star st j k))).
    { induction n as [|n IH]; intros Hn; [cbn; split; auto; intros k Hk; rewrite H2 by auto; exact (eq_sym (Rminus_0_r _))|].
      rewrite seq_S, fold_left_app. destruct (IH ltac:(lia)) as (A1 & A2). set (M1 := fold_left stp (seq 0 n) M) in *. cbn [fold_left Nat.add]. cbv zeta; unfold stp. split.
      - intros a Ha. rewrite set_row_ne by auto. auto.
      - intros k Hk. rewrite set_row_eq by auto. cbn [realA fsub fmul Rsum]. rewrite A2 by auto. rewrite (A1 n) by lia. rewrite (H1 n k) by lia.
        assert (E : gsc (M1 i) (M n) = u st i n).
        { rewrite gsc_eq. rewrite (dot_ext d (M1 i) (M n) (fun k => vecs st i k - Rsum n (fun j => u st i j * star st j k)) (star st n)), (dot_ext d (M n) (M n) (star st n) (star st n)); auto; try (intros k0 Hk0; apply H1; lia).
          rewrite dot_minus_l, dot_sum_l, (dot_star m st i n) by (auto; lia). rewrite (@Rsum_ext n _ (fun _ => 0)) by (intros j Hj; rewrite G4 by lia; rring). rewrite Rsum_0. rfield. specialize (G5 n ltac:(lia)). lra. }
        rewrite E. rring. }
    destruct (Gn i (le_n i)) as (A1 & A2). split; auto. intros k Hk. unfold row. fold stp. rewrite A2 by auto. rewrite G3 by auto.
    rewrite (@Rsum_trunc m (S i) (fun j => u st i j * star st j k)) by (try lia; intros j Hj Hj'; rewrite G2 by lia; rring). cbn [Rsum]. rewrite G1 by auto. rring. }
  assert (Gn : forall n, (n <= m)%nat -> (forall a k, (a < n)%nat -> (k < d)%nat -> fold_left row (seq 0 n) (vecs st) a k = star st a k) /\ (forall a, (n <= a)%nat -> fold_left row (seq 0 n) (vecs st) a = vecs st a)).
  { induction n as [|n IH]; intros Hn; [cbn; split; auto; intros; lia|]. rewrite seq_S, fold_left_app. cbn [fold_left Nat.add]. destruct (IH ltac:(lia)) as (A1 & A2). set (M := fold_left row (seq 0 n) (vecs st)) in *.
    destruct (Row M n ltac:(lia) A1 ltac:(intros; rewrite A2; auto)) as (B1 & B2). split.
    - intros a k Ha Hk. destruct (Nat.eq_dec a n) as [->|]; auto. rewrite B1 by auto. apply A1; auto; lia.
    - intros a Ha. rewrite B1 by lia. apply A2. lia. }
  intros i k Hi Hk. apply (Gn m (le_n m)); auto.
Qed.
Lemma is_c_reduced_good c st : good m st -> is_c_reduced realA m d gsc (vecs st) c = true <-> forall k, (S k < m)%nat -> in_order realA d c k st = true.
Proof.
  intros G. pose proof (gs_good st G) as E. pose proof G as (_ & _ & _ & _ & G5). unfold is_c_reduced. rewrite forallb_forall.
  assert (R : forall i, (i < m)%nat -> fdot realA d (gs realA m d gsc (vecs st) i) (gs realA m d gsc (vecs st) i) = star st i · star st i).
  { intros i Hi. rewrite fdot_dot. apply dot_ext; intros; apply E; auto. }
  assert (Q : forall k, (S k < m)%nat -> fltb realA (fdiv realA (fdot realA d (gs realA m d gsc (vecs st) k) (gs realA m d gsc (vecs st) k)) (fdot realA d (gs realA m d gsc (vecs st) (S k)) (gs realA m d gsc (vecs st) (S k)))) c = true <-> in_order realA d c k st = true).
  { intros k Hk. rewrite in_order_iff, fltb_iff, !R by lia. cbn [fdiv realA]. pose proof (G5 (S k) Hk) as P. set (x := star st k · star st k). set (y := star st (S k) · star st (S k)) in *. split; intros H.
    - apply Rmult_lt_compat_r with (r := y) in H; auto. unfold Rdiv in H. rewrite Rmult_assoc, Rinv_l, Rmult_1_r in H by lra. auto.
    - apply Rmult_lt_reg_r with (r := y); auto. unfold Rdiv. rewrite Rmult_assoc, Rinv_l, Rmult_1_r by lra. auto. }
  split.
  - intros H k Hk. apply Q; auto. apply (H k). apply in_seq. lia.
  - intros H k Hk. apply in_seq in Hk. apply Q; [lia|]. apply H. lia.
Qed.
Lemma good_spec c st : good m st -> (forall k, (S k < m)%nat -> in_order realA d c k st = true) -> c_reduced m d (vecs st) c.
Proof.
  intros (G1 & G2 & G3 & G4 & G5) O. exists (star st), (u st). split; [split; auto|split; auto].
  - intros i k Hi Hk. rewrite G3 by auto. rewrite (@Rsum_trunc m (S i) (fun j => u st i j * star st j k)) by (try lia; intros j Hj Hj'; rewrite G2 by lia; rring). cbn [Rsum]. rewrite G1 by auto. rring.
  - intros i Hi. apply in_order_iff. auto.
Qed.
End Main.

(** ** Two vectors: the loop ends *)
Section Two.
Variable d : nat.
Variable round : R -> Z.
Hypothesis Hround : round_ok round.
Variable c : R.
Hypothesis Hc : 4 / 3 < c.
Notation gsc := (gs_coefficient realA d).
Notation len st i := (dot d (star realA st i) (star realA st i)).
Lemma loop_two : forall n st, good 2 d 2 st -> Rabs (u realA st 1%nat 0%nat) <= 1 / 2 ->
  len st 0%nat * len st 0%nat * ((1 / c + 1 / 4) * (1 / c + 1 / 4)) ^ n < c * (len st 0%nat * len st 1%nat) ->
  exists st', loop realA 2 d gsc round (n + 2) c 0 st = Some st'.
Proof.
  assert (Cc : 0 < 1 / c < 3 / 4).
  { split; [apply Rdiv_lt_0_compat; lra|]. apply Rmult_lt_reg_r with c; [lra|]. unfold Rdiv at 1. rewrite Rmult_assoc, Rinv_l by lra. lra. }
  assert (Ord : forall st n, in_order realA d c 0 st = true -> exists st', loop realA 2 d gsc round (n + 2) c 0 st = Some st').
  { intros st n E. rewrite Nat.add_comm. cbn [loop Nat.add]. change (0 <? 2 - 1)%nat with true. cbv iota. rewrite E. change (1 <? 2 - 1)%nat with false. cbv iota. eauto. }
  induction n as [|n IH]; intros st G Hu Hp; pose proof G as (_ & _ & _ & _ & G5); pose proof (G5 0 ltac:(lia))%nat as P0; pose proof (G5 1 ltac:(lia))%nat as P1.
  - apply (Ord st 0%nat). apply in_order_iff. cbn [pow] in Hp. set (r1 := len st 0%nat) in *. set (r2 := len st 1%nat) in *. apply Rmult_lt_reg_l with r1; auto. lra.
  - destruct (in_order realA d c 0 st) eqn:E; [apply Ord; auto|].
    destruct (exchange_full 2 d round 0 st ltac:(lia) G) as (G' & _ & E0 & E1 & U). specialize (U Hround).
    set (st1 := exchange realA 2 d gsc round 0 st) in *.
    assert (L : exists st', loop realA 2 d gsc round (n + 2) c 0 st1 = Some st').
    { apply IH; auto. rewrite E0, E1. set (mu := u realA st 1%nat 0%nat) in *. set (r1 := len st 0%nat) in *. set (r2 := len st 1%nat) in *.
      change (F realA) with R in mu, r1, r2.
      assert (Hm : mu * mu <= 1 / 4).
      { assert (S : Rsqr mu <= Rsqr (1 / 2)) by (apply Rsqr_le_abs_1; rewrite (Rabs_right (1 / 2)) by lra; auto). unfold Rsqr in S. lra. }
      assert (Hr : c * r2 <= r1).
      { apply Rnot_lt_le. intros X. apply (proj2 (in_order_iff d c 0 st)) in X. congruence. }
      assert (Hr' : r2 <= 1 / c * r1).
      { apply Rmult_le_reg_l with c; [lra|]. replace (c * (1 / c * r1)) with r1 by (field; lra). auto. }
      assert (M0 : 0 <= mu * mu) by nra. assert (M1 : 0 <= mu * mu * r1) by (apply Rmult_le_pos; lra).
      assert (D : 0 < r2 + mu * mu * r1 <= (1 / c + 1 / 4) * r1) by (split; [lra|]; assert (mu * mu * r1 <= 1 / 4 * r1) by (apply Rmult_le_compat_r; lra); lra).
      set (x := r2 + mu * mu * r1) in *. set (e := 1 / c + 1 / 4) in *.
      replace (x * (r1 * r2 / x)) with (r1 * r2) by (field; lra). eapply Rle_lt_trans; [|exact Hp]. cbn [pow].
      assert (Q : 0 <= (e * e) ^ n) by (apply pow_le; unfold e; nra).
      replace (r1 * r1 * (e * e * (e * e) ^ n)) with ((e * r1) * (e * r1) * (e * e) ^ n) by ring. apply Rmult_le_compat_r; auto. apply Rmult_le_compat; lra. }
    destruct L as (st' & L). exists st'. cbn [loop Nat.add]. change (0 <? 2 - 1)%nat with true. cbv iota. rewrite E. exact L.
Qed.
Lemma terminates_two basis : independent 2 d basis -> exists fuel st, loop realA 2 d gsc round fuel c 0 (initialize realA 2 d gsc round basis) = Some st.
Proof.
  intros Hi. pose proof (init_good 2 d round basis Hi) as G. pose proof (init_last 2 d round basis Hi 0 eq_refl Hround) as U.
  set (st := initialize realA 2 d gsc round basis) in *. pose proof G as (_ & _ & _ & _ & G5). pose proof (G5 0 ltac:(lia))%nat as P0. pose proof (G5 1 ltac:(lia))%nat as P1.
  set (e := (1 / c + 1 / 4) * (1 / c + 1 / 4)).
  assert (Cc : 0 < 1 / c < 3 / 4).
  { split; [apply Rdiv_lt_0_compat; lra|]. apply Rmult_lt_reg_r with c; [lra|]. unfold Rdiv at 1. rewrite Rmult_assoc, Rinv_l by lra. lra. }
  assert (He : 0 <= e < 1) by (unfold e; nra). set (B := c * (len st 0%nat * len st 1%nat)).
  assert (HB : 0 < B) by (unfold B; apply Rmult_lt_0_compat; [lra|apply Rmult_lt_0_compat; auto]).
  assert (HA : 0 < len st 0%nat * len st 0%nat) by (apply Rmult_lt_0_compat; auto). set (A := len st 0%nat * len st 0%nat) in *.
  destruct (pow_lt_1_zero e ltac:(rewrite Rabs_right; lra) (B / A) ltac:(apply Rdiv_lt_0_compat; auto)) as (N & HN). specialize (HN N (le_n N)).
  assert (0 <= e ^ N) by (apply pow_le; lra). rewrite Rabs_right in HN by lra.
  exists (N + 2)%nat. apply loop_two; auto. fold A e B. apply Rmult_lt_compat_l with (r := A) in HN; auto. replace (A * (B / A)) with B in HN by (field; lra). auto.
Qed.
End Two.
