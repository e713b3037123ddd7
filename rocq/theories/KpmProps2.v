(** * C49 (Correlator), C50 (velocity operator), C51 (local vectors). *)
From Coq Require Import List Bool Arith ZArith Ring Lia.
From Verif Require Import StarRing KpmModel KpmSpec KpmProofs KpmMain KpmCorrModel KpmCorrSpec KpmCorr KpmTrace KpmProps.
Import ListNotations.
Set Implicit Arguments.

Section Props.
Variable R : StarRing.
Add Ring RringKP2 : (r_theory R).
Notation vec := (list R).
Notation matrix := (nat -> nat -> R).

(** ** C49 *)
(** element (m, n) of the moments matrix of vector v_r is
    < T_m(H) O1 v_r | O2 T_n(H) v_r >, for any H and operators *)
Theorem C49_matrix (next : nat -> option vec) H op1 op2 limit nv acc nm cs c :
  chistory next H op1 op2 limit nv acc nm cs c ->
  length (c_matrix c) = c_nvec c /\
  forall r, r < c_nvec c -> exists v, next r = Some v /\
    nth_error (c_matrix c) r = Some (map (fun m => map (fun n => vdot (cheb H m (op1 v)) (op2 (cheb H n v))) (seq 0 (c_num c))) (seq 0 (c_num c))).
Proof.
  intros Hh. destruct (chistory_ok Hh) as (vs & (Hr & _ & _ & _ & _ & _ & En & Ev & _ & _ & Em) & _). rewrite Em, map_length. split; auto. intros r Hr'.
  rewrite Ev in Hr'. destruct (sd_nvec Hr) as [_ Lv]. destruct Hr as (_ & ((_ & Hn) & _) & _). pose proof (Hn r ltac:(lia)) as E.
  destruct (nth_error vs r) as [v|] eqn:Er; [|apply nth_error_None in Er; lia]. exists v. split; auto. rewrite (map_nth_error _ r vs Er), En. reflexivity.
Qed.
(** add_moments: with accumulate_vectors=True it succeeds for every k > 0 *)
Theorem C49_add_moments (next : nat -> option vec) H op1 op2 limit nv acc nm cs c k :
  chistory next H op1 op2 limit nv acc nm cs c ->
  if (k <=? 0)%Z then corr_add_moments next H H op1 op2 k c = (c, Some KValue)
  else acc = true -> exists c', corr_add_moments next H H op1 op2 k c = (c', None) /\ c_num c' = c_num c + Z.to_nat k /\ c_nvec c' = c_nvec c.
Proof.
  intros Hh. destruct (chistory_ok Hh) as (vs & Hok & _). pose proof (c_add_moments k Hok) as S. destruct (k <=? 0)%Z; auto.
  intros Ha. destruct (S Ha) as (c' & E & Hok' & En & _). exists c'. split; auto. split; auto.
  destruct Hok as (_ & _ & _ & _ & _ & _ & _ & -> & _). destruct Hok' as (_ & _ & _ & _ & _ & _ & _ & -> & _). reflexivity.
Qed.
Theorem C49_add_vectors (next : nat -> option vec) H op1 op2 limit nv acc nm cs c k :
  chistory next H op1 op2 limit nv acc nm cs c ->
  (exists i, c_nvec c <= i /\ i < c_nvec c + Z.to_nat k /\ next i = None) \/
  if (k <=? 0)%Z || match limit with Some m => m <? c_nvec c + Z.to_nat k | None => false end
  then corr_add_vectors next H H op1 op2 k c = (c, Some KValue)
  else exists c', corr_add_vectors next H H op1 op2 k c = (c', None) /\ c_num c' = c_num c /\ c_nvec c' = c_nvec c + Z.to_nat k.
Proof.
  intros Hh. destruct (chistory_ok Hh) as (vs & Hok & Em). pose proof (c_add_vectors k Hok) as S. rewrite Em in S.
  assert (Ev : c_nvec c = length vs) by apply Hok. rewrite <- Ev in S.
  destruct ((k <=? 0)%Z || _); [right; exact S|]. destruct (corr_add_vectors _ _ _ _ _ _ _) as [c' [e|]]; [left; apply S|right].
  destruct S as (vs' & Hok' & E1 & E2 & _). exists c'. auto.
Qed.

(** ** C51: LocalVectors over all orbitals give exact traces *)
Section Local.
Variables (h : matrix) (d : nat) (ainv b : R) (zero : R).
Notation H := (rescaled h d ainv b).
Notation dbl := (fun x m => rsub R (rmul R two x) m).
Hypothesis Hh : forall i j, i < d -> j < d -> rconj R (h j i) = h i j.
Hypothesis Ha : rconj R ainv = ainv.
Hypothesis Hb : rconj R b = b.
Notation T n := (cheb_matrix d (scaled h ainv b) n).
Lemma local_len k (v : vec) : local_vector d (seq 0 d) k = Some v -> length v = d.
Proof. rewrite seq_local. destruct (k <? d); [|discriminate]. intros [= <-]. apply evec_length. Qed.
(** num_vectors=None: one vector for each orbital, now and later *)
Lemma local_nvec acc nm cs s : history (local_vector d (seq 0 d)) H zero (fun x => x) dbl None (Some d) None acc nm cs s -> s_nvec s = d.
Proof.
  induction 1 as [s E|cs s c s' e Hs IH E He].
  - pose proof (@C31_init R h d ainv b (local_vector d (seq 0 d)) zero Hh Ha Hb local_len (Some d) None acc nm) as I. cbv zeta in I. rewrite E in I.
    destruct I as (k & [= <-] & _ & _ & _ & ->). apply Nat2Z.id.
  - destruct c as [k|k]; cbn [run_call] in E.
    + pose proof (C31_add_moments Hh Ha Hb local_len k Hs) as I. destruct ((k <=? 0)%Z || negb acc); [rewrite E in I; injection I as -> ->; auto|].
      destruct I as (s1 & E1 & _ & E2). rewrite E in E1. injection E1 as -> ->. congruence.
    + pose proof (@none_history R h d ainv b _ zero Hh Ha Hb local_len _ _ _ _ _ _ Hs) as (vs & Hok & _ & Em).
      pose proof (@add_vectors_spec R (local_vector d (seq 0 d)) H R zero (fun x => x) dbl None (fun v n => vdot v (cheb H n v)) (fun v => length v = d) local_len ltac:(discriminate)
        ltac:(intros _ v _; split; reflexivity) ltac:(intros _ v n Hv; apply none_even; auto) ltac:(intros _ v n Hv; apply none_odd; auto) vs s k Hok) as I.
      rewrite Em, <- (proj1 (sd_nvec Hok)), IH in I. destruct (Z.leb_spec k 0) as [Hk|Hk]; cbn [orb] in I; [rewrite E in I; injection I as -> ->; auto|].
      rewrite (proj2 (Nat.ltb_lt d (d + Z.to_nat k)) ltac:(lia)) in I. rewrite E in I. injection I as -> ->. auto.
Qed.
Theorem C51_trace acc nm cs s :
  history (local_vector d (seq 0 d)) H zero (fun x => x) dbl None (Some d) None acc nm cs s ->
  s_nvec s = d /\
  (forall r n, r < d -> n < s_num s -> nth n (nth r (s_moments s) []) (r0 R) = T n r r) /\
  (forall n, n < s_num s -> sum R d (fun r => nth n (nth r (s_moments s) []) (r0 R)) = trace d (T n)).
Proof.
  intros Hs. pose proof (local_nvec Hs) as Ev.
  assert (P : forall r n, r < d -> n < s_num s -> nth n (nth r (s_moments s) []) (r0 R) = T n r r).
  { intros r n Hr Hn. destruct (C31_moments Hh Ha Hb local_len Hs (r := r)) as (v & E & Em); [congruence|].
    rewrite seq_local in E. rewrite (proj2 (Nat.ltb_lt _ _) Hr) in E. injection E as <-. rewrite (nth_error_nth _ _ _ Em).
    rewrite (nth_error_nth _ n (r0 R) (x := vdot (evec R d r) (cheb H n (evec R d r)))).
    - apply (@vdot_evec_diag R d (cheb H n)); auto. apply acts_cheb. apply acts_rescaled.
    - rewrite (map_nth_error _ n (seq 0 (s_num s)) (d := n)); auto. rewrite (nth_error_nth' _ 0) by (rewrite seq_length; auto). rewrite seq_nth; auto. }
  split; auto. split; auto. intros n Hn. apply sum_ext. intros r Hr. auto.
Qed.
Lemma clocal_nvec op1 op2 acc nm cs c : chistory (local_vector d (seq 0 d)) H op1 op2 (Some d) None acc nm cs c -> c_nvec c = d.
Proof.
  induction 1 as [c E|cs s c s' e Hs IH Hal E He].
  - pose proof (@c_init R (local_vector d (seq 0 d)) H op1 op2 (Some d) None acc nm) as I. rewrite E in I. destruct I as (vs & _ & _ & I & _). cbn in I. injection I as I. lia.
  - destruct c as [k|k]; cbn [run_ccall allowed] in *.
    + pose proof (C49_add_moments k Hs) as I. destruct (Z.leb_spec k 0) as [Hk|Hk]; [rewrite E in I; injection I as -> ->; auto|].
      destruct Hal as [Hal|]; [|lia]. destruct (I Hal) as (c' & E1 & _ & E2). rewrite E in E1. injection E1 as -> ->. congruence.
    + destruct (chistory_ok Hs) as (vs & Hok & Em). pose proof (c_add_vectors k Hok) as S. rewrite Em in S. assert (Ev : c_nvec s = length vs) by apply Hok. rewrite <- Ev, IH in S.
      destruct (Z.leb_spec k 0) as [Hk|Hk]; cbn [orb] in S; [rewrite E in S; injection S as -> ->; auto|].
      rewrite (proj2 (Nat.ltb_lt d (d + Z.to_nat k)) ltac:(lia)) in S. rewrite E in S. injection S as -> ->. auto.
Qed.
(** the same for a Correlator with Hermitian matrices as operators: Tr(O1 T_m O2 T_n) *)
Theorem C51_correlator o1 o2 acc nm cs c :
  (forall i j, i < d -> j < d -> rconj R (o1 j i) = o1 i j) ->
  chistory (local_vector d (seq 0 d)) H (mul_vec o1 d) (mul_vec o2 d) (Some d) None acc nm cs c ->
  c_nvec c = d /\ forall m n, m < c_num c -> n < c_num c ->
  sum R d (fun r => nth n (nth m (nth r (c_matrix c) []) []) (r0 R)) = trace d (mmul d (mmul d o1 (T m)) (mmul d o2 (T n))).
Proof.
  intros Ho1 Hc. pose proof (clocal_nvec Hc) as Ev. split; auto. intros m n Hm Hn. apply sum_ext. intros r Hr. destruct (C49_matrix Hc) as [_ M]. destruct (M r) as (v & E & Em); [congruence|].
  rewrite seq_local in E. rewrite (proj2 (Nat.ltb_lt _ _) Hr) in E. injection E as <-. rewrite (nth_error_nth _ _ _ Em).
  set (N := c_num c) in *.
  assert (Hs : forall (B : Type) (f : nat -> B) k, k < N -> nth_error (map f (seq 0 N)) k = Some (f k)).
  { intros B f k Hk. apply map_nth_error. rewrite (nth_error_nth' _ 0) by (rewrite seq_length; auto). rewrite seq_nth; auto. }
  rewrite (nth_error_nth _ m [] (Hs _ _ m Hm)), (nth_error_nth _ n (r0 R) (Hs _ _ n Hn)).
  assert (Hhs : @herm R d (T m)). { apply cheb_herm. apply scaled_herm; auto. }
  rewrite (@vdot_evec R d (fun v => cheb H m (mul_vec o1 d v)) (fun v => mul_vec o2 d (cheb H n v)) (mmul d (T m) o1) (mmul d o2 (T n)) r); auto.
  - unfold mmul at 3. apply sum_ext. intros i Hi. rewrite (@mmul_conj R d (T m) o1 r i); auto.
  - apply acts_comp; [apply acts_cheb, acts_rescaled|apply acts_mul].
  - apply acts_comp; [apply acts_mul|apply acts_cheb, acts_rescaled].
Qed.
End Local.

(** ** C50: the velocity operator is i [H, X] and Hermitian *)
Section Velocity.
Variables (im : R).
Hypothesis Him : rconj R im = ropp R im.
Theorem C50_velocity pos dim dir h v : velocity im pos dim dir h = inl v ->
  let X := fun i => nth dir (pos i) (r0 R) in
  dir < dim /\
  (forall i j, coo_get v i j = rmul R im (rsub R (rmul R (coo_get h i j) (X j)) (rmul R (X i) (coo_get h i j)))) /\
  ((forall i, rconj R (X i) = X i) -> (forall i j, rconj R (coo_get h j i) = coo_get h i j) -> forall i j, rconj R (coo_get v j i) = coo_get v i j).
Proof.
  unfold velocity. destruct (Nat.ltb_spec dim dir) as [|H1]; [discriminate|]. destruct (Nat.leb_spec dim dir) as [|H2]; [discriminate|]. intros E0. injection E0 as <-. cbv zeta. set (X := fun i => nth dir (pos i) (r0 R)).
  split; auto.
  assert (E : forall i j, coo_get (map (fun e => match e with (row, col, x) => (row, col, rmul R x (rmul R im (rsub R (nth dir (pos col) (r0 R)) (nth dir (pos row) (r0 R))))) end) h) i j
    = rmul R im (rsub R (rmul R (coo_get h i j) (X j)) (rmul R (X i) (coo_get h i j)))).
  { intros i j. transitivity (rmul R (rmul R im (rsub R (X j) (X i))) (coo_get h i j)); [|ring]. unfold coo_get. rewrite lsum_map, <- lsum_mul_l. apply lsum_ext. intros [[r c] x] _. cbn [fst snd].
    destruct (Nat.eqb_spec r i) as [->|]; cbn [andb]; [|ring]. destruct (Nat.eqb_spec c j) as [->|]; [unfold X; ring|ring]. }
  split; auto. intros HX Hh i j. change (forall i, rconj R (X i) = X i) in HX. clearbody X. rewrite !E, rconj_mul, conj_sub, !rconj_mul, Him, !HX, Hh. ring.
Qed.
(** a direction beyond the dimension is refused, though not always with ValueError *)
Theorem C50_direction pos dim dir h : dim <= dir -> exists e, velocity im pos dim dir h = inr e /\ (dim < dir -> e = KValue).
Proof.
  intros Hd. unfold velocity. destruct (Nat.ltb_spec dim dir); [eauto|]. rewrite (proj2 (Nat.leb_le _ _) Hd). exists KIndex. split; auto. lia.
Qed.
End Velocity.
End Props.

(** ** Examples *)
Notation cx := (@rescaled GaussZ ex_h 2 (1, 0)%Z (1, 0)%Z).
Definition ex_o1 (i j : nat) : GaussZ := match i, j with 0, 0 => (2, 0)%Z | 0, 1 => (0, 1)%Z | 1, 0 => (0, -1)%Z | 1, 1 => (1, 0)%Z | _, _ => (0, 0)%Z end.
Definition ex_o2 (i j : nat) : GaussZ := match i, j with 0, 0 => (1, 1)%Z | 0, 1 => (0, 3)%Z | 1, 0 => (5, 0)%Z | 1, 1 => (-1, 0)%Z | _, _ => (0, 0)%Z end.
Notation ex_loc := (@local_vector GaussZ 2 (seq 0 2)).
Example C49_history_nonvacuous : exists c,
  chistory ex_loc cx (mul_vec ex_o1 2) (mul_vec ex_o2 2) (Some 2) None true 3%Z [CMoments 2; CVectors 1] c /\ c_num c = 5 /\ c_nvec c = 2.
Proof.
  set (x0 := corr_init ex_loc cx cx (mul_vec ex_o1 2) (mul_vec ex_o2 2) (Some 2) None true 3%Z).
  set (x1 := corr_add_moments ex_loc cx cx (mul_vec ex_o1 2) (mul_vec ex_o2 2) 2%Z (fst x0)).
  set (x2 := corr_add_vectors ex_loc cx cx (mul_vec ex_o1 2) (mul_vec ex_o2 2) 1%Z (fst x1)).
  assert (N0 : snd x0 = None) by (vm_compute; reflexivity). assert (N1 : snd x1 = None) by (vm_compute; reflexivity). assert (N2 : snd x2 = Some KValue) by (vm_compute; reflexivity).
  assert (G : c_num (fst x2) = 5 /\ c_nvec (fst x2) = 2) by (vm_compute; auto).
  exists (fst x2). split; [|exact G]. clear G.
  refine (@CCall _ _ _ _ _ _ _ _ _ [CMoments 2] (fst x1) (CVectors 1) _ (snd x2) _ I (surjective_pairing x2) (or_intror N2)).
  refine (@CCall _ _ _ _ _ _ _ _ _ [] (fst x0) (CMoments 2) _ (snd x1) _ (or_introl eq_refl) (surjective_pairing x1) (or_introl N1)).
  apply CInit. rewrite <- N0. apply (surjective_pairing x0).
Qed.
Example C51_correlator_nonvacuous : (forall i j, i < 2 -> j < 2 -> rconj GaussZ (ex_o1 j i) = ex_o1 i j) /\ trace 2 (mmul 2 (mmul 2 ex_o1 (cheb_matrix 2 (scaled ex_h (1, 0)%Z (1, 0)%Z) 2)) (mmul 2 ex_o2 (cheb_matrix 2 (scaled ex_h (1, 0)%Z (1, 0)%Z) 3))) <> r0 GaussZ.
Proof. split; [intros [|[|i]] [|[|j]] Hi Hj; try lia; reflexivity|]. vm_compute. discriminate. Qed.
(** accumulate_vectors=False (the default): add_moments raises ValueError, but the
    object already claims the new number of moments *)
Example C49_default_refuted :
  let c := fst (corr_init ex_loc cx cx (mul_vec ex_o1 2) (mul_vec ex_o2 2) (Some 2) None false 3%Z) in
  let r := corr_add_moments ex_loc cx cx (mul_vec ex_o1 2) (mul_vec ex_o2 2) 2%Z c in
  snd r = Some KValue /\ c_num (fst r) = 5 /\ map (@length _) (c_matrix (fst r)) = [3; 3].
Proof. vm_compute. auto. Qed.
Definition ex_coo : coo GaussZ := [(0, 1, (2, 1)%Z); (1, 0, (2, -1)%Z); (0, 0, (4, 0)%Z)].
Definition ex_pos (i : nat) : list GaussZ := match i with 0 => [(0, 0)%Z; (3, 0)%Z] | _ => [(1, 0)%Z; (7, 0)%Z] end.
Example C50_nonvacuous : exists v, velocity (R := GaussZ) (0, 1)%Z ex_pos 2 1 ex_coo = inl v /\ coo_get v 0 1 = (-4, 8)%Z /\ rconj GaussZ (0, 1)%Z = ropp GaussZ (0, 1)%Z.
Proof. eexists. split; [vm_compute; reflexivity|]. split; vm_compute; reflexivity. Qed.
(** direction 'z' in a two-dimensional system: IndexError instead of ValueError *)
Example C50_direction_refuted : velocity (R := GaussZ) (0, 1)%Z ex_pos 2 2 ex_coo = inr KIndex. Proof. reflexivity. Qed.
