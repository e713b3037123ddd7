(** * C31: the moments after any history. *)
From Coq Require Import List Bool Arith ZArith Ring Lia.
From Verif Require Import StarRing KpmModel KpmSpec KpmProofs.
Import ListNotations.
Set Implicit Arguments.

Lemma div2_le N : 2 * (N / 2) <= N. Proof. apply Nat.mul_div_le. lia. Qed.
Lemma div2_cases N : (N mod 2 = 1 /\ N = 2 * (N / 2) + 1) \/ (N mod 2 = 0 /\ N = 2 * (N / 2)).
Proof. pose proof (Nat.div_mod N 2 ltac:(lia)). pose proof (Nat.mod_upper_bound N 2 ltac:(lia)). lia. Qed.

Section Main.
Variable R : StarRing.
Add Ring RringKM : (r_theory R).
Notation vec := (list R).
Variables (next : nat -> option vec) (H : vec -> vec) (A : Type) (zero : A) (inj : R -> A) (dbl : R -> A -> A) (oper : option (vec -> vec -> A)).
Variable mom : vec -> nat -> A.
Variable ok : vec -> Prop.
Hypothesis nextok : forall k v, next k = Some v -> ok v.
Hypothesis mom_op : forall op, oper = Some op -> forall v n, mom v n = op v (cheb H n v).
Hypothesis mom_0 : oper = None -> forall v, ok v -> mom v 0 = inj (vdot v v) /\ mom v 1 = inj (vdot v (H v)).
Hypothesis mom_even : oper = None -> forall v n, ok v -> dbl (vdot (cheb H n v) (cheb H n v)) (mom v 0) = mom v (2 * n).
Hypothesis mom_odd : oper = None -> forall v n, ok v -> dbl (vdot (cheb H (S n) v) (cheb H n v)) (mom v 1) = mom v (2 * n + 1).

Definition moms v n := map (mom v) (seq 0 n).
Definition alphas v n : vec * vec := (cheb H (n - 1) v, cheb H n v).
Definition kof n := match oper with None => n / 2 | Some _ => n - 1 end.
Lemma moms_nth v n j : j < n -> nth_error (moms v n) j = Some (mom v j).
Proof. intros Hj. unfold moms. erewrite map_nth_error; [reflexivity|]. rewrite (nth_error_nth' _ 0) by (rewrite seq_length; auto). rewrite seq_nth; auto. Qed.
Lemma moms_length v n : length (moms v n) = n. Proof. unfold moms. rewrite map_length, seq_length. auto. Qed.
Definition P v N (m : list A) c := length m = N /\ forall j, j < c -> nth_error m j = Some (mom v j).
Lemma P_full v N m : P v N m N -> m = moms v N.
Proof.
  intros [E Hm]. apply nth_error_ext. intros j. destruct (Nat.lt_ge_cases j N); [rewrite Hm, moms_nth by auto; auto|].
  rewrite !(proj2 (nth_error_None _ _)); auto; rewrite ?moms_length; lia.
Qed.
Lemma P_set v N m c x : P v N m c -> c < N -> x = mom v c -> P v N (set_nth c x m) (S c).
Proof.
  intros [E Hm] Hc ->. split; [rewrite set_nth_length; auto|]. intros j Hj. rewrite set_nth_nth, E.
  destruct (Nat.eqb_spec c j) as [->|Hne]; [rewrite (proj2 (Nat.ltb_lt _ _) Hc); auto|]. apply Hm. lia.
Qed.
Lemma P_nth v N m c j : P v N m c -> j < c -> nth j m zero = mom v j.
Proof. intros [_ Hm] Hj. apply nth_error_nth. auto. Qed.
Lemma advance_alphas v n : 1 <= n -> advance H (alphas v n) = alphas v (S n).
Proof. intros Hn. unfold advance, alphas. cbn [fst snd]. replace n with (S (n - 1)) at 1 2 5 by lia. destruct n as [|n]; [lia|]. replace (S n - 1) with n by lia. replace (S (S n) - 1) with (S n) by lia. reflexivity. Qed.

Lemma loop_op_spec op v : oper = Some op -> forall k n m, 1 <= n -> P v (n + 1 + k) m (n + 1) ->
  exists m', loop_op H op v k (n + 1) (alphas v n) m = (alphas v (n + k), m') /\ P v (n + 1 + k) m' (n + 1 + k).
Proof.
  intros Hop. induction k as [|k IH]; intros n m Hn HP; cbn [loop_op]; cbv zeta.
  - exists m. rewrite !Nat.add_0_r in *. auto.
  - rewrite advance_alphas by auto. replace (S (n + 1)) with (S n + 1) by lia.
    destruct (IH (S n) (set_nth (n + 1) (op v (snd (alphas v (S n)))) m)) as (m' & E & HP'); [lia| |].
    + replace (S n + 1 + k) with (n + 1 + S k) by lia. replace (S n + 1) with (S (n + 1)) by lia. apply P_set; auto; [lia|].
      cbn [alphas snd]. rewrite (mom_op Hop). replace (n + 1) with (S n) by lia. reflexivity.
    + exists m'. rewrite E. replace (S n + k) with (n + S k) by lia. replace (S n + 1 + k) with (n + 1 + S k) in HP' by lia. auto.
Qed.
Lemma loop_none_spec v : oper = None -> ok v -> forall N k n m, 1 <= n -> 2 * (n + k) <= N -> P v N m (2 * n) ->
  exists m', loop_none H zero dbl k n (alphas v n) m = (alphas v (n + k), m') /\ P v N m' (2 * (n + k)).
Proof.
  intros Hop Hv N. induction k as [|k IH]; intros n m Hn HN HP; cbn [loop_none]; cbv zeta.
  - exists m. rewrite Nat.add_0_r in *. auto.
  - rewrite advance_alphas by auto. cbn [alphas fst snd]. replace (S n - 1) with n by lia.
    assert (HP1 : P v N (set_nth (2 * n) (dbl (vdot (cheb H n v) (cheb H n v)) (nth 0 m zero)) m) (S (2 * n))).
    { apply P_set; auto; [lia|]. rewrite (P_nth HP) by lia. apply mom_even; auto. }
    set (m1 := set_nth (2 * n) _ m) in *. clearbody m1.
    assert (HP2 : P v N (set_nth (2 * n + 1) (dbl (vdot (cheb H (S n) v) (cheb H n v)) (nth 1 m1 zero)) m1) (S (2 * n + 1))).
    { apply P_set; [replace (2 * n + 1) with (S (2 * n)) by lia; auto|lia|]. rewrite (P_nth HP1) by lia. apply mom_odd; auto. }
    set (m2 := set_nth (2 * n + 1) _ m1) in *. clearbody m2.
    destruct (IH (S n) m2) as (m' & E & HP'); [lia|lia|replace (2 * S n) with (S (2 * n + 1)) by lia; auto|].
    exists m'. change (cheb H n v, cheb H (S n) v) with (alphas v (S n)) || replace (cheb H n v, cheb H (S n) v) with (alphas v (S n)) by (unfold alphas; f_equal; f_equal; lia).
    rewrite E. replace (S n + k) with (n + S k) by lia. replace (2 * (S n + k)) with (2 * (n + S k)) in HP' by lia. auto.
Qed.
Lemma oper_cases : (exists op, oper = Some op) \/ oper = None. Proof. clear. destruct oper; eauto. Qed.
Lemma iterate_spec v M N m : ok v -> 2 <= M -> M <= N -> P v N m M -> iterate H zero dbl oper v M N (alphas v (kof M)) m = (alphas v (kof N), moms v N).
Proof.
  intros Hv HM HN HP. unfold iterate, kof. destruct oper_cases as [[op Eop]|Eop].
  - rewrite !Eop. destruct (@loop_op_spec op v Eop (N - M) (M - 1) m) as (m' & E & HP'); [lia|replace (M - 1 + 1 + (N - M)) with N by lia; replace (M - 1 + 1) with M by lia; auto|].
    replace (M - 1 + 1) with M in * by lia. rewrite E. replace (M + (N - M)) with N in HP' by lia. f_equal; [f_equal; lia|apply P_full; auto].
  - rewrite !Eop. pose proof (div2_le M). pose proof (div2_le N). pose proof (Nat.div_le_mono M N 2 ltac:(lia) HN). pose proof (Nat.div_le_mono 2 M 2 ltac:(lia) HM). change (2 / 2) with 1 in *.
    destruct (@loop_none_spec v Eop Hv N (N / 2 - M / 2) (M / 2) m) as (m' & E & HP'); [lia|lia|split; [apply HP|]; intros j Hj; apply HP; lia|].
    cbv zeta. rewrite E. cbn [fst snd]. replace (M / 2 + (N / 2 - M / 2)) with (N / 2) in * by lia. f_equal.
    destruct (div2_cases N) as [[E1 E2]|[E1 E2]]; rewrite E1; cbn [Nat.eqb].
    + apply P_full. replace (N - 1) with (2 * (N / 2)) by lia. set (K := N / 2) in *. assert (EN : N = S (2 * K)) by lia. 
      cut (P v N (set_nth (2 * K) (dbl (vdot (snd (alphas v K)) (snd (alphas v K))) (nth 0 m' zero)) m') (S (2 * K))); [rewrite <- EN; auto|]. apply P_set; auto; [lia|].
      cbn [alphas snd]. rewrite (P_nth HP') by lia. apply mom_even; auto.
    + apply P_full. rewrite E2 at 2. auto.
Qed.
Lemma kof2 : kof 2 = 1. Proof. unfold kof. destruct oper_cases as [[op ->]| ->]; reflexivity. Qed.
Lemma first_spec v N : ok v -> 2 <= N -> exists m, first_moments zero inj oper v (H v) N = inl m /\ P v N m 2.
Proof.
  intros Hv HN. unfold first_moments. rewrite (proj2 (Nat.ltb_ge _ _) HN). eexists. split; [reflexivity|]. split.
  - cbn [length]. rewrite repeat_length. lia.
  - intros j Hj. destruct oper_cases as [[op Eop]|Eop]; rewrite !Eop.
    + destruct j as [|[|j]]; [| |lia]; cbn; rewrite (mom_op Eop); reflexivity.
    + destruct (mom_0 Eop Hv) as [M0 M1]. destruct j as [|[|j]]; [| |lia]; cbn; congruence.
Qed.
Lemma old_spec v M N : M <= N -> P v N (old_moments zero N M (moms v M)) M.
Proof.
  intros HN. unfold old_moments. split.
  - rewrite app_length, moms_length, skipn_length, repeat_length. lia.
  - intros j Hj. rewrite nth_error_app1 by (rewrite moms_length; auto). apply moms_nth. auto.
Qed.

(** ** The object *)
Notation sd := (sd R A).
Notation upd := (update next H zero inj dbl oper).
(** [k] of the vectors have been computed (all of them, outside of methods) *)
Definition vecs (k : nat) (l : list vec) : Prop := length l = k /\ forall r, r < k -> next r = nth_error l r.
Definition fac_ok (k : nat) (vs : list vec) (f : factory R) : Prop :=
  vecs k vs /\ f_pos f = k /\ k <= f_num f /\ (match f_max f with Some m => f_num f <= m | None => True end) /\
  (if f_acc f then f_saved f = map Some vs ++ repeat None (f_num f - k) else match f_last f with Some l => l < k | None => k = 0 end).
Definition sd_ok (vs : list vec) (s : sd) : Prop :=
  2 <= s_num s /\ fac_ok (f_num (s_fac s)) vs (s_fac s) /\
  s_moments s = map (fun v => moms v (s_num s)) vs /\ (f_acc (s_fac s) = true -> s_last2 s = map (fun v => alphas v (kof (s_num s))) vs) /\ length (s_last2 s) = length vs.
Lemma vecs_ok k vs v : vecs k vs -> In v vs -> ok v.
Proof. intros [E Hr] Hin. apply In_nth_error in Hin. destruct Hin as (r & Er). assert (r < k) by (rewrite <- E; apply nth_error_Some; congruence). apply (@nextok r). rewrite Hr; auto. Qed.
Lemma vecs_S k vs v : vecs k vs -> next k = Some v -> vecs (S k) (vs ++ [v]).
Proof.
  intros [E Hr] Hn. split; [rewrite app_length; cbn; lia|]. intros r Hlt. destruct (Nat.eq_dec r k) as [->|Hne].
  - rewrite nth_error_app2 by lia. rewrite E, Nat.sub_diag. auto.
  - rewrite nth_error_app1 by lia. apply Hr. lia.
Qed.
(** the next new vector *)
Lemma get_new k vs f : fac_ok k vs f -> k < f_num f ->
  match next k with
  | Some v => exists f', f_get next k f = (f', inl v) /\ fac_ok (S k) (vs ++ [v]) f' /\ f_num f' = f_num f /\ f_acc f' = f_acc f /\ f_max f' = f_max f
  | None => exists f', f_get next k f = (f', inr KStop)
  end.
Proof.
  intros (V & Hp & Hk & Hm & Hs) Hlt. unfold f_get. rewrite Hp.
  assert (E : match f_last f with Some l => k <? l | None => false end && negb (f_acc f) = false).
  { destruct (f_acc f); [apply andb_false_r|]. destruct (f_last f) as [l|]; auto. rewrite (proj2 (Nat.ltb_ge k l)); auto. lia. }
  rewrite E, (proj2 (Nat.leb_gt _ _) Hlt). cbv zeta. cbn [f_acc f_saved f_pos].
  destruct (f_acc f) eqn:Ea.
  - assert (Es : f_saved f = map Some vs ++ None :: repeat None (f_num f - S k)) by (rewrite Hs; replace (f_num f - k) with (S (f_num f - S k)) by lia; reflexivity).
    assert (Lv : length (map Some vs) = k) by (rewrite map_length; apply V).
    rewrite Es, nth_error_app2, Lv, Nat.sub_diag by lia. cbn [nth_error]. destruct (next k) as [v|] eqn:En; [|eauto].
    eexists. split; [reflexivity|]. cbn [f_num f_acc f_max]. split; [|auto]. split; [apply vecs_S; auto|]. cbn. split; [lia|]. split; [lia|]. split; [auto|].
    rewrite <- Lv at 1. rewrite set_nth_app, map_app, <- app_assoc. reflexivity.
  - destruct (next k) as [v|] eqn:En; [|eauto]. eexists. split; [reflexivity|]. cbn [f_num f_acc f_max]. split; [|auto].
    split; [apply vecs_S; auto|]. cbn. split; [lia|]. split; [lia|]. split; auto.
Qed.
Lemma get_old k vs f r v : fac_ok k vs f -> f_acc f = true -> nth_error vs r = Some v ->
  exists f', f_get next r f = (f', inl v) /\ fac_ok k vs f' /\ f_num f' = f_num f /\ f_acc f' = f_acc f /\ f_max f' = f_max f.
Proof.
  intros (V & Hp & Hk & Hm & Hs) Ha Hr. assert (Hlt : r < k) by (rewrite <- (proj1 V); apply nth_error_Some; congruence).
  unfold f_get. rewrite Ha, andb_false_r, (proj2 (Nat.leb_gt (f_num f) r) ltac:(lia)). cbv zeta. cbn [f_acc f_saved f_pos].
  rewrite Ha in Hs. rewrite Hs, nth_error_app1 by (rewrite map_length, (proj1 V); auto). rewrite (map_nth_error Some r vs Hr).
  eexists. split; [reflexivity|]. cbn [f_num f_acc f_max]. split; [|auto]. split; auto. cbn. rewrite ?Ha; auto.
Qed.

Lemma new_loop N : 2 <= N -> forall j k vs (s : sd), fac_ok k vs (s_fac s) -> f_num (s_fac s) = k + j -> s_num s = N ->
  s_moments s = map (fun v => moms v N) vs ++ repeat [] j ->
  (f_acc (s_fac s) = true -> s_last2 s = map (fun v => alphas v (kof N)) vs ++ repeat ([], []) j) -> length (s_last2 s) = k + j ->
  match for_r (body_new next H zero inj dbl oper N) j k s with
  | (s', None) => exists vs', sd_ok vs' s' /\ s_num s' = N /\ f_num (s_fac s') = k + j /\ f_acc (s_fac s') = f_acc (s_fac s) /\ f_max (s_fac s') = f_max (s_fac s)
  | (s', Some e) => e = KStop /\ exists i, k <= i /\ i < k + j /\ next i = None
  end.
Proof.
  intros HN. induction j as [|j IH]; intros k vs s Hf Hn Hs Hm Hl Hll; cbn [for_r].
  - exists vs. rewrite Nat.add_0_r in *. cbn [repeat] in *. rewrite !app_nil_r in *. split; [|repeat split; auto; lia]. split; [lia|]. rewrite Hn, Hs. split; [auto|]. split; [auto|]. split; [auto|]. rewrite Hll, (proj1 (proj1 Hf)). reflexivity.
  - unfold body_new at 1. pose proof (@get_new k vs (s_fac s) Hf ltac:(lia)) as G. destruct (next k) as [v|] eqn:En.
    + destruct G as (f' & -> & Hf' & F1 & F2 & F3). assert (Hv : ok v) by (apply (@nextok k); auto). cbv zeta.
      destruct (first_spec Hv HN) as (m & -> & HP). 
      change (v, H v) with (alphas v 1). pose proof (iterate_spec Hv (le_n 2) HN HP) as EI. rewrite kof2 in EI. rewrite EI. cbn [fst snd s_last2 s_moments s_num].
      specialize (IH (S k) (vs ++ [v]) (mkSD f' (s_num s) (if f_acc f' then set_nth k (alphas v (kof N)) (s_last2 s) else s_last2 s) (set_nth k (moms v N) (s_moments s)))).
      cbn [s_fac s_num s_moments s_last2] in IH. destruct Hf as ((Lv & Hnx) & _).
      replace (S k + j) with (k + S j) in IH by lia. rewrite F2, F3 in IH. rewrite F2.
      match type of IH with _ -> _ -> _ -> _ -> _ -> _ -> ?G => assert (IH' : G) end; [apply IH; auto; [lia| | |]|destruct (for_r _ _ _ _) as [s' [e|]]; auto; destruct IH' as (-> & i & X1 & X2 & X3); split; auto; exists i; repeat split; auto; lia].
      * rewrite Hm. cbn [repeat]. rewrite <- Lv at 1. rewrite <- (map_length (fun v => moms v N) vs), set_nth_app, map_app, <- app_assoc. reflexivity.
      * intros Ha. rewrite Ha, (Hl Ha). cbn [repeat]. rewrite <- Lv at 1. rewrite <- (map_length (fun v => alphas v (kof N)) vs), set_nth_app, map_app, <- app_assoc. reflexivity.
      * destruct (f_acc (s_fac s)); rewrite ?set_nth_length; auto.
    + destruct G as (f' & ->). split; auto. exists k. repeat split; auto; lia.
Qed.
Lemma more_loop N M : 2 <= M -> M <= N -> forall vs k all (s : sd), all = vs ++ k -> fac_ok (f_num (s_fac s)) all (s_fac s) -> f_acc (s_fac s) = true -> s_num s = M ->
  s_moments s = map (fun v => moms v N) vs ++ map (fun v => moms v M) k ->
  s_last2 s = map (fun v => alphas v (kof N)) vs ++ map (fun v => alphas v (kof M)) k ->
  exists s', for_r (body_more next H zero dbl oper N) (length k) (length vs) s = (s', None) /\
    fac_ok (f_num (s_fac s)) all (s_fac s') /\ f_num (s_fac s') = f_num (s_fac s) /\ f_acc (s_fac s') = true /\ f_max (s_fac s') = f_max (s_fac s) /\ s_num s' = M /\
    s_moments s' = map (fun v => moms v N) all /\ s_last2 s' = map (fun v => alphas v (kof N)) all.
Proof.
  intros HM HN vs k. revert vs. induction k as [|v k IH]; intros vs all s Eall Hf Ha Hs Hm Hl; cbn [length for_r].
  - exists s. cbn [map] in *. rewrite !app_nil_r in *. subst all. repeat split; auto; apply Hf.
  - assert (Er : nth_error all (length vs) = Some v) by (rewrite Eall, nth_error_app2, Nat.sub_diag; auto).
    assert (Hv : ok v) by (apply (vecs_ok (k := f_num (s_fac s)) (vs := all)); [apply Hf|rewrite Eall; apply in_or_app; right; left; auto]).
    unfold body_more at 1. destruct (get_old (length vs) Hf Ha Er) as (f' & -> & Hf' & F1 & F2 & F3). cbv zeta. rewrite Hs.
    assert (E1 : nth (length vs) (s_moments s) [] = moms v M). { rewrite Hm, app_nth2; rewrite map_length; auto. rewrite Nat.sub_diag. reflexivity. }
    assert (E2 : nth (length vs) (s_last2 s) ([], []) = alphas v (kof M)). { rewrite Hl, app_nth2; rewrite map_length; auto. rewrite Nat.sub_diag. reflexivity. }
    rewrite E1, E2, (iterate_spec Hv HM HN (old_spec v HN)). cbn [fst snd]. rewrite F2, Ha.
    destruct (IH (vs ++ [v]) all (mkSD f' M (set_nth (length vs) (alphas v (kof N)) (s_last2 s)) (set_nth (length vs) (moms v N) (s_moments s)))) as (s' & X).
    + rewrite Eall, <- app_assoc. reflexivity.
    + cbn [s_fac]. rewrite F1. auto.
    + cbn [s_fac]. congruence.
    + reflexivity.
    + cbn [s_moments]. rewrite Hm. cbn [map]. rewrite <- (map_length (fun v => moms v N) vs), set_nth_app, map_app, <- app_assoc. reflexivity.
    + cbn [s_last2]. rewrite Hl. cbn [map]. rewrite <- (map_length (fun v => alphas v (kof N)) vs), set_nth_app, map_app, <- app_assoc. reflexivity.
    + exists s'. rewrite app_length in X. cbn [length] in X. rewrite Nat.add_1_r in X. cbn [s_fac] in X. rewrite F1, F3 in X. exact X.
Qed.

Lemma sd_nvec vs s : sd_ok vs s -> s_nvec s = f_num (s_fac s) /\ length vs = f_num (s_fac s).
Proof. intros (_ & ((Lv & _) & _) & Hm & _). unfold s_nvec. rewrite Hm, map_length. auto. Qed.
Lemma sd_eta (s : sd) : mkSD (s_fac s) (s_num s) (s_last2 s) (s_moments s) = s. Proof. destruct s; reflexivity. Qed.
(** ** The methods *)
Lemma add_moments_spec vs s k : sd_ok vs s ->
  if (k <=? 0)%Z || negb (f_acc (s_fac s)) then add_moments next H zero inj dbl oper k s = (s, Some KValue)
  else exists s', add_moments next H zero inj dbl oper k s = (s', None) /\ sd_ok vs s' /\ s_num s' = s_num s + Z.to_nat k /\ f_num (s_fac s') = f_num (s_fac s) /\
         f_acc (s_fac s') = f_acc (s_fac s) /\ f_max (s_fac s') = f_max (s_fac s).
Proof.
  intros Hok. destruct (sd_nvec Hok) as [Nv Lv]. unfold add_moments. destruct (Z.leb_spec k 0) as [Hk|Hk]; cbn [orb]; auto.
  unfold update. rewrite Nat.ltb_irrefl, Nat.eqb_refl, Nat.sub_diag. cbv zeta. cbn [repeat s_fac s_num s_last2 s_moments]. rewrite !app_nil_r, sd_eta, Nat.sub_0_r.
  rewrite (proj2 (Nat.eqb_neq (s_num s + Z.to_nat k) (s_num s)) ltac:(lia)), (proj2 (Nat.ltb_ge (s_num s + Z.to_nat k) (s_num s)) ltac:(lia)). cbn [Nat.eqb negb].
  destruct (f_acc (s_fac s)) eqn:Ea; cbn [negb]; auto.
  destruct Hok as (H2 & Hf & Hm & Hl & Hll). 
  destruct (@more_loop (s_num s + Z.to_nat k) (s_num s) H2 ltac:(lia) [] vs vs s eq_refl Hf Ea eq_refl Hm (Hl Ea)) as (s' & E & F0 & F1 & F2 & F3 & F4 & F5 & F6).
  cbn [length] in E. rewrite Nv, <- Lv, E. eexists. split; [reflexivity|]. cbn [s_fac s_num s_moments s_last2].
  split; [|repeat split; auto; congruence]. split; [cbn; lia|]. cbn [s_fac s_num s_moments s_last2]. rewrite F1. split; auto. split; auto. split; auto. rewrite F6, map_length. auto.
Qed.
Lemma add_vectors_spec vs s k : sd_ok vs s ->
  if (k <=? 0)%Z || match f_max (s_fac s) with Some m => m <? f_num (s_fac s) + Z.to_nat k | None => false end then add_vectors next H zero inj dbl oper k s = (s, Some KValue)
  else match add_vectors next H zero inj dbl oper k s with
       | (s', None) => exists vs', sd_ok vs' s' /\ s_num s' = s_num s /\ f_num (s_fac s') = f_num (s_fac s) + Z.to_nat k /\ f_acc (s_fac s') = f_acc (s_fac s) /\ f_max (s_fac s') = f_max (s_fac s)
       | (s', Some e) => e = KStop /\ exists i, f_num (s_fac s) <= i /\ i < f_num (s_fac s) + Z.to_nat k /\ next i = None
       end.
Proof.
  intros Hok. destruct (sd_nvec Hok) as [Nv Lv]. unfold add_vectors, f_add. destruct (Z.leb_spec k 0) as [Hk|Hk]; cbn [orb]; [rewrite sd_eta; auto|].
  destruct (match f_max (s_fac s) with Some m => _ | None => _ end) eqn:Emax; [rewrite sd_eta; auto|].
  unfold update. cbn [s_nvec s_moments s_fac s_num s_last2 f_num f_acc]. unfold s_nvec. cbn [s_moments]. fold (s_nvec s). rewrite Nv.
  rewrite (proj2 (Nat.ltb_ge (f_num (s_fac s) + Z.to_nat k) (f_num (s_fac s))) ltac:(lia)), (proj2 (Nat.eqb_neq (f_num (s_fac s)) (f_num (s_fac s) + Z.to_nat k)) ltac:(lia)). cbv zeta.
  cbn [s_fac s_num s_last2 s_moments]. rewrite Nat.eqb_refl. replace (f_num (s_fac s) + Z.to_nat k - f_num (s_fac s)) with (Z.to_nat k) by lia.
  rewrite (proj2 (Nat.eqb_neq (Z.to_nat k) 0) ltac:(lia)). destruct Hok as (H2 & Hf & Hm & Hl & Hll).
  match goal with |- context [for_r _ _ _ ?t] => set (s1 := t) end.
  assert (HfS : fac_ok (f_num (s_fac s)) vs (s_fac s1)).
  { destruct Hf as (V & Hp & Hle & Hmx & Hsv). subst s1. split; auto. cbn. split; auto. split; [lia|]. split.
    - destruct (f_max (s_fac s)); auto. apply Nat.ltb_ge in Emax. auto.
    - destruct (f_acc (s_fac s)); auto. rewrite Hsv, <- app_assoc. rewrite Nat.sub_diag. cbn [repeat app]. f_equal. f_equal. lia. }
  pose proof (@new_loop (s_num s) H2 (Z.to_nat k) (f_num (s_fac s)) vs s1 HfS eq_refl eq_refl) as L. cbn [s_moments s_last2 s_fac f_acc s1] in L.
  rewrite Hm in L. specialize (L eq_refl). rewrite app_length, repeat_length, Hll, Lv in L.
  assert (L' : f_acc (s_fac s) = true -> s_last2 s ++ repeat ([], []) (Z.to_nat k) = map (fun v => alphas v (kof (s_num s))) vs ++ repeat ([], []) (Z.to_nat k)) by (intros Ha; rewrite (Hl Ha); reflexivity).
  specialize (L L' eq_refl).
  cbn [f_max] in L. exact L.
Qed.
Lemma init_spec limit nv acc nm : let n := match nv with Some k => Some k | None => option_map Z.of_nat limit end in
  match sd_init next H zero inj dbl oper limit nv acc nm with
  | (s, None) => (2 <= nm)%Z /\ exists k vs, n = Some k /\ (0 < k)%Z /\ sd_ok vs s /\ s_num s = Z.to_nat nm /\ f_num (s_fac s) = Z.to_nat k /\ f_acc (s_fac s) = acc /\ f_max (s_fac s) = limit
  | (s, Some e) => (e = KIndex /\ nm = 1%Z) \/ (e = KStop /\ exists i k, n = Some k /\ i < Z.to_nat k /\ next i = None) \/
      (e = KValue /\ ((nm <= 0)%Z \/ n = None \/ exists k, n = Some k /\ ((k <= 0)%Z \/ exists m, limit = Some m /\ m < Z.to_nat k)))
  end.
Proof.
  intros n. unfold sd_init. cbv zeta. destruct (Z.leb_spec nm 0) as [Hn|Hn]; [right; right; auto|].
  assert (G : forall k, n = Some k -> match
     match f_add k (mkF limit 0 acc [] 0 None) with
     | (f, Some e) => (mkSD f (Z.to_nat nm) [] [], Some e)
     | (f, None) => update next H zero inj dbl oper (Z.to_nat nm) (f_num f) (mkSD f (Z.to_nat nm) [] [])
     end with
     | (s, None) => (2 <= nm)%Z /\ exists k vs, n = Some k /\ (0 < k)%Z /\ sd_ok vs s /\ s_num s = Z.to_nat nm /\ f_num (s_fac s) = Z.to_nat k /\ f_acc (s_fac s) = acc /\ f_max (s_fac s) = limit
     | (s, Some e) => (e = KIndex /\ nm = 1%Z) \/ (e = KStop /\ exists i k, n = Some k /\ i < Z.to_nat k /\ next i = None) \/
      (e = KValue /\ ((nm <= 0)%Z \/ n = None \/ exists k, n = Some k /\ ((k <= 0)%Z \/ exists m, limit = Some m /\ m < Z.to_nat k))) end).
  { intros k En. unfold f_add. cbn [f_max f_num f_acc f_pos f_saved f_last Nat.add]. destruct (Z.leb_spec k 0) as [Hk|Hk].
    - right; right. split; auto. right; right. exists k. auto.
    - destruct (match limit with Some m => _ | None => _ end) eqn:El.
      + right; right. split; auto. right; right. exists k. split; auto. right. destruct limit as [m|]; [|discriminate]. exists m. split; auto. apply Nat.ltb_lt; auto.
      + unfold update, s_nvec. cbn [s_moments length s_fac s_num s_last2 f_num app]. rewrite (proj2 (Nat.eqb_neq 0 (Z.to_nat k)) ltac:(lia)), Nat.sub_0_r. cbv zeta.
        cbn [s_fac s_num s_last2 s_moments]. replace (Z.to_nat k <? 0) with false by (symmetry; apply Nat.ltb_ge; lia). rewrite Nat.eqb_refl, (proj2 (Nat.eqb_neq (Z.to_nat k) 0) ltac:(lia)).
        set (f0 := mkF limit 0 acc _ (Z.to_nat k) None).
        assert (HfS : fac_ok 0 [] f0). { split; [split; [reflexivity|intros; lia]|]. cbn. split; auto. split; [lia|]. split; [destruct limit; auto; apply Nat.ltb_ge; auto|]. destruct acc; auto. rewrite Nat.sub_0_r. reflexivity. }
        destruct (Z.leb_spec 2 nm) as [H2|H2].
        * pose proof (@new_loop (Z.to_nat nm) ltac:(lia) (Z.to_nat k) 0 [] (mkSD f0 (Z.to_nat nm) (repeat ([], []) (Z.to_nat k)) (repeat [] (Z.to_nat k))) HfS eq_refl eq_refl eq_refl (fun _ => eq_refl)) as L.
          cbn [s_last2] in L. rewrite repeat_length in L. specialize (L eq_refl). destruct (for_r _ _ _ _) as [s' [e|]].
          -- destruct L as (-> & i & _ & Hi & Hnx). right. left. split; auto. exists i, k. auto.
          -- destruct L as (vs & Hok & F1 & F2 & F3 & F4). split; auto. exists k, vs. cbn in F2, F3, F4. repeat (split; auto).
        * assert (nm = 1%Z) by lia. subst nm. destruct (Z.to_nat k) as [|k'] eqn:Ek; [lia|]. cbn [for_r]. unfold body_new at 1. cbn [s_fac].
          pose proof (@get_new 0 [] f0 HfS ltac:(cbn; lia)) as GN. destruct (next 0) as [v|] eqn:E0.
          -- destruct GN as (f' & -> & _). cbn. left. auto.
          -- destruct GN as (f' & ->). right. left. split; auto. exists 0, k. rewrite Ek. repeat split; auto; lia. }
  unfold f_init. cbv zeta. destruct nv as [k|]; [exact (G k eq_refl)|]. destruct limit as [m|]; [exact (G (Z.of_nat m) eq_refl)|].
  right; right. split; auto.
Qed.
Theorem history_ok limit nv acc nm cs s : history next H zero inj dbl oper limit nv acc nm cs s -> exists vs, sd_ok vs s /\ f_acc (s_fac s) = acc /\ f_max (s_fac s) = limit.
Proof.
  induction 1 as [s E|cs s c s' e Hh IH E He].
  - pose proof (init_spec limit nv acc nm) as I. cbv zeta in I. rewrite E in I. destruct I as (_ & k & vs & _ & _ & Hok & _ & _ & Ha & Hm). eauto.
  - destruct IH as (vs & Hok & Ha & Hm). destruct c as [k|k]; cbn [run_call] in E.
    + pose proof (add_moments_spec k Hok) as S. rewrite E in S. destruct ((k <=? 0)%Z || _); [injection S as -> ->; eauto|]. destruct S as (s1 & [= -> ->] & Hok' & _ & _ & Ha' & Hm'). exists vs. split; auto. split; congruence.
    + pose proof (add_vectors_spec k Hok) as S. rewrite E in S. destruct ((k <=? 0)%Z || _); [injection S as -> ->; eauto|].
      destruct e as [e|]; [destruct S as (-> & _); destruct He as [He|He]; discriminate|]. destruct S as (vs' & Hok' & _ & _ & Ha' & Hm'). exists vs'. split; auto. split; congruence.
Qed.
End Main.
