(** * C49: the moments matrix of a Correlator after any history. *)
From Coq Require Import List Bool Arith ZArith Ring Lia.
From Verif Require Import StarRing KpmModel KpmSpec KpmProofs KpmMain KpmCorrModel KpmCorrSpec.
Import ListNotations.
Set Implicit Arguments.

Section CorrProofs.
Variable R : StarRing.
Add Ring RringKC : (r_theory R).
Notation vec := (list R).
Variables (next : nat -> option vec) (H : vec -> vec) (op1 op2 : vec -> vec).
Notation corr := (corr R).
Notation fop := (Some (@fake_op R)).
Notation mom := (fun (v : vec) n => cheb H n v).
Notation init n := (sd_init n H [] (fun _ => []) (fun _ m => m) fop).
Notation addm n := (add_moments n H [] (fun _ => []) (fun _ m => m) fop).
Notation addv n := (add_vectors n H [] (fun _ => []) (fun _ m => m) fop).
Notation sdok n := (sd_ok n H fop mom).
Lemma fmom : forall op, fop = Some op -> forall v n, cheb H n v = op v (cheb H n v). Proof. intros op [= <-]. reflexivity. Qed.
Definition F_init n := @init_spec R n H vec [] (fun _ => []) (fun _ m => m) fop mom (fun _ => True) (fun _ _ _ => I) fmom ltac:(discriminate) ltac:(discriminate) ltac:(discriminate).
Definition F_addm n := @add_moments_spec R n H vec [] (fun _ => []) (fun _ m => m) fop mom (fun _ => True) (fun _ _ _ => I) fmom ltac:(discriminate) ltac:(discriminate).
Definition F_addv n := @add_vectors_spec R n H vec [] (fun _ => []) (fun _ m => m) fop mom (fun _ => True) (fun _ _ _ => I) fmom ltac:(discriminate) ltac:(discriminate) ltac:(discriminate).

Lemma sdok_next n n' vs s : sdok n vs s -> (forall r, r < f_num (s_fac s) -> n r = n' r) -> sdok n' vs s.
Proof.
  intros (H2 & ((Lv & Hn) & Hf) & Hr) E. split; auto. split; auto. split; auto. split; auto. intros r Hr'. rewrite <- E by auto. auto.
Qed.
Lemma op_factory_spec vs (r : sd R vec) : sdok next vs r -> f_acc (s_fac r) = true -> forall k, op_factory op1 r k = nth_error (map op1 vs) k.
Proof.
  intros (_ & ((Lv & _) & _ & _ & _ & Hs) & _) Ha k. rewrite Ha in Hs. unfold op_factory. rewrite Hs, Nat.sub_diag. cbn [repeat]. rewrite app_nil_r.
  rewrite !nth_error_map. destruct (nth_error vs k); reflexivity.
Qed.
Lemma op_factory_next vs (r : sd R vec) : sdok next vs r -> f_acc (s_fac r) = true -> forall k, k < f_num (s_fac r) -> op_factory op1 r k = option_map op1 (next k).
Proof.
  intros Hok Ha k Hk. rewrite (op_factory_spec Hok Ha). destruct Hok as (_ & ((Lv & Hn) & _) & _). rewrite Hn by auto. apply nth_error_map.
Qed.
Definition nextL k := option_map op1 (next k).
Lemma vecs_det n k vs vs' : @vecs R n k vs -> @vecs R n k vs' -> vs = vs'.
Proof. intros [L1 E1] [L2 E2]. apply nth_error_ext. intros j. destruct (Nat.lt_ge_cases j k) as [Hj|Hj]; [rewrite <- E1, <- E2; auto|]. rewrite !(proj2 (nth_error_None _ _)); auto; lia. Qed.
Lemma vecs_map k vs : @vecs R next k vs -> @vecs R nextL k (map op1 vs).
Proof. intros [L E]. split; [rewrite map_length; auto|]. intros r Hr. unfold nextL. rewrite E by auto. symmetry. apply nth_error_map. Qed.

Definition the_matrix N (v : vec) := map (fun m => map (fun n => vdot (cheb H m (op1 v)) (op2 (cheb H n v))) (seq 0 N)) (seq 0 N).
Definition corr_ok (acc : bool) (vs : list vec) (c : corr) : Prop :=
  sdok next vs (c_R c) /\ f_acc (s_fac (c_R c)) = true /\ sdok nextL (map op1 vs) (c_L c) /\ f_acc (s_fac (c_L c)) = acc /\ f_max (s_fac (c_L c)) = None /\
  s_num (c_L c) = s_num (c_R c) /\ c_num c = s_num (c_R c) /\ c_nvec c = length vs /\
  c_psi c = map (fun v => map (fun n => op2 (cheb H n v)) (seq 0 (s_num (c_R c)))) vs /\ c_omega c = s_moments (c_L c) /\
  c_matrix c = map (the_matrix (s_num (c_R c))) vs.
Lemma nth_seq_map {B} (l : list B) d0 : map (fun i => nth i l d0) (seq 0 (length l)) = l.
Proof.
  apply nth_error_ext. intros j. rewrite nth_error_map. destruct (Nat.lt_ge_cases j (length l)) as [Hj|Hj].
  - rewrite (nth_error_nth' (seq 0 (length l)) 0) by (rewrite seq_length; auto). rewrite seq_nth by auto. cbn. symmetry. apply nth_error_nth'. auto.
  - rewrite !(proj2 (nth_error_None _ _)); auto; rewrite ?seq_length; auto.
Qed.
Lemma update_psi_spec vs (r : sd R vec) : sdok next vs r -> update_psi op2 r = map (fun v => map (fun n => op2 (cheb H n v)) (seq 0 (s_num r))) vs.
Proof.
  intros Hok. destruct Hok as (_ & _ & Hm & _). unfold update_psi, s_nvec. rewrite Hm, map_length. 
  rewrite <- (nth_seq_map vs []) at 2. rewrite map_map. apply map_ext_in. intros i Hi. apply in_seq in Hi. apply map_ext_in. intros n Hn. apply in_seq in Hn. f_equal.
  assert (E : nth i (map (fun v => @moms R vec mom v (s_num r)) vs) [] = @moms R vec mom (nth i vs []) (s_num r)).
  { rewrite (nth_indep _ [] (@moms R vec mom [] (s_num r))) by (rewrite map_length; lia). apply (map_nth (fun v => @moms R vec mom v (s_num r))). }
  rewrite E. apply nth_error_nth. rewrite moms_nth by lia. reflexivity.
Qed.
Lemma combine_map {B C D} (f : B -> C) (g : B -> D) l : combine (map f l) (map g l) = map (fun x => (f x, g x)) l.
Proof. induction l; cbn; [|rewrite IHl]; auto. Qed.
Lemma finish_spec acc vs r l num nvec old : sdok next vs r -> f_acc (s_fac r) = true -> sdok nextL (map op1 vs) l -> f_acc (s_fac l) = acc -> f_max (s_fac l) = None ->
  s_num l = s_num r -> num = s_num r -> nvec = length vs ->
  exists c, finish r l num nvec (update_psi op2 r) old = (c, None) /\ corr_ok acc vs c /\ c_R c = r /\ c_L c = l.
Proof.
  intros Hr Ha Hl Hacc Hmx En -> ->. unfold finish. rewrite (update_psi_spec Hr). unfold moments_matrix.
  assert (Em : s_moments l = map (fun v => map (fun m => cheb H m (op1 v)) (seq 0 (s_num r))) vs).
  { destruct Hl as (_ & _ & Hm & _). rewrite Hm, map_map, En. apply map_ext. intros v. reflexivity. }
  cbv zeta. rewrite Em, !map_length, Nat.eqb_refl. cbn [negb]. eexists. split; [reflexivity|]. split; [|split; reflexivity]. unfold corr_ok; cbn.
  split; auto. split; auto. split; auto. split; auto. split; auto. split; auto. split; auto. split; auto. split; auto. split; auto.
  rewrite combine_map, map_map. apply map_ext. intros v. cbn [fst snd]. rewrite map_map. apply map_ext. intros m. rewrite map_map. reflexivity.
Qed.
Lemma c_add_moments acc vs c k : corr_ok acc vs c ->
  if (k <=? 0)%Z then corr_add_moments next H H op1 op2 k c = (c, Some KValue)
  else acc = true -> exists c', corr_add_moments next H H op1 op2 k c = (c', None) /\ corr_ok acc vs c' /\ c_num c' = c_num c + Z.to_nat k /\ f_max (s_fac (c_R c')) = f_max (s_fac (c_R c)).
Proof.
  intros (Hr & Har & Hl & Hal & Hmx & En & Ec & Ev & Ep & Eo & Em). unfold corr_add_moments. pose proof (@F_addm next vs (c_R c) k Hr) as A. rewrite Har in A. cbn [negb] in A. rewrite orb_false_r in A.
  destruct (Z.leb_spec k 0) as [Hk|Hk].
  - rewrite A. destruct c; reflexivity.
  - intros Hacc. destruct A as (r & -> & Hr' & A1 & A2 & A3 & A4).
    assert (Hl' : sdok (op_factory op1 r) (map op1 vs) (c_L c)).
    { apply (sdok_next (op_factory op1 r) Hl). intros i Hi. symmetry. apply (op_factory_next Hr'); [congruence|]. rewrite A2.
      rewrite <- (proj2 (sd_nvec Hr)). rewrite <- (proj2 (sd_nvec Hl)), map_length in Hi. auto. }
    pose proof (@F_addm (op_factory op1 r) _ _ k Hl') as B. rewrite Hal, Hacc in B. rewrite (proj2 (Z.leb_gt k 0) Hk) in B. cbn [orb negb] in B.
    destruct B as (l & -> & Hl2 & B1 & B2 & B3 & B4).
    destruct (@finish_spec acc vs r l (s_num r) (c_nvec c) (c_matrix c)) as (c' & -> & Hc & ER & EL); auto; try congruence.
    + apply (sdok_next nextL Hl2). intros i Hi. apply (op_factory_next Hr'); [congruence|]. rewrite A2. rewrite <- (proj2 (sd_nvec Hr)). rewrite <- (proj2 (sd_nvec Hl2)), map_length in Hi. auto.
    + exists c'. split; auto. split; auto. rewrite ER. split; [|congruence]. destruct Hc as (_ & _ & _ & _ & _ & _ & -> & _). rewrite ER, A1, Ec. reflexivity.
Qed.
Lemma c_add_vectors acc vs c k : corr_ok acc vs c ->
  if (k <=? 0)%Z || match f_max (s_fac (c_R c)) with Some m => m <? length vs + Z.to_nat k | None => false end then corr_add_vectors next H H op1 op2 k c = (c, Some KValue)
  else match corr_add_vectors next H H op1 op2 k c with
       | (c', None) => exists vs', corr_ok acc vs' c' /\ c_num c' = c_num c /\ c_nvec c' = c_nvec c + Z.to_nat k /\ f_max (s_fac (c_R c')) = f_max (s_fac (c_R c))
       | (_, Some e) => e = KStop /\ exists i, length vs <= i /\ i < length vs + Z.to_nat k /\ next i = None
       end.
Proof.
  intros (Hr & Har & Hl & Hal & Hmx & En & Ec & Ev & Ep & Eo & Em). unfold corr_add_vectors. pose proof (@F_addv next vs (c_R c) k Hr) as A. rewrite <- (proj2 (sd_nvec Hr)) in A.
  destruct ((k <=? 0)%Z || _) eqn:Ek.
  - rewrite A. destruct c; reflexivity.
  - apply orb_false_iff in Ek. destruct Ek as [Ek _]. destruct (addv next k (c_R c)) as [r [e|]]; [exact A|]. destruct A as (vs' & Hr' & A1 & A2 & A3 & A4).
    assert (Lvs : length vs' = length vs + Z.to_nat k) by (rewrite (proj2 (sd_nvec Hr')); auto).
    assert (Hop : forall i, i < length vs' -> op_factory op1 r i = nextL i). { intros i Hi. apply (op_factory_next Hr'); [congruence|]. rewrite <- (proj2 (sd_nvec Hr')). auto. }
    assert (LL : f_num (s_fac (c_L c)) = length vs) by (rewrite <- (proj2 (sd_nvec Hl)), map_length; auto).
    assert (Hl' : sdok (op_factory op1 r) (map op1 vs) (c_L c)). { apply (sdok_next (op_factory op1 r) Hl). intros i Hi. symmetry. apply Hop. lia. }
    pose proof (@F_addv (op_factory op1 r) _ _ k Hl') as B. rewrite Hmx, Ek in B. cbn [orb] in B.
    destruct (addv (op_factory op1 r) k (c_L c)) as [l [e|]].
    + exfalso. destruct B as (_ & i & B1 & B2 & B3). rewrite LL in B1, B2. rewrite Hop in B3 by lia. unfold nextL in B3.
      destruct Hr' as (_ & ((Lv & Hn) & _) & _). rewrite (Hn i) in B3 by lia. destruct (nth_error vs' i) eqn:E; [discriminate|]. apply nth_error_None in E. lia.
    + destruct B as (vl & Hl2 & B1 & B2 & B3 & B4). rewrite LL in B2.
      assert (Hl3 : sdok nextL vl l). { apply (sdok_next nextL Hl2). intros i Hi. apply Hop. lia. }
      assert (Evl : vl = map op1 vs').
      { destruct Hl3 as (_ & (V1 & _) & _). destruct Hr' as (_ & (V2 & _) & _). apply vecs_map in V2. apply (vecs_det V1). replace (f_num (s_fac l)) with (f_num (s_fac r)); auto. lia. }
      subst vl. destruct (@finish_spec acc vs' r l (c_num c) (s_nvec l) (c_matrix c)) as (c' & -> & Hc & ER & EL); auto; try congruence.
      * rewrite (proj1 (sd_nvec Hl3)), <- (proj2 (sd_nvec Hl3)), map_length. reflexivity.
      * exists vs'. split; auto. rewrite ER. destruct Hc as (_ & _ & _ & _ & _ & _ & -> & -> & _). rewrite ER. repeat split; auto; congruence.
Qed.
Lemma c_init limit nv acc nm : match corr_init next H H op1 op2 limit nv acc nm with
  | (c, None) => exists vs, corr_ok acc vs c /\ Z.of_nat (c_num c) = nm /\ Some (Z.of_nat (c_nvec c)) = match nv with Some k => Some k | None => option_map Z.of_nat limit end /\ f_max (s_fac (c_R c)) = limit
  | (_, Some e) => snd (init next limit nv true nm) = Some e
  end.
Proof.
  unfold corr_init. pose proof (F_init next limit nv true nm) as A. cbv zeta in A. destruct (init next limit nv true nm) as [r [e|]] eqn:Er; [reflexivity|].
  destruct A as (H2 & k & vs & En & Hk & Hr & A1 & A2 & A3 & A4). cbv zeta.
  destruct (sd_nvec Hr) as [Nv Lv].
  assert (Hop : forall i, i < length vs -> op_factory op1 r i = nextL i). { intros i Hi. apply (op_factory_next Hr); auto. lia. }
  pose proof (F_init (op_factory op1 r) None (Some (Z.of_nat (s_nvec r))) acc (Z.of_nat (s_num r))) as B. cbv zeta in B.
  destruct (init (op_factory op1 r) None _ acc _) as [l [e|]].
  - exfalso. destruct B as [(_ & B)|[(_ & i & k' & [= <-] & B2 & B3)|(_ & [B|[B|(k' & [= <-] & [B|(m & B & _)])]])]]; try discriminate; try lia.
    rewrite Nat2Z.id in B2. rewrite Hop in B3 by lia. unfold nextL in B3. destruct Hr as (_ & ((_ & Hn) & _) & _). rewrite (Hn i) in B3 by lia.
    destruct (nth_error vs i) eqn:E; [discriminate|]. apply nth_error_None in E. lia.
  - destruct B as (_ & k' & vl & [= <-] & _ & Hl & B1 & B2 & B3 & B4). rewrite Nat2Z.id in B1, B2.
    assert (Hl3 : sdok nextL vl l). { apply (sdok_next nextL Hl). intros i Hi. apply Hop. lia. }
    assert (Evl : vl = map op1 vs).
    { destruct Hl3 as (_ & (V1 & _) & _). pose proof Hr as (_ & (V2 & _) & _). apply vecs_map in V2. apply (vecs_det V1). replace (f_num (s_fac l)) with (f_num (s_fac r)) by lia. auto. }
    subst vl. destruct (@finish_spec acc vs r l (s_num r) (s_nvec r) []) as (c' & -> & Hc & ER & EL); auto; try congruence.
    exists vs. split; auto. destruct Hc as (_ & _ & _ & _ & _ & _ & -> & -> & _). rewrite ER, A1, En. repeat split; auto; [lia|f_equal; lia].
Qed.
(** ** Any history *)
Lemma chistory_ok limit nv acc nm cs c : chistory next H op1 op2 limit nv acc nm cs c -> exists vs, corr_ok acc vs c /\ f_max (s_fac (c_R c)) = limit.
Proof.
  induction 1 as [c E|cs s c s' e Hh (vs & Hok & Hm) Hal E He].
  - pose proof (c_init limit nv acc nm) as I. rewrite E in I. destruct I as (vs & Hok & _ & _ & Hm). eauto.
  - destruct c as [k|k]; cbn [run_ccall allowed] in *.
    + pose proof (c_add_moments k Hok) as S. destruct (Z.leb_spec k 0) as [Hk|Hk].
      * rewrite E in S. injection S as -> ->. eauto.
      * destruct Hal as [Hal|Hal]; [|lia]. destruct (S Hal) as (c' & Ec & Hok' & _ & Hm'). rewrite E in Ec. injection Ec as -> ->. exists vs. split; auto. congruence.
    + pose proof (c_add_vectors k Hok) as S. rewrite E in S. destruct ((k <=? 0)%Z || _); [injection S as -> ->; eauto|].
      destruct e as [e|]; [destruct S as (-> & _); destruct He as [He|He]; discriminate|]. destruct S as (vs' & Hok' & _ & _ & Hm'). exists vs'. split; auto. congruence.
Qed.
End CorrProofs.
