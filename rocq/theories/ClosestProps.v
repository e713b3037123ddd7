(** * C68: Builder.closest finds the closest site of the infinite system. *)
From Coq Require Import List Bool Arith ZArith Reals Lia Lra Sorting.Permutation Sorting.Sorted.
From Verif Require Import KpmReal KpmRealProofs CvpModel CvpSpec CvpProofs CvpProps LllModel LllSpec LllProofs LllProps LatticeModel LatticeSpec LatticeProofs LatticeProps ClosestModel ClosestSpec.
Import ListNotations.
Open Scope R_scope.

Section Props.
Variables m d : nat.
Variable fpos : nat -> option (point -> nat -> R).
Variable smat : nat -> nat -> nat -> Z.
Variable fdim : nat -> nat.
Variable periods : nat -> nat -> R.
Variable round : R -> Z.
Variable lstsq_mat : (nat -> nat -> R) -> (nat -> nat -> R) -> nat -> nat -> R.
Variable lstsq : (nat -> nat -> R) -> (nat -> R) -> nat -> R.
Variable inv : (nat -> nat -> R) -> nat -> nat -> R.
Variable argsort : (point -> R) -> list point -> list point.
Hypothesis L : good_libraries m d round lstsq_mat lstsq inv argsort.
Hypothesis HT : translational m d fpos smat fdim periods.
Notation sym_act := (sym_act m smat).
Notation closest := (closest m d fpos smat round lstsq_mat lstsq inv argsort).
Notation shifted := (shifted m d fpos smat round lstsq inv argsort).
Notation site_pos := (site_pos fpos).

Lemma nth_map_c (f : nat -> Z) n c : (c < n)%nat -> nth c (map f (seq 0 n)) 0%Z = f c.
Proof. apply nth_map_seq. Qed.
Lemma unit_nth i j : (j < m)%nat -> nth j (unit_element m i) 0%Z = if (i =? j)%nat then 1%Z else 0%Z.
Proof. intros H. unfold unit_element. rewrite nth_map_c; auto. Qed.
Lemma tag_basis_eq t s j c : (c < length (snd s))%nat -> tag_basis m smat t s j c = Zsum m (fun i => (t i j * smat (fst s) i c)%Z).
Proof.
  intros Hc. unfold tag_basis. apply Zsum_ext. intros i Hi. f_equal. unfold ClosestModel.sym_act. cbn [fst snd]. unfold zero_tag. rewrite map_length, seq_length. rewrite !nth_map_c by auto. rewrite Z.add_0_l.
  transitivity (Zsum m (fun l => if (l =? i)%nat then smat (fst s) l c else 0%Z)); [|apply (@Zsum_delta m i (fun l => smat (fst s) l c)); auto].
  apply Zsum_ext. intros l Hl. rewrite unit_nth by auto. destruct (Nat.eqb_spec i l), (Nat.eqb_spec l i); subst; try congruence; [apply Z.mul_1_l|apply Z.mul_0_l].
Qed.
(** the shifted site is a translate of the site *)
Lemma shift_act t shift s : map (fun c => (Zsum m (fun j => nth j shift 0 * tag_basis m smat t s j c) + nth c (snd s) 0)%Z) (seq 0 (length (snd s))) = snd (sym_act (dot_transf_T m t shift) s).
Proof.
  unfold ClosestModel.sym_act. cbn [snd]. apply map_ext_in. intros c Hc. apply in_seq in Hc. rewrite Z.add_comm. f_equal.
  transitivity (Zsum m (fun j => Zsum m (fun i => (nth j shift 0 * (t i j * smat (fst s) i c))%Z))).
  - apply Zsum_ext. intros j Hj. rewrite tag_basis_eq by (exact (proj2 Hc)). rewrite Zsum_mult_l. auto.
  - rewrite Zsum_swap. apply Zsum_ext. intros i Hi. unfold dot_transf_T. rewrite nth_map_c by auto. rewrite <- Zsum_mult_r. apply Zsum_ext. intros j Hj. ring.
Qed.
Lemma act_dim e s : length (snd (sym_act e s)) = length (snd s).
Proof. unfold ClosestModel.sym_act. cbn. rewrite map_length, seq_length. auto. Qed.
Lemma site_pos_act e s p k : site_pos s = Some p -> length (snd s) = fdim (fst s) -> lattice_point m e -> (k < d)%nat -> exists p', site_pos (sym_act e s) = Some p' /\ p' k = p k + vector periods e k.
Proof.
  intros Hp Hl He Hk. unfold ClosestModel.site_pos in *. destruct s as [fam tag]. cbn [fst snd] in *. destruct (fpos fam) as [f|] eqn:Ef; [|discriminate]. cbn in Hp. injection Hp as <-. cbn [ClosestModel.sym_act fst]. change (fst (sym_act e (fam, tag))) with fam. rewrite Ef. cbn [option_map]. eexists. split; [reflexivity|]. apply (proj2 HT); auto.
Qed.
Lemma dist_sqrt x p : dist d p x = sqrt (dist2 d x p).
Proof. reflexivity. Qed.
Lemma dist2_le x p q : dist2 d x p <= dist2 d x q -> dist d p x <= dist d q x.
Proof. intros H. rewrite !dist_sqrt. apply sqrt_le_1_alt. auto. Qed.
Lemma dist2_nonneg x p : 0 <= dist2 d x p.
Proof. unfold dist2. apply Rsum_nonneg. intros. apply Rle_0_sqr. Qed.
Lemma dist_le2 x p q : dist d p x <= dist d q x -> dist2 d x p <= dist2 d x q.
Proof. intros H. rewrite !dist_sqrt in H. apply sqrt_le_0; auto using dist2_nonneg. Qed.
(** scanning the sites *)
Definition best_ok (x : nat -> R) (T : list site) (best : option (R * site)) : Prop :=
  match best with
  | None => T = []
  | Some (r, s) => In s T /\ (exists p, site_pos s = Some p /\ r = dist2 d x p) /\ forall s' p', In s' T -> site_pos s' = Some p' -> r <= dist2 d x p'
  end.
Lemma scan_ok tr x : forall sites best out T, best_ok x T best -> scan d fpos tr x best sites = Some out ->
  exists T', map tr sites = map Some T' /\ best_ok x (T ++ T') out.
Proof.
  induction sites as [|s rest IH]; intros best out T HB HS; cbn in HS.
  - injection HS as <-. exists []. rewrite app_nil_r. auto.
  - destruct (site_pos s); [|discriminate]. destruct (tr s) as [s'|] eqn:Et; [|discriminate]. destruct (keep d fpos x best s') as [b'|] eqn:Ek; [|discriminate].
    assert (HB' : best_ok x (T ++ [s']) b').
    { unfold keep in Ek. destruct (site_pos s') as [p|] eqn:Ep; [|discriminate]. destruct best as [[r' s0]|].
      - destruct HB as (H1 & H2 & H3). destruct (Rlt_dec (dist2 d x p) r') as [Hlt|Hge]; injection Ek as <-; cbn.
        + split; [apply in_or_app; right; left; auto|]. split; [eauto|]. intros s1 p1 Hin Hp1. apply in_app_iff in Hin. destruct Hin as [Hin|[<-|[]]]; [specialize (H3 _ _ Hin Hp1); lra|]. rewrite Ep in Hp1. injection Hp1 as <-. lra.
        + split; [apply in_or_app; left; auto|]. split; [auto|]. intros s1 p1 Hin Hp1. apply in_app_iff in Hin. destruct Hin as [Hin|[<-|[]]]; [apply (H3 _ _ Hin Hp1)|]. rewrite Ep in Hp1. injection Hp1 as <-. lra.
      - cbn in HB. subst T. injection Ek as <-. cbn. split; [auto|]. split; [eauto|]. intros s1 p1 [<-|[]] Hp1. rewrite Ep in Hp1. injection Hp1 as <-. lra. }
    destruct (IH _ _ _ HB' HS) as (T' & HT' & HO). exists (s' :: T'). split; [cbn; rewrite Et, HT'; auto|]. rewrite <- app_assoc in HO. auto.
Qed.
Lemma scan_total tr x : (forall s, site_pos s <> None -> forall s', tr s = Some s' -> site_pos s' <> None) -> forall sites best, (forall s, In s sites -> site_pos s <> None /\ tr s <> None) -> exists out, scan d fpos tr x best sites = Some out.
Proof.
  intros Htr. induction sites as [|s rest IH]; intros best H; [eexists; reflexivity|]. cbn. destruct (H s ltac:(left; auto)) as [H1 H2]. destruct (tr s) as [s'|] eqn:Et; [|congruence]. pose proof (Htr s H1 s' Et) as H3. destruct (site_pos s); [|congruence].
  unfold keep. destruct (site_pos s') as [p|]; [|congruence]. destruct best as [[r' s0]|]; [destruct (Rlt_dec _ r')|]; apply IH; intros; apply H; right; auto.
Qed.
(** the basis in real space *)
Lemma unit_vector i k : (i < m)%nat -> vector periods (unit_element m i) k = periods i k.
Proof.
  intros Hi. unfold vector. assert (length (unit_element m i) = m) as -> by (unfold unit_element; rewrite map_length, seq_length; auto).
  transitivity (Rsum m (fun j => if (j =? i)%nat then periods j k else 0)); [|apply (@Rsum_delta m i (fun j => periods j k)); auto].
  apply Rsum_ext. intros j Hj. rewrite unit_nth by auto. destruct (Nat.eqb_spec i j), (Nat.eqb_spec j i); try lia; ring.
Qed.
Lemma basis_ok s b : length (snd s) = fdim (fst s) -> space_basis m fpos smat s = Some b -> forall i k, (i < m)%nat -> (k < d)%nat -> b i k = periods i k.
Proof.
  intros Hl Hb i k Hi Hk. unfold space_basis in Hb. destruct s as [fam tag]. cbn [fst snd] in *. destruct (fpos fam) as [f|] eqn:Ef; [|discriminate]. injection Hb as <-.
  assert (Lu : lattice_point m (unit_element m i)) by (unfold lattice_point, unit_element; rewrite map_length, seq_length; auto).
  pose proof (proj2 HT fam f tag (unit_element m i) k Ef Hl Lu Hk) as E. rewrite unit_vector in E by auto.
  match goal with |- ?a = _ => change a with (f (snd (sym_act (unit_element m i) (fam, tag))) k - f tag k) end. rewrite E. ring.
Qed.
Lemma basis_indep s b : length (snd s) = fdim (fst s) -> space_basis m fpos smat s = Some b -> independent m d b.
Proof.
  intros Hl Hb x Hx. apply (proj1 HT). intros k Hk. rewrite <- (Hx k Hk). apply Rsum_ext. intros i Hi. rewrite (basis_ok s b Hl Hb) by auto. auto.
Qed.
Lemma vector_basis b e k : lattice_point m e -> (forall i k, (i < m)%nat -> (k < d)%nat -> b i k = periods i k) -> (k < d)%nat -> vector b e k = vector periods e k.
Proof. intros He Hb Hk. unfold vector. rewrite He. apply Rsum_ext. intros i Hi. rewrite Hb by auto. auto. Qed.
(** the shifted site is the closest of all translates *)
Lemma shifted_ok lfuel cfuel s0 v t x s s' : (0 < m)%nat -> length (snd s0) = fdim (fst s0) -> length (snd s) = fdim (fst s) ->
  reduced_basis m d fpos smat round lstsq_mat lfuel s0 = Some (v, t) -> shifted cfuel v t x s = Some s' ->
  (exists e, lattice_point m e /\ s' = sym_act e s) /\
  forall p' e q, site_pos s' = Some p' -> lattice_point m e -> site_pos (sym_act e s) = Some q -> dist2 d x p' <= dist2 d x q.
Proof.
  intros Hm Hl0 Hl HR HS. unfold reduced_basis in HR. destruct (space_basis m fpos smat s0) as [b|] eqn:Eb; [|discriminate].
  pose proof (basis_indep s0 b Hl0 Eb) as Hi. pose proof (basis_ok s0 b Hl0 Eb) as Hb.
  unfold ClosestModel.shifted in HS. destruct (site_pos s) as [p|] eqn:Ep; [|discriminate]. destruct (cvp _ _ _ _ _ _ _ _ _ _ _ _) as [ps| |] eqn:Ec; try discriminate. destruct ps as [|shift ps']; [discriminate|].
  assert (HN : n_closest m d b p round lstsq_mat lstsq inv argsort lfuel cfuel x 1 false (1 / 10 ^ 9) = Some (map (dot_transf_T m t) (shift :: ps'))).
  { unfold n_closest, reduced. destruct (lll _ _ _ _ _ _ _ _ _); try discriminate. injection HR as -> ->. rewrite Ec. auto. }
  destruct (C55_n_closest m d b p round lstsq_mat lstsq inv argsort Hm L Hi lfuel cfuel x 1%nat _ _ HN) as (N1 & _ & N3 & _ & N5). cbn [map] in *. destruct ps' as [|]; [|discriminate]. cbn [map] in *.
  set (e0 := dot_transf_T m t shift) in *. assert (Le0 : lattice_point m e0) by (inversion N3; auto).
  assert (Es : s' = sym_act e0 s). { injection HS as <-. exact (f_equal (fun z => (fst s, z)) (shift_act t shift s)). }
  subst s'. split; [exists e0; auto|].
  intros p' e q Hp' Le Hq.
  assert (P : forall e q, lattice_point m e -> site_pos (sym_act e s) = Some q -> dist d q x = dist d (site_position b p e) x).
  { intros e1 q1 L1 H1. apply dist_ext. intros k Hk. destruct (site_pos_act e1 s p k Ep Hl L1 Hk) as (q2 & H2 & E2). rewrite H1 in H2. injection H2 as <-. rewrite E2. unfold site_position. rewrite (vector_basis b e1 k L1 Hb Hk). ring. }
  apply dist_le2. rewrite (P e0 p' Le0 Hp'), (P e q Le Hq). destruct (list_eq_dec Z.eq_dec e0 e) as [->|Hne]; [apply Rle_refl|]. apply N5; [left; auto|auto|]. intros [|[]]; auto.
Qed.
Lemma act_zero s e : m = O -> sym_act e s = s.
Proof.
  intros Hm. unfold ClosestModel.sym_act. rewrite Hm. destruct s as [fam tag]. cbn [fst snd]. f_equal. cbn. apply nth_ext with (d := 0%Z) (d' := 0%Z); [rewrite map_length, seq_length; auto|]. rewrite map_length, seq_length. intros c Hc. rewrite nth_map_c by auto. ring.
Qed.

(** ** The returned site is a translate of a site of the builder; no translate of any site
    of the builder is closer to x *)
Theorem C68_closest : forall lfuel cfuel sites x s, good_sites fpos fdim sites -> closest lfuel cfuel sites x = Some (Some s) ->
  (exists s0 e, In s0 sites /\ lattice_point m e /\ s = sym_act e s0) /\
  exists p, located fpos s p /\ forall s1 e q, In s1 sites -> lattice_point m e -> located fpos (sym_act e s1) q -> dist d p x <= dist d q x.
Proof.
  intros lfuel cfuel sites x s HG HC.
  assert (LOC : forall s q, located fpos s q <-> site_pos s = Some q). { intros s1 q. unfold located, ClosestModel.site_pos. split; [intros (f & -> & ->); auto|]. destruct (fpos (fst s1)) as [f|]; [|discriminate]. cbn. intros [= <-]. eauto. }
  unfold ClosestModel.closest in HC. destruct (Nat.eqb_spec m 0) as [Hm|Hm].
  - destruct (scan d fpos Some x None sites) as [out|] eqn:ES; [|discriminate]. cbn in HC. destruct out as [[r s']|]; [|discriminate]. cbn in HC. injection HC as ->.
    destruct (scan_ok Some x sites None (Some (r, s)) [] eq_refl ES) as (T' & HT' & (H1 & (p & Hp & Hr) & H3)). cbn [app] in *. assert (sites = T') as <- by (clear - HT'; revert T' HT'; induction sites as [|a l IH]; intros [|b T'] H; try discriminate; auto; cbn in H; injection H as -> H; f_equal; auto).
    split; [exists s, (repeat 0%Z m); split; [auto|split; [unfold lattice_point; apply repeat_length|symmetry; apply act_zero; auto]]|].
    exists p. split; [apply LOC; auto|]. intros s1 e q Hin _ Hq. apply LOC in Hq. rewrite act_zero in Hq by auto. apply dist2_le. rewrite <- Hr. apply (H3 s1); auto.
  - destruct sites as [|s0 rest] eqn:E0; [discriminate|]. rewrite <- E0 in *. assert (Hin0 : In s0 sites) by (rewrite E0; left; auto). destruct (reduced_basis _ _ _ _ _ _ _ _) as [[v t]|] eqn:ER; [|discriminate].
    destruct (scan d fpos (shifted cfuel v t x) x None sites) as [out|] eqn:ES; [|discriminate]. cbn in HC. destruct out as [[r s']|]; [|discriminate]. cbn in HC. injection HC as ->.
    destruct (scan_ok _ x sites None (Some (r, s)) [] eq_refl ES) as (T' & HT' & (H1 & (p & Hp & Hr) & H3)). cbn [app] in *.
    assert (Q : forall s', In s' T' <-> exists s, In s sites /\ shifted cfuel v t x s = Some s').
    { intros s'. split.
      - intros Hin. apply (in_map Some) in Hin. rewrite <- HT' in Hin. apply in_map_iff in Hin. destruct Hin as (s2 & E2 & Hin). eauto.
      - intros (s2 & Hin & E2). apply (in_map (shifted cfuel v t x)) in Hin. rewrite HT', E2 in Hin. apply in_map_iff in Hin. destruct Hin as (s3 & [= ->] & Hin). auto. }
    destruct (HG s0 Hin0) as [Hl0 _].
    assert (SH : forall s1, In s1 sites -> exists s', shifted cfuel v t x s1 = Some s').
    { intros s1 Hin. apply (in_map (shifted cfuel v t x)) in Hin. rewrite HT' in Hin. apply in_map_iff in Hin. destruct Hin as (s3 & E3 & _). eauto. }
    split.
    + apply Q in H1. destruct H1 as (s1 & Hin & E1). destruct (HG s1 Hin) as [Hl1 _]. destruct (shifted_ok lfuel cfuel s0 v t x s1 s ltac:(lia) Hl0 Hl1 ER E1) as [(e & He & ->) _]. eauto.
    + exists p. split; [apply LOC; auto|]. intros s1 e q Hin He Hq. apply LOC in Hq. apply dist2_le. destruct (SH s1 Hin) as [s' E1]. destruct (HG s1 Hin) as [Hl1 Hf1]. destruct (shifted_ok lfuel cfuel s0 v t x s1 s' ltac:(lia) Hl0 Hl1 ER E1) as [(e' & He' & ->) B].
      assert (Hq' : exists q', site_pos (sym_act e' s1) = Some q') by (unfold ClosestModel.site_pos; change (fst (sym_act e' s1)) with (fst s1); destruct (fpos (fst s1)); [eexists; reflexivity|congruence]). destruct Hq' as [q' Hq'].
      apply Rle_trans with (dist2 d x q'); [rewrite <- Hr; apply (H3 (sym_act e' s1)); [apply Q; eauto|auto]|]. apply (B q' e q); auto.
Qed.
(** Every system with sites, in at most two periodic directions, has a closest site: the
    search ends and returns one *)
Theorem C68_total : forall sites x, (m <= 2)%nat -> (m <= d)%nat -> sites <> [] -> good_sites fpos fdim sites -> exists lfuel cfuel s, closest lfuel cfuel sites x = Some (Some s).
Proof.
  intros sites x Hm2 Hd Hne HG.
  assert (POS : forall s, In s sites -> site_pos s <> None). { intros s Hin. destruct (HG s Hin) as [_ H]. unfold ClosestModel.site_pos. destruct (fpos (fst s)); [discriminate|congruence]. }
  assert (OUT : forall tr out, scan d fpos tr x None sites = Some out -> exists r s, out = Some (r, s)).
  { intros tr out HS. destruct (scan_ok tr x sites None out [] eq_refl HS) as (T' & HT' & HB). destruct out as [[r s]|]; [eauto|]. cbn in HB. subst T'. destruct sites; [congruence|discriminate]. }
  unfold ClosestModel.closest. destruct (Nat.eqb_spec m 0) as [Hm|Hm].
  - destruct (scan_total Some x) with (sites := sites) (best := @None (R * site)) as (out & HS); [intros s H s' [= <-]; auto|intros s Hin; split; [auto|discriminate]|]. destruct (OUT _ _ HS) as (r & s & ->). exists O, O, s. rewrite HS. reflexivity.
  - assert (Hm0 : (0 < m)%nat) by lia. destruct sites as [|s0 rest] eqn:E0; [congruence|]. rewrite <- E0 in *. assert (Hin0 : In s0 sites) by (rewrite E0; left; auto). destruct (HG s0 Hin0) as [Hl0 Hf0].
    destruct (space_basis m fpos smat s0) as [b|] eqn:Eb; [|unfold space_basis in Eb; destruct (fpos (fst s0)); congruence].
    pose proof (basis_indep s0 b Hl0 Eb) as Hi.
    destruct (C55_total m d b (fun _ => 0) round lstsq_mat lstsq inv argsort Hm0 L Hi x 1%nat 0 Hm2 Hd ltac:(lia)) as (lf & cf & tgs & HN).
    unfold n_closest in HN. destruct (LatticeModel.reduced m d b round lstsq_mat lf) as [[v t]|] eqn:ER; [|discriminate]. clear HN.
    assert (RB : reduced_basis m d fpos smat round lstsq_mat lf s0 = Some (v, t)) by (unfold reduced_basis; rewrite Eb; exact ER).
    destruct (reduced_ok _ _ _ _ _ _ _ _ Hm0 L Hi _ _ _ ER) as (_ & _ & _ & Lv).
    assert (F : exists F, forall s, In s sites -> forall f, (F <= f)%nat -> shifted f v t x s <> None).
    { clear Hin0 E0 OUT Hne. induction sites as [|s1 l IH]; [exists O; intros s []|]. destruct IH as (F1 & HF1); [intros s Hs; apply HG; right; auto|intros; apply POS; right; auto|].
      pose proof (POS s1 ltac:(left; auto)) as Hp. destruct (site_pos s1) as [p|] eqn:Ep; [|congruence].
      destruct (C36_terminates _ _ _ _ _ _ _ (fun k => x k - p k) 1%nat (1 / 10 ^ 9) Lv ltac:(lia)) as (F2 & HF2). exists (F1 + F2)%nat. intros s [<-|Hs] f Hf; [|apply HF1; auto; lia].
      destruct (HF2 f ltac:(lia)) as (ps & E). unfold ClosestModel.shifted. rewrite Ep, E. destruct ps as [|sh ps]; [|discriminate]. exfalso.
      assert (HN : n_closest m d b p round lstsq_mat lstsq inv argsort lf f x 1 false (1 / 10 ^ 9) = Some []) by (unfold n_closest; rewrite ER, E; auto).
      destruct (C55_n_closest m d b p round lstsq_mat lstsq inv argsort Hm0 L Hi lf f x 1%nat _ _ HN) as (N1 & _). discriminate. }
    destruct F as (F & HF). exists lf, F. rewrite RB.
    destruct (scan_total (shifted F v t x) x) with (sites := sites) (best := @None (R * site)) as (out & HS).
    + intros s Hs s' E. unfold ClosestModel.shifted in E. destruct (site_pos s) as [p|] eqn:Ep; [|discriminate]. destruct (cvp _ _ _ _ _ _ _ _ _ _ _ _) as [[|]| |]; try discriminate. injection E as <-. unfold ClosestModel.site_pos in *. cbn [fst]. destruct (fpos (fst s)); discriminate.
    + intros s Hin. split; [auto|]. apply HF; auto.
    + destruct (OUT _ _ HS) as (r & s & ->). exists s. rewrite HS. reflexivity.
Qed.
(** Without sites: None for a system without symmetry; an exception (StopIteration) if
    there is a symmetry *)
Theorem C68_empty : forall lfuel cfuel x, closest lfuel cfuel [] x = if (m =? 0)%nat then Some None else None.
Proof. intros. unfold ClosestModel.closest. destruct (m =? 0)%nat; reflexivity. Qed.
(** A family without positions: an exception *)
Theorem C68_no_positions : forall lfuel cfuel sites x s, In s sites -> fpos (fst s) = None -> closest lfuel cfuel sites x = None.
Proof.
  intros lfuel cfuel sites x s Hin Hf.
  assert (SC : forall tr best, scan d fpos tr x best sites = None).
  { intros tr. induction sites as [|s1 l IH]; [destruct Hin|]. intros best. cbn. destruct Hin as [->|Hin].
    - unfold ClosestModel.site_pos. rewrite Hf. reflexivity.
    - destruct (site_pos s1); [|auto]. destruct (tr s1) as [s'|]; [|auto]. destruct (keep d fpos x best s'); auto. }
  unfold ClosestModel.closest. destruct (m =? 0)%nat; [rewrite SC; auto|]. destruct sites as [|s1 l]; [destruct Hin|]. destruct (reduced_basis _ _ _ _ _ _ _ _) as [[v t]|]; [rewrite SC; auto|auto].
Qed.
End Props.
Print Assumptions C68_closest.
Print Assumptions C68_total.
Print Assumptions C68_empty.
Print Assumptions C68_no_positions.
