(** * smatrix, wave_function and ldos. *)
From Coq Require Import List Bool Arith ZArith Ring Lia.
From Verif Require Import StarRing SubmatrixModel SolverModel SolverSpec SolverProofs SolverLinear SolverLinear2.
Import ListNotations.
Set Implicit Arguments.

Lemma flat_map_combine {A B} (xs : list A) (f : nat * A -> list B) (g : nat -> list B) :
  (forall k x, nth_error xs k = Some x -> f (k, x) = g k) -> flat_map f (combine (seq 0 (length xs)) xs) = flat_map g (seq 0 (length xs)).
Proof.
  assert (G : forall xs s, (forall k x, nth_error xs k = Some x -> f (s + k, x) = g (s + k)) -> flat_map f (combine (seq s (length xs)) xs) = flat_map g (seq s (length xs))).
  { clear xs. induction xs as [|x xs IH]; intros s H; auto. cbn [length seq combine flat_map]. f_equal.
    - specialize (H 0 x eq_refl). rewrite Nat.add_0_r in H. auto.
    - apply IH. intros k z Hk. rewrite Nat.add_succ_comm. apply (H (S k) z Hk). }
  intros H. apply G. exact H.
Qed.
Lemma choose_concat idxs : forall s out l, choose s idxs out = inl l ->
  concat l = flat_map (fun kc => if zmem (Z.of_nat (fst kc)) out then match snd kc with Some c => c | None => [] end else []) (combine (seq s (length idxs)) idxs).
Proof.
  induction idxs as [|c idxs IH]; intros s out l H; cbn [choose] in H; [injection H as <-; reflexivity|].
  apply sbind_inl in H. destruct H as (t & Ht & H). apply IH in Ht. cbn [length seq combine flat_map fst snd].
  destruct (zmem (Z.of_nat s) out); [|injection H as <-; exact Ht]. destruct c as [c|]; [|discriminate]. injection H as <-. cbn [concat]. rewrite Ht. reflexivity.
Qed.
Lemma map_flat_map' {A B C} (f : B -> C) (g : A -> list B) l : map f (flat_map g l) = flat_map (fun x => map f (g x)) l.
Proof. induction l as [|x l IH]; auto. cbn. rewrite map_app, IH. auto. Qed.
Lemma seq_map_add s len : seq s len = map (fun a => s + a) (seq 0 len).
Proof.
  revert s. induction len as [|len IH]; intros s; auto. cbn [seq map]. rewrite Nat.add_0_r. f_equal. rewrite (IH (S s)), <- seq_shift, map_map. apply map_ext. intros. lia.
Qed.
Lemma combine_nth_in {A B} (xs : list A) (ys : list B) k x z : length xs = length ys -> nth_error xs k = Some x -> nth_error ys k = Some z -> nth_error (combine xs ys) k = Some (x, z).
Proof. revert ys k. induction xs as [|a xs IH]; intros [|b ys] k HL H1 H2; try discriminate; [destruct k; discriminate|]. destruct k as [|k]; cbn in *; [congruence|]. apply IH; auto. Qed.
Lemma in_combine_seq {A} (xs : list A) k x : In (k, x) (combine (seq 0 (length xs)) xs) -> nth_error xs k = Some x.
Proof.
  assert (G : forall xs s, In (k, x) (combine (seq s (length xs)) xs) -> s <= k /\ nth_error xs (k - s) = Some x).
  { clear xs. induction xs as [|a xs IH]; intros s H; [destruct H|]. cbn [length seq combine] in H. destruct H as [[= <- <-]|H].
    - rewrite Nat.sub_diag. split; auto.
    - apply IH in H. destruct H as [H1 H2]. split; [lia|]. replace (k - s) with (S (k - S s)) by lia. exact H2. }
  intros H. apply G in H. rewrite Nat.sub_0_r in H. tauto.
Qed.

Section Main.
Variable R : StarRing.
Add Ring RringM : (r_theory R).
Notation mat := (mat R).
Notation conj := (rconj R).
Notation "x +! y" := (radd R x y) (at level 50, left associativity).
Notation "x *! y" := (rmul R x y) (at level 40, left associativity).
Notation O0 := (r0 R).
Variable herm_ok : mat -> bool.
Variable solve : mat -> mat -> list nat -> sres mat.
Hypothesis EX : exact_solver solve.
Variable y : syst R.
Hypothesis GS : good_syst y.
Variable en : R.
Variable check : bool.
Notation n := (mr (y_ham y)).
Notation leads := (y_leads y).
Notation nl := (length leads).
Notation base := (base y).
Notation NN := (base nl).
Notation counts := (mode_counts y).

Lemma nprop_nmodes (l : lead R) : nprop l = lead_nmodes l. Proof. reflexivity. Qed.
Lemma counts_nth k l : nth_error leads k = Some l -> nth k counts 0 = lead_nmodes l.
Proof. intros H. unfold mode_counts. exact (nth_error_nth _ _ 0 (map_nth_error _ _ _ H)). Qed.

Section Inn.
Variable inn : list Z.
Hypothesis Hinc : increasing inn = true.
Hypothesis Hval : forall z, In z inn -> valid_lead nl z.
Variables (ls : linsys R) (info : list (linfo R)).
Hypothesis HM : make_linear_sys herm_ok y inn en check false = inl (ls, info).

Definition colmap (x : (nat * mat) * nat) : mode := (Z.of_nat (fst (fst x)), snd x).
Notation kbs := (combine (seq 0 (length (x_rhs ls))) (x_rhs ls)).
Lemma cols_modes : map colmap (lcols kbs) = modes_of counts inn.
Proof.
  destruct (rhs_ok GS HM) as [HL HB]. rewrite (modes_of_all counts Hinc Hval), <- HL. unfold lcols. rewrite map_flat_map'.
  rewrite (@flat_map_combine _ _ (x_rhs ls) _ (fun k => if zmem (Z.of_nat k) inn then map (pair (Z.of_nat k)) (seq 0 (nth k counts 0)) else [])); auto.
  intros k B Hk. rewrite map_map. cbn [fst snd]. unfold colmap. cbn [fst snd].
  assert (Hk' : k < nl) by (rewrite <- HL; apply nth_error_Some; congruence). destruct (nth_error leads k) as [l|] eqn:El; [|apply nth_error_None in El; lia].
  destruct (HB k l El) as (B' & HB' & _ & K2 & _). assert (B' = B) by congruence. subst B'. rewrite K2, (counts_nth _ El).
  destruct (zmem (Z.of_nat k) inn); reflexivity.
Qed.
Lemma rhs_total : list_sum (map (@mc R) (x_rhs ls)) = length (modes_of counts inn).
Proof.
  rewrite <- cols_modes, map_length. assert (G : forall l s, list_sum (map (@mc R) l) = length (lcols (combine (seq s (length l)) l))).
  { unfold lcols. induction l as [|B l IH]; intros s; auto. cbn [length seq combine flat_map]. rewrite app_length, map_length, seq_length, <- (IH (S s)). reflexivity. }
  apply G.
Qed.
Lemma stacked a r M : x_rhs ls = a :: r -> hstack_list R a r = inl M ->
  mr M = NN /\ mc M = length (modes_of counts inn) /\
  forall c i b, nth_error (modes_of counts inn) c = Some (i, b) -> exists k l B, i = Z.of_nat k /\ nth_error leads k = Some l /\ nth_error (x_rhs ls) k = Some B /\ b < mc B /\ forall x, mget M x c = mget B x b.
Proof.
  intros Er H. destruct (rhs_ok GS HM) as [HL HB].
  assert (Es : map snd kbs = a :: r).
  { rewrite <- Er. generalize (x_rhs ls) as l. intros l. generalize 0 as s. induction l as [|B l IH]; intros s; auto. cbn. f_equal. auto. }
  destruct (@hstack_all R nat kbs a r M Es H) as (F1 & F2 & F3).
  assert (Ha : mr a = NN). { assert (H0 : 0 < nl) by (rewrite <- HL, Er; cbn; lia). destruct (nth_error leads 0) as [l0|] eqn:E0; [|apply nth_error_None in E0; lia].
    destruct (HB 0 l0 E0) as (B & HB0 & K1 & _). rewrite Er in HB0. cbn in HB0. injection HB0 as ->. auto. }
  split; [congruence|]. split; [rewrite F2, <- cols_modes, map_length; auto|].
  intros c i b Hc. rewrite <- cols_modes in Hc.
  destruct (nth_error (lcols kbs) c) as [[[k B] b']|] eqn:El.
  - rewrite (map_nth_error colmap _ _ El) in Hc. unfold colmap in Hc. cbn [fst snd] in Hc. injection Hc as <- <-.
    assert (Hin : In ((k, B), b') (lcols kbs)) by (eapply nth_error_In; eauto). unfold lcols in Hin. apply in_flat_map in Hin. destruct Hin as ([k' B'] & Hin & Hb).
    apply in_map_iff in Hb. destruct Hb as (b'' & [= -> -> ->] & Hb). apply in_seq in Hb. cbn [snd] in Hb. apply in_combine_seq in Hin.
    assert (Hk' : k < nl) by (rewrite <- HL; apply nth_error_Some; congruence). destruct (nth_error leads k) as [l|] eqn:Ell; [|apply nth_error_None in Ell; lia].
    exists k, l, B. repeat split; auto; [lia|]. intros x. apply (F3 _ _ _ El).
  - exfalso. apply nth_error_None in El. assert (c < length (map colmap (lcols kbs))) by (apply nth_error_Some; congruence). rewrite map_length in *. lia.
Qed.
End Inn.

Lemma kept_modes out inn ls info kept : increasing out = true -> (forall z, In z out -> valid_lead nl z) -> no_empty_lead y ->
  make_linear_sys herm_ok y inn en check false = inl (ls, info) ->
  kept_vars (x_indices ls) out = inl kept -> kept = map (fun oa => base (Z.to_nat (fst oa)) + snd oa) (modes_of counts out).
Proof.
  intros Ho Hv HN HM H. destruct (mls_inv GS HM) as (h0 & z & Hi & E1 & E2 & E3 & E4 & E5 & _ & _).
  unfold kept_vars in H. apply sbind_inl in H. destruct H as (l & Hl & H).
  assert (Hk : kept = concat l) by (destruct l; [discriminate|congruence]). clear H. subst kept. apply choose_concat in Hl. rewrite Hl.
  rewrite E3, (i_idx Hi HN), firstn_all. rewrite (modes_of_all counts Ho Hv), map_flat_map'.
  set (idx := map _ _). assert (Hlen : length idx = nl). { unfold idx. rewrite map_length, combine_length, seq_length. lia. }
  rewrite <- Hlen at 1. apply flat_map_combine. intros k x Hx. cbn [fst snd].
  assert (Hk : k < nl) by (rewrite <- Hlen; apply nth_error_Some; congruence). destruct (nth_error leads k) as [ld|] eqn:El; [|apply nth_error_None in El; lia].
  unfold idx in Hx. rewrite (map_nth_error (fun kl : nat * lead R => idx_of y (fst kl) (snd kl)) k (combine (seq 0 nl) leads) (d := (k, ld))) in Hx.
  2: { apply combine_nth_in; auto; [apply seq_length|apply seq_nth_error; auto]. }
  injection Hx as <-. cbn [fst snd]. rewrite (counts_nth _ El). unfold idx_of, lead_nmodes.
  destruct (zmem (Z.of_nat k) out); auto. destruct (l_modes ld) as [m|]; auto. rewrite map_map. cbn [fst snd]. rewrite Nat2Z.id. apply seq_map_add.
Qed.

(** ** smatrix *)
Lemma check_lists_inl inn out u : check_lists inn out = inl u -> increasing inn = true /\ increasing out = true.
Proof. unfold check_lists. destruct (increasing inn) eqn:E1; [|discriminate]. destruct (increasing out); [auto|discriminate]. Qed.
Lemma pynth_range {A} (l : list A) z x : pynth l z = Some x -> (0 <= z)%Z -> valid_lead (length l) z.
Proof.
  unfold pynth. intros H Hz. destruct ((0 <=? z)%Z && (z <? Z.of_nat (length l))%Z) eqn:E.
  - apply andb_true_iff in E. destruct E as [E1 E2]. apply Z.leb_le in E1. apply Z.ltb_lt in E2. split; auto.
  - destruct ((- Z.of_nat (length l) <=? z)%Z && (z <? 0)%Z) eqn:E'; [|discriminate]. apply andb_true_iff in E'. destruct E' as [_ E']. apply Z.ltb_lt in E'. lia.
Qed.
Lemma info_counts inn ls info : make_linear_sys herm_ok y inn en check false = inl (ls, info) -> mode_sizes info = counts.
Proof.
  intros HM. destruct (mls_inv GS HM) as (h0 & z & Hi & _ & _ & _ & E4 & _ & _ & _). rewrite E4, (i_inf Hi), firstn_all. unfold mode_sizes, mode_counts. rewrite map_map.
  apply map_ext_in. intros l Hl. unfold linf, lead_nmodes. destruct (l_modes l) as [m|] eqn:Em; auto. destruct GS as (_ & _ & _ & G). destruct (G l m Hl Em) as (_ & _ & _ & _ & G5 & _). exact G5.
Qed.
Theorem smatrix_scattering out inn q : no_empty_lead y ->
  let o := lead_list nl out in let i := lead_list nl inn in nonneg_leads o -> nonneg_leads i ->
  smatrix herm_ok solve y en out inn check = inl q ->
  good_leads nl o /\ good_leads nl i /\
  (exists info, mode_sizes info = counts /\ length info = nl /\ smatrix_init (q_data q) info o i check = inl q) /\
  mr (q_data q) = length (modes_of counts o) /\ mc (q_data q) = length (modes_of counts i) /\
  (modes_of counts o <> [] -> forall c l b, nth_error (modes_of counts i) c = Some (l, b) ->
     exists psi amp, scattering y en (unit_mode (Z.to_nat l) b) psi amp /\
       forall r l' a, nth_error (modes_of counts o) r = Some (l', a) -> mget (q_data q) r c = amp (Z.to_nat l') a).
Proof.
  intros HN o i Ho Hi H. unfold smatrix in H. fold o i in H.
  apply sbind_inl in H. destruct H as ([] & Hc & H). apply check_lists_inl in Hc. destruct Hc as [Ii Io].
  apply sbind_inl in H. destruct H as (us & Hs & H). apply smap_inl in Hs.
  assert (Hpy : forall z, In z (i ++ o) -> (0 <= z)%Z -> valid_lead nl z).
  { intros z Hz Hz0. apply In_nth_error in Hz. destruct Hz as (k & Hk). destruct (@F2_nth_error _ _ _ _ _ _ _ Hs Hk) as (u & _ & Hu).
    destruct (pynth leads z) as [l|] eqn:E; [|discriminate]. eapply pynth_range; eauto. }
  assert (Vi : forall z, In z i -> valid_lead nl z) by (intros z Hz; apply Hpy; [apply in_or_app; auto|apply Hi; auto]).
  assert (Vo : forall z, In z o -> valid_lead nl z) by (intros z Hz; apply Hpy; [apply in_or_app; auto|apply Ho; auto]).
  apply sbind_inl in H. destruct H as ([ls info] & HM & H). cbn [fst snd] in H.
  apply sbind_inl in H. destruct H as (data & Hdat & H).
  assert (HL : length info = nl). { destruct (mls_inv GS HM) as (h0 & z & Hiv & _ & _ & _ & E4 & _ & _ & _). rewrite E4, (i_inf Hiv), firstn_all, map_length. auto. }
  assert (Hq : q_data q = data).
  { unfold smatrix_init in H. destruct (existsb _ _); [discriminate|]. unfold block_init in H.
    apply sbind_inl in H. destruct H as (x1 & _ & H). apply sbind_inl in H. destruct H as (x2 & _ & H). apply sbind_inl in H. destruct H as (x3 & _ & H). apply sbind_inl in H. destruct H as (x4 & _ & H).
    injection H as <-. reflexivity. }
  split; [split; [apply increasing_NoDup; auto|auto]|]. split; [split; [apply increasing_NoDup; auto|auto]|].
  split; [exists info; rewrite Hq; split; [eapply info_counts; eauto|]; split; auto|]. rewrite Hq. clear H Hq.
  unfold solve_block in Hdat. apply sbind_inl in Hdat. destruct Hdat as (kept & Hk & Hdat).
  pose proof (@kept_modes o i ls info kept Io Vo HN HM Hk) as Ek.
  assert (Lk : length kept = length (modes_of counts o)) by (rewrite Ek, map_length; auto).
  rewrite (@rhs_total i Ii Vi ls info HM) in Hdat.
  destruct ((length (modes_of counts i) =? 0) || (length kept =? 0)) eqn:E0.
  - injection Hdat as <-. cbn [mr mc mget]. split; auto. split; auto. intros Hne c l b Hc. exfalso. apply orb_true_iff in E0. destruct E0 as [E0|E0]; apply Nat.eqb_eq in E0.
    + apply length_zero_iff_nil in E0. rewrite E0 in Hc. destruct c; discriminate.
    + rewrite Lk in E0. apply length_zero_iff_nil in E0. auto.
  - destruct (x_rhs ls) as [|a r] eqn:Er; [discriminate|]. apply sbind_inl in Hdat. destruct Hdat as (M & HMM & Hsol).
    destruct (@stacked i Ii Vi ls info HM a r M Er HMM) as (S1 & S2 & S3).
    destruct (EX Hsol) as (X & X1 & X2 & X3 & X4).
    split; [congruence|]. split; [congruence|]. intros Hne c l b Hc. destruct (S3 c l b Hc) as (k & ld & B & -> & Hld & HB & Hb & HMc).
    assert (Hcl : c < mc M) by (rewrite S2; apply nth_error_Some; congruence).
    destruct (mls_inv GS HM) as (h0 & z & Hiv & E1 & _).
    exists (fun x => X x c), (fun num a0 => X (base num + a0) c). rewrite Nat2Z.id. split.
    + apply (@solution_scattering R herm_ok y GS en check i ls info HM k ld B b (fun x => X x c)); auto.
      intros x Hx. unfold rv. rewrite (X1 x c); [apply HMc| |auto]. rewrite E1, (i_r Hiv). auto.
    + intros r' l' a' Hr'. assert (Hrl : r' < length kept) by (rewrite Lk; apply nth_error_Some; congruence).
      rewrite X4 by auto. f_equal. rewrite Ek. apply nth_error_nth. rewrite (map_nth_error _ _ _ Hr'). reflexivity.
Qed.

(** ** wave_function *)
Theorem wave_scattering l w : wave_function herm_ok solve y en check l = inl w ->
  exists ld m, valid_lead nl l /\ nth_error leads (Z.to_nat l) = Some ld /\ l_modes ld = Some m /\ mr w = m_nprop m /\ mc w = n /\
  forall b, b < m_nprop m -> exists psi amp, scattering y en (unit_mode (Z.to_nat l) b) psi amp /\ forall x, x < n -> mget w b x = psi x.
Proof.
  unfold wave_function. intros H. apply sbind_inl in H. destruct H as ([ls info] & HM & H). cbn [fst] in H.
  destruct (zmem l (mode_leads y)) eqn:Ez; [|discriminate]. cbn [negb] in H. pose proof (proj1 (zmem_iff _ _) Ez) as Hl.
  unfold mode_leads in Hl. apply in_map_iff in Hl. destruct Hl as ([k ld] & <- & Hk). apply filter_In in Hk. destruct Hk as [Hk Hs]. cbn [fst snd] in *.
  apply in_combine_seq in Hk. rewrite Nat2Z.id. exists ld. unfold is_selfenergy_lead in Hs. destruct (l_modes ld) as [m|] eqn:Em; [|discriminate]. exists m.
  assert (Hkn : k < nl) by (apply nth_error_Some; congruence).
  split; [unfold valid_lead; lia|]. split; auto. split; auto.
  destruct (rhs_ok GS HM) as [HL HB]. destruct (HB k ld Hk) as (B & HBk & K1 & K2 & _).
  rewrite (@pynth_valid _ (x_rhs ls) (Z.of_nat k) B) in H by (unfold valid_lead; lia). rewrite Nat2Z.id in H.
  rewrite (nth_error_nth _ _ _ HBk) in H. cbn [stry sbind] in H.
  apply sbind_inl in H. destruct H as (D & HD & [= <-]). destruct (EX HD) as (X & X1 & X2 & X3 & X4).
  rewrite Ez in K2. unfold nprop in K2. rewrite Em in K2.
  destruct (mls_inv GS HM) as (h0 & z & Hiv & E1 & E2 & _). rewrite E2, seq_length in *. cbn [mtrans mr mc mget].
  split; [congruence|]. split; auto. intros b Hb. exists (fun x => X x b), (fun num a0 => X (base num + a0) b). split.
  - apply (@solution_scattering R herm_ok y GS en check (mode_leads y) ls info HM k ld B b (fun x => X x b)); auto; [lia|].
    intros x Hx. unfold rv. apply X1; [|lia]. rewrite E1, (i_r Hiv). auto.
  - intros x Hx. rewrite X4 by lia. rewrite seq_nth by auto. reflexivity.
Qed.

(** ** ldos *)
Variable nrhs : nat.
Hypothesis Hnrhs : 1 <= nrhs.
Lemma ldos_loop_spec lhs M norb : forall fuel j acc d, mc M - j <= fuel -> ldos_loop R solve nrhs fuel j lhs M norb acc = inl d ->
  exists psi : nat -> nat -> R, (forall c, j <= c < mc M -> forall r, r < mr lhs -> rv lhs (psi c) r = mget M r c) /\
    forall x, x < norb -> d x = acc x +! sum R (mc M - j) (fun c => conj (psi (j + c) x) *! psi (j + c) x).
Proof.
  induction fuel as [|fuel IH]; intros j acc d Hf H; cbn [ldos_loop] in H.
  - injection H as <-. exists (fun _ _ => O0). split; [intros; lia|]. intros x Hx. replace (mc M - j) with 0 by lia. change (sum R 0 ?f) with O0. ring.
  - destruct (j <? mc M) eqn:Ej.
    + apply Nat.ltb_lt in Ej. apply sbind_inl in H. destruct H as (D & HD & H). destruct (EX HD) as (X & X1 & X2 & X3 & X4).
      cbn [cols_between mr mc mget] in *. set (je := Nat.min (j + nrhs) (mc M)) in *.
      destruct (IH (j + nrhs) _ d ltac:(lia) H) as (psi & P1 & P2).
      exists (fun c => if c <? je then fun x => X x (c - j) else psi c). split.
      * intros c Hc r Hr. destruct (c <? je) eqn:Ec.
        -- apply Nat.ltb_lt in Ec. unfold rv. rewrite (X1 r (c - j)) by lia. f_equal. lia.
        -- apply Nat.ltb_ge in Ec. apply P1; auto. unfold je in Ec. lia.
      * intros x Hx. rewrite (P2 x Hx), X3. rewrite seq_length in X4.
        replace (mc M - j) with ((je - j) + (mc M - je)) by (unfold je; lia). rewrite sum_split.
        assert (A1 : sum R (je - j) (fun k => conj (mget D x k) *! mget D x k) = sum R (je - j) (fun c => conj ((if j + c <? je then fun x0 => X x0 (j + c - j) else psi (j + c)) x) *! (if j + c <? je then fun x0 => X x0 (j + c - j) else psi (j + c)) x)).
        { apply sum_ext. intros c Hc. replace (j + c <? je) with true by (symmetry; apply Nat.ltb_lt; lia). replace (j + c - j) with c by lia.
          rewrite X4 by auto. rewrite seq_nth by auto. reflexivity. }
        rewrite A1.
        assert (A2 : sum R (mc M - (j + nrhs)) (fun c => conj (psi (j + nrhs + c) x) *! psi (j + nrhs + c) x) =
          sum R (mc M - je) (fun i => conj ((if j + (je - j + i) <? je then fun x0 => X x0 (j + (je - j + i) - j) else psi (j + (je - j + i))) x) *! (if j + (je - j + i) <? je then fun x0 => X x0 (j + (je - j + i) - j) else psi (j + (je - j + i))) x)).
        { replace (mc M - (j + nrhs)) with (mc M - je) by (unfold je; lia). apply sum_ext. intros c Hc. replace (j + (je - j + c) <? je) with false by (symmetry; apply Nat.ltb_ge; unfold je; lia).
          replace (j + nrhs + c) with (j + (je - j + c)) by (unfold je in *; lia). reflexivity. }
        rewrite A2. ring.
    + apply Nat.ltb_ge in Ej. injection H as <-. exists (fun _ _ => O0). split; [intros; lia|]. intros x Hx. replace (mc M - j) with 0 by lia. change (sum R 0 ?f) with O0. ring.
Qed.

Variable half : R.
Theorem ldos_spec norb d : ldos herm_ok solve half nrhs y en check = inl (norb, d) ->
  norb = n /\ exists psi : nat -> nat -> R,
    (forall c l b, nth_error (modes_of counts (all_leads nl)) c = Some (l, b) -> exists amp, scattering y en (unit_mode (Z.to_nat l) b) (psi c) amp) /\
    forall x, x < n -> d x = half *! sum R (length (modes_of counts (all_leads nl))) (fun c => conj (psi c x) *! psi c x).
Proof.
  unfold ldos. intros H. destruct (negb check) eqn:Ec; [discriminate|]. destruct (existsb _ leads); [discriminate|].
  apply sbind_inl in H. destruct H as ([ls info] & HM & H). cbn [fst] in H.
  assert (Hva : forall z, In z (all_leads nl) -> valid_lead nl z).
  { intros z Hz. unfold all_leads in Hz. apply in_map_iff in Hz. destruct Hz as (k & <- & Hk). apply in_seq in Hk. unfold valid_lead. lia. }
  rewrite (@rhs_total (all_leads nl) (increasing_all nl) Hva ls info HM) in H.
  destruct (mls_inv GS HM) as (h0 & z & Hiv & E1 & E2 & _).
  destruct (Nat.eqb_spec (length (modes_of counts (all_leads nl))) 0) as [E0|E0].
  - injection H as <- <-. split; auto. exists (fun _ _ => O0). split.
    + intros c l b Hc. apply length_zero_iff_nil in E0. rewrite E0 in Hc. destruct c; discriminate.
    + intros x Hx. rewrite E0. change (sum R 0 ?f) with O0. ring.
  - destruct (x_rhs ls) as [|a r] eqn:Er; [discriminate|]. apply sbind_inl in H. destruct H as (M & HMM & H).
    apply sbind_inl in H. destruct H as (dd & Hd & [= <- <-]). split; auto.
    destruct (@stacked (all_leads nl) (increasing_all nl) Hva ls info HM a r M Er HMM) as (S1 & S2 & S3).
    destruct (@ldos_loop_spec (x_lhs ls) M (x_norb ls) (mc M) 0 _ _ ltac:(lia) Hd) as (psi & P1 & P2). rewrite Nat.sub_0_r in P2.
    exists psi. split.
    + intros c l b Hc. destruct (S3 c l b Hc) as (k & ld & B & -> & Hld & HB & Hb & HMc). rewrite Nat2Z.id.
      assert (Hcl : c < mc M) by (rewrite S2; apply nth_error_Some; congruence).
      exists (fun num a0 => psi c (base num + a0)). apply (@solution_scattering R herm_ok y GS en check (all_leads nl) ls info HM k ld B b (psi c)); auto.
      intros x Hx. rewrite P1; [apply HMc|lia|]. rewrite E1, (i_r Hiv). auto.
    + intros x Hx. rewrite P2 by lia. rewrite S2. cbn [Nat.add]. ring.
Qed.
End Main.
