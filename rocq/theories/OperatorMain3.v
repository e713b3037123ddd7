(** * Operators: act, tocoo (C26), success of calls, continuity (C27). *)
From Coq Require Import List Bool Arith ZArith Ring Lia.
From Verif Require Import StarRing OrbitalsModel OrbitalsProofs SubmatrixModel OperatorModel OperatorSpec OperatorProofs OperatorMain OperatorMain2.
Import ListNotations.
Set Implicit Arguments.

Section Act.
Variable R : StarRing.
Add Ring Rring4 : (r_theory R).
Variables P E Fam : Type.
Variable fdec : forall a b : Fam, {a = b} + {a <> b}.
Variable junk : nat -> R.
Variable hermok : mat R -> mat R -> bool.
Variable norbs : Fam -> nat.
Variable fams : list Fam.
Notation norb := (norb norbs fams).
Notation start := (start norbs fams).
Notation syst := (osyst R P E Fam).
Notation onsite_in := (onsite_in R P E Fam).
Notation onsite_matrix := (@onsite_matrix R P E Fam fdec fams).
Notation sum := (sum R).
Local Open Scope star_scope.
Notation "0" := (r0 R) : star_scope.
Notation conj := (rconj R).

Lemma loop_acts tot n (ket : buf R) (el : nat -> buf R -> R) (ac : nat -> buf R -> buf R) :
  (forall w, (w < n)%nat -> acts tot ket (el w) (ac w)) ->
  acts tot ket (fun bra => sum n (fun w => el w bra)) (loop n (fun w out => ac w out)).
Proof.
  induction n as [|n IH]; intros H.
  - exists (fun _ => 0). split.
    + intros out al. rewrite loop_0. ring.
    + intros bra. unfold StarRing.sum at 1. cbn [seq]. rewrite lsum_nil. symmetry. apply sum_zero. intros; ring.
  - destruct IH as (G & G1 & G2); [intros; apply H; lia|]. destruct (H n ltac:(lia)) as (g & g1 & g2).
    exists (fun al => G al + g al). split.
    + intros out al. rewrite loop_S, g1, G1. ring.
    + intros bra. rewrite sum_S, G2, g2, <- sum_add. apply sum_ext. intros; ring.
Qed.

Lemma call_total (q : op R P E Fam) bra ket p res ops : call junk hermok q bra (Some ket) p = inl res -> operate junk hermok q p = inl ops ->
  total res = sum (length (p_where q)) (fun w => fst ops w (vget bra) (vget ket)).
Proof.
  intros H Hops. destruct (@call_inl _ _ _ _ _ _ _ _ _ _ _ H) as (_ & _ & _ & ops' & Hops' & Hres).
  assert (ops' = ops) by congruence. subst ops'.
  set (els := map (fun w => fst ops w (vget bra) (vget ket)) (seq O (length (p_where q)))).
  assert (HL : length els = length (p_where q)) by (unfold els; rewrite map_length, seq_length; auto).
  assert (Hr : is_result (p_sum q) els res).
  { apply Hres; auto. intros w x Hw. unfold els in Hw. assert (Hlt : (w < length (p_where q))%nat) by (rewrite <- HL; apply nth_error_Some; unfold els; congruence).
    erewrite map_nth_error in Hw by (rewrite (nth_error_nth' _ O) by (rewrite seq_length; auto); rewrite seq_nth by auto; reflexivity).
    cbn in Hw. congruence. }
  assert (Hs : lsum R (fun x => x) els = sum (length (p_where q)) (fun w => fst ops w (vget bra) (vget ket))).
  { unfold els. rewrite lsum_map. reflexivity. }
  destruct res as [v|x]; cbn [total is_result] in *.
  - destruct Hr as (_ & Hv & Hx). rewrite Hv, HL. apply sum_ext. intros w Hw.
    rewrite (Hx w (fst ops w (vget bra) (vget ket))); auto. unfold els. erewrite map_nth_error; [reflexivity|].
    rewrite (nth_error_nth' _ O) by (rewrite seq_length; auto). rewrite seq_nth by auto. reflexivity.
  - destruct Hr as (_ & ->). exact Hs.
Qed.

Lemma act_inl (q : op R P E Fam) ket p v : act junk hermok q ket p = inl v ->
  already_bound q p = false /\ vlen ket = get_tot_norbs (p_ranges q) (nsites (p_syst q)) /\
  vlen v = get_tot_norbs (p_ranges q) (nsites (p_syst q)) /\
  exists ops, operate junk hermok q p = inl ops /\
    vget v = loop (length (p_where q)) (fun w out => snd ops w (vget ket) out) (fun _ => 0).
Proof.
  unfold act. intros H. destruct (already_bound q p); [discriminate|]. split; auto.
  destruct (Nat.eqb_spec (vlen ket) (get_tot_norbs (p_ranges q) (nsites (p_syst q)))) as [Hk|]; [|discriminate]. split; auto.
  cbn [negb] in H. apply obind_inl in H. destruct H as (ops & Hops & [= <-]). cbn. split; auto. exists ops. auto.
Qed.

Section Sys.
Variable s : syst.
Hypothesis W : wf fdec norbs fams s.
Variable ranges : list (nat * nat * nat).
Hypothesis Hr : o_ranges s = Some ranges.

Lemma operate_acts k wh check sm u p ops : (forall a b, In (a, b) wh -> a < nsites s /\ b < nsites s)%nat ->
  operate junk hermok (mkOp k s u wh check sm ranges None None) p = inl ops ->
  forall ket w, (w < length wh)%nat -> acts (start (nsites s)) ket (fun bra => fst ops w bra ket) (snd ops w ket).
Proof.
  intros Hwh Hop ket w Hw.
  pose proof (nsites_le W) as Hns. pose proof (wf_n W) as Hn.
  destruct (nth_error wh w) as [[a b]|] eqn:Ew; [|apply nth_error_None in Ew; lia].
  assert (Hin : In (a, b) wh) by (eapply nth_error_In; eauto). destruct (Hwh a b Hin) as [Ha Hb].
  pose proof (start_range norbs fams Ha) as Ra. pose proof (start_range norbs fams Hb) as Rb.
  assert (Hwh' : forall a b, In (a, b) wh -> (a < o_n s /\ b < o_n s)%nat) by (intros x y Hxy; destruct (Hwh x y Hxy); lia).
  unfold operate in Hop. apply obind_inl in Hop. destruct Hop as (M & HM & Hop). cbn [p_kind] in Hop.
  assert (HH : forall H, ham_blocks junk hermok (mkOp k s u wh check sm ranges None None) p = inl H ->
     pair_at (b_offs H) w = (start a, start b) /\ pair_at (b_shapes H) w = (norb a, norb b)).
  { intros H EH. destruct (@ham_spec R P E Fam fdec junk hermok norbs fams s W ranges Hr k u wh check sm p H Hwh' EH) as (H1 & H2 & H3). rewrite H1, H2. unfold pair_at.
    rewrite (nth_error_nth _ _ _ (map_nth_error (fun h => (start (fst h), start (snd h))) w wh Ew)).
    rewrite (nth_error_nth _ _ _ (map_nth_error (fun h => (norb (fst h), norb (snd h))) w wh Ew)). auto. }
  destruct k.
  - injection Hop as <-. cbn [fst snd p_where p_ranges]. unfold pair_at. rewrite (nth_error_nth _ _ _ Ew). cbn [fst].
    rewrite (orbs_spec fdec norbs _ (Hsr W Hr)) by lia. apply density_acts. auto.
  - apply obind_inl in Hop. destruct Hop as (H & EH & [= <-]). destruct (HH H EH) as (H1 & H2).
    cbn [fst snd]. rewrite H1, H2. cbn [fst snd]. apply current_acts; auto.
  - apply obind_inl in Hop. destruct Hop as (H & EH & [= <-]). destruct (HH H EH) as (H1 & H2).
    cbn [fst snd]. rewrite H1, H2. cbn [fst snd]. apply source_acts; auto.
Qed.

Lemma main_call_act k u wh check sm p bra ket res v : (forall a b, In (a, b) wh -> a < nsites s /\ b < nsites s)%nat ->
  call junk hermok (mkOp k s u wh check sm ranges None None) bra (Some ket) p = inl res ->
  act junk hermok (mkOp k s u wh check sm ranges None None) ket p = inl v ->
  vlen v = start (nsites s) /\ total res = sum (start (nsites s)) (fun al => conj (vget bra al) * vget v al).
Proof.
  intros Hwh Hc Ha. destruct (@act_inl _ _ _ _ Ha) as (_ & _ & Hv & ops & Hops & Hg).
  cbn [p_ranges p_syst p_where] in *. rewrite (tot_spec W Hr (nsites_le W)) in Hv. split; auto.
  rewrite (@call_total _ _ _ _ _ _ Hc Hops). cbn [p_where].
  destruct (@loop_acts (start (nsites s)) (length wh) (vget ket) (fun w bra => fst ops w bra (vget ket)) (fun w => snd ops w (vget ket))
     (@operate_acts k wh check sm u p ops Hwh Hops (vget ket))) as (G & G1 & G2).
  rewrite (G2 (vget bra)). apply sum_ext. intros al _. f_equal. rewrite Hg.
  rewrite (G1 (fun _ => 0) al). ring.
Qed.
End Sys.

(** binding, for act *)
Lemma bind_act (q : op R P E Fam) ket p : p_bons q = None -> p_bham q = None ->
  vlen ket = get_tot_norbs (p_ranges q) (nsites (p_syst q)) ->
  act junk hermok q ket p = obind (bind junk hermok q p) (fun q' => act junk hermok q' ket None).
Proof.
  intros H1 H2 Hk. unfold act at 1. unfold already_bound. rewrite H1, H2, Hk.
  replace (negb (get_tot_norbs (p_ranges q) (nsites (p_syst q)) =? get_tot_norbs (p_ranges q) (nsites (p_syst q)))%nat) with false by (rewrite Nat.eqb_refl; reflexivity).
  unfold bind, operate, onsite_ptr, ham_blocks. rewrite H1, H2.
  destruct q as [k s u wh ch sm rg bo bh]; cbn [p_kind p_syst p_onsite p_where p_check p_sum p_ranges p_bons p_bham] in *. subst bo bh.
  destruct u as [f|m]; [match goal with |- context [eval_onsites ?a ?b ?c ?d ?e] => destruct (eval_onsites a b c d e) as [bs|e0] end|]; cbn [obind]; try reflexivity;
  destruct k; cbn [obind]; try match goal with |- context [eval_hamiltonian ?a ?b ?c ?d] => destruct (eval_hamiltonian a b c d) as [hs|e1] end; cbn [obind]; try reflexivity;
  unfold act, already_bound, operate, onsite_ptr, ham_blocks; cbn [p_kind p_syst p_onsite p_where p_check p_sum p_ranges p_bons p_bham obind];
  rewrite Hk, Nat.eqb_refl; reflexivity.
Qed.
Lemma bind_tocoo (q : op R P E Fam) p : p_kind q = Density -> p_bons q = None ->
  tocoo junk hermok q p = obind (bind junk hermok q p) (fun q' => tocoo junk hermok q' None).
Proof.
  intros H1 H2. unfold tocoo at 1. unfold bind. rewrite H1, H2.
  destruct q as [k s u wh ch sm rg bo bh]; cbn [p_kind p_syst p_onsite p_where p_check p_sum p_ranges p_bons p_bham] in *. subst bo k.
  destruct u as [f|m]; [match goal with |- context [eval_onsites ?a ?b ?c ?d ?e] => destruct (eval_onsites a b c d e) as [bs|e0] end|]; reflexivity.
Qed.

(** ** tocoo *)
Lemma sum_divmod r c (F : nat -> nat -> R) : sum (r * c) (fun n => F (n / c)%nat (n mod c)%nat) = sum r (fun i => sum c (fun j => F i j)).
Proof.
  induction r as [|r IH]; [reflexivity|].
  replace (S r * c)%nat with (r * c + c)%nat by lia. rewrite sum_split, sum_S, IH. f_equal.
  apply sum_ext. intros j Hj. f_equal.
  - rewrite Nat.div_add_l by lia. rewrite Nat.div_small by lia. lia.
  - rewrite Nat.add_comm, Nat.mod_add by lia. apply Nat.mod_small. lia.
Qed.
Lemma coo_get_lsum (m : coo_matrix R) i j : coo_get 0 (radd R) m i j =
  lsum R (fun e => if ((fst (fst e) =? i) && (snd (fst e) =? j))%nat then snd e else 0) (centries m).
Proof.
  unfold coo_get. set (z := 0).
  assert (H : forall t, fold_left (fun s e => if ((fst (fst e) =? i) && (snd (fst e) =? j))%nat then s + snd e else s) (centries m) t =
    t + lsum R (fun e => if ((fst (fst e) =? i) && (snd (fst e) =? j))%nat then snd e else 0) (centries m)).
  { induction (centries m) as [|e l IH]; intros t; cbn [fold_left]; [rewrite lsum_nil; ring|]. rewrite IH, lsum_cons.
    destruct (_ && _); ring. }
  rewrite H. unfold z. ring.
Qed.
(** a matrix in coordinate format times a vector *)
Lemma coo_mul (m : coo_matrix R) (ket : nat -> R) tot i : (forall e, In e (centries m) -> snd (fst e) < tot)%nat ->
  sum tot (fun j => coo_get 0 (radd R) m i j * ket j) =
  lsum R (fun e => if (fst (fst e) =? i)%nat then snd e * ket (snd (fst e)) else 0) (centries m).
Proof.
  intros Hb. erewrite sum_ext. 2:{ intros j _. rewrite coo_get_lsum. rewrite <- lsum_mul_r. reflexivity. }
  cbn beta. rewrite sum_lswap. apply lsum_ext. intros e He.
  destruct (fst (fst e) =? i)%nat; cbn [andb].
  - erewrite sum_ext. 2:{ intros j _. instantiate (1 := fun j => if (j =? snd (fst e))%nat then snd e * ket j else 0). cbn beta.
      rewrite (Nat.eqb_sym j). destruct (snd (fst e) =? j)%nat; ring. }
    apply (sum_delta R (fun j => snd e * ket j)). apply Hb. auto.
  - apply sum_zero. intros; ring.
Qed.

(** entries of all blocks *)
Definition block_entries (data : nat -> R) (d : nat) (os : (nat * nat) * (nat * nat)) : list (nat * nat * R) :=
  let '((ro, co), (r, c)) := os in map (fun n => ((ro + n / c)%nat, (co + n mod c)%nat, data (d + n)%nat)) (seq O (r * c)).
Fixpoint all_entries (data : nat -> R) (d : nat) (l : list ((nat * nat) * (nat * nat))) : list (nat * nat * R) :=
  match l with [] => [] | os :: l => block_entries data d os ++ all_entries data (d + fst (snd os) * snd (snd os)) l end.
Lemma combine_app (A B : Type) (l1 l2 : list A) (l1' l2' : list B) : length l1 = length l1' ->
  combine (l1 ++ l2) (l1' ++ l2') = combine l1 l1' ++ combine l2 l2'.
Proof. revert l1'. induction l1 as [|x l1 IH]; intros [|y l1'] H; try discriminate; auto. cbn. f_equal. apply IH. auto. Qed.
Lemma entries_eq (data : nat -> R) l : forall d,
  map (fun ek => (fst ek, data (snd ek)))
    (combine (flat_map (fun blk => let '((ro, co), (r, c)) := blk in map (fun n => (ro + n / c, co + n mod c)%nat) (seq O (r * c))) l)
       (seq d (length (flat_map (fun blk => let '((ro, co), (r, c)) := blk in map (fun n => (ro + n / c, co + n mod c)%nat) (seq O (r * c))) l))))
  = all_entries data d l.
Proof.
  induction l as [|[[ro co] [r c]] l IH]; intros d; [reflexivity|].
  cbn [flat_map all_entries fst snd]. rewrite app_length, map_length, seq_length, seq_app.
  rewrite combine_app by (rewrite map_length, !seq_length; auto). rewrite map_app, IH. f_equal.
  unfold block_entries.
  assert (GEN : forall n a d, map (fun ek : (nat * nat) * nat => (fst ek, data (snd ek))) (combine (map (fun n => (ro + n / c, co + n mod c)%nat) (seq a n)) (seq (d + a) n))
     = map (fun n => ((ro + n / c)%nat, (co + n mod c)%nat, data (d + n)%nat)) (seq a n)).
  { induction n as [|n IHn]; intros a d0; auto. cbn [seq map combine fst snd]. f_equal. rewrite <- IHn. rewrite Nat.add_succ_r. reflexivity. }
  specialize (GEN (r * c)%nat O d). rewrite Nat.add_0_r in GEN. exact GEN.
Qed.
Lemma all_entries_sum (F : nat * nat * R -> R) data : forall l d,
  lsum R F (all_entries data d l) =
  sum (length l) (fun w => lsum R F (block_entries data (nth w (data_offs d (map snd l)) O) (nth w l ((O, O), (O, O))))).
Proof.
  induction l as [|[o [r c]] l IH]; intros d; [reflexivity|].
  cbn [all_entries length]. rewrite lsum_app, IH. replace (S (length l)) with (1 + length l)%nat by lia. rewrite sum_split.
  unfold StarRing.sum at 2. cbn [seq]. rewrite lsum_cons, lsum_nil. cbn [map snd data_offs nth].
  match goal with |- ?x + ?y = ?x' + 0 + ?y' => change x' with x; change y' with y end. ring.
Qed.

Section Coo.
Variable s : syst.
Hypothesis W : wf fdec norbs fams s.
Variable ranges : list (nat * nat * nat).
Hypothesis Hr : o_ranges s = Some ranges.

Lemma block_mul data d ro n (ket : nat -> R) al :
  lsum R (fun e => if (fst (fst e) =? al)%nat then snd e * ket (snd (fst e)) else 0) (block_entries data d ((ro, ro), (n, n))) =
  sum n (fun i => if (al =? ro + i)%nat then sum n (fun j => data (d + (i * n + j))%nat * ket (ro + j)%nat) else 0).
Proof.
  unfold block_entries. rewrite lsum_map. cbn [fst snd].
  change (lsum R ?f (seq O ?k)) with (sum k f).
  transitivity (sum n (fun i => sum n (fun j => if (al =? ro + i)%nat then data (d + (i * n + j))%nat * ket (ro + j)%nat else 0))).
  - rewrite <- sum_divmod. apply sum_ext.
    intros k Hk. cbn beta. rewrite (Nat.eqb_sym al). destruct (ro + k / n =? al)%nat; auto. f_equal. f_equal. f_equal.
    rewrite Nat.mul_comm. destruct n; [lia|]. rewrite <- Nat.div_mod_eq. auto.
  - apply sum_ext. intros i _. destruct (al =? ro + i)%nat; auto. apply sum_0.
Qed.

Lemma density_act_spec (M : buf R) a_s n ket out al : density_act M a_s n ket out al =
  out al + sum n (fun i => if (al =? a_s + i)%nat then sum n (fun j => M (i * n + j)%nat * ket (a_s + j)%nat) else 0).
Proof.
  unfold density_act. apply loop_buf. intros i out' _. rewrite upd_add.
  rewrite (@loop_add0 R _ _ (fun j => M (i * n + j)%nat * ket (a_s + j)%nat)) by (intros; reflexivity). reflexivity.
Qed.

Lemma main_tocoo o u l check sm p m ket v : (forall a, In a l -> a < nsites s)%nat ->
  normalize_onsite fdec hermok s ranges o check = inl u -> scalar_fits norbs fams o l ->
  tocoo junk hermok (mkOp Density s u (dup l) check sm ranges None None) p = inl m ->
  act junk hermok (mkOp Density s u (dup l) check sm ranges None None) ket p = inl v ->
  cr m = start (nsites s) /\ cc m = start (nsites s) /\
  forall al, vget v al = sum (start (nsites s)) (fun be => coo_get 0 (radd R) m al be * vget ket be).
Proof.
  intros Hl Hu Hsc Hm Hv.
  pose proof (nsites_le W) as Hns. pose proof (wf_n W) as Hn.
  assert (Hwh : forall a b, In (a, b) (dup l) -> (a < o_n s /\ b < o_n s)%nat).
  { intros a b Hab. apply in_map_iff in Hab. destruct Hab as (x & [= <- <-] & Hx). specialize (Hl x Hx). lia. }
  set (q := mkOp Density s u (dup l) check sm ranges None None) in *.
  unfold tocoo in Hm. change (p_bons q) with (@None (bsm R)) in Hm. apply obind_inl in Hm. destruct Hm as ([[offs shapes] data] & Ht & Hm).
  change (p_ranges q) with ranges in Hm. change (p_syst q) with s in Hm. rewrite (tot_spec W Hr Hns) in Hm.
  destruct (forallb _ _) eqn:Efb in Hm; [|discriminate]. injection Hm as <-. cbn [cr cc]. split; auto. split; auto.
  intros al.
  rewrite coo_mul.
  2:{ cbn [centries]. intros e He. apply in_map_iff in He. destruct He as ([rc k] & <- & He). cbn [fst snd].
      apply in_combine_l in He. rewrite forallb_forall in Efb. specialize (Efb rc He). apply andb_true_iff in Efb.
      destruct Efb as [_ Efb]. apply Nat.ltb_lt in Efb. exact Efb. }
  cbn [centries]. unfold coo_rows. rewrite entries_eq, all_entries_sum.
  destruct (@act_inl _ _ _ _ Hv) as (_ & _ & _ & ops & Hops & ->). change (p_where q) with (dup l).
  unfold operate in Hops. apply obind_inl in Hops. destruct Hops as (M & HM & Hops). change (p_kind q) with Density in Hops. injection Hops as <-.
  cbn [snd]. change (p_where q) with (dup l). change (p_ranges q) with ranges.
  (* the blocks *)
  assert (Hoffs : offs = map (fun a => (start a, start a)) l /\ shapes = map (fun a => (norb a, norb a)) l /\
    forall w a, nth_error l w = Some a -> forall i j, (i < norb a)%nat -> (j < norb a)%nat ->
      data (nth w (data_offs O shapes) O + (i * norb a + j))%nat = M w (i * norb a + j)%nat).
  { change (p_onsite q) with u in Ht. unfold onsite_ptr in HM. change (p_onsite q) with u in HM. change (p_bons q) with (@None (bsm R)) in HM.
    pose proof (@all_orbs_spec R P E Fam fdec norbs fams s W ranges Hr (dup l) Hwh) as Ho.
    unfold dup in Ho at 2 3. rewrite !map_map in Ho. cbn [fst snd] in Ho.
    destruct u as [f|mm].
    - change (p_bons q) with (@None (bsm R)) in Ht. apply obind_inl in Ht. destruct Ht as (b & Hb & [= <- <- <-]).
      rewrite Hb in HM. cbn [obind] in HM. injection HM as <-.
      unfold eval_onsites in Hb. change (p_ranges q) with ranges in Hb. change (p_where q) with (dup l) in Hb. rewrite Ho in Hb.
      pose proof Hb as Hb'. unfold make_bsm in Hb'. apply obind_inl in Hb'. destruct Hb' as (dd & _ & [= <-]). cbn [b_offs b_shapes b_data].
      split; auto. 
    - injection Ht as <- <- <-. injection HM as <-. change (p_ranges q) with ranges. change (p_where q) with (dup l).
      split; [exact (f_equal fst Ho)|].
      assert (Hmm : forall a, In a l -> mr mm = norb a /\ mc mm = norb a).
      { intros a Ha. specialize (Hl a Ha). destruct o as [f|d|m0]; cbn [normalize_onsite] in Hu.
        - discriminate.
        - destruct (o_fams s); [|discriminate]. apply obind_inl in Hu. destruct Hu as (? & _ & Hu). discriminate.
        - apply obind_inl in Hu. destruct Hu as (t & Htt & Hu). destruct (Nat.eqb_spec (mr m0) 1) as [H1|H1].
          + injection Hu as <-. cbn [mr mc scaled_identity].
            assert (Hmax : list_max (map rnorbs ranges) = norb a).
            { apply (max_norbs fdec norbs _ (Hsr W Hr)); [lia|]. apply Hsc; auto. }
            auto.
          + destruct (nodup Nat.eq_dec (map rnorbs (removelast ranges))) as [|x [|? ?]] eqn:End; try discriminate.
            destruct (Nat.eqb_spec (mr m0) (rnorbs (nth 0 ranges (0, 0, 0)%nat))) as [H2|H2]; [|discriminate].
            injection Hu as <-. destruct (@check_onsite_inl _ _ _ _ _ _ _ Htt) as [_ Hmc].
            rewrite (@uniform_norbs Fam fdec norbs fams ranges x a (Hsr W Hr) ltac:(lia) End) in H2. split; congruence. }
      assert (Hsh : map (fun _ : nat * nat => (mr mm, mc mm)) (dup l) = map (fun a => (norb a, norb a)) l).
      { unfold dup. rewrite map_map. apply map_ext_in. intros a Ha. destruct (Hmm a Ha). congruence. }
      rewrite Hsh. split; auto. intros w a Hw i j Hi Hj.
      assert (Ha : In a l) by (eapply nth_error_In; eauto). destruct (Hmm a Ha) as [Hmr Hmc].
      assert (Hwl : (w < length l)%nat) by (apply nth_error_Some; congruence).
      rewrite data_offs_nth by (rewrite map_length; auto).
      assert (Hsum : list_sum (map (fun rc => (fst rc * snd rc)%nat) (firstn w (map (fun a => (norb a, norb a)) l))) = (w * (mr mm * mc mm))%nat).
      { clear - Hmm Hwl. revert w Hwl. induction l as [|b l' IH]; intros w Hwl; [cbn in Hwl; lia|]. destruct w as [|w]; auto.
        cbn [map firstn fst snd]. change (list_sum (?x :: ?y)) with (x + list_sum y)%nat. rewrite IH.
        - destruct (Hmm b (or_introl eq_refl)) as [-> ->]. lia.
        - intros; apply Hmm; right; auto.
        - cbn in Hwl. lia. }
      rewrite Hsum. cbn [Nat.add]. rewrite (Nat.add_comm (w * _)), Nat.mod_add.
      + rewrite Nat.mod_small; auto. rewrite Hmr, Hmc. nia.
      + rewrite Hmr, Hmc. nia. }
  destruct Hoffs as (-> & -> & Hdata).
  assert (Hcomb : combine (map (fun a => (start a, start a)) l) (map (fun a => (norb a, norb a)) l) = map (fun a => ((start a, start a), (norb a, norb a))) l).
  { clear. induction l as [|a l IH]; auto. cbn. f_equal. auto. }
  rewrite Hcomb, !map_map. cbn [snd]. unfold dup. rewrite !map_length.
  rewrite (loop_buf _ (fun w => sum (norb (nth w l O)) (fun i => if (al =? start (nth w l O) + i)%nat then
     sum (norb (nth w l O)) (fun j => M w (i * norb (nth w l O) + j)%nat * vget ket (start (nth w l O) + j)%nat) else 0))).
  - transitivity (sum (length l) (fun w => sum (norb (nth w l O)) (fun i => if (al =? start (nth w l O) + i)%nat then
     sum (norb (nth w l O)) (fun j => M w (i * norb (nth w l O) + j)%nat * vget ket (start (nth w l O) + j)%nat) else 0))); [ring|].
    apply sum_ext. intros w Hw. destruct (nth_error l w) as [a|] eqn:Ew; [|apply nth_error_None in Ew; lia].
    rewrite (nth_error_nth _ _ _ (map_nth_error (fun a => ((start a, start a), (norb a, norb a))) w l Ew)).
    rewrite (nth_error_nth _ _ _ Ew). rewrite block_mul. apply sum_ext. intros i Hi. destruct (al =? start a + i)%nat; auto.
    apply sum_ext. intros j Hj. rewrite Hdata with (a := a); auto.
  - intros w out Hw. destruct (nth_error l w) as [a|] eqn:Ew; [|apply nth_error_None in Ew; lia].
    unfold pair_at. rewrite (nth_error_nth _ _ _ (map_nth_error (fun a => (a, a)) w l Ew)). cbn [fst].
    assert (Ha : In a l) by (eapply nth_error_In; eauto). specialize (Hl a Ha).
    rewrite (orbs_spec fdec norbs _ (Hsr W Hr)) by lia. rewrite (nth_error_nth _ _ _ Ew). apply density_act_spec.
Qed.
End Coo.
End Act.
