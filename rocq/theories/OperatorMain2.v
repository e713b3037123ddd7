(** * Operators: calls (C25). *)
From Coq Require Import List Bool Arith ZArith Ring Lia.
From Verif Require Import StarRing OrbitalsModel OrbitalsProofs SubmatrixModel OperatorModel OperatorSpec OperatorProofs OperatorMain.
Import ListNotations.
Set Implicit Arguments.

Section Calls.
Variable R : StarRing.
Add Ring Rring3 : (r_theory R).
Variables P E Fam : Type.
Variable fdec : forall a b : Fam, {a = b} + {a <> b}.
Variable junk : nat -> R.
Variable hermok : mat R -> mat R -> bool.
Variable norbs : Fam -> nat.
Variable fams : list Fam.
Notation norb := (norb norbs fams).
Notation start := (start norbs fams).
Notation syst := (osyst R P E Fam).
Notation onsite_in := (onsite_in R P E Fam).
Notation onsite_matrix := (@onsite_matrix R P E Fam fdec fams).

Lemma form_ext r c bra A A' (ket : nat -> R) : (forall i j, i < r -> j < c -> A i j = A' i j) -> form r c bra A ket = form r c bra A' ket.
Proof. intros H. unfold form. apply sum_ext. intros i Hi. apply sum_ext. intros j Hj. rewrite H; auto. Qed.
Lemma mmul_ext n A A' B B' i j : (forall k, k < n -> A i k = A' i k) -> (forall k, k < n -> B k j = B' k j) -> @mmul R n A B i j = mmul n A' B' i j.
Proof. intros HA HB. unfold mmul. apply sum_ext. intros k Hk. rewrite HA, HB; auto. Qed.
Lemma density_form_ext n s M M' (bra ket : nat -> R) : (forall i j, i < n -> j < n -> M i j = M' i j) ->
  density_form n s M bra ket = density_form n s M' bra ket.
Proof. apply form_ext. Qed.
Lemma current_form_ext na nb sa sb M M' H H' (bra ket : nat -> R) : (forall i j, i < na -> j < na -> M i j = M' i j) ->
  (forall i j, i < na -> j < nb -> H i j = H' i j) ->
  current_form na nb sa sb M H bra ket = current_form na nb sa sb M' H' bra ket.
Proof.
  intros HM HH. unfold current_form. f_equal. f_equal; apply form_ext; intros i j Hi Hj; apply mmul_ext; intros k Hk; auto; unfold mdag; rewrite HH; auto.
Qed.
Lemma source_form_ext n s M M' H H' (bra ket : nat -> R) : (forall i j, i < n -> j < n -> M i j = M' i j) ->
  (forall i j, i < n -> j < n -> H i j = H' i j) -> source_form n s M H bra ket = source_form n s M' H' bra ket.
Proof.
  intros HM HH. unfold source_form. f_equal. f_equal; apply form_ext; intros i j Hi Hj; apply mmul_ext; intros k Hk; auto; unfold mdag; rewrite HH; auto.
Qed.

Lemma init_inl k (s : syst) (o : onsite_in) wh check sm (q : op R P E Fam) : init fdec hermok k s o wh check sm = inl q ->
  exists ranges u, o_ranges s = Some ranges /\ normalize_onsite fdec hermok s ranges o check = inl u /\
    q = mkOp k s u wh check sm ranges None None.
Proof.
  unfold init. destruct (o_ranges s) as [ranges|]; [|discriminate]. intros H. apply obind_inl in H. destruct H as (u & Hu & H).
  exists ranges, u. split; auto. split; auto. destruct k; try (injection H as <-; auto); destruct wh; try discriminate; injection H as <-; auto.
Qed.

Section Sys.
Variable s : syst.
Hypothesis W : wf fdec norbs fams s.
Variable ranges : list (nat * nat * nat).
Hypothesis Hr : o_ranges s = Some ranges.

Lemma Hsr : site_ranges fdec norbs fams = Some ranges.
Proof. destruct (wf_ranges W) as (r & H1 & H2). congruence. Qed.

Lemma all_orbs_spec wh : (forall a b, In (a, b) wh -> a < o_n s /\ b < o_n s) ->
  get_all_orbs ranges wh = (map (fun h => (start (fst h), start (snd h))) wh, map (fun h => (norb (fst h), norb (snd h))) wh).
Proof.
  intros H. unfold get_all_orbs. f_equal; apply map_ext_in; intros [a b] Hab; destruct (H a b Hab) as [Ha Hb];
    rewrite (wf_n W) in Ha, Hb; cbn [fst snd]; rewrite !(orbs_spec fdec norbs _ Hsr) by lia; reflexivity.
Qed.

Lemma check_onsite_inl (M : mat R) k c u : @check_onsite R E hermok M k c = inl u -> mr M = k /\ mc M = k.
Proof.
  unfold check_onsite. destruct (Nat.eqb_spec (mr M) (mc M)); [|discriminate]. destruct (Nat.eqb_spec (mr M) k); [|discriminate]. cbn. intros _. lia.
Qed.
Lemma check_onsite_herm (M : mat R) k u : @check_onsite R E hermok M k true = inl u -> hermok M M = true.
Proof.
  unfold check_onsite, is_herm_conj. destruct (Nat.eqb_spec (mr M) (mc M)) as [e|]; [|discriminate]. destruct (Nat.eqb_spec (mr M) k); [|discriminate].
  cbn. rewrite e, Nat.eqb_refl. cbn. destruct (hermok M M); [auto|discriminate].
Qed.

(** the pointer M_a *)
Lemma onsite_ptr_spec k o wh check sm u p M :
  (forall a b, In (a, b) wh -> a < o_n s /\ b < o_n s) ->
  normalize_onsite fdec hermok s ranges o check = inl u ->
  scalar_fits norbs fams o (map fst wh) -> function_fits norbs fams o wh ->
  onsite_ptr junk hermok (mkOp k s u wh check sm ranges None None) p = inl M ->
  forall w a b, nth_error wh w = Some (a, b) -> forall i j, i < norb a -> j < norb a ->
    M w (i * norb a + j) = onsite_matrix o p a i j.
Proof.
  intros Hwh Hu Hsc Hfun HM w a b Hw i j Hi Hj.
  assert (Hin : In (a, b) wh) by (eapply nth_error_In; eauto).
  destruct (Hwh a b Hin) as [Ha Hb]. pose proof (wf_n W) as Hn.
  unfold onsite_ptr in HM. cbn [p_onsite p_bons] in HM.
  assert (Hblocks : forall f, u = NFun f -> norb a = norb b ->
    exists m, f a p = inl m /\ mr m = norb a /\ mc m = norb a /\ M w (i * norb a + j) = mget m i j).
  { intros f -> Hab. apply obind_inl in HM. destruct HM as (bs & Hbs & [= <-]). unfold eval_onsites in Hbs. cbn [p_ranges p_where p_check] in Hbs.
    rewrite (all_orbs_spec wh Hwh) in Hbs.
    apply make_bsm_spec in Hbs; [|apply map_length]. destruct Hbs as (_ & _ & Hsp).
    destruct (Hsp w a b (norb a) (norb b) Hw (map_nth_error (fun h => (norb (fst h), norb (snd h))) w wh Hw)) as (m & Hm & Hd).
    apply obind_inl in Hm. destruct Hm as (m' & Hm' & Hm). apply obind_inl in Hm. destruct Hm as (u' & Hc & [= ->]).
    apply check_onsite_inl in Hc. destruct Hc as [H1 H2]. exists m. split; auto. split; auto. split; auto.
    rewrite Hab at 1. rewrite Hd by (auto; congruence). apply rdm_in; congruence. }
  destruct o as [f|d|m]; cbn [normalize_onsite] in Hu.
  - injection Hu as <-. destruct (Hblocks _ eq_refl (Hfun a b Hin)) as (m & Hm & _ & _ & ->). cbn [OperatorSpec.onsite_matrix].
    unfold user in Hm. destruct (f a p); [congruence|discriminate].
  - destruct (o_fams s) as [fs|] eqn:Efs; [|discriminate]. apply obind_inl in Hu. destruct Hu as (t & Ht & [= <-]).
    destruct (Hblocks _ eq_refl (Hfun a b Hin)) as (m & Hm & _ & _ & ->). cbn [OperatorSpec.onsite_matrix].
    destruct (wf_fams W) as [Hf|[Hf _]]; [congruence|]. rewrite Hf in Efs. injection Efs as <-.
    destruct (nth_error fams a) as [f|]; [|discriminate].
    assert (Has : assocf R fdec f d = match find (fun e => if fdec (fst e) f then true else false) d with Some e => Some (snd e) | None => None end).
    { clear. induction d as [|[g x] d IH]; auto. cbn. destruct (fdec f g), (fdec g f); auto; congruence. }
    rewrite Has in Hm. destruct (find _ d) as [e|]; [|discriminate]. congruence.
  - apply obind_inl in Hu. destruct Hu as (t & Ht & Hu). cbn [OperatorSpec.onsite_matrix].
    destruct (Nat.eqb_spec (mr m) 1) as [H1|H1].
    + injection Hu as <-. injection HM as <-.
      assert (Hmax : list_max (map rnorbs ranges) = norb a).
      { apply (max_norbs fdec norbs _ Hsr); [lia|]. apply Hsc; auto. change a with (fst (a, b)). apply in_map. auto. }
      rewrite Hmax. exact (@rdflat_in R junk (scaled_identity (mget m 0 0) (norb a)) i j Hi Hj).
    + destruct (nodup Nat.eq_dec (map rnorbs (removelast ranges))) as [|x [|? ?]] eqn:End; try discriminate.
      destruct (Nat.eqb_spec (mr m) (rnorbs (nth 0 ranges (0, 0, 0)))) as [H2|H2]; [|discriminate].
      injection Hu as <-. injection HM as <-. apply check_onsite_inl in Ht. destruct Ht as [_ Hmc].
      rewrite (@uniform_norbs Fam fdec norbs fams ranges x a Hsr ltac:(lia) End) in H2. rewrite <- H2 in Hi, Hj |- *.
      assert (E0 : i * mr m + j = i * mc m + j) by congruence. rewrite E0. apply rdflat_in; congruence.
Qed.

Lemma ham_spec k u wh check sm p b :
  (forall a b, In (a, b) wh -> a < o_n s /\ b < o_n s) ->
  ham_blocks junk hermok (mkOp k s u wh check sm ranges None None) p = inl b ->
  b_offs b = map (fun h => (start (fst h), start (snd h))) wh /\
  b_shapes b = map (fun h => (norb (fst h), norb (snd h))) wh /\
  forall w x y, nth_error wh w = Some (x, y) -> exists m, o_ham s x y p = inl m /\
    (mr m = norb x \/ mc m = norb y) /\
    forall i j, i < norb x -> j < norb y -> bget b w (i * norb y + j) = rdm junk m i j.
Proof.
  intros Hwh Hb. unfold ham_blocks in Hb. cbn in Hb. unfold eval_hamiltonian in Hb. cbn in Hb.
  change (get_all_orbs _ _) with (get_all_orbs ranges wh) in Hb.
  pose proof (all_orbs_spec wh Hwh) as Ho. unfold get_all_orbs in Ho. injection Ho as Ho1 Ho2. rewrite Ho1, Ho2 in Hb.
  apply make_bsm_spec in Hb; [|apply map_length]. destruct Hb as (H1 & H2 & Hsp). split; auto. split; auto.
  intros w x y Hw. destruct (Hsp w x y _ _ Hw (map_nth_error (fun h => (norb (fst h), norb (snd h))) w wh Hw)) as (m & Hm & Hd).
  apply obind_inl in Hm. destruct Hm as (m' & Hm' & Hm). apply obind_inl in Hm. destruct Hm as (u' & Hc & [= ->]).
  exists m. split; [unfold user in Hm'; destruct (o_ham s x y p); congruence|]. split; auto.
  unfold check_ham in Hc. cbn [fst snd] in Hc. destruct (Nat.eqb_spec (mr m) (norb x)); auto. destruct (Nat.eqb_spec (mc m) (norb y)); auto. discriminate.
Qed.

(** ** Elements *)
Definition el_of (k : kind) (o : onsite_in) (p : option P) (bra ket : nat -> R) (h : nat * nat) : R :=
  let (a, b) := h in
  match k with
  | Density => density_form (norb a) (start a) (onsite_matrix o p a) bra ket
  | Current => current_form (norb a) (norb b) (start a) (start b) (onsite_matrix o p a) (ham_matrix s p a b) bra ket
  | Source => source_form (norb a) (start a) (onsite_matrix o p a) (ham_matrix s p a a) bra ket
  end.

Lemma operate_spec k o wh check sm u p ops :
  (forall a b, In (a, b) wh -> a < o_n s /\ b < o_n s) ->
  (k = Density \/ k = Source -> forall a b, In (a, b) wh -> a = b) ->
  normalize_onsite fdec hermok s ranges o check = inl u ->
  scalar_fits norbs fams o (map fst wh) -> function_fits norbs fams o wh ->
  (k <> Density -> forall a b, In (a, b) wh -> ham_shape norbs fams s p a b) ->
  operate junk hermok (mkOp k s u wh check sm ranges None None) p = inl ops ->
  forall w h bra ket, nth_error wh w = Some h -> fst ops w bra ket = el_of k o p bra ket h.
Proof.
  intros Hwh Hdiag Hu Hsc Hfun Hsh Hop w [a b] bra ket Hw.
  assert (Hin : In (a, b) wh) by (eapply nth_error_In; eauto).
  destruct (Hwh a b Hin) as [Ha Hb]. pose proof (wf_n W) as Hn.
  unfold operate in Hop. apply obind_inl in Hop. destruct Hop as (M & HM & Hop). cbn [p_kind] in Hop.
  pose proof (@onsite_ptr_spec k o wh check sm u p M Hwh Hu Hsc Hfun HM w a b Hw) as HMs.
  assert (HH : k <> Density -> forall H, ham_blocks junk hermok (mkOp k s u wh check sm ranges None None) p = inl H ->
     pair_at (b_offs H) w = (start a, start b) /\ pair_at (b_shapes H) w = (norb a, norb b) /\
     forall i j, i < norb a -> j < norb b -> bget H w (i * norb b + j) = ham_matrix s p a b i j).
  { intros Hk H EH. destruct (@ham_spec k u wh check sm p H Hwh EH) as (H1 & H2 & H3). rewrite H1, H2. unfold pair_at.
    rewrite (nth_error_nth _ _ _ (map_nth_error (fun h => (start (fst h), start (snd h))) w wh Hw)).
    rewrite (nth_error_nth _ _ _ (map_nth_error (fun h => (norb (fst h), norb (snd h))) w wh Hw)).
    split; auto. split; auto. intros i j Hi Hj. destruct (H3 w a b Hw) as (m & Hm & _ & Hd). rewrite Hd by auto.
    unfold ham_matrix. rewrite Hm. destruct (Hsh Hk a b Hin m Hm) as [Hmr Hmc]. apply rdm_in; congruence. }
  destruct k.
  - injection Hop as <-. cbn [fst p_where p_ranges]. unfold pair_at. rewrite (nth_error_nth _ _ _ Hw). cbn [fst].
    rewrite (orbs_spec fdec norbs _ Hsr) by lia. rewrite density_el_spec. apply density_form_ext. auto.
  - apply obind_inl in Hop. destruct Hop as (H & EH & [= <-]). destruct (HH ltac:(discriminate) H EH) as (H1 & H2 & H3).
    cbn [fst]. rewrite H1, H2. cbn [fst snd]. rewrite current_el_spec. apply current_form_ext; auto.
  - apply obind_inl in Hop. destruct Hop as (H & EH & [= <-]). destruct (HH ltac:(discriminate) H EH) as (H1 & H2 & H3).
    assert (a = b) by (eapply Hdiag; eauto). subst b.
    cbn [fst]. rewrite H1, H2. cbn [fst snd]. rewrite source_el_spec. apply source_form_ext; auto.
Qed.

Lemma tot_spec : nsites s <= o_n s -> get_tot_norbs ranges (nsites s) = start (nsites s).
Proof. intros H. unfold get_tot_norbs. rewrite (wf_n W) in H. rewrite (orbs_spec fdec norbs _ Hsr); auto. Qed.
Lemma nsites_le : nsites s <= o_n s.
Proof. unfold nsites. destruct (o_cell s) eqn:Ec; auto. apply (wf_cell W); auto. Qed.
End Sys.

(** ** __call__ *)
Lemma call_inl (q : op R P E Fam) bra ket p res : call junk hermok q bra (Some ket) p = inl res ->
  already_bound q p = false /\ vlen bra = get_tot_norbs (p_ranges q) (nsites (p_syst q)) /\
  vlen ket = get_tot_norbs (p_ranges q) (nsites (p_syst q)) /\
  exists ops, operate junk hermok q p = inl ops /\
    forall els, length els = length (p_where q) ->
      (forall w x, nth_error els w = Some x -> fst ops w (vget bra) (vget ket) = x) -> is_result (p_sum q) els res.
Proof.
  unfold call. intros H. destruct (already_bound q p); [discriminate|]. split; auto.
  destruct (Nat.eqb_spec (vlen bra) (get_tot_norbs (p_ranges q) (nsites (p_syst q)))) as [Hb|]; [|discriminate].
  destruct (Nat.eqb_spec (vlen ket) (get_tot_norbs (p_ranges q) (nsites (p_syst q)))) as [Hk|]; [|discriminate].
  split; auto. split; auto. cbn [negb] in H. apply obind_inl in H. destruct H as (ops & Hops & H). exists ops. split; auto.
  intros els HL Hels. rewrite andb_false_r in H.
  assert (Hget : forall w x, nth_error els w = Some x ->
    loop (length (p_where q)) (fun w0 out => upd out w0 (fst ops w0 (vget bra) (vget ket))) (fun _ => r0 R) w = x).
  { intros w x Hw. rewrite (@loop_set R _ (fun w0 => fst ops w0 (vget bra) (vget ket))).
    assert (w < length els) by (apply nth_error_Some; congruence). rewrite (proj2 (Nat.ltb_lt w (length (p_where q)))) by lia. auto. }
  destruct (p_sum q).
  - injection H as <-. split; auto.
    erewrite loop_add0 by (intros; reflexivity). unfold sum.
    clear -Hget HL.
    set (f := loop (length (p_where q)) (fun w0 out => upd out w0 (fst ops w0 (vget bra) (vget ket))) (fun _ => r0 R)) in *. clearbody f. rewrite <- HL. clear HL.
    revert f Hget. induction els as [|x els IH]; intros f Hget; auto.
    cbn [length seq]. rewrite !lsum_cons. cbv beta. rewrite (Hget 0 x eq_refl). f_equal.
    rewrite <- seq_shift, lsum_map. apply (IH (fun i => f (S i))). intros w y Hw. apply (Hget (S w) y Hw).
  - injection H as <-. cbn. auto.
Qed.

Lemma call_none (q : op R P E Fam) bra p : call junk hermok q bra None p =
  match call junk hermok q bra (Some bra) p with
  | inl r => inl (if p_check q then real_result r else r) | inr e => inr e end.
Proof.
  unfold call. destruct (already_bound q p); auto. destruct (negb (vlen bra =? _)); auto.
  destruct (operate junk hermok q p) as [ops|e]; auto. cbn [obind]. rewrite andb_false_r, andb_true_r.
  destruct (p_check q), (p_sum q); auto. cbn [real_result]. f_equal. f_equal.
  erewrite loop_add0 by (intros; reflexivity). symmetry.
  erewrite loop_add0 by (intros; reflexivity). unfold sum. apply lsum_re.
Qed.

Lemma real_result_id sm els (r : result R) : is_result sm els r -> (forall x, In x els -> rconj R x = x) ->
  is_result sm els (real_result r).
Proof.
  intros H Hx. destruct r as [v|x]; cbn in *.
  - destruct H as (H1 & H2 & H3). split; auto. split; auto. intros k x Hk. rewrite (H3 k x Hk). apply rre_self. apply Hx. eapply nth_error_In; eauto.
  - destruct H as (H1 & ->). split; auto. apply rre_self. rewrite lsum_conj. apply lsum_ext. auto.
Qed.

(** binding *)
Lemma bind_call (q : op R P E Fam) bra ket p : p_bons q = None -> p_bham q = None ->
  vlen bra = get_tot_norbs (p_ranges q) (nsites (p_syst q)) ->
  vlen (match ket with Some k => k | None => bra end) = get_tot_norbs (p_ranges q) (nsites (p_syst q)) ->
  call junk hermok q bra ket p = obind (bind junk hermok q p) (fun q' => call junk hermok q' bra ket None).
Proof.
  intros H1 H2 Hb Hk. unfold call at 1. unfold already_bound. rewrite H1, H2, Hb.
  replace (negb (get_tot_norbs (p_ranges q) (nsites (p_syst q)) =? get_tot_norbs (p_ranges q) (nsites (p_syst q)))) with false by (rewrite Nat.eqb_refl; reflexivity).
  replace (negb (vlen match ket with Some k => k | None => bra end =? get_tot_norbs (p_ranges q) (nsites (p_syst q)))) with false
    by (rewrite Hk, Nat.eqb_refl; reflexivity).
  unfold bind, operate, onsite_ptr, ham_blocks. rewrite H1, H2.
  destruct q as [k s u wh ch sm rg bo bh]; cbn [p_kind p_syst p_onsite p_where p_check p_sum p_ranges p_bons p_bham] in *. subst bo bh.
  destruct u as [f|m]; [match goal with |- context [eval_onsites ?a ?b ?c ?d ?e] => destruct (eval_onsites a b c d e) as [bs|e0] end|]; cbn [obind]; try reflexivity;
  destruct k; cbn [obind]; try match goal with |- context [eval_hamiltonian ?a ?b ?c ?d] => destruct (eval_hamiltonian a b c d) as [hs|e1] end; cbn [obind]; try reflexivity;
  unfold call, already_bound, operate, onsite_ptr, ham_blocks; cbn [p_kind p_syst p_onsite p_where p_check p_sum p_ranges p_bons p_bham obind];
  rewrite Hb, Nat.eqb_refl, Hk, Nat.eqb_refl; reflexivity.
Qed.
End Calls.
