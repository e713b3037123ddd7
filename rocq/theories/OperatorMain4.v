(** * Operators: success of calls, continuity equation (C27). *)
From Coq Require Import List Bool Arith ZArith Ring Lia.
From Verif Require Import StarRing OrbitalsModel OrbitalsProofs SubmatrixModel OperatorModel OperatorSpec OperatorProofs OperatorMain OperatorMain2 OperatorMain3.
Import ListNotations.
Set Implicit Arguments.

Section Cont.
Variable R : StarRing.
Add Ring Rring5 : (r_theory R).
Variables P E Fam : Type.
Variable fdec : forall a b : Fam, {a = b} + {a <> b}.
Variable junk : nat -> R.
Variable hermok : mat R -> mat R -> bool.
Variable norbs : Fam -> nat.
Variable fams : list Fam.
Notation norb := (norb norbs fams).
Notation start := (start norbs fams).
Notation syst := (osyst R P E Fam).
Notation onsite_in := (onsite_in R P E Fam).
Notation onsite_matrix := (@onsite_matrix R P E Fam fdec fams).
Notation sum := (sum R).
Local Open Scope star_scope.
Notation "0" := (r0 R) : star_scope.
Notation conj := (rconj R).

(** matrix times vector *)
Definition mv (c : nat) (H : nat -> nat -> R) (v : nat -> R) (i : nat) : R := sum c (fun j => H i j * v j).
Lemma form_left na nb (H M : nat -> nat -> R) bra ket :
  form nb na bra (mmul na (mdag H) M) ket = form na na (mv nb H bra) M ket.
Proof.
  rewrite form_mmul_l. rewrite sum_swap. unfold form. apply sum_ext. intros j _. rewrite sum_swap. apply sum_ext. intros k _.
  unfold mv. rewrite sum_conj. rewrite <- !sum_mul_r. apply sum_ext. intros i _. unfold mdag. rewrite rconj_mul. ring.
Qed.
Lemma form_right na nb (H M : nat -> nat -> R) bra ket :
  form na nb bra (mmul na M H) ket = form na na bra M (mv nb H ket).
Proof.
  rewrite form_mmul_l. unfold form. apply sum_ext. intros j _. apply sum_ext. intros k _.
  unfold mv. rewrite <- sum_mul_l. apply sum_ext. intros i _. ring.
Qed.
Lemma form_ext_v r c bra bra' (M : nat -> nat -> R) ket ket' : (forall i, (i < r)%nat -> bra i = bra' i) -> (forall j, (j < c)%nat -> ket j = ket' j) ->
  form r c bra M ket = form r c bra' M ket'.
Proof. intros H1 H2. unfold form. apply sum_ext. intros i Hi. apply sum_ext. intros j Hj. rewrite H1, H2; auto. Qed.
Lemma form_add_l r c b1 b2 (M : nat -> nat -> R) ket : form r c (fun i => b1 i + b2 i) M ket = form r c b1 M ket + form r c b2 M ket.
Proof. unfold form. rewrite <- sum_add. apply sum_ext. intros i _. rewrite <- sum_add. apply sum_ext. intros j _. rewrite rconj_add. ring. Qed.
Lemma form_add_r r c bra (M : nat -> nat -> R) k1 k2 : form r c bra M (fun i => k1 i + k2 i) = form r c bra M k1 + form r c bra M k2.
Proof. unfold form. rewrite <- sum_add. apply sum_ext. intros i _. rewrite <- sum_add. apply sum_ext. intros j _. ring. Qed.
Lemma form_lsum_l (A : Type) r c (b : A -> nat -> R) (l : list A) (M : nat -> nat -> R) ket :
  form r c (fun i => lsum R (fun x => b x i) l) M ket = lsum R (fun x => form r c (b x) M ket) l.
Proof.
  induction l as [|x l IH].
  - unfold form. rewrite lsum_nil. apply sum_zero. intros i _. apply sum_zero. intros j _. rewrite lsum_nil, conj0. ring.
  - rewrite lsum_cons, <- IH, <- form_add_l. reflexivity.
Qed.
Lemma form_lsum_r (A : Type) r c bra (l : list A) (M : nat -> nat -> R) (k : A -> nat -> R) :
  form r c bra M (fun i => lsum R (fun x => k x i) l) = lsum R (fun x => form r c bra M (k x)) l.
Proof.
  induction l as [|x l IH].
  - unfold form. rewrite lsum_nil. apply sum_zero. intros i _. apply sum_zero. intros j _. rewrite lsum_nil. ring.
  - rewrite lsum_cons, <- IH, <- form_add_r. reflexivity.
Qed.
Lemma form_scale_l r c E0 b (M : nat -> nat -> R) ket : form r c (fun i => E0 * b i) M ket = conj E0 * form r c b M ket.
Proof. unfold form. rewrite <- sum_mul_l. apply sum_ext. intros i _. rewrite <- sum_mul_l. apply sum_ext. intros j _. rewrite rconj_mul. ring. Qed.
Lemma form_scale_r r c E0 b (M : nat -> nat -> R) ket : form r c b M (fun i => E0 * ket i) = E0 * form r c b M ket.
Proof. unfold form. rewrite <- sum_mul_l. apply sum_ext. intros i _. rewrite <- sum_mul_l. apply sum_ext. intros j _. ring. Qed.
Lemma conj_form r c (bra ket : nat -> R) M : conj (form r c bra M ket) = form c r ket (mdag M) bra.
Proof.
  unfold form. rewrite sum_conj, (sum_swap R c r). apply sum_ext. intros i _. rewrite sum_conj. apply sum_ext. intros j _.
  rewrite !rconj_mul, rconj_conj. unfold mdag. ring.
Qed.

(** the elements of Hermitian operators are real *)
Lemma density_real n s M psi : (forall i j, (i < n)%nat -> (j < n)%nat -> M i j = conj (M j i)) -> conj (density_form n s M psi psi) = density_form n s M psi psi.
Proof.
  intros HM. unfold density_form. rewrite conj_form. apply form_ext. intros i j Hi Hj. unfold mdag. symmetry. apply HM; auto.
Qed.
Lemma mdag_mmul n A B i j : mdag (@mmul R n A B) i j = mmul n (mdag B) (mdag A) i j.
Proof. unfold mdag, mmul. rewrite sum_conj. apply sum_ext. intros k _. rewrite rconj_mul. ring. Qed.
Lemma i_diff_real x : conj (ri R * (x - conj x)) = ri R * (x - conj x).
Proof. rewrite rconj_mul, conj_sub, rconj_conj, rconj_i. ring. Qed.
Lemma current_real na nb sa sb M H psi : (forall i j, (i < na)%nat -> (j < na)%nat -> M i j = conj (M j i)) ->
  conj (current_form na nb sa sb M H psi psi) = current_form na nb sa sb M H psi psi.
Proof.
  intros HM. unfold current_form.
  assert (HX : form na nb (part psi sa) (mmul na M H) (part psi sb) = conj (form nb na (part psi sb) (mmul na (mdag H) M) (part psi sa))).
  { rewrite conj_form. apply form_ext. intros i j Hi Hj. rewrite mdag_mmul. apply mmul_ext; intros k Hk; unfold mdag; [|rewrite rconj_conj]; auto. }
  rewrite HX. apply i_diff_real.
Qed.
Lemma source_real n s M H psi : (forall i j, (i < n)%nat -> (j < n)%nat -> M i j = conj (M j i)) ->
  conj (source_form n s M H psi psi) = source_form n s M H psi psi.
Proof. apply (@current_real n n s s). Qed.

(** the current of the reversed hopping *)
Lemma current_antisym na nb sa sb Ma Mb Hab Hba bra ket :
  (forall i j, (i < na)%nat -> (j < na)%nat -> Ma i j = conj (Ma j i)) ->
  (forall i j, (i < nb)%nat -> (j < nb)%nat -> Mb i j = conj (Mb j i)) ->
  (forall i j, (i < nb)%nat -> (j < na)%nat -> Hba i j = conj (Hab j i)) ->
  (forall i j, (i < na)%nat -> (j < nb)%nat -> mmul nb Hab Mb i j = mmul na Ma Hab i j) ->
  current_form nb na sb sa Mb Hba bra ket = - current_form na nb sa sb Ma Hab bra ket.
Proof.
  intros HA HB HH HC. unfold current_form.
  assert (E1 : form na nb (part bra sa) (mmul nb (mdag Hba) Mb) (part ket sb) = form na nb (part bra sa) (mmul na Ma Hab) (part ket sb)).
  { apply form_ext. intros i j Hi Hj. rewrite <- HC by auto. apply mmul_ext; auto. intros k Hk. unfold mdag. rewrite HH, rconj_conj; auto. }
  assert (E2 : form nb na (part bra sb) (mmul nb Mb Hba) (part ket sa) = form nb na (part bra sb) (mmul na (mdag Hab) Ma) (part ket sa)).
  { apply form_ext. intros i j Hi Hj.
    transitivity (mdag (mmul nb Hab Mb) i j).
    - rewrite mdag_mmul. apply mmul_ext; intros k Hk; unfold mdag; auto.
    - unfold mdag at 1. rewrite HC by auto. change (conj (mmul na Ma Hab j i)) with (mdag (mmul na Ma Hab) i j). rewrite mdag_mmul.
      apply mmul_ext; intros k Hk; auto. unfold mdag. symmetry. apply HA; auto. }
  rewrite E1, E2. ring.
Qed.

(** one site: the sum of the currents plus the source is the commutator *)
Lemma site_balance (es : list (nat * nat)) na sa M (Hn : nat -> nat -> nat -> R) (Haa : nat -> nat -> R) (bra ket hbra hket : nat -> R) :
  (forall i, (i < na)%nat -> hbra (sa + i)%nat = lsum R (fun e => sum (norb (snd e)) (fun j => Hn (snd e) i j * bra (start (snd e) + j)%nat)) es + sum na (fun j => Haa i j * bra (sa + j)%nat)) ->
  (forall i, (i < na)%nat -> hket (sa + i)%nat = lsum R (fun e => sum (norb (snd e)) (fun j => Hn (snd e) i j * ket (start (snd e) + j)%nat)) es + sum na (fun j => Haa i j * ket (sa + j)%nat)) ->
  lsum R (fun e => current_form na (norb (snd e)) sa (start (snd e)) M (Hn (snd e)) bra ket) es + source_form na sa M Haa bra ket =
  ri R * (density_form na sa M hbra ket - density_form na sa M bra hket).
Proof.
  intros Hb Hk. unfold density_form.
  rewrite (@form_ext_v na na (part hbra sa) (fun i => lsum R (fun e => mv (norb (snd e)) (Hn (snd e)) (part bra (start (snd e))) i) es + mv na Haa (part bra sa) i) M (part ket sa) (part ket sa)) by (auto; intros i Hi; apply Hb; auto).
  rewrite (@form_ext_v na na (part bra sa) (part bra sa) M (part hket sa) (fun i => lsum R (fun e => mv (norb (snd e)) (Hn (snd e)) (part ket (start (snd e))) i) es + mv na Haa (part ket sa) i)) by (auto; intros i Hi; apply Hk; auto).
  rewrite form_add_l, form_add_r, (form_lsum_l na na (fun e => mv (norb (snd e)) (Hn (snd e)) (part bra (start (snd e))))),
    (form_lsum_r na na (part bra sa) es M (fun e => mv (norb (snd e)) (Hn (snd e)) (part ket (start (snd e))))).
  unfold source_form. rewrite form_left, form_right.
  assert (HL : lsum R (fun e => current_form na (norb (snd e)) sa (start (snd e)) M (Hn (snd e)) bra ket) es =
    ri R * (lsum R (fun e => form na na (mv (norb (snd e)) (Hn (snd e)) (part bra (start (snd e)))) M (part ket sa)) es
      - lsum R (fun e => form na na (part bra sa) M (mv (norb (snd e)) (Hn (snd e)) (part ket (start (snd e))))) es)).
  { rewrite <- lsum_sub, <- lsum_mul_l. apply lsum_ext. intros e _. unfold current_form. rewrite form_left, form_right. reflexivity. }
  rewrite HL. ring.
Qed.

Lemma currents_at_map (edges : list (nat * nat)) a (j : nat -> R) (f : nat * nat -> R) :
  (forall k e, nth_error edges k = Some e -> j k = f e) ->
  currents_at R edges a j = lsum R f (filter (fun e => (fst e =? a)%nat) edges).
Proof.
  intros H. unfold currents_at. rewrite !lsum_filter.
  assert (GEN : forall l k, (forall i e, nth_error l i = Some e -> j (k + i)%nat = f e) ->
    lsum R (fun x => if (fst (snd x) =? a)%nat then j (fst x) else 0) (combine (seq k (length l)) l) = lsum R (fun x => if (fst x =? a)%nat then f x else 0) l).
  { induction l as [|e l IH]; intros k Hk; [reflexivity|]. cbn [length seq combine]. rewrite !lsum_cons. cbn [fst snd].
    rewrite IH.
    - f_equal. destruct (fst e =? a)%nat; auto. rewrite <- (Hk O e eq_refl). f_equal. lia.
    - intros i e' Hi. rewrite <- (Hk (S i) e' Hi). f_equal. lia. }
  apply GEN. intros i e Hi. apply H. auto.
Qed.

(** ** Success *)
Section Sys.
Variable s : syst.
Hypothesis W : wf fdec norbs fams s.
Variable ranges : list (nat * nat * nat).
Hypothesis Hr : o_ranges s = Some ranges.

Lemma check_onsite_ok (m : mat R) k c : mr m = k -> mc m = k -> (c = true -> hermok m m = true) -> @check_onsite R E hermok m k c = inl tt.
Proof.
  intros H1 H2 H3. unfold check_onsite, is_herm_conj. rewrite H1, H2, !Nat.eqb_refl. cbn. destruct c; auto. rewrite H3; auto.
Qed.
Lemma check_dict_In (norbs' : Fam -> nat) c (d : list (Fam * mat R)) t f m : check_dict R E hermok norbs' c d = inl t -> In (f, m) d -> @check_onsite R E hermok m (norbs' f) c = inl tt.
Proof.
  revert t. induction d as [|[g x] d IH]; intros t H Hin; [destruct Hin|]. cbn in H. apply obind_inl in H. destruct H as ([] & H1 & H2).
  destruct Hin as [[= <- <-]|Hin]; auto. eapply IH; eauto.
Qed.
Lemma assocf_In f m (d : list (Fam * mat R)) : In (f, m) d -> exists m', assocf R fdec f d = Some m' /\ In (f, m') d.
Proof.
  induction d as [|[g x] d IH]; intros H; [destruct H|]. cbn. destruct (fdec f g) as [->|Hne].
  - exists x. split; auto.
  - destruct H as [[= -> ->]|H]; [congruence|]. destruct (IH H) as (m' & H1 & H2). exists m'. auto.
Qed.

Lemma operate_ok k o wh check sm u p : (forall a b, In (a, b) wh -> a < o_n s /\ b < o_n s)%nat ->
  normalize_onsite fdec hermok s ranges o check = inl u ->
  (forall a b, In (a, b) wh -> onsite_good hermok norbs fams o p check a) ->
  (k <> Density -> forall a b, In (a, b) wh -> ham_good hermok norbs fams s p check a b) ->
  exists ops, operate junk hermok (mkOp k s u wh check sm ranges None None) p = inl ops.
Proof.
  intros Hwh Hu Hon Hham.
  pose proof (@all_orbs_spec R P E Fam fdec norbs fams s W ranges Hr wh Hwh) as Ho.
  assert (HM : exists M, onsite_ptr junk hermok (mkOp k s u wh check sm ranges None None) p = inl M).
  { unfold onsite_ptr. cbn [p_onsite p_bons]. destruct u as [f|m]; [|eauto].
    enough (exists b, eval_onsites junk hermok (mkOp k s (NFun f) wh check sm ranges None None) f p = inl b) as (b & ->) by (cbn; eauto).
    unfold eval_onsites. cbn [p_ranges p_where p_check]. rewrite Ho. unfold make_bsm.
    match goal with |- context [populate _ ?F ?a ?b ?c ?d] => enough (exists dd, populate junk F a b c d = inl dd) as (dd & ->) by (cbn; eauto) end.
    apply populate_ok. intros w a b r c Hw Hs.
    assert (Hin : In (a, b) wh) by (eapply nth_error_In; eauto). specialize (Hon a b Hin).
    rewrite (map_nth_error (fun h => (norb (fst h), norb (snd h))) w wh Hw) in Hs. injection Hs as <- <-. cbn [fst snd].
    destruct o as [f'|d|m]; cbn [normalize_onsite onsite_good] in *.
    - injection Hu as <-. destruct Hon as (m & Hm & H1 & H2 & H3). rewrite Hm. cbn [user obind]. rewrite check_onsite_ok by auto. cbn. eauto.
    - destruct (o_fams s) as [fs|] eqn:Efs; [|discriminate]. apply obind_inl in Hu. destruct Hu as (t & Ht & [= <-]).
      destruct (wf_fams W) as [Hf|[Hf Hno]]; [congruence|]. rewrite Hf in Efs. injection Efs as <-.
      destruct Hon as (f & m & Hfam & Hd). rewrite Hfam. destruct (assocf_In _ _ _ Hd) as (m' & -> & Hd'). cbn [obind].
      pose proof (@check_dict_In _ _ _ _ _ _ Ht Hd') as Hc. rewrite Hno in Hc.
      replace (norb a) with (norbs f) by (unfold OperatorSpec.norb; rewrite Hfam; auto). rewrite Hc. cbn. eauto.
    - apply obind_inl in Hu. destruct Hu as (t & Ht & Hu). destruct (mr m =? 1)%nat; [discriminate|].
      destruct (nodup _ _) as [|? [|? ?]]; try discriminate. destruct (mr m =? _)%nat; discriminate. }
  destruct HM as (M & HM). unfold operate. rewrite HM. cbn [obind p_kind].
  assert (HH : k <> Density -> exists b, ham_blocks junk hermok (mkOp k s u wh check sm ranges None None) p = inl b).
  { intros Hk. unfold ham_blocks. cbn [p_bham]. unfold eval_hamiltonian. cbn [p_ranges p_where p_check p_syst]. rewrite Ho. unfold make_bsm.
    match goal with |- context [populate _ ?F ?a ?b ?c ?d] => enough (exists dd, populate junk F a b c d = inl dd) as (dd & ->) by (cbn; eauto) end.
    apply populate_ok. intros w a b r c Hw Hs.
    assert (Hin : In (a, b) wh) by (eapply nth_error_In; eauto).
    rewrite (map_nth_error (fun h => (norb (fst h), norb (snd h))) w wh Hw) in Hs. injection Hs as <- <-. cbn [fst snd].
    destruct (Hham Hk a b Hin) as (m & Hm & H1 & H2 & H3). rewrite Hm. cbn [user obind]. unfold check_ham.
    rewrite H1, H2, !Nat.eqb_refl. cbn [negb andb]. destruct check; [|cbn; eauto].
    destruct (H3 eq_refl) as (m' & Hm' & H4 & H5 & H6). unfold is_herm_conj.
    destruct (Nat.eqb_spec a b) as [->|Hne]; cbn [obind].
    - assert (m' = m) by congruence. subst m'. rewrite H1, H2, Nat.eqb_refl. cbn [andb]. rewrite H6. cbn. eauto.
    - rewrite Hm'. cbn [user obind]. rewrite H4, H5, H1, H2, !Nat.eqb_refl. cbn [andb]. rewrite H6. cbn. eauto. }
  destruct k; [eauto| |]; (destruct HH as (b & ->); [discriminate|]; cbn; eauto).
Qed.

Lemma call_ok k o wh check sm u p bra ket : (forall a b, In (a, b) wh -> a < o_n s /\ b < o_n s)%nat ->
  normalize_onsite fdec hermok s ranges o check = inl u ->
  (forall a b, In (a, b) wh -> onsite_good hermok norbs fams o p check a) ->
  (k <> Density -> forall a b, In (a, b) wh -> ham_good hermok norbs fams s p check a b) ->
  vlen bra = start (nsites s) -> vlen ket = start (nsites s) ->
  (exists res, call junk hermok (mkOp k s u wh check sm ranges None None) bra (Some ket) p = inl res) /\
  (exists v, act junk hermok (mkOp k s u wh check sm ranges None None) ket p = inl v).
Proof.
  intros Hwh Hu Hon Hham Hb Hk. destruct (@operate_ok k o wh check sm u p Hwh Hu Hon Hham) as (ops & Hops).
  unfold call, act, already_bound. cbn [p_bons p_bham p_ranges p_syst]. rewrite (tot_spec W Hr (nsites_le W)), Hb, Hk, Nat.eqb_refl. cbn [negb].
  rewrite Hops. cbn [obind p_sum]. split; [destruct sm; eauto|eauto].
Qed.
End Sys.
End Cont.
