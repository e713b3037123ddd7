(** * C25-C27: Density, Current and Source.

    Read with OperatorSpec: [density_form], [current_form], [source_form] are
    the defining bilinear forms, [is_result], [selected_sites], ... *)
From Coq Require Import List Bool Arith ZArith Ring Lia.
From Verif Require Import StarRing OrbitalsModel OrbitalsProofs SubmatrixModel OperatorModel OperatorSpec OperatorProofs OperatorMain OperatorMain2 OperatorMain3 OperatorMain4.
Import ListNotations.
Set Implicit Arguments.

Section Props.
Variable R : StarRing.
Add Ring RringP : (r_theory R).
Variables P E Fam : Type.
Variable fdec : forall a b : Fam, {a = b} + {a <> b}.
Variable junk : nat -> R.
Variable hermok : mat R -> mat R -> bool.
Variable norbs : Fam -> nat.
Variable fams : list Fam.
Notation norb := (norb norbs fams).
Notation start := (start norbs fams).
Notation onsite_in := (onsite_in R P E Fam).
Notation onsite_matrix := (@onsite_matrix R P E Fam fdec fams).
Variable s : osyst R P E Fam.
Hypothesis W : wf fdec norbs fams s.
Notation make_density := (make_density fdec hermok s).
Notation make_current := (make_current fdec hermok s).
Notation make_source := (make_source fdec hermok s).
Notation call := (@call R P E Fam junk hermok).
Notation act := (@act R P E Fam junk hermok).
Notation bind := (@bind R P E Fam junk hermok).
Notation tocoo := (@tocoo R P E Fam junk hermok).

(** ** Helpers *)
Lemma dup_in (l : list nat) a b : In (a, b) (dup l) -> a = b /\ In a l.
Proof. intros H. apply in_map_iff in H. destruct H as (x & [= <- <-] & Hx). auto. Qed.
Lemma fst_dup (l : list nat) : map fst (dup l) = l.
Proof. unfold dup. rewrite map_map. apply map_id. Qed.
Lemma function_fits_dup (o : onsite_in) l : function_fits norbs fams o (dup l).
Proof. destruct o; cbn; auto; intros a b H; apply dup_in in H; destruct H as [-> _]; auto. Qed.

Lemma density_inv o w check sm q : make_density o w check sm = inl q ->
  exists l ranges u, selected_sites s w l /\ (forall a, In a l -> a < nsites s) /\ o_ranges s = Some ranges /\
    normalize_onsite fdec hermok s ranges o check = inl u /\ q = mkOp Density s u (dup l) check sm ranges None None.
Proof.
  intros H. apply obind_inl in H. destruct H as (l & Hl & H). apply site_where_iff in Hl; [|apply (wf_cell W)]. destruct Hl as (H1 & H2 & _).
  apply init_inl in H. destruct H as (ranges & u & H3 & H4 & H5). exists l, ranges, u. auto.
Qed.
Lemma source_inv o w check sm q : make_source o w check sm = inl q ->
  exists l ranges u, selected_sites s w l /\ (forall a, In a l -> a < nsites s) /\ o_ranges s = Some ranges /\
    normalize_onsite fdec hermok s ranges o check = inl u /\ q = mkOp Source s u (dup l) check sm ranges None None.
Proof.
  intros H. apply obind_inl in H. destruct H as (l & Hl & H). apply site_where_iff in Hl; [|apply (wf_cell W)]. destruct Hl as (H1 & H2 & _).
  apply init_inl in H. destruct H as (ranges & u & H3 & H4 & H5). exists l, ranges, u. auto.
Qed.
Lemma current_inv o w check sm q : make_current o w check sm = inl q ->
  exists l ranges u, selected_hoppings s w l /\ (forall h, In h l -> In h (o_edges s)) /\
    (forall c, o_cell s = Some c -> forall a b, In (a, b) l -> a <= c /\ b <= c) /\ o_ranges s = Some ranges /\
    normalize_onsite fdec hermok s ranges o check = inl u /\ q = mkOp Current s u l check sm ranges None None.
Proof.
  intros H. apply obind_inl in H. destruct H as (l & Hl & H). apply hop_where_spec in Hl. destruct Hl as (H1 & H2 & Hc & _).
  apply init_inl in H. destruct H as (ranges & u & H3 & H4 & H5). exists l, ranges, u. auto 10.
Qed.
Lemma dup_range l : (forall a, In a l -> a < nsites s) -> forall a b, In (a, b) (dup l) -> a < nsites s /\ b < nsites s.
Proof. intros H a b Hab. apply dup_in in Hab. destruct Hab as [<- Ha]. auto. Qed.
Lemma dup_range_n l : (forall a, In a l -> a < nsites s) -> forall a b, In (a, b) (dup l) -> a < o_n s /\ b < o_n s.
Proof. intros H a b Hab. pose proof (nsites_le W). destruct (@dup_range l H a b Hab). lia. Qed.

Lemma call_forms k o wh check sm u ranges p bra ket res :
  o_ranges s = Some ranges ->
  (forall a b, In (a, b) wh -> a < o_n s /\ b < o_n s) ->
  (k = Density \/ k = Source -> forall a b, In (a, b) wh -> a = b) ->
  normalize_onsite fdec hermok s ranges o check = inl u ->
  scalar_fits norbs fams o (map fst wh) -> function_fits norbs fams o wh ->
  (k <> Density -> forall a b, In (a, b) wh -> ham_shape norbs fams s p a b) ->
  call (mkOp k s u wh check sm ranges None None) bra (Some ket) p = inl res ->
  is_result sm (map (el_of fdec norbs fams s k o p (vget bra) (vget ket)) wh) res.
Proof.
  intros Hr Hwh Hd Hu Hsc Hf Hh Hc.
  destruct (@call_inl _ _ _ _ _ _ _ _ _ _ _ Hc) as (_ & _ & _ & ops & Hops & Hres). cbn [p_where p_sum] in Hres.
  apply Hres; [apply map_length|]. intros w x Hx. rewrite nth_error_map in Hx. destruct (nth_error wh w) as [h|] eqn:Ew; [|discriminate].
  injection Hx as <-. eapply operate_spec; eauto.
Qed.

(** ** C25 *)
(** [where]: exactly the requested sites are selected, in the requested order;
    anything else is refused when the operator is made. *)
Theorem C25_where o w check sm : (exists ranges u, o_ranges s = Some ranges /\ normalize_onsite fdec hermok s ranges o check = inl u) ->
  forall l, (exists q, make_density o w check sm = inl q /\ p_where q = dup l) <->
    selected_sites s w l /\ (forall a, In a l -> a < nsites s) /\
    match w with WInts _ => l <> [] | WSites _ => l <> [] /\ o_fams s <> None | _ => True end.
Proof.
  intros (ranges & u & Hr & Hu) l. rewrite <- (@site_where_iff R P E Fam s w l (wf_cell W)). split.
  - intros (q & Hq & Hw). apply obind_inl in Hq. destruct Hq as (l' & Hl & Hq). apply init_inl in Hq. destruct Hq as (? & ? & _ & _ & ->).
    cbn [p_where] in Hw. assert (l' = l) by (rewrite <- (fst_dup l'), Hw; apply fst_dup). congruence.
  - intros Hl. exists (mkOp Density s u (dup l) check sm ranges None None). split; auto.
    unfold OperatorModel.make_density. rewrite Hl. cbn [obind]. unfold init. rewrite Hr, Hu. reflexivity.
Qed.

(** Only existing hoppings of the system are accepted. *)
Theorem C25_where_hoppings o w check sm q : make_current o w check sm = inl q ->
  selected_hoppings s w (p_where q) /\ (forall h, In h (p_where q) -> In h (o_edges s)) /\ p_where q <> [] /\
  (forall c, o_cell s = Some c -> forall a b, In (a, b) (p_where q) -> a <= c /\ b <= c).
Proof.
  intros H. assert (Hne : p_where q <> []).
  { apply obind_inl in H. destruct H as (l & Hl & H). unfold init in H. destruct (o_ranges s); [|discriminate]. apply obind_inl in H.
    destruct H as (u & _ & H). destruct l; [discriminate|]. injection H as <-. discriminate. }
  apply current_inv in H. destruct H as (l & ranges & u & H1 & H2 & H3 & _ & _ & ->). cbn [p_where] in *. auto.
Qed.

Theorem C25_density o w check sm q bra ket p res :
  make_density o w check sm = inl q -> call q bra (Some ket) p = inl res ->
  exists l, selected_sites s w l /\
    (scalar_fits norbs fams o l ->
     is_result sm (map (fun a => density_form (norb a) (start a) (onsite_matrix o p a) (vget bra) (vget ket)) l) res).
Proof.
  intros Hq Hc. apply density_inv in Hq. destruct Hq as (l & ranges & u & Hl & Hlt & Hr & Hu & ->). exists l. split; auto. intros Hsc.
  assert (HR : is_result sm (map (el_of fdec norbs fams s Density o p (vget bra) (vget ket)) (dup l)) res).
  { eapply call_forms; eauto.
    - apply dup_range_n; auto.
    - intros _ a b Hab. apply dup_in in Hab. tauto.
    - rewrite fst_dup. auto.
    - apply function_fits_dup.
    - congruence. }
  unfold dup in HR. rewrite map_map in HR. exact HR.
Qed.

Theorem C25_current o w check sm q bra ket p res :
  make_current o w check sm = inl q -> call q bra (Some ket) p = inl res ->
  exists l, selected_hoppings s w l /\
    (scalar_fits norbs fams o (map fst l) -> function_fits norbs fams o l ->
     (forall a b, In (a, b) l -> ham_shape norbs fams s p a b) ->
     is_result sm (map (fun h => current_form (norb (fst h)) (norb (snd h)) (start (fst h)) (start (snd h))
       (onsite_matrix o p (fst h)) (ham_matrix s p (fst h) (snd h)) (vget bra) (vget ket)) l) res).
Proof.
  intros Hq Hc. apply current_inv in Hq. destruct Hq as (l & ranges & u & Hl & Hlt & _ & Hr & Hu & ->). exists l. split; auto. intros Hsc Hf Hh.
  assert (HR : is_result sm (map (el_of fdec norbs fams s Current o p (vget bra) (vget ket)) l) res).
  { eapply call_forms; eauto.
    - intros a b Hab. apply (wf_edges W). auto.
    - intros [H|H]; discriminate. }
  erewrite map_ext; [exact HR|]. intros [a b]. reflexivity.
Qed.

Theorem C25_source o w check sm q bra ket p res :
  make_source o w check sm = inl q -> call q bra (Some ket) p = inl res ->
  exists l, selected_sites s w l /\
    (scalar_fits norbs fams o l -> (forall a, In a l -> ham_shape norbs fams s p a a) ->
     is_result sm (map (fun a => source_form (norb a) (start a) (onsite_matrix o p a) (ham_matrix s p a a) (vget bra) (vget ket)) l) res).
Proof.
  intros Hq Hc. apply source_inv in Hq. destruct Hq as (l & ranges & u & Hl & Hlt & Hr & Hu & ->). exists l. split; auto. intros Hsc Hh.
  assert (HR : is_result sm (map (el_of fdec norbs fams s Source o p (vget bra) (vget ket)) (dup l)) res).
  { eapply call_forms; eauto.
    - apply dup_range_n; auto.
    - intros _ a b Hab. apply dup_in in Hab. tauto.
    - rewrite fst_dup. auto.
    - apply function_fits_dup.
    - intros _ a b Hab. apply dup_in in Hab. destruct Hab as [<- Ha]. auto. }
  unfold dup in HR. rewrite map_map in HR. exact HR.
Qed.

(** Calls and act succeed when the user's values exist, have the right shapes
    and pass the Hermiticity check. *)
Theorem C25_succeeds o check sm q bra ket p :
  (exists w, make_density o w check sm = inl q) \/ (exists w, make_current o w check sm = inl q) \/ (exists w, make_source o w check sm = inl q) ->
  (forall a b, In (a, b) (p_where q) -> onsite_good hermok norbs fams o p check a) ->
  (p_kind q <> Density -> forall a b, In (a, b) (p_where q) -> ham_good hermok norbs fams s p check a b) ->
  vlen bra = start (nsites s) -> vlen ket = start (nsites s) ->
  (exists res, call q bra (Some ket) p = inl res) /\ (exists v, act q ket p = inl v).
Proof.
  intros Hq Ho Hh Hb Hk.
  assert (exists k ranges u wh, o_ranges s = Some ranges /\ (forall a b, In (a, b) wh -> a < o_n s /\ b < o_n s) /\
    normalize_onsite fdec hermok s ranges o check = inl u /\ q = mkOp k s u wh check sm ranges None None) as (k & ranges & u & wh & Hr & Hwh & Hu & ->).
  { destruct Hq as [[w Hq]|[[w Hq]|[w Hq]]].
    - apply density_inv in Hq. destruct Hq as (l & ranges & u & Hl & Hlt & Hr & Hu & ->). exists Density, ranges, u, (dup l). repeat split; auto; apply (@dup_range_n l Hlt _ _ H).
    - apply current_inv in Hq. destruct Hq as (l & ranges & u & Hl & Hlt & _ & Hr & Hu & ->). exists Current, ranges, u, l. repeat split; auto; apply Hlt in H; apply (wf_edges W) in H; tauto.
    - apply source_inv in Hq. destruct Hq as (l & ranges & u & Hl & Hlt & Hr & Hu & ->). exists Source, ranges, u, (dup l). repeat split; auto; apply (@dup_range_n l Hlt _ _ H). }
  cbn [p_where p_kind] in *. eapply call_ok; eauto.
Qed.

(** Vectors of the wrong length are refused. *)
Theorem C25_lengths o check sm q bra ket p :
  (exists w, make_density o w check sm = inl q) \/ (exists w, make_current o w check sm = inl q) \/ (exists w, make_source o w check sm = inl q) ->
  (vlen bra <> start (nsites s) \/ vlen ket <> start (nsites s) -> call q bra (Some ket) p = inr EValue) /\
  (vlen bra <> start (nsites s) -> call q bra None p = inr EValue) /\
  (vlen ket <> start (nsites s) -> act q ket p = inr EValue).
Proof.
  intros Hq.
  assert (exists ranges, o_ranges s = Some ranges /\ p_ranges q = ranges /\ p_syst q = s) as (ranges & Hr & E1 & E2).
  { destruct Hq as [[w Hq]|[[w Hq]|[w Hq]]].
    - apply density_inv in Hq. destruct Hq as (l & ranges & u & Hl & Hlt & Hr & Hu & ->). cbn. eauto 10.
    - apply current_inv in Hq. destruct Hq as (l & ranges & u & Hl & Hlt & _ & Hr & Hu & ->). cbn. eauto 10.
    - apply source_inv in Hq. destruct Hq as (l & ranges & u & Hl & Hlt & Hr & Hu & ->). cbn. eauto 10. }
  unfold OperatorModel.call, OperatorModel.act. rewrite E1, E2, (tot_spec W Hr (nsites_le W)).
  destruct (already_bound q p); [auto|].
  split; [|split].
  - intros H. destruct (Nat.eqb_spec (vlen bra) (start (nsites s))); [|reflexivity]. destruct (Nat.eqb_spec (vlen ket) (start (nsites s))); [tauto|reflexivity].
  - intros H. destruct (Nat.eqb_spec (vlen bra) (start (nsites s))); [tauto|reflexivity].
  - intros H. destruct (Nat.eqb_spec (vlen ket) (start (nsites s))); [tauto|reflexivity].
Qed.

(** Without ket, the result is that for ket = bra, of which the real part is
    taken if the operator was checked to be Hermitian. *)
Theorem C25_ket_none (q : op R P E Fam) bra p : call q bra None p =
  match call q bra (Some bra) p with
  | inl r => inl (if p_check q then real_result r else r) | inr e => inr e end.
Proof. apply call_none. Qed.

(** For Hermitian onsite values the real part loses nothing. *)
Theorem C25_real o check sm q bra p res :
  (exists w, make_density o w check sm = inl q) \/ (exists w, make_current o w check sm = inl q) \/ (exists w, make_source o w check sm = inl q) ->
  scalar_fits norbs fams o (map fst (p_where q)) -> function_fits norbs fams o (p_where q) ->
  (p_kind q <> Density -> forall a b, In (a, b) (p_where q) -> ham_shape norbs fams s p a b) ->
  (forall a, In a (map fst (p_where q)) -> forall i j, i < norb a -> j < norb a -> onsite_matrix o p a i j = rconj R (onsite_matrix o p a j i)) ->
  call q bra (Some bra) p = inl res ->
  exists els, is_result sm els res /\ is_result sm els (real_result res) /\ forall x, In x els -> rconj R x = x.
Proof.
  intros Hq Hsc Hf Hh Hherm Hc.
  assert (exists k ranges u wh, o_ranges s = Some ranges /\ (forall a b, In (a, b) wh -> a < o_n s /\ b < o_n s) /\
    (k = Density \/ k = Source -> forall a b, In (a, b) wh -> a = b) /\
    normalize_onsite fdec hermok s ranges o check = inl u /\ q = mkOp k s u wh check sm ranges None None) as (k & ranges & u & wh & Hr & Hwh & Hd & Hu & ->).
  { destruct Hq as [[w Hq]|[[w Hq]|[w Hq]]].
    - apply density_inv in Hq. destruct Hq as (l & ranges & u & Hl & Hlt & Hr & Hu & ->). exists Density, ranges, u, (dup l).
      split; auto. split; [apply dup_range_n; auto|]. split; auto. intros _ a b H. apply dup_in in H. tauto.
    - apply current_inv in Hq. destruct Hq as (l & ranges & u & Hl & Hlt & _ & Hr & Hu & ->). exists Current, ranges, u, l.
      split; auto. split; [intros a b H; apply Hlt in H; apply (wf_edges W) in H; tauto|]. split; auto. intros [H|H]; discriminate.
    - apply source_inv in Hq. destruct Hq as (l & ranges & u & Hl & Hlt & Hr & Hu & ->). exists Source, ranges, u, (dup l).
      split; auto. split; [apply dup_range_n; auto|]. split; auto. intros _ a b H. apply dup_in in H. tauto. }
  cbn [p_where p_kind] in *.
  exists (map (el_of fdec norbs fams s k o p (vget bra) (vget bra)) wh).
  assert (H1 : is_result sm (map (el_of fdec norbs fams s k o p (vget bra) (vget bra)) wh) res) by (eapply call_forms; eauto).
  assert (H2 : forall x, In x (map (el_of fdec norbs fams s k o p (vget bra) (vget bra)) wh) -> rconj R x = x).
  { intros x Hx. apply in_map_iff in Hx. destruct Hx as ([a b] & <- & Hab). unfold el_of.
    assert (Ha : In a (map fst wh)) by (apply in_map_iff; exists (a, b); auto).
    destruct k; [apply density_real|apply current_real|apply source_real]; intros; apply Hherm; auto. }
  split; auto. split; auto. apply real_result_id; auto.
Qed.

(** Binding parameters first and calling without parameters afterwards is the
    same as calling with the parameters. *)
Theorem C25_bind o check sm q bra ket p :
  (exists w, make_density o w check sm = inl q) \/ (exists w, make_current o w check sm = inl q) \/ (exists w, make_source o w check sm = inl q) ->
  vlen bra = start (nsites s) -> vlen (match ket with Some k => k | None => bra end) = start (nsites s) ->
  call q bra ket p = obind (bind q p) (fun q' => call q' bra ket None) /\
  act q bra p = obind (bind q p) (fun q' => act q' bra None) /\
  (p_kind q = Density -> tocoo q p = obind (bind q p) (fun q' => tocoo q' None)).
Proof.
  intros Hq Hb Hk.
  assert (exists ranges, o_ranges s = Some ranges /\ p_ranges q = ranges /\ p_syst q = s /\ p_bons q = None /\ p_bham q = None) as (ranges & Hr & E1 & E2 & E3 & E4).
  { destruct Hq as [[w Hq]|[[w Hq]|[w Hq]]].
    - apply density_inv in Hq. destruct Hq as (l & ranges & u & Hl & Hlt & Hr & Hu & ->). cbn. eauto 10.
    - apply current_inv in Hq. destruct Hq as (l & ranges & u & Hl & Hlt & _ & Hr & Hu & ->). cbn. eauto 10.
    - apply source_inv in Hq. destruct Hq as (l & ranges & u & Hl & Hlt & Hr & Hu & ->). cbn. eauto 10. }
  assert (Ht : get_tot_norbs (p_ranges q) (nsites (p_syst q)) = start (nsites s)) by (rewrite E1, E2; apply (tot_spec W Hr (nsites_le W))).
  split; [apply bind_call; congruence|]. split; [apply bind_act; congruence|]. intros Hd. apply bind_tocoo; auto.
Qed.

(** ** C26 *)
(** The sum of the expectation values is the inner product of bra with act(ket). *)
Theorem C26_call_act o check sm q bra ket p res v :
  (exists w, make_density o w check sm = inl q) \/ (exists w, make_current o w check sm = inl q) \/ (exists w, make_source o w check sm = inl q) ->
  (forall c, o_cell s = Some c -> forall a b, In (a, b) (p_where q) -> a <> c /\ b <> c) ->
  call q bra (Some ket) p = inl res -> act q ket p = inl v ->
  vlen v = start (nsites s) /\ total res = sum R (start (nsites s)) (fun al => rmul R (rconj R (vget bra al)) (vget v al)).
Proof.
  intros Hq Hcell Hc Ha.
  destruct Hq as [[w Hq]|[[w Hq]|[w Hq]]].
  - apply density_inv in Hq. destruct Hq as (l & ranges & u & Hl & Hlt & Hr & Hu & ->). eapply main_call_act; eauto. apply dup_range; auto.
  - apply current_inv in Hq. destruct Hq as (l & ranges & u & Hl & Hlt & Hc' & Hr & Hu & ->). eapply main_call_act; eauto.
    intros a b Hab. cbn [p_where] in Hcell. destruct (wf_edges W _ _ (Hlt _ Hab)). unfold nsites. destruct (o_cell s) as [c|] eqn:Ec; auto.
    destruct (Hcell c eq_refl a b Hab), (Hc' c eq_refl a b Hab). lia.
  - apply source_inv in Hq. destruct Hq as (l & ranges & u & Hl & Hlt & Hr & Hu & ->). eapply main_call_act; eauto. apply dup_range; auto.
Qed.

(** Density.tocoo times a vector is act. *)
Theorem C26_tocoo o w check sm q p m ket v :
  make_density o w check sm = inl q -> scalar_fits norbs fams o (map fst (p_where q)) ->
  tocoo q p = inl m -> act q ket p = inl v ->
  cr m = start (nsites s) /\ cc m = start (nsites s) /\
  forall al, vget v al = sum R (start (nsites s)) (fun be => rmul R (coo_get (r0 R) (radd R) m al be) (vget ket be)).
Proof.
  intros Hq Hsc Hm Ha. apply density_inv in Hq. destruct Hq as (l & ranges & u & Hl & Hlt & Hr & Hu & ->).
  cbn [p_where] in Hsc. rewrite fst_dup in Hsc. eapply main_tocoo; eauto.
Qed.

(** ** C27 *)
(** The continuity equation, for any two vectors: the currents of all hoppings
    from site a plus the source at a is the rate of change of the density at a. *)
Theorem C27_continuity o check check' check'' p qj qs qd bra ket hbra hket j so d1 d2 :
  o_cell s = None ->
  make_current o HNone check false = inl qj -> make_source o WNone check' false = inl qs -> make_density o WNone check'' false = inl qd ->
  scalar_fits norbs fams o (seq 0 (o_n s)) -> function_fits norbs fams o (o_edges s) ->
  (forall a b, In (a, b) (o_edges s) -> ham_shape norbs fams s p a b) -> (forall a, a < o_n s -> ham_shape norbs fams s p a a) ->
  apply_ham norbs fams s p (vget bra) (vget hbra) -> apply_ham norbs fams s p (vget ket) (vget hket) ->
  call qj bra (Some ket) p = inl (RArr j) -> call qs bra (Some ket) p = inl (RArr so) ->
  call qd hbra (Some ket) p = inl (RArr d1) -> call qd bra (Some hket) p = inl (RArr d2) ->
  forall a, a < o_n s ->
    radd R (currents_at R (o_edges s) a (vget j)) (vget so a) = rmul R (ri R) (rsub R (vget d1 a) (vget d2 a)).
Proof.
  intros Hfin Hj Hs Hd Hsc Hf Hh1 Hh2 Hhb Hhk Cj Cs Cd1 Cd2 a Ha.
  destruct (@C25_current _ _ _ _ _ _ _ _ _ Hj Cj) as (lj & Elj & Rj). cbn in Elj. subst lj.
  destruct (@C25_source _ _ _ _ _ _ _ _ _ Hs Cs) as (ls & Els & Rs). cbn in Els. subst ls.
  destruct (@C25_density _ _ _ _ _ _ _ _ _ Hd Cd1) as (ld & Eld & Rd1). cbn in Eld. subst ld.
  destruct (@C25_density _ _ _ _ _ _ _ _ _ Hd Cd2) as (ld & Eld & Rd2). cbn in Eld. subst ld.
  assert (Hns : nsites s = o_n s) by (unfold nsites; rewrite Hfin; auto). rewrite Hns in *.
  assert (Hsce : scalar_fits norbs fams o (map fst (o_edges s))).
  { destruct o; cbn in *; auto. intros Hm x Hx. apply in_map_iff in Hx. destruct Hx as ([x' y] & <- & Hxy). apply (wf_edges W) in Hxy.
    apply Hsc; auto. apply in_seq. cbn. lia. }
  specialize (Rj Hsce Hf Hh1). specialize (Rs Hsc). specialize (Rd1 Hsc). specialize (Rd2 Hsc).
  assert (Hh2' : forall x, In x (seq 0 (o_n s)) -> ham_shape norbs fams s p x x) by (intros x Hx; apply in_seq in Hx; apply Hh2; lia).
  specialize (Rs Hh2').
  assert (Hseq : nth_error (seq 0 (o_n s)) a = Some a).
  { rewrite (nth_error_nth' _ 0) by (rewrite seq_length; auto). rewrite seq_nth by auto. auto. }
  destruct Rj as (_ & _ & Rj). destruct Rs as (_ & _ & Rs). destruct Rd1 as (_ & _ & Rd1). destruct Rd2 as (_ & _ & Rd2).
  rewrite (Rs a _ (map_nth_error _ a _ Hseq)), (Rd1 a _ (map_nth_error _ a _ Hseq)), (Rd2 a _ (map_nth_error _ a _ Hseq)).
  rewrite (@currents_at_map R (o_edges s) a (vget j) (fun h => current_form (norb (fst h)) (norb (snd h)) (start (fst h)) (start (snd h))
       (onsite_matrix o p (fst h)) (ham_matrix s p (fst h) (snd h)) (vget bra) (vget ket))).
  2:{ intros k e Hk. apply Rj. erewrite map_nth_error; eauto. }
  rewrite (lsum_ext R _ (fun e => current_form (norb a) (norb (snd e)) (start a) (start (snd e)) (onsite_matrix o p a) (ham_matrix s p a (snd e)) (vget bra) (vget ket))).
  2:{ intros [x y] Hx. apply filter_In in Hx. destruct Hx as [_ Hx]. apply Nat.eqb_eq in Hx. cbn in Hx. subst x. reflexivity. }
  apply (@site_balance R Fam norbs fams); intros i Hi; [apply Hhb|apply Hhk]; auto.
Qed.

(** For a state with a real energy the currents and the source at each site balance. *)
Theorem C27_stationary o check check' p qj qs psi hpsi en j so :
  o_cell s = None ->
  make_current o HNone check false = inl qj -> make_source o WNone check' false = inl qs ->
  scalar_fits norbs fams o (seq 0 (o_n s)) -> function_fits norbs fams o (o_edges s) ->
  (forall a b, In (a, b) (o_edges s) -> ham_shape norbs fams s p a b) -> (forall a, a < o_n s -> ham_shape norbs fams s p a a) ->
  apply_ham norbs fams s p (vget psi) (vget hpsi) ->
  (forall i, vget hpsi i = rmul R en (vget psi i)) -> rconj R en = en ->
  call qj psi (Some psi) p = inl (RArr j) -> call qs psi (Some psi) p = inl (RArr so) ->
  forall a, a < o_n s -> radd R (currents_at R (o_edges s) a (vget j)) (vget so a) = r0 R.
Proof.
  intros Hfin Hj Hs Hsc Hf Hh1 Hh2 Hhb Hen Hreal Cj Cs a Ha.
  destruct (@C25_current _ _ _ _ _ _ _ _ _ Hj Cj) as (lj & Elj & Rj). cbn in Elj. subst lj.
  destruct (@C25_source _ _ _ _ _ _ _ _ _ Hs Cs) as (ls & Els & Rs). cbn in Els. subst ls.
  assert (Hns : nsites s = o_n s) by (unfold nsites; rewrite Hfin; auto). rewrite Hns in *.
  assert (Hsce : scalar_fits norbs fams o (map fst (o_edges s))).
  { destruct o; cbn in *; auto. intros Hm x Hx. apply in_map_iff in Hx. destruct Hx as ([x' y] & <- & Hxy). apply (wf_edges W) in Hxy.
    apply Hsc; auto. apply in_seq. cbn. lia. }
  assert (Hh2' : forall x, In x (seq 0 (o_n s)) -> ham_shape norbs fams s p x x) by (intros x Hx; apply in_seq in Hx; apply Hh2; lia).
  specialize (Rj Hsce Hf Hh1). specialize (Rs Hsc Hh2').
  assert (Hseq : nth_error (seq 0 (o_n s)) a = Some a).
  { rewrite (nth_error_nth' _ 0) by (rewrite seq_length; auto). rewrite seq_nth by auto. auto. }
  destruct Rj as (_ & _ & Rj). destruct Rs as (_ & _ & Rs).
  rewrite (Rs a _ (map_nth_error _ a _ Hseq)).
  rewrite (@currents_at_map R (o_edges s) a (vget j) (fun h => current_form (norb (fst h)) (norb (snd h)) (start (fst h)) (start (snd h))
       (onsite_matrix o p (fst h)) (ham_matrix s p (fst h) (snd h)) (vget psi) (vget psi))).
  2:{ intros k e Hk. apply Rj. erewrite map_nth_error; eauto. }
  rewrite (lsum_ext R _ (fun e => current_form (norb a) (norb (snd e)) (start a) (start (snd e)) (onsite_matrix o p a) (ham_matrix s p a (snd e)) (vget psi) (vget psi))).
  2:{ intros [x y] Hx. apply filter_In in Hx. destruct Hx as [_ Hx]. apply Nat.eqb_eq in Hx. cbn in Hx. subst x. reflexivity. }
  transitivity (rmul R (ri R) (rsub R (density_form (norb a) (start a) (onsite_matrix o p a) (vget hpsi) (vget psi))
      (density_form (norb a) (start a) (onsite_matrix o p a) (vget psi) (vget hpsi)))).
  { apply (@site_balance R Fam norbs fams); intros i Hi; apply Hhb; auto. }
  unfold density_form.
  rewrite (@form_ext_v R _ _ (part (vget hpsi) (start a)) (fun i => rmul R en (part (vget psi) (start a) i)) _ (part (vget psi) (start a)) (part (vget psi) (start a)))
    by (unfold part; auto).
  rewrite form_scale_l.
  rewrite (@form_ext_v R _ _ (part (vget psi) (start a)) (part (vget psi) (start a)) _ (part (vget hpsi) (start a)) (fun i => rmul R en (part (vget psi) (start a) i)))
    by (unfold part; auto).
  rewrite form_scale_r, Hreal. ring.
Qed.

(** The current of the reversed hopping has the opposite sign, if the
    Hamiltonian is Hermitian and commutes with the onsite operator. *)
Theorem C27_antisymmetric o w check p q bra ket res k k' a b :
  make_current o w check false = inl q -> call q bra (Some ket) p = inl (RArr res) ->
  nth_error (p_where q) k = Some (a, b) -> nth_error (p_where q) k' = Some (b, a) ->
  scalar_fits norbs fams o (map fst (p_where q)) -> function_fits norbs fams o (p_where q) ->
  (forall a b, In (a, b) (p_where q) -> ham_shape norbs fams s p a b) ->
  (forall c, c = a \/ c = b -> forall i j, i < norb c -> j < norb c -> onsite_matrix o p c i j = rconj R (onsite_matrix o p c j i)) ->
  (forall i j, i < norb b -> j < norb a -> ham_matrix s p b a i j = rconj R (ham_matrix s p a b j i)) ->
  (forall i j, i < norb a -> j < norb b ->
    mmul (norb b) (ham_matrix s p a b) (onsite_matrix o p b) i j = mmul (norb a) (onsite_matrix o p a) (ham_matrix s p a b) i j) ->
  vget res k' = ropp R (vget res k).
Proof.
  intros Hq Hc Hk Hk' Hsc Hf Hh Hm Hherm Hcom.
  apply current_inv in Hq. destruct Hq as (l & ranges & u & Hl & Hlt & _ & Hr & Hu & ->). cbn [p_where] in *.
  assert (HR : is_result false (map (el_of fdec norbs fams s Current o p (vget bra) (vget ket)) l) (RArr res)).
  { eapply call_forms; eauto.
    - intros x y Hxy. apply (wf_edges W). auto.
    - intros [H|H]; discriminate. }
  destruct HR as (_ & _ & HR).
  rewrite (HR k _ (map_nth_error _ _ _ Hk)), (HR k' _ (map_nth_error _ _ _ Hk')). unfold el_of.
  apply current_antisym; auto.
Qed.
End Props.

(** ** Concrete systems (Gaussian integers) *)
Arguments mkOS {R P E Fam}.
Definition gz (a b : Z) : GaussZ := (a, b).
Definition gmat (r c : nat) (l : list (list (Z * Z))) : mat GaussZ :=
  mkMat r c (fun i j => nth j (nth i l []) (0, 0)%Z : GaussZ).
Definition gherm (a b : mat GaussZ) : bool :=
  forallb (fun i => forallb (fun j => let x : Z * Z := mget a i j in let y : Z * Z := mget b j i in
    (fst x =? fst y)%Z && (snd x =? - snd y)%Z) (seq 0 (mc a))) (seq 0 (mr a)).
Definition ex_vec (l : list (Z * Z)) : vec GaussZ := mkVec (length l) (fun i => nth i l (0, 0)%Z : GaussZ).
Definition listof (r : result GaussZ) : list (Z * Z) :=
  match r with RArr v => map (vget v : nat -> Z * Z) (seq 0 (vlen v)) | RScal x => [x : Z * Z] end.
Definition got {A B C} (x : (A + C)%type) (f : A -> B) : option B := match x with inl a => Some (f a) | inr _ => None end.
Definition exjunk : nat -> GaussZ := fun _ => (7, 7)%Z.
Definition gop := (op GaussZ unit unit bool + oerr unit)%type.
(** the values of a call, of act, the entries of tocoo, and the selected hoppings; None: an exception *)
Definition run_call (junk : nat -> GaussZ) (mk : gop) bra ket : option (list (Z * Z)) :=
  match mk with inl q => match call junk gherm q bra ket None with inl r => Some (listof r) | inr _ => None end | inr _ => None end.
Definition run_act (mk : gop) ket : option (list (Z * Z)) :=
  match mk with inl q => match act exjunk gherm q ket None with inl r => Some (listof (RArr r)) | inr _ => None end | inr _ => None end.
Definition run_tocoo (mk : gop) : option (list (nat * nat * (Z * Z))) :=
  match mk with inl q => match tocoo exjunk gherm q None with inl r => Some (centries r) | inr _ => None end | inr _ => None end.
Definition run_where (mk : gop) : option (list (nat * nat)) := match mk with inl q => Some (p_where q) | inr _ => None end.

(** Three sites: one of family true (two orbitals), two of family false (one orbital);
    hoppings 0-1, 1-2. *)
Definition ex_ham (a b : nat) (_ : option unit) : mat GaussZ + unit :=
  match a, b with
  | 0, 0 => inl (gmat 2 2 [[(1, 0); (0, 1)]; [(0, -1); (3, 0)]]%Z)
  | 1, 1 => inl (gmat 1 1 [[(5, 0)]]%Z)
  | 2, 2 => inl (gmat 1 1 [[(-2, 0)]]%Z)
  | 0, 1 => inl (gmat 2 1 [[(1, 1)]; [(2, 0)]]%Z)
  | 1, 0 => inl (gmat 1 2 [[(1, -1); (2, 0)]]%Z)
  | 1, 2 => inl (gmat 1 1 [[(0, 1)]]%Z)
  | 2, 1 => inl (gmat 1 1 [[(0, -1)]]%Z)
  | _, _ => inr tt
  end.
Definition ex_norbs (f : bool) : nat := if f then 2 else 1.
Definition ex_fams : list bool := [true; false; false].
Definition ex_s : osyst GaussZ unit unit bool :=
  mkOS None 3 [(0, 1); (1, 0); (1, 2); (2, 1)] (site_ranges Bool.bool_dec ex_norbs ex_fams) (Some ex_fams) ex_norbs ex_ham.
Example ex_wf : wf Bool.bool_dec ex_norbs ex_fams ex_s.
Proof.
  constructor; cbn; auto.
  - eexists. split; reflexivity.
  - intros a b H. repeat (destruct H as [[= <- <-]|H]; [cbn; lia|]). destruct H.
  - discriminate.
Qed.
(** A dictionary of Hermitian onsite values *)
Definition ex_dict : onsite_in GaussZ unit unit bool :=
  ODict [(true, gmat 2 2 [[(1, 0); (2, 1)]; [(2, -1); (0, 0)]]%Z); (false, gmat 1 1 [[(3, 0)]]%Z)].
Definition ex_bra := ex_vec [(1, 0); (0, 1); (2, 2); (1, -1)]%Z.
Definition ex_ket := ex_vec [(0, 1); (1, 1); (-1, 0); (3, 0)]%Z.
(** Hypotheses of C25_density, C25_source, C25_succeeds, C25_bind, C26 *)
Example ex_density : let mk := make_density Bool.bool_dec gherm ex_s ex_dict WNone true false in
  run_where mk = Some [(0, 0); (1, 1); (2, 2)] /\
  run_call exjunk mk ex_bra (Some ex_ket) = Some [(3, 3); (-6, 6); (9, 9)]%Z /\
  run_act mk ex_ket = Some [(1, 4); (1, 2); (-3, 0); (9, 0)]%Z /\
  run_tocoo mk = Some [(0, 0, (1, 0)%Z); (0, 1, (2, 1)%Z); (1, 0, (2, -1)%Z); (1, 1, (0, 0)%Z); (2, 2, (3, 0)%Z); (3, 3, (3, 0)%Z)].
Proof. repeat split; vm_compute; reflexivity. Qed.
Example ex_good a b : In (a, b) (dup [0; 1; 2]) -> onsite_good gherm ex_norbs ex_fams ex_dict None true a.
Proof. intros H. cbn in H. repeat (destruct H as [[= <- <-]|H]; [cbn; do 2 eexists; split; [reflexivity|auto]|]). destruct H. Qed.
Example ex_ham_good a b : In (a, b) (dup [0; 1; 2]) \/ In (a, b) (o_edges ex_s) -> ham_good gherm ex_norbs ex_fams ex_s None true a b.
Proof.
  intros [H|H]; cbn in H; repeat (destruct H as [[= <- <-]|H];
    [unfold ham_good; cbn; eexists; repeat (split; [reflexivity|]); intros _; eexists; repeat (split; [reflexivity|]); reflexivity|]); destruct H.
Qed.

(** Currents of a function of the site, between sites with equal numbers of orbitals. *)
Definition ex_fun : onsite_in GaussZ unit unit bool := OFun (fun a _ => inl (gmat 1 1 [[(Z.of_nat a, 0)]]%Z)).
Example ex_current : let mk := make_current Bool.bool_dec gherm ex_s ex_fun (HInts [(1, 2); (2, 1)]%Z) true false in
  run_where mk = Some [(1, 2); (2, 1)] /\
  run_call exjunk mk ex_bra (Some ex_ket) = Some [(5, -7); (-10, 14)]%Z /\
  match run_act mk ex_ket with Some l => length l = 4 | None => False end.
Proof. repeat split; vm_compute; reflexivity. Qed.
Example ex_current_fits : function_fits ex_norbs ex_fams ex_fun [(1, 2); (2, 1)].
Proof. intros a b H. cbn in H. repeat (destruct H as [[= <- <-]|H]; [reflexivity|]). destruct H. Qed.

(** A ring of three sites with a persistent current. *)
Definition ring_ham (a b : nat) (_ : option unit) : mat GaussZ + unit :=
  inl (gmat 1 1 [[if a =? b then (4, 0)%Z else if (a + 1) mod 3 =? b then (0, 1)%Z else (0, -1)%Z]]).
Definition ring_s : osyst GaussZ unit unit bool :=
  mkOS None 3 [(0, 1); (0, 2); (1, 0); (1, 2); (2, 0); (2, 1)] (site_ranges Bool.bool_dec ex_norbs [false; false; false]) None ex_norbs ring_ham.
Definition ring_psi := ex_vec [(1, 0); (1, 0); (1, 0)]%Z.
Definition ring_hpsi : vec GaussZ := mkVec 3 (fun i => rmul GaussZ (4, 0)%Z (vget ring_psi i)).
Example ring_wf : wf Bool.bool_dec ex_norbs [false; false; false] ring_s.
Proof.
  constructor; cbn; auto.
  - eexists. split; reflexivity.
  - intros a b H. repeat (destruct H as [[= <- <-]|H]; [cbn; lia|]). destruct H.
  - discriminate.
Qed.
Example ring_apply : apply_ham ex_norbs [false; false; false] ring_s None (vget ring_psi) (vget ring_hpsi).
Proof. intros a i Ha Hi. destruct a as [|[|[|a]]]; [| | |cbn in Ha; lia]; (destruct i as [|i]; [|cbn in Hi; lia]); vm_compute; reflexivity. Qed.
Example ring_shape a b : In (a, b) (o_edges ring_s) \/ a = b /\ a < 3 -> ham_shape ex_norbs [false; false; false] ring_s None a b.
Proof.
  intros H m [= <-]. destruct H as [H|[<- H]].
  - cbn in H. repeat (destruct H as [[= <- <-]|H]; [cbn; auto|]). destruct H.
  - destruct a as [|[|[|a]]]; [cbn; auto..|lia].
Qed.
Example ring_stationary :
  run_call exjunk (make_current Bool.bool_dec gherm ring_s (OMat (gmat 1 1 [[(3, 0)]]%Z)) HNone true false) ring_psi (Some ring_psi) =
    Some [(6, 0); (-6, 0); (-6, 0); (6, 0); (6, 0); (-6, 0)]%Z /\
  run_call exjunk (make_source Bool.bool_dec gherm ring_s (OMat (gmat 1 1 [[(3, 0)]]%Z)) WNone true false) ring_psi (Some ring_psi) =
    Some [(0, 0); (0, 0); (0, 0)]%Z /\
  run_call exjunk (make_density Bool.bool_dec gherm ring_s (OMat (gmat 1 1 [[(3, 0)]]%Z)) WNone true false) ring_hpsi (Some ring_psi) =
    Some [(12, 0); (12, 0); (12, 0)]%Z.
Proof. repeat split; vm_compute; reflexivity. Qed.

(** ** What the code gets wrong *)
(** A scalar [onsite] on a system with different numbers of orbitals: the
    density of site 1 (one orbital, onsite 1) should be conj(bra) * ket, and is;
    but the matrix of tocoo has additional entries, and with the family of two
    orbitals in second place the wrong memory is read. *)
Definition ex_one : onsite_in GaussZ unit unit bool := OMat (gmat 1 1 [[(1, 0)]]%Z).
Definition ex3_norbs (f : bool) : nat := if f then 3 else 2.
Definition ex3_s : osyst GaussZ unit unit bool :=
  mkOS None 2 [] (site_ranges Bool.bool_dec ex3_norbs [true; false]) (Some [true; false]) ex3_norbs (fun _ _ _ => inr tt).
Definition ex3_psi := ex_vec [(0, 0); (0, 0); (0, 0); (1, 0); (1, 0)]%Z.
Example C25_scalar_refuted :
  run_call exjunk (make_density Bool.bool_dec gherm ex3_s ex_one WNone true false) ex3_psi None = Some [(0, 0); (1, 0)]%Z /\
  density_form 2 3 (onsite_matrix Bool.bool_dec [true; false] ex_one None 1) (vget ex3_psi) (vget ex3_psi) = (2, 0)%Z.
Proof. repeat split; vm_compute; reflexivity. Qed.
(** ... and tocoo fails altogether, as its indices leave the matrix. *)
Example C26_scalar_tocoo_refuted : let mk := make_density Bool.bool_dec gherm ex3_s ex_one WNone true false in
  run_where mk = Some [(0, 0); (1, 1)] /\ run_tocoo mk = None.
Proof. repeat split; vm_compute; reflexivity. Qed.
(** Current with a dictionary between sites with different numbers of orbitals:
    the current (0, 1) depends on memory outside of the blocks. *)
Example C25_current_norbs_refuted : let mk := make_current Bool.bool_dec gherm ex_s ex_dict (HInts [(0, 1)]%Z) true false in
  run_call (fun _ => (0, 0)%Z : GaussZ) mk ex_bra (Some ex_ket) <> run_call exjunk mk ex_bra (Some ex_ket).
Proof. vm_compute. discriminate. Qed.
(** The size of a hopping is only refused if both dimensions are wrong. *)
Definition ex4_s : osyst GaussZ unit unit bool :=
  mkOS None 2 [(0, 1); (1, 0)] (site_ranges Bool.bool_dec ex_norbs [true; true]) (Some [true; true]) ex_norbs
    (fun a b _ => inl (if a =? b then gmat 2 2 []%Z else gmat 2 1 [[(1, 0)]; [(1, 0)]]%Z)).
Example C25_ham_shape_refuted : let mk := make_current Bool.bool_dec gherm ex4_s ex_one HNone false false in
  run_call (fun _ => (0, 0)%Z : GaussZ) mk ex_bra (Some ex_ket) <> run_call exjunk mk ex_bra (Some ex_ket).
Proof. vm_compute. discriminate. Qed.
(** In an infinite system with cell size 1, the hopping (0, 1) to the next cell
    is accepted although wave functions have only the orbitals of the cell. *)
Definition ex5_s : osyst GaussZ unit unit bool :=
  mkOS (Some 1) 2 [(0, 1)] (site_ranges Bool.bool_dec ex_norbs [false; false]) (Some [false; false]) ex_norbs (fun _ _ _ => inl (gmat 1 1 [[(1, 0)]]%Z)).
Example C25_infinite_hopping_refuted : run_where (make_current Bool.bool_dec gherm ex5_s ex_one (HInts [(0, 1)]%Z) true false) = Some [(0, 1)] /\
  start ex_norbs [false; false] (nsites ex5_s) = 1 /\ start ex_norbs [false; false] 1 = 1.
Proof. repeat split; vm_compute; reflexivity. Qed.
(** No hopping selected: an exception instead of an empty result. *)
Example C25_no_hopping_refuted : make_current Bool.bool_dec gherm ex3_s ex_one HNone true false = inr EValue.
Proof. reflexivity. Qed.
