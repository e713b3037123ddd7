(** * C34: add_peierls_phase. *)
From Coq Require Import List Bool Arith ZArith Sorting.Sorted.
From Verif Require Import BuilderModel BuilderSpec BuilderProps SymmetryModel SymmetryProofs GraphModel SystemModel SystemSpec SystemProps
  ParamModel SubstModel PeierlsModel PeierlsProofs.
Import ListNotations.
Local Open Scope nat_scope.

(** [C]: values with Hermitian conjugation [conj]; [Ph]: phases with their own;
    [times]: value * phase.  [phase o a b]: the result of calling o(a, b). *)
Section C34.
Variables site obj name C Ph : Type.
Variable dec : forall a b : site, {a = b} + {a <> b}.
Variable leb : site -> site -> bool.
Hypothesis TO : total_order leb.
Variable junk : nat -> nat -> Z.
Variable conj : C -> C.
Variable conjP : Ph -> Ph.
Variable times : C -> Ph -> C.
Hypothesis conj_conj : forall c, conj (conj c) = c.
Hypothesis conj_times : forall c p, conj (times c p) = times (conj c) (conjP p).
Variable phase : obj -> site -> site -> option Ph.
Variable ndec : forall a b : name, {a = b} + {a <> b}.
Variable P : pyfuns site obj name C.
Variables site0 site1 peierls : name.
Notation funs T := (@pfuns site obj name C Ph dec conj P times phase site0 site1 peierls T).
Notation add Sy := (@add_peierls site obj name C dec Sy ndec P site0 site1 peierls).

(** The phase function the user passes. *)
Definition hermitian_phase (phi : obj) : Prop := forall a b, phase phi b a = option_map conjP (phase phi a b).
Definition invariant_phase (Sy : Symmetry site) (phi : obj) : Prop :=
  forall g a b, phase phi (act Sy g a) (act Sy g b) = phase phi a b.
(** a matrix element times phi(a, b) (exceptions are passed on) *)
Definition with_phase (r : fres site C) (p : option Ph) : fres site C :=
  match r with
  | inl c => match p with Some p => inl (times c p) | None => inr (FUser site) end
  | inr e => inr e
  end.

(** Exactly when the parameter names clash is the builder rejected. *)
Theorem C34_errors : forall Sy, SymLaws Sy -> forall h, reachable dec Sy h ->
  match add Sy h with
  | inl _ => NoDup [site0; site1; peierls] /\
      forall a b f, In (a, b, VFun C f) (hopping_value_pairs h) -> NoDup ([site0; site1] ++ skipn 2 (pf_params P f) ++ [peierls])
  | inr e => e = EValue _ /\ (~ NoDup [site0; site1; peierls] \/
      exists a b f, In (a, b, VFun C f) (hopping_value_pairs h) /\ ~ NoDup ([site0; site1] ++ skipn 2 (pf_params P f) ++ [peierls]))
  end.
Proof. exact (fun Sy L h R => @add_errors site obj name C dec Sy L conj ndec P site0 site1 peierls h R). Qed.

Section Params.
Variable env : name -> option obj.       (* the parameters, by name *)
Variable phi : obj.
Hypothesis Hphi : env peierls = Some phi.
Notation h_old Sy := (@ham site Sy C conj P (@call1 site obj name C P env) (@call2 site obj name C P env)).
Notation h_new Sy T := (@ham site Sy C conj (pfun P) (@call1 site obj name C (funs T) env) (@call2 site obj name C (funs T) env)).
Notation hi_old Sy := (@ham_inf site Sy C conj P (@call1 site obj name C P env) (@call2 site obj name C P env)).
Notation hi_new Sy T := (@ham_inf site Sy C conj (pfun P) (@call1 site obj name C (funs T) env) (@call2 site obj name C (funs T) env)).
Notation NS := (NoSymmetry site).

Lemma Forall2_det (A B : Type) (R : A -> B -> Prop) : (forall x y y', R x y -> R x y' -> y = y') ->
  forall l m m', Forall2 R l m -> Forall2 R l m' -> m = m'.
Proof.
  intros D l m m' H. revert m'. induction H as [|x y l m Hxy H IH]; intros m' H'; inversion H'; subst; auto. f_equal; eauto.
Qed.

Lemma eval_user (r : option C) (p : option Ph) : user site (mul times r p) = with_phase (user site r) p.
Proof. destruct r, p; reflexivity. Qed.

(** Systems without symmetry. *)
Theorem C34_finite : hermitian_phase phi -> forall h ret T ifaces pads s, reachable dec NS h ->
  add NS h = inl (ret, T) -> finalize_finite dec leb junk h ifaces pads = inl s ->
  exists s', finalize_finite dec leb junk ret ifaces pads = inl s' /\
    s_sites s' = s_sites s /\ s_ifaces s' = s_ifaces s /\
    (forall i, i < length (s_sites s) -> h_new NS T s' i i = h_old NS s i i) /\
    (forall i j a b, i <> j -> nth_error (s_sites s) i = Some a -> nth_error (s_sites s) j = Some b ->
       h_new NS T s' i j = with_phase (h_old NS s i j) (phase phi a b)).
Proof.
  intros HP h ret T ifaces pads s R A E. pose proof (NoSymmetry_laws site) as L.
  destruct (@add_main site obj name C Ph dec NS L conj ndec P times phase site0 site1 peierls env phi Hphi conjP conj_conj conj_times h ret T R A)
    as (R' & RS & RN & RH).
  assert (E' : exists s', finalize_finite dec leb junk ret ifaces pads = inl s').
  { apply (@C20_succeeds site dec leb C conj (pfun P) junk ret ifaces pads R'). intros l x Hl Hx Hn. rewrite RS in Hn.
    destruct (read_site dec NS conj h x) eqn:Ex; [discriminate|].
    rewrite (@C20_lead_on_missing_site site dec leb C conj P junk h ifaces pads l x R Hl Hx Ex) in E. discriminate. }
  destruct E' as (s' & E'). exists s'. split; auto.
  destruct (@C20_finalized site dec leb TO C conj P (@call1 site obj name C P env) (@call2 site obj name C P env) junk h ifaces pads s R E)
    as (A1 & A2 & A3 & A4 & A5 & A6 & A7 & A8).
  destruct (@C20_finalized site dec leb TO C conj (pfun P) (@call1 site obj name C (funs T) env) (@call2 site obj name C (funs T) env) junk ret ifaces pads s' R' E')
    as (B1 & B2 & B3 & B4 & B5 & B6 & B7 & B8).
  assert (SE : s_sites s' = s_sites s).
  { apply (sorted_unique TO); auto. intros x. rewrite B3, A3, RS. destruct (read_site dec NS conj h x); cbn; split; congruence. }
  split; auto. split; [|split].
  - rewrite SE in B7. refine (@Forall2_det _ _ _ _ _ _ _ B7 A7). intros l m m'. apply Forall2_det. intros x k k' Hk Hk'.
    apply (proj1 (NoDup_nth_error (s_sites s)) A2); [|congruence]. apply nth_error_Some. rewrite Hk. discriminate.
  - intros i Hi. destruct (nth_error (s_sites s) i) as [a|] eqn:Ea; [|apply nth_error_None in Ea; exfalso; apply (Nat.lt_irrefl i); eapply Nat.lt_le_trans; eauto].
    destruct (A5 i a Ea) as (v & Hv & ->). rewrite <- SE in Ea. destruct (B5 i a Ea) as (v' & Hv' & ->). rewrite RS, Hv in Hv'. cbn in Hv'. injection Hv' as <-.
    f_equal. apply call_lift.
  - intros i j a b n Ha Hb. rewrite (A6 i j a b n Ha Hb). rewrite <- SE in Ha, Hb. rewrite (B6 i j a b n Ha Hb).
    destruct (read_hop dec NS conj h a b) as [v|] eqn:Ev.
    + destruct (RH a b v Ev) as (v' & -> & [X|X]); (etransitivity; [exact (f_equal (user site) X)|]); rewrite eval_user; f_equal; cbn [fst snd to_fd2]; change (act NS (eneg NS (which NS a))) with (fun x : site => x); change (act NS (eneg NS (which NS b))) with (fun x : site => x); cbv beta; auto.
    + apply (proj2 (RN a b)) in Ev. rewrite Ev. reflexivity.
Qed.

(** Whatever phi returns, the result is Hermitian. *)
Theorem C34_hermitian : forall h ret T ifaces pads s' i j, reachable dec NS h ->
  add NS h = inl (ret, T) -> finalize_finite dec leb junk ret ifaces pads = inl s' ->
  i < length (s_sites s') -> j < length (s_sites s') -> i <> j ->
  h_new NS T s' j i = match h_new NS T s' i j with inl c => inl (conj c) | inr e => inr e end.
Proof.
  intros h ret T ifaces pads s' i j R A E. pose proof (NoSymmetry_laws site) as L.
  destruct (@add_main site obj name C Ph dec NS L conj ndec P times phase site0 site1 peierls env phi Hphi conjP conj_conj conj_times h ret T R A)
    as (R' & _).
  exact (@C20_hermitian site dec leb TO C conj (pfun P) (@call1 site obj name C (funs T) env) (@call2 site obj name C (funs T) env) junk ret ifaces pads s' i j conj_conj R' E).
Qed.

(** Systems with one translational symmetry (also the leads, whose phase is
    passed under their own parameter name). *)
Theorem C34_infinite : forall Sy dom tr, SymLaws Sy -> one_dim Sy dom tr ->
  (forall k a b, leb (act Sy (tr k) a) (act Sy (tr k) b) = leb a b) ->
  hermitian_phase phi -> invariant_phase Sy phi ->
  forall h ret T order s, reachable dec Sy h ->
  add Sy h = inl (ret, T) -> finalize_infinite dec leb Sy junk dom tr h order = inl s ->
  exists s', finalize_infinite dec leb Sy junk dom tr ret order = inl s' /\
    s_sites s' = s_sites s /\ s_cell s' = s_cell s /\
    (forall i, i < length (s_sites s) -> hi_new Sy T s' i i = hi_old Sy s i i) /\
    (forall i j a b, i <> j -> nth_error (s_sites s) i = Some a -> nth_error (s_sites s) j = Some b ->
       hi_new Sy T s' i j = with_phase (hi_old Sy s i j) (phase phi a b)).
Proof.
  intros Sy dom tr L OD inv HP HI h ret T order s R AD E.
  destruct (@add_main site obj name C Ph dec Sy L conj ndec P times phase site0 site1 peierls env phi Hphi conjP conj_conj conj_times h ret T R AD)
    as (R' & RS & RN & RH).
  assert (CN : forall t, connected dec Sy conj dom ret t <-> connected dec Sy conj dom h t).
  { intros t. unfold connected. split; intros (D & x & X & Y); (split; [exact D|]); exists x; (split; [|exact Y]); intros Z; apply X; apply (RN t x); exact Z. }
  assert (NC : nearest_cells dec Sy conj dom ret <-> nearest_cells dec Sy conj dom h).
  { unfold nearest_cells. split; intros X a b Z; apply X; intros Q; apply Z; apply (RN a b); exact Q. }
  assert (CO : forall o, correct_order dec Sy conj dom tr leb ret o <-> correct_order dec Sy conj dom tr leb h o).
  { intros o. unfold correct_order. split; intros (X & Y & k & Z); (split; [exact X|split; [exact Y|exists k; intros t; rewrite Z, CN; reflexivity]]). }
  assert (E' : exists s', finalize_infinite dec leb Sy junk dom tr ret order = inl s').
  { destruct (@C21_accepts site dec leb TO Sy L dom tr OD inv C conj P junk h order R) as [[[X Y] _]|[_ X]]; [|congruence].
    destruct (@C21_accepts site dec leb TO Sy L dom tr OD inv C conj (pfun P) junk ret order R') as [[_ Z]|[Z _]]; [exact Z|].
    exfalso. apply Z. split; [apply NC; exact X|]. intros o Ho. apply CO. auto. }
  destruct E' as (s' & E'). exists s'. split; auto.
  destruct (@C21_finalized site dec leb TO Sy L dom tr OD inv C conj P (@call1 site obj name C P env) (@call2 site obj name C P env) junk h order s R E)
    as (A & B & A1 & A2 & A3 & A4 & A5 & A6 & A7 & A8 & A9 & A10).
  destruct (@C21_finalized site dec leb TO Sy L dom tr OD inv C conj (pfun P) (@call1 site obj name C (funs T) env) (@call2 site obj name C (funs T) env) junk ret order s' R' E')
    as (A' & B' & B1 & B2 & B3 & B4 & B5 & B6 & B7 & B8 & B9 & B10).
  assert (ND : forall l1 l2 l3 : list site, NoDup (l1 ++ l2 ++ l3) -> NoDup l1 /\ NoDup l2).
  { intros l1 l2 l3. clear. induction l1 as [|x l1 IH]; cbn; intros H.
    - split; [constructor|]. induction l2 as [|y l2 IH]; cbn in H; [constructor|]. inversion H; subst. constructor; auto. intros Q. apply H2. apply in_or_app; auto.
    - inversion H; subst. destruct (IH H3). split; auto. constructor; auto. intros Q. apply H2. apply in_or_app; auto. }
  pose proof A3 as A3'. rewrite A1 in A3'. apply ND in A3'. pose proof B3 as B3'. rewrite B1 in B3'. apply ND in B3'. destruct A3', B3'.
  assert (AA : A' = A) by (apply (sorted_unique TO); auto; intros t; rewrite B6, A6; apply CN).
  assert (BB : B' = B).
  { apply (sorted_unique TO); auto. intros t. rewrite B7, A7, CN, RS. destruct (read_site dec Sy conj h t); cbn; split; intros (U & V & W); repeat split; auto; congruence. }
  subst A' B'. assert (SE : s_sites s' = s_sites s) by congruence.
  split; auto. split; [congruence|]. split.
  - intros i Hi. destruct (nth_error (s_sites s) i) as [a|] eqn:Ea; [|apply nth_error_None in Ea; exfalso; apply (Nat.lt_irrefl i); eapply Nat.lt_le_trans; eauto].
    destruct (A9 i a Ea) as (v & Hv & ->). rewrite <- SE in Ea. destruct (B9 i a Ea) as (v' & Hv' & ->). rewrite RS, Hv in Hv'. cbn in Hv'. injection Hv' as <-.
    f_equal. apply call_lift.
  - intros i j a b n Ha Hb. rewrite (A10 i j a b n Ha Hb). rewrite <- SE in Ha, Hb. rewrite (B10 i j a b n Ha Hb).
    replace (s_cell s') with (s_cell s) by congruence. destruct ((s_cell s <=? i) && (s_cell s <=? j)); [reflexivity|].
    destruct (read_hop dec Sy conj h a b) as [v|] eqn:Ev.
    + destruct (RH a b v Ev) as (v' & -> & [X|X]); (etransitivity; [exact (f_equal (user site) X)|]); rewrite eval_user; f_equal; cbn [fst snd to_fd2]; rewrite HI; auto.
    + apply (proj2 (RN a b)) in Ev. rewrite Ev. reflexivity.
Qed.
End Params.
End C34.
Print Assumptions C34_errors.
Print Assumptions C34_finite.
Print Assumptions C34_hermitian.
Print Assumptions C34_infinite.

(** *** A concrete case: values are Gaussian integers, sites integers,
    phi = n means the phase i^(n (a - b)).  Names: 0 "site", 1 "site1",
    2 "site2", 3 "t", 4 "_site0", 5 "_site1", 6 "phi". *)
Local Open Scope Z_scope.
Definition gmul (x y : exC) : exC := (fst x * fst y - snd x * snd y, fst x * snd y + snd x * fst y).
Definition ipow (n : Z) : exC := match n mod 4 with 0 => (1, 0) | 1 => (0, 1) | 2 => (-1, 0) | _ => (0, -1) end.
Definition ex_phase (n a b : Z) : option exC := Some (ipow (n * (a - b))).
Definition ex_pfuns : pyfuns Z Z nat exC :=
  mkFuns (fun f : bool => if f then [1; 2; 3]%nat else [0]%nat)
         (fun (f : bool) l => match f, l with
                     | false, [ASite s] => Some (s, 0)
                     | true, [ASite a; ASite b; AObj t] => Some (10 * a + b, t)
                     | _, _ => None end).
Example ex_conj_conj : forall c, exconj (exconj c) = c.
Proof. intros [x y]. unfold exconj. cbn. f_equal. apply Z.opp_involutive. Qed.
Example ex_conj_times : forall c p, exconj (gmul c p) = gmul (exconj c) (exconj p).
Proof. intros [x y] [u v]. unfold exconj, gmul. cbn. f_equal; ring. Qed.
Example ex_hermitian : forall n, hermitian_phase Z Z exC exconj ex_phase n.
Proof.
  intros n a b. unfold ex_phase. cbn. f_equal. replace (n * (b - a)) with (- (n * (a - b))) by ring. generalize (n * (a - b)). clear. intros k.
  unfold ipow. pose proof (Z.mod_pos_bound k 4 eq_refl) as B. pose proof (Z.div_mod k 4 ltac:(discriminate)) as D.
  assert (X : (- k) mod 4 = (- (k mod 4)) mod 4).
  { rewrite D at 1. replace (- (4 * (k / 4) + k mod 4)) with (- (k mod 4) + (- (k / 4)) * 4) by ring. apply Z.mod_add. discriminate. }
  rewrite X. clear X D. destruct B as [B1 B2]. generalize dependent (k mod 4). intros m B1 B2.
  assert (M : m = 0 \/ m = 1 \/ m = 2 \/ m = 3).
  { destruct m as [|p|p]; [auto| |exfalso; apply B1; reflexivity]. destruct p as [[|[]|]|[[]|[]|]|]; auto; exfalso; clear - B2; try (destruct p; discriminate B2); discriminate B2. }
  destruct M as [->|[->|[->| ->]]]; reflexivity.
Qed.
Notation pzNS := (NoSymmetry Z).
Definition ex_psys : store Z exC (pf ex_pfuns) :=
  let set h k v := fst (setitem Z.eq_dec pzNS h (Simple (site:=Z) exC (pf ex_pfuns) k) v) in
  set (set (set (set (set [] (KSite 3) (VConst _ (7, 0))) (KSite 1) (VFun exC (false : pf ex_pfuns))) (KSite 2) (VConst _ (8, 0)))
    (KHop 2 1) (VFun exC (true : pf ex_pfuns))) (KHop 2 3) (VConst _ (1, 2)).
Example ex_psys_reachable : reachable Z.eq_dec pzNS ex_psys.
Proof. repeat apply r_set. apply r_empty. Qed.
Definition ex_penv (n : nat) : option Z := match n with 3%nat => Some 5 | 6%nat => Some 1 | _ => None end.
Definition ex_pnew : list (fres Z exC) :=
  match @add_peierls Z Z nat exC Z.eq_dec pzNS Nat.eq_dec ex_pfuns 4%nat 5%nat 6%nat ex_psys with
  | inl (ret, T) =>
    match finalize_finite Z.eq_dec Z.leb (fun _ _ => 0) ret [[3]] [] with
    | inl s => let fs := @pfuns Z Z nat exC exC Z.eq_dec exconj ex_pfuns gmul ex_phase 4%nat 5%nat 6%nat T in
        map (fun p => @ham Z pzNS exC exconj (pf fs) (@call1 Z Z nat exC fs ex_penv) (@call2 Z Z nat exC fs ex_penv) s (fst p) (snd p))
          [(0, 0); (1, 1); (1, 0); (0, 1); (1, 2); (2, 1); (0, 2)]%nat
    | inr _ => [] end
  | inr _ => [] end.
(** i * (21 + 5i) = -5 + 21i,  -i * (1 + 2i) = 2 - i *)
Example ex_peierls : ex_pnew = [inl (1, 0); inl (8, 0); inl (-5, 21); inl (-5, -21); inl (2, -1); inl (2, 1); inr (FGraph Z GEdge)].
Proof. vm_compute. reflexivity. Qed.
(** 't' is already a parameter of the hopping function *)
Example ex_peierls_clash : @add_peierls Z Z nat exC Z.eq_dec pzNS Nat.eq_dec ex_pfuns 4%nat 5%nat 3%nat ex_psys = inr (EValue _).
Proof. reflexivity. Qed.
