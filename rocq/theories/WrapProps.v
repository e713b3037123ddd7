(** * C33: wraparound. *)
From Coq Require Import List Bool Arith ZArith Permutation Sorting.Sorted Lia Lra Reals.
From Verif Require Import BuilderModel BuilderSpec BuilderProofs BuilderMain BuilderProps SymmetryModel SymmetryProofs GraphModel SystemModel SystemSpec SystemProps
  ParamModel SubstModel PeierlsModel PeierlsProofs WrapModel WrapSpec WrapSym WrapEval WrapDict WrapMain WrapTrans PeierlsProps.
Import ListNotations.
Local Open Scope nat_scope.

(** [C]: values with addition [add], [zero] and Hermitian conjugation [conj];
    [Ph]: phase factors with conjugation [conjP]; [scal]: phase * value;
    [bloch g k]: exp(i g.k).  [S]: the translations of the builder, [W]: those that
    are replaced by momenta, [R]: the remaining ones. *)
Section C33.
Variables site obj name C Ph : Type.
Variable dec : forall a b : site, {a = b} + {a <> b}.
Variable leb : site -> site -> bool.
Hypothesis TO : total_order leb.
Variable junk : nat -> nat -> Z.
Variable conj : C -> C.
Variable add : C -> C -> C.
Variable zero : C.
Variable scal : Ph -> C -> C.
Variable conjP : Ph -> Ph.
Hypothesis add_comm : forall a b, add a b = add b a.
Hypothesis add_assoc : forall a b c, add a (add b c) = add (add a b) c.
Hypothesis add_0 : forall a, add zero a = a.
Hypothesis conj_add : forall a b, conj (add a b) = add (conj a) (conj b).
Hypothesis conj_conj : forall a, conj (conj a) = a.
Hypothesis conj_0 : conj zero = zero.
Hypothesis conj_scal : forall p c, conj (scal p c) = scal (conjP p) (conj c).
Hypothesis scal_0 : forall p, scal p zero = zero.
Variable ndec : forall a b : name, {a = b} + {a <> b}.
Variable P : pyfuns site obj name C.                 (* the user's functions *)
Variables site0 site1 : name.                        (* '_site0', '_site1' *)
Hypothesis s01 : site0 <> site1.
Variable momenta : list name.
Hypothesis mom_ne : momenta <> [].
(** sorted() returns some permutation of the indices *)
Variable argsort : list (list name) -> list nat.
Hypothesis argsort_perm : forall l, Permutation (argsort l) (seq 0 (length l)).
Notation wraparound S R W pW := (@wraparound site obj name C dec S R W pW conj ndec P site0 site1 momenta).

(** What an onsite function has to look like: its first parameter is the site, and
    no other one is called '_site0'. *)
Definition onsite_signature (v : val C P) : Prop :=
  match v with
  | VConst _ _ => True
  | VFun _ f | VHC _ f => exists p ps, pf_params P f = p :: ps /\ ~ In site0 ps
  end.
Definition good_onsite (h : store site C P) : Prop := forall s v, In (s, v) (site_value_pairs h) -> onsite_signature v.

(** The signatures of the functions that wraparound constructs for an onsite value
    and for a hopping from a to b (all of whose names have to be different). *)
Definition site_names (v : val C P) : list name :=
  match v with VConst _ _ => [] | VFun _ f | VHC _ f => pf_params P f ++ momenta end.
Definition hop_names (S W : Symmetry site) (pW : elt S -> elt W) (a b : site) (v : val C P) : list name :=
  let own := match v with VConst _ _ => [] | VFun _ f | VHC _ f => skipn 2 (pf_params P f) end in
  if dec a (act W (eneg W (dom S W pW b)) b) then [site0] ++ own ++ momenta
  else match eis0 W (dom S W pW b), v with
       | true, VConst _ _ => []
       | _, _ => [site0; site1] ++ own ++ momenta
       end.

Lemma good_pars h : good_onsite h -> forall s v, In (s, v) (site_value_pairs h) -> site_pars P site0 v.
Proof. intros H s v Hin. specialize (H s v Hin). destruct v; exact H. Qed.

Section Split.
Variables S R W : Symmetry site.
Variable pW : elt S -> elt W.
Hypothesis LS : SymLaws S.
Hypothesis LR : SymLaws R.
Hypothesis LW : SymLaws W.
Hypothesis SP : splits S R W pW.

Lemma site_sig_names v : site_sig W P site0 site1 momenta v <-> NoDup (site_names v).
Proof. destruct v; cbn; try reflexivity. split; [constructor|auto]. Qed.
Lemma hop_sig_names a b v : hop_sig dec S W pW P site0 site1 momenta (a, b, v) <-> NoDup (hop_names S W pW a b v).
Proof.
  unfold hop_sig, hop_names, hop_bound, wa, edom, val_params. cbn [fst snd]. destruct (dec _ _); [destruct v; reflexivity|].
  destruct (eis0 W (dom S W pW b)), v; cbn [negb orb is_callable]; try reflexivity. split; [constructor|auto].
Qed.
Lemma nodup_dec (l : list name) : NoDup l \/ ~ NoDup l.
Proof. destruct (ListDec.NoDup_dec ndec l); auto. Qed.

(** Exactly when parameter names clash is the builder rejected. *)
Theorem C33_errors : forall h, reachable dec S h -> good_onsite h ->
  match wraparound S R W pW h with
  | inl _ => (forall s v, In (s, v) (site_value_pairs h) -> NoDup (site_names v)) /\
      (forall a b v, In (a, b, v) (hopping_value_pairs h) -> NoDup (hop_names S W pW a b v))
  | inr e => e = EValue _ /\
      ((exists s v, In (s, v) (site_value_pairs h) /\ ~ NoDup (site_names v)) \/
       (exists a b v, In (a, b, v) (hopping_value_pairs h) /\ ~ NoDup (hop_names S W pW a b v)))
  end.
Proof.
  intros h Re G. pose proof (@wrap_struct site obj name C dec S R W pW LS LR LW SP conj ndec P site0 site1 momenta mom_ne h Re (good_pars h G)) as H.
  destruct (wraparound S R W pW h) as [ret|e].
  - destruct H as (A & B & _). rewrite Forall_forall in A, B. split.
    + intros s v Hin. apply site_sig_names. exact (A _ Hin).
    + intros a b v Hin. apply hop_sig_names. exact (B _ Hin).
  - destruct H as (E & [H|H]); (split; [exact E|]); apply Exists_exists in H.
    + destruct H as ([s v] & Hin & H). left. exists s, v. split; auto. rewrite <- site_sig_names. exact H.
    + destruct H as ([[a b] v] & Hin & H). right. exists a, b, v. split; auto. rewrite <- hop_sig_names. exact H.
Qed.

(** The sites of the new builder: those of the old one in the cells that differ from
    the fundamental domain by kept translations only. *)
Theorem C33_sites : forall h ret, reachable dec S h -> good_onsite h -> wraparound S R W pW h = inl ret ->
  reachable dec R ret /\
  forall x, read_site dec R conj ret x <> None <-> proper S W pW x /\ read_site dec S conj h x <> None.
Proof.
  intros h ret Re G E. pose proof (@wrap_struct site obj name C dec S R W pW LS LR LW SP conj ndec P site0 site1 momenta mom_ne h Re (good_pars h G)) as H.
  rewrite E in H. tauto.
Qed.

(** Only finitely many translations of y are connected to x. *)
Theorem C33_finitely_many : forall (h : store site C P) x y, reachable dec S h -> proper S W pW x -> proper S W pW y ->
  exists G, NoDup G /\ forall g, x = act W g y \/ read_hop dec S conj h x (act W g y) <> None -> In g G.
Proof.
  intros h x y Re Px Py.
  assert (edec : forall g g' : elt W, {g = g'} + {g <> g'}).
  { intros g g'. destruct (eis0 W (eadd W (eneg W g') g)) eqn:E.
    - left. apply (law_is0 LW) in E. apply (e_cancel_l LW (eneg W g')). rewrite E, (law_negl LW). reflexivity.
    - right. intros ->. assert (X : eis0 W (eadd W (eneg W g') g') = true) by (apply (law_is0 LW); apply (law_negl LW)). congruence. }
  exists (nodup edec (e0 W :: flat_map (fun t => [dom S W pW (snd (fst t)); eneg W (dom S W pW (snd (fst t)))]) (hopping_value_pairs h))).
  split; [apply NoDup_nodup|]. intros g [E|Hg]; apply nodup_In.
  - left. destruct (hop_same LS LW SP g Px Py E) as [-> _]. reflexivity.
  - right. destruct (hvp_facts LS conj Re) as (_ & _ & H3 & H4). destruct (H4 _ _ Hg) as (a & b & v & Hin & Q). apply in_flat_map. exists (a, b, v). split; auto.
    assert (Pa : proper S W pW a).
    { apply (proper_fd LS LW SP). destruct (H3 a b v Hin) as (_ & _ & _ & _ & E & _). unfold to_fd2 in E. injection E as E1 E2.
      pose proof (f_equal (which S) E1) as X. rewrite (law_which LS), (law_negl LS) in X. auto. }
    cbn [fst snd]. destruct Q as [Q|Q].
    + apply (hop_fwd LS LW SP b g Pa Px Py) in Q. left. symmetry. tauto.
    + apply (hop_bwd LS LW SP b g Pa Px Py) in Q. right. left. symmetry. tauto.
Qed.

Section Params.
Variable env : name -> option obj.       (* the parameters, by name *)
Variable ks : list obj.                  (* the momenta *)
Hypothesis Hks : omap env momenta = Some ks.
Notation kargs := (map (@AObj site obj) ks).
Variable bloch : elt W -> list (arg site obj) -> Ph.
Hypothesis bloch_0 : forall c, scal (bloch (e0 W) kargs) c = c.
Hypothesis bloch_neg : forall g, bloch (eneg W g) kargs = conjP (bloch g kargs).
(** Value functions do not distinguish sites related by a kept translation. *)
Hypothesis inv1 : forall v r s, call1 P env v (act R r s) = call1 P env v s.
Hypothesis inv2 : forall f r a b, call2 P env f (act R r a) (act R r b) = call2 P env f a b.
Notation wfuns := (@wfuns site obj name C Ph W conj add zero scal bloch ndec P site0 site1 momenta argsort).
Notation call1' := (@call1 site obj name C wfuns env).
Notation call2' := (@call2 site obj name C wfuns env).

(** The matrix element <x| H(k) |y>: the sum over the translations in G of
    exp(i g.k) <x| H |g y>. *)
Definition bloch_sum_over (h : store site C P) (x y : site) (G : list (elt W)) : option C :=
  osum add zero (map (fun g => option_map (scal (bloch g kargs))
    (element dec S conj zero (call1 P env) (call2 P env) h x (act W g y))) G).
(** G lists all translations that contribute, each once. *)
Definition all_images (h : store site C P) (x y : site) (G : list (elt W)) : Prop :=
  NoDup G /\ forall g, x = act W g y \/ read_hop dec S conj h x (act W g y) <> None -> In g G.

Theorem C33_bloch : forall h ret, reachable dec S h -> good_onsite h -> wraparound S R W pW h = inl ret ->
  forall x y G, read_site dec R conj ret x <> None -> read_site dec R conj ret y <> None -> all_images h x y G ->
  (x = y -> exists w, read_site dec R conj ret x = Some w /\ eval_site R call1' w x = bloch_sum_over h x y G) /\
  (x <> y -> match read_hop dec R conj ret x y with
             | Some w => eval_hop R conj call2' w x y = bloch_sum_over h x y G /\
                         exists g, read_hop dec S conj h x (act W g y) <> None
             | None => forall g, read_hop dec S conj h x (act W g y) = None
             end).
Proof.
  intros h ret Re GS E x y G Hx Hy [NG Cov]. destruct (C33_sites h ret Re GS E) as [_ RS]. apply RS in Hx, Hy. destruct Hx as [Px Hx], Hy as [Py _].
  destruct (@wrap_value site obj name C Ph dec S R W pW LS LR LW SP conj add zero scal conjP bloch ndec P site0 site1 momenta argsort argsort_perm add_comm add_assoc add_0
    conj_add conj_conj conj_0 conj_scal scal_0 mom_ne s01 env ks Hks bloch_0 bloch_neg inv1 inv2 h ret Re (good_pars h GS) E x y G Px Py Hx NG Cov) as (A & B & D).
  split; [exact A|]. intros N. specialize (B N). specialize (D N). destruct (read_hop dec R conj ret x y); [|exact B]. split; [exact B|]. apply D. discriminate.
Qed.

(** One translation kept: the finalized infinite system. *)
Notation ham_w := (@ham_inf site R C conj (wfun W P) call1' call2').
Theorem C33_infinite : forall dom1 tr, one_dim R dom1 tr -> (forall k a b, leb (act R (tr k) a) (act R (tr k) b) = leb a b) ->
  forall h ret order s, reachable dec S h -> good_onsite h -> wraparound S R W pW h = inl ret ->
  finalize_infinite dec leb R junk dom1 tr ret order = inl s ->
  (forall x, In x (s_sites s) -> proper S W pW x /\ read_site dec S conj h x <> None) /\
  (forall x, proper S W pW x -> read_site dec S conj h x <> None -> dom1 x = 0%Z -> In x (s_sites s)) /\
  (forall i x G, nth_error (s_sites s) i = Some x -> all_images h x x G -> ham_w s i i = user site (bloch_sum_over h x x G)) /\
  (forall i j x y G, i <> j -> nth_error (s_sites s) i = Some x -> nth_error (s_sites s) j = Some y -> all_images h x y G ->
     i < s_cell s \/ j < s_cell s ->
     (ham_w s i j = user site (bloch_sum_over h x y G) /\ exists g, read_hop dec S conj h x (act W g y) <> None) \/
     (ham_w s i j = inr (FGraph site GEdge) /\ forall g, read_hop dec S conj h x (act W g y) = None)).
Proof.
  intros dom1 tr OD inv h ret order s Re GS E Ef. destruct (C33_sites h ret Re GS E) as [Rr RS].
  destruct (@C21_finalized site dec leb TO R LR dom1 tr OD inv C conj (wfun W P) call1' call2' junk ret order s Rr Ef)
    as (A & B & A1 & A2 & A3 & A4 & A5 & A6 & A7 & A8 & A9 & A10).
  assert (IN : forall i x, nth_error (s_sites s) i = Some x -> read_site dec R conj ret x <> None).
  { intros i x Hi. destruct (A9 i x Hi) as (v & -> & _). discriminate. }
  split; [|split; [|split]].
  - intros x Hx. apply RS. apply In_nth_error in Hx. destruct Hx as (i & Hi). eauto.
  - intros x Px Hx D. rewrite A1. apply in_app_iff. assert (Q : read_site dec R conj ret x <> None) by (apply RS; auto).
    destruct (in_dec dec x A) as [i|n]; [left; auto|right]. apply in_app_iff. left. apply A7. split; auto. split; auto. intros K. apply n. apply A6. exact K.
  - intros i x G Hi HG. pose proof (IN i x Hi) as Hx. destruct (A9 i x Hi) as (v & Hv & ->). f_equal.
    destruct (C33_bloch h ret Re GS E x x G Hx Hx HG) as [Q _]. destruct (Q eq_refl) as (w & Hw & Ew). rewrite Hv in Hw. injection Hw as <-. exact Ew.
  - intros i j x y G n Hi Hj HG Cell. rewrite (A10 i j x y n Hi Hj).
    assert (Z : (s_cell s <=? i) && (s_cell s <=? j) = false).
    { apply andb_false_iff. destruct Cell; [left|right]; apply Nat.leb_gt; auto. }
    rewrite Z. destruct (C33_bloch h ret Re GS E x y G (IN i x Hi) (IN j y Hj) HG) as [_ Q].
    assert (N : x <> y).
    { intros <-. apply n. apply (proj1 (NoDup_nth_error (s_sites s)) A3); [apply nth_error_Some; congruence|congruence]. }
    specialize (Q N). destruct (read_hop dec R conj ret x y) as [w|]; [left|right; auto]. destruct Q as [Q1 Q2]. split; auto. f_equal. exact Q1.
Qed.
End Params.
End Split.

(** All translations are replaced by momenta: the finalized finite system. *)
Section Finite.
Variable S : Symmetry site.
Hypothesis LS : SymLaws S.
Hypothesis comm : forall x y, eadd S x y = eadd S y x.
Notation NS := (NoSymmetry site).
Notation whole := (fun g : elt S => g).

Theorem C33_splits_all : splits S NS S whole.
Proof.
  constructor; auto.
  - intros r. exists (e0 S). split; auto. intros s. rewrite (law_act0 LS). reflexivity.
  - intros g. exists g. auto.
  - intros x ->. exists tt. intros s. apply (law_act0 LS).
Qed.

Variable env : name -> option obj.
Variable ks : list obj.
Hypothesis Hks : omap env momenta = Some ks.
Notation kargs := (map (@AObj site obj) ks).
Variable bloch : elt S -> list (arg site obj) -> Ph.
Hypothesis bloch_0 : forall c, scal (bloch (e0 S) kargs) c = c.
Hypothesis bloch_neg : forall g, bloch (eneg S g) kargs = conjP (bloch g kargs).
Notation wfuns := (@wfuns site obj name C Ph S conj add zero scal bloch ndec P site0 site1 momenta argsort).
Notation ham_w := (@ham site NS C conj (wfun S P) (@call1 site obj name C wfuns env) (@call2 site obj name C wfuns env)).
Notation bloch_sum := (bloch_sum_over S S env ks bloch).
Notation all_images := (all_images S S).

Theorem C33_finite : forall h ret, reachable dec S h -> good_onsite h -> wraparound S NS S whole h = inl ret ->
  exists s, finalize_finite dec leb junk ret [] [] = inl s /\
  NoDup (s_sites s) /\ StronglySorted (fun x y => leb x y = true) (s_sites s) /\
  (* the sites of the fundamental domain *)
  (forall x, In x (s_sites s) <-> which S x = e0 S /\ read_site dec S conj h x <> None) /\
  (forall i x G, nth_error (s_sites s) i = Some x -> all_images h x x G -> ham_w s i i = user site (bloch_sum h x x G)) /\
  (forall i j x y G, i <> j -> nth_error (s_sites s) i = Some x -> nth_error (s_sites s) j = Some y -> all_images h x y G ->
     (ham_w s i j = user site (bloch_sum h x y G) /\ exists g, read_hop dec S conj h x (act S g y) <> None) \/
     (ham_w s i j = inr (FGraph site GEdge) /\ forall g, read_hop dec S conj h x (act S g y) = None)).
Proof.
  intros h ret Re GS E. pose proof (NoSymmetry_laws site) as LR. destruct (C33_sites S NS S whole LS LR LS C33_splits_all h ret Re GS E) as [Rr RS].
  destruct (@C20_succeeds site dec leb C conj (wfun S P) junk ret [] [] Rr) as (s & Ef); [intros l x []|].
  exists s. split; auto.
  destruct (@C20_finalized site dec leb TO C conj (wfun S P) (@call1 site obj name C wfuns env) (@call2 site obj name C wfuns env) junk ret [] [] s Rr Ef)
    as (A1 & A2 & A3 & A4 & A5 & A6 & A7 & A8).
  pose proof (C33_bloch S NS S whole LS LR LS C33_splits_all env ks Hks bloch bloch_0 bloch_neg (fun v r s => eq_refl) (fun f r a b => eq_refl) h ret Re GS E) as BL.
  assert (IN : forall i x, nth_error (s_sites s) i = Some x -> read_site dec NS conj ret x <> None).
  { intros i x Hi. apply A3. eapply nth_error_In; eauto. }
  split; auto. split; auto. split; [|split].
  - intros x. rewrite A3, RS. reflexivity.
  - intros i x G Hi HG. destruct (A5 i x Hi) as (v & Hv & ->). f_equal.
    destruct (BL x x G (IN i x Hi) (IN i x Hi) HG) as [Q _]. destruct (Q eq_refl) as (w & Hw & Ew). rewrite Hv in Hw. injection Hw as <-. exact Ew.
  - intros i j x y G n Hi Hj HG. rewrite (A6 i j x y n Hi Hj). destruct (BL x y G (IN i x Hi) (IN j y Hj) HG) as [_ Q].
    assert (N : x <> y).
    { intros <-. apply n. apply (proj1 (NoDup_nth_error (s_sites s)) A2); [apply nth_error_Some; congruence|congruence]. }
    specialize (Q N). destruct (read_hop dec NS conj ret x y) as [w|]; [left|right; auto]. destruct Q as [Q1 Q2]. split; auto. f_equal. exact Q1.
Qed.

(** Hermitian for every momentum; for the diagonal elements this needs that the
    onsite elements of the old system are Hermitian. *)
Theorem C33_hermitian : forall h ret s i j, reachable dec S h -> good_onsite h -> wraparound S NS S whole h = inl ret ->
  finalize_finite dec leb junk ret [] [] = inl s -> i < length (s_sites s) -> j < length (s_sites s) ->
  (forall x v c, read_site dec S conj h x = Some v -> eval_site S (call1 P env) v x = Some c -> conj c = c) ->
  ham_w s j i = match ham_w s i j with inl c => inl (conj c) | inr e => inr e end.
Proof.
  intros h ret s i j Re GS E Ef Hi Hj HO. pose proof (NoSymmetry_laws site) as LR. destruct (C33_sites S NS S whole LS LR LS C33_splits_all h ret Re GS E) as [Rr RS].
  destruct (Nat.eq_dec i j) as [<-|n].
  - destruct (C33_finite h ret Re GS E) as (s' & Ef' & _ & _ & F1 & F2 & _). rewrite Ef in Ef'. injection Ef' as <-.
    destruct (nth_error (s_sites s) i) as [x|] eqn:Ex; [|apply nth_error_None in Ex; lia].
    assert (Hx : In x (s_sites s)) by (eapply nth_error_In; eauto). apply F1 in Hx. destruct Hx as [Px Hx].
    destruct (C33_finitely_many S NS S whole LS LS C33_splits_all h x x Re Px Px) as (G & HG).
    rewrite (F2 i x G Ex HG). destruct (bloch_sum h x x G) as [c|] eqn:EB; [|reflexivity]. cbn. f_equal. symmetry.
    destruct HG as [NG Cov].
    assert (Dg : WrapEval.oadd add (if dec x x then match read_site dec S conj h x with Some v => eval_site S (call1 P env) v x | None => Some zero end else Some zero)
        (osum add zero (flat_map (T dec S NS S whole conj scal bloch P env ks x x) (hopping_value_pairs h))) = Some c).
    { rewrite <- EB. symmetry. exact (@WrapMain.bloch_sum site obj name C Ph dec S NS S whole LS LR LS C33_splits_all conj add zero scal conjP bloch P add_comm add_assoc add_0 conj_conj conj_scal scal_0 env ks
        bloch_0 bloch_neg h Re x x Px Px G NG Cov). }
    pose proof (@T_swap_l site obj name C Ph dec S NS S whole LR conj add zero scal bloch P add_comm add_assoc add_0 conj_add conj_conj conj_0 env ks x x (hopping_value_pairs h)) as Sw.
    destruct (dec x x) as [_|]; [|congruence]. destruct (read_site dec S conj h x) as [v|] eqn:Ev; [|congruence]. specialize (HO x v). destruct (eval_site S (call1 P env) v x) as [d|]; [|discriminate].
    specialize (HO d Ev eq_refl). destruct (osum add zero _) as [r|]; [|discriminate]. cbn in Sw, Dg. injection Sw as Sw. injection Dg as <-. rewrite conj_add, HO, <- Sw. reflexivity.
  - exact (@C20_hermitian site dec leb TO C conj (wfun S P) (@call1 site obj name C wfuns env) (@call2 site obj name C wfuns env) junk ret [] [] s i j conj_conj Rr Ef Hi Hj n).
Qed.
End Finite.
End C33.
Print Assumptions C33_errors.
Print Assumptions C33_sites.
Print Assumptions C33_finitely_many.
Print Assumptions C33_bloch.
Print Assumptions C33_infinite.
Print Assumptions C33_splits_all.
Print Assumptions C33_finite.
Print Assumptions C33_hermitian.

(** *** The hypotheses are met.
    keep: every TranslationalSymmetry with exact data, and the symmetries
    constructed from its periods. *)
Theorem C33_keep : forall n k (Hk : k <= n) dS dR dW rev (OS : data_ok (S n) dS) (OR : data_ok 1 dR) (OW : data_ok n dW) (K : keeps k dS dR dW rev),
  SymLaws (TransSymm rev OS) /\ SymLaws (kept OR K) /\ SymLaws (wrapped OW K) /\
  splits (TransSymm rev OS) (kept OR K) (wrapped OW K) (drop_kept Hk OW K).
Proof. exact (fun n k Hk dS dR dW rev OS OR OW K => @keep_splits n k Hk dS dR dW rev OS OR OW K). Qed.
Print Assumptions C33_keep.
Theorem C33_commutative : forall n data rev (OK : data_ok n data) x y, eadd (TransSymm rev OK) x y = eadd (TransSymm rev OK) y x.
Proof. intros. apply sig_eq. cbn. apply vadd_comm. Qed.
Print Assumptions C33_commutative.

(** The factors exp(i g.k) for real momenta. *)
Section Phases.

Local Open Scope R_scope.
Fixpoint gdot (g : list Z) (k : list R) : R :=
  match g, k with a :: g, b :: k => IZR a * b + gdot g k | _, _ => 0 end.
Definition cmul (x y : R * R) : R * R := (fst x * fst y - snd x * snd y, fst x * snd y + snd x * fst y).
Definition cconj (x : R * R) : R * R := (fst x, - snd x).
Definition cexp (g : list Z) (k : list R) : R * R := (cos (gdot g k), sin (gdot g k)).
Theorem C33_phases : forall k, (forall n c, cmul (cexp (repeat 0%Z n) k) c = c) /\ (forall g, cexp (vneg g) k = cconj (cexp g k)) /\
  (forall p c, cconj (cmul p c) = cmul (cconj p) (cconj c)) /\ (forall p, cmul p (0, 0) = (0, 0)).
Proof.
  intros k. assert (N : forall g k, gdot (vneg g) k = - gdot g k).
  { induction g as [|a g IH]; intros [|b k']; cbn; try lra. unfold vneg in IH. rewrite IH, opp_IZR. lra. }
  assert (Z0 : forall n k, gdot (repeat 0%Z n) k = 0).
  { induction n as [|n IH]; intros [|b k']; cbn; try lra. rewrite IH. lra. }
  split; [|split; [|split]].
  - intros n [c d]. unfold cexp, cmul. rewrite Z0, cos_0, sin_0. cbn. f_equal; ring.
  - intros g. unfold cexp, cconj. cbn. rewrite N, cos_neg, sin_neg. reflexivity.
  - intros [a b] [c d]. unfold cmul, cconj. cbn. f_equal; ring.
  - intros [a b]. unfold cmul. cbn. f_equal; ring.
Qed.
End Phases.
Print Assumptions C33_phases.

(** *** A concrete case.  Square lattice, periods (2, 0) and (0, 1), values are
    Gaussian integers; momenta are given in units of pi/2.  Names: 0 "site",
    1 "site1", 2 "site2", 3 "t", 4 "_site0", 5 "_site1", 6 "k_x", 7 "k_y". *)
Local Open Scope Z_scope.
Definition wx_data (f : Z) : option famdata := if f =? 0 then Some (mkFam [[2; 0]; [0; 1]] [[1; 0]; [0; 2]] 2) else None.
Example wx_ok : data_ok 2 wx_data.
Proof.
  intros f d. unfold wx_data. destruct (f =? 0); [|discriminate]. intros [= <-]. split; [discriminate|]. cbn. repeat split; try reflexivity; intros r [<-|[<-|[]]]; reflexivity.
Qed.
Notation wxS := (TransSymm false wx_ok).
Definition wx_site (x y : Z) : ts_site wx_data := exist _ (0, [x; y]) eq_refl.
Definition wx_dec (a b : ts_site wx_data) : {a = b} + {a <> b}.
Proof.
  assert (D : forall p q : Z * vec, {p = q} + {p <> q}) by (decide equality; [apply (list_eq_dec Z.eq_dec)|apply Z.eq_dec]).
  destruct (D (proj1_sig a) (proj1_sig b)) as [E|E].
  - left. apply sig_eq. exact E.
  - right. intros ->. apply E. reflexivity.
Defined.
Definition wx_funs : pyfuns (ts_site wx_data) Z nat exC :=
  mkFuns (fun f : bool => if f then [1; 2; 3]%nat else [0; 3]%nat)
         (fun (f : bool) l => match f, l with
                     | false, [ASite s; AObj t] => Some (10 * hd 0 (snd (proj1_sig s)) + t, 0)
                     | true, [ASite a; ASite b; AObj t] => Some (hd 0 (snd (proj1_sig b)) - hd 0 (snd (proj1_sig a)), t)
                     | _, _ => None end).
Definition wx_bloch (g : elt wxS) (k : list (arg (ts_site wx_data) Z)) : exC :=
  ipow (dot (proj1_sig g) (map (fun a => match a with AObj z => z | ASite _ => 0 end) k)).
Definition wx_sys : store (ts_site wx_data) exC (pf wx_funs) :=
  let set h k v := fst (setitem wx_dec wxS h (Simple (site:=ts_site wx_data) exC (pf wx_funs) k) v) in
  set (set (set (set (set (set (set [] (KSite (wx_site 0 0)) (VConst _ (7, 0))) (KSite (wx_site 1 0)) (VFun exC (false : pf wx_funs)))
    (KHop (wx_site 0 0) (wx_site 1 0)) (VFun exC (true : pf wx_funs)))
    (KHop (wx_site 2 0) (wx_site 1 0)) (VFun exC (true : pf wx_funs)))
    (KHop (wx_site 0 0) (wx_site 0 1)) (VConst _ (1, 2)))
    (KHop (wx_site 0 0) (wx_site 0 (-2))) (VConst _ (0, 3)))
    (KHop (wx_site 1 0) (wx_site 1 1)) (VFun exC (true : pf wx_funs)).
Example wx_reachable : reachable wx_dec wxS wx_sys.
Proof. repeat apply r_set. apply r_empty. Qed.
Example wx_good : good_onsite (ts_site wx_data) Z nat exC wx_funs 4%nat wx_sys.
Proof.
  intros s v Hin. vm_compute in Hin. destruct Hin as [[= <- <-]|[[= <- <-]|[]]]; cbn; [exact I|]. exists 0%nat, [3%nat]. split; [reflexivity|]. intros [?|[]]; discriminate.
Qed.
Definition wx_env (k1 k2 : Z) (n : nat) : option Z := match n with 3%nat => Some 5 | 6%nat => Some k1 | 7%nat => Some k2 | _ => None end.
Definition cadd (x y : exC) : exC := (fst x + fst y, snd x + snd y).
Definition wx_wrap := @wraparound (ts_site wx_data) Z nat exC wx_dec wxS (NoSymmetry _) wxS (fun g => g) exconj Nat.eq_dec wx_funs 4%nat 5%nat [6; 7]%nat.
Definition wx_H (k1 k2 : Z) : list (fres (ts_site wx_data) exC) :=
  match wx_wrap wx_sys with
  | inl ret =>
    match finalize_finite wx_dec (@SystemOrder.ts_leb wx_data) (fun _ _ => 0) ret [] [] with
    | inl s => let fs := @wfuns (ts_site wx_data) Z nat exC exC wxS exconj cadd (0, 0) gmul wx_bloch Nat.eq_dec wx_funs 4%nat 5%nat [6; 7]%nat (fun l => rev (seq 0 (length l))) in
        map (fun p => @ham (ts_site wx_data) (NoSymmetry _) exC exconj (pf fs) (@call1 _ Z nat exC fs (wx_env k1 k2)) (@call2 _ Z nat exC fs (wx_env k1 k2)) s (fst p) (snd p))
          [(0, 0); (0, 1); (1, 0); (1, 1)]%nat
    | inr _ => [] end
  | inr _ => [] end.
(** k = (1, 1): onsite 0: 7 + 2 Re(i (1+2i)) + 2 Re(i^-2 3i) = 3; hopping:
    (1+5i) + (-i) (-1+5i) = 6 + 6i; onsite 1: 15 + 2 Re(i 5i) = 5. *)
Example ex_wrap : wx_H 1 1 = [inl (3, 0); inl (6, 6); inl (6, -6); inl (5, 0)].
Proof. vm_compute. reflexivity. Qed.
Example ex_wrap_0 : wx_H 0 0 = [inl (9, 0); inl (0, 10); inl (0, -10); inl (15, 0)].
Proof. vm_compute. reflexivity. Qed.
(** a momentum called "t" *)
Example ex_wrap_clash : @wraparound (ts_site wx_data) Z nat exC wx_dec wxS (NoSymmetry _) wxS (fun g => g) exconj Nat.eq_dec wx_funs 4%nat 5%nat [3; 7]%nat wx_sys = inr (EValue _).
Proof. vm_compute. reflexivity. Qed.

(** The theorems exclude an empty list of momenta, for which the code fails: the
    slice args[:-0] drops all parameters.  (wraparound of a builder
    with NoSymmetry.)  The onsite function of the example needs 't'. *)
Example ex_no_momenta_refuted :
  pf_call wx_funs (false : pf wx_funs) [ASite (wx_site 1 0); AObj 5] = Some (15, 0) /\
  @b_call (ts_site wx_data) Z nat exC exC wxS exconj cadd gmul wx_bloch wx_funs [] (BindSite wxS wx_funs (VFun exC (false : pf wx_funs))) [ASite (wx_site 1 0); AObj 5] = None.
Proof. split; reflexivity. Qed.
