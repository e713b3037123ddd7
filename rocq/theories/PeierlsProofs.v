(** * add_peierls_phase: proofs. *)
From Coq Require Import List Bool ZArith Sorting.Sorted.
From Verif Require Import BuilderModel BuilderProofs BuilderSpec BuilderInv BuilderMain BuilderProps SystemModel SystemSpec SystemMain
  ParamModel SubstModel SubstProofs PeierlsModel CopyProofs.
Import ListNotations.
Set Implicit Arguments.

Section Orbits.
Variable site : Type.
Variable dec : forall a b : site, {a = b} + {a <> b}.
Variable Sy : Symmetry site.
Hypothesis L : SymLaws Sy.
Variable C : Type.
Variable conj : C -> C.
Variable F : Type.
Notation rs := (@read_site site dec Sy C conj F).
Notation rh := (@read_hop site dec Sy C conj F).
Notation reachable := (@reachable site dec Sy C F).

Lemma hvp_in (h : store site C F) a b v : In (a, b, v) (hopping_value_pairs h) <->
  exists nd, In (a, nd) h /\ In (b, SVal v) (outs nd).
Proof.
  unfold hopping_value_pairs. rewrite in_flat_map. split.
  - intros ([t nd] & Hin & H). unfold node_values in H. apply in_flat_map in H. destruct H as ([x [w|]] & Hx & H); [|destruct H].
    destruct H as [[= <- <- <-]|[]]. eauto.
  - intros (nd & H1 & H2). exists (a, nd). split; auto. unfold node_values. apply in_flat_map. exists (b, SVal v). split; [exact H2|left; reflexivity].
Qed.

Lemma hvp_facts h : reachable h ->
  NoDup (map fst (hopping_value_pairs h)) /\
  ForallOrdPairs (fun p q => ~ same_hop Sy (fst p) (snd p) (fst q) (snd q) /\
                             ~ same_hop Sy (fst p) (snd p) (snd q) (fst q)) (map fst (hopping_value_pairs h)) /\
  (forall a b v, In (a, b, v) (hopping_value_pairs h) ->
     a <> b /\ rs h a <> None /\ rs h b <> None /\ plain v /\ to_fd2 Sy a b = (a, b) /\ rh h a b = Some v) /\
  (forall x y, rh h x y <> None -> exists a b v, In (a, b, v) (hopping_value_pairs h) /\ (same_hop Sy a b x y \/ same_hop Sy b a x y)).
Proof.
  intros R. pose proof (reach_WF L R) as W. destruct (@C08_hoppings site dec Sy L C conj F h R) as (H1 & H2 & H3 & H4).
  rewrite <- H2. split; auto.
  assert (IN : forall a b, In (a, b) (hoppings h) -> exists v, In (a, b, v) (hopping_value_pairs h)).
  { intros a b Hin. rewrite H2 in Hin. apply in_map_iff in Hin. destruct Hin as ([[a' b'] v] & [= <- <-] & Hin). eauto. }
  assert (CT : forall a b, In (a, b) (hoppings h) -> contains dec Sy h (KHop a b) = inl true).
  { intros a b Hin. apply IN in Hin. destruct Hin as (v & Hin). apply (@C07_contains_hopping site dec Sy L C conj F h a b R). rewrite (H3 _ _ _ Hin). discriminate. }
  split; [|split].
  - assert (X : ForallOrdPairs (fun p q => ~ (same_hop Sy (fst p) (snd p) (fst q) (snd q) \/ same_hop Sy (snd p) (fst p) (fst q) (snd q))) (hoppings h)).
    { apply NoDup_pairs; auto. intros [a b] [a' b'] Hp Hq E. cbn [fst snd] in E. destruct (H4 a b (CT _ _ Hp)) as (x & y & _ & _ & U).
      rewrite (U a b Hp) by (left; exists (e0 Sy); rewrite !(law_act0 L); auto). rewrite (U a' b' Hq E). reflexivity. }
    clear - X. induction X as [|p l HF HX IH]; constructor; auto. rewrite Forall_forall in *. intros q Hq. specialize (HF q Hq). cbv beta in HF.
    split; [tauto|]. intros Q. apply HF. right. apply same_hop_swap in Q. exact Q.
  - intros a b v Hin. pose proof (H3 _ _ _ Hin) as Hr. apply hvp_in in Hin. destruct Hin as (nd & Hin & Hb).
    assert (Lk : lookup dec a h = Some nd) by (apply In_lookup; auto; apply (wf_nodup W)).
    assert (Fd : in_fd Sy a = true) by (apply (wf_fd W); unfold mem; rewrite Lk; reflexivity).
    assert (Ed : edge dec h a b = Some (SVal v)).
    { unfold edge. rewrite Lk. apply In_lookup; auto. apply (wf_heads W a Lk). }
    destruct (wf_pair W _ _ Ed) as (v' & _ & [[Hc _]|(_ & w & Hc & Hp)]); [discriminate|]. injection Hc as <-.
    assert (Ct : contains dec Sy h (KHop a b) = inl true).
    { apply (@C07_contains_hopping site dec Sy L C conj F h a b R). rewrite Hr. discriminate. }
    destruct (@C07_hopping_has_sites site dec Sy L C F h a b R Ct) as [Ca Cb].
    apply (proj1 (@C07_contains_site site dec Sy C conj F h a)) in Ca. apply (proj1 (@C07_contains_site site dec Sy C conj F h b)) in Cb.
    split; [|split; [|split; [|split; [|split]]]]; auto.
    + intros <-. rewrite (wf_irr W) in Ed. discriminate.
    + apply (to_fd2_id L); auto.
  - intros x y Hxy. apply (@C07_contains_hopping site dec Sy L C conj F h x y R) in Hxy. destruct (H4 x y Hxy) as (a & b & Hin & Hs & _).
    destruct (IN _ _ Hin) as (v & Hv). exists a, b, v. split; auto. destruct Hs as [Hs|Hs]; [left|right]; apply (same_hop_sym L) in Hs; auto.
    apply same_hop_swap in Hs. exact Hs.
Qed.

Lemma svp_facts h : reachable h ->
  ForallOrdPairs (fun p q => ~ same_site Sy (fst p) (fst q)) (site_value_pairs h) /\
  (forall s v, In (s, v) (site_value_pairs h) -> rs h s = Some v) /\
  (forall t, rs h t <> None -> exists s v, In (s, v) (site_value_pairs h) /\ same_site Sy s t).
Proof.
  intros R. destruct (@C08_sites site dec Sy L C F h R) as (H1 & H2 & H3). destruct (@C08_site_value_pairs site dec Sy L C conj F h R) as (H4 & H5).
  assert (IN : forall s, In s (sites h) -> exists v, In (s, v) (site_value_pairs h)).
  { intros s Hin. rewrite <- H4 in Hin. apply in_map_iff in Hin. destruct Hin as ([s' v] & <- & Hin). eauto. }
  split; [|split; auto].
  - assert (X : ForallOrdPairs (fun p q => ~ same_site Sy p q) (map fst (site_value_pairs h))).
    { rewrite H4. apply NoDup_pairs; auto. intros a b Ha Hb E. destruct (H3 a (H2 a Ha)) as (r & _ & _ & U).
      rewrite (U a Ha) by (exists (e0 Sy); rewrite (law_act0 L); auto). rewrite (U b Hb E). reflexivity. }
    clear - X. induction (site_value_pairs h) as [|p l IH]; [constructor|]. cbn in X. inversion X as [|? ? HF HX]; subst. constructor; auto.
    rewrite Forall_forall in *. intros q Hq. apply HF. apply in_map. exact Hq.
  - intros t Ht. apply (proj2 (@C07_contains_site site dec Sy C conj F h t)) in Ht. destruct (H3 t Ht) as (r & Hr & Hs & _).
    destruct (IN r Hr) as (v & Hv). exists r, v. split; auto. apply (same_site_sym L); auto.
Qed.

Lemma rs_same h s t : same_site Sy s t -> rs h t = rs h s.
Proof. intros (g & ->). unfold BuilderSpec.read_site. f_equal. apply (@C03_invariant site dec Sy L C conj F h g s s s). Qed.
Lemma rh_same h a b x y : same_hop Sy a b x y -> rh h x y = rh h a b.
Proof. intros (g & -> & ->). unfold BuilderSpec.read_hop. f_equal. apply (@C03_invariant site dec Sy L C conj F h g a a b). Qed.
End Orbits.

Section Peierls.
Variables site obj name C Ph : Type.
Variable dec : forall a b : site, {a = b} + {a <> b}.
Variable Sy : Symmetry site.
Hypothesis L : SymLaws Sy.
Variable conj : C -> C.
Variable ndec : forall a b : name, {a = b} + {a <> b}.
Variable P : pyfuns site obj name C.
Variable times : C -> Ph -> C.
Variable phase : obj -> site -> site -> option Ph.
Variables site0 site1 : name.
Variable peierls : name.
Notation pfun := (pfun P).
Notation pf T := (@pfuns site obj name C Ph dec conj P times phase site0 site1 peierls T).
Notation copy_sites := (@copy_sites site obj name C dec Sy P).
Notation copy_hoppings := (@copy_hoppings site obj name C dec Sy ndec P site0 site1 peierls).
Notation add := (@add_peierls site obj name C dec Sy ndec P site0 site1 peierls).
Notation set_sites := (@set_sites site dec Sy C pfun).
Notation set_hops := (@set_hops site dec Sy C pfun).
Notation rs := (@read_site site dec Sy C conj P).
Notation rh := (@read_hop site dec Sy C conj P).
Notation rs' := (@read_site site dec Sy C conj pfun).
Notation rh' := (@read_hop site dec Sy C conj pfun).
Notation wparams := (@wrap_params site obj name C P site0 site1 peierls).
Notation mul := (@mul C Ph times).
Notation pd := (pairdec dec).

Definition wrapv (v : val C P) : val C pfun :=
  match v with VConst _ c => VFun C (ConstHopping P) | _ => VFun C (Wrapped P v) end.
Definition is_callable (v : val C P) := match v with VConst _ _ => False | _ => True end.

Lemma copy_sites_eq : forall l ret, copy_sites ret l = set_sites ret (map (fun p => (fst p, lift P (snd p))) l).
Proof.
  induction l as [|[s v] l IH]; intros ret; [reflexivity|]. cbn. destruct (setitem dec Sy ret _ _) as [r [e|]]; auto.
Qed.

Lemma lookup_assign_pair (T : list (site * site * C)) p q c :
  lookup pd p (assign pd q c T) = if pd p q then Some c else lookup pd p T.
Proof. rewrite (lookup_assign pd). unfold eqb. destruct (pd p q); reflexivity. Qed.

Lemma copy_hoppings_eq : forall l ret T,
  match copy_hoppings ret T l with
  | inl (ret', T') =>
    set_hops ret (map (fun p => (fst p, wrapv (snd p))) l) = inl ret' /\
    (forall a b v, In (a, b, v) l -> is_callable v -> NoDup (wparams v)) /\
    (NoDup (map fst l) -> forall p,
      (forall v, In (p, v) l -> lookup pd p T' = match v with VConst _ c => Some c | _ => lookup pd p T end) /\
      (~ In p (map fst l) -> lookup pd p T' = lookup pd p T))
  | inr e => set_hops ret (map (fun p => (fst p, wrapv (snd p))) l) = inr e \/
      (e = EValue _ /\ exists a b v, In (a, b, v) l /\ is_callable v /\ ~ NoDup (wparams v))
  end.
Proof.
  induction l as [|[[a b] v] l IH]; intros ret T.
  { cbn. split; [reflexivity|]. split; [intros a b v []|]. intros _ p. split; [intros v []|auto]. }
  cbn [PeierlsModel.copy_hoppings map CopyProofs.set_hops fst snd].
  assert (S : forall T1, (match v with VConst _ c => T1 = assign pd (a, b) c T | _ => T1 = T end) ->
    (is_callable v -> NoDup (wparams v)) ->
    forall g, wrapv v = VFun C g ->
    match (match setitem dec Sy ret (Simple C pfun (KHop a b)) (VFun C g) with
           | (ret, None) => copy_hoppings ret T1 l | (_, Some e) => inr e end) with
    | inl (ret', T') =>
      match setitem dec Sy ret (Simple C pfun (KHop a b)) (wrapv v) with
      | (h, None) => set_hops h (map (fun p => (fst p, wrapv (snd p))) l) | (_, Some e) => inr e end = inl ret' /\
      (forall a' b' v', In (a', b', v') ((a, b, v) :: l) -> is_callable v' -> NoDup (wparams v')) /\
      (NoDup (map fst ((a, b, v) :: l)) -> forall p,
        (forall v', In (p, v') ((a, b, v) :: l) -> lookup pd p T' = match v' with VConst _ c => Some c | _ => lookup pd p T end) /\
        (~ In p (map fst ((a, b, v) :: l)) -> lookup pd p T' = lookup pd p T))
    | inr e =>
      match setitem dec Sy ret (Simple C pfun (KHop a b)) (wrapv v) with
      | (h, None) => set_hops h (map (fun p => (fst p, wrapv (snd p))) l) | (_, Some e) => inr e end = inr e \/
      (e = EValue _ /\ exists a' b' v', In (a', b', v') ((a, b, v) :: l) /\ is_callable v' /\ ~ NoDup (wparams v'))
    end).
  { intros T1 HT HN g Hg. rewrite Hg. destruct (setitem dec Sy ret (Simple C pfun (KHop a b)) (VFun C g)) as [ret1 [e|]]; [left; reflexivity|].
    specialize (IH ret1 T1). destruct (copy_hoppings ret1 T1 l) as [[ret' T']|e].
    - destruct IH as (A1 & A2 & A3). split; auto. split.
      + intros a' b' v' [[= <- <- <-]|Hin]; eauto.
      + intros ND p. cbn [map fst] in ND. inversion ND as [|? ? Hn ND']; subst. destruct (A3 ND' p) as [B1 B2].
        assert (LT : p <> (a, b) -> lookup pd p T1 = lookup pd p T).
        { intros n. destruct v; subst T1; auto. rewrite lookup_assign_pair. destruct (pd p (a, b)); congruence. }
        split.
        * intros v' [E|Hin].
          -- assert (p = (a, b)) by congruence. assert (v' = v) by congruence. subst p v'. rewrite B2 by exact Hn.
             destruct v; subst T1; auto. rewrite lookup_assign_pair. destruct (pd (a, b) (a, b)); congruence.
          -- rewrite (B1 v' Hin). destruct v'; auto; apply LT; intros ->; apply Hn; apply (in_map fst) in Hin; exact Hin.
        * intros Hp. cbn in Hp. rewrite B2 by tauto. apply LT. intros ->. tauto.
    - destruct IH as [A|(-> & a' & b' & v' & Hin & A)]; [left; auto|right]. split; auto. exists a', b', v'. cbn. tauto. }
  assert (Hd : duplicates ndec (wparams v) = false -> NoDup (wparams v)) by (intros D; apply duplicates_false in D; exact D).
  assert (Hd' : duplicates ndec (wparams v) = true -> ~ NoDup (wparams v)).
  { intros D ND. apply (duplicates_false ndec) in ND. congruence. }
  destruct v as [c|f|f].
  - apply S; [reflexivity|intros []|reflexivity].
  - destruct (duplicates ndec _) eqn:D; [right; split; auto; exists a, b, (VFun C f); cbn; auto|]. apply S; auto.
  - destruct (duplicates ndec _) eqn:D; [right; split; auto; exists a, b, (VHC C f); cbn; auto|]. apply S; auto.
Qed.

Lemma split_last_app (l : list (arg site obj)) x : split_last (l ++ [x]) = Some (l, x).
Proof. induction l as [|y l IH]; [reflexivity|]. cbn. rewrite IH. destruct (l ++ [x]) eqn:E; [destruct l; discriminate|]. reflexivity. Qed.
Lemma omap_app (A B : Type) (f : A -> option B) l l' : omap f (l ++ l') =
  match omap f l, omap f l' with Some r, Some r' => Some (r ++ r') | _, _ => None end.
Proof.
  induction l as [|x l IH]; cbn; [destruct (omap f l'); reflexivity|]. rewrite IH. destruct (f x), (omap f l), (omap f l'); reflexivity.
Qed.

Section Env.
Variable env : name -> option obj.
Variable phi : obj.
Hypothesis Hphi : env peierls = Some phi.
Notation c2 := (@call2 site obj name C P env).
Notation c2' T := (@call2 site obj name C (pf T) env).
Notation c1 := (@call1 site obj name C P env).
Notation c1' T := (@call1 site obj name C (pf T) env).

Lemma call_wrapped T f a b : c2' T (Wrapped P (VFun C f)) a b = mul (c2 f a b) (phase phi a b).
Proof.
  unfold call2. cbn [pf_params pf_call pfuns p_params p_call]. unfold route, wrap_params. cbn [app skipn].
  rewrite omap_app. cbn [omap]. rewrite Hphi. cbn [val_params]. destruct (omap env _) as [l|]; [|reflexivity].
  cbn [option_map]. rewrite map_app. cbn [map]. rewrite split_last_app. reflexivity.
Qed.
Lemma call_const T a b : c2' T (ConstHopping P) a b = mul (lookup pd (a, b) T) (phase phi a b).
Proof. unfold call2. cbn [pf_params pf_call pfuns p_params p_call]. unfold route, const_params. cbn [skipn omap]. rewrite Hphi. reflexivity. Qed.
Lemma call_lift T v s : eval_site Sy (c1' T) (lift P v) s = eval_site Sy c1 v s.
Proof. destruct v; reflexivity. Qed.

Variable conjP : Ph -> Ph.
Hypothesis conj_conj : forall c, conj (conj c) = c.
Hypothesis times_conj : forall c p, conj (times c p) = times (conj c) (conjP p).

Lemma add_main h ret T : reachable dec Sy h -> add h = inl (ret, T) ->
  reachable dec Sy ret /\
  (forall s, rs' ret s = option_map (@lift site obj name C P) (rs h s)) /\
  (forall a b, rh' ret a b = None <-> rh h a b = None) /\
  (forall a b v, rh h a b = Some v -> exists v', rh' ret a b = Some v' /\
    ((eval_hop Sy conj (c2' T) v' a b = mul (eval_hop Sy conj c2 v a b) (phase phi (fst (to_fd2 Sy a b)) (snd (to_fd2 Sy a b)))) \/
     (eval_hop Sy conj (c2' T) v' a b = mul (eval_hop Sy conj c2 v a b)
        (option_map conjP (phase phi (fst (to_fd2 Sy b a)) (snd (to_fd2 Sy b a))))))).
Proof.
  intros R H. unfold add_peierls in H. destruct (duplicates ndec _); [discriminate|].
  rewrite copy_sites_eq in H. destruct (svp_facts L conj R) as (S1 & S2 & S3).
  set (ls := map (fun p => (fst p, lift P (snd p))) (site_value_pairs h)) in *.
  assert (D : ForallOrdPairs (fun p q => ~ same_site Sy (fst p) (fst q)) ls).
  { clear - S1. unfold ls. induction S1 as [|p l HF HX IH]; constructor; auto. rewrite Forall_forall in *. intros q Hq. apply in_map_iff in Hq.
    destruct Hq as (q' & <- & Hq). apply HF; auto. }
  destruct (@set_sites_spec site dec Sy L C conj pfun ls [] (r_empty _ _ _ _) D) as (r1 & E1 & R1 & A1 & A2 & A3).
  rewrite E1 in H. destruct (hvp_facts L conj R) as (H1 & H2 & H3 & H4).
  pose proof (copy_hoppings_eq (hopping_value_pairs h) r1 []) as X. rewrite H in X. destruct X as (X1 & X2 & X3). specialize (X3 H1).
  assert (RS : forall s, rs' r1 s = option_map (@lift site obj name C P) (rs h s)).
  { intros s. destruct (rs h s) as [v|] eqn:Es.
    - destruct (S3 s) as (t & w & Hin & Hs); [congruence|]. rewrite (A2 t (lift P w) s); auto.
      + pose proof (S2 _ _ Hin) as Ht. rewrite <- (rs_same dec L conj h Hs) in Ht. cbn. congruence.
      + unfold ls. apply in_map_iff. exists (t, w). auto.
    - rewrite A3; [reflexivity|]. intros t w Hin Hs. unfold ls in Hin. apply in_map_iff in Hin. destruct Hin as ([t' w'] & [= <- <-] & Hin).
      pose proof (S2 _ _ Hin) as Ht. rewrite <- (rs_same dec L conj h Hs) in Ht. congruence. }
  set (lh := map (fun p => (fst p, wrapv (snd p))) (hopping_value_pairs h)) in *.
  assert (INl : forall a b v, In (a, b, v) (hopping_value_pairs h) -> In (a, b, wrapv v) lh).
  { intros a b v Hin. unfold lh. apply in_map_iff. exists (a, b, v). auto. }
  assert (INr : forall a b v', In (a, b, v') lh -> exists v, In (a, b, v) (hopping_value_pairs h) /\ v' = wrapv v).
  { intros a b v' Hin. unfold lh in Hin. apply in_map_iff in Hin. destruct Hin as ([[a' b'] w] & [= <- <- <-] & Hin). eauto. }
  assert (D2 : ForallOrdPairs (fun p q => ~ same_hop Sy (fst (fst p)) (snd (fst p)) (fst (fst q)) (snd (fst q)) /\
                             ~ same_hop Sy (fst (fst p)) (snd (fst p)) (snd (fst q)) (fst (fst q))) lh).
  { clear - H2. unfold lh. induction (hopping_value_pairs h) as [|p l IH]; [constructor|]. cbn in *. inversion H2 as [|? ? HF HX]; subst. constructor; auto.
    rewrite Forall_forall in *. intros q Hq. apply in_map_iff in Hq. destruct Hq as (q' & <- & Hq). exact (HF _ (in_map fst _ _ Hq)). }
  destruct (@set_hops_spec site dec Sy L C conj pfun lh r1 R1 D2) as (r2 & E2 & R2 & B1 & B2 & B3 & B4).
  { intros a b v' Hin. apply INr in Hin. destruct Hin as (v & Hin & _). destruct (H3 _ _ _ Hin) as (Y1 & Y2 & Y3 & _). rewrite !RS.
    destruct (rs h a), (rs h b); try congruence. cbn. repeat split; auto; discriminate. }
  assert (r2 = ret) by congruence. subst r2.
  split; auto. split; [intros; rewrite B1; apply RS|].
  assert (NN : forall a b, rh h a b = None -> rh' ret a b = None).
  { intros a b Hn. rewrite B4; [rewrite A1; apply (@C02_empty site dec Sy C conj pfun a a b)|].
    intros x y v' Hin. apply INr in Hin. destruct Hin as (v & Hin & _). destruct (H3 _ _ _ Hin) as (_ & _ & _ & _ & _ & Hv). split; intros Q.
    - rewrite (rh_same dec L conj h Q) in Hn. congruence.
    - apply same_hop_swap in Q. rewrite <- (rh_same dec L conj h Q) in Hv.
      pose proof (proj2 (@C07_contains_hopping site dec Sy L C conj P h b a R)) as Z. rewrite Hv in Z. specialize (Z ltac:(discriminate)).
      rewrite (@C07_contains_symmetric site dec Sy L C P h b a R) in Z. apply (@C07_contains_hopping site dec Sy L C conj P h a b R) in Z. contradiction. }
  assert (SS : forall a b v, rh h a b = Some v -> exists v', rh' ret a b = Some v' /\
    ((eval_hop Sy conj (c2' T) v' a b = mul (eval_hop Sy conj c2 v a b) (phase phi (fst (to_fd2 Sy a b)) (snd (to_fd2 Sy a b)))) \/
     (eval_hop Sy conj (c2' T) v' a b = mul (eval_hop Sy conj c2 v a b)
        (option_map conjP (phase phi (fst (to_fd2 Sy b a)) (snd (to_fd2 Sy b a))))))).
  { intros a b v Hv. destruct (H4 a b) as (x & y & w & Hin & Hs); [congruence|]. destruct (H3 _ _ _ Hin) as (N & _ & _ & Pl & Fd & Hw).
    assert (CW : match wrapv w with VFun _ g => c2' T g x y = mul (match w with VConst _ c => Some c | VFun _ f => c2 f x y | VHC _ f => None end) (phase phi x y) | _ => False end).
    { destruct w as [c|f|f]; [| |destruct Pl]; cbn [wrapv].
      - rewrite call_const. destruct (X3 (x, y)) as [Y _]. rewrite (Y _ Hin). reflexivity.
      - apply call_wrapped. }
    destruct Hs as [Hs|Hs].
    - exists (wrapv w). split; [apply (B2 x y _ a b (INl _ _ _ Hin) Hs)|]. left.
      rewrite (rh_same dec L conj h Hs), Hw in Hv. assert (v = w) by congruence. subst v.
      apply (same_hop_fd L) in Hs. rewrite Fd in Hs. unfold to_fd2 in Hs |- *. injection Hs as Ea Eb.
      destruct w as [c|f|f]; [| |destruct Pl]; cbn [wrapv eval_hop fst snd] in *; rewrite Ea, Eb; exact CW.
    - exists (hconj conj (wrapv w)). split; [apply (B3 x y _ a b (INl _ _ _ Hin) Hs)|]. right.
      assert (Hba : v = hconj conj w).
      { rewrite (rh_same dec L conj h Hs) in Hv. rewrite (@C01_hermitian site dec Sy L C conj P conj_conj h R x y), Hw in Hv. cbn in Hv. congruence. }
      subst v. apply same_hop_swap in Hs. apply (same_hop_fd L) in Hs. rewrite Fd in Hs. unfold to_fd2 in Hs |- *. injection Hs as Ea Eb.
      destruct w as [c|f|f]; [| |destruct Pl]; cbn [wrapv eval_hop hconj fst snd] in *; rewrite Ea, Eb, CW.
      + destruct (phase phi x y); cbn; [rewrite times_conj|]; reflexivity.
      + destruct (c2 f x y), (phase phi x y); cbn; try rewrite times_conj; reflexivity. }
  split; auto. intros a b. split; auto. intros Hn. destruct (rh h a b) as [v|] eqn:E; auto.
  destruct (SS a b v E) as (v' & Hv' & _). congruence.
Qed.
End Env.

Lemma add_errors h : reachable dec Sy h ->
  match add h with
  | inl _ => NoDup [site0; site1; peierls] /\
      forall a b f, In (a, b, VFun C f) (hopping_value_pairs h) -> NoDup ([site0; site1] ++ skipn 2 (pf_params P f) ++ [peierls])
  | inr e => e = EValue _ /\ (~ NoDup [site0; site1; peierls] \/
      exists a b f, In (a, b, VFun C f) (hopping_value_pairs h) /\ ~ NoDup ([site0; site1] ++ skipn 2 (pf_params P f) ++ [peierls]))
  end.
Proof.
  intros R. unfold add_peierls. destruct (duplicates ndec _) eqn:D0.
  { split; auto. left. intros ND. apply (duplicates_false ndec) in ND. unfold const_params in D0. congruence. }
  apply duplicates_false in D0.
  rewrite copy_sites_eq. destruct (svp_facts L conj R) as (S1 & S2 & S3).
  set (ls := map (fun p => (fst p, lift P (snd p))) (site_value_pairs h)) in *.
  assert (D : ForallOrdPairs (fun p q => ~ same_site Sy (fst p) (fst q)) ls).
  { clear - S1. unfold ls. induction S1 as [|p l HF HX IH]; constructor; auto. rewrite Forall_forall in *. intros q Hq. apply in_map_iff in Hq.
    destruct Hq as (q' & <- & Hq). apply HF; auto. }
  destruct (@set_sites_spec site dec Sy L C conj pfun ls [] (r_empty _ _ _ _) D) as (r1 & E1 & R1 & A1 & A2 & A3).
  rewrite E1. destruct (hvp_facts L conj R) as (H1 & H2 & H3 & H4).
  pose proof (copy_hoppings_eq (hopping_value_pairs h) r1 []) as X. destruct (copy_hoppings r1 [] (hopping_value_pairs h)) as [[ret T]|e].
  - destruct X as (_ & X & _). split; auto. intros a b f Hin. exact (X a b _ Hin I).
  - destruct X as [X|(-> & a & b & v & Hin & Hc & Hn)].
    + exfalso. set (lh := map (fun p => (fst p, wrapv (snd p))) (hopping_value_pairs h)) in *.
      assert (D2 : ForallOrdPairs (fun p q => ~ same_hop Sy (fst (fst p)) (snd (fst p)) (fst (fst q)) (snd (fst q)) /\
                             ~ same_hop Sy (fst (fst p)) (snd (fst p)) (snd (fst q)) (fst (fst q))) lh).
      { clear - H2. unfold lh. induction (hopping_value_pairs h) as [|p l IH]; [constructor|]. cbn in *. inversion H2 as [|? ? HF HX]; subst. constructor; auto.
        rewrite Forall_forall in *. intros q Hq. apply in_map_iff in Hq. destruct Hq as (q' & <- & Hq). exact (HF _ (in_map fst _ _ Hq)). }
      destruct (@set_hops_spec site dec Sy L C conj pfun lh r1 R1 D2) as (r2 & E2 & _); [|congruence].
      intros a b v' Hin. unfold lh in Hin. apply in_map_iff in Hin. destruct Hin as ([[a' b'] w] & [= <- <- <-] & Hin).
      destruct (H3 _ _ _ Hin) as (Y1 & Y2 & Y3 & _). split; auto.
      assert (RS : forall s, rs h s <> None -> rs' r1 s <> None).
      { intros s Hs. destruct (S3 s Hs) as (t & u & Hu & Ht). rewrite (A2 t (lift P u) s); [discriminate| |exact Ht].
        unfold ls. apply in_map_iff. exists (t, u). auto. }
      split; apply RS; auto.
    + split; auto. right. destruct (H3 _ _ _ Hin) as (_ & _ & _ & Pl & _). destruct v as [c|f|f]; [destruct Hc| |destruct Pl]. exists a, b, f. auto.
Qed.
End Peierls.

(** Sorted lists without duplicates are determined by their elements. *)
Lemma sorted_unique (A : Type) (leb : A -> A -> bool) (TO : total_order leb) : forall l l',
  StronglySorted (fun x y => leb x y = true) l -> StronglySorted (fun x y => leb x y = true) l' ->
  NoDup l -> NoDup l' -> (forall x, In x l <-> In x l') -> l = l'.
Proof.
  induction l as [|x l IH]; intros [|y l'] S S' N N' H; auto.
  - destruct (proj2 (H y) (or_introl eq_refl)).
  - destruct (proj1 (H x) (or_introl eq_refl)).
  - inversion S as [|? ? S1 S2]; subst. inversion S' as [|? ? S1' S2']; subst. inversion N; subst. inversion N'; subst. rewrite Forall_forall in *.
    assert (E : x = y).
    { destruct (proj1 (H x) (or_introl eq_refl)) as [?|Hx]; auto. destruct (proj2 (H y) (or_introl eq_refl)) as [?|Hy]; auto.
      apply (to_anti TO); auto. }
    subst y. f_equal. apply IH; auto. intros z. split; intros Hz.
    + destruct (proj1 (H z) (or_intror Hz)) as [<-|?]; auto. contradiction.
    + destruct (proj2 (H z) (or_intror Hz)) as [<-|?]; auto. contradiction.
Qed.
