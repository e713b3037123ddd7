(** * wraparound: the dictionaries of values. *)
From Coq Require Import List Bool Arith.
From Verif Require Import BuilderModel BuilderSpec BuilderProofs BuilderMain CopyProofs ParamModel SubstModel SubstProofs PeierlsModel WrapModel WrapSpec WrapSym.
Import ListNotations.
Set Implicit Arguments.

Lemma lookup_assign' (K A : Type) (dec : forall a b : K, {a = b} + {a <> b}) (h : list (K * A)) k v x :
  lookup dec x (assign dec k v h) = if dec x k then Some v else lookup dec x h.
Proof. rewrite lookup_assign. unfold eqb. destruct (dec x k); reflexivity. Qed.

Section Dict.
Variables site obj name C : Type.
Variable dec : forall a b : site, {a = b} + {a <> b}.
Variables S R W : Symmetry site.
Variable pW : elt S -> elt W.
Hypothesis LS : SymLaws S.
Hypothesis LR : SymLaws R.
Hypothesis LW : SymLaws W.
Hypothesis SP : splits S R W pW.
Variable conj : C -> C.
Variable ndec : forall a b : name, {a = b} + {a <> b}.
Variable P : pyfuns site obj name C.
Variables site0 site1 : name.
Variable momenta : list name.
Notation val := (val C P).
Notation bfun := (bfun W P).
Notation bval := (BuilderModel.val C bfun).
Notation pairdec := (pairdec dec).
Notation b_params := (@b_params site obj name C W P site0 site1 momenta).
Notation dom := (@dom site S W pW).
Notation wa := (@wa site S W pW).
Notation mk_bound := (@mk_bound site obj name C W ndec P site0 site1 momenta).
Notation wrap_hop := (@wrap_hop site obj name C dec S R W pW conj ndec P site0 site1 momenta).
Notation wrap_hops := (@wrap_hops site obj name C dec S R W pW conj ndec P site0 site1 momenta).
Notation wrap_sites := (@wrap_sites site obj name C dec R W ndec P site0 site1 momenta).
Notation sdict := (list (site * list bval)).
Notation hdict := (list (site * site * list bval)).
Notation slook := (@lookup site dec (list bval)).
Notation hlook := (@lookup (site * site) pairdec (list bval)).
Notation entry := (site * site * val)%type.

Definition key (t : entry) : site * site := to_fd2 R (fst (fst t)) (wa (snd (fst t))).
Definition rkey (t : entry) : site * site := to_fd2 R (wa (snd (fst t))) (fst (fst t)).
Definition onsite_t (t : entry) : Prop := fst (fst t) = wa (snd (fst t)).
Definition edom (t : entry) : elt W := dom (snd (fst t)).
Definition sw (K : site * site) : site * site := to_fd2 R (snd K) (fst K).

Lemma sw_fd2 a b : sw (to_fd2 R a b) = to_fd2 R b a.
Proof. unfold sw, to_fd2. cbn [fst snd]. fold (to_fd2 R (act R (eneg R (which R a)) b) (act R (eneg R (which R a)) a)). rewrite (to_fd2_act LR). reflexivity. Qed.
Lemma sw_key t : sw (key t) = rkey t. Proof. apply sw_fd2. Qed.
Lemma sw_rkey t : sw (rkey t) = key t. Proof. apply sw_fd2. Qed.

Definition site_val (v : val) : bval := match v with VConst _ c => VConst _ c | _ => VFun C (BindSite W P v) end.
Definition site_sig (v : val) : Prop := match v with VConst _ _ => True | _ => NoDup (b_params (BindSite W P v)) end.
Definition hop_bound (t : entry) : bool := negb (eis0 W (edom t)) || is_callable P (snd t).
Definition hop_val (t : entry) : bval :=
  if hop_bound t then VFun C (BindHop W P (edom t) (snd t)) else match snd t with VConst _ c => VConst _ c | _ => VFun C (BindHop W P (edom t) (snd t)) end.
Definition hop_sig (t : entry) : Prop :=
  if dec (fst (fst t)) (wa (snd (fst t))) then NoDup (b_params (BindHopSite W P (edom t) (snd t)))
  else if hop_bound t then NoDup (b_params (BindHop W P (edom t) (snd t))) else True.
Definition rev_val (v : bval) : bval := match v with VConst _ c => VConst _ (conj c) | VFun _ b => VHC C b | VHC _ b => VHC C b end.

Lemma mk_bound_spec b : match mk_bound b with inl v => NoDup (b_params b) /\ v = VFun C b | inr e => e = EValue _ /\ ~ NoDup (b_params b) end.
Proof.
  unfold WrapModel.mk_bound. destruct (duplicates ndec (b_params b)) eqn:D.
  - split; auto. intros N. apply (duplicates_false ndec) in N. congruence.
  - apply duplicates_false in D. auto.
Qed.

Lemma wrap_sites_spec : forall l d, match wrap_sites d l with
  | inl d' => Forall (fun p => site_sig (snd p)) l /\ d' = fold_left (fun d p => assign dec (to_fd R (fst p)) [site_val (snd p)] d) l d
  | inr e => e = EValue _ /\ Exists (fun p => ~ site_sig (snd p)) l end.
Proof.
  induction l as [|[s v] l IH]; intros d; cbn [WrapModel.wrap_sites fold_left fst snd]; [auto|].
  assert (X : match site_entry W ndec P site0 site1 momenta v with inl w => site_sig v /\ w = site_val v | inr e => e = EValue _ /\ ~ site_sig v end).
  { destruct v as [c|f|f]; cbn [site_entry site_sig site_val]; [auto| |]; apply (mk_bound_spec (BindSite W P _)). }
  destruct (site_entry W ndec P site0 site1 momenta v) as [w|e]; cbn [rbind].
  - destruct X as [X ->]. specialize (IH (assign dec (to_fd R s) [site_val v] d)). destruct (wrap_sites _ l) as [d'|e].
    + destruct IH as [A B]. split; auto.
    + destruct IH as [A B]. split; auto.
  - destruct X as [-> X]. split; auto.
Qed.
Lemma fold_assign_lookup (l : list (site * val)) : ForallOrdPairs (fun p q => ~ same_site R (fst p) (fst q)) l -> forall d0 : sdict, 
  (NoDup (map fst d0) -> NoDup (map fst (fold_left (fun d p => assign dec (to_fd R (fst p)) [site_val (snd p)] d) l d0))) /\
  (forall s v, In (s, v) l -> slook (to_fd R s) (fold_left (fun d p => assign dec (to_fd R (fst p)) [site_val (snd p)] d) l d0) = Some [site_val v]) /\
  (forall x, (forall s v, In (s, v) l -> to_fd R s <> x) -> slook x (fold_left (fun d p => assign dec (to_fd R (fst p)) [site_val (snd p)] d) l d0) = slook x d0).
Proof.
  induction 1 as [|[s v] l HF HX IH]; intros d0; cbn [fold_left fst snd]; [split; [auto|split; [intros s v []|auto]]|].
  destruct (IH (assign dec (to_fd R s) [site_val v] d0)) as (A & B & D). split; [|split].
  - intros N. apply A. apply NoDup_assign. exact N.
  - intros s' v' [[= <- <-]|Hin]; auto. rewrite D; [|intros s' v' Hin E]. { rewrite lookup_assign'. destruct (dec (to_fd R s) (to_fd R s)); [reflexivity|congruence]. }
    rewrite Forall_forall in HF. apply (HF _ Hin). cbn. apply (same_site_fd LR). exact E.
  - intros x Hx. rewrite D; [|intros; apply Hx with v0; right; auto]. rewrite lookup_assign'. destruct (dec x (to_fd R s)) as [->|]; auto. exfalso. apply (Hx s v); [left|]; auto.
Qed.

Definition contribS (x : site) (t : entry) : list bval :=
  if dec (fst (fst t)) (wa (snd (fst t))) then if dec (to_fd R (fst (fst t))) x then [VFun C (BindHopSite W P (edom t) (snd t))] else [] else [].
Definition contribH (K : site * site) (t : entry) : list bval :=
  if dec (fst (fst t)) (wa (snd (fst t))) then [] else
  if pairdec (key t) K then [hop_val t] else if pairdec (rkey t) K then [rev_val (hop_val t)] else [].

Variable ds0 : sdict.
Record Inv (l : list entry) (ds : sdict) (dh : hdict) : Prop := mkInv {
  i_dsk : map fst ds = map fst ds0;
  i_ds : forall x, slook x ds = option_map (fun v0 => v0 ++ flat_map (contribS x) l) (slook x ds0);
  i_dhn : NoDup (map fst dh);
  i_dh : forall K vs, hlook K dh = Some vs -> vs = flat_map (contribH K) l;
  i_key : forall K vs, hlook K dh = Some vs -> exists t, In t l /\ ~ onsite_t t /\ (K = key t \/ K = rkey t);
  i_cov : forall t, In t l -> ~ onsite_t t -> hlook (key t) dh <> None \/ hlook (rkey t) dh <> None;
  i_exc : forall K, hlook K dh <> None -> hlook (sw K) dh = None }.

Lemma Inv_init : Inv [] ds0 [].
Proof.
  constructor; try (intros; discriminate); auto; [|apply NoDup_nil].
  intros x. destruct (slook x ds0); cbn; [rewrite app_nil_r|]; reflexivity.
Qed.

Lemma hop_entry_spec t : match hop_entry W ndec P site0 site1 momenta (edom t) (snd t) with
  | inl w => (if hop_bound t then NoDup (b_params (BindHop W P (edom t) (snd t))) else True) /\ w = hop_val t
  | inr e => e = EValue _ /\ hop_bound t = true /\ ~ NoDup (b_params (BindHop W P (edom t) (snd t))) end.
Proof.
  unfold hop_entry, hop_val, is_zero. fold (hop_bound t). destruct (hop_bound t) eqn:E.
  - pose proof (mk_bound_spec (BindHop W P (edom t) (snd t))) as X. destruct (mk_bound _); tauto.
  - unfold hop_bound in E. apply orb_false_iff in E. destruct E as [_ E]. destruct (snd t); try discriminate. auto.
Qed.
Lemma reverse_spec t : reverse_entry conj (hop_val t) = inl (rev_val (hop_val t)).
Proof. unfold hop_val. destruct (hop_bound t); [reflexivity|]. destruct (snd t); reflexivity. Qed.

Lemma lookup_append_hop (d : hdict) K v K' : hlook K' (append_hop dec d K v) =
  if pairdec K' K then Some (match hlook K d with Some l => l ++ [v] | None => [v] end) else hlook K' d.
Proof. unfold append_hop. rewrite lookup_assign'. reflexivity. Qed.
Lemma onsite_key t : onsite_t t <-> fst (key t) = snd (key t).
Proof.
  unfold onsite_t, key, to_fd2. cbn [fst snd]. split; [intros <-; reflexivity|]. apply (act_inj LR).
Qed.

Lemma wrap_hop_spec l ds dh t : Inv l ds dh -> In (to_fd R (fst (fst t))) (map fst ds0) ->
  match wrap_hop ds dh (fst (fst t)) (snd (fst t)) (snd t) with
  | inl d => hop_sig t /\ Inv (l ++ [t]) (fst d) (snd d)
  | inr e => e = EValue _ /\ ~ hop_sig t
  end.
Proof.
  intros I Hin. unfold WrapModel.wrap_hop. fold (dom (snd (fst t))). fold (wa (snd (fst t))). fold (key t). fold (edom t).
  destruct (key t) as [a b] eqn:EK. assert (Ea : a = to_fd R (fst (fst t))) by (change a with (fst (a, b)); rewrite <- EK; reflexivity).
  destruct (dec a b) as [e|n].
  - assert (O : onsite_t t) by (apply onsite_key; rewrite EK; exact e).
    assert (HS : hop_sig t = NoDup (b_params (BindHopSite W P (edom t) (snd t)))) by (unfold hop_sig; destruct (dec _ _); [reflexivity|contradiction]).
    rewrite HS. pose proof (mk_bound_spec (BindHopSite W P (edom t) (snd t))) as X. destruct (mk_bound _) as [w|err]; cbn [rbind]; [|exact X].
    destruct X as [X ->]. unfold append_site.
    destruct (lookup dec a ds) as [vs|] eqn:El; cbn [rbind fst snd].
    + split; auto. constructor.
      * rewrite <- (i_dsk I). apply keys_assign_mem. apply mem_lookup. eauto.
      * intros x. rewrite lookup_assign'. rewrite flat_map_app. cbn [flat_map]. rewrite app_nil_r. unfold contribS at 2.
        destruct (dec (fst (fst t)) (wa (snd (fst t)))); [|contradiction]. rewrite <- Ea.
        destruct (dec x a) as [->|nx]; [destruct (dec a a); [|congruence]|destruct (dec a x); [congruence|]].
        -- rewrite (i_ds I) in El. destruct (slook a ds0); [|discriminate]. cbn in *. injection El as <-. rewrite app_assoc. reflexivity.
        -- rewrite app_nil_r. apply (i_ds I).
      * apply (i_dhn I).
      * intros K vs' H. rewrite flat_map_app. cbn [flat_map]. unfold contribH at 2. destruct (dec (fst (fst t)) (wa (snd (fst t)))); [|contradiction].
        cbn. rewrite app_nil_r. apply (i_dh I); auto.
      * intros K vs' H. destruct (i_key I K H) as (t' & A & B). exists t'. split; auto. apply in_app_iff; auto.
      * intros t' Ht'. apply in_app_iff in Ht'. destruct Ht' as [Ht'|[<-|[]]]; [apply (i_cov I); auto|contradiction].
      * apply (i_exc I).
    + exfalso. rewrite (i_ds I) in El. destruct (slook a ds0) eqn:E0; [discriminate|]. apply lookup_None in E0. rewrite Ea in E0. contradiction.
  - assert (O : ~ onsite_t t) by (rewrite onsite_key, EK; exact n).
    assert (HS : hop_sig t = if hop_bound t then NoDup (b_params (BindHop W P (edom t) (snd t))) else True) by (unfold hop_sig; destruct (dec _ _); [contradiction|reflexivity]).
    pose proof (hop_entry_spec t) as X. destruct (hop_entry _ _ _ _ _ _ _ _) as [w|err]; cbn [rbind].
    2: { destruct X as (-> & Y & Z). rewrite HS, Y. auto. }
    destruct X as [X ->]. assert (Er : to_fd2 R b a = rkey t) by (rewrite <- sw_key, EK; reflexivity). rewrite Er. rewrite <- EK.
    assert (NK : key t <> rkey t).
    { unfold key, rkey. apply (to_fd2_flip LR). exact O. }
    assert (Step : forall K v, (K = key t /\ v = hop_val t /\ hlook (rkey t) dh = None) \/ (K = rkey t /\ v = rev_val (hop_val t) /\ hlook (key t) dh = None /\ hlook (rkey t) dh <> None) ->
       Inv (l ++ [t]) ds (append_hop dec dh K v)).
    { intros K v HK. assert (CT : forall K', contribH K' t = if pairdec (key t) K' then [hop_val t] else if pairdec (rkey t) K' then [rev_val (hop_val t)] else []).
      { intros K'. unfold contribH. destruct (dec (fst (fst t)) (wa (snd (fst t)))); [contradiction|reflexivity]. }
      assert (CK : contribH K t = [v]).
      { rewrite CT. destruct HK as [(-> & -> & _)|(-> & -> & _)].
        - destruct (pairdec (key t) (key t)); [reflexivity|congruence].
        - destruct (pairdec (key t) (rkey t)); [contradiction|]. destruct (pairdec (rkey t) (rkey t)); [reflexivity|congruence]. }
      assert (CO : forall K', K' <> K -> hlook K' dh <> None -> contribH K' t = []).
      { intros K' NE P'. rewrite CT. destruct HK as [(-> & -> & HK)|(-> & -> & HK & _)].
        - destruct (pairdec (key t) K'); [congruence|]. destruct (pairdec (rkey t) K') as [<-|]; [congruence|reflexivity].
        - destruct (pairdec (key t) K') as [<-|]; [congruence|]. destruct (pairdec (rkey t) K') as [<-|]; [congruence|reflexivity]. }
      constructor.
      - apply (i_dsk I).
      - intros x. rewrite (i_ds I). f_equal. rewrite flat_map_app. cbn [flat_map]. unfold contribS at 3. destruct (dec (fst (fst t)) (wa (snd (fst t)))); [contradiction|].
        cbn. rewrite app_nil_r. reflexivity.
      - unfold append_hop. apply NoDup_assign. apply (i_dhn I).
      - intros K' vs. rewrite lookup_append_hop, flat_map_app. cbn [flat_map]. rewrite app_nil_r. destruct (pairdec K' K) as [->|nk].
        + intros [= <-]. rewrite CK. destruct (hlook K dh) as [vs|] eqn:E; [rewrite (i_dh I _ E); reflexivity|].
          destruct HK as [(HK1 & HK2 & HK3)|(HK1 & HK2 & HK3)]; [|subst K; tauto]. subst K v.
          assert (Z : flat_map (contribH (key t)) l = []).
          { assert (ZZ : forall t', In t' l -> contribH (key t) t' = []).
            { intros t' Ht'. unfold contribH. destruct (dec (fst (fst t')) (wa (snd (fst t')))) as [|no]; [reflexivity|]. 
              destruct (i_cov I Ht' no) as [Q|Q].
              - destruct (pairdec (key t') (key t)) as [e1|_]; [congruence|]. destruct (pairdec (rkey t') (key t)) as [e1|_]; [|reflexivity].
                exfalso. apply Q. rewrite <- sw_rkey, e1, sw_key. exact HK3.
              - destruct (pairdec (key t') (key t)) as [e1|_].
                + exfalso. apply Q. rewrite <- sw_key, e1, sw_key. exact HK3.
                + destruct (pairdec (rkey t') (key t)) as [e1|_]; [congruence|reflexivity]. }
            clear - ZZ. induction l as [|t' l' IH]; [reflexivity|]. cbn. rewrite ZZ by (left; reflexivity). apply IH. intros; apply ZZ; right; auto. }
          rewrite Z. reflexivity.
        + intros H. rewrite CO; [rewrite app_nil_r; apply (i_dh I); auto|auto|congruence].
      - intros K' vs. rewrite lookup_append_hop. destruct (pairdec K' K) as [->|nk].
        + intros _. exists t. split; [apply in_app_iff; cbn; auto|]. split; auto. destruct HK as [(-> & _)|(-> & _)]; auto.
        + intros H. destruct (i_key I K' H) as (t' & A & B). exists t'. split; auto. apply in_app_iff; auto.
      - intros t' Ht' no. rewrite !lookup_append_hop. apply in_app_iff in Ht'. destruct Ht' as [Ht'|[<-|[]]].
        + destruct (i_cov I Ht' no) as [Q|Q]; [left|right]; match goal with |- (if ?x then _ else _) <> None => destruct x end; auto; discriminate.
        + destruct HK as [(-> & _)|(-> & _)]; [left|right]; match goal with |- (if ?x then _ else _) <> None => destruct x end; auto; try discriminate; congruence.
      - intros K'. rewrite !lookup_append_hop. destruct (pairdec K' K) as [->|nk].
        + intros _. destruct (pairdec (sw K) K) as [e1|_].
          * exfalso. destruct HK as [(-> & _)|(-> & _)]; rewrite ?sw_key, ?sw_rkey in e1; congruence.
          * destruct HK as [(-> & _ & H)|(-> & _ & H & _)]; rewrite ?sw_key, ?sw_rkey; exact H.
        + intros H. destruct (pairdec (sw K') K) as [e1|_]; [|apply (i_exc I); auto].
          exfalso. destruct (hlook K' dh) as [vs|] eqn:E; [|congruence]. destruct (i_key I K' E) as (t' & A & B & D).
          assert (SS : K' = sw K). { rewrite <- e1. destruct D as [->| ->]; rewrite ?sw_key, ?sw_rkey, ?sw_key; reflexivity. }
          destruct HK as [(-> & _ & HK)|(-> & _ & HK & _)]; rewrite ?sw_key, ?sw_rkey in SS; congruence. }
    unfold has_hop. destruct (hlook (rkey t) dh) as [vs|] eqn:Er'.
    + assert (Ek : hlook (key t) dh = None) by (rewrite <- sw_rkey; apply (i_exc I); congruence). rewrite Ek.
      rewrite reverse_spec. cbn [rbind fst snd]. split; [rewrite HS; exact X|]. apply Step. right. repeat split; auto. congruence.
    + cbn [fst snd]. split; [rewrite HS; exact X|]. apply Step. left. auto.
Qed.

Lemma wrap_hops_spec : forall l2 l1 ds dh, Inv l1 ds dh -> (forall t, In t l2 -> In (to_fd R (fst (fst t))) (map fst ds0)) ->
  match wrap_hops ds dh l2 with
  | inl d => Forall hop_sig l2 /\ Inv (l1 ++ l2) (fst d) (snd d)
  | inr e => e = EValue _ /\ Exists (fun t => ~ hop_sig t) l2
  end.
Proof.
  induction l2 as [|[[a b] v] l2 IH]; intros l1 ds dh I H; cbn [WrapModel.wrap_hops].
  - rewrite app_nil_r. auto.
  - pose proof (@wrap_hop_spec l1 ds dh (a, b, v) I (H _ (or_introl eq_refl))) as X. cbn [fst snd] in X.
    destruct (wrap_hop ds dh a b v) as [d|e]; cbn [rbind].
    + destruct X as [X I']. specialize (IH (l1 ++ [(a, b, v)]) (fst d) (snd d) I' ltac:(intros; apply H; right; auto)).
      destruct (wrap_hops (fst d) (snd d) l2) as [d'|e].
      * destruct IH as [A B]. split; [constructor; auto|]. rewrite <- app_assoc in B. exact B.
      * destruct IH as [A B]. auto.
    + destruct X. auto.
Qed.
End Dict.
