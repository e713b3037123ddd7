(** * The builder invariant and the effect of the elementary operations. *)
From Coq Require Import List Bool Arith Lia.
From Verif Require Import BuilderModel BuilderProofs.
Import ListNotations.
Set Implicit Arguments.

Section Inv.
Variable site : Type.
Variable dec : forall a b : site, {a = b} + {a <> b}.
Variable Sy : Symmetry site.
Hypothesis L : SymLaws Sy.
Variable C : Type.
Variable conj : C -> C.
Variable F : Type.

Notation lookup := (lookup dec).
Notation mem := (mem dec).
Notation assign := (assign dec).
Notation remove1 := (remove1 dec).
Notation eqb := (eqb dec).
Notation to_fd := (to_fd Sy).
Notation to_fd2 := (to_fd2 Sy).
Notation in_fd := (in_fd Sy).
Notation store := (store site C F).
Notation val := (val C F).
Notation sval := (sval C F).
Notation get_edge := (@get_edge site dec C F).
Notation set_edge := (@set_edge site dec C F).
Notation del_edge := (@del_edge site dec C F).
Notation getitem := (@getitem site dec Sy C conj F).
Notation contains := (@contains site dec Sy C F).
Notation set_site := (@set_site site dec Sy C F).
Notation set_hopping := (@set_hopping site dec Sy C F).
Notation set_both := (@set_both site dec C F).
Notation del_site := (@del_site site dec Sy C F).
Notation del_hopping := (@del_hopping site dec Sy C F).

Definition pdec (p q : site * site) : {p = q} + {p <> q}.
Proof. decide equality. Defined.
Arguments pdec : simpl never.

(** Stored entry of a directed edge with tail [t] (in the fundamental domain). *)
Definition edge (h : store) (t x : site) : option sval :=
  match lookup t h with Some nd => lookup x (outs nd) | None => None end.

(** Entry of the orbit of an arbitrary hopping. *)
Definition Eg (h : store) (a b : site) : option sval :=
  edge h (fst (to_fd2 a b)) (snd (to_fd2 a b)).

(** Entry of the opposite direction of a stored edge. *)
Definition partner (h : store) (t x : site) : option sval := Eg h x t.

Definition plain (w : val) : Prop := match w with VHC _ _ => False | _ => True end.

Definition compl (v v' : sval) : Prop :=
  (v = SOther _ _ /\ exists w, v' = SVal w /\ plain w) \/
  (v' = SOther _ _ /\ exists w, v = SVal w /\ plain w).

Lemma compl_sym v v' : compl v v' -> compl v' v.
Proof. unfold compl. tauto. Qed.

(** Structural part of the invariant. *)
Record WFs (h : store) : Prop := mkWFs {
  wf_nodup : NoDup (map fst h);
  wf_fd    : forall t, mem t h = true -> in_fd t = true;
  wf_heads : forall t nd, lookup t h = Some nd -> NoDup (map fst (outs nd));
  wf_irr   : forall t, edge h t t = None }.

Record WF (h : store) : Prop := mkWF {
  wf_s    :> WFs h;
  wf_pair : forall t x v, edge h t x = Some v ->
              exists v', Eg h x t = Some v' /\ compl v v' }.

Definition ons (h : store) (t : site) : option val :=
  option_map (@onsite _ _ _) (lookup t h).

(** *** Elementary edge operations *)

Lemma edge_mem h t x v : edge h t x = Some v -> mem t h = true.
Proof.
  unfold edge. intros H. apply mem_lookup.
  destruct (lookup t h); [eauto|discriminate].
Qed.

Lemma edge_not_mem h t x : mem t h = false -> edge h t x = None.
Proof. intros H. unfold edge. apply mem_false in H. rewrite H. reflexivity. Qed.

Lemma set_edge_spec h t x v :
  mem t h = true ->
  exists h', set_edge h t x v = (h', None) /\
    map fst h' = map fst h /\
    (forall s, ons h' s = ons h s) /\
    (forall s y, edge h' s y = if pdec (s, y) (t, x) then Some v else edge h s y) /\
    (forall s nd', lookup s h' = Some nd' -> exists nd, lookup s h = Some nd /\
        (outs nd' = outs nd \/ (s = t /\ outs nd' = assign x v (outs nd)))).
Proof.
  intros M. destruct (proj1 (mem_lookup dec h t) M) as [nd Hn].
  unfold BuilderModel.set_edge. rewrite Hn. eexists; split; [reflexivity|].
  split; [apply keys_assign_mem; auto|]. repeat split.
  - intros s. unfold ons. rewrite lookup_assign.
    destruct (eqb s t) eqn:E; [|reflexivity].
    apply eqb_true in E; subst. rewrite Hn. reflexivity.
  - intros s y. unfold edge. rewrite lookup_assign.
    destruct (eqb s t) eqn:E.
    + apply eqb_true in E; subst. simpl. rewrite lookup_assign, Hn.
      destruct (pdec (t, y) (t, x)) as [e|n].
      * injection e as ->. rewrite eqb_refl. reflexivity.
      * rewrite eqb_neq; [reflexivity|]. congruence.
    + destruct (pdec (s, y) (t, x)) as [e|n]; [|reflexivity].
      injection e as -> ->. rewrite eqb_refl in E. discriminate.
  - intros s nd'. rewrite lookup_assign. destruct (eqb s t) eqn:E.
    + apply eqb_true in E; subst. intros [= <-]. exists nd. simpl. auto.
    + eauto.
Qed.

Lemma set_edge_err h t x v :
  mem t h = false -> set_edge h t x v = (h, Some (EKeySite t)).
Proof.
  intros M. apply mem_false in M. unfold BuilderModel.set_edge. rewrite M. reflexivity.
Qed.

Lemma del_edge_spec h t x :
  WFs h -> edge h t x <> None ->
  exists h', del_edge h t x = (h', None) /\
    map fst h' = map fst h /\
    (forall s, ons h' s = ons h s) /\
    (forall s y, edge h' s y = if pdec (s, y) (t, x) then None else edge h s y) /\
    (forall s nd', lookup s h' = Some nd' -> exists nd, lookup s h = Some nd /\
        ((s <> t /\ outs nd' = outs nd) \/ (s = t /\ outs nd' = remove1 x (outs nd)))).
Proof.
  intros W N. unfold edge in N.
  destruct (lookup t h) as [nd|] eqn:Hn; [|congruence].
  assert (mem t h = true) as M by (apply mem_lookup; eauto).
  unfold BuilderModel.del_edge. rewrite Hn.
  replace (mem x (outs nd)) with true
    by (unfold BuilderModel.mem; destruct (lookup x (outs nd)); congruence).
  eexists; split; [reflexivity|].
  split; [apply keys_assign_mem; auto|]. repeat split.
  - intros s. unfold ons. rewrite lookup_assign.
    destruct (eqb s t) eqn:E; [|reflexivity].
    apply eqb_true in E; subst. rewrite Hn. reflexivity.
  - intros s y. unfold edge. rewrite lookup_assign.
    destruct (eqb s t) eqn:E.
    + apply eqb_true in E; subst. simpl.
      rewrite lookup_remove1 by (eapply wf_heads; eauto).
      rewrite Hn. destruct (pdec (t, y) (t, x)) as [e|n].
      * injection e as ->. rewrite eqb_refl. reflexivity.
      * rewrite eqb_neq; [reflexivity|]. congruence.
    + destruct (pdec (s, y) (t, x)) as [e|n]; [|reflexivity].
      injection e as -> ->. rewrite eqb_refl in E. discriminate.
  - intros s nd'. rewrite lookup_assign. destruct (eqb s t) eqn:E.
    + apply eqb_true in E; subst. intros [= <-]. exists nd. simpl. auto.
    + intros H. exists nd'. split; [auto|]. left; split; [|auto].
      intros ->. rewrite eqb_refl in E. discriminate.
Qed.

Lemma del_edge_err h t x :
  edge h t x = None -> exists e, del_edge h t x = (h, Some e) /\
   (e = EKeySite t \/ e = EKeySite x \/ e = EKeyHop t x).
Proof.
  unfold edge, BuilderModel.del_edge. destruct (lookup t h) as [nd|] eqn:Hn.
  - intros H. apply mem_false in H. rewrite H.
    destruct (mem x h); eexists; split; eauto.
  - intros _. eexists; split; eauto.
Qed.

(** *** Consequences of the invariant *)

Lemma Eg_act h g a b : Eg h (act Sy g a) (act Sy g b) = Eg h a b.
Proof. unfold Eg. rewrite to_fd2_act; auto. Qed.

Lemma Eg_eq h a b c d : to_fd2 a b = to_fd2 c d -> Eg h a b = Eg h c d.
Proof. intros H. unfold Eg. rewrite H. reflexivity. Qed.

Lemma Eg_fd h a b : in_fd a = true -> Eg h a b = edge h a b.
Proof. intros H. unfold Eg. rewrite to_fd2_id; auto. Qed.

Lemma Eg_norm h a b : Eg h (fst (to_fd2 a b)) (snd (to_fd2 a b)) = Eg h a b.
Proof. apply Eg_eq. apply to_fd2_idem; auto. Qed.

Lemma Eg_swap h a b : Eg h (snd (to_fd2 a b)) (fst (to_fd2 a b)) = Eg h b a.
Proof. apply Eg_eq. apply to_fd2_swap; auto. Qed.

Lemma WF_Eg_pair h a b v : WF h -> Eg h a b = Some v ->
  exists v', Eg h b a = Some v' /\ compl v v'.
Proof.
  intros W H. unfold Eg in H at 1. apply (wf_pair W) in H.
  rewrite Eg_swap in H. exact H.
Qed.

Lemma WF_Eg_None h a b : WF h -> Eg h a b = None -> Eg h b a = None.
Proof.
  intros W H. destruct (Eg h b a) eqn:E; [|reflexivity].
  apply WF_Eg_pair in E as [v' [E' _]]; auto. congruence.
Qed.

Lemma WF_irr h a : WFs h -> Eg h a a = None.
Proof. intros W. unfold Eg. simpl. apply (wf_irr W). Qed.

Lemma WF_Eg_mem h a b v : WF h -> Eg h a b = Some v ->
  mem (to_fd a) h = true /\ mem (to_fd b) h = true.
Proof.
  intros W H. split.
  - unfold Eg in H. apply edge_mem in H. exact H.
  - apply WF_Eg_pair in H as [v' [H _]]; auto. apply edge_mem in H. exact H.
Qed.

(** The user-visible value of a hopping, as a function of the two entries. *)
Definition vhop (h : store) (a b : site) : option val :=
  match Eg h a b with
  | None => None
  | Some (SVal v) => Some v
  | Some (SOther _ _) =>
    match Eg h b a with
    | Some (SVal (VConst _ c)) => Some (VConst _ (conj c))
    | Some (SVal (VFun _ f)) => Some (VHC _ f)
    | _ => None
    end
  end.

Definition ok {A} (r : A + err site) : option A :=
  match r with inl x => Some x | inr _ => None end.

Lemma get_edge_ok h t x : ok (get_edge h t x) = edge h t x.
Proof.
  unfold BuilderModel.get_edge, edge. destruct (lookup t h); [|reflexivity].
  destruct (lookup x (outs n)); [reflexivity|]. destruct (mem x h); reflexivity.
Qed.

Lemma get_edge_some h t x v : edge h t x = Some v -> get_edge h t x = inl v.
Proof.
  intros H. rewrite <- get_edge_ok in H.
  destruct (get_edge h t x); simpl in H; congruence.
Qed.

Lemma get_edge_none h t x : edge h t x = None ->
  exists e, get_edge h t x = inr e /\ (e = EKeySite t \/ e = EKeySite x \/ e = EKeyHop t x).
Proof.
  unfold BuilderModel.get_edge, edge. destruct (lookup t h); eauto.
  intros ->. destruct (mem x h); eauto.
Qed.

Lemma getitem_hop h a b : WF h -> a <> b ->
  match vhop h a b with
  | Some v => getitem h (KHop a b) = inl v
  | None => exists e, getitem h (KHop a b) = inr e /\
     let (a', b') := to_fd2 a b in
     (e = EKeySite a' \/ e = EKeySite b' \/ e = EKeyHop a' b')
  end.
Proof.
  intros W N. unfold BuilderModel.getitem, validate_hopping.
  destruct (dec a b) as [|_]; [congruence|].
  assert (to_fd2 a b = (fst (to_fd2 a b), snd (to_fd2 a b))) as E2
    by (destruct (to_fd2 a b); reflexivity).
  unfold vhop. destruct (Eg h a b) as [v|] eqn:E.
  - assert (P := WF_Eg_pair a b W E).
    assert (E' := E). unfold Eg in E'. rewrite E2. apply get_edge_some in E'.
    rewrite E'. destruct v as [v|]; [reflexivity|].
    destruct P as [v' [P Cm]]. rewrite P.
    assert (exists w, v' = SVal w /\ plain w) as [w [-> Pl]].
    { destruct Cm as [[_ H]|[H [w [H' _]]]]; [exact H|congruence]. }
    assert (in_fd (fst (to_fd2 a b)) = true) as Fa by (apply in_fd_to_fd; auto).
    destruct (in_fd (snd (to_fd2 a b))) eqn:Fb.
    + rewrite <- Eg_swap in P. rewrite Eg_fd in P by auto.
      apply get_edge_some in P. rewrite P. destruct w; simpl; auto; contradiction.
    + rewrite to_fd2_swap by auto.
      assert (to_fd2 b a = (fst (to_fd2 b a), snd (to_fd2 b a))) as E3
        by (destruct (to_fd2 b a); reflexivity).
      rewrite E3.
      replace (in_fd (snd (to_fd2 b a))) with false.
      2:{ symmetry. rewrite <- to_fd2_swap by auto. apply swap_not_fd; auto. }
      unfold Eg in P. apply get_edge_some in P. rewrite P.
      destruct w; simpl; auto; contradiction.
  - unfold Eg in E. rewrite E2. apply get_edge_none in E as [e [-> He]].
    eauto.
Qed.

Lemma contains_hop h a b : a <> b ->
  contains h (KHop a b) = inl (match Eg h a b with Some _ => true | None => false end).
Proof.
  intros N. unfold BuilderModel.contains, validate_hopping.
  destruct (dec a b) as [|_]; [congruence|]. unfold Eg, edge. simpl.
  destruct (lookup _ h); reflexivity.
Qed.

(** *** _set_hopping *)

Definition st1 (v : val) : sval := match v with VHC _ f => SOther _ _ | _ => SVal v end.
Definition st2 (v : val) : sval := match v with VHC _ f => SVal (VFun _ f) | _ => SOther _ _ end.

Lemma st_compl v : compl (st1 v) (st2 v).
Proof. destruct v; [right|right|left]; (split; [reflexivity|]; eexists; split; [reflexivity|exact I]). Qed.

Lemma WFs_of h h' :
  WFs h -> map fst h' = map fst h ->
  (forall s nd', lookup s h' = Some nd' -> NoDup (map fst (outs nd'))) ->
  (forall s, edge h' s s = None) -> WFs h'.
Proof.
  intros W K Hn He. split; auto.
  - rewrite K. apply W.
  - intros t M. apply (wf_fd W). apply mem_true. rewrite <- K. apply mem_true in M.
    exact M.
Qed.

Lemma mem_keys (h h' : store) t : map fst h' = map fst h -> mem t h' = mem t h.
Proof.
  intros K. destruct (mem t h) eqn:E.
  - apply mem_true in E. apply mem_true. rewrite K. auto.
  - destruct (mem t h') eqn:E'; [|reflexivity].
    apply mem_true in E'. rewrite K in E'. apply mem_true with (dec:=dec) in E'.
    congruence.
Qed.

Lemma set_both_spec h a b b2 a2 v :
  WFs h -> mem a h = true -> mem b2 h = true -> a <> b -> b2 <> a2 ->
  (a, b) <> (b2, a2) ->
  exists h', set_both h a b b2 a2 v = (h', None) /\
    map fst h' = map fst h /\
    (forall s, ons h' s = ons h s) /\
    (forall s y, edge h' s y =
       if pdec (s, y) (a, b) then Some (st1 v)
       else if pdec (s, y) (b2, a2) then Some (st2 v) else edge h s y) /\
    WFs h'.
Proof.
  intros W Ma Mb N1 N2 N3.
  assert (set_both h a b b2 a2 v =
          andthen (set_edge h a b (st1 v)) (fun h => set_edge h b2 a2 (st2 v))) as ->
    by (destruct v; reflexivity).
  destruct (@set_edge_spec h a b (st1 v) Ma) as (h1 & -> & K1 & O1 & E1 & N1').
  simpl. assert (mem b2 h1 = true) as Mb' by (rewrite (mem_keys h h1 b2 K1); auto).
  destruct (@set_edge_spec h1 b2 a2 (st2 v) Mb') as (h2 & -> & K2 & O2 & E2 & N2').
  exists h2. assert (KK : map fst h2 = map fst h) by congruence.
  assert (EE : forall s y, edge h2 s y =
       if pdec (s, y) (a, b) then Some (st1 v)
       else if pdec (s, y) (b2, a2) then Some (st2 v) else edge h s y).
  { intros s y. rewrite E2, E1. destruct (pdec (s,y) (a,b)), (pdec (s,y) (b2,a2)); congruence. }
  repeat split; auto.
  - intros s. rewrite O2. apply O1.
  - rewrite KK. apply W.
  - intros t M. apply (wf_fd W). rewrite <- (mem_keys h h2 t KK). auto.
  - intros t nd Hn. apply N2' in Hn as (nd1 & Hn & Ho2). apply N1' in Hn as (nd0 & Hn & Ho1).
    assert (ND := wf_heads W t Hn).
    assert (NoDup (map fst (outs nd1))) as ND1.
    { destruct Ho1 as [->|[_ ->]]; [auto|apply NoDup_assign; auto]. }
    destruct Ho2 as [->|[_ ->]]; [auto|apply NoDup_assign; auto].
  - intros t. rewrite EE. destruct (pdec (t,t) (a,b)); [congruence|].
    destruct (pdec (t,t) (b2,a2)); [congruence|]. apply W.
Qed.

(** Effect of [_set_hopping] on hoppings *)
Lemma set_hopping_spec h a b v :
  WF h -> a <> b ->
  (mem (to_fd a) h = true -> mem (to_fd b) h = true ->
   exists h', set_hopping h (KHop a b) v = (h', None) /\
    map fst h' = map fst h /\
    (forall s, ons h' s = ons h s) /\
    (forall x y, Eg h' x y =
       if pdec (to_fd2 x y) (to_fd2 a b) then Some (st1 v)
       else if pdec (to_fd2 x y) (to_fd2 b a) then Some (st2 v) else Eg h x y) /\
    WF h') /\
  (mem (to_fd a) h = false \/ mem (to_fd b) h = false ->
   exists e, set_hopping h (KHop a b) v = (h, Some e) /\
     (mem (to_fd a) h = false /\ e = EKeySite (to_fd a) \/
      mem (to_fd b) h = false /\ e = EKeySite (snd (to_fd2 a b)))).
Proof.
  intros W N. unfold BuilderModel.set_hopping, validate_hopping.
  destruct (dec a b) as [|_]; [congruence|].
  assert (to_fd2 a b = (to_fd a, snd (to_fd2 a b))) as Eab by reflexivity.
  rewrite Eab. cbv iota.
  set (a' := to_fd a). set (b' := snd (to_fd2 a b)).
  assert (Fa : in_fd a' = true) by (apply in_fd_to_fd; auto).
  assert (Sw : to_fd2 b' a' = to_fd2 b a) by (apply to_fd2_swap; auto).
  assert (Hfb : to_fd b' = to_fd b) by (apply to_fd_act; auto).
  assert (Nab : a' <> b') by (apply (to_fd2_neq L N)).
  assert (Nba : fst (to_fd2 b a) <> snd (to_fd2 b a)) by (apply to_fd2_neq; auto).
  assert (Nfl : (a', b') <> to_fd2 b a).
  { change (to_fd2 a b <> to_fd2 b a). apply to_fd2_flip; auto. }
  (* what set_both yields *)
  assert (MAIN : mem a' h = true -> mem (to_fd b) h = true ->
     exists h', set_both h a' b' (fst (to_fd2 b a)) (snd (to_fd2 b a)) v = (h', None) /\
    map fst h' = map fst h /\
    (forall s, ons h' s = ons h s) /\
    (forall x y, Eg h' x y =
       if pdec (to_fd2 x y) (a', b') then Some (st1 v)
       else if pdec (to_fd2 x y) (to_fd2 b a) then Some (st2 v) else Eg h x y) /\
    WF h').
  { intros Ma Mb.
    assert (P : to_fd2 b a = (fst (to_fd2 b a), snd (to_fd2 b a)))
      by (destruct (to_fd2 b a); reflexivity).
    destruct (@set_both_spec h a' b' (fst (to_fd2 b a)) (snd (to_fd2 b a)) v
              W Ma Mb Nab Nba) as (h' & HS & K & O & E & W').
    { rewrite <- P. exact Nfl. }
    rewrite <- P in E.
    assert (EEg : forall x y, Eg h' x y =
       if pdec (to_fd2 x y) (a', b') then Some (st1 v)
       else if pdec (to_fd2 x y) (to_fd2 b a) then Some (st2 v) else Eg h x y).
    { intros x y. unfold Eg. rewrite E.
      assert ((fst (to_fd2 x y), snd (to_fd2 x y)) = to_fd2 x y) as ->
        by (destruct (to_fd2 x y); reflexivity). reflexivity. }
    exists h'. do 4 (split; [assumption|]). split; [exact W'|].
    intros t x v0 H. assert (Ft : in_fd t = true).
    { apply (wf_fd W'). eapply edge_mem; eauto. }
    rewrite <- Eg_fd in H by auto. rewrite EEg in *.
    assert (Esw1 : to_fd2 t x = (a',b') <-> to_fd2 x t = to_fd2 b a).
    { change (a', b') with (to_fd2 a b). rewrite !(to_fd2_eq_iff L).
      split; intros [g [? ?]]; exists g; auto. }
    assert (Esw2 : to_fd2 t x = to_fd2 b a <-> to_fd2 x t = (a',b')).
    { change (a', b') with (to_fd2 a b). rewrite !(to_fd2_eq_iff L).
      split; intros [g [? ?]]; exists g; auto. }
    destruct (pdec (to_fd2 t x) (a',b')) as [e|n].
    { injection H as <-. apply Esw1 in e. rewrite e.
      destruct (pdec (to_fd2 b a) (a',b')); [congruence|].
      destruct (pdec (to_fd2 b a) (to_fd2 b a)); [|congruence].
      eexists; split; [reflexivity|apply st_compl]. }
    destruct (pdec (to_fd2 t x) (to_fd2 b a)) as [e|n'].
    { injection H as <-. apply Esw2 in e. rewrite e.
      destruct (pdec (a',b') (a',b')); [|congruence].
      eexists; split; [reflexivity|apply compl_sym, st_compl]. }
    apply (WF_Eg_pair _ _ W) in H as [v' [H Cm]].
    destruct (pdec (to_fd2 x t) (a',b')); [tauto|].
    destruct (pdec (to_fd2 x t) (to_fd2 b a)); [tauto|]. eauto. }
  destruct (in_fd b') eqn:Fb.
  - assert (Hb : to_fd b = b') by (rewrite <- Hfb; apply to_fd_id; auto).
    rewrite to_fd2_id in Sw by auto. rewrite <- Sw in *. rewrite Hb in *.
    split.
    + intros Ma Mb. rewrite Ma, Mb. apply MAIN; auto.
    + intros [Ma|Mb].
      * rewrite Ma. eauto 6.
      * rewrite Mb. destruct (mem a' h) eqn:Ma; eauto 6.
  - rewrite Sw.
    assert (to_fd2 b a = (to_fd b, snd (to_fd2 b a))) as Eba by reflexivity.
    rewrite Eba. cbv iota.
    replace (in_fd (snd (to_fd2 b a))) with false
      by (symmetry; rewrite <- Sw; apply swap_not_fd; auto).
    split.
    + intros Ma Mb. rewrite Mb. apply MAIN; auto.
    + intros [Ma|Mb].
      * destruct (mem (to_fd b) h) eqn:Mb; [|eauto 6].
        assert (set_both h a' b' (to_fd b) (snd (to_fd2 b a)) v
                = (h, Some (EKeySite a'))) as ->.
        { destruct v; simpl; rewrite set_edge_err; auto. }
        eauto 6.
      * rewrite Mb. eauto 6.
Qed.


(** *** _set_site *)
Lemma set_site_spec h s v :
  WF h ->
  exists h', set_site h (KSite s) v = (h', None) /\
    (forall t, mem t h' = (eqb t (to_fd s) || mem t h)%bool) /\
    (forall t, ons h' t = if eqb t (to_fd s) then Some v else ons h t) /\
    (forall t x, edge h' t x = edge h t x) /\
    (mem (to_fd s) h = true -> map fst h' = map fst h) /\
    (mem (to_fd s) h = false -> map fst h' = map fst h ++ [to_fd s]) /\
    WF h'.
Proof.
  intros W. unfold BuilderModel.set_site.
  set (s' := to_fd s). assert (Fs : in_fd s' = true) by (apply in_fd_to_fd; auto).
  set (l := match lookup s' h with Some nd => outs nd | None => [] end).
  exists (assign s' (mkNode v l) h).
  split; [unfold l; destruct (lookup s' h); reflexivity|].
  assert (EE : forall t x, edge (assign s' (mkNode v l) h) t x = edge h t x).
  { intros t x. unfold edge. rewrite lookup_assign. destruct (eqb t s') eqn:E; [|reflexivity].
    apply eqb_true in E; subst t. simpl. unfold l. destruct (lookup s' h); reflexivity. }
  assert (EG : forall t x, Eg (assign s' (mkNode v l) h) t x = Eg h t x).
  { intros t x. apply EE. }
  split; [intros t; apply mem_assign|].
  split; [|split; [exact EE|split; [|split; [|split; [split|]]]]].
  - intros t. unfold ons. rewrite lookup_assign. destruct (eqb t s'); reflexivity.
  - intros M. apply keys_assign_mem; auto.
  - intros M. rewrite keys_assign_new by auto. rewrite map_app. reflexivity.
  - apply NoDup_assign. apply W.
  - intros t. rewrite mem_assign. destruct (eqb t s') eqn:E.
    + apply eqb_true in E; subst; auto.
    + apply (wf_fd W).
  - intros t nd. rewrite lookup_assign. destruct (eqb t s') eqn:E.
    + intros [= <-]. simpl. unfold l.
      destruct (lookup s' h) eqn:E'; [exact (wf_heads W _ E')|constructor].
    + apply (wf_heads W).
  - intros t. rewrite EE. apply W.
  - intros t x w H. rewrite EE in H. rewrite EG. apply (wf_pair W); auto.
Qed.

(** *** _del_edge preserves the structural invariant *)
Lemma del_edge_WFs h t x h' :
  WFs h -> edge h t x <> None -> del_edge h t x = (h', None) -> WFs h'.
Proof.
  intros W N H. destruct (@del_edge_spec h t x W N) as (h1 & H1 & K & O & E & Nd).
  rewrite H1 in H. injection H as ->.
  apply WFs_of with (h := h); auto.
  - intros s nd Hn. apply Nd in Hn as (nd0 & Hn & [[_ ->]|[_ ->]]).
    + eapply wf_heads; eauto.
    + apply NoDup_remove1. eapply wf_heads; eauto.
  - intros s. rewrite E. destruct (pdec _ _); [reflexivity|]. apply W.
Qed.

(** *** _del_hopping *)
Lemma del_hopping_spec h a b :
  WF h -> a <> b ->
  (Eg h a b <> None ->
   exists h', del_hopping h (KHop a b) = (h', None) /\
    map fst h' = map fst h /\
    (forall s, ons h' s = ons h s) /\
    (forall x y, Eg h' x y =
       if pdec (to_fd2 x y) (to_fd2 a b) then None
       else if pdec (to_fd2 x y) (to_fd2 b a) then None else Eg h x y) /\
    WF h') /\
  (Eg h a b = None -> exists e, del_hopping h (KHop a b) = (h, Some e) /\
     let (a', b') := to_fd2 a b in
     (e = EKeySite a' \/ e = EKeySite b' \/ e = EKeyHop a' b')).
Proof.
  intros W N. unfold BuilderModel.del_hopping, validate_hopping.
  destruct (dec a b) as [|_]; [congruence|].
  assert (to_fd2 a b = (to_fd a, snd (to_fd2 a b))) as Eab by reflexivity.
  rewrite Eab. cbv iota.
  set (a' := to_fd a). set (b' := snd (to_fd2 a b)).
  assert (Fa : in_fd a' = true) by (apply in_fd_to_fd; auto).
  assert (Sw : to_fd2 b' a' = to_fd2 b a) by (apply to_fd2_swap; auto).
  assert (Nfl : (a', b') <> to_fd2 b a).
  { change (to_fd2 a b <> to_fd2 b a). apply to_fd2_flip; auto. }
  assert (Pba : to_fd2 b a = (fst (to_fd2 b a), snd (to_fd2 b a)))
    by (destruct (to_fd2 b a); reflexivity).
  split.
  2:{ intros H. change (edge h a' b' = None) in H.
      destruct (@del_edge_err h a' b' H) as (e & -> & He). simpl. eauto. }
  intros HE. change (edge h a' b' <> None) in HE.
  destruct (@del_edge_spec h a' b' W HE) as (h1 & H1 & K1 & O1 & E1 & _).
  assert (W1 := @del_edge_WFs h a' b' h1 W HE H1).
  rewrite H1. unfold andthen.
  assert (HE2 : edge h1 (fst (to_fd2 b a)) (snd (to_fd2 b a)) <> None).
  { rewrite E1, <- Pba. destruct (pdec (to_fd2 b a) (a', b')); [congruence|].
    change (Eg h b a <> None). change (Eg h a b <> None) in HE.
    intros X. apply HE. apply WF_Eg_None; auto. }
  destruct (@del_edge_spec h1 _ _ W1 HE2) as (h2 & H2 & K2 & O2 & E2 & _).
  assert (W2 := @del_edge_WFs h1 _ _ h2 W1 HE2 H2).
  assert (EE : forall x y, Eg h2 x y =
       if pdec (to_fd2 x y) (to_fd2 a b) then None
       else if pdec (to_fd2 x y) (to_fd2 b a) then None else Eg h x y).
  { intros x y. unfold Eg. rewrite E2, E1.
    assert ((fst (to_fd2 x y), snd (to_fd2 x y)) = to_fd2 x y) as ->
        by (destruct (to_fd2 x y); reflexivity).
    rewrite <- Pba. change (to_fd2 a b) with (a', b').
    destruct (pdec (to_fd2 x y) (to_fd2 b a)), (pdec (to_fd2 x y) (a', b')); reflexivity. }
  assert (RES : exists h', (h2, @None (err site)) = (h', None) /\
    map fst h' = map fst h /\
    (forall s, ons h' s = ons h s) /\
    (forall x y, Eg h' x y =
       if pdec (to_fd2 x y) (to_fd2 a b) then None
       else if pdec (to_fd2 x y) (to_fd2 b a) then None else Eg h x y) /\
    WF h').
  { exists h2. split; [reflexivity|]. split; [congruence|].
    split; [intros s; rewrite O2; apply O1|]. split; [exact EE|].
    split; [exact W2|]. intros t x v H.
    assert (Ft : in_fd t = true).
    { apply (wf_fd W2). eapply edge_mem; eauto. }
    rewrite <- Eg_fd in H by auto. rewrite EE in *.
    assert (to_fd2 t x = to_fd2 a b <-> to_fd2 x t = to_fd2 b a).
    { rewrite !(to_fd2_eq_iff L). split; intros [g [? ?]]; exists g; auto. }
    assert (to_fd2 t x = to_fd2 b a <-> to_fd2 x t = to_fd2 a b).
    { rewrite !(to_fd2_eq_iff L). split; intros [g [? ?]]; exists g; auto. }
    destruct (pdec (to_fd2 t x) (to_fd2 a b)); [discriminate|].
    destruct (pdec (to_fd2 t x) (to_fd2 b a)); [discriminate|].
    destruct (pdec (to_fd2 x t) (to_fd2 a b)); [tauto|].
    destruct (pdec (to_fd2 x t) (to_fd2 b a)); [tauto|].
    apply (WF_Eg_pair _ _ W); auto. }
  destruct (in_fd b') eqn:Fb.
  - rewrite to_fd2_id in Sw by auto. rewrite <- Sw in H2. simpl in H2. rewrite H2.
    exact RES.
  - rewrite Sw, Pba. cbv iota.
    replace (in_fd (snd (to_fd2 b a))) with false
      by (symmetry; rewrite <- Sw; apply swap_not_fd; auto).
    rewrite H2. exact RES.
Qed.

(** *** _del_site *)

Notation del_site_loop := (@del_site_loop site dec Sy C F).

Lemma nth_error_firstn_lt A (l : list A) k j :
  j < k -> nth_error (firstn k l) j = nth_error l j.
Proof.
  revert k j; induction l as [|x l IH]; intros k j H.
  - rewrite firstn_nil. reflexivity.
  - destruct k; [lia|]. destruct j; [reflexivity|]. simpl. apply IH. lia.
Qed.

Lemma firstn_S_nth A (l : list A) k x :
  nth_error l k = Some x -> firstn (Datatypes.S k) l = firstn k l ++ [x].
Proof.
  revert k; induction l as [|y l IH]; intros [|k] H; try discriminate.
  - injection H as ->. reflexivity.
  - change (y :: firstn (Datatypes.S k) l = y :: firstn k l ++ [x]).
    f_equal. apply IH. exact H.
Qed.

(** Removing an entry behind position k leaves the first k+1 entries alone. *)
Lemma firstn_remove1 A (l : list (site * A)) k y :
  ~ In y (map fst (firstn k l)) -> firstn k (remove1 y l) = firstn k l.
Proof.
  revert k; induction l as [|[z v] l IH]; intros [|k] H; try reflexivity.
  simpl. unfold BuilderModel.eqb. destruct (dec y z) as [->|n].
  - exfalso. apply H. left. reflexivity.
  - simpl. f_equal. apply IH. intros HI. apply H. right. exact HI.
Qed.

(** Loop invariant at iterator position k. *)
Record DInv (h0 h : store) (s : site) (k : nat) (nd : node site C F) : Prop := {
  di_wfs  : WFs h;
  di_keys : map fst h = map fst h0;
  di_ons  : forall t, ons h t = ons h0 t;
  di_nd   : lookup s h = Some nd;
  di_k    : k <= length (outs nd);
  di_pair : forall t x v, edge h t x = Some v ->
     (exists v', Eg h x t = Some v' /\ compl v v') \/
     (t = s /\ In x (map fst (firstn k (outs nd))));
  di_done : forall x, In x (map fst (firstn k (outs nd))) -> Eg h x s = None;
  di_same : forall t x, t <> s -> to_fd x <> s -> edge h t x = edge h0 t x }.

Lemma del_site_loop_spec h0 s fuel h k nd :
  WFs h0 -> in_fd s = true ->
  DInv h0 h s k nd -> length (outs nd) < fuel + k ->
  exists h' nd', del_site_loop fuel h s k = (h', None) /\
    DInv h0 h' s (length (outs nd')) nd'.
Proof.
  intros W0 Fs. revert h k nd.
  induction fuel as [|fuel IH]; intros h k nd I Hf.
  { destruct I. lia. }
  cbn [BuilderModel.del_site_loop]. rewrite (di_nd I).
  destruct (nth_error (outs nd) k) as [[nb v]|] eqn:Hk.
  2:{ apply nth_error_None in Hk. exists h, nd. split; [reflexivity|].
      assert (k = length (outs nd)) as <-; [|exact I]. destruct I; lia. }
  assert (W := di_wfs I).
  assert (NDs := wf_heads W s (di_nd I)).
  assert (Hsk : firstn (Datatypes.S k) (outs nd) = firstn k (outs nd) ++ [(nb, v)])
    by (apply firstn_S_nth; auto).
  assert (NDk : NoDup (map fst (firstn (Datatypes.S k) (outs nd)))).
  { rewrite <- firstn_map.
    rewrite <- (firstn_skipn (Datatypes.S k) (map fst (outs nd))) in NDs.
    revert NDs. generalize (firstn (Datatypes.S k) (map fst (outs nd))).
    intros l1. generalize (skipn (Datatypes.S k) (map fst (outs nd))). intros l2 Hnd.
    clear -Hnd. induction l1 as [|y l1 IH1]; [constructor|].
    inversion Hnd; subst. constructor; [|auto].
    intros HI. apply H1. apply in_or_app. left; exact HI. }
  assert (Nbk : ~ In nb (map fst (firstn k (outs nd)))).
  { rewrite Hsk, map_app in NDk. apply NoDup_remove_2 in NDk.
    rewrite app_nil_r in NDk. exact NDk. }
  assert (Esnb : edge h s nb = Some v).
  { unfold edge. rewrite (di_nd I). apply In_lookup; auto.
    eapply nth_error_In; eauto. }
  destruct (di_pair I s nb Esnb) as [(v' & Hv' & Cm)|[_ HI]]; [|contradiction].
  assert (Nsnb : s <> nb).
  { intros ->. rewrite (wf_irr W) in Esnb. discriminate. }
  (* the deletion performed is that of the partner edge *)
  set (p := to_fd2 nb s).
  assert (Pp : p = (fst p, snd p)) by (destruct p; reflexivity).
  assert (HE : edge h (fst p) (snd p) <> None) by (unfold Eg in Hv'; fold p in Hv'; congruence).
  assert (DEL : (if mem nb h then del_edge h nb s
           else if in_fd nb then (h, Some (EAssert site))
           else let (nb', s') := to_fd2 nb s in del_edge h nb' s')
          = del_edge h (fst p) (snd p)).
  { destruct (mem nb h) eqn:Mnb.
    - apply (wf_fd W) in Mnb. unfold p. rewrite (to_fd2_id L) by auto. reflexivity.
    - destruct (in_fd nb) eqn:Fnb.
      + exfalso. unfold p in HE. rewrite (to_fd2_id L) in HE by auto.
        apply HE. apply edge_not_mem. exact Mnb.
      + fold p. rewrite Pp. reflexivity. }
  match goal with |- context [andthen ?r _] =>
    assert (r = del_edge h (fst p) (snd p)) as -> by exact DEL end.
  destruct (@del_edge_spec h _ _ W HE) as (h1 & H1 & K1 & O1 & E1 & N1).
  assert (W1 := @del_edge_WFs h _ _ h1 W HE H1).
  rewrite H1. unfold andthen.
  assert (Ms : mem s h1 = true).
  { rewrite (mem_keys h h1 s K1). apply mem_lookup. exists nd. apply (di_nd I). }
  destruct (proj1 (mem_lookup dec h1 s) Ms) as [nd1 Hn1].
  (* flipped pairs *)
  assert (Flip : forall t x, to_fd2 x t = p -> to_fd2 t x = (s, nb)).
  { intros t x Hx. unfold p in Hx. apply (to_fd2_eq_iff L) in Hx as [g [-> ->]].
    rewrite (to_fd2_act L), (to_fd2_id L) by auto. reflexivity. }
  assert (E1g : forall t x, Eg h1 t x = if pdec (to_fd2 t x) p then None else Eg h t x).
  { intros t x. unfold Eg. rewrite E1, <- Pp.
    assert ((fst (to_fd2 t x), snd (to_fd2 t x)) = to_fd2 t x) as ->
        by (destruct (to_fd2 t x); reflexivity). reflexivity. }
  (* the first k+1 entries of s survive *)
  assert (KEEP : firstn (Datatypes.S k) (outs nd1) = firstn (Datatypes.S k) (outs nd)
                 /\ Datatypes.S k <= length (outs nd1) <= length (outs nd)).
  { assert (Datatypes.S k <= length (outs nd)) as Lk
      by (apply nth_error_Some; congruence).
    apply N1 in Hn1 as (nd' & Hn' & Ho). rewrite (di_nd I) in Hn'. injection Hn' as <-.
    destruct Ho as [[_ ->]|[Es ->]]; [split; [reflexivity|lia]|].
    assert (NI : ~ In (snd p) (map fst (firstn (Datatypes.S k) (outs nd)))).
    { rewrite Hsk, map_app, in_app_iff. simpl. intros [HI|[HI|[]]].
      - apply (di_done I) in HI.
        assert (X : Eg h (snd p) (fst p) = Eg h s nb) by (unfold p; apply Eg_swap).
        assert (HI' : Eg h (snd p) s = None) by exact HI.
        rewrite <- Es, HI', Eg_fd in X by exact Fs. congruence.
      - (* nb = snd p and s = fst p : 2-torsion *)
        apply (to_fd2_flip L Nsnb). fold p.
        assert (HI' : nb = snd p) by exact HI.
        rewrite Pp, <- Es, <- HI'. apply to_fd2_id; auto. }
    split; [apply firstn_remove1; auto|].
    assert (Mp : mem (snd p) (outs nd) = true).
    { unfold edge in HE. rewrite <- Es, (di_nd I) in HE.
      unfold BuilderModel.mem. destruct (lookup (snd p) (outs nd)); congruence. }
    apply length_remove1 in Mp. split; [|lia].
    assert (X : firstn (Datatypes.S k) (remove1 (snd p) (outs nd))
                = firstn (Datatypes.S k) (outs nd)) by (apply firstn_remove1; auto).
    apply (f_equal (@length _)) in X. rewrite !firstn_length in X. lia. }
  destruct KEEP as [KEEP [LK1 LK2]].
  apply (IH h1 (Datatypes.S k) nd1); [|lia].
  split; auto.
  - rewrite K1. apply (di_keys I).
  - intros t. rewrite O1. apply (di_ons I).
  - intros t x w Hw.
    assert (Ft : in_fd t = true).
    { apply (wf_fd W1). eapply edge_mem; eauto. }
    rewrite KEEP. rewrite E1, <- Pp in Hw.
    destruct (pdec (t, x) p) as [e|n]; [discriminate|].
    destruct (di_pair I t x Hw) as [(w' & Hw' & Cw)|[-> HI]].
    + destruct (pdec (to_fd2 x t) p) as [e|n'].
      * right. apply Flip in e. rewrite (to_fd2_id L) in e by auto.
        injection e as -> ->. split; [reflexivity|].
        rewrite Hsk, map_app, in_app_iff. right. left. reflexivity.
      * left. exists w'. split; [|auto]. rewrite E1g.
        destruct (pdec (to_fd2 x t) p); congruence.
    + right. split; [reflexivity|]. rewrite Hsk, map_app, in_app_iff. left. exact HI.
  - intros x. rewrite KEEP, Hsk, map_app, in_app_iff. simpl. rewrite E1g.
    intros [HI|[<-|[]]].
    + destruct (pdec _ _); [reflexivity|]. apply (di_done I). exact HI.
    + unfold p. destruct (pdec _ _); [reflexivity|congruence].
  - intros t x Nt Nx. rewrite E1, <- Pp.
    destruct (pdec (t, x) p) as [e|n]; [|apply (di_same I); auto].
    exfalso. apply Nx. unfold p in e. unfold BuilderModel.to_fd2 in e.
    injection e as _ ->. rewrite (to_fd_act L). apply to_fd_id; auto.
Qed.

(** Effect of [_del_site]. *)
Lemma del_site_spec h s :
  WF h ->
  (mem (to_fd s) h = true ->
   exists h', del_site h (KSite s) = (h', None) /\
     (forall t, mem t h' = (negb (eqb t (to_fd s)) && mem t h)%bool) /\
     (forall t, ons h' t = if eqb t (to_fd s) then None else ons h t) /\
     (forall x y, Eg h' x y =
        if (eqb (to_fd x) (to_fd s) || eqb (to_fd y) (to_fd s))%bool then None
        else Eg h x y) /\
     WF h') /\
  (mem (to_fd s) h = false -> del_site h (KSite s) = (h, Some (EKeySite (to_fd s)))).
Proof.
  intros W. unfold BuilderModel.del_site. set (s' := to_fd s).
  assert (Fs : in_fd s' = true) by (apply in_fd_to_fd; auto).
  split.
  2:{ intros M. apply mem_false in M. rewrite M. reflexivity. }
  intros M. destruct (proj1 (mem_lookup dec h s') M) as [nd Hn]. rewrite Hn.
  destruct (@del_site_loop_spec h s' (Datatypes.S (length (outs nd))) h 0 nd W Fs)
    as (h1 & nd1 & -> & I); [|lia|].
  { split; auto; try apply W; try lia.
    - intros t x v H. left. apply (wf_pair W). exact H.
    - intros x []. }
  unfold andthen. exists (remove1 s' h1). split; [reflexivity|].
  rewrite firstn_all in * || idtac.
  assert (W1 := di_wfs I).
  assert (ND1 := wf_nodup W1).
  assert (EE : forall t x, edge (remove1 s' h1) t x =
            if eqb t s' then None else if eqb (to_fd x) s' then None else edge h t x).
  { intros t x. unfold edge at 1. rewrite lookup_remove1 by auto.
    destruct (eqb t s') eqn:Et; [reflexivity|].
    fold (edge h1 t x). destruct (eqb (to_fd x) s') eqn:Ex.
    - destruct (edge h1 t x) as [v|] eqn:E; [|reflexivity]. exfalso.
      apply eqb_true in Ex.
      assert (Ft : in_fd t = true) by (apply (wf_fd W1); eapply edge_mem; eauto).
      destruct (di_pair I t x E) as [(v' & Hv' & _)|[-> _]].
      2:{ rewrite eqb_refl in Et. discriminate. }
      assert (P : to_fd2 x t = (s', snd (to_fd2 x t))) by (rewrite <- Ex; reflexivity).
      assert (HI : In (snd (to_fd2 x t)) (map fst (outs nd1))).
      { unfold Eg, edge in Hv'. rewrite P in Hv'. cbn [fst snd] in Hv'.
        rewrite (di_nd I) in Hv'.
        apply lookup_In in Hv'. apply in_map_iff. eexists; split; [|exact Hv']. reflexivity. }
      assert (D := di_done I (snd (to_fd2 x t))). rewrite firstn_all in D.
      specialize (D HI).
      replace s' with (fst (to_fd2 x t)) in D by (rewrite P; reflexivity).
      rewrite Eg_swap, Eg_fd in D by exact Ft. congruence.
    - apply (di_same I).
      + intros ->. rewrite eqb_refl in Et. discriminate.
      + intros X. rewrite X, eqb_refl in Ex. discriminate. }
  assert (EEg : forall x y, Eg (remove1 s' h1) x y =
        if (eqb (to_fd x) s' || eqb (to_fd y) s')%bool then None else Eg h x y).
  { intros x y. unfold Eg at 1. rewrite EE.
    replace (to_fd (snd (to_fd2 x y))) with (to_fd y)
      by (symmetry; apply to_fd_act; auto).
    change (fst (to_fd2 x y)) with (to_fd x).
    destruct (eqb (to_fd x) s'); [reflexivity|].
    destruct (eqb (to_fd y) s'); reflexivity. }
  split; [|split; [|split; [exact EEg|split; [split|]]]].
  - intros t. rewrite mem_remove1 by auto. rewrite (mem_keys h h1 t (di_keys I)). reflexivity.
  - intros t. unfold ons. rewrite lookup_remove1 by auto.
    destruct (eqb t s'); [reflexivity|]. apply (di_ons I).
  - apply NoDup_remove1; auto.
  - intros t. rewrite mem_remove1 by auto. rewrite andb_true_iff. intros [_ Mt].
    apply (wf_fd W1); auto.
  - intros t nd2. rewrite lookup_remove1 by auto. destruct (eqb t s'); [discriminate|].
    apply (wf_heads W1).
  - intros t. rewrite EE. destruct (eqb t s'); [reflexivity|].
    destruct (eqb (to_fd t) s'); [reflexivity|]. apply (wf_irr W).
  - intros t x v H.
    assert (Ft : in_fd t = true).
    { apply (wf_fd W). rewrite EE in H. destruct (eqb t s'); [discriminate|].
      destruct (eqb (to_fd x) s'); [discriminate|]. eapply edge_mem; eauto. }
    rewrite EE in H. rewrite EEg.
    rewrite (to_fd_id L t Ft). destruct (eqb t s'); [discriminate|].
    destruct (eqb (to_fd x) s'); [discriminate|]. simpl.
    apply (wf_pair W); auto.
Qed.

(** *** Replacing the callable values *)
Notation map_store := (@map_store site C F).
Lemma lookup_map_snd A B (g : A -> B) k (l : list (site * A)) :
  lookup k (map (fun p => (fst p, g (snd p))) l) = option_map g (lookup k l).
Proof.
  induction l as [|[k' v] l IH]; [reflexivity|]. cbn. destruct (eqb k k'); [reflexivity|apply IH].
Qed.
Lemma lookup_map_store f h t : lookup t (map_store f h) = option_map (map_node f) (lookup t h).
Proof. apply lookup_map_snd. Qed.
Lemma edge_map_store f h t x : edge (map_store f h) t x = option_map (map_sval f) (edge h t x).
Proof.
  unfold edge. rewrite lookup_map_store. destruct (lookup t h) as [nd|]; [|reflexivity]. cbn [option_map outs map_node].
  apply lookup_map_snd.
Qed.
Lemma Eg_map_store f h a b : Eg (map_store f h) a b = option_map (map_sval f) (Eg h a b).
Proof. apply edge_map_store. Qed.
Lemma ons_map_store f h t : ons (map_store f h) t = option_map (map_val f) (ons h t).
Proof. unfold ons. rewrite lookup_map_store. destruct (lookup t h); reflexivity. Qed.
Lemma map_store_WF f h : WF h -> WF (map_store f h).
Proof.
  intros W. split; [split|].
  - unfold BuilderModel.map_store. rewrite map_map. exact (wf_nodup W).
  - intros t. unfold mem. rewrite lookup_map_store. intros M. apply (wf_fd W). unfold mem. destruct (lookup t h); [reflexivity|discriminate].
  - intros t nd. rewrite lookup_map_store. destruct (lookup t h) as [nd0|] eqn:E; [|discriminate]. intros [= <-]. cbn [outs map_node]. rewrite map_map. apply (wf_heads W _ E).
  - intros t. rewrite edge_map_store, (wf_irr W). reflexivity.
  - intros t x v. rewrite edge_map_store, Eg_map_store. destruct (edge h t x) as [v0|] eqn:E; [|discriminate]. intros [= <-].
    destruct (wf_pair W _ _ E) as (v' & E' & Cm). rewrite E'. exists (map_sval f v'). split; [reflexivity|].
    assert (P : forall w : val, plain w -> plain (map_val f w)) by (intros [?|?|?]; cbn; auto).
    destruct Cm as [[-> (w & -> & Hp)]|[-> (w & -> & Hp)]]; [left|right]; (split; [reflexivity|]); exists (map_val f w); split; auto; reflexivity.
Qed.
End Inv.
