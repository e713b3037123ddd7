(** * eradicate_dangling computes the 2-core. *)
From Coq Require Import List Bool Arith Lia.
From Verif Require Import BuilderModel BuilderProofs BuilderInv BuilderReach.
Import ListNotations.
Set Implicit Arguments.

Section Erad.
Variable site : Type.
Variable dec : forall a b : site, {a = b} + {a <> b}.
Variable Sy : Symmetry site.
Hypothesis L : SymLaws Sy.
Variable C : Type.
Variable F : Type.

Notation lookup := (lookup dec).
Notation mem := (mem dec).
Notation assign := (assign dec).
Notation remove1 := (remove1 dec).
Notation eqb := (eqb dec).
Notation to_fd := (to_fd Sy).
Notation to_fd2 := (to_fd2 Sy).
Notation in_fd := (in_fd Sy).
Notation store := (store site C F).
Notation val := (val C F).
Notation sval := (sval C F).
Notation node := (node site C F).
Notation del_site := (@del_site site dec Sy C F).
Notation edge := (@edge site dec C F).
Notation Eg := (@Eg site dec Sy C F).
Notation ons := (@ons site dec C F).
Notation WF := (@WF site dec Sy C F).
Notation pdec := (pdec dec).
Notation neighbors := (@neighbors site dec Sy C F).
Notation degree := (@degree site dec Sy C F).
Notation erad_loop := (@erad_loop site dec Sy C F).
Notation eradicate_dangling := (@eradicate_dangling site dec Sy C F).
Notation del_edge := (@del_edge site dec C F).

(** A predicate on sites respecting the symmetry and in which every site has at
    least two neighbors (in [h0]) satisfying it. *)
Definition is_core (h0 : store) (X : site -> bool) : Prop :=
  (forall g s, X (act Sy g s) = X s) /\
  forall s, X s = true ->
    exists l, neighbors h0 s = inl l /\ 2 <= length (filter X l).

Lemma NoDup_same_length A (l l' : list A) :
  NoDup l -> NoDup l' -> (forall x, In x l <-> In x l') -> length l = length l'.
Proof.
  intros N N' H. apply Nat.le_antisymm; apply NoDup_incl_length; auto;
    intros x; apply H.
Qed.

(** One step of the loop is a deletion of the site. *)
Lemma step_del h s nd : WF h -> lookup s h = Some nd ->
  match outs nd with
  | [] => del_site h (KSite s) = (remove1 s h, None)
  | [(nb, _)] =>
    del_site h (KSite s) =
    andthen (if mem nb h then del_edge h nb s
             else let (nb', s') := to_fd2 nb s in del_edge h nb' s')
            (fun h => (remove1 s h, None)) /\
    to_fd nb <> s /\ mem (to_fd nb) h = true
  | _ => True
  end.
Proof.
  intros W Hn.
  assert (Ms : mem s h = true) by (apply mem_lookup; eauto).
  assert (Fs : in_fd s = true) by (apply (wf_fd W); auto).
  unfold BuilderModel.del_site. rewrite (to_fd_id L s Fs), Hn.
  destruct (outs nd) as [|[nb v] [|]] eqn:Ho; auto.
  - cbn. rewrite Hn, Ho. reflexivity.
  - assert (Enb : edge h s nb = Some v).
    { unfold BuilderInv.edge. rewrite Hn, Ho. simpl. rewrite eqb_refl. reflexivity. }
    assert (Nsnb : s <> nb) by (intros ->; rewrite (wf_irr W) in Enb; discriminate).
    destruct (wf_pair W _ _ Enb) as (v' & Ev' & _).
    assert (Nfd : to_fd nb <> s).
    { intros E. assert (P : to_fd2 nb s = (s, snd (to_fd2 nb s)))
        by (rewrite <- E at 2; reflexivity).
      assert (Ev2 := Ev'). unfold BuilderInv.Eg, BuilderInv.edge in Ev2. rewrite P in Ev2.
      cbn [fst snd] in Ev2. rewrite Hn, Ho in Ev2. cbn [BuilderModel.lookup] in Ev2.
      destruct (eqb (snd (to_fd2 nb s)) nb) eqn:Eq; [|discriminate].
      apply eqb_true in Eq. rewrite Eq in P.
      apply (to_fd2_flip L Nsnb). rewrite P. apply to_fd2_id; auto. }
    assert (Mnb : mem (to_fd nb) h = true).
    { unfold BuilderInv.Eg in Ev'. apply edge_mem in Ev'. exact Ev'. }
    split; [|auto].
    cbn [length BuilderModel.del_site_loop]. rewrite Hn, Ho. cbn [nth_error].
    replace (if mem nb h then del_edge h nb s
             else if in_fd nb then (h, Some (EAssert site))
             else let (nb', s') := to_fd2 nb s in del_edge h nb' s')
      with (if mem nb h then del_edge h nb s
             else let (nb', s') := to_fd2 nb s in del_edge h nb' s').
    2:{ destruct (mem nb h) eqn:M; [reflexivity|]. destruct (in_fd nb) eqn:Fn; [|reflexivity].
        rewrite (to_fd_id L nb Fn) in Mnb. congruence. }
    destruct (if mem nb h then del_edge h nb s
             else let (nb', s') := to_fd2 nb s in del_edge h nb' s') as [h1 [e|]] eqn:D.
    + reflexivity.
    + unfold andthen at 2. 
      assert (Hn1 : lookup s h1 = Some nd).
      { assert (DD : forall t x, t <> s -> del_edge h t x = (h1, None) -> lookup s h1 = Some nd).
        { intros t x N. unfold BuilderModel.del_edge. destruct (lookup t h) as [ndt|]; [|discriminate].
          destruct (mem x (outs ndt)); [|destruct (mem x h); discriminate].
          intros [= <-]. rewrite lookup_assign. rewrite eqb_neq by auto. exact Hn. }
        destruct (mem nb h) eqn:M.
        - apply DD in D; auto.
        - unfold BuilderModel.to_fd2 in D. apply DD in D; auto. }
      rewrite Hn1, Ho. cbn [nth_error]. unfold andthen. reflexivity.
Qed.

(** [h] is [h0] restricted to the sites of [h]. *)
Definition induced (h0 h : store) : Prop :=
  (forall t, ons h t = if mem t h then ons h0 t else None) /\
  (forall x y, Eg h x y = if (mem (to_fd x) h && mem (to_fd y) h)%bool
                          then Eg h0 x y else None).

Definition low (h : store) (t : site) : Prop :=
  exists nd, lookup t h = Some nd /\ length (outs nd) < 2.

Lemma deg_nb h t nd : WF h -> lookup t h = Some nd ->
  exists l, neighbors h t = inl l /\ NoDup l /\ length l = length (outs nd) /\
    forall y, In y l <-> Eg h t y <> None.
Proof.
  intros W Hn. assert (M : mem t h = true) by (apply mem_lookup; eauto).
  assert (Ft : to_fd t = t) by (apply to_fd_id; auto; apply (wf_fd W); auto).
  destruct (@neighbors_spec site dec Sy L C F h t W) as [H _].
  rewrite Ft in H. destruct (H M) as (l & E & ND & HI & D).
  exists l. repeat split; auto; try apply HI.
  unfold BuilderModel.degree, out_degree in D. rewrite Ft, Hn in D. congruence.
Qed.

Lemma mem_ne (h h' : store) s (H : forall t, mem t h' = (negb (eqb t s) && mem t h)%bool) t :
  t <> s -> mem t h' = mem t h.
Proof. intros N. rewrite H, eqb_neq by auto. reflexivity. Qed.

Lemma erad_loop_spec h0 ds fuel : forall h s,
  WF h0 -> WF h -> induced h0 h -> mem s h = true ->
  (forall X, is_core h0 X -> forall t, X t = true -> mem (to_fd t) h = true) ->
  (forall t, low h t -> t = s \/ In t ds) ->
  length h < fuel ->
  exists h', erad_loop fuel h s = (h', None) /\
    WF h' /\ induced h0 h' /\
    (forall X, is_core h0 X -> forall t, X t = true -> mem (to_fd t) h' = true) /\
    (forall t, low h' t -> In t ds).
Proof.
  induction fuel as [|fuel IH]; intros h s W0 W Ind Ms Hc Hlow Hf; [lia|].
  destruct (proj1 (mem_lookup dec h s) Ms) as [nd Hn].
  assert (Fs : in_fd s = true) by (apply (wf_fd W); auto).
  assert (Ts : to_fd s = s) by (apply to_fd_id; auto).
  cbn [BuilderModel.erad_loop]. rewrite Hn.
  assert (SD := @step_del h s nd W Hn).
  destruct (@del_site_spec site dec Sy L C F h s W) as [DS _].
  rewrite Ts in DS. destruct (DS Ms) as (h1 & E1 & M1 & O1 & Eg1 & W1).
  (* facts valid whenever the degree of s is below two *)
  assert (IndD : induced h0 h1).
  { destruct Ind as [IO IE]. split.
    - intros t. rewrite O1, M1, IO. destruct (eqb t s); reflexivity.
    - intros x y. rewrite Eg1, !M1, IE.
      destruct (eqb (to_fd x) s), (eqb (to_fd y) s); simpl; try reflexivity.
      rewrite andb_false_r. reflexivity. }
  assert (CoreD : length (outs nd) < 2 ->
     forall X, is_core h0 X -> forall t, X t = true -> mem (to_fd t) h1 = true).
  { intros Hd X HX t Ht. rewrite M1, (Hc X HX t Ht), andb_true_r.
    destruct (eqb (to_fd t) s) eqn:E; [|reflexivity]. exfalso.
    apply eqb_true in E. destruct HX as [Xs Xc].
    assert (XX : X s = true) by (rewrite <- E; unfold BuilderModel.to_fd; rewrite Xs; exact Ht).
    destruct (Xc s XX) as (l0 & El0 & H2).
    destruct (@deg_nb h s nd W Hn) as (l & El & ND & Len & HIn).
    assert (M0 : mem (to_fd s) h0 = true).
    { rewrite mem_ons. assert (X0 := proj1 Ind s). rewrite Ms in X0. rewrite Ts, <- X0.
      unfold BuilderInv.ons. rewrite Hn. reflexivity. }
    destruct (@neighbors_spec site dec Sy L C F h0 s W0) as [NB _].
    destruct (NB M0) as (l0' & El0' & ND0 & HIn0 & _).
    assert (l0' = l0) as -> by congruence.
    assert (length (filter X l0) <= length l); [|lia].
    apply NoDup_incl_length.
    - apply NoDup_filter; auto.
    - intros y. rewrite filter_In. intros [Hy Xy]. apply HIn.
      rewrite (proj2 Ind), Ts, Ms, (Hc X (conj Xs Xc) y Xy). simpl. apply HIn0. exact Hy. }
  assert (LenD : length h = S (length h1)).
  { assert (X : length (map fst h) = length (s :: map fst h1)).
    { apply NoDup_same_length; [apply W| |].
      - constructor; [|apply W1]. intros HI. apply (mem_true dec) in HI.
        rewrite M1, eqb_refl in HI. discriminate.
      - intros x. simpl. rewrite <- !(mem_true dec), M1.
        destruct (dec s x) as [->|N]; [tauto|].
        rewrite eqb_neq by auto. simpl. tauto. }
    simpl in X. rewrite !map_length in X. exact X. }
  assert (LowD : forall t, low h1 t -> t <> s ->
     (forall y, Eg h t y <> None -> to_fd y <> s) -> low h t).
  { intros t (nd1 & Hn1 & L1) Nt Hy.
    assert (Mt1 : mem t h1 = true) by (apply mem_lookup; eauto).
    assert (Mt : mem t h = true) by (rewrite (@mem_ne h h1 s M1) in Mt1; auto).
    assert (Tt : to_fd t = t) by (apply to_fd_id; auto; apply (wf_fd W); auto).
    destruct (proj1 (mem_lookup dec h t) Mt) as [ndt Hnt].
    exists ndt. split; [exact Hnt|].
    destruct (@deg_nb h t ndt W Hnt) as (l & _ & ND & Len & HIn).
    destruct (@deg_nb h1 t nd1 W1 Hn1) as (l1 & _ & ND1 & Len1 & HIn1).
    rewrite <- Len. rewrite (@NoDup_same_length _ l l1 ND ND1); [lia|].
    intros y. rewrite HIn, HIn1, Eg1, Tt, (eqb_neq dec Nt). simpl. split.
    - intros H. rewrite eqb_neq by (apply Hy; auto). exact H.
    - destruct (eqb (to_fd y) s); [congruence|auto]. }
  destruct (outs nd) as [|[nb v] [|e1 rest]] eqn:Ho.
  - (* no neighbors *)
    rewrite SD in E1. injection E1 as <-.
    exists (remove1 s h). split; [reflexivity|]. split; [exact W1|]. split; [exact IndD|].
    split; [apply CoreD; simpl; lia|].
    intros t Lt.
    assert (Nt : t <> s).
    { intros ->. destruct Lt as (x & X & _). apply (f_equal (fun o => match o with Some _ => true | None => false end)) in X.
      change (mem s (remove1 s h) = true) in X. rewrite M1, eqb_refl in X. discriminate. }
    destruct (Hlow t) as [->|HI]; [|congruence|exact HI].
    apply LowD; auto. intros y Hy Ey.
    apply (WF_Eg_None L y t W) || idtac.
    assert (HE : Eg h y t <> None) by (intros Z; apply Hy; apply (WF_Eg_None L y t W Z)).
    unfold BuilderInv.Eg, BuilderInv.edge in HE.
    change (fst (to_fd2 y t)) with (to_fd y) in HE. rewrite Ey, Hn, Ho in HE.
    apply HE. reflexivity.
  - destruct SD as (SD & Nnb & Mnb). rewrite SD in E1.
    assert (STEP : (if mem nb h
       then andthen (del_edge h nb s) (fun h2 => erad_loop fuel (remove1 s h2) nb)
       else let (nb', s') := to_fd2 nb s in
        andthen (del_edge h nb' s') (fun h2 => erad_loop fuel (remove1 s h2) (to_fd nb)))
       = erad_loop fuel h1 (to_fd nb)).
    { destruct (mem nb h) eqn:M.
      - assert (Tn : to_fd nb = nb) by (apply to_fd_id; auto; apply (wf_fd W); auto).
        destruct (del_edge h nb s) as [h2 [e|]]; unfold andthen in *; [discriminate|].
        injection E1 as <-. rewrite Tn. reflexivity.
      - unfold BuilderModel.to_fd2 in *.
        match goal with |- andthen ?d _ = _ => destruct d as [h2 [e|]] end;
          unfold andthen in *; [discriminate|]. injection E1 as <-. reflexivity. }
    match goal with |- exists _, ?x = _ /\ _ =>
      assert (x = erad_loop fuel h1 (to_fd nb)) as -> by exact STEP end.
    apply IH; auto.
    + rewrite (@mem_ne h h1 s M1); auto.
    + apply CoreD. simpl. lia.
    + intros t Lt.
      assert (Nt : t <> s).
      { intros ->. destruct Lt as (x & X & _). apply (f_equal (fun o => match o with Some _ => true | None => false end)) in X.
        change (mem s h1 = true) in X. rewrite M1, eqb_refl in X. discriminate. }
      destruct (dec t (to_fd nb)) as [->|Nn]; [left; reflexivity|right].
      destruct (Hlow t) as [->|HI]; [|congruence|exact HI].
      apply LowD; auto. intros y Hy Ey. apply Nn.
      assert (HE : Eg h y t <> None) by (intros Z; apply Hy; apply (WF_Eg_None L y t W Z)).
      assert (Mt : mem t h = true).
      { destruct Lt as (x & X & _). rewrite <- (@mem_ne h h1 s M1) by auto.
        apply mem_lookup; eauto. }
      unfold BuilderInv.Eg, BuilderInv.edge in HE.
      change (fst (to_fd2 y t)) with (to_fd y) in HE. rewrite Ey, Hn, Ho in HE.
      cbn [BuilderModel.lookup] in HE.
      destruct (eqb (snd (to_fd2 y t)) nb) eqn:Enb; [|congruence].
      apply eqb_true in Enb. rewrite <- Enb.
      change (snd (to_fd2 y t)) with (act Sy (eneg Sy (which Sy y)) t).
      rewrite (to_fd_act L). symmetry. apply to_fd_id; auto. apply (wf_fd W); auto.
    + lia.
  - exists h. split; [reflexivity|]. split; [exact W|]. split; [exact Ind|].
    split; [exact Hc|].
    intros t Lt. destruct (Hlow t Lt) as [->|HI]; [|exact HI].
    destruct Lt as (x & X & Hx). assert (x = nd) as -> by congruence.
    rewrite Ho in Hx. simpl in Hx. lia.
Qed.

Lemma dangling_iff h t : WF h -> low h t <-> In t (dangling h).
Proof.
  intros W. unfold dangling, low. rewrite in_map_iff. split.
  - intros (nd & Hn & Hl). exists (t, nd). split; [reflexivity|].
    apply filter_In. split; [apply lookup_In in Hn; auto|]. apply Nat.ltb_lt. exact Hl.
  - intros ([t' nd] & <- & H). apply filter_In in H as [H1 H2]. exists nd.
    split; [apply In_lookup; auto; apply W|]. apply Nat.ltb_lt. exact H2.
Qed.

Lemma erad_fold h0 ds : forall h,
  WF h0 -> WF h -> induced h0 h ->
  (forall X, is_core h0 X -> forall t, X t = true -> mem (to_fd t) h = true) ->
  (forall t, low h t -> In t ds) ->
  exists h', fold_left (@erad_one site dec Sy C F) ds (h, None) = (h', None) /\
    WF h' /\ induced h0 h' /\
    (forall X, is_core h0 X -> forall t, X t = true -> mem (to_fd t) h' = true) /\
    (forall t, ~ low h' t).
Proof.
  induction ds as [|s ds IH]; intros h W0 W Ind Hc Hlow.
  - exists h. split; [reflexivity|]. do 3 (split; [assumption|]). exact Hlow.
  - cbn [fold_left]. unfold erad_one at 2. unfold andthen.
    destruct (mem s h) eqn:M.
    + destruct (@erad_loop_spec h0 ds (S (length h)) h s W0 W Ind M Hc)
        as (h1 & E1 & W1 & Ind1 & Hc1 & Hl1); [|lia|].
      { intros t Lt. destruct (Hlow t Lt) as [->|HI]; auto. }
      rewrite E1. apply IH; auto.
    + apply IH; auto. intros t Lt. destruct (Hlow t Lt) as [<-|HI]; auto.
      exfalso. destruct Lt as (nd & Hn & _). apply mem_false in M. congruence.
Qed.

Theorem eradicate_spec h : WF h ->
  exists h', eradicate_dangling h = (h', None) /\ WF h' /\ induced h h' /\
    (forall X, is_core h X -> forall t, X t = true -> mem (to_fd t) h' = true) /\
    (forall t, ~ low h' t) /\ (forall t, mem t h' = true -> mem t h = true).
Proof.
  intros W.
  destruct (@erad_fold h (dangling h) h W W) as (h' & E & W' & I' & Hc & Hl).
  - split.
    + intros t. rewrite mem_ons. destruct (ons h t); reflexivity.
    + intros x y. destruct (Eg h x y) eqn:E.
      * destruct (WF_Eg_mem L x y W E) as [-> ->]. reflexivity.
      * destruct (_ && _)%bool; reflexivity.
  - intros X [Xs Xc] t Ht. destruct (Xc t Ht) as (l & El & _).
    destruct (@neighbors_spec site dec Sy L C F h t W) as [_ H].
    destruct (mem (to_fd t) h); [reflexivity|].
    destruct (H eq_refl) as [E _]. congruence.
  - intros t. apply dangling_iff; auto.
  - exists h'. split; [exact E|]. repeat (split; [assumption|]).
    intros t M. rewrite mem_ons in M |- *. rewrite (proj1 I') in M.
    destruct (mem t h'); [exact M|discriminate].
Qed.

End Erad.
