(** * Reads after writes, general keys, reachable builders, enumeration,
    neighbors, update. *)
From Coq Require Import List Bool Arith Lia.
From Verif Require Import BuilderModel BuilderProofs BuilderInv.
Import ListNotations.
Set Implicit Arguments.

Section Reach.
Variable site : Type.
Variable dec : forall a b : site, {a = b} + {a <> b}.
Variable Sy : Symmetry site.
Hypothesis L : SymLaws Sy.
Variable C : Type.
Variable conj : C -> C.
Variable F : Type.

Notation lookup := (lookup dec).
Notation mem := (mem dec).
Notation assign := (assign dec).
Notation remove1 := (remove1 dec).
Notation eqb := (eqb dec).
Notation to_fd := (to_fd Sy).
Notation to_fd2 := (to_fd2 Sy).
Notation in_fd := (in_fd Sy).
Notation store := (store site C F).
Notation val := (val C F).
Notation sval := (sval C F).
Notation node := (node site C F).
Notation getitem := (@getitem site dec Sy C conj F).
Notation contains := (@contains site dec Sy C F).
Notation set_site := (@set_site site dec Sy C F).
Notation set_hopping := (@set_hopping site dec Sy C F).
Notation del_site := (@del_site site dec Sy C F).
Notation del_hopping := (@del_hopping site dec Sy C F).
Notation setitem := (@setitem site dec Sy C F).
Notation delitem := (@delitem site dec Sy C F).
Notation set_op := (@set_op site dec Sy C F).
Notation del_op := (@del_op site dec Sy C F).
Notation edge := (@edge site dec C F).
Notation Eg := (@Eg site dec Sy C F).
Notation ons := (@ons site dec C F).
Notation vhop := (@vhop site dec Sy C conj F).
Notation WF := (@WF site dec Sy C F).
Notation WFs := (@WFs site dec Sy C F).
Notation pdec := (pdec dec).

(** Hermitian conjugate of a user-visible value. *)
Definition hc (v : val) : val :=
  match v with
  | VConst _ c => VConst _ (conj c)
  | VFun _ f => VHC _ f
  | VHC _ f => VFun _ f
  end.

Lemma vhop_st v h a b : Eg h a b = Some (st1 v) -> Eg h b a = Some (st2 v) ->
  vhop h a b = Some v /\ vhop h b a = Some (hc v).
Proof. unfold BuilderInv.vhop. intros -> ->. destruct v; split; reflexivity. Qed.

Lemma vhop_eq h h' a b : Eg h a b = Eg h' a b -> Eg h b a = Eg h' b a ->
  vhop h a b = vhop h' a b.
Proof. unfold BuilderInv.vhop. intros -> ->. reflexivity. Qed.

Lemma swap_iff a b c d : to_fd2 a b = to_fd2 c d <-> to_fd2 b a = to_fd2 d c.
Proof. rewrite !(to_fd2_eq_iff L). split; intros [g [? ?]]; exists g; auto. Qed.

(** Reads of hoppings after a successful hopping assignment. *)
Lemma vhop_set h h' a b v : a <> b ->
  (forall x y, Eg h' x y =
       if pdec (to_fd2 x y) (to_fd2 a b) then Some (st1 v)
       else if pdec (to_fd2 x y) (to_fd2 b a) then Some (st2 v) else Eg h x y) ->
  forall x y, vhop h' x y =
     if pdec (to_fd2 x y) (to_fd2 a b) then Some v
     else if pdec (to_fd2 x y) (to_fd2 b a) then Some (hc v) else vhop h x y.
Proof.
  intros N E x y.
  assert (Nf := to_fd2_flip L N).
  destruct (pdec (to_fd2 x y) (to_fd2 a b)) as [e|n].
  - apply vhop_st.
    + rewrite E. destruct (pdec _ _); congruence.
    + rewrite E. apply swap_iff in e. rewrite e.
      destruct (pdec (to_fd2 b a) (to_fd2 a b)); [congruence|].
      destruct (pdec (to_fd2 b a) (to_fd2 b a)); congruence.
  - destruct (pdec (to_fd2 x y) (to_fd2 b a)) as [e|n'].
    + apply (@vhop_st v h' y x).
      * rewrite E. apply swap_iff in e. rewrite e.
        destruct (pdec (to_fd2 a b) (to_fd2 a b)); congruence.
      * rewrite E. rewrite e. destruct (pdec (to_fd2 b a) (to_fd2 a b)); [congruence|].
        destruct (pdec (to_fd2 b a) (to_fd2 b a)); congruence.
    + apply vhop_eq; rewrite E.
      * destruct (pdec _ _); [congruence|]. destruct (pdec _ _); congruence.
      * assert (to_fd2 y x <> to_fd2 a b) by (intros X; apply swap_iff in X; congruence).
        assert (to_fd2 y x <> to_fd2 b a) by (intros X; apply swap_iff in X; congruence).
        destruct (pdec _ _); [congruence|]. destruct (pdec _ _); congruence.
Qed.

Lemma vhop_del h h' a b :
  (forall x y, Eg h' x y =
       if pdec (to_fd2 x y) (to_fd2 a b) then None
       else if pdec (to_fd2 x y) (to_fd2 b a) then None else Eg h x y) ->
  forall x y, vhop h' x y =
     if pdec (to_fd2 x y) (to_fd2 a b) then None
     else if pdec (to_fd2 x y) (to_fd2 b a) then None else vhop h x y.
Proof.
  intros E x y.
  destruct (pdec (to_fd2 x y) (to_fd2 a b)) as [e|n].
  - unfold BuilderInv.vhop. rewrite E. destruct (pdec _ _); [reflexivity|congruence].
  - destruct (pdec (to_fd2 x y) (to_fd2 b a)) as [e|n'].
    + unfold BuilderInv.vhop. rewrite E. destruct (pdec _ _); [reflexivity|].
      destruct (pdec _ _); [reflexivity|congruence].
    + apply vhop_eq; rewrite E.
      * destruct (pdec _ _); [congruence|]. destruct (pdec _ _); congruence.
      * assert (to_fd2 y x <> to_fd2 a b) by (intros X; apply swap_iff in X; congruence).
        assert (to_fd2 y x <> to_fd2 b a) by (intros X; apply swap_iff in X; congruence).
        destruct (pdec _ _); [congruence|]. destruct (pdec _ _); congruence.
Qed.

Lemma vhop_some_iff h a b : WF h -> (vhop h a b <> None <-> Eg h a b <> None).
Proof.
  intros W. unfold BuilderInv.vhop. destruct (Eg h a b) as [[v|]|] eqn:E.
  - split; congruence.
  - split; [congruence|intros _].
    apply (WF_Eg_pair L a b W) in E as (v' & -> & [[_ (w & -> & P)]|[-> (w & X & _)]]);
      [|congruence]. destruct w; try congruence; contradiction.
  - split; congruence.
Qed.

(** Hermiticity of reads. *)
Lemma vhop_herm h a b : (forall c, conj (conj c) = c) -> WF h ->
  vhop h b a = option_map hc (vhop h a b).
Proof.
  intros Inv W. unfold BuilderInv.vhop.
  destruct (Eg h a b) as [v|] eqn:E.
  - destruct (WF_Eg_pair L a b W E) as (v' & E' & Cm). rewrite E'.
    destruct Cm as [[-> (w & -> & P)]|[-> (w & -> & P)]]; destruct w; simpl;
      rewrite ?Inv; try reflexivity; contradiction.
  - rewrite (WF_Eg_None L a b W E). reflexivity.
Qed.

Lemma vhop_irr h a : WF h -> vhop h a a = None.
Proof. intros W. unfold BuilderInv.vhop. rewrite (WF_irr a W). reflexivity. Qed.

Lemma vhop_act h g a b : vhop h (act Sy g a) (act Sy g b) = vhop h a b.
Proof. unfold BuilderInv.vhop. rewrite !(Eg_act dec L). reflexivity. Qed.

(** *** The empty builder *)
Lemma WF_nil : WF [].
Proof.
  split; [split|]; simpl; intros; try constructor; try discriminate; try reflexivity.

Qed.

(** *** Simple operations preserve the invariant *)
Lemma set_op_WF v fn h k : WF h -> WF (fst (set_op v fn h k)).
Proof.
  intros W. destruct fn; simpl.
  - destruct k as [s|a b| |]; simpl; auto.
    destruct (@set_site_spec site dec Sy L C F h s v W) as (h' & E & _ & _ & _ & _ & _ & W').
    simpl in E. rewrite E. exact W'.
  - destruct k as [s|a b| |]; try exact W.
    destruct (dec a b) as [->|N].
    { unfold BuilderModel.set_hopping, validate_hopping.
      destruct (dec b b); [exact W|congruence]. }
    destruct (@set_hopping_spec site dec Sy L C F h a b v W N) as [H1 H2].
    destruct (mem (to_fd a) h) eqn:Ma; [destruct (mem (to_fd b) h) eqn:Mb|].
    + destruct (H1 eq_refl eq_refl) as (h' & E & _ & _ & _ & W'). rewrite E. exact W'.
    + destruct H2 as (e & E & _); auto. rewrite E. exact W.
    + destruct H2 as (e & E & _); auto. rewrite E. exact W.
Qed.

Lemma del_op_WF fn h k : WF h -> WF (fst (del_op fn h k)).
Proof.
  intros W. destruct fn; cbn [BuilderModel.del_op].
  - destruct k as [s|a b| |]; try exact W.
    destruct (@del_site_spec site dec Sy L C F h s W) as [H1 H2].
    destruct (mem (to_fd s) h) eqn:M.
    + destruct (H1 eq_refl) as (h' & E & _ & _ & _ & W'). rewrite E. exact W'.
    + rewrite H2; auto.
  - destruct k as [s|a b| |]; try exact W.
    destruct (dec a b) as [->|N].
    { unfold BuilderModel.del_hopping, validate_hopping.
      destruct (dec b b); [exact W|congruence]. }
    destruct (@del_hopping_spec site dec Sy L C F h a b W N) as [H1 H2].
    destruct (Eg h a b) eqn:E.
    + destruct H1 as (h' & -> & _ & _ & _ & W'); [congruence|]. exact W'.
    + destruct (H2 eq_refl) as (e & -> & _). exact W.
Qed.

(** *** General keys *)
Notation key := (key site C F).

Section KeyInd.
Variable P : key -> Prop.
Hypothesis HS : forall k, P (Simple C F k).
Hypothesis HI : forall l, Forall P l -> P (Iter l).
Hypothesis HC : forall f, (forall h, P (f h)) -> P (Call f).
Fixpoint key_ind' (k : key) : P k :=
  match k with
  | Simple _ _ sk => HS sk
  | Iter l => HI ((fix go l : Forall P l :=
                     match l with
                     | [] => Forall_nil P
                     | k :: l => Forall_cons k (key_ind' k) (go l)
                     end) l)
  | Call f => HC f (fun h => key_ind' (f h))
  end.
End KeyInd.

Section RunInv.
Variable op : kind -> store -> skey site -> outcome site C F.
Variable I : store -> Prop.
Hypothesis OpI : forall fn h k, I h -> I (fst (op fn h k)).

Definition stI (st : store * option kind * option (err site)) := I (fst (fst st)).

Lemma run_key_inv k : forall st, stI st -> stI (run_key op st k).
Proof.
  induction k as [sk|l IH|f IH] using key_ind'; intros [[h fn] [e|]] H; simpl; auto.
  - destruct (op _ h sk) as [h' e] eqn:E. unfold stI. simpl.
    change h' with (fst (h', e)). rewrite <- E. apply OpI. exact H.
  - revert H. generalize (h, fn, @None (err site)).
    induction IH as [|k l Hk Hl IHl]; intros st H; [exact H|].
    apply IHl. apply Hk. exact H.
Qed.
End RunInv.

Lemma setitem_WF h k v : WF h -> WF (fst (setitem h k v)).
Proof.
  intros W. unfold BuilderModel.setitem.
  assert (H := @run_key_inv (set_op v) WF (fun fn h k => @set_op_WF v fn h k) k
                (h, None, None) W).
  destruct (run_key (set_op v) (h, None, None) k) as [[h' fn] e]. exact H.
Qed.

Lemma delitem_WF h k : WF h -> WF (fst (delitem h k)).
Proof.
  intros W. unfold BuilderModel.delitem.
  assert (H := @run_key_inv del_op WF (fun fn h k => @del_op_WF fn h k) k
                (h, None, None) W).
  destruct (run_key del_op (h, None, None) k) as [[h' fn] e]. exact H.
Qed.

(** Depth-first, left-to-right leaves of a key without callables. *)
Fixpoint leaves (k : key) : option (list (skey site)) :=
  match k with
  | Simple _ _ sk => Some [sk]
  | Iter l => (fix go l := match l with
                | [] => Some []
                | k :: l => match leaves k, go l with
                            | Some a, Some b => Some (a ++ b)
                            | _, _ => None
                            end
                end) l
  | Call _ => None
  end.

Lemma run_key_leaves op k : forall st ks, leaves k = Some ks ->
  run_key op st k = fold_left (run1 op) ks st.
Proof.
  assert (ERR : forall ks h fn e, fold_left (run1 op) ks (h, fn, Some e)
                = (h, fn, Some e)).
  { induction ks as [|k0 ks IH]; intros; [reflexivity|]. simpl. apply IH. }
  induction k as [sk|l IH|f IH] using key_ind'; intros st ks H.
  - injection H as <-. destruct st as [[h fn] [e|]]; reflexivity.
  - assert (G : forall st, (fix go st l := match l with
                                | [] => st
                                | k :: l => go (run_key op st k) l
                                end) st l = fold_left (run1 op) ks st).
    { clear st. revert ks H. induction IH as [|k l Hk Hl IHl]; intros ks H st.
      - injection H as <-. reflexivity.
      - simpl in H. destruct (leaves k) as [a|] eqn:Ea; [|discriminate].
        match type of H with match ?g with _ => _ end = _ =>
          destruct g as [b|] eqn:Eb end; [|discriminate].
        injection H as <-. rewrite fold_left_app.
        rewrite (IHl _ Eb). rewrite (Hk st _ eq_refl). reflexivity. }
    destruct st as [[h fn] [e|]].
    + rewrite ERR. reflexivity.
    + apply G.
  - discriminate.
Qed.

(** *** Enumeration *)
Lemma in_hvp h t x v : NoDup (map fst h) -> WFs h ->
  In (t, x, v) (hopping_value_pairs h) <-> edge h t x = Some (SVal v).
Proof.
  intros ND W. unfold hopping_value_pairs. rewrite in_flat_map. split.
  - intros ([t' nd] & H1 & H2). unfold node_values in H2. apply in_flat_map in H2.
    destruct H2 as ([x' sv] & H2 & H3). destruct sv; simpl in H3; [|contradiction].
    destruct H3 as [H3|[]]. injection H3 as -> -> ->.
    apply (In_lookup dec) in H1; auto. unfold BuilderInv.edge. rewrite H1.
    apply In_lookup; auto. eapply wf_heads; eauto.
  - unfold BuilderInv.edge. destruct (lookup t h) as [nd|] eqn:E; [|discriminate].
    intros H. exists (t, nd). split; [apply lookup_In in E; auto|].
    apply in_flat_map. exists (x, SVal v). split; [apply lookup_In in H; auto|].
    left; reflexivity.
Qed.

Lemma hoppings_hvp (h : store) : hoppings h = map fst (hopping_value_pairs h).
Proof.
  unfold hoppings, hopping_value_pairs. induction h as [|[t nd] h IH]; [reflexivity|].
  simpl. rewrite map_app, IH. f_equal.
  induction (outs nd) as [|[x [v|]] l IHl]; simpl; auto. f_equal; auto.
Qed.

Lemma NoDup_app A (l1 l2 : list A) : NoDup l1 -> NoDup l2 ->
  (forall x, In x l1 -> In x l2 -> False) -> NoDup (l1 ++ l2).
Proof.
  induction l1 as [|x l1 IH]; intros H1 H2 H; [exact H2|].
  inversion H1; subst. simpl. constructor.
  - rewrite in_app_iff. intros [X|X]; [auto|]. eapply H; [left; reflexivity|exact X].
  - apply IH; auto. intros y Hy. apply H. right; exact Hy.
Qed.

Lemma NoDup_hoppings h : WFs h -> NoDup (hoppings h).
Proof.
  intros W. assert (K : forall p, In p h -> NoDup (map fst (outs (snd p)))).
  { intros [t nd] H. apply (In_lookup dec) in H; [|apply W]. eapply wf_heads; eauto. }
  assert (ND := wf_nodup W). clear W.
  unfold hoppings. induction h as [|[t nd] h IH]; [constructor|].
  simpl in *. inversion ND; subst. apply NoDup_app.
  - assert (Hn := K (t, nd) (or_introl eq_refl)). simpl in Hn. clear -Hn.
    induction (outs nd) as [|[x [v|]] l IH]; simpl in *; [constructor| |];
      inversion Hn; subst; auto. constructor; auto.
    rewrite in_flat_map. intros ([y [w|]] & Hy & Hin); simpl in Hin; [|contradiction].
    destruct Hin as [[= ->]|[]]. apply H1. apply in_map_iff. eexists; split; [|exact Hy].
    reflexivity.
  - apply IH; auto.
  - intros [t' x'] X Y. apply in_flat_map in X as ([y [w|]] & _ & Hin); simpl in Hin;
      [|contradiction]. destruct Hin as [[= -> ->]|[]].
    apply in_flat_map in Y as ([t2 nd2] & Y1 & Y2). apply H1.
    apply in_flat_map in Y2 as ([y2 [w2|]] & _ & Hin); simpl in Hin;
      [|contradiction]. destruct Hin as [[= -> ->]|[]].
    apply in_map_iff. exists (t', nd2); auto.
Qed.

(** Exactly one of the two directions of a present hopping is enumerated. *)
Lemma hoppings_once h a b : WF h -> Eg h a b <> None ->
  exists p, In p (hoppings h) /\ (p = to_fd2 a b \/ p = to_fd2 b a) /\
    forall q, In q (hoppings h) -> q = to_fd2 a b \/ q = to_fd2 b a -> q = p.
Proof.
  intros W H.
  assert (IN : forall x y, In (to_fd2 x y) (hoppings h) <->
            exists v, Eg h x y = Some (SVal v)).
  { intros x y. rewrite hoppings_hvp, in_map_iff. unfold BuilderInv.Eg. split.
    - intros ([[t z] v] & E & H'). simpl in E. apply in_hvp in H'; [|apply W|apply W].
      exists v. rewrite <- E. exact H'.
    - intros [v Hv]. exists (fst (to_fd2 x y), snd (to_fd2 x y), v).
      split; [destruct (to_fd2 x y); reflexivity|].
      apply in_hvp; [apply W|apply W|exact Hv]. }
  destruct (Eg h a b) as [v|] eqn:E; [|congruence].
  destruct (WF_Eg_pair L a b W E) as (v' & E' & Cm).
  destruct Cm as [[-> (w & -> & _)]|[-> (w & -> & _)]].
  - exists (to_fd2 b a). split; [apply IN; eauto|]. split; [auto|].
    intros q Hq [->| ->]; [|reflexivity]. apply IN in Hq as [x Hx]. congruence.
  - exists (to_fd2 a b). split; [apply IN; eauto|]. split; [auto|].
    intros q Hq [->| ->]; [reflexivity|]. apply IN in Hq as [x Hx]. congruence.
Qed.

(** *** neighbors *)
Notation neighbors := (@neighbors site dec Sy C F).
Notation degree := (@degree site dec Sy C F).

Lemma neighbors_spec h s : WF h ->
  (mem (to_fd s) h = true ->
   exists l, neighbors h s = inl l /\ NoDup l /\
     (forall t, In t l <-> Eg h s t <> None) /\ degree h s = inl (length l)) /\
  (mem (to_fd s) h = false -> neighbors h s = inr (EKeySite (to_fd s)) /\
     degree h s = inr (EKeySite (to_fd s))).
Proof.
  intros W. unfold BuilderModel.neighbors, BuilderModel.degree, out_degree.
  change (act Sy (eneg Sy (which Sy s)) s) with (to_fd s). split.
  - intros M. destruct (proj1 (mem_lookup dec h _) M) as [nd Hn]. rewrite Hn.
    eexists; split; [reflexivity|]. rewrite map_length. split; [|split; [|reflexivity]].
    + rewrite <- map_map with (g := act Sy (which Sy s)).
      assert (ND := wf_heads W _ Hn). revert ND.
      generalize (map fst (outs nd)). intros l ND.
      induction ND as [|x l Hx Hl IH]; simpl; constructor; auto.
      rewrite in_map_iff. intros (y & E & Hy). apply (act_inj L) in E. congruence.
    + intros t. rewrite in_map_iff. unfold BuilderInv.Eg, BuilderInv.edge.
      change (fst (to_fd2 s t)) with (to_fd s). rewrite Hn. simpl. split.
      * intros ([y sv] & E & Hy). simpl in E. subst t. rewrite (act_inv_l L).
        apply (In_lookup dec) in Hy; [congruence|]. exact (wf_heads W _ Hn).
      * intros H. destruct (lookup _ (outs nd)) as [sv|] eqn:E; [|congruence].
        apply lookup_In in E. eexists; split; [|exact E]. simpl. apply (act_inv_r L).
  - intros M. apply mem_false in M. rewrite M. split; reflexivity.
Qed.

(** *** update *)
Notation update := (@update site dec Sy C F).

Lemma andthen_err (r : outcome site C F) f h e :
  r = (h, Some e) -> andthen r f = (h, Some e).
Proof. intros ->. reflexivity. Qed.

Definition sitesok (h : store) (s : site) := mem (to_fd s) h = true.

Lemma upd_sites (l : list (site * val)) : forall h, WF h ->
  exists h', fold_left (fun r p => andthen r (fun h => set_site h (KSite (fst p)) (snd p))) l
     (h, None) = (h', None) /\ WF h' /\
  (forall x y, Eg h' x y = Eg h x y) /\
  (forall t, mem t h' = (mem t h || existsb (fun p => eqb t (to_fd (fst p))) l)%bool) /\
  (NoDup (map fst l) -> (forall p, In p l -> in_fd (fst p) = true) -> forall t, ons h' t = match lookup t l with Some v => Some v | None => ons h t end).
Proof.
  induction l as [|[s v] l IH]; intros h W; simpl.
  - exists h. split; [reflexivity|]. split; [exact W|]. split; [reflexivity|].
    split; [intros; rewrite orb_false_r; reflexivity|]. reflexivity.
  - destruct (@set_site_spec site dec Sy L C F h s v W) as (h1 & E & M1 & O1 & E1 & _ & _ & W1).
    simpl in E. rewrite E.
    destruct (IH h1 W1) as (h' & E' & W' & Eg' & M' & O').
    exists h'. split; [exact E'|]. split; [exact W'|].
    split; [intros; rewrite Eg'; apply E1|]. split.
    + intros t. rewrite M', M1. rewrite (orb_comm (eqb _ _)), orb_assoc. reflexivity.
    + intros ND FD t. inversion ND; subst. rewrite O'; auto.
      assert (Fs : to_fd s = s) by (apply to_fd_id; [exact L|]; apply (FD (s, v)); left; reflexivity).
      rewrite O1, Fs. destruct (eqb t s) eqn:Et.
      * apply eqb_true in Et; subst t. replace (lookup s l) with (@None val); [reflexivity|].
        symmetry. apply lookup_None. exact H1.
      * reflexivity.
Qed.

Lemma upd_hops (l : list (site * site * val)) : forall h, WF h ->
  (forall a b v, In (a, b, v) l -> a <> b /\ mem (to_fd a) h = true /\ mem (to_fd b) h = true) ->
  exists h', fold_left (fun r p => andthen r (fun h =>
               set_hopping h (KHop (fst (fst p)) (snd (fst p))) (snd p))) l
     (h, None) = (h', None) /\ WF h' /\
  map fst h' = map fst h /\ (forall t, ons h' t = ons h t) /\
  (forall x y, (forall a b v, In (a, b, v) l -> to_fd2 x y <> to_fd2 a b /\ to_fd2 x y <> to_fd2 b a) ->
               vhop h' x y = vhop h x y) /\
  (NoDup (map fst l) ->
   (forall a b a' b', In (a, b) (map fst l) -> In (a', b') (map fst l) ->
       to_fd2 a b = to_fd2 a' b' \/ to_fd2 a b = to_fd2 b' a' -> (a, b) = (a', b')) ->
   forall a b v x y, In (a, b, v) l -> (to_fd2 x y = to_fd2 a b -> vhop h' x y = Some v) /\
                     (to_fd2 x y = to_fd2 b a -> vhop h' x y = Some (hc v))).
Proof.
  induction l as [|[[a b] v] l IH]; intros h W HP; simpl.
  - exists h. split; [reflexivity|]. split; [exact W|]. split; [reflexivity|].
    split; [reflexivity|]. split; [reflexivity|]. intros _ _ a b v x y [].
  - destruct (HP a b v) as (N & Ma & Mb); [left; reflexivity|].
    destruct (@set_hopping_spec site dec Sy L C F h a b v W N) as [H1 _].
    destruct (H1 Ma Mb) as (h1 & E & K1 & O1 & E1 & W1).
    cbn [fst snd]. rewrite E.
    destruct (IH h1 W1) as (h' & E' & W' & K' & O' & Fr & Up).
    { intros a' b' v' Hi. destruct (HP a' b' v') as (? & ? & ?); [right; exact Hi|].
      rewrite !(mem_keys dec h h1 _ K1). auto. }
    exists h'. split; [exact E'|]. split; [exact W'|]. split; [congruence|].
    split; [intros; rewrite O'; apply O1|].
    assert (V1 := @vhop_set h h1 a b v N E1).
    split.
    + intros x y Hxy. rewrite Fr.
      * rewrite V1. destruct (Hxy a b v) as [X Y]; [left; reflexivity|].
        destruct (pdec _ _); [congruence|]. destruct (pdec _ _); congruence.
      * intros a' b' v' Hi. apply (Hxy a' b' v'). right; exact Hi.
    + intros ND Ds a' b' v' x y [Heq|Hi].
      * injection Heq as <- <- <-. inversion ND as [|? ? NI ND']; subst.
        assert (Old : forall x y, to_fd2 x y = to_fd2 a b \/ to_fd2 x y = to_fd2 b a ->
                   vhop h' x y = vhop h1 x y).
        { intros x' y' Hx'. apply Fr. intros a2 b2 v2 Hi.
          assert (In (a2, b2) (map fst l)) by (apply in_map_iff; exists (a2, b2, v2); auto).
          assert (to_fd2 a b <> to_fd2 a2 b2 /\ to_fd2 a b <> to_fd2 b2 a2) as [X Y].
          { split; intros X; apply NI.
            - assert ((a, b) = (a2, b2)) as -> by (apply Ds; simpl; auto). auto.
            - assert ((a, b) = (a2, b2)) as -> by (apply Ds; simpl; auto). auto. }
          destruct Hx' as [Hx'|Hx']; rewrite Hx'; split; auto.
          - intros Z. apply swap_iff in Z. auto.
          - intros Z. apply swap_iff in Z. auto. }
        split; intros Hx; rewrite (Old x y) by auto; rewrite V1.
        -- destruct (pdec _ _); congruence.
        -- rewrite Hx. assert (Nf := to_fd2_flip L N).
           destruct (pdec (to_fd2 b a) (to_fd2 a b)); [congruence|].
           destruct (pdec (to_fd2 b a) (to_fd2 b a)); congruence.
      * inversion ND; subst. apply (Up) with (a := a') (b := b'); auto.
Qed.

Lemma lookup_svp (h : store) t : lookup t (site_value_pairs h) = ons h t.
Proof.
  unfold site_value_pairs, BuilderInv.ons.
  induction h as [|[k nd] h IH]; simpl; [reflexivity|].
  destruct (eqb t k); [reflexivity|exact IH].
Qed.

Lemma mem_ons (h : store) t : mem t h = match ons h t with Some _ => true | None => false end.
Proof. unfold BuilderInv.ons, BuilderModel.mem. destruct (lookup t h); reflexivity. Qed.

Lemma update_spec h o : WF h -> WF o ->
  exists h', update h o = (h', None) /\ WF h' /\
    (forall t, ons h' t = match ons o t with Some v => Some v | None => ons h t end) /\
    (forall x y, vhop h' x y = match vhop o x y with Some v => Some v | None => vhop h x y end).
Proof.
  intros W Wo. unfold BuilderModel.update.
  destruct (upd_sites (site_value_pairs o) W) as (h1 & E1 & W1 & Eg1 & M1 & O1).
  rewrite E1.
  assert (KK : map fst (site_value_pairs o) = map fst o)
    by (unfold site_value_pairs; rewrite map_map; reflexivity).
  assert (O1' : forall t, ons h1 t = match ons o t with Some v => Some v | None => ons h t end).
  { intros t. rewrite O1.
    - rewrite lookup_svp. reflexivity.
    - rewrite KK. apply Wo.
    - intros p Hp. apply (wf_fd Wo). apply mem_true. rewrite <- KK. apply in_map; auto. }
  assert (Mo : forall t, mem t o = true -> mem t h1 = true).
  { intros t. rewrite !mem_ons, O1'. destruct (ons o t); congruence. }
  destruct (@upd_hops (hopping_value_pairs o) h1 W1) as (h' & E' & W' & K' & O' & Fr & Up).
  { intros a b v Hi. apply in_hvp in Hi; [|apply Wo|apply Wo].
    assert (Fa : in_fd a = true) by (apply (wf_fd Wo); eapply edge_mem; eauto).
    rewrite <- (Eg_fd dec L) in Hi by exact Fa. split.
    - intros ->. rewrite (WF_irr _ Wo) in Hi. discriminate.
    - destruct (WF_Eg_mem L _ _ Wo Hi). split; apply Mo; auto. }
  exists h'. split; [exact E'|]. split; [exact W'|].
  split; [intros; rewrite O'; apply O1'|].
  intros x y. destruct (vhop o x y) as [v|] eqn:V.
  - assert (HE : Eg o x y <> None) by (apply vhop_some_iff; [exact Wo|congruence]).
    destruct (hoppings_once _ _ Wo HE) as ([t z] & Hin & Ht & _).
    rewrite hoppings_hvp, in_map_iff in Hin. destruct Hin as ([[t' z'] w] & [= -> ->] & Hin).
    destruct (Up) with (a := t) (b := z) (v := w) (x := x) (y := y) as [U1 U2]; auto.
    + rewrite <- hoppings_hvp. apply NoDup_hoppings. apply Wo.
    + intros a b a' b'. rewrite <- hoppings_hvp. intros I1 I2 Heq.
      assert (In1 : In (a,b) (hoppings o)) by exact I1.
      assert (In2 : In (a',b') (hoppings o)) by exact I2.
      rewrite hoppings_hvp, in_map_iff in I1, I2.
      destruct I1 as ([[? ?] w1] & [= -> ->] & I1), I2 as ([[? ?] w2] & [= -> ->] & I2).
      apply in_hvp in I1; [|apply Wo|apply Wo]. apply in_hvp in I2; [|apply Wo|apply Wo].
      assert (Fa : in_fd a = true) by (apply (wf_fd Wo); eapply edge_mem; eauto).
      assert (Fa' : in_fd a' = true) by (apply (wf_fd Wo); eapply edge_mem; eauto).
      assert (HE' : Eg o a b <> None) by (rewrite (Eg_fd dec L) by exact Fa; congruence).
      destruct (hoppings_once _ _ Wo HE') as (p & _ & _ & Hu).
      assert (T1 := to_fd2_id L a b Fa). assert (T2 := to_fd2_id L a' b' Fa').
      rewrite (Hu (a, b)); [|exact In1|left; auto]. symmetry. apply Hu; [exact In2|].
      destruct Heq as [Heq|Heq]; [left; congruence|right].
      apply swap_iff in Heq. congruence.
    + apply in_hvp in Hin; [|apply Wo|apply Wo].
      assert (Ft : in_fd t = true) by (apply (wf_fd Wo); eapply edge_mem; eauto).
      rewrite <- (Eg_fd dec L) in Hin by exact Ft.
      assert (Tt := to_fd2_id L t z Ft).
      destruct Ht as [Ht|Ht].
      * rewrite U1 by congruence. f_equal.
        unfold BuilderInv.vhop in V.
        rewrite (@Eg_eq site dec Sy C F o x y t z) in V by congruence.
        rewrite Hin in V. congruence.
      * assert (Hxy : to_fd2 x y = to_fd2 z t).
        { apply swap_iff. congruence. }
        rewrite U2 by exact Hxy. f_equal.
        destruct (WF_Eg_pair L t z Wo Hin) as (v' & E2 & Cm).
        unfold BuilderInv.vhop in V.
        rewrite (@Eg_eq site dec Sy C F o x y z t) in V by exact Hxy.
        rewrite (@Eg_eq site dec Sy C F o y x t z) in V by (apply swap_iff; exact Hxy).
        rewrite E2, Hin in V.
        destruct Cm as [[X _]|[-> (w' & [= <-] & P)]]; [discriminate|].
        destruct w; try contradiction; simpl; congruence.
  - rewrite Fr.
    + apply vhop_eq; apply Eg1.
    + intros a b v Hi. apply in_hvp in Hi; [|apply Wo|apply Wo].
      assert (Fa : in_fd a = true) by (apply (wf_fd Wo); eapply edge_mem; eauto).
      rewrite <- (Eg_fd dec L) in Hi by exact Fa.
      assert (NE : Eg o x y = None).
      { destruct (Eg o x y) eqn:X; [|reflexivity].
        exfalso. apply (vhop_some_iff x y Wo); [congruence|exact V]. }
      split; intros X.
      * rewrite (@Eg_eq site dec Sy C F o x y a b X) in NE. congruence.
      * apply (WF_Eg_None L) in NE; [|exact Wo]. apply swap_iff in X.
        rewrite (@Eg_eq site dec Sy C F o y x a b X) in NE. congruence.
Qed.

End Reach.
