(** * The builder properties, proved: enumeration, neighbors, 2-core, general
    keys, update, HoppingKind. *)
From Coq Require Import List Bool Arith Lia.
From Verif Require Import BuilderModel BuilderProofs BuilderInv BuilderReach BuilderErad
  BuilderSpec BuilderMain HoppingKindModel.
Import ListNotations.
Set Implicit Arguments.

Section Main.
Variable site : Type.
Variable dec : forall a b : site, {a = b} + {a <> b}.
Variable Sy : Symmetry site.
Hypothesis L : SymLaws Sy.
Variable C : Type.
Variable conj : C -> C.
Variable F : Type.

Notation lookup := (lookup dec).
Notation mem := (mem dec).
Notation eqb := (eqb dec).
Notation to_fd := (to_fd Sy).
Notation to_fd2 := (to_fd2 Sy).
Notation in_fd := (in_fd Sy).
Notation store := (store site C F).
Notation val := (val C F).
Notation getitem := (@getitem site dec Sy C conj F).
Notation contains := (@contains site dec Sy C F).
Notation setitem := (@setitem site dec Sy C F).
Notation delitem := (@delitem site dec Sy C F).
Notation Eg := (@Eg site dec Sy C F).
Notation ons := (@ons site dec C F).
Notation vhop := (@vhop site dec Sy C conj F).
Notation WF := (@WF site dec Sy C F).
Notation pdec := (pdec dec).
Notation reachable := (@reachable site dec Sy C F).
Notation same_site := (same_site Sy).
Notation same_hop := (same_hop Sy).
Notation read_site := (@read_site site dec Sy C conj F).
Notation read_hop := (@read_hop site dec Sy C conj F).
Notation neighbors := (@neighbors site dec Sy C F).
Notation degree := (@degree site dec Sy C F).
Notation key := (key site C F).

(** C08 *)
Lemma main_C08_sites h : reachable h ->
  NoDup (sites h) /\
  (forall s, In s (sites h) -> contains h (KSite s) = inl true) /\
  (forall s, contains h (KSite s) = inl true ->
     exists r, In r (sites h) /\ same_site s r /\
       forall r', In r' (sites h) -> same_site s r' -> r' = r).
Proof.
  intros R. apply (reach_WF L) in R. split; [apply R|]. 
  assert (Hid : forall s, In s (sites h) -> to_fd s = s).
  { intros s H. apply (to_fd_id L). apply (wf_fd R). apply mem_true. exact H. }
  split.
  - intros s H. rewrite contains_site, (Hid s H). f_equal. apply mem_true. exact H.
  - intros s. rewrite contains_site. intros [= H]. exists (to_fd s).
    apply mem_true in H. split; [exact H|]. split.
    + apply (same_site_fd L). apply Hid. exact H.
    + intros r' Hr. rewrite (same_site_fd L). rewrite (Hid r' Hr). auto.
Qed.

Lemma hvp_eq h a b v : WF h -> In (a, b, v) (hopping_value_pairs h) ->
  Eg h a b = Some (SVal v).
Proof.
  intros W H. assert (Ed : edge dec h a b = Some (SVal v)).
  { apply (@in_hvp site dec Sy C F h a b v); auto; apply W. }
  unfold BuilderInv.Eg. assert (Fa : in_fd a = true).
  { apply (wf_fd W). apply (@edge_mem site dec C F h a b _ Ed). }
  rewrite (to_fd2_id L _ _ Fa). exact Ed.
Qed.

Lemma main_C08_hoppings h : reachable h ->
  NoDup (hoppings h) /\
  hoppings h = map fst (hopping_value_pairs h) /\
  (forall a b v, In (a, b, v) (hopping_value_pairs h) -> read_hop h a b = Some v) /\
  (forall a b, contains h (KHop a b) = inl true ->
     exists x y, In (x, y) (hoppings h) /\ (same_hop a b x y \/ same_hop b a x y) /\
       forall x' y', In (x', y') (hoppings h) ->
         same_hop a b x' y' \/ same_hop b a x' y' -> (x', y') = (x, y)).
Proof.
  intros R. pose proof (reach_WF L R) as W.
  split; [apply (@NoDup_hoppings site dec Sy C F); apply W|].
  split; [apply hoppings_hvp|]. split.
  - intros a b v H. rewrite (@read_hop_vhop site dec Sy L C conj F) by auto.
    unfold BuilderInv.vhop. rewrite (hvp_eq _ _ _ W H). reflexivity.
  - intros a b H. apply (contains_hop_Eg L _ _ R) in H.
    destruct (@hoppings_once site dec Sy L C F h a b W H) as ([x y] & Hin & Hor & Huniq).
    assert (N : forall p q, In (p, q) (hoppings h) -> to_fd2 p q = (p, q)).
    { intros p q Hp. rewrite hoppings_hvp in Hp. apply in_map_iff in Hp.
      destruct Hp as ([[p' q'] v] & [= -> ->] & Hp).
      apply (to_fd2_id L). apply (wf_fd W).
      apply (@in_hvp site dec Sy C F h p q v) in Hp; [|apply W|apply W].
      exact (@edge_mem site dec C F h p q _ Hp). }
    exists x, y. split; [exact Hin|]. rewrite !(same_hop_fd L), (N x y Hin). split; [exact Hor|].
    intros x' y' Hin'. rewrite !(same_hop_fd L), (N x' y' Hin'). apply Huniq. exact Hin'.
Qed.

(** C09 *)
Lemma main_C09 h s : reachable h ->
  (contains h (KSite s) = inl true ->
   exists l, neighbors h s = inl l /\ NoDup l /\ degree h s = inl (length l) /\
     forall t, In t l <-> contains h (KHop s t) = inl true) /\
  (contains h (KSite s) = inl false ->
   exists e, neighbors h s = inr e /\ degree h s = inr e).
Proof.
  intros R. pose proof (reach_WF L R) as W.
  destruct (@neighbors_spec site dec Sy L C F h s W) as [H1 H2].
  rewrite contains_site. split; intros [= H].
  - destruct (H1 H) as (l & E & ND & Hin & Hd). exists l.
    do 3 (split; [auto|]). intros t. rewrite Hin. symmetry. apply (contains_hop_Eg L _ _ R).
  - destruct (H2 H). eauto.
Qed.
Lemma main_C09_sym h s t ls lt : reachable h ->
  neighbors h s = inl ls -> neighbors h t = inl lt -> In t ls <-> In s lt.
Proof.
  intros R Es Et.
  assert (G : forall u lu, neighbors h u = inl lu -> forall w, In w lu <-> contains h (KHop u w) = inl true).
  { intros u lu Eu w. destruct (main_C09 u R) as [H1 H2].
    rewrite contains_site in *. destruct (mem (to_fd u) h).
    - destruct (H1 eq_refl) as (l & E & _ & _ & Hin). rewrite E in Eu. injection Eu as <-. apply Hin.
    - destruct (H2 eq_refl) as (e & E & _). congruence. }
  rewrite (G s ls Es), (G t lt Et). rewrite (main_C07_sym L s t R). tauto.
Qed.

(** C10 *)
Notation eradicate_dangling := (@eradicate_dangling site dec Sy C F).
Lemma main_C10 h : reachable h ->
  exists h', eradicate_dangling h = (h', None) /\
    (forall s n, degree h' s = inl n -> 2 <= n) /\
    (forall s, contains h' (KSite s) = inl true -> contains h (KSite s) = inl true) /\
    (forall X, self_supporting dec Sy h X -> forall s, X s = true -> contains h' (KSite s) = inl true) /\
    self_supporting dec Sy h (fun s => mem (to_fd s) h') /\
    (forall s, contains h' (KSite s) = inl true -> read_site h' s = read_site h s) /\
    (forall a b, contains h' (KSite a) = inl true -> contains h' (KSite b) = inl true ->
       read_hop h' a b = read_hop h a b).
Proof.
  intros R. pose proof (reach_WF L R) as W.
  destruct (@eradicate_spec site dec Sy L C F h W) as (h' & E & W' & [I1 I2] & Hmax & Hlow & Hsub).
  exists h'. split; [exact E|].
  assert (Hdeg : forall s n, degree h' s = inl n -> 2 <= n).
  { intros s n. unfold BuilderModel.degree, out_degree.
    destruct (lookup (to_fd s) h') as [nd|] eqn:El; [|discriminate]. intros [= <-].
    destruct (le_lt_dec 2 (length (outs nd))) as [|Hl]; auto.
    exfalso. apply (Hlow (to_fd s)). exists nd. auto. }
  split; [exact Hdeg|].
  split. { intros s. rewrite !contains_site. intros [= H]. f_equal. apply Hsub. exact H. }
  split. { intros X HX s Hs. rewrite contains_site. f_equal. apply (Hmax X); auto. }
  assert (Hhop : forall a b, mem (to_fd a) h' = true -> mem (to_fd b) h' = true -> Eg h' a b = Eg h a b).
  { intros a b Ha Hb. rewrite I2, Ha, Hb. reflexivity. }
  split.
  { split. { intros g s. rewrite (to_fd_act L). reflexivity. }
    intros s Hs. destruct (@neighbors_spec site dec Sy L C F h s W) as [H1 _].
    destruct (H1 (Hsub _ Hs)) as (l & El & ND & Hin & _). exists l. split; [exact El|].
    destruct (@neighbors_spec site dec Sy L C F h' s W') as [H1' _].
    destruct (H1' Hs) as (l' & El' & ND' & Hin' & Hd').
    apply Hdeg in Hd'. etransitivity; [exact Hd'|]. apply NoDup_incl_length; [exact ND'|].
    intros t Ht. apply Hin' in Ht. apply filter_In. rewrite Hin.
    rewrite I2 in Ht. destruct (mem (to_fd t) h') eqn:Mt.
    - rewrite Hs in Ht. auto.
    - rewrite andb_false_r in Ht. congruence. }
  split.
  { intros s. rewrite contains_site. intros [= H]. rewrite !read_site_ons, I1, H. reflexivity. }
  intros a b. rewrite !contains_site. intros [= Ha] [= Hb].
  rewrite !(@read_hop_vhop site dec Sy L C conj F) by auto.
  apply vhop_eq; apply Hhop; auto.
Qed.

(** C11 *)
Section C11.
Variable op : kind -> store -> skey site -> outcome site C F.
Variable item : store -> skey site -> outcome site C F.
Hypothesis item_op : forall h k, item h k = op (kind_of k) h k.
Hypothesis op_mixed : forall fn h k, fn <> kind_of k -> op fn h k = (h, Some (EType _)).

Definition b2k (b : bool) : kind := if b then IsSite else IsHop.
Lemma kind_b k : kind_of k = b2k (@is_site_key site k).
Proof. destruct k; reflexivity. Qed.

Definition finish (st : store * option kind * option (err site)) : outcome site C F :=
  (fst (fst st), snd st).

(** running a list of keys *)
Definition run_list (st : store * option kind * option (err site)) (w : list key) :=
  fold_left (run_key op) w st.

Lemma run_key_err h fn e k : run_key op (h, fn, Some e) k = (h, fn, Some e).
Proof. destruct k; reflexivity. Qed.
Lemma run_list_err w h fn e : run_list (h, fn, Some e) w = (h, fn, Some e).
Proof. induction w; cbn; auto. rewrite run_key_err. exact IHw. Qed.
Lemma run_iter st l : run_key op st (Iter l) = run_list st l.
Proof.
  destruct st as [[h fn] [e|]].
  - rewrite run_list_err, run_key_err. reflexivity.
  - cbn [run_key]. generalize (@None (err site)) at 1 2. revert h fn.
    unfold run_list.
    assert (G : forall st, (fix go st0 (l0 : list key) {struct l0} := match l0 with
         | [] => st0 | k :: l1 => go (run_key op st0 k) l1 end) st l = fold_left (run_key op) l st).
    { induction l as [|k l IH]; intros st; cbn [fold_left]; auto. }
    intros h fn o. apply G.
Qed.

Lemma processes_fun fn h w r : processes item fn h w r ->
  finish (run_list (h, option_map b2k fn, None) w) = r.
Proof.
  induction 1.
  - reflexivity.
  - cbn [run_list fold_left]. change (fold_left (run_key op) w ?s) with (run_list s w).
    rewrite run_iter. unfold run_list in *. rewrite fold_left_app in IHprocesses. exact IHprocesses.
  - cbn [run_list fold_left]. cbn [run_key]. exact IHprocesses.
  - cbn [run_list fold_left run_key run1].
    replace (match option_map b2k fn with Some x => x | None => kind_of k end) with (kind_of k)
      by (destruct H as [->| ->]; cbn; auto using kind_b).
    rewrite item_op in H0. rewrite H0. rewrite kind_b at 1. exact IHprocesses.
  - cbn [run_list fold_left run_key run1].
    replace (match option_map b2k fn with Some x => x | None => kind_of k end) with (kind_of k)
      by (destruct H as [->| ->]; cbn; auto using kind_b).
    rewrite item_op in H0. rewrite H0.
    change (fold_left (run_key op) w ?s) with (run_list s w). rewrite run_list_err. reflexivity.
  - cbn [run_list fold_left run_key run1 option_map].
    rewrite op_mixed by (rewrite kind_b; destruct b, (is_site_key k); cbn; congruence).
    change (fold_left (run_key op) w ?s) with (run_list s w). rewrite run_list_err. reflexivity.
Qed.

Lemma processes_ex_list w (Hw : Forall (fun k => forall fn h w,
       (forall fn h, exists r, processes item fn h w r) -> exists r, processes item fn h (k :: w) r) w) :
  forall w', (forall fn h, exists r, processes item fn h w' r) ->
  forall fn h, exists r, processes item fn h (w ++ w') r.
Proof.
  induction Hw as [|k w Hk Hw IH]; intros w' H fn h; cbn [app]; auto.
Qed.

Lemma processes_ex1 k : forall fn h w, (forall fn h, exists r, processes item fn h w r) ->
  exists r, processes item fn h (k :: w) r.
Proof.
  induction k as [k|l IH|f IH] using key_ind'; intros fn h w Hw.
  - destruct (match fn with None => true | Some b => Bool.eqb b (is_site_key k) end) eqn:E.
    + assert (Hfn : fn = None \/ fn = Some (is_site_key k)).
      { destruct fn; auto. right. f_equal. apply eqb_prop. exact E. }
      destruct (item h k) as [h' [e|]] eqn:Ei.
      * eexists. eapply p_err; eauto.
      * destruct (Hw (Some (is_site_key k)) h') as [r Hr]. exists r. eapply p_ok; eauto.
    + destruct fn as [b|]; [|discriminate]. eexists. apply p_mixed.
      apply eqb_false_iff. exact E.
  - destruct (processes_ex_list IH Hw fn h) as [r Hr].
    exists r. apply p_iter. exact Hr.
  - destruct (IH h fn h w Hw) as [r Hr]. exists r. apply p_call. exact Hr.
Qed.

Lemma processes_iff h k r : processes item None h [k] r <-> finish (run_key op (h, None, None) k) = r.
Proof.
  split.
  - apply (@processes_fun None h [k] r).
  - destruct (@processes_ex1 k None h []) as [r' Hr'].
    { intros fn h'. eexists. constructor. }
    intros <-. rewrite <- (processes_fun Hr') in Hr'. exact Hr'.
Qed.

Lemma leaves_simple : forall k, @leaves site C F k = simple_keys k.
Proof. reflexivity. Qed.
End C11.

Lemma finish_set h k v : setitem h k v = finish (run_key (set_op dec Sy v) (h, None, None) k).
Proof. unfold BuilderModel.setitem, finish. destruct (run_key _ _ _) as [[? ?] ?]. reflexivity. Qed.
Lemma finish_del h k : delitem h k = finish (run_key (del_op dec Sy (C:=C) (F:=F)) (h, None, None) k).
Proof. unfold BuilderModel.delitem, finish. destruct (run_key _ _ _) as [[? ?] ?]. reflexivity. Qed.

Lemma set_op_mixed v fn h k : fn <> kind_of k -> @set_op site dec Sy C F v fn h k = (h, Some (EType _)).
Proof.
  destruct fn, k; cbn; try congruence; reflexivity.
Qed.
Lemma del_op_mixed fn h k : fn <> kind_of k -> @del_op site dec Sy C F fn h k = (h, Some (EType _)).
Proof. destruct fn, k; cbn; try congruence; reflexivity. Qed.

Lemma main_C11_set h k v r :
  setitem h k v = r <->
  processes (fun h sk => setitem h (Simple _ _ sk) v) None h [k] r.
Proof.
  rewrite finish_set. symmetry. apply processes_iff.
  - intros. apply setitem_simple.
  - intros. apply set_op_mixed. auto.
Qed.
Lemma main_C11_del h k r :
  delitem h k = r <->
  processes (fun h sk => delitem h (Simple _ _ sk)) None h [k] r.
Proof.
  rewrite finish_del. symmetry. apply processes_iff.
  - intros. apply delitem_simple.
  - intros. apply del_op_mixed. auto.
Qed.

Definition uniform (ks : list (skey site)) : Prop :=
  exists b, forall k, In k ks -> is_site_key k = b.

Lemma fold_uniform op item (item_op : forall h k, item h k = op (kind_of k) h k) b ks : 
  (forall k, In k ks -> is_site_key k = b) -> forall h fn, fn = None \/ fn = Some (b2k b) ->
  finish (fold_left (run1 op) ks (h, fn, None)) =
  (fix go (h : store) (ks : list (skey site)) : outcome site C F := match ks with
   | [] => (h, None)
   | k :: ks => match item h k with
               | (h', None) => go h' ks
               | (h', Some e) => (h', Some e)
               end end) h ks.
Proof.
  induction ks as [|k ks IH]; intros Hb h fn Hfn; [reflexivity|].
  cbn [fold_left run1].
  replace (match fn with Some x => x | None => kind_of k end) with (kind_of k).
  2:{ destruct Hfn as [->| ->]; auto. rewrite kind_b, (Hb k) by (left; auto). reflexivity. }
  rewrite <- item_op. destruct (item h k) as [h' [e|]].
  - clear. induction ks; cbn [fold_left run1]; auto.
  - apply IH. { intros; apply Hb; right; auto. }
    right. rewrite kind_b, (Hb k) by (left; auto). reflexivity.
Qed.

Lemma main_C11_flat h k ks v : simple_keys k = Some ks -> uniform ks ->
  setitem h k v = assign_all dec Sy h ks v.
Proof.
  intros E [b Hb]. rewrite finish_set, (@run_key_leaves site C F) with (ks := ks) by exact E.
  rewrite (@fold_uniform (set_op dec Sy v) (fun h k => setitem h (Simple _ _ k) v)
             (fun h k => @setitem_simple site dec Sy C F h k v) b ks Hb h None (or_introl eq_refl)).
  - clear k E Hb. revert h. induction ks as [|k ks IH]; intros h; cbn [assign_all]; [reflexivity|].
    destruct (setitem h (Simple _ _ k) v) as [h' [e|]]; auto.
Qed.
Lemma main_C11_flat_del h k ks : simple_keys k = Some ks -> uniform ks ->
  delitem h k = delete_all dec Sy h ks.
Proof.
  intros E [b Hb]. rewrite finish_del, (@run_key_leaves site C F) with (ks := ks) by exact E.
  rewrite (@fold_uniform (@del_op site dec Sy C F) (fun h k => delitem h (Simple _ _ k))
             (fun h k => @delitem_simple site dec Sy C F h k) b ks Hb h None (or_introl eq_refl)).
  - clear k E Hb. revert h. induction ks as [|k ks IH]; intros h; cbn [delete_all]; [reflexivity|].
    destruct (delitem h (Simple _ _ k)) as [h' [e|]]; auto.
Qed.

(** C12 *)
Notation update := (@update site dec Sy C F).
Lemma main_C12 h o : reachable h -> reachable o ->
  exists h', update h o = (h', None) /\
    (forall s, read_site h' s = match read_site o s with Some v => Some v | None => read_site h s end) /\
    (forall a b, read_hop h' a b = match read_hop o a b with Some v => Some v | None => read_hop h a b end).
Proof.
  intros R Ro. apply (reach_WF L) in R. apply (reach_WF L) in Ro.
  destruct (@update_spec site dec Sy L C conj F h o R Ro) as (h' & E & W & Hs & Hh).
  exists h'. split; [exact E|]. split.
  - intros s. rewrite !read_site_ons. apply Hs.
  - intros a b. rewrite !(@read_hop_vhop site dec Sy L C conj F) by auto. apply Hh.
Qed.

Lemma main_C05 h s : reachable h ->
  (read_site h s = None -> exists e, delitem h (Simple _ _ (KSite s)) = (h, Some e)) /\
  (read_site h s <> None ->
   exists h', delitem h (Simple _ _ (KSite s)) = (h', None) /\
    (forall t, same_site s t -> read_site h' t = None) /\
    (forall t, ~ same_site s t -> read_site h' t = read_site h t) /\
    (forall x y, same_site s x \/ same_site s y -> read_hop h' x y = None) /\
    (forall x y, ~ same_site s x -> ~ same_site s y -> read_hop h' x y = read_hop h x y)).
Proof.
  intros R. pose proof (main_step L conj (DelSite _ _ s) (reach_WF L R)) as H.
  cbn [exec1] in H. destruct (delitem h (Simple _ _ (KSite s))) as [h' [e|]] eqn:E;
    cbn [fst snd is_ok spec_step enabled effect asite ahop BuilderSpec.abs] in H; split; intros Hr.
  - exists e. f_equal. apply (main_C04_del L _ R E).
  - destruct H as [H _]. contradiction.
  - destruct H as [H _]. contradiction.
  - exists h'. split; [reflexivity|]. apply H.
Qed.

Lemma main_C06 h a b : reachable h -> a <> b ->
  (read_hop h a b = None -> exists e, delitem h (Simple _ _ (KHop a b)) = (h, Some e) /\
     ((exists s, e = EKeySite s) \/ exists s t, e = EKeyHop s t)) /\
  (read_hop h a b <> None ->
   exists h', delitem h (Simple _ _ (KHop a b)) = (h', None) /\
    (forall t, read_site h' t = read_site h t) /\
    (forall x y, same_hop a b x y \/ same_hop b a x y -> read_hop h' x y = None) /\
    (forall x y, ~ same_hop a b x y -> ~ same_hop b a x y -> read_hop h' x y = read_hop h x y)).
Proof.
  intros R n. pose proof (main_step L conj (DelHop _ _ a b) (reach_WF L R)) as H.
  cbn [exec1] in H. destruct (delitem h (Simple _ _ (KHop a b))) as [h' [e|]] eqn:E;
    cbn [fst snd is_ok spec_step enabled effect asite ahop BuilderSpec.abs] in H; split; intros Hr.
  - exists e. split; [f_equal; apply (main_C04_del L _ R E)|].
    rewrite delitem_simple in E. cbn [del_op kind_of] in E.
    destruct (@del_hopping_spec site dec Sy L C F h a b (reach_WF L R) n) as [_ Herr].
    destruct Herr as (e1 & E1 & He).
    + assert (Hv := @vhop_some_iff site dec Sy L C conj F h a b (reach_WF L R)).
      rewrite <- (@read_hop_vhop site dec Sy L C conj F _ _ _ (reach_WF L R)) in Hv.
      destruct (Eg h a b); auto. exfalso. apply Hv; auto. discriminate.
    + rewrite E1 in E. injection E as <- <-. destruct (to_fd2 a b).
      destruct He as [->|[->| ->]]; eauto.
  - destruct H as [H _]. tauto.
  - destruct H as [H _]. tauto.
  - exists h'. split; [reflexivity|]. apply H.
Qed.

Lemma main_C08_svp h : reachable h ->
  map fst (site_value_pairs h) = sites h /\
  forall s v, In (s, v) (site_value_pairs h) -> read_site h s = Some v.
Proof.
  intros R. pose proof (reach_WF L R) as W. unfold site_value_pairs, sites.
  split; [rewrite map_map; reflexivity|]. intros s v H. apply in_map_iff in H.
  destruct H as ([s' nd] & [= -> <-] & H). cbn [fst snd] in *.
  apply (In_lookup dec _ _ _ (wf_nodup W)) in H.
  rewrite read_site_ons, (to_fd_id L) by (apply (wf_fd W); apply mem_lookup; eauto).
  unfold BuilderInv.ons. rewrite H. reflexivity.
Qed.

Lemma main_empty s a b : read_site [] s = None /\ read_hop [] a b = None.
Proof.
  split; [reflexivity|]. unfold BuilderSpec.read_hop, BuilderModel.getitem. cbn [validate_hopping].
  destruct (dec a b); reflexivity.
Qed.

(** determinism of the specification machine *)
Lemma same_site_dec a b : same_site a b \/ ~ same_site a b.
Proof. rewrite (same_site_fd L). destruct (dec (to_fd b) (to_fd a)); auto. Qed.
Lemma same_hop_dec a b c d : same_hop a b c d \/ ~ same_hop a b c d.
Proof. rewrite (same_hop_fd L). destruct (pdec (to_fd2 c d) (to_fd2 a b)); auto. Qed.

(** C15 *)
Section HK.
Variable fam tag : Type.
Variable fdec : forall a b : fam, {a = b} + {a <> b}.
Variable family : site -> fam.
Variable tag_of : site -> tag.
Variable mk : fam -> tag -> site.
Variable tsub : tag -> tag -> tag.
Notation hk := (@hopping_kind site dec Sy C F fam tag fdec family tag_of mk tsub).

Lemma main_C15 h delta fa fb : reachable h ->
  NoDup (hk delta fa fb h) /\
  forall a b, In (a, b) (hk delta fa fb h) <->
    In a (sites h) /\ family a = fa /\ b = mk fb (tsub (tag_of a) delta) /\
    contains h (KSite b) = inl true.
Proof.
  intros R. apply (reach_WF L) in R. pose proof (wf_nodup R) as ND. unfold hopping_kind, sites.
  revert ND. generalize (map fst h). intros l ND.
  assert (Hin : forall a b, In (a, b) (flat_map (fun a =>
    if fdec (family a) fa then
      let b := mk fb (tsub (tag_of a) delta) in
      if mem (to_fd b) h then [(a, b)] else []
    else []) l) <-> In a l /\ family a = fa /\ b = mk fb (tsub (tag_of a) delta) /\
    contains h (KSite b) = inl true).
  { intros a b. rewrite in_flat_map. split.
    - intros (x & Hx & H). destruct (fdec (family x) fa); [|destruct H].
      cbv zeta in H. destruct (mem _ h) eqn:M; [|destruct H].
      destruct H as [[= <- <-]|[]]. rewrite contains_site, M. auto.
    - intros (H1 & H2 & -> & H3). exists a. split; auto.
      destruct (fdec (family a) fa); [|congruence]. rewrite contains_site in H3.
      injection H3 as H3. cbv zeta. rewrite H3. left. reflexivity. }
  split; [|exact Hin]. clear Hin.
  induction ND as [|x l Hx ND IH]; cbn [flat_map]; [constructor|].
  apply NoDup_app; [|exact IH|].
  - destruct (fdec (family x) fa); [|constructor]. cbv zeta.
    destruct (mem _ h); [|constructor]. constructor; [intros []|constructor].
  - intros p H1 H2. assert (fst p = x).
    { destruct (fdec (family x) fa); [|destruct H1]. cbv zeta in H1.
      destruct (mem _ h); [|destruct H1]. destruct H1 as [<-|[]]. reflexivity. }
    clear H1. apply in_flat_map in H2. destruct H2 as (y & Hy & H2).
    assert (fst p = y).
    { destruct (fdec (family y) fa); [|destruct H2]. cbv zeta in H2.
      destruct (mem _ h); [|destruct H2]. destruct H2 as [<-|[]]. reflexivity. }
    congruence.
Qed.

Lemma main_C15_tags :
  (forall f t, family (mk f t) = f) -> (forall f t, tag_of (mk f t) = t) ->
  (forall s, mk (family s) (tag_of s) = s) ->
  (forall x d y, y = tsub x d <-> tsub x y = d) ->
  forall delta fa fb h, reachable h ->
  forall a b, In (a, b) (hk delta fa fb h) <->
    In a (sites h) /\ family a = fa /\ family b = fb /\ tsub (tag_of a) (tag_of b) = delta /\
    contains h (KSite b) = inl true.
Proof.
  intros H1 H2 H3 H4 delta fa fb h R a b. destruct (main_C15 delta fa fb R) as [_ ->]. split.
  - intros (Ha & Hf & -> & Hc). split; [auto|]. split; [auto|]. split; [apply H1|].
    split; [|auto]. rewrite H2. apply H4. reflexivity.
  - intros (Ha & Hf & Hb & Hd & Hc). split; [auto|]. split; [auto|]. split; [|auto].
    rewrite <- (H3 b), Hb. f_equal. apply H4. exact Hd.
Qed.
End HK.

Lemma main_C12_empty o : reachable o ->
  exists h', @BuilderModel.update site dec Sy C F [] o = (h', None) /\
    (forall s, read_site h' s = read_site o s) /\
    (forall a b, read_hop h' a b = read_hop o a b).
Proof.
  intros Ro. destruct (main_C12 (@r_empty site dec Sy C F) Ro) as (h' & E & H1 & H2).
  exists h'. split; [exact E|]. split.
  - intros s. rewrite H1. destruct (read_site o s); [reflexivity|]. reflexivity.
  - intros a b. rewrite H2. destruct (read_hop o a b); [reflexivity|].
    apply (main_empty a a b).
Qed.
End Main.
