(** * The builder properties, proved. *)
From Coq Require Import List Bool Arith Lia.
From Verif Require Import BuilderModel BuilderProofs BuilderInv BuilderReach BuilderErad BuilderSpec FillModel FillProofs.
Import ListNotations.
Set Implicit Arguments.

Lemma reach_WF_gen (site : Type) (dec : forall a b : site, {a = b} + {a <> b}) (C F : Type)
  (Sy : Symmetry site) (h : store site C F) :
  reachable dec Sy h -> SymLaws Sy -> @WF site dec Sy C F h.
Proof.
  induction 1; intros L.
  - apply WF_nil.
  - apply setitem_WF; auto.
  - apply delitem_WF; auto.
  - destruct (@eradicate_spec site dec Sy L C F h (IHreachable L)) as (h' & E & W & _).
    rewrite E. exact W.
  - destruct (@update_spec site dec Sy L C (fun c => c) F h o (IHreachable1 L) (IHreachable2 L))
      as (h' & E & W & _). rewrite E. exact W.
  - apply map_store_WF; auto.
  - eapply fill_WF; eauto.
Qed.

Section Main.
Variable site : Type.
Variable dec : forall a b : site, {a = b} + {a <> b}.
Variable Sy : Symmetry site.
Hypothesis L : SymLaws Sy.
Variable C : Type.
Variable conj : C -> C.
Variable F : Type.

Notation lookup := (lookup dec).
Notation mem := (mem dec).
Notation eqb := (eqb dec).
Notation to_fd := (to_fd Sy).
Notation to_fd2 := (to_fd2 Sy).
Notation in_fd := (in_fd Sy).
Notation store := (store site C F).
Notation val := (val C F).
Notation getitem := (@getitem site dec Sy C conj F).
Notation contains := (@contains site dec Sy C F).
Notation setitem := (@setitem site dec Sy C F).
Notation delitem := (@delitem site dec Sy C F).
Notation set_hopping := (@set_hopping site dec Sy C F).
Notation del_site := (@del_site site dec Sy C F).
Notation Eg := (@Eg site dec Sy C F).
Notation ons := (@ons site dec C F).
Notation vhop := (@vhop site dec Sy C conj F).
Notation WF := (@WF site dec Sy C F).
Notation pdec := (pdec dec).
Notation reachable := (@reachable site dec Sy C F).
Notation same_site := (same_site Sy).
Notation same_hop := (same_hop Sy).
Notation read_site := (@read_site site dec Sy C conj F).
Notation read_hop := (@read_hop site dec Sy C conj F).
Notation neighbors := (@neighbors site dec Sy C F).
Notation degree := (@degree site dec Sy C F).
Notation hconj := (@hconj C conj F).
Notation hc := (@hc C conj F).

Lemma reach_WF h : reachable h -> WF h.
Proof. intros R. exact (reach_WF_gen R L). Qed.

Lemma same_site_fd a b : same_site a b <-> to_fd b = to_fd a.
Proof. unfold BuilderSpec.same_site. rewrite (to_fd_eq_iff L). tauto. Qed.
Lemma same_hop_fd a b c d : same_hop a b c d <-> to_fd2 c d = to_fd2 a b.
Proof. unfold BuilderSpec.same_hop. rewrite (to_fd2_eq_iff L). tauto. Qed.

Lemma read_site_ons h s : read_site h s = ons h (to_fd s).
Proof.
  unfold BuilderSpec.read_site, BuilderModel.getitem, BuilderInv.ons.
  destruct (lookup (to_fd s) h); reflexivity.
Qed.

Lemma read_hop_vhop h a b : WF h -> read_hop h a b = vhop h a b.
Proof.
  intros W. unfold BuilderSpec.read_hop. destruct (dec a b) as [<-|n].
  - rewrite (@vhop_irr site dec Sy C conj F h a W). unfold BuilderModel.getitem. cbn [validate_hopping].
    destruct (dec a a); [reflexivity|congruence].
  - pose proof (@getitem_hop site dec Sy L C conj F h a b W n) as H.
    destruct (vhop h a b); [rewrite H; reflexivity|].
    destruct H as (e & H & _). rewrite H. reflexivity.
Qed.

Lemma contains_site h s : contains h (KSite s) = inl (mem (to_fd s) h).
Proof. reflexivity. Qed.

Lemma mem_read h s : mem (to_fd s) h = true <-> read_site h s <> None.
Proof.
  rewrite read_site_ons, (@mem_ons site dec C F). destruct (ons h (to_fd s)); split; congruence.
Qed.

Lemma hc_hconj v : hc v = hconj v.
Proof. reflexivity. Qed.

(** C01 *)
Lemma main_C01 h : (forall c, conj (conj c) = c) -> reachable h ->
  forall a b, read_hop h b a = option_map hconj (read_hop h a b).
Proof.
  intros I R a b. apply reach_WF in R. rewrite !read_hop_vhop by auto.
  apply (@vhop_herm site dec Sy L C conj F); auto.
Qed.

(** one-key operations *)
Lemma setitem_simple h k v :
  setitem h (Simple _ _ k) v = set_op dec Sy v (kind_of k) h k.
Proof.
  unfold BuilderModel.setitem. cbn [run_key run1].
  destruct (BuilderModel.set_op dec Sy v (kind_of k) h k). reflexivity.
Qed.
Lemma delitem_simple h k :
  delitem h (Simple _ _ k) = del_op dec Sy (kind_of k) h k.
Proof.
  unfold BuilderModel.delitem. cbn [run_key run1].
  destruct (BuilderModel.del_op dec Sy (kind_of k) h k). reflexivity.
Qed.

Lemma self_hop_err h a v : set_hopping h (KHop a a) v = (h, Some (EValue _)).
Proof. unfold BuilderModel.set_hopping. simpl. destruct (dec a a); congruence. Qed.
Lemma self_hop_derr h a : del_hopping dec Sy (F:=F) (C:=C) h (KHop a a) = (h, Some (EValue _)).
Proof. unfold BuilderModel.del_hopping. simpl. destruct (dec a a); congruence. Qed.

Notation exec1 := (@exec1 site dec Sy C F).
Notation abs := (@abs site dec Sy C conj F).
Notation spec_step := (@spec_step site Sy C conj F).

Lemma abs_site h s : asite (abs h) s = ons h (to_fd s).
Proof. apply read_site_ons. Qed.
Lemma abs_hop h a b : WF h -> ahop (abs h) a b = vhop h a b.
Proof. apply read_hop_vhop. Qed.

Ltac eqb_cases :=
  repeat match goal with
  | |- context [BuilderModel.eqb dec ?a ?b] =>
      unfold BuilderModel.eqb at 1; destruct (dec a b)
  | H : context [BuilderModel.eqb dec ?a ?b] |- _ =>
      unfold BuilderModel.eqb at 1 in H; destruct (dec a b)
  end.

Lemma step_WF h o : WF h -> WF (fst (exec1 h o)).
Proof.
  destruct o; intros W; apply setitem_WF || apply delitem_WF; auto.
Qed.

Lemma main_step h o : WF h ->
  spec_step (abs h) o (is_ok (snd (exec1 h o))) (abs (fst (exec1 h o))).
Proof.
  intros W. pose proof (step_WF o W) as W'. destruct o as [s v|a b v|s|a b]; unfold BuilderSpec.exec1 in *.
  - rewrite setitem_simple in *. cbn [set_op kind_of] in *.
    destruct (@set_site_spec site dec Sy L C F h s v W)
      as (h' & E & Hm & Ho & He & _). rewrite E in *. cbn [fst snd is_ok] in *.
    split; [exact I|]. cbn [effect]. do 2 (split; [intros t; rewrite same_site_fd, !abs_site, Ho; intros Ht; eqb_cases; congruence|]).
    intros x y. rewrite !abs_hop by auto. apply vhop_eq; unfold BuilderInv.Eg; apply He.
  - rewrite setitem_simple in *. cbn [set_op kind_of] in *.
    destruct (dec a b) as [<-|n].
    + rewrite self_hop_err in *. cbn [fst snd is_ok]. split; [cbn; tauto|]. auto.
    + destruct (@set_hopping_spec site dec Sy L C F h a b v W n) as [Hok Herr].
      destruct (mem (to_fd a) h) eqn:Ma; [destruct (mem (to_fd b) h) eqn:Mb|].
      * destruct (Hok eq_refl eq_refl) as (h' & E & Hk & Ho & He & _). rewrite E in *.
        cbn [fst snd is_ok] in *. split.
        { cbn [enabled]. split; [auto|]. split; apply mem_read; auto. }
        cbn [effect].
        pose proof (@vhop_set site dec Sy L C conj F h h' a b v n He) as Hv.
        split; [intros t; rewrite !abs_site; apply Ho|].
        pose proof (to_fd2_flip L n) as Hf.
        do 2 (split; [intros x y; rewrite same_hop_fd, abs_hop, Hv by auto; intros Hxy;
          repeat (destruct (pdec _ _)); (exact eq_refl || congruence)|]).
        intros x y. rewrite !same_hop_fd, !abs_hop, Hv by auto. intros Hxy Hyx.
        repeat (destruct (pdec _ _)); congruence.
      * destruct (Herr (or_intror eq_refl)) as (e & E & _). rewrite E. cbn [fst snd is_ok].
        split; [|auto]. cbn [enabled]. intros (_ & _ & H). apply mem_read in H. congruence.
      * destruct (Herr (or_introl eq_refl)) as (e & E & _). rewrite E. cbn [fst snd is_ok].
        split; [|auto]. cbn [enabled]. intros (_ & H & _). apply mem_read in H. congruence.
  - rewrite delitem_simple in *. cbn [del_op kind_of] in *.
    destruct (@del_site_spec site dec Sy L C F h s W) as [Hok Herr].
    destruct (mem (to_fd s) h) eqn:Ms.
    + destruct (Hok eq_refl) as (h' & E & Hm & Ho & He & _). rewrite E in *.
      cbn [fst snd is_ok] in *. split; [cbn; apply mem_read; auto|]. cbn [effect].
      do 2 (split; [intros t; rewrite same_site_fd, !abs_site, Ho; intros Ht; eqb_cases; congruence|]).
      split.
      * intros x y. rewrite !same_site_fd, abs_hop by auto. intros H.
        assert (X : Eg h' x y = None).
        { rewrite He. eqb_cases; cbn; auto. destruct H; congruence. }
        unfold BuilderInv.vhop. rewrite X. reflexivity.
      * intros x y. rewrite !same_site_fd, !abs_hop by auto. intros Hx Hy.
        apply vhop_eq; rewrite He; eqb_cases; cbn; congruence.
    + rewrite (Herr eq_refl). cbn [fst snd is_ok]. split; [|auto].
      cbn [enabled]. intros H. apply mem_read in H. congruence.
  - rewrite delitem_simple in *. cbn [del_op kind_of] in *.
    destruct (dec a b) as [<-|n].
    + rewrite self_hop_derr in *. cbn [fst snd is_ok]. split; [cbn; tauto|]. auto.
    + destruct (@del_hopping_spec site dec Sy L C F h a b W n) as [Hok Herr].
      assert (Hv := @vhop_some_iff site dec Sy L C conj F h a b W).
      destruct (Eg h a b) as [w|] eqn:Eab.
      * destruct (Hok ltac:(discriminate)) as (h' & E & Hk & Ho & He & _). rewrite E in *.
        cbn [fst snd is_ok] in *. split.
        { cbn [enabled]. split; [auto|]. rewrite abs_hop by auto. apply Hv. discriminate. }
        cbn [effect]. pose proof (@vhop_del site dec Sy L C conj F h h' a b He) as Hd.
        split; [intros t; rewrite !abs_site; apply Ho|].
        split; [intros x y; rewrite !same_hop_fd, abs_hop, Hd by auto; intros Hxy;
          repeat (destruct (pdec _ _)); try congruence; tauto|].
        intros x y. rewrite !same_hop_fd, !abs_hop, Hd by auto. intros Hxy Hyx.
        repeat (destruct (pdec _ _)); congruence.
      * destruct (Herr eq_refl) as (e & E & _). rewrite E. cbn [fst snd is_ok].
        split; [|auto]. cbn [enabled]. rewrite abs_hop by auto. intros [_ H].
        apply Hv in H. congruence.
Qed.

Notation exec := (@exec site dec Sy C F).
Notation spec_run := (@spec_run site Sy C conj F).

Lemma exec_run os : forall h, WF h -> spec_run (abs h) (snd (exec h os)) (abs (fst (exec h os))).
Proof.
  induction os as [|o os IH]; intros h W; cbn [BuilderSpec.exec].
  - constructor.
  - pose proof (main_step o W) as Hs. pose proof (step_WF o W) as W'.
    destruct (exec1 h o) as [h' e]. cbn [fst snd] in *.
    specialize (IH h' W'). destruct (exec h' os) as [h'' tr]. cbn [fst snd] in *.
    econstructor; eauto.
Qed.

(** the specification machine is deterministic *)
Definition map_eq (m m' : amap site C F) :=
  (forall s, asite m s = asite m' s) /\ (forall a b, ahop m a b = ahop m' a b).

(** C03 *)
Lemma main_C03_site h g s : getitem h (KSite (act Sy g s)) = getitem h (KSite s).
Proof. unfold BuilderModel.getitem. rewrite (to_fd_act L). reflexivity. Qed.
Lemma main_C03_hop h g a b :
  getitem h (KHop (act Sy g a) (act Sy g b)) = getitem h (KHop a b).
Proof.
  unfold BuilderModel.getitem. cbn [validate_hopping].
  destruct (dec a b) as [<-|n].
  - destruct (dec (act Sy g a) (act Sy g a)); congruence.
  - destruct (dec (act Sy g a) (act Sy g b)) as [E|_]; [apply (act_inj L) in E; congruence|].
    rewrite (to_fd2_act L). reflexivity.
Qed.
Lemma main_C03_csite h g s : contains h (KSite (act Sy g s)) = contains h (KSite s).
Proof. unfold BuilderModel.contains. rewrite (to_fd_act L). reflexivity. Qed.
Lemma main_C03_chop h g a b :
  contains h (KHop (act Sy g a) (act Sy g b)) = contains h (KHop a b).
Proof.
  unfold BuilderModel.contains. cbn [validate_hopping].
  destruct (dec a b) as [<-|n].
  - destruct (dec (act Sy g a) (act Sy g a)); congruence.
  - destruct (dec (act Sy g a) (act Sy g b)) as [E|_]; [apply (act_inj L) in E; congruence|].
    rewrite (to_fd2_act L). reflexivity.
Qed.
Lemma main_C03_deg h g s : degree h (act Sy g s) = degree h s.
Proof. unfold BuilderModel.degree. rewrite (to_fd_act L). reflexivity. Qed.
Lemma main_C03_nb h g s : reachable h ->
  match neighbors h s with
  | inl l => exists l', neighbors h (act Sy g s) = inl l' /\ l' = map (act Sy g) l
  | inr e => neighbors h (act Sy g s) = inr e
  end.
Proof.
  intros _. unfold BuilderModel.neighbors.
  assert (E : act Sy (eneg Sy (which Sy (act Sy g s))) (act Sy g s) =
              act Sy (eneg Sy (which Sy s)) s) by apply (to_fd_act L g s).
  rewrite E. destruct (lookup _ h); [|reflexivity].
  eexists. split; [reflexivity|]. rewrite map_map. apply map_ext. intros p.
  rewrite (law_which L), (law_act L). reflexivity.
Qed.

(** C04 *)
Lemma main_C04_set h k v h' e : reachable h ->
  setitem h (Simple _ _ k) v = (h', Some e) -> h' = h.
Proof.
  intros R. apply reach_WF in R. rewrite setitem_simple. destruct k as [s|a b| |]; cbn [set_op kind_of].
  - destruct (@set_site_spec site dec Sy L C F h s v R) as (h1 & E & _). rewrite E. congruence.
  - destruct (dec a b) as [<-|n]; [rewrite self_hop_err; congruence|].
    destruct (@set_hopping_spec site dec Sy L C F h a b v R n) as [Hok Herr].
    destruct (mem (to_fd a) h) eqn:Ma; [destruct (mem (to_fd b) h) eqn:Mb|].
    + destruct (Hok eq_refl eq_refl) as (h1 & E & _). rewrite E. congruence.
    + destruct (Herr (or_intror eq_refl)) as (e1 & E & _). rewrite E. congruence.
    + destruct (Herr (or_introl eq_refl)) as (e1 & E & _). rewrite E. congruence.
  - cbn. congruence.
  - cbn. congruence.
Qed.
Lemma main_C04_del h k h' e : reachable h ->
  delitem h (Simple _ _ k) = (h', Some e) -> h' = h.
Proof.
  intros R. apply reach_WF in R. rewrite delitem_simple. destruct k as [s|a b| |]; cbn [del_op kind_of].
  - destruct (@del_site_spec site dec Sy L C F h s R) as [Hok Herr].
    destruct (mem (to_fd s) h).
    + destruct (Hok eq_refl) as (h1 & E & _). rewrite E. congruence.
    + rewrite (Herr eq_refl). congruence.
  - destruct (dec a b) as [<-|n]; [rewrite self_hop_derr; congruence|].
    destruct (@del_hopping_spec site dec Sy L C F h a b R n) as [Hok Herr].
    destruct (Eg h a b).
    + destruct (Hok ltac:(discriminate)) as (h1 & E & _). rewrite E. congruence.
    + destruct (Herr eq_refl) as (e1 & E & _). rewrite E. congruence.
  - cbn. congruence.
  - cbn. congruence.
Qed.

(** Which exceptions one-key operations raise. *)
Lemma main_set_errors h a b v e : reachable h ->
  snd (setitem h (Simple _ _ (KHop a b)) v) = Some e ->
  (a = b /\ e = EValue _) \/
  (a <> b /\ exists s, e = EKeySite s /\ read_site h s = None /\ (same_site a s \/ same_site b s)).
Proof.
  intros R. pose proof (reach_WF R) as W. rewrite setitem_simple; cbn [set_op kind_of].
  destruct (dec a b) as [<-|n]; [rewrite self_hop_err; cbn; intros [= <-]; auto|].
  destruct (@set_hopping_spec site dec Sy L C F h a b v W n) as [Hok Herr].
  destruct (mem (to_fd a) h && mem (to_fd b) h)%bool eqn:M.
  - apply andb_true_iff in M. destruct (Hok (proj1 M) (proj2 M)) as (h1 & E & _).
    rewrite E. discriminate.
  - apply andb_false_iff in M. destruct (Herr M) as (e1 & E & He). rewrite E. cbn.
    intros [= <-]. right. split; [auto|].
    destruct He as [[Hm ->]|[Hm He]].
    + exists (to_fd a). split; [reflexivity|].
      assert (X : to_fd (to_fd a) = to_fd a) by (apply (to_fd_id L), (in_fd_to_fd L)).
      rewrite read_site_ons, !same_site_fd, X. split; [|auto].
      rewrite (@mem_ons site dec C F) in Hm. destruct (ons h (to_fd a)); congruence.
    + exists (snd (to_fd2 a b)). split; [exact He|].
      assert (X : to_fd (snd (to_fd2 a b)) = to_fd b) by (unfold BuilderModel.to_fd2; cbn [snd]; apply (to_fd_act L)).
      rewrite read_site_ons, !same_site_fd, X. split; [|auto].
      rewrite (@mem_ons site dec C F) in Hm. destruct (ons h (to_fd b)); congruence.
Qed.

(** C07 *)
Lemma main_C07_site h s : contains h (KSite s) = inl true <-> read_site h s <> None.
Proof. rewrite contains_site, <- mem_read. split; congruence. Qed.
Lemma contains_hop_Eg h a b : reachable h ->
  contains h (KHop a b) = inl true <-> Eg h a b <> None.
Proof.
  intros R. pose proof (reach_WF R) as W. destruct (dec a b) as [<-|n].
  - rewrite (@WF_irr site dec Sy C F h a W). cbn.
    destruct (dec a a); [|congruence]. split; congruence.
  - rewrite (@contains_hop site dec Sy C F h a b n). destruct (Eg h a b); split; congruence.
Qed.
Lemma main_C07_hop h a b : reachable h ->
  contains h (KHop a b) = inl true <-> read_hop h a b <> None.
Proof.
  intros R. rewrite contains_hop_Eg by auto. pose proof (reach_WF R) as W.
  rewrite read_hop_vhop by auto. symmetry. apply (@vhop_some_iff site dec Sy L C conj F); auto.
Qed.
Lemma main_C07_total h a b : a <> b -> exists r, contains h (KHop a b) = inl r.
Proof. intros n. rewrite (@contains_hop site dec Sy C F h a b n). eauto. Qed.
Lemma main_C07_sym h a b : reachable h -> contains h (KHop a b) = contains h (KHop b a).
Proof.
  intros R. pose proof (reach_WF R) as W. destruct (dec a b) as [<-|n]; [reflexivity|].
  rewrite !(@contains_hop site dec Sy C F) by auto.
  destruct (Eg h a b) eqn:E1, (Eg h b a) eqn:E2; auto.
  - destruct (@WF_Eg_pair site dec Sy L C F h a b s W E1) as (v' & E & _). congruence.
  - pose proof (@WF_Eg_None site dec Sy L C F h a b W E1). congruence.
Qed.
Lemma main_C07_ends h a b : reachable h -> contains h (KHop a b) = inl true ->
  contains h (KSite a) = inl true /\ contains h (KSite b) = inl true.
Proof.
  intros R. rewrite contains_hop_Eg by auto. pose proof (reach_WF R) as W. intros H.
  destruct (Eg h a b) as [v|] eqn:E; [|congruence].
  destruct (@WF_Eg_mem site dec Sy L C F h a b v W E) as [Ma Mb].
  rewrite !contains_site, Ma, Mb. auto.
Qed.
End Main.
