(** * C13, proved from FillProofs. *)
From Coq Require Import List Bool Arith Lia Permutation.
From Verif Require Import BuilderModel BuilderProofs BuilderInv BuilderReach BuilderSpec BuilderMain
  FillModel FillProofs FillSpec.
Import ListNotations.
Set Implicit Arguments.

Section FM.
Variable site : Type.
Variable dec : forall a b : site, {a = b} + {a <> b}.
Variables Sy ST : Symmetry site.
Hypothesis L : SymLaws Sy.
Hypothesis LT : SymLaws ST.
Variables C F : Type.
Variable conj : C -> C.
Variable VNone : val C F.
Variable shape : site -> option bool.
Variable order : nat -> list site -> list site.
Variable phi : elt Sy -> elt ST.
Hypothesis Hphi : forall g s, act Sy g s = act ST (phi g) s.
Hypothesis Hord : forall k l, Permutation (order k l) l.
Notation mem := (mem dec).
Notation store := (store site C F).
Variables T h : store.
Hypothesis RT : reachable dec ST T.
Hypothesis Rh : reachable dec Sy h.
Variable start : list site.
Notation fill := (@fill site dec Sy ST C F VNone shape order).
Notation Reach := (@Reach site dec Sy ST C F shape T h start).
Notation filled := (@filled site dec Sy ST C F shape T h start).
Notation read_site Sy := (@read_site site dec Sy C conj F).
Notation read_hop Sy := (@read_hop site dec Sy C conj F).

Let WT := reach_WF LT RT.
Let W0 := reach_WF L Rh.

Lemma cont_T a b : contains dec ST T (KHop a b) = inl true <-> @Eg site dec ST C F T a b <> None.
Proof. apply (contains_hop_Eg LT). exact RT. Qed.

Lemma absent_mem s : contains dec Sy h (KSite s) = inl false <-> mem (to_fd Sy s) h = false.
Proof. cbn. split; [intros [= H]; exact H|intros ->; reflexivity]. Qed.
Lemma pres_mem s : contains dec ST T (KSite s) = inl true <-> mem (to_fd ST s) T = true.
Proof. cbn. split; [intros [= H]; exact H|intros ->; reflexivity]. Qed.

Lemma filled_Reach t : filled t <-> Reach t.
Proof.
  split.
  - induction 1 as [s H1 H2 H3 H4|s t H1 IH H2 H3 H4].
    + apply R_start; auto; [apply pres_mem|apply absent_mem]; auto.
    + eapply R_step; eauto; [apply cont_T|apply absent_mem]; auto.
  - induction 1 as [s H1 H2 H3 H4|s t H1 IH H2 H3 H4].
    + apply f_start; auto; [apply pres_mem|apply absent_mem]; auto.
    + eapply f_step; eauto; [apply cont_T|apply absent_mem]; auto.
Qed.

Lemma raises_iff : shape_raises dec Sy ST shape T h start <->
  @Raises site dec Sy ST C F shape T h start.
Proof.
  split.
  - intros (t & H1 & H2 & [[H3 H4]|(s & H3 & H4)]).
    + left. exists t. rewrite <- pres_mem, <- absent_mem. auto.
    + right. exists s, t. rewrite <- cont_T, <- absent_mem, <- filled_Reach. auto.
  - intros [(s & H1 & H2 & H3 & H4)|(s & t & H1 & H2 & H3 & H4)].
    + exists s. rewrite <- pres_mem in H2. rewrite <- absent_mem in H3. auto.
    + exists t. rewrite <- cont_T in H2. rewrite <- absent_mem in H3. rewrite <- filled_Reach in H1.
      split; [auto|]. split; [auto|]. right. eauto.
Qed.

Lemma more_iff m : more_filled_than dec Sy ST shape T h start m <->
  @too_many site dec Sy ST C F shape T h start m.
Proof.
  split; intros (l & H1 & H2 & H3); exists l; (split; [auto|]); (split; [|auto]); intros t Ht;
    apply filled_Reach; auto.
Qed.

Notation spec fuel mx := (@fill_spec site dec Sy ST L LT C F VNone shape order phi Hphi Hord T h WT W0 start fuel mx).
Lemma read_none s (g : store) : read_site Sy g s = None <-> mem (to_fd Sy s) g = false.
Proof.
  rewrite (@read_site_ons site dec Sy C conj F). rewrite (@mem_ons site dec C F).
  destruct (ons dec g (to_fd Sy s)); split; congruence.
Qed.

Lemma main_C13 fuel mx h' done : fill fuel T h start mx = (h', inl done) ->
  NoDup done /\ (forall t, In t done <-> filled t) /\
  (forall m, mx = Some m -> length done <= m) /\
  (forall s, read_site Sy h s <> None -> read_site Sy h' s = read_site Sy h s) /\
  (forall s t, filled t -> same_site Sy t s ->
     read_site Sy h s = None /\ read_site Sy h' s = read_site ST T s /\ read_site Sy h' s <> None) /\
  (forall s, read_site Sy h s = None -> (forall t, filled t -> ~ same_site Sy t s) ->
     read_site Sy h' s = None) /\
  (forall a b, read_site Sy h a <> None -> read_site Sy h b <> None ->
     read_hop Sy h' a b = read_hop Sy h a b) /\
  (forall a b, read_site Sy h' a <> None -> read_site Sy h' b <> None ->
     read_site Sy h a = None \/ read_site Sy h b = None ->
     read_hop Sy h' a b = read_hop ST T a b).
Proof.
  intros E.
  destruct (spec fuel mx) as [[_ H]|[(m & _ & _ & H & _)|[[H _]|[[H _]|(h1 & d1 & H & OK)]]]];
    rewrite H in E; try discriminate. injection E as -> ->.
  destruct OK as (W' & ND & Hex & Hnr & Hd & Hm & Ho & He).
  assert (Hd' : forall t, In t done <-> filled t) by (intros t; rewrite filled_Reach; apply Hd).
  split; [exact ND|]. split; [exact Hd'|]. split.
  { intros m ->. cbn in Hex. apply Nat.ltb_ge in Hex. exact Hex. }
  assert (Hrs : forall s, read_site Sy h' s = if mem (to_fd Sy s) h then read_site Sy h s
     else if inb dec (to_fd Sy s) done then read_site ST T s else None).
  { intros s. rewrite !(@read_site_ons site dec _ C conj F), Ho.
    rewrite (@fdT_fd site Sy ST LT phi Hphi). reflexivity. }
  assert (Hfd : forall t s, filled t -> same_site Sy t s -> to_fd Sy s = t /\ mem t h = false).
  { intros t s Ft Hs. apply (same_site_fd L) in Hs. rewrite Hs.
    inversion Ft; subst; rewrite (to_fd_id L) by apply (in_fd_to_fd L); (split; [reflexivity|apply absent_mem; auto]). }
  split.
  { intros s Hs. rewrite Hrs. destruct (mem (to_fd Sy s) h) eqn:E; auto.
    apply read_none in E. contradiction. }
  split.
  { intros s t Ft Hs. destruct (Hfd t s Ft Hs) as [Et Em]. split.
    - apply read_none. congruence.
    - assert (Er : read_site Sy h' s = read_site ST T s).
      { rewrite Hrs, Et, Em. apply Hd' in Ft. apply (inb_in dec) in Ft. rewrite Ft. reflexivity. }
      split; [exact Er|]. intros Hn. apply read_none in Hn. rewrite Hm, Et in Hn.
      apply Hd' in Ft. apply (inb_in dec) in Ft. rewrite Ft, orb_true_r in Hn. discriminate. }
  split.
  { intros s Hs Hf. rewrite Hrs. apply read_none in Hs. rewrite Hs.
    destruct (inb dec (to_fd Sy s) done) eqn:E; [|reflexivity].
    apply inb_in in E. apply Hd' in E. exfalso. apply (Hf _ E).
    apply (same_site_fd L). symmetry. apply (to_fd_id L). apply (in_fd_to_fd L). }
  assert (Hv : forall a b,
     vhop dec Sy conj h' a b = if (mem (to_fd Sy a) h && mem (to_fd Sy b) h)%bool then vhop dec Sy conj h a b
       else if (mem (to_fd Sy a) h' && mem (to_fd Sy b) h')%bool then vhop dec ST conj T a b else None).
  { intros a b. unfold vhop. rewrite !He. rewrite (andb_comm (mem (to_fd Sy b) h)), (andb_comm (mem (to_fd Sy b) h')).
    destruct (_ && _)%bool; [reflexivity|]. destruct (_ && _)%bool; reflexivity. }
  assert (Hrh : forall a b, read_hop Sy h' a b = vhop dec Sy conj h' a b) by (intros; apply (read_hop_vhop L); auto).
  assert (Hrh0 : forall a b, read_hop Sy h a b = vhop dec Sy conj h a b) by (intros; apply (read_hop_vhop L); auto).
  assert (HrhT : forall a b, read_hop ST T a b = vhop dec ST conj T a b) by (intros; apply (read_hop_vhop LT); auto).
  assert (Hp : forall (g : store) s, read_site Sy g s <> None -> mem (to_fd Sy s) g = true).
  { intros g s Hs. rewrite read_none in Hs. destruct (mem _ g); congruence. }
  split.
  - intros a b Ha Hb. rewrite Hrh, Hrh0, Hv, (Hp _ _ Ha), (Hp _ _ Hb). reflexivity.
  - intros a b Ha Hb Hn. rewrite Hrh, HrhT, Hv, (Hp _ _ Ha), (Hp _ _ Hb).
    replace (mem (to_fd Sy a) h && mem (to_fd Sy b) h)%bool with false; [reflexivity|].
    rewrite !read_none in Hn. destruct Hn as [-> | ->]; [reflexivity|]. rewrite andb_false_r. reflexivity.
Qed.

Lemma main_C13_errors fuel mx h' e : fill fuel T h start mx = (h', inr e) ->
  (mx = Some 0 /\ h' = h /\ e = EValue _) \/
  (h' = [] /\
   ((e = ERuntime _ /\ exists m, mx = Some m /\ more_filled_than dec Sy ST shape T h start m) \/
    (e = EUser _ /\ shape_raises dec Sy ST shape T h start) \/
    (e = EFuel _ /\ more_filled_than dec Sy ST shape T h start fuel /\ forall m, mx = Some m -> fuel <= m))).
Proof.
  intros E.
  destruct (spec fuel mx) as [[H1 H]|[(m & H1 & H2 & H & H3)|[[H H1]|[(H & H1 & H2)|(h1 & d1 & H & OK)]]]];
    rewrite H in E; try discriminate; injection E as <- <-.
  - left. auto.
  - right. split; [auto|]. left. split; [auto|]. exists m. rewrite more_iff. auto.
  - right. split; [auto|]. right. left. rewrite raises_iff. auto.
  - right. split; [auto|]. right. right. rewrite more_iff. split; [auto|]. split; [auto|].
    intros m ->. cbn in H2. apply Nat.ltb_ge in H2. auto.
Qed.

Lemma main_C13_complete fuel m l : 0 < m -> m < fuel ->
  (forall t, filled t -> In t l) -> length l <= m ->
  ~ shape_raises dec Sy ST shape T h start ->
  exists h' done, fill fuel T h start (Some m) = (h', inl done).
Proof.
  intros Hm Hf Hl Hlen Hr.
  assert (Hno : forall k, m <= k -> ~ @too_many site dec Sy ST C F shape T h start k).
  { intros k Hk (l' & N & H1 & H2). assert (length l' <= length l).
    { apply NoDup_incl_length; auto. intros t Ht. apply Hl. apply filled_Reach. auto. }
    lia. }
  destruct (spec fuel (Some m)) as [[H1 H]|[(m' & H1 & H2 & H & H3)|[[H H1]|[(H & H1 & H2)|(h1 & d1 & H & OK)]]]].
  - injection H1 as ->. lia.
  - injection H1 as <-. destruct (Hno m); auto.
  - rewrite <- raises_iff in H1. contradiction.
  - destruct (Hno fuel); auto. lia.
  - eauto.
Qed.

Lemma main_C13_noraise fuel mx h' done : fill fuel T h start mx = (h', inl done) ->
  ~ shape_raises dec Sy ST shape T h start.
Proof.
  intros E.
  destruct (spec fuel mx) as [[_ H]|[(m & _ & _ & H & _)|[[H _]|[[H _]|(h1 & d1 & H & OK)]]]];
    rewrite H in E; try discriminate. rewrite raises_iff. apply OK.
Qed.
End FM.
