(** * fill() computes the flood-fill closure: proofs. *)
From Coq Require Import List Bool Arith Lia Permutation.
From Verif Require Import BuilderModel BuilderProofs BuilderInv BuilderReach FillModel.
Import ListNotations.
Set Implicit Arguments.

Section FP.
Variable site : Type.
Variable dec : forall a b : site, {a = b} + {a <> b}.
Variables Sy ST : Symmetry site.
Hypothesis L : SymLaws Sy.
Hypothesis LT : SymLaws ST.
Variables C F : Type.
Variable VNone : val C F.
Variable shape : site -> option bool.
Variable order : nat -> list site -> list site.
(** the symmetry of the target is a subgroup of that of the template *)
Variable phi : elt Sy -> elt ST.
Hypothesis Hphi : forall g s, act Sy g s = act ST (phi g) s.
Hypothesis Hord : forall k l, Permutation (order k l) l.

Notation lookup := (lookup dec).
Notation mem := (mem dec).
Notation assign := (assign dec).
Notation eqb := (eqb dec).
Notation inb := (inb dec).
Notation fd := (to_fd Sy).
Notation fdT := (to_fd ST).
Notation to_fd2 := (to_fd2 Sy).
Notation in_fd := (in_fd Sy).
Notation store := (store site C F).
Notation val := (val C F).
Notation sval := (sval C F).
Notation node := (node site C F).
Notation edge := (@edge site dec C F).
Notation ons := (@ons site dec C F).
Notation WF := (@WF site dec Sy C F).
Notation fill_head := (@fill_head site dec Sy ST C F VNone shape).
Notation fill_tail := (@fill_tail site dec Sy ST C F VNone shape).
Notation fill_loop := (@fill_loop site dec Sy ST C F VNone shape order).
Notation fill := (@fill site dec Sy ST C F VNone shape order).

Variables T H0 : store.
Hypothesis WT : @BuilderInv.WF site dec ST C F T.
Hypothesis W0 : WF H0.
Notation Te := (@Eg site dec ST C F T).
Notation E0 := (@Eg site dec Sy C F H0).
Variable start : list site.

Inductive Reach : site -> Prop :=
  | R_start s : In s start -> mem (fdT s) T = true -> mem (fd s) H0 = false ->
      shape (fd s) = Some true -> Reach (fd s)
  | R_step s t : Reach s -> Te s t <> None -> mem (fd t) H0 = false ->
      shape (fd t) = Some true -> Reach (fd t).

(** the shape function raises on some site that the fill has to examine *)
Definition Raises : Prop :=
  (exists s, In s start /\ mem (fdT s) T = true /\ mem (fd s) H0 = false /\ shape (fd s) = None) \/
  (exists s t, Reach s /\ Te s t <> None /\ mem (fd t) H0 = false /\ shape (fd t) = None).

Lemma Reach_shape t : Reach t -> shape t = Some true.
Proof. induction 1; auto. Qed.

Lemma Te_act g a b : Te (act Sy g a) (act Sy g b) = Te a b.
Proof. rewrite !Hphi. apply (@Eg_act site dec ST LT C F). Qed.
Lemma fdT_act g a : fdT (act Sy g a) = fdT a.
Proof. rewrite Hphi. apply (to_fd_act LT). Qed.
Lemma fdT_fd a : fdT (fd a) = fdT a.
Proof. unfold to_fd at 2. apply fdT_act. Qed.
Lemma Te_norm a b : Te (fst (to_fd2 a b)) (snd (to_fd2 a b)) = Te a b.
Proof. unfold BuilderModel.to_fd2. cbn [fst snd]. apply Te_act. Qed.
Lemma Te_swap_norm a b : Te (snd (to_fd2 a b)) (fst (to_fd2 a b)) = Te b a.
Proof. unfold BuilderModel.to_fd2. cbn [fst snd]. apply Te_act. Qed.
Lemma Te_none a b : Te a b = None -> Te b a = None.
Proof. apply (@WF_Eg_None site dec ST LT C F); auto. Qed.

Lemma inb_in s l : inb s l = true <-> In s l.
Proof.
  unfold FillModel.inb. rewrite existsb_exists. split.
  - intros (x & Hx & E). apply eqb_true in E. subst. auto.
  - intros H. exists s. split; auto. apply eqb_refl.
Qed.
Lemma inb_app s l l' : inb s (l ++ l') = (inb s l || inb s l')%bool.
Proof. apply existsb_app. Qed.

Record INV (h : store) (pd : site -> site -> bool) (od : site -> bool) : Prop := mkINV {
  i_nodup : NoDup (map fst h);
  i_fd    : forall t, mem t h = true -> in_fd t = true;
  i_heads : forall t nd, lookup t h = Some nd -> NoDup (map fst (outs nd));
  i_old   : forall t, mem t H0 = true -> mem t h = true;
  i_pd    : forall t x, pd t x = true -> mem t h = true /\ mem t H0 = false;
  i_T     : forall t, mem t h = true -> mem t H0 = false -> mem (fdT t) T = true;
  i_clo   : forall t x, pd t x = true -> Te t x <> None ->
              mem (fd x) h = true \/ shape (fd x) = Some false;
  i_new   : forall t x, mem t h = true -> mem t H0 = false ->
              edge h t x = if (pd t x && mem (fd x) h)%bool then Te t x else None;
  i_olde  : forall t x, mem t H0 = true ->
              edge h t x = if mem (fd x) H0 then edge H0 t x
                           else if pd (fst (to_fd2 x t)) (snd (to_fd2 x t)) then Te t x else None;
  i_ons   : forall t, ons h t = if mem t H0 then ons H0 t
                                else if mem t h then (if od t then ons T (fdT t) else Some VNone)
                                else None;
  i_reach : forall t, mem t h = true -> mem t H0 = false -> Reach t }.

Lemma INV_ext h pd pd' od od' : INV h pd od ->
  (forall t x, pd t x = pd' t x) -> (forall t, od t = od' t) -> INV h pd' od'.
Proof.
  intros I E Eo. destruct I. split; auto; intros; rewrite <- ?E, <- ?Eo in *; eauto.
Qed.

Lemma edge_node h t nd o l s y : lookup t h = Some nd ->
  edge (assign t (mkNode o l) h) s y = if eqb s t then lookup y l else edge h s y.
Proof.
  intros _. unfold BuilderInv.edge. rewrite lookup_assign. destruct (eqb s t); reflexivity.
Qed.
Lemma ons_node h t nd o l s : lookup t h = Some nd ->
  ons (assign t (mkNode o l) h) s = if eqb s t then Some o else ons h s.
Proof.
  intros _. unfold BuilderInv.ons. rewrite lookup_assign. destruct (eqb s t); reflexivity.
Qed.
Lemma lookup_app_new A (l : list (site * A)) q v y : lookup q l = None ->
  lookup y (l ++ [(q, v)]) = if eqb y q then Some v else lookup y l.
Proof.
  intros H. rewrite <- (keys_assign_new dec l q v) by (apply mem_false; auto).
  apply lookup_assign.
Qed.
Lemma lookup_mem A (l : list (site * A)) t nd : lookup t l = Some nd -> mem t l = true.
Proof. intros H. apply mem_lookup. eauto. Qed.

(** ** Writing one edge of a new site. *)
Definition addpd (pd : site -> site -> bool) a b t x := (pd t x || (eqb t a && eqb x b))%bool.

Lemma eqbP a b : reflect (a = b) (eqb a b).
Proof. unfold BuilderModel.eqb. destruct (dec a b); constructor; auto. Qed.

(** effect of [fill_write] *)
Lemma write_spec h oh tau q v nd : lookup tau h = Some nd -> NoDup (map fst (outs nd)) ->
  lookup q (outs nd) = None ->
  exists h', fill_write dec oh tau q v h = inl h' /\
    map fst h' = map fst h /\
    (forall t, ons h' t = ons h t) /\
    (forall t x, edge h' t x = if (eqb t tau && eqb x q)%bool then Some v else edge h t x) /\
    (forall t nd', lookup t h' = Some nd' -> lookup t h = Some nd' \/ NoDup (map fst (outs nd'))).
Proof.
  intros Hl ND Hq. unfold fill_write. rewrite Hl. eexists. split; [reflexivity|].
  assert (Hm : mem tau h = true) by (eapply lookup_mem; eauto).
  split; [apply keys_assign_mem; auto|].
  assert (Hlk : forall y, lookup y (if inb q oh then assign q v (outs nd) else outs nd ++ [(q, v)])
                = if eqb y q then Some v else lookup y (outs nd)).
  { intros y. destruct (inb q oh); [apply lookup_assign|apply lookup_app_new; auto]. }
  split; [|split].
  - intros t. rewrite (@ons_node h tau nd) by auto. destruct (eqbP t tau); [|reflexivity].
    subst. unfold BuilderInv.ons. rewrite Hl. reflexivity.
  - intros t x. rewrite (@edge_node h tau nd) by auto. rewrite Hlk.
    destruct (eqbP t tau); [|reflexivity]. subst. cbn. destruct (eqb x q); [reflexivity|].
    unfold BuilderInv.edge. rewrite Hl. reflexivity.
  - intros t nd'. rewrite lookup_assign. destruct (eqb t tau); [|auto].
    intros [= <-]. right. cbn [outs]. destruct (inb q oh).
    + apply NoDup_assign. auto.
    + rewrite map_app. cbn. rewrite <- (keys_assign_new dec (outs nd) q v) in *
        by (apply mem_false; auto). 
      replace (map fst (outs nd) ++ [q]) with (map fst (assign q v (outs nd))).
      * apply NoDup_assign. auto.
      * rewrite keys_assign_new by (apply mem_false; auto). rewrite map_app. reflexivity.
Qed.

Lemma mem_keys' (h h' : store) (E : map fst h' = map fst h) t : mem t h' = mem t h.
Proof. apply mem_keys. exact E. Qed.
Arguments mem_keys' [h h'] E t.

Lemma INV_edge h h' pd od tau q v (bal : bool) :
  INV h pd od -> mem tau h = true -> mem tau H0 = false ->
  Te tau q = Some v -> mem (fd q) h = true ->
  (bal = false -> mem (fd q) H0 = false) ->
  (bal = true -> mem (fd q) H0 = true \/ forall x, pd (fd q) x = true) ->
  map fst h' = map fst h -> (forall t, ons h' t = ons h t) ->
  (forall t nd', lookup t h' = Some nd' -> NoDup (map fst (outs nd'))) ->
  (forall t x, edge h' t x =
     if pdec dec (t, x) (tau, q) then Some v
     else if (bal && if pdec dec (t, x) (to_fd2 q tau) then true else false)%bool
          then Te q tau else edge h t x) ->
  INV h' (addpd pd tau q) od.
Proof.
  intros I Mt Nt HT Mq Bf Bt Hk Ho Hh He.
  assert (Ft : fd tau = tau) by (apply (to_fd_id L), (i_fd I); auto).
  assert (Ft2 : to_fd2 tau q = (tau, q)) by (apply (to_fd2_id L), (i_fd I); auto).
  split.
  - rewrite Hk. apply I.
  - intros t. rewrite (mem_keys' Hk t). apply I.
  - exact Hh.
  - intros t H. rewrite (mem_keys' Hk t). apply I; auto.
  - intros t x. rewrite (mem_keys' Hk t). unfold addpd. rewrite orb_true_iff, andb_true_iff.
    intros [H|[H1 _]]; [apply (i_pd I _ _ H)|]. apply eqb_true in H1. subst. auto.
  - intros t. rewrite (mem_keys' Hk t). apply (i_T I).
  - intros t x. rewrite (mem_keys' Hk (fd x)). unfold addpd. rewrite orb_true_iff, andb_true_iff.
    intros [H|[H1 H2]]; [apply (i_clo I _ _ H)|]. apply eqb_true in H1, H2. subst. auto.
  - intros t x. rewrite (mem_keys' Hk t), (mem_keys' Hk (fd x)), He. intros Mt' Nt'.
    destruct (pdec dec (t, x) (tau, q)) as [[= -> ->]|n].
    + unfold addpd. rewrite !eqb_refl, orb_true_r, Mq. cbn. auto.
    + assert (Ea : addpd pd tau q t x = pd t x).
      { unfold addpd. destruct (eqbP t tau), (eqbP x q); cbn; rewrite ?orb_false_r; auto. congruence. }
      rewrite Ea. destruct bal; cbn [andb]; [|apply (i_new I); auto].
      destruct (pdec dec (t, x) (to_fd2 q tau)) as [E|_]; [|apply (i_new I); auto].
      assert (Et : t = fd q) by (apply (f_equal fst) in E; exact E).
      destruct (Bt eq_refl) as [H|H]; [congruence|].
      subst t. rewrite H. assert (Ex : fd x = tau).
      { apply (f_equal snd) in E. cbn [snd BuilderModel.to_fd2] in E. subst x.
        rewrite (to_fd_act L). exact Ft. }
      rewrite Ex, Mt. cbn. rewrite <- (Te_norm q tau). rewrite <- E. reflexivity.
  - intros t x Ho'. rewrite He.
    destruct (pdec dec (t, x) (tau, q)) as [[= -> ->]|n]; [congruence|].
    assert (Ftt : in_fd t = true) by (apply (wf_fd W0); auto).
    destruct (mem (fd x) H0) eqn:Mx.
    + destruct bal; cbn [andb]; [|rewrite (i_olde I _ _ Ho'), Mx; auto].
      destruct (pdec dec (t, x) (to_fd2 q tau)) as [E|_]; [|rewrite (i_olde I _ _ Ho'), Mx; auto].
      exfalso. apply (f_equal snd) in E. cbn [snd BuilderModel.to_fd2] in E. subst x.
      rewrite (to_fd_act L), Ft in Mx. congruence.
    + destruct (pdec dec (t, x) (to_fd2 q tau)) as [E|nE].
      * assert (Et : t = fd q) by (apply (f_equal fst) in E; exact E).
        destruct bal; [|rewrite <- Et in Bf; rewrite (Bf eq_refl) in Ho'; discriminate].
        cbn [andb].
        assert (Es : to_fd2 x t = (tau, q)).
        { rewrite <- Ft2. rewrite <- (to_fd2_swap L q tau). rewrite <- E. reflexivity. }
        rewrite Es. unfold addpd. cbn [fst snd]. rewrite !eqb_refl, orb_true_r.
        rewrite <- (Te_norm q tau), <- E. reflexivity.
      * rewrite andb_false_r. rewrite (i_olde I _ _ Ho'), Mx.
        replace (addpd pd tau q (fst (to_fd2 x t)) (snd (to_fd2 x t)))
          with (pd (fst (to_fd2 x t)) (snd (to_fd2 x t))); [reflexivity|].
        unfold addpd. destruct (eqbP (fst (to_fd2 x t)) tau) as [E1|]; [|cbn; rewrite orb_false_r; auto].
        destruct (eqbP (snd (to_fd2 x t)) q) as [E2|]; [|cbn; rewrite orb_false_r; auto].
        exfalso. apply nE. rewrite <- (to_fd2_id L t x Ftt).
        apply (@swap_iff site Sy L). rewrite Ft2, <- E1, <- E2. apply surjective_pairing.
  - intros t. rewrite (mem_keys' Hk t), Ho. apply (i_ons I).
  - intros t. rewrite (mem_keys' Hk t). apply (i_reach I).
Qed.

(** Adding an empty new site. *)
Lemma INV_add h pd od q :
  INV h pd od -> mem q h = false -> in_fd q = true -> shape q = Some true ->
  mem (fdT q) T = true -> Reach q ->
  (forall t x, pd t x = true -> Te t x <> None -> fd x = q -> False) ->
  od q = false ->
  INV (assign q (mkNode VNone []) h) pd od.
Proof.
  intros I Mq Fq Sq Tq Rq Cq Oq.
  assert (Nq : mem q H0 = false).
  { destruct (mem q H0) eqn:E; auto. apply (i_old I) in E. congruence. }
  assert (Lq : lookup q h = None) by (apply mem_false; auto).
  assert (Ee : forall t x, edge (assign q (mkNode VNone []) h) t x = edge h t x).
  { intros t x. unfold BuilderInv.edge. rewrite lookup_assign. destruct (eqbP t q); auto.
    subst. rewrite Lq. reflexivity. }
  split.
  - apply NoDup_assign. apply I.
  - intros t. rewrite mem_assign. destruct (eqbP t q); cbn; [subst; auto|apply I].
  - intros t nd. rewrite lookup_assign. destruct (eqbP t q); [intros [= <-]; constructor|apply I].
  - intros t H. rewrite mem_assign. rewrite (i_old I _ H), orb_true_r. reflexivity.
  - intros t x H. rewrite mem_assign. destruct (i_pd I _ _ H) as [-> H2]. rewrite orb_true_r. auto.
  - intros t. rewrite mem_assign. destruct (eqbP t q); cbn; [subst; auto|apply (i_T I)].
  - intros t x H1 H2. rewrite mem_assign. destruct (i_clo I _ _ H1 H2) as [->|]; rewrite ?orb_true_r; auto.
  - intros t x. rewrite !mem_assign, Ee. destruct (eqbP t q) as [->|n]; cbn [orb].
    + intros _ _. rewrite (@edge_not_mem site dec C F h q x Mq).
      destruct (pd q x) eqn:E; cbn; [|reflexivity]. destruct (i_pd I _ _ E). congruence.
    + intros H1 H2. rewrite (i_new I) by auto. destruct (pd t x) eqn:Ep; cbn [andb]; [|reflexivity].
      destruct (eqbP (fd x) q) as [E|]; cbn [orb]; [|reflexivity].
      rewrite E, Mq. destruct (Te t x) eqn:Et; [|reflexivity].
      exfalso. apply (Cq t x Ep); congruence.
  - intros t x H. rewrite Ee. apply (i_olde I); auto.
  - intros t. rewrite mem_assign. unfold BuilderInv.ons at 1. rewrite lookup_assign.
    destruct (eqbP t q) as [->|n].
    + rewrite Nq, Oq. reflexivity.
    + apply (i_ons I).
  - intros t. rewrite mem_assign. destruct (eqbP t q); cbn; [subst; auto|apply (i_reach I)].
Qed.

(** A head outside the shape. *)
Lemma INV_skip h pd od tau q :
  INV h pd od -> mem tau h = true -> mem tau H0 = false ->
  mem (fd q) h = false -> shape (fd q) = Some false ->
  INV h (addpd pd tau q) od.
Proof.
  intros I Mt Nt Mq Sq.
  assert (Ft2 : to_fd2 tau q = (tau, q)) by (apply (to_fd2_id L), (i_fd I); auto).
  split; try apply I.
  - intros t x. unfold addpd. rewrite orb_true_iff, andb_true_iff.
    intros [H|[H1 _]]; [apply (i_pd I _ _ H)|]. apply eqb_true in H1. subst. auto.
  - intros t x. unfold addpd. rewrite orb_true_iff, andb_true_iff.
    intros [H|[H1 H2]]; [apply (i_clo I _ _ H)|]. apply eqb_true in H1, H2. subst. auto.
  - intros t x H1 H2. rewrite (i_new I) by auto. unfold addpd.
    destruct (eqbP t tau), (eqbP x q); cbn; rewrite ?orb_false_r; auto. subst.
    rewrite Mq, !andb_false_r. reflexivity.
  - intros t x H. rewrite (i_olde I) by auto. destruct (mem (fd x) H0); [reflexivity|].
    unfold addpd. destruct (eqbP (fst (to_fd2 x t)) tau) as [E1|]; [|cbn; rewrite orb_false_r; auto].
    destruct (eqbP (snd (to_fd2 x t)) q) as [E2|]; [|cbn; rewrite orb_false_r; auto].
    exfalso. assert (Hqt : fd q = fd t).
    { rewrite <- E2. unfold BuilderModel.to_fd2. cbn [snd]. apply (to_fd_act L). }
    rewrite Hqt in Mq. rewrite (to_fd_id L) in Mq by (apply (wf_fd W0); auto).
    apply (i_old I) in H. congruence.
Qed.

(** A completely processed tail. *)
Lemma INV_full h pd od tau :
  INV h pd od -> mem tau h = true -> mem tau H0 = false ->
  (forall x, Te tau x <> None -> pd tau x = true) ->
  INV h (fun t x => pd t x || eqb t tau)%bool od.
Proof.
  intros I Mt Nt HT. split; try apply I.
  - intros t x. rewrite orb_true_iff. intros [H|H1]; [apply (i_pd I _ _ H)|].
    apply eqb_true in H1. subst. auto.
  - intros t x. rewrite orb_true_iff. intros [H|H1]; [apply (i_clo I _ _ H)|].
    apply eqb_true in H1. subst. intros H. apply (i_clo I tau x); auto.
  - intros t x H1 H2. rewrite (i_new I) by auto.
    destruct (eqbP t tau); rewrite ?orb_false_r, ?orb_true_r; auto. subst.
    destruct (pd tau x) eqn:E; [reflexivity|]. cbn.
    destruct (Te tau x) eqn:Et; [|destruct (mem (fd x) h); reflexivity].
    rewrite HT in E; congruence.
  - intros t x H. rewrite (i_olde I) by auto. destruct (mem (fd x) H0); [reflexivity|].
    destruct (eqbP (fst (to_fd2 x t)) tau) as [E1|]; rewrite ?orb_false_r, ?orb_true_r; auto.
    destruct (pd _ _) eqn:E; [reflexivity|].
    destruct (Te t x) eqn:Et; [|reflexivity].
    rewrite E1 in E. rewrite HT in E; [discriminate|].
    intros Hn. rewrite <- E1 in Hn. rewrite Te_norm in Hn. apply Te_none in Hn. congruence.
Qed.

(** Setting the onsite value. *)
Lemma INV_onsite h pd od tau nd tnd :
  INV h pd od -> lookup tau h = Some nd -> mem tau H0 = false ->
  lookup (fdT tau) T = Some tnd ->
  INV (assign tau (mkNode (onsite tnd) (outs nd)) h) pd (fun t => od t || eqb t tau)%bool.
Proof.
  intros I Hl Nt HlT.
  assert (Mt : mem tau h = true) by (eapply lookup_mem; eauto).
  assert (Hk : map fst (assign tau (mkNode (onsite tnd) (outs nd)) h) = map fst h)
    by (apply keys_assign_mem; auto).
  assert (He : forall t x, edge (assign tau (mkNode (onsite tnd) (outs nd)) h) t x = edge h t x).
  { intros t x. rewrite (@edge_node h tau nd) by auto. destruct (eqbP t tau); auto.
    subst. unfold BuilderInv.edge. rewrite Hl. reflexivity. }
  split.
  - rewrite Hk. apply I.
  - intros t. rewrite (mem_keys' Hk t). apply I.
  - intros t n. rewrite lookup_assign. destruct (eqbP t tau); [|apply I].
    intros [= <-]. cbn. apply (i_heads I _ Hl).
  - intros t H. rewrite (mem_keys' Hk t). apply I; auto.
  - intros t x. rewrite (mem_keys' Hk t). apply I.
  - intros t. rewrite (mem_keys' Hk t). apply I.
  - intros t x. rewrite (mem_keys' Hk (fd x)). apply I.
  - intros t x. rewrite (mem_keys' Hk t), (mem_keys' Hk (fd x)), He. apply I.
  - intros t x. rewrite He. apply I.
  - intros t. rewrite (mem_keys' Hk t), (@ons_node h tau nd) by auto.
    destruct (eqbP t tau) as [->|]; [|rewrite orb_false_r; apply (i_ons I)].
    rewrite Nt, Mt, orb_true_r. unfold BuilderInv.ons. rewrite HlT. reflexivity.
  - intros t. rewrite (mem_keys' Hk t). apply I.
Qed.

Definition AUX (hg h : store) (N : list site) : Prop :=
  NoDup N /\ (forall t, In t N -> mem t hg = false) /\
  (forall t, mem t h = (mem t hg || inb t N)%bool).

(** ** One head. *)
Lemma head_step hg h pd od N tau oa oh hv :
  let shift := which ST tau in
  let q := act ST shift (fst hv) in
  INV h pd od -> AUX hg h N ->
  mem tau h = true -> mem tau H0 = false -> Reach tau ->
  Te tau q = Some (snd hv) -> pd tau q = false ->
  (forall t, In t oa -> mem t hg = true /\ mem t H0 = false) ->
  (forall t, mem t H0 = true -> mem t hg = true) ->
  (forall t, mem t hg = true -> mem t H0 = false -> ~ In t oa -> forall x, pd t x = true) ->
  (forall t, mem t hg = false -> od t = false) ->
  (fill_head T oa oh tau shift (inl (h, N)) hv = inr (EUser _) /\ Raises) \/
  exists h' N', fill_head T oa oh tau shift (inl (h, N)) hv = inl (h', N') /\
    INV h' (addpd pd tau q) od /\ AUX hg h' N'.
Proof.
  intros shift q I (ND & Nn & Hm) Mt Nt Rt HT Hp Hoa H0g Hfull Hod.
  assert (Hlt : exists nd, lookup tau h = Some nd) by (apply mem_lookup; auto).
  destruct Hlt as [nd Hlt].
  assert (Hq0 : edge h tau q = None) by (rewrite (i_new I), Hp by auto; reflexivity).
  assert (Hqn : lookup q (outs nd) = None) by (unfold BuilderInv.edge in Hq0; rewrite Hlt in Hq0; auto).
  assert (NDh := i_heads I _ Hlt).
  unfold FillModel.fill_head. fold q.
  destruct (inb (fd q) oa || inb (fd q) N)%bool eqn:Act.
  - (* active *) right.
    destruct (@write_spec h oh tau q (snd hv) nd Hlt NDh Hqn) as (h' & -> & Hk & Ho & He & Hh).
    exists h', N. split; [reflexivity|].
    assert (Hn : mem (fd q) h = true /\ mem (fd q) H0 = false).
    { rewrite Hm. apply orb_true_iff in Act. destruct Act as [A|A]; apply inb_in in A.
      - destruct (Hoa _ A) as [-> ?]. auto.
      - pose proof A as A'. apply inb_in in A. rewrite A, orb_true_r. split; [auto|].
        destruct (mem (fd q) H0) eqn:E; auto. apply H0g in E. rewrite (Nn _ A') in E. discriminate. }
    split.
    + apply INV_edge with (h := h) (v := snd hv) (bal := false); auto; try discriminate; try tauto.
      * intros t nd' H. destruct (Hh t nd' H); auto. apply (i_heads I t); auto.
      * intros t x. rewrite He. cbn [andb].
        destruct (pdec dec (t, x) (tau, q)) as [[= -> ->]|n]; [rewrite !eqb_refl; reflexivity|].
        destruct (eqbP t tau), (eqbP x q); cbn; auto. congruence.
    + split; [auto|split; auto]. intros t. rewrite (mem_keys' Hk t). auto.
  - apply orb_false_iff in Act. destruct Act as [Aoa AN].
    assert (Hoa' : ~ In (fd q) oa) by (rewrite <- inb_in; congruence).
    destruct (mem (fd q) h) eqn:Mq.
    + (* present, not active *) right.
      rewrite Hm, AN, orb_false_r in Mq.
      destruct (@WF_Eg_pair site dec ST LT C F T tau q _ WT HT) as (ov & Hov & _).
      destruct (BuilderModel.to_fd2 ST q tau) as [t1 x1] eqn:E1.
      assert (Hge : get_edge dec T t1 x1 = inl ov).
      { apply get_edge_some. unfold Eg in Hov. rewrite E1 in Hov. exact Hov. }
      rewrite Hge. destruct (to_fd2 q tau) as [t2 x2] eqn:E2.
      assert (Et2 : t2 = fd q) by (apply (f_equal fst) in E2; symmetry; exact E2).
      assert (Mt2 : mem t2 h = true) by (rewrite Et2, Hm, Mq; reflexivity).
      destruct (@set_edge_spec site dec C F h t2 x2 ov Mt2) as (h1 & -> & Hk1 & Ho1 & He1 & Hh1).
      assert (NE : (tau, q) <> (t2, x2)).
      { rewrite <- E2. intros E. assert (Ft : to_fd2 tau q = (tau, q)) by (apply (to_fd2_id L), (i_fd I); auto).
        rewrite <- Ft in E. assert (tau <> q).
        { intros <-. rewrite (@WF_irr site dec ST C F T tau) in HT; [discriminate|apply WT]. }
        apply (to_fd2_flip L H E). }
      assert (Hl1 : exists nd1, lookup tau h1 = Some nd1).
      { apply mem_lookup. rewrite (mem_keys' Hk1 tau). auto. }
      destruct Hl1 as [nd1 Hl1].
      assert (NDh1 : forall t nd', lookup t h1 = Some nd' -> NoDup (map fst (outs nd'))).
      { intros t nd' H. destruct (Hh1 t nd' H) as (n0 & Hn0 & [->|[_ ->]]).
        - apply (i_heads I t); auto.
        - apply NoDup_assign. apply (i_heads I t); auto. }
      assert (Hqn1 : lookup q (outs nd1) = None).
      { assert (X := He1 tau q). unfold BuilderInv.edge at 1 in X. rewrite Hl1 in X.
        rewrite X. destruct (pdec dec (tau, q) (t2, x2)); [congruence|exact Hq0]. }
      destruct (@write_spec h1 oh tau q (snd hv) nd1 Hl1 (NDh1 _ _ Hl1) Hqn1) as (h' & -> & Hk & Ho & He & Hh).
      exists h', N. split; [reflexivity|]. split.
      * apply INV_edge with (h := h) (v := snd hv) (bal := true); auto; try discriminate.
        -- rewrite Hm, Mq. reflexivity.
        -- intros _. destruct (mem (fd q) H0) eqn:E0; auto.
        -- congruence.
        -- intros t. rewrite Ho, Ho1. reflexivity.
        -- intros t nd' H. destruct (Hh t nd' H); eauto.
        -- intros t x. rewrite He, He1, E2, Hov. cbn [andb].
           destruct (pdec dec (t, x) (tau, q)) as [[= -> ->]|n]; [rewrite !eqb_refl; reflexivity|].
           replace (eqb t tau && eqb x q)%bool with false
             by (destruct (eqbP t tau), (eqbP x q); cbn; congruence).
           destruct (pdec dec (t, x) (t2, x2)); reflexivity.
      * split; [auto|split; auto]. intros t. rewrite (mem_keys' Hk t), (mem_keys' Hk1 t). auto.
    + destruct (shape (fd q)) as [[|]|] eqn:Sq.
      * (* a new site *) right.
        assert (Fq : in_fd (fd q) = true) by apply (in_fd_to_fd L).
        assert (N0q : mem (fd q) H0 = false).
        { destruct (mem (fd q) H0) eqn:E; auto. apply (i_old I) in E. congruence. }
        assert (Tq : mem (fdT (fd q)) T = true).
        { rewrite fdT_fd. apply (@WF_Eg_mem site dec ST LT C F T tau q (snd hv)); auto. }
        assert (Mg : mem (fd q) hg = false).
        { rewrite Hm in Mq. apply orb_false_iff in Mq. tauto. }
        assert (I1 : INV (assign (fd q) (mkNode VNone []) h) pd od).
        { apply INV_add; auto.
          - eapply R_step; eauto. congruence.
          - intros t x H1 H2 H3. destruct (i_clo I _ _ H1 H2); congruence. }
        set (h1 := assign (fd q) (mkNode VNone []) h) in *.
        assert (Ntq : tau <> fd q) by congruence.
        assert (Hl1 : lookup tau h1 = Some nd).
        { unfold h1. rewrite lookup_assign, (eqb_neq dec Ntq). auto. }
        destruct (@write_spec h1 oh tau q (snd hv) nd Hl1 NDh Hqn) as (h' & -> & Hk & Ho & He & Hh).
        exists h', (N ++ [fd q]). split; [reflexivity|].
        assert (Hm1 : forall t, mem t h1 = (mem t hg || inb t (N ++ [fd q]))%bool).
        { intros t. unfold h1. rewrite mem_assign, Hm, inb_app. cbn. rewrite orb_false_r.
          destruct (eqb t (fd q)), (mem t hg), (inb t N); reflexivity. }
        split.
        -- apply INV_edge with (h := h1) (v := snd hv) (bal := false); auto; try discriminate.
           ++ eapply lookup_mem; eauto.
           ++ unfold h1. rewrite mem_assign, eqb_refl. reflexivity.
           ++ intros t nd' H. destruct (Hh t nd' H); auto. apply (i_heads I1 t); auto.
           ++ intros t x. rewrite He. cbn [andb].
              destruct (pdec dec (t, x) (tau, q)) as [[= -> ->]|n]; [rewrite !eqb_refl; reflexivity|].
              destruct (eqbP t tau), (eqbP x q); cbn; auto. congruence.
        -- split; [|split].
           ++ apply NoDup_app; auto.
              ** constructor; [intros []|constructor].
              ** intros x H1 [<-|[]]. apply inb_in in H1. congruence.
           ++ intros t H. apply in_app_or in H. destruct H as [H|[<-|[]]]; auto.
           ++ intros t. rewrite (mem_keys' Hk t). auto.
      * right. exists h, N. split; [reflexivity|]. split; [apply INV_skip; auto|]. split; auto.
      * left. split; [reflexivity|]. right. exists tau, q. split; [auto|]. split; [congruence|].
        split; [|auto]. destruct (mem (fd q) H0) eqn:E; auto. apply (i_old I) in E. congruence.
Qed.

Lemma fold_head_err oa oh tau sh l e : fold_left (fill_head T oa oh tau sh) l (inr e) = inr e.
Proof. induction l; cbn; auto. Qed.

Lemma heads_fold hg tau oa oh od : mem tau hg = true -> mem tau H0 = false ->
  (forall t, In t oa -> mem t hg = true /\ mem t H0 = false) ->
  (forall t, mem t H0 = true -> mem t hg = true) ->
  (forall t, mem t hg = false -> od t = false) ->
  forall l h pd N,
  INV h pd od -> AUX hg h N -> NoDup (map fst l) ->
  (forall hv, In hv l -> Te tau (act ST (which ST tau) (fst hv)) = Some (snd hv) /\
                         pd tau (act ST (which ST tau) (fst hv)) = false) ->
  (forall t, mem t hg = true -> mem t H0 = false -> ~ In t oa -> forall x, pd t x = true) ->
  (fold_left (fill_head T oa oh tau (which ST tau)) l (inl (h, N)) = inr (EUser _) /\ Raises) \/
  exists h' N' pd', fold_left (fill_head T oa oh tau (which ST tau)) l (inl (h, N)) = inl (h', N') /\
    INV h' pd' od /\ AUX hg h' N' /\
    (forall t x, pd t x = true -> pd' t x = true) /\
    (forall t x, t <> tau -> pd' t x = pd t x) /\
    (forall hv, In hv l -> pd' tau (act ST (which ST tau) (fst hv)) = true).
Proof.
  intros Mg Nt Hoa H0g Hod. induction l as [|hv l IH]; intros h pd N I A ND Hl Hfull.
  - right. exists h, N, pd. do 5 (split; [auto; fail|]). intros ? [].
  - cbn [fold_left map] in *. inversion ND as [|? ? Hnin ND']; subst.
    assert (Mt : mem tau h = true) by (destruct A as (_ & _ & ->); rewrite Mg; reflexivity).
    destruct (Hl hv (or_introl eq_refl)) as [HT Hp].
    destruct (@head_step hg h pd od N tau oa oh hv) as [[E1 R]|(h1 & N1 & E1 & I1 & A1)]; auto.
    { apply (i_reach I); auto. }
    { left. cbv zeta in E1. rewrite E1, fold_head_err. auto. }
    destruct (IH h1 _ N1 I1 A1 ND') as [[E R]|(h' & N' & pd' & E & I' & A' & Hmono & Hother & Hall)].
    { intros hv' Hin. destruct (Hl hv' (or_intror Hin)) as [HT' Hp']. split; auto.
      unfold addpd. rewrite Hp'. cbn. destruct (eqbP (act ST (which ST tau) (fst hv')) (act ST (which ST tau) (fst hv))) as [Ea|]; [|rewrite andb_false_r; auto].
      apply (act_inj LT) in Ea. exfalso. apply Hnin. rewrite <- Ea. apply in_map. auto. }
    { intros t H1 H2 H3 x. unfold addpd. rewrite (Hfull t H1 H2 H3 x). reflexivity. }
    { left. cbv zeta in E1. rewrite E1. auto. }
    right. exists h', N', pd'. cbv zeta in E1. rewrite E1. split; [exact E|]. do 2 (split; auto). split; [|split].
    + intros t x H. apply Hmono. unfold addpd. rewrite H. reflexivity.
    + intros t x H. rewrite Hother by auto. unfold addpd. rewrite (eqb_neq dec H). apply orb_false_r.
    + intros hv' [<-|Hin]; auto. apply Hmono. unfold addpd. rewrite !eqb_refl. apply orb_true_r.
Qed.

(** ** One tail. *)
Definition pdD (D : list site) := fun (t x : site) => inb t D.
Definition odD (D : list site) := fun (t : site) => inb t D.

Lemma tail_step hg h N D tau oa mx :
  INV h (pdD D) (odD D) -> AUX hg h N ->
  mem tau hg = true -> mem tau H0 = false -> In tau oa -> ~ In tau D ->
  (forall t, In t oa -> mem t hg = true /\ mem t H0 = false) ->
  (forall t, mem t H0 = true -> mem t hg = true) ->
  (forall t, In t D -> mem t hg = true) ->
  (forall t, mem t hg = true -> mem t H0 = false -> ~ In t oa -> In t D) ->
  (exceeds (length (D ++ [tau])) mx = true /\ fill_tail mx T oa (inl (h, N, D)) tau = inr (ERuntime _)) \/
  (fill_tail mx T oa (inl (h, N, D)) tau = inr (EUser _) /\ Raises) \/
  (exceeds (length (D ++ [tau])) mx = false /\ exists h' N', fill_tail mx T oa (inl (h, N, D)) tau = inl (h', N', D ++ [tau]) /\
     INV h' (pdD (D ++ [tau])) (odD (D ++ [tau])) /\ AUX hg h' N').
Proof.
  intros I A Mg Nt Htoa HtD Hoa H0g HDg Hfull. unfold FillModel.fill_tail. cbv zeta.
  destruct (exceeds (length (D ++ [tau])) mx) eqn:Hle; [left; auto|].
  right.
  assert (Mt : mem tau h = true) by (destruct A as (_ & _ & ->); rewrite Mg; reflexivity).
  assert (HTm := i_T I _ Mt Nt). apply mem_lookup in HTm. destruct HTm as [tnd HlT].
  change (act ST (eneg ST (which ST tau)) tau) with (fdT tau). rewrite HlT.
  pose proof Mt as Hl. apply mem_lookup in Hl. destruct Hl as [nd Hl]. rewrite Hl.
  pose proof (@INV_onsite h (pdD D) (odD D) tau nd tnd I Hl Nt HlT) as I1.
  set (h1 := assign tau (mkNode (onsite tnd) (outs nd)) h) in *.
  assert (Hk1 : map fst h1 = map fst h) by (apply keys_assign_mem; auto).
  assert (A1 : AUX hg h1 N).
  { destruct A as (A1 & A2 & A3). split; [auto|split; auto]. intros t.
    rewrite (mem_keys' Hk1 t). auto. }
  assert (HTe : forall y, Te tau (act ST (which ST tau) y) = lookup y (outs tnd)).
  { intros y. unfold Eg, BuilderModel.to_fd2, BuilderInv.edge. cbn [fst snd].
    change (act ST (eneg ST (which ST tau)) tau) with (fdT tau). rewrite HlT.
    rewrite (act_inv_l LT). reflexivity. }
  destruct (@heads_fold hg tau oa (map fst (outs nd)) (fun t => odD D t || eqb t tau)%bool Mg Nt Hoa H0g)
    with (l := outs tnd) (h := h1) (pd := pdD D) (N := N)
    as [[E R]|(h' & N' & pd' & E & I' & A' & Hmono & Hother & Hall)]; auto.
  - intros t H. unfold odD. destruct (inb t D) eqn:Ed.
    + apply inb_in in Ed. apply HDg in Ed. congruence.
    + cbn. apply eqb_neq. congruence.
  - apply (wf_heads WT (fdT tau)); auto.
  - intros [y v] Hin. cbn [fst snd]. split.
    + rewrite HTe. apply In_lookup; auto. apply (wf_heads WT (fdT tau)); auto.
    + unfold pdD. destruct (inb tau D) eqn:Ed; auto. apply inb_in in Ed. contradiction.
  - intros t H1 H2 H3 x. unfold pdD. apply inb_in. auto.
  - left. split; [|exact R].
    match goal with |- match ?X with _ => _ end = _ =>
        match type of E with ?Y = _ => change X with Y end end.
    rewrite E. reflexivity.
  - right. split; [auto|]. exists h', N'. split.
    { match goal with |- match ?X with _ => _ end = _ =>
        match type of E with ?Y = _ => change X with Y end end.
      rewrite E. reflexivity. }
    split; [|exact A'].
    assert (Mt' : mem tau h' = true) by (destruct A' as (_ & _ & ->); rewrite Mg; reflexivity).
    apply INV_ext with (pd := fun t x => (pd' t x || eqb t tau)%bool)
                       (od := fun t => (odD D t || eqb t tau)%bool).
    + apply INV_full; auto. intros x Hx.
      rewrite <- (act_inv_r LT (which ST tau) x) in Hx |- *. rewrite HTe in Hx.
      destruct (lookup (act ST (eneg ST (which ST tau)) x) (outs tnd)) as [v|] eqn:El; [|congruence].
      apply lookup_In in El. apply (Hall _ El).
    + intros t x. unfold pdD. rewrite inb_app. cbn. rewrite orb_false_r.
      destruct (eqbP t tau) as [->|n]; [rewrite !orb_true_r; reflexivity|].
      rewrite !orb_false_r. rewrite Hother by auto. reflexivity.
    + intros t. unfold odD. rewrite inb_app. cbn. rewrite orb_false_r. reflexivity.
Qed.

Lemma fold_tail_err mx oa l e : fold_left (fill_tail mx T oa) l (inr e) = inr e.
Proof. induction l; cbn; auto. Qed.

(** ** One generation. *)
Lemma tails_fold hg oa mx :
  (forall t, In t oa -> mem t hg = true /\ mem t H0 = false) ->
  (forall t, mem t H0 = true -> mem t hg = true) ->
  forall la h N D,
  INV h (pdD D) (odD D) -> AUX hg h N ->
  (forall t, In t la -> In t oa) -> NoDup (D ++ la) ->
  (forall t, In t D -> mem t hg = true) ->
  (forall t, mem t hg = true -> mem t H0 = false -> ~ In t oa -> In t D) ->
  exceeds (length D) mx = false ->
  (exceeds (length (D ++ la)) mx = true /\ fold_left (fill_tail mx T oa) la (inl (h, N, D)) = inr (ERuntime _)) \/
  (fold_left (fill_tail mx T oa) la (inl (h, N, D)) = inr (EUser _) /\ Raises) \/
  (exceeds (length (D ++ la)) mx = false /\ exists h' N', fold_left (fill_tail mx T oa) la (inl (h, N, D)) = inl (h', N', D ++ la) /\
     INV h' (pdD (D ++ la)) (odD (D ++ la)) /\ AUX hg h' N').
Proof.
  intros Hoa H0g. induction la as [|tau la IH]; intros h N D I A Hla ND HDg Hfull Hmx.
  - rewrite app_nil_r. right. right. split; [auto|]. exists h, N. auto.
  - cbn [fold_left].
    assert (Htoa : In tau oa) by (apply Hla; left; auto).
    destruct (Hoa _ Htoa) as [Mg Nt].
    assert (HtD : ~ In tau D).
    { intros H. apply NoDup_remove_2 in ND. apply ND. apply in_or_app. auto. }
    assert (EQ : D ++ tau :: la = (D ++ [tau]) ++ la) by (rewrite <- app_assoc; reflexivity).
    destruct (@tail_step hg h N D tau oa mx) as [[Hlt E]|[[E R]|(Hle & h1 & N1 & E & I1 & A1)]]; auto.
    + left. rewrite E, fold_tail_err. split; [|reflexivity].
      rewrite EQ, app_length. destruct mx as [m|]; [|discriminate]. cbn in *.
      apply Nat.ltb_lt in Hlt. apply Nat.ltb_lt. lia.
    + right. left. rewrite E, fold_tail_err. auto.
    + rewrite E, EQ. apply (IH h1 N1 (D ++ [tau])); auto.
      * intros t H. apply Hla. right. auto.
      * rewrite <- EQ. auto.
      * intros t H. apply in_app_or in H. destruct H as [H|[<-|[]]]; auto.
      * intros t H1 H2 H3. apply in_or_app. left. auto.
Qed.

(** ** The loop. *)
Definition GEN (h : store) (A D : list site) : Prop :=
  INV h (pdD D) (odD D) /\ NoDup (D ++ A) /\
  (forall t, In t (D ++ A) <-> mem t h = true /\ mem t H0 = false).

Definition too_many (m : nat) : Prop := exists l, NoDup l /\ (forall t, In t l -> Reach t) /\ m < length l.

Lemma loop_spec mx fuel : forall k h O A D,
  GEN h A D -> incl O D -> exceeds (length D) mx = false ->
  (fill_loop fuel k mx T h O A D = inr (ERuntime _) /\ exists m, mx = Some m /\ too_many m) \/
  (fill_loop fuel k mx T h O A D = inr (EUser _) /\ Raises) \/
  (fill_loop fuel k mx T h O A D = inr (EFuel _) /\ too_many (fuel + length D) /\
     exceeds (fuel + length D) mx = false) \/
  exists h' D', fill_loop fuel k mx T h O A D = inl (h', D') /\ GEN h' [] D' /\
     exceeds (length D') mx = false /\ (forall t, mem t h = true -> mem t h' = true).
Proof.
  induction fuel as [|fuel IH]; intros k h O A D (I & ND & Hkeys) HO Hmx.
  - destruct A as [|a A'].
    + right. right. right. exists h, D. cbn. split; [auto|]. split; [exact (conj I (conj ND Hkeys))|]. split; auto.
    + right. right. left. split; [reflexivity|]. split; [|exact Hmx].
      exists (D ++ a :: A'). split; [auto|]. split.
      * intros t H. apply Hkeys in H. apply (i_reach I); tauto.
      * rewrite app_length. cbn. lia.
  - destruct A as [|a A'].
    + right. right. right. exists h, D. cbn. split; [auto|]. split; [exact (conj I (conj ND Hkeys))|]. split; auto.
    + set (A := a :: A') in *. cbn [FillModel.fill_loop].
      change (match A with [] => inl (h, D) | _ => ?X end) with X.
      assert (HNA : NoDup A /\ NoDup D /\ forall t, In t D -> ~ In t A).
      { clear - ND. induction D as [|d D IH]; [auto using NoDup_nil|].
        inversion ND as [|? ? Hn ND']; subst. destruct (IH ND') as (H1 & H2 & H3).
        split; [auto|]. split.
        - constructor; auto. intros H. apply Hn. apply in_or_app. auto.
        - intros t [<-|H]; auto. intros H'. apply Hn. apply in_or_app. auto. }
      destruct HNA as (NA & NDD & Hdis).
      assert (P := Hord k A).
      destruct (@tails_fold h (O ++ A) mx) with (la := order k A) (h := h) (N := @nil site) (D := D)
        as [[Hlt E]|[[E R]|(Hle & h1 & N1 & E & I1 & A1)]].
      * intros t H. apply Hkeys. apply in_app_or in H. apply in_or_app. destruct H; auto.
      * apply I.
      * exact I.
      * split; [constructor|]. split; [intros ? []|]. intros t. cbn. rewrite orb_false_r. reflexivity.
      * intros t H. apply in_or_app. right. apply (Permutation_in _ P). auto.
      * apply NoDup_app; auto.
        -- apply (Permutation_NoDup (Permutation_sym P)). auto.
        -- intros x H1 H2. apply (Hdis x H1). apply (Permutation_in _ P). auto.
      * intros t H. apply Hkeys. apply in_or_app. auto.
      * intros t H1 H2 H3. assert (H : In t (D ++ A)) by (apply Hkeys; auto).
        apply in_app_or in H. destruct H; auto. exfalso. apply H3. apply in_or_app. auto.
      * exact Hmx.
      * left. rewrite E. split; [reflexivity|]. destruct mx as [m|]; [|discriminate].
        exists m. split; [reflexivity|]. exists (D ++ A). split; [auto|]. split.
        -- intros t H. apply Hkeys in H. apply (i_reach I); tauto.
        -- cbn in Hlt. apply Nat.ltb_lt in Hlt.
           rewrite app_length in *. rewrite (Permutation_length P) in Hlt. exact Hlt.
      * right. left. rewrite E. auto.
      * rewrite E. destruct A1 as (NN & Ng & Hm1).
        assert (PD : Permutation (D ++ order k A) (D ++ A)) by (apply Permutation_app_head; auto).
        assert (G1 : GEN h1 N1 (D ++ order k A)).
        { split; [exact I1|]. split.
          - apply NoDup_app; auto.
            + apply (Permutation_NoDup (Permutation_sym PD)). auto.
            + intros x H1 H2. apply (Permutation_in _ PD) in H1. apply Hkeys in H1.
              rewrite (Ng x H2) in H1. destruct H1. discriminate.
          - intros t. rewrite Hm1, in_app_iff. split.
            + intros [H|H].
              * apply (Permutation_in _ PD) in H. apply Hkeys in H. destruct H as [-> ->]. auto.
              * pose proof (Ng t H) as Hg. apply inb_in in H. rewrite H, orb_true_r. split; auto.
                destruct (mem t H0) eqn:E0; auto. apply (i_old I) in E0. congruence.
            + intros [H1 H2]. apply orb_true_iff in H1. destruct H1 as [H1|H1].
              * left. apply (Permutation_in _ (Permutation_sym PD)). apply Hkeys. auto.
              * right. apply inb_in. auto. }
        assert (Hlen : length (D ++ order k A) = length D + length A).
        { rewrite app_length, (Permutation_length P). reflexivity. }
        destruct (IH (S k) h1 A N1 (D ++ order k A) G1)
          as [H|[H|[(H & Hm & Hex)|(h' & D' & E' & G' & Hl' & Hmono)]]].
        -- intros t H. apply in_or_app. right. apply (Permutation_in _ (Permutation_sym P)). auto.
        -- auto.
        -- left. exact H.
        -- right. left. exact H.
        -- right. right. left. split; [exact H|]. destruct Hm as (l & H1 & H2 & H3).
           rewrite Hlen in H3, Hex. unfold A in H3, Hex. cbn [length] in H3, Hex. split.
           ++ exists l. split; [auto|split; auto]. lia.
           ++ destruct mx as [m|]; [|reflexivity]. unfold exceeds in *. apply Nat.ltb_ge in Hex.
              apply Nat.ltb_ge. lia.
        -- right. right. right. exists h', D'. do 3 (split; [solve [auto]|]). intros t H. apply Hmono. rewrite Hm1, H. reflexivity.
Qed.

(** ** Start. *)
Lemma fold_start_err l e : fold_left (@fill_start1 site dec Sy C F VNone shape) l (inr e) = inr e.
Proof. induction l; cbn; auto. Qed.

Lemma start_spec : forall l h A,
  (forall s, In s l -> In s start /\ mem (fdT s) T = true) ->
  GEN h A [] ->
  (fold_left (@fill_start1 site dec Sy C F VNone shape) l (inl (h, A)) = inr (EUser _) /\ Raises) \/
  exists h' A', fold_left (@fill_start1 site dec Sy C F VNone shape) l (inl (h, A)) = inl (h', A') /\ GEN h' A' [] /\
    (forall t, mem t h = true -> mem t h' = true) /\
    (forall s, In s l -> mem (fd s) h' = true \/ shape (fd s) = Some false).
Proof.
  induction l as [|s l IH]; intros h A Hl G.
  - right. exists h, A. do 3 (split; [solve [auto]|]). intros ? [].
  - cbn [fold_left]. unfold fill_start1 at 2 4.
    assert (Hl' : forall s, In s l -> In s start /\ mem (fdT s) T = true) by (intros; apply Hl; right; auto).
    destruct (mem (fd s) h) eqn:Ms; [|destruct (shape (fd s)) as [[|]|] eqn:Ss].
    + destruct (IH h A Hl' G) as [H|(h' & A' & E & G' & Hm & Hs)]; [left; exact H|right]. exists h', A'.
      do 3 (split; [solve [auto]|]). intros x [<-|Hx]; auto.
    + destruct G as (I & ND & Hkeys). cbn [app] in *.
      destruct (Hl s (or_introl eq_refl)) as [Hst HTs].
      assert (N0 : mem (fd s) H0 = false).
      { destruct (mem (fd s) H0) eqn:E; auto. apply (i_old I) in E. congruence. }
      destruct (IH (assign (fd s) (mkNode VNone []) h) (A ++ [fd s]) Hl') as [H|(h' & A' & E & G' & Hm & Hs)].
      { split; [|split].
        - apply INV_add; auto.
          + apply (in_fd_to_fd L).
          + rewrite fdT_fd. auto.
          + apply R_start; auto.
          + intros t x H. discriminate.
        - cbn [app]. apply NoDup_app; auto.
          + constructor; [intros []|constructor].
          + intros x H1 [<-|[]]. apply Hkeys in H1. destruct H1; congruence.
        - intros t. cbn [app]. rewrite in_app_iff, mem_assign. cbn [In]. split.
          + intros [H|[<-|[]]]; [apply Hkeys in H; destruct H as [-> ->]; rewrite orb_true_r; auto|].
            rewrite eqb_refl. auto.
          + intros [H1 H2]. apply orb_true_iff in H1. destruct H1 as [H1|H1].
            * apply eqb_true in H1. auto.
            * left. apply Hkeys. auto. }
      { left. exact H. }
      right. exists h', A'. split; [exact E|]. split; [exact G'|]. split.
      * intros t H. apply Hm. rewrite mem_assign, H, orb_true_r. reflexivity.
      * intros x [<-|Hx]; auto. left. apply Hm. rewrite mem_assign, eqb_refl. reflexivity.
    + destruct (IH h A Hl' G) as [H|(h' & A' & E & G' & Hm & Hs)]; [left; exact H|right]. exists h', A'.
      do 3 (split; [solve [auto]|]). intros x [<-|Hx]; auto.
    + left. rewrite fold_start_err. split; [reflexivity|]. left. exists s.
      destruct (Hl s (or_introl eq_refl)). split; [auto|]. split; [auto|]. split; [|auto].
      destruct G as (I & _). destruct (mem (fd s) H0) eqn:E; auto. apply (i_old I) in E. congruence.
Qed.

Lemma GEN_init : GEN H0 [] [].
Proof.
  split; [|split; [constructor|]].
  - split; try apply W0; auto; try discriminate.
    + intros t H1 H2; congruence.
    + intros t x H1 H2; congruence.
    + intros t x H. destruct (mem (fd x) H0) eqn:E; [reflexivity|]. cbn.
      destruct (edge H0 t x) as [v|] eqn:Ed; [|reflexivity].
      assert (Eg dec Sy H0 t x = Some v).
      { rewrite (@Eg_fd site dec Sy L C F) by (apply (wf_fd W0); auto). auto. }
      destruct (@WF_Eg_mem site dec Sy L C F H0 t x v W0 H1). congruence.
    + intros t. rewrite (@mem_ons site dec C F). destruct (ons H0 t); reflexivity.
    + intros t H1 H2; congruence.
  - intros t. cbn. split; [intros []|]. intros [H1 H2]. congruence.
Qed.

(** ** The result. *)
Lemma final_edges h D : GEN h [] D -> forall a b,
  Eg dec Sy h a b =
    if (mem (fd a) H0 && mem (fd b) H0)%bool then E0 a b
    else if (mem (fd a) h && mem (fd b) h)%bool then Te a b else None.
Proof.
  intros (I & ND & Hkeys) a b. rewrite app_nil_r in *.
  assert (FDb : fd (snd (to_fd2 a b)) = fd b) by (unfold BuilderModel.to_fd2; cbn [snd]; apply (to_fd_act L)).
  assert (Efst : fst (to_fd2 a b) = fd a) by reflexivity.
  unfold Eg at 1. rewrite Efst.
  destruct (mem (fd a) H0) eqn:Ma.
  - rewrite (i_olde I) by auto. rewrite FDb. rewrite (i_old I _ Ma).
    destruct (mem (fd b) H0) eqn:Mb; cbn [andb]; [reflexivity|].
    rewrite <- Efst, (to_fd2_swap L). rewrite Te_norm. unfold pdD. 
    change (fst (to_fd2 b a)) with (fd b).
    destruct (mem (fd b) h) eqn:Mh.
    + replace (inb (fd b) D) with true; [reflexivity|]. symmetry. apply inb_in. apply Hkeys. auto.
    + destruct (inb (fd b) D) eqn:E; [|reflexivity]. apply inb_in in E. apply Hkeys in E.
      destruct E; congruence.
  - cbn [andb]. destruct (mem (fd a) h) eqn:Mh.
    + rewrite (i_new I) by auto. rewrite FDb, <- Efst, Te_norm. unfold pdD. rewrite Efst.
      replace (inb (fd a) D) with true; [reflexivity|]. symmetry. apply inb_in. apply Hkeys. auto.
    + rewrite (@edge_not_mem site dec C F) by auto. reflexivity.
Qed.

Lemma final_WF h D : GEN h [] D -> WF h.
Proof.
  intros G. pose proof (final_edges G) as HE. destruct G as (I & ND & Hkeys).
  split.
  - split.
    + apply I.
    + apply I.
    + apply I.
    + intros t. destruct (edge h t t) as [v|] eqn:E; auto.
      assert (Mt : mem t h = true) by (eapply edge_mem; eauto).
      assert (Ft : in_fd t = true) by (apply (i_fd I); auto).
      rewrite <- (@Eg_fd site dec Sy L C F h t t Ft) in E. rewrite HE in E.
      rewrite (@WF_irr site dec Sy C F H0 t) in E by apply W0.
      rewrite (@WF_irr site dec ST C F T t) in E by apply WT.
      destruct (_ && _)%bool; [discriminate|]. destruct (_ && _)%bool; discriminate.
  - intros t x v E.
    assert (Mt : mem t h = true) by (eapply edge_mem; eauto).
    assert (Ft : in_fd t = true) by (apply (i_fd I); auto).
    rewrite <- (@Eg_fd site dec Sy L C F h t x Ft) in E. rewrite HE in E.
    rewrite HE. rewrite andb_comm. rewrite (andb_comm (mem (fd x) h)).
    destruct (mem (fd t) H0 && mem (fd x) H0)%bool.
    + apply (@WF_Eg_pair site dec Sy L C F H0 t x v W0 E).
    + destruct (mem (fd t) h && mem (fd x) h)%bool; [|discriminate].
      apply (@WF_Eg_pair site dec ST LT C F T t x v WT E).
Qed.

Lemma final_complete h D : GEN h [] D ->
  (forall s, In s start -> mem (fdT s) T = true -> mem (fd s) h = true \/ shape (fd s) = Some false) ->
  forall t, In t D <-> Reach t.
Proof.
  intros (I & ND & Hkeys) Hst t. rewrite app_nil_r in *. split.
  - intros H. apply Hkeys in H. apply (i_reach I); tauto.
  - induction 1 as [s Hs HT HN HS|s t Hr IH He HN HS].
    + apply Hkeys. split; auto. destruct (Hst s Hs HT); congruence.
    + apply Hkeys. split; auto. destruct (i_clo I s t); try congruence.
      unfold pdD. apply inb_in. auto.
Qed.

Lemma final_noraise h D : GEN h [] D ->
  (forall s, In s start -> mem (fdT s) T = true -> mem (fd s) h = true \/ shape (fd s) = Some false) ->
  ~ Raises.
Proof.
  intros G Hst. pose proof (final_complete G Hst) as Hc. destruct G as (I & ND & Hkeys).
  rewrite app_nil_r in *. intros [(s & H1 & H2 & H3 & H4)|(s & t & H1 & H2 & H3 & H4)].
  - destruct (Hst s H1 H2) as [H|H]; [|congruence].
    assert (HR : Reach (fd s)) by (apply Hc, Hkeys; auto). apply Reach_shape in HR. congruence.
  - destruct (i_clo I s t) as [H|H]; try congruence.
    + unfold pdD. apply inb_in. apply Hc. auto.
    + assert (HR : Reach (fd t)) by (apply Hc, Hkeys; auto). apply Reach_shape in HR. congruence.
Qed.

Definition fill_ok (mx : option nat) (h' : store) (done : list site) : Prop :=
  WF h' /\ NoDup done /\ exceeds (length done) mx = false /\ ~ Raises /\
  (forall t, In t done <-> Reach t) /\
  (forall t, mem t h' = (mem t H0 || inb t done)%bool) /\
  (forall t, ons h' t = if mem t H0 then ons H0 t else if inb t done then ons T (fdT t) else None) /\
  (forall a b, Eg dec Sy h' a b =
     if (mem (fd a) H0 && mem (fd b) H0)%bool then E0 a b
     else if (mem (fd a) h' && mem (fd b) h')%bool then Te a b else None).

Theorem fill_spec fuel mx :
  (mx = Some 0 /\ fill fuel T H0 start mx = (H0, inr (EValue _))) \/
  (exists m, mx = Some m /\ 0 < m /\ fill fuel T H0 start mx = ([], inr (ERuntime _)) /\ too_many m) \/
  (fill fuel T H0 start mx = ([], inr (EUser _)) /\ Raises) \/
  (fill fuel T H0 start mx = ([], inr (EFuel _)) /\ too_many fuel /\ exceeds fuel mx = false) \/
  exists h' done, fill fuel T H0 start mx = (h', inl done) /\ fill_ok mx h' done.
Proof.
  unfold FillModel.fill.
  destruct (match mx with Some m => m =? 0 | None => false end) eqn:Hz.
  { left. destruct mx as [m|]; [|discriminate]. apply Nat.eqb_eq in Hz. subst. auto. }
  right.
  assert (Hz' : forall m, mx = Some m -> 0 < m).
  { intros m ->. apply Nat.eqb_neq in Hz. lia. }
  destruct (@start_spec (filter (fun s => mem (fdT s) T) start) H0 [])
    as [[E R]|(h1 & A & E & G & Hm & Hs)].
  { intros s H. apply filter_In in H. exact H. }
  { exact GEN_init. }
  { right. left. rewrite E. auto. }
  rewrite E.
  destruct (@loop_spec mx fuel 0 h1 [] A [] G)
    as [[E' (m & Em & H)]|[[E' R]|[(E' & R & R')|(h' & D' & E' & G' & Hl' & Hm')]]].
  { intros ? []. }
  { destruct mx; reflexivity. }
  - left. exists m. rewrite E'. auto.
  - right. left. rewrite E'. auto.
  - right. right. left. rewrite E'. cbn [length] in R, R'. rewrite Nat.add_0_r in R, R'. auto.
  - right. right. right. exists h', D'. rewrite E'. split; [reflexivity|].
    assert (Hst : forall s, In s start -> mem (fdT s) T = true -> mem (fd s) h' = true \/ shape (fd s) = Some false).
    { intros s H1 H2. destruct (Hs s) as [H|H]; auto. apply filter_In; auto. }
    assert (Hc := final_complete G' Hst). pose proof (final_noraise G' Hst) as Hnr.
    pose proof (final_WF G') as W'. pose proof (final_edges G') as HE.
    destruct G' as (I & ND & Hkeys). rewrite app_nil_r in *.
    assert (Hmem : forall t, mem t h' = (mem t H0 || inb t D')%bool).
    { intros t. destruct (mem t H0) eqn:E0; cbn.
      - apply (i_old I). auto.
      - destruct (inb t D') eqn:Ei.
        + apply inb_in in Ei. apply Hkeys in Ei. tauto.
        + destruct (mem t h') eqn:Eh; auto. assert (In t D') by (apply Hkeys; auto).
          apply inb_in in H. congruence. }
    split; [exact W'|]. do 3 (split; [auto; fail|]). split; [exact Hc|].
    split; [exact Hmem|]. split; [|exact HE].
    intros t. rewrite (i_ons I), Hmem. unfold odD.
    destruct (mem t H0); [reflexivity|]. cbn. destruct (inb t D'); reflexivity.
Qed.

Corollary fill_WF fuel mx : WF (fst (fill fuel T H0 start mx)).
Proof.
  destruct (fill_spec fuel mx) as [[_ ->]|[(m & _ & _ & -> & _)|[[-> _]|[[-> _]|(h' & d & -> & W & _)]]]]; auto;
    apply WF_nil.
Qed.
End FP.
