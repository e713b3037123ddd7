(** * Parameter substitution: proofs. *)
From Coq Require Import List Bool Arith Lia ZArith.
From Verif Require Import BuilderModel BuilderInv BuilderMain BuilderSpec BuilderProps GraphModel SystemModel ParamModel SubstModel.
Import ListNotations.
Set Implicit Arguments.

Section S.
Variables site obj name C : Type.
Variable ndec : forall a b : name, {a = b} + {a <> b}.
Variable P : pyfuns site obj name C.
Variable pdec : forall a b : P, {a = b} + {a <> b}.
Notation sfun := (sfun P).
Notation rename := (rename ndec).
Notation substitute := (@substitute_params site obj name C ndec P).
Notation s_params := (@s_params site obj name C P).
Notation s_func := (@s_func site obj name C P).
Notation s_call := (@s_call site obj name C P).
Notation value_map := (@value_map site obj name C ndec P).
Notation get := (@get site obj name C ndec P pdec).

Lemma duplicates_false l : duplicates ndec l = false <-> NoDup l.
Proof.
  induction l as [|x l IH]; cbn; [split; constructor|]. destruct (in_dec ndec x l) as [i|n]; cbn.
  - split; [discriminate|]. intros H. inversion H. contradiction.
  - rewrite IH. split; [constructor; auto|inversion 1; auto].
Qed.
Lemma substitute_inl g subs g' : substitute g subs = inl g' ->
  s_params g' = map (rename subs) (s_params g) /\ NoDup (s_params g') /\ s_func g' = s_func g.
Proof.
  unfold substitute_params. destruct (duplicates _ _) eqn:D; [discriminate|]. apply duplicates_false in D.
  destruct (list_eq_dec _ _ _) as [e|n]; intros [= <-]; cbn [SubstModel.s_params SubstModel.s_func]; auto.
  split; [symmetry; exact e|]. split; auto. rewrite <- e. exact D.
Qed.
Lemma substitute_inr g subs e : substitute g subs = inr e -> e = EValue _ /\ ~ NoDup (map (rename subs) (s_params g)).
Proof.
  unfold substitute_params. destruct (duplicates _ _) eqn:D; [|destruct (list_eq_dec _ _ _); discriminate].
  intros [= <-]. split; auto. intros H. apply duplicates_false in H. congruence.
Qed.
Lemma substitute_ok g subs : NoDup (map (rename subs) (s_params g)) -> exists g', substitute g subs = inl g'.
Proof.
  intros H. destruct (substitute g subs) as [g'|e] eqn:E; eauto. apply substitute_inr in E. tauto.
Qed.
Lemma map_merge (A B : Type) (bd : forall x y : B, {x = y} + {x <> y}) (f : A -> B) l : NoDup l ->
  ~ NoDup (map f l) <-> exists p q, In p l /\ In q l /\ p <> q /\ f p = f q.
Proof.
  intros ND. split.
  - induction ND as [|x l Hx ND IH]; [intros H; destruct H; constructor|]. intros H.
    destruct (in_dec bd (f x) (map f l)) as [i|n].
    + apply in_map_iff in i. destruct i as (y & E & Hy). exists x, y. repeat split; cbn; auto. intros ->. contradiction.
    + destruct IH as (p & q & A1 & A2 & A3 & A4). { intros X. apply H. cbn. constructor; auto. } exists p, q. cbn. auto.
  - intros (p & q & A1 & A2 & A3 & A4) H. clear ND. induction l as [|x l IH]; [destruct A1|]. cbn in H. inversion H; subst.
    destruct A1 as [->|A1], A2 as [->|A2]; auto.
    + apply H2. rewrite A4. apply in_map; auto.
    + apply H2. rewrite <- A4. apply in_map; auto.
Qed.
Lemma omap_map (A B D : Type) (f : A -> B) (g : B -> option D) l : omap g (map f l) = omap (fun x => g (f x)) l.
Proof. induction l as [|x l IH]; [reflexivity|]. cbn. rewrite IH. reflexivity. Qed.
Lemma route_rename (env : name -> option obj) n (f : name -> name) l :
  route site env n (map f l) = route site (fun p => env (f p)) n l.
Proof. unfold route. rewrite skipn_map, omap_map. reflexivity. Qed.
Lemma route_ok g subs g' : substitute g subs = inl g' -> forall env,
  (forall a b, @call2 site obj name C (sfuns P) env g' a b = @call2 site obj name C (sfuns P) (fun p => env (rename subs p)) g a b) /\
  (forall s, @call1 site obj name C (sfuns P) env (VFun C g') s = @call1 site obj name C (sfuns P) (fun p => env (rename subs p)) (VFun C g) s).
Proof.
  intros E env. apply substitute_inl in E. destruct E as (E1 & _ & E2).
  split; intros; unfold call1, call2; cbn [pf_params pf_call sfuns]; rewrite E1, route_rename; unfold SubstModel.s_call; rewrite E2; reflexivity.
Qed.

Lemma value_map_inl subs : forall l t, value_map subs l = inl t ->
  forall f, (In f l -> substitute f subs = inl (get t f)) /\ (~ In f l -> get t f = f).
Proof.
  induction l as [|x l IH]; intros t; cbn.
  - intros [= <-] f. split; [intros []|reflexivity].
  - destruct (substitute x subs) as [g|e] eqn:E; [|discriminate]. destruct (value_map subs l) as [t'|] eqn:Et; [|discriminate].
    intros [= <-] f. cbn. destruct (sdec ndec pdec f x) as [->|n].
    + split; auto. intros H. destruct H. auto.
    + destruct (IH t' eq_refl f) as [H1 H2]. split; [intros [->|H]; [congruence|auto]|intros H; apply H2; tauto].
Qed.
Lemma value_map_inr subs : forall l e, value_map subs l = inr e -> e = EValue _ /\ exists f, In f l /\ substitute f subs = inr e.
Proof.
  induction l as [|x l IH]; intros e; cbn; [discriminate|].
  destruct (substitute x subs) as [g|e0] eqn:E.
  - destruct (value_map subs l) as [t'|e1] eqn:Et; [discriminate|]. intros [= <-]. destruct (IH e1 eq_refl) as (A & f & B & D). eauto.
  - intros [= <-]. split; [apply substitute_inr in E; tauto|eauto].
Qed.

(** ** the stored functions *)
Notation store := (store site C sfun).
Definition stored (h : store) (v : val C sfun) : Prop :=
  exists t nd, In (t, nd) h /\ (onsite nd = v \/ exists x, In (x, SVal v) (outs nd)).
Lemma functions_iff (h : store) f : In f (functions ndec pdec h) <-> exists v, stored h v /\ In f (callable v).
Proof.
  unfold functions. rewrite in_app_iff, !nodup_In, !in_flat_map. split.
  - intros [([s v] & H1 & H2)|([[a b] v] & H1 & H2)].
    + unfold site_value_pairs in H1. apply in_map_iff in H1. destruct H1 as ([t nd] & [= <- <-] & Hin). exists (onsite nd). split; auto. exists t, nd. auto.
    + unfold hopping_value_pairs in H1. apply in_flat_map in H1. destruct H1 as ([t nd] & Hin & H1). unfold node_values in H1. apply in_flat_map in H1.
      destruct H1 as ([x sv] & Hx & H1). cbn in H1. destruct sv as [w|]; [|destruct H1]. destruct H1 as [[= <- <- <-]|[]]. exists w. split; auto. exists t, nd. split; auto. right. exists x. auto.
  - intros (v & (t & nd & Hin & [<-|(x & Hx)]) & Hf).
    + left. exists (t, onsite nd). split; auto. unfold site_value_pairs. apply in_map_iff. exists (t, nd). auto.
    + right. exists (t, x, v). split; auto. unfold hopping_value_pairs. apply in_flat_map. exists (t, nd). split; auto.
      unfold node_values. apply in_flat_map. exists (x, SVal v). split; auto. left. reflexivity.
Qed.
Variable hashable : C -> bool.
Lemma hashable_iff (h : store) : all_hashable hashable h = true <-> forall c, stored h (VConst _ c) -> hashable c = true.
Proof.
  unfold all_hashable. rewrite forallb_forall. split.
  - intros H c (t & nd & Hin & Hv). specialize (H _ Hin). cbn in H. apply andb_true_iff in H. destruct H as [H1 H2]. destruct Hv as [E|(x & Hx)].
    + rewrite E in H1. exact H1.
    + rewrite forallb_forall in H2. exact (H2 _ Hx).
  - intros H [t nd] Hin. cbn. apply andb_true_iff. split.
    + destruct (onsite nd) as [c|f|f] eqn:E; [cbn|reflexivity|reflexivity]. apply H. exists t, nd. auto.
    + apply forallb_forall. intros [x [v|]] Hx; cbn; [|reflexivity]. destruct v as [c|f|f]; cbn; auto. apply H. exists t, nd. split; auto. right. exists x. auto.
Qed.
End S.

(** ** Finalization of a builder with replaced functions *)
Section Fin.
Variable site : Type.
Variable dec : forall a b : site, {a = b} + {a <> b}.
Variable leb : site -> site -> bool.
Variable Sy : Symmetry site.
Variables C F : Type.
Variable conj : C -> C.
Variable junk : nat -> nat -> Z.
Variable f : F -> F.
Notation mf := (@map_store site C F f).
Notation mv := (@map_val C F f).
Notation msv := (@map_sval C F f).
Definition map_system (s : system site C F) : system site C F :=
  mkSys (s_graph s) (s_sites s) (s_ids s) (map mv (s_onsites s)) (map msv (s_hoppings s)) (s_cell s) (s_ifaces s) (s_paddings s).
Definition fmapr {A B} (g : A -> B) (r : fres site A) : fres site B := match r with inl x => inl (g x) | inr e => inr e end.

Lemma keys_map (h : store site C F) : map fst (mf h) = map fst h.
Proof. unfold map_store. rewrite map_map. reflexivity. Qed.
Lemma fbind_fmapr A B D (g : A -> B) (x : fres site A) (k : B -> fres site D) : fbind (fmapr g x) k = fbind x (fun a => k (g a)).
Proof. destruct x; reflexivity. Qed.
Lemma fmapr_fbind A B D (g : B -> D) (x : fres site A) (k : A -> fres site B) : fmapr g (fbind x k) = fbind x (fun a => fmapr g (k a)).
Proof. destruct x; reflexivity. Qed.
Lemma fmap_map A B D (g : B -> D) (k : A -> fres site B) l : fmap (fun x => fmapr g (k x)) l = fmapr (map g) (fmap k l).
Proof.
  induction l as [|x l IH]; [reflexivity|]. cbn [fmap]. rewrite fbind_fmapr, fmapr_fbind. destruct (k x) as [y|e]; [|reflexivity]. cbn [fbind].
  rewrite IH, fbind_fmapr, fmapr_fbind. destruct (fmap k l); reflexivity.
Qed.
Lemma fmap_ext A B (g k : A -> fres site B) l : (forall x, g x = k x) -> fmap g l = fmap k l.
Proof. intros H. induction l as [|x l IH]; [reflexivity|]. cbn. rewrite H, IH. reflexivity. Qed.
Lemma fbind_ext A B (x : fres site A) (g k : A -> fres site B) : (forall a, g a = k a) -> fbind x g = fbind x k.
Proof. intros H. destruct x; cbn; auto. Qed.
Lemma onsite_of_map h s : onsite_of dec (mf h) s = fmapr mv (onsite_of dec h s).
Proof.
  unfold onsite_of. rewrite (lookup_map_store dec). destruct (lookup dec s h); reflexivity.
Qed.
Lemma mem_map h s : mem dec s (mf h) = mem dec s h.
Proof. unfold mem. rewrite (lookup_map_store dec). destruct (lookup dec s h); reflexivity. Qed.
Lemma get_edge_map h a b : of_b (get_edge dec (mf h) a b) = fmapr msv (of_b (get_edge dec h a b)).
Proof.
  unfold get_edge. rewrite (lookup_map_store dec), mem_map. destruct (lookup dec a h) as [nd|]; [|reflexivity]. cbn [option_map outs map_node].
  rewrite (lookup_map_snd dec). destruct (lookup dec b (outs nd)); [reflexivity|]. cbn. destruct (mem dec b h); reflexivity.
Qed.
Lemma finite_node_map ids r t nd : finite_node dec ids r (t, map_node f nd) = @finite_node site dec C F ids r (t, nd).
Proof.
  unfold finite_node. cbn [outs snd map_node fst]. generalize (outs nd). intros l. revert r. induction l as [|[x v] l IH]; intros r; [reflexivity|]. cbn [map fold_left fst]. apply IH.
Qed.
Lemma finite_graph_map ids : forall h r, fold_left (@finite_node site dec C F ids) (mf h) r = fold_left (finite_node dec ids) h r.
Proof.
  induction h as [|[t nd] h IH]; intros r; [reflexivity|]. change (mf ((t, nd) :: h)) with ((t, map_node f nd) :: mf h). cbn [fold_left]. rewrite finite_node_map. apply IH.
Qed.
Lemma finite_map h ifaces pads : finalize_finite dec leb junk (mf h) ifaces pads = fmapr map_system (finalize_finite dec leb junk h ifaces pads).
Proof.
  unfold finalize_finite. rewrite keys_map, finite_graph_map. rewrite !fmapr_fbind. apply fbind_ext. intros g.
  rewrite !fmapr_fbind. apply fbind_ext. intros c. rewrite !fmapr_fbind. apply fbind_ext. intros ifs.
  rewrite (fmap_ext (onsite_of dec (mf h)) (fun s => fmapr mv (onsite_of dec h s)) _ (onsite_of_map h)), fmap_map, fbind_fmapr, fmapr_fbind.
  apply fbind_ext. intros ons. rewrite !fmapr_fbind. apply fbind_ext. intros es.
  erewrite fmap_ext with (k := fun e => fmapr msv (fbind (nth_site _ (fst e)) (fun a => fbind (nth_site _ (snd e)) (fun b => of_b (get_edge dec h a b))))).
  2:{ intros e. rewrite !fmapr_fbind. apply fbind_ext. intros a. rewrite fmapr_fbind. apply fbind_ext. intros b. apply get_edge_map. }
  rewrite fmap_map, fbind_fmapr, fmapr_fbind. apply fbind_ext. intros hops. reflexivity.
Qed.
Variable dom : site -> Z.
Variable tr : Z -> elt Sy.
Lemma has_next_map t nd : @has_next site C F dom (t, map_node f nd) = has_next dom (t, nd).
Proof. unfold has_next. cbn [outs snd map_node]. induction (outs nd) as [|[x v] l IH]; [reflexivity|]. cbn. f_equal. apply IH. Qed.
Lemma filter_next_map (q : bool -> bool) h : map fst (filter (fun p => q (has_next dom p)) (mf h)) = map fst (filter (fun p => q (@has_next site C F dom p)) h).
Proof.
  induction h as [|[t nd] h IH]; [reflexivity|]. change (mf ((t, nd) :: h)) with ((t, map_node f nd) :: mf h). cbn [filter]. rewrite has_next_map. destruct (q (has_next dom (t, nd))); cbn [map fst]; rewrite IH; reflexivity.
Qed.
Lemma infinite_node_map h ids cell r p : infinite_node dec dom (mf h) ids cell r p = infinite_node dec dom h ids cell r p.
Proof.
  unfold infinite_node. rewrite (lookup_map_store dec). destruct (lookup dec (snd p) h) as [nd|]; [|reflexivity]. cbn [option_map outs map_node].
  generalize (outs nd). intros l. revert r. induction l as [|[x v] l IH]; intros r; [reflexivity|]. cbn [map fold_left fst]. apply IH.
Qed.
Lemma infinite_map h order : finalize_infinite dec leb Sy junk dom tr (mf h) order = fmapr map_system (finalize_infinite dec leb Sy junk dom tr h order).
Proof.
  unfold finalize_infinite. rewrite (filter_next_map (fun b => b)), (filter_next_map negb). rewrite !fmapr_fbind. apply fbind_ext. intros [lwith interface].
  rewrite (fmap_ext (onsite_of dec (mf h)) (fun s => fmapr mv (onsite_of dec h s)) _ (onsite_of_map h)), fmap_map, fbind_fmapr, fmapr_fbind.
  apply fbind_ext. intros ons.
  assert (G : forall cell ids l r, fold_left (infinite_node dec dom (mf h) ids cell) l r = fold_left (infinite_node dec dom h ids cell) l r).
  { intros cell ids l. induction l as [|p l IH]; intros r; [reflexivity|]. cbn. rewrite infinite_node_map. apply IH. }
  rewrite G. rewrite !fmapr_fbind. apply fbind_ext. intros g. rewrite !fmapr_fbind. apply fbind_ext. intros c. rewrite !fmapr_fbind. apply fbind_ext. intros es.
  assert (E : forall ss cell e, infinite_hop dec Sy (mf h) ss cell e = fmapr msv (infinite_hop dec Sy h ss cell e)).
  { intros ss cell e. unfold infinite_hop. rewrite !fmapr_fbind. apply fbind_ext. intros a. rewrite fmapr_fbind. apply fbind_ext. intros b.
    destruct (if (Z.of_nat cell <=? fst e)%Z then to_fd2 Sy a b else (a, b)) as [a' b']. apply get_edge_map. }
  rewrite (fmap_ext _ _ _ (E _ _)).
  rewrite fmap_map, fbind_fmapr, fmapr_fbind. apply fbind_ext. intros hops. reflexivity.
Qed.

(** ** Hamiltonian of the mapped system *)
Variables call1 call1' : val C F -> site -> option C.
Variables call2 call2' : F -> site -> site -> option C.
Lemma map_ham (s : system site C F) :
  (forall v x, In v (s_onsites s) -> call_site call1' (mv v) x = call_site call1 v x) ->
  (forall w x y, In (SVal w) (s_hoppings s) -> call_hop conj call2' (mv w) x y = call_hop conj call2 w x y) ->
  forall i j, ham Sy conj call1' call2' (map_system s) i j = ham Sy conj call1 call2 s i j.
Proof.
  intros H1 H2 i j. unfold ham. cbn [map_system s_onsites s_sites s_graph s_hoppings]. destruct (i =? j)%nat.
  - rewrite nth_error_map. destruct (nth_error (s_onsites s) i) as [v|] eqn:E; [|reflexivity]. cbn [option_map]. destruct (nth_error (s_sites s) i); [|reflexivity].
    rewrite H1; auto. eapply nth_error_In; eauto.
  - assert (N : forall k, nth_hop site (map msv (s_hoppings s)) k = fmapr msv (nth_hop site (s_hoppings s) k)).
    { intros k. unfold nth_hop. destruct (k <? 0)%Z; [reflexivity|]. rewrite nth_error_map. destruct (nth_error (s_hoppings s) (Z.to_nat k)); reflexivity. }
    assert (I : forall k v, nth_hop site (s_hoppings s) k = inl v -> In v (s_hoppings s)).
    { intros k v. unfold nth_hop. destruct (k <? 0)%Z; [discriminate|]. destruct (nth_error (s_hoppings s) (Z.to_nat k)) eqn:E; [|discriminate]. intros [= <-]. eapply nth_error_In; eauto. }
    apply fbind_ext. intros id. rewrite N, fbind_fmapr. destruct (nth_hop site (s_hoppings s) id) as [v|e] eqn:E; [|reflexivity]. cbn [fbind].
    apply I in E. destruct v as [w|]; cbn [map_sval].
    + apply fbind_ext. intros a. apply fbind_ext. intros b. destruct (to_fd2 Sy a b) as [a' b']. rewrite H2; auto.
    + apply fbind_ext. intros id2. rewrite N, fbind_fmapr. destruct (nth_hop site (s_hoppings s) id2) as [v|e] eqn:E2; [|reflexivity]. cbn [fbind].
      apply I in E2. destruct v as [w|]; cbn [map_sval]; [|reflexivity].
      apply fbind_ext. intros b. apply fbind_ext. intros a. destruct (to_fd2 Sy b a) as [b' a']. rewrite H2; auto.
Qed.
End Fin.

(** ** The values in a finalized system are stored values of the builder *)
Section Vals.
Variable site : Type.
Variable dec : forall a b : site, {a = b} + {a <> b}.
Variables C F : Type.
Notation store := (store site C F).
Lemma fmap_in A B (k : A -> fres site B) (Q : B -> Prop) : (forall x y, k x = inl y -> Q y) ->
  forall l r, fmap k l = inl r -> forall y, In y r -> Q y.
Proof.
  intros H. induction l as [|x l IH]; intros r; cbn [fmap].
  - intros [= <-] y [].
  - destruct (k x) as [z|] eqn:E; [|discriminate]. cbn [fbind]. destruct (fmap k l) as [r'|] eqn:E'; [|discriminate]. cbn [fbind]. intros [= <-] y [<-|Hy]; eauto.
Qed.
Lemma lookup_In A k (l : list (site * A)) v : lookup dec k l = Some v -> In (k, v) l.
Proof.
  induction l as [|[k' v'] l IH]; [discriminate|]. cbn. unfold eqb. destruct (dec k k') as [->|n]; [intros [= <-]; auto|auto].
Qed.
Definition is_onsite (h : store) (v : val C F) : Prop := exists t nd, In (t, nd) h /\ onsite nd = v.
Definition is_hop (h : store) (v : sval C F) : Prop := exists t nd x, In (t, nd) h /\ In (x, v) (outs nd).
Lemma onsite_of_in h s v : onsite_of dec h s = inl v -> is_onsite h v.
Proof. unfold onsite_of. destruct (lookup dec s h) as [nd|] eqn:E; [|discriminate]. intros [= <-]. apply lookup_In in E. exists s, nd. auto. Qed.
Lemma get_edge_in h a b v : of_b (get_edge dec h a b) = inl v -> is_hop h v.
Proof.
  unfold get_edge. destruct (lookup dec a h) as [nd|] eqn:E; [|discriminate]. destruct (lookup dec b (outs nd)) as [w|] eqn:E'.
  - cbn. intros [= <-]. apply lookup_In in E. apply lookup_In in E'. exists a, nd, b. auto.
  - destruct (mem dec b h); discriminate.
Qed.
Ltac fb H := match type of H with fbind ?x _ = inl _ => destruct x eqn:?; [cbn [fbind] in H|discriminate H] end.
Lemma finite_vals leb junk (h : store) ifs pds s : finalize_finite dec leb junk h ifs pds = inl s ->
  (forall v, In v (s_onsites s) -> is_onsite h v) /\ (forall v, In v (s_hoppings s) -> is_hop h v).
Proof.
  intros H. unfold finalize_finite in H. fb H. fb H. fb H. fb H. fb H. fb H. injection H as <-. cbn [s_onsites s_hoppings]. split.
  - eapply fmap_in; [|eassumption]. intros; eapply onsite_of_in; eauto.
  - eapply fmap_in; [|eassumption]. cbn beta. intros x y E. fb E. fb E. eapply get_edge_in; eauto.
Qed.
Lemma infinite_vals leb Sy junk dom tr (h : store) order s : finalize_infinite dec leb Sy junk dom tr h order = inl s ->
  (forall v, In v (s_onsites s) -> is_onsite h v) /\ (forall v, In v (s_hoppings s) -> is_hop h v).
Proof.
  intros H. unfold finalize_infinite in H. fb H. destruct p as [lw itf]. fb H. fb H. fb H. fb H. fb H. injection H as <-. cbn [s_onsites s_hoppings]. split.
  - eapply fmap_in; [|eassumption]. intros; eapply onsite_of_in; eauto.
  - eapply fmap_in; [|eassumption]. cbn beta. intros x y E. unfold infinite_hop in E. fb E. fb E. destruct (if _ : bool then _ else _) as [a' b']. eapply get_edge_in; eauto.
Qed.
End Vals.
