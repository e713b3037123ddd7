(** * C37: parameter-name substitution.

    [P] are the user's functions, with their parameter names; [sfuns P] also
    contains those with renamed parameters.  [rename ndec subs p] is the new name
    of parameter [p] (itself if it is not mentioned in [subs]). *)
From Coq Require Import List Bool Arith ZArith Lia.
From Verif Require Import BuilderModel BuilderInv BuilderMain BuilderSpec BuilderProps SymmetryModel GraphModel SystemModel
  ParamModel SubstModel SubstProofs.
Import ListNotations.

Section C37.
Variables site obj name C : Type.
Variable ndec : forall a b : name, {a = b} + {a <> b}.
Variable P : pyfuns site obj name C.
Variable pdec : forall a b : P, {a = b} + {a <> b}.
Notation sfun := (sfun P).
Notation rename := (rename ndec).
Notation substitute := (@substitute_params site obj name C ndec P).
Notation params := (@s_params site obj name C P).
Notation call := (@s_call site obj name C P).
Notation call1 := (@call1 site obj name C (sfuns P)).
Notation call2 := (@call2 site obj name C (sfuns P)).

(** The result has the renamed parameters, which are distinct, in the same order,
    and does the same with positional arguments; hence, with arguments given by
    name, it uses for each parameter the value of the new name. *)
Theorem C37_rename : forall g subs g', substitute g subs = inl g' ->
  params g' = map (rename subs) (params g) /\ NoDup (params g') /\ (forall args, call g' args = call g args).
Proof.
  intros g subs g' H. apply substitute_inl in H. destruct H as (A & B & D). split; auto. split; auto.
  intros args. unfold s_call. rewrite D. reflexivity.
Qed.
Theorem C37_routing : forall g subs g', substitute g subs = inl g' -> forall env,
  (forall a b, call2 env g' a b = call2 (fun p => env (rename subs p)) g a b) /\
  (forall s, call1 env (VFun C g') s = call1 (fun p => env (rename subs p)) (VFun C g) s).
Proof. intros g subs g' H env. exact (@route_ok site obj name C ndec P g subs g' H env). Qed.

(** ValueError exactly if two parameters would get the same name. *)
Theorem C37_rejects : forall g subs, NoDup (params g) ->
  (substitute g subs = inr (EValue _) <->
   exists p q, In p (params g) /\ In q (params g) /\ p <> q /\ rename subs p = rename subs q) /\
  (forall e, substitute g subs = inr e -> e = EValue _).
Proof.
  intros g subs ND. split; [|intros e H; apply substitute_inr in H; tauto].
  rewrite <- (map_merge ndec (rename subs) ND). split.
  - intros H. apply substitute_inr in H. tauto.
  - intros H. destruct (substitute g subs) as [g'|e] eqn:E.
    + apply substitute_inl in E. destruct E as (E & N & _). rewrite E in N. contradiction.
    + apply substitute_inr in E. destruct E as [-> _]. reflexivity.
Qed.

(** Renaming to the same names returns the function itself. *)
Theorem C37_identity : forall g subs, NoDup (params g) -> (forall p, In p (params g) -> rename subs p = p) ->
  substitute g subs = inl g.
Proof.
  intros g subs ND H. assert (E : map (rename subs) (params g) = params g). { rewrite <- map_id. apply map_ext_in. auto. }
  unfold substitute_params. rewrite E. rewrite (proj2 (duplicates_false ndec _) ND).
  destruct (list_eq_dec ndec (params g) (params g)); congruence.
Qed.

(** Two renamings in sequence amount to the composed one. *)
Theorem C37_compose : forall g s1 s2 s3 g1, substitute g s1 = inl g1 ->
  (forall p, In p (params g) -> rename s3 p = rename s2 (rename s1 p)) ->
  match substitute g1 s2, substitute g s3 with
  | inl a, inl b => params a = params b /\ forall args, call a args = call b args
  | inr e, inr e' => e = e'
  | _, _ => False
  end.
Proof.
  intros g s1 s2 s3 g1 H1 H. apply substitute_inl in H1. destruct H1 as (A1 & B1 & D1).
  assert (E : map (rename s2) (params g1) = map (rename s3) (params g)).
  { rewrite A1, map_map. apply map_ext_in. intros p Hp. symmetry. auto. }
  destruct (substitute g1 s2) as [a|e] eqn:Ea, (substitute g s3) as [b|e'] eqn:Eb.
  - apply substitute_inl in Ea. apply substitute_inl in Eb. destruct Ea as (A & _ & A'). destruct Eb as (B & _ & B').
    split; [congruence|]. intros args. unfold s_call. congruence.
  - apply substitute_inl in Ea. apply substitute_inr in Eb. destruct Ea as (A & N & _). rewrite A, E in N. tauto.
  - apply substitute_inl in Eb. apply substitute_inr in Ea. destruct Eb as (A & N & _). rewrite A, <- E in N. tauto.
  - apply substitute_inr in Ea. apply substitute_inr in Eb. destruct Ea, Eb. congruence.
Qed.

(** ** Builder.substituted *)
Variable dec : forall a b : site, {a = b} + {a <> b}.
Variable Sy : Symmetry site.
Hypothesis L : SymLaws Sy.
Variable conj : C -> C.
Variable hashable : C -> bool.
Notation reachable := (@reachable site dec Sy C sfun).
Notation read_site := (@read_site site dec Sy C conj sfun).
Notation read_hop := (@read_hop site dec Sy C conj sfun).
Notation substituted := (substituted ndec pdec hashable).

(** the values and the functions in a builder *)
Definition has_value (h : store site C sfun) (v : val C sfun) : Prop :=
  (exists s, In (s, v) (site_value_pairs h)) \/ (exists a b, In (a, b, v) (hopping_value_pairs h)).
Definition uses (h : store site C sfun) (f : sfun) : Prop := has_value h (VFun C f) \/ has_value h (VHC C f).

Lemma value_stored h v : has_value h v <-> stored h v.
Proof.
  split.
  - intros [(s & H)|(a & b & H)].
    + unfold site_value_pairs in H. apply in_map_iff in H. destruct H as ([t nd] & [= <- <-] & Hin). exists t, nd. auto.
    + unfold hopping_value_pairs in H. apply in_flat_map in H. destruct H as ([t nd] & Hin & H1). unfold node_values in H1. apply in_flat_map in H1.
      destruct H1 as ([x sv] & Hx & H1). cbn in H1. destruct sv as [w|]; [|destruct H1]. destruct H1 as [[= <- <- <-]|[]]. exists t, nd. split; auto. right. exists x. auto.
  - intros (t & nd & Hin & [<-|(x & Hx)]).
    + left. exists t. unfold site_value_pairs. apply in_map_iff. exists (t, nd). auto.
    + right. exists t, x. unfold hopping_value_pairs. apply in_flat_map. exists (t, nd). split; auto.
      unfold node_values. apply in_flat_map. exists (x, SVal v). split; auto. left. reflexivity.
Qed.
Lemma uses_iff h f : uses h f <-> In f (functions ndec pdec h).
Proof.
  rewrite functions_iff. unfold uses. rewrite !value_stored. split.
  - intros [H|H]; eexists; (split; [exact H|]); left; reflexivity.
  - intros (v & H & Hf). destruct v as [c|g|g]; [destruct Hf| |]; (destruct Hf as [->|[]]); auto.
Qed.
Lemma getitem_map (f : sfun -> sfun) (h : store site C sfun) k : getitem dec Sy conj (map_store f h) k = match getitem dec Sy conj h k with inl v => inl (map_val f v) | inr e => inr e end.
Proof.
  assert (G : forall a b, get_edge dec (map_store f h) a b = match get_edge dec h a b with inl v => inl (map_sval f v) | inr e => inr e end).
  { intros a b. unfold get_edge. rewrite (lookup_map_store dec), (mem_map dec). destruct (lookup dec a h) as [nd|]; [|reflexivity]. cbn [option_map outs map_node].
    rewrite (lookup_map_snd dec). destruct (lookup dec b (outs nd)); [reflexivity|]. cbn. destruct (mem dec b h); reflexivity. }
  assert (Hc : forall v : sval C sfun, herm_conj_stored site conj (map_sval f v) = match herm_conj_stored site conj v with inl v => inl (map_val f v) | inr e => inr e end).
  { intros [[c|g|g]|]; reflexivity. }
  unfold getitem. destruct k as [s|a b| |].
  - rewrite (lookup_map_store dec). destruct (lookup dec (to_fd Sy s) h); reflexivity.
  - destruct (validate_hopping dec (KHop a b)) as [[x y]|e]; [|reflexivity]. destruct (to_fd2 Sy x y) as [x' y']. rewrite G.
    destruct (get_edge dec h x' y') as [[v|]|e]; [reflexivity| |reflexivity]. cbn [map_sval]. destruct (in_fd Sy y').
    + rewrite G. destruct (get_edge dec h y' x'); [apply Hc|reflexivity].
    + destruct (to_fd2 Sy y' x') as [y2 x2]. destruct (in_fd Sy x2); [reflexivity|]. rewrite G. destruct (get_edge dec h y2 x2); [apply Hc|reflexivity].
  - reflexivity.
  - reflexivity.
Qed.

(** On success, nothing but the functions changes, and each is replaced by its
    substituted version. *)
Theorem C37_builder : forall h leads subs h', reachable h -> substituted leads h subs = inl h' ->
  reachable h' /\ sites h' = sites h /\ hoppings h' = hoppings h /\
  exists sub, (forall f, uses h f -> substitute f subs = inl (sub f)) /\
    (forall s, read_site h' s = option_map (map_val sub) (read_site h s)) /\
    (forall a b, read_hop h' a b = option_map (map_val sub) (read_hop h a b)).
Proof.
  intros h leads subs h' R H. unfold SubstModel.substituted in H. destruct leads; [discriminate|].
  destruct (value_map ndec subs (functions ndec pdec h)) as [t|] eqn:E; [|discriminate]. destruct (all_hashable hashable h); [|discriminate].
  injection H as <-. split; [apply r_map; auto|]. split; [apply keys_map|]. split.
  { unfold hoppings, map_store. rewrite flat_map_concat_map, map_map, <- flat_map_concat_map. apply flat_map_ext. intros [x nd]. cbn [fst snd outs map_node].
    rewrite flat_map_concat_map, map_map, <- flat_map_concat_map. apply flat_map_ext. intros [y [v|]]; reflexivity. }
  exists (get ndec pdec t). split.
  { intros f Hf. apply (value_map_inl ndec pdec subs _ E f). apply uses_iff; auto. }
  split; intros; unfold BuilderSpec.read_site, BuilderSpec.read_hop; rewrite getitem_map; destruct (getitem dec Sy conj h _); reflexivity.
Qed.

(** Exceptions: leads, merged names; and a constant that has no hash value, such
    as a numpy array (unless one of the other two errors comes first). *)
Theorem C37_builder_errors : forall h leads subs,
  match substituted leads h subs with
  | inl _ => leads = false /\ (forall f, uses h f -> NoDup (map (rename subs) (params f))) /\
             (forall c, has_value h (VConst _ c) -> hashable c = true)
  | inr e => (e = EValue _ /\ (leads = true \/ exists f, uses h f /\ ~ NoDup (map (rename subs) (params f)))) \/
             (e = EType _ /\ exists c, has_value h (VConst _ c) /\ hashable c = false)
  end.
Proof.
  intros h leads subs. unfold SubstModel.substituted. destruct leads; [left; auto|].
  destruct (value_map ndec subs (functions ndec pdec h)) as [t|e] eqn:E.
  - destruct (all_hashable hashable h) eqn:A.
    + split; auto. split.
      * intros f Hf. apply uses_iff in Hf. apply (value_map_inl ndec pdec subs _ E f) in Hf. apply substitute_inl in Hf. destruct Hf as (X & Y & _). rewrite X in Y. exact Y.
      * intros c Hc. apply value_stored in Hc. apply (proj1 (hashable_iff hashable h) A); auto.
    + right. split; auto. unfold all_hashable in A. apply Bool.not_true_iff_false in A.
      assert (X : ~ forall c, stored h (VConst _ c) -> hashable c = true) by (intros X; apply A; apply (proj2 (hashable_iff hashable h)); exact X).
      (* find it *)
      assert (D : (exists c, stored h (VConst sfun c) /\ hashable c = false) \/ forall c, stored h (VConst sfun c) -> hashable c = true).
      { set (vals := map (fun p => snd p) (site_value_pairs h) ++ map (fun p => snd p) (hopping_value_pairs h)).
        assert (S : forall v, stored h v <-> In v vals).
        { intros v. rewrite <- value_stored. unfold vals. rewrite in_app_iff, !in_map_iff. split.
          - intros [(s & K)|(a & b & K)]; [left; exists (s, v)|right; exists (a, b, v)]; auto.
          - intros [([s w] & <- & K)|([[a b] w] & <- & K)]; [left; exists s|right; exists a, b]; auto. }
        destruct (existsb (fun v => negb (val_hashable hashable v)) vals) eqn:Ex.
        - apply existsb_exists in Ex. destruct Ex as (v & Hv & Hb). destruct v as [c|g|g]; try discriminate. left. exists c. split; [apply S; auto|]. cbn in Hb. destruct (hashable c); [discriminate|reflexivity].
        - right. intros c Hc. destruct (hashable c) eqn:Hh; auto. exfalso. apply Bool.not_true_iff_false in Ex. apply Ex. apply existsb_exists. exists (VConst _ c). split; [apply S; auto|]. cbn. rewrite Hh. reflexivity. }
      destruct D as [(c & D1 & D2)|D]; [|contradiction]. exists c. split; auto. apply value_stored; auto.
  - left. apply value_map_inr in E. destruct E as (-> & f & Hf & Hs). split; auto. right. exists f. split; [apply uses_iff; auto|]. apply substitute_inr in Hs. tauto.
Qed.

(** The Hamiltonian of the finalized system: the parameters are looked up under
    their new names; everything else is the same.  [leb]: order of sites. *)
Variable leb : site -> site -> bool.
Variable junk : nat -> nat -> Z.
Notation hamiltonian env := (ham Sy conj (call1 env) (call2 env)).
Lemma calls_ok h subs t (env : name -> option obj) : value_map ndec subs (functions ndec pdec h) = inl t ->
  (forall v, stored h v -> forall x, call_site (call1 env) (map_val (get ndec pdec t) v) x = call_site (call1 (fun p => env (rename subs p))) v x) /\
  (forall v, stored h v -> forall x y, call_hop conj (call2 env) (map_val (get ndec pdec t) v) x y = call_hop conj (call2 (fun p => env (rename subs p))) v x y).
Proof.
  intros E. assert (G : forall v f, stored h v -> In f (callable v) -> substitute f subs = inl (get ndec pdec t f)).
  { intros v f Hv Hf. apply (value_map_inl ndec pdec subs _ E f). apply functions_iff. eauto. }
  split; intros v Hv; [intros x|intros x y]; destruct v as [c|f|f]; cbn [map_val call_site call_hop]; auto.
  - destruct (C37_routing _ _ _ (G _ f Hv (or_introl eq_refl)) env) as [_ X]. exact (X x).
  - destruct (C37_routing _ _ _ (G _ f Hv (or_introl eq_refl)) env) as [X _]. exact (X x y).
  - destruct (C37_routing _ _ _ (G _ f Hv (or_introl eq_refl)) env) as [X _]. f_equal. exact (X y x).
Qed.
Theorem C37_finite : forall h leads subs h' ifaces pads s, substituted leads h subs = inl h' ->
  finalize_finite dec leb junk h ifaces pads = inl s ->
  exists s', finalize_finite dec leb junk h' ifaces pads = inl s' /\
    s_sites s' = s_sites s /\ s_graph s' = s_graph s /\ s_ifaces s' = s_ifaces s /\
    forall env i j, hamiltonian env s' i j = hamiltonian (fun p => env (rename subs p)) s i j.
Proof.
  intros h leads subs h' ifaces pads s H F. unfold SubstModel.substituted in H. destruct leads; [discriminate|].
  destruct (value_map ndec subs (functions ndec pdec h)) as [t|] eqn:E; [|discriminate]. destruct (all_hashable hashable h); [|discriminate].
  injection H as <-. rewrite finite_map, F. cbn [fmapr]. eexists. split; [reflexivity|]. split; [reflexivity|]. split; [reflexivity|]. split; [reflexivity|].
  intros env i j. destruct (finite_vals dec leb junk h ifaces pads F) as [V1 V2]. destruct (calls_ok h subs t env E) as [K1 K2].
  apply map_ham.
  - intros v x Hv. apply K1. apply V1 in Hv. destruct Hv as (a & nd & A & B). exists a, nd. auto.
  - intros w x y Hw. apply K2. apply V2 in Hw. destruct Hw as (a & nd & b & A & B). exists a, nd. eauto.
Qed.
Theorem C37_infinite : forall dom tr h leads subs h' order s, substituted leads h subs = inl h' ->
  finalize_infinite dec leb Sy junk dom tr h order = inl s ->
  exists s', finalize_infinite dec leb Sy junk dom tr h' order = inl s' /\
    s_sites s' = s_sites s /\ s_graph s' = s_graph s /\ s_cell s' = s_cell s /\
    forall env i j, ham_inf Sy conj (call1 env) (call2 env) s' i j =
      ham_inf Sy conj (call1 (fun p => env (rename subs p))) (call2 (fun p => env (rename subs p))) s i j.
Proof.
  intros dom tr h leads subs h' order s H F. unfold SubstModel.substituted in H. destruct leads; [discriminate|].
  destruct (value_map ndec subs (functions ndec pdec h)) as [t|] eqn:E; [|discriminate]. destruct (all_hashable hashable h); [|discriminate].
  injection H as <-. rewrite infinite_map, F. cbn [fmapr]. eexists. split; [reflexivity|]. split; [reflexivity|]. split; [reflexivity|]. split; [reflexivity|].
  intros env i j. destruct (infinite_vals dec leb Sy junk dom tr h order F) as [V1 V2]. destruct (calls_ok h subs t env E) as [K1 K2].
  assert (X : forall i j, hamiltonian env (map_system (get ndec pdec t) s) i j = hamiltonian (fun p => env (rename subs p)) s i j).
  { intros i' j'. apply map_ham.
    - intros v x Hv. apply K1. apply V1 in Hv. destruct Hv as (a & nd & A & B). exists a, nd. auto.
    - intros w x y Hw. apply K2. apply V2 in Hw. destruct Hw as (a & nd & b & A & B). exists a, nd. eauto. }
  unfold ham_inf. rewrite !X. reflexivity.
Qed.
End C37.

Print Assumptions C37_rename.
Print Assumptions C37_routing.
Print Assumptions C37_rejects.
Print Assumptions C37_identity.
Print Assumptions C37_compose.
Print Assumptions C37_builder.
Print Assumptions C37_builder_errors.
Print Assumptions C37_finite.
Print Assumptions C37_infinite.

(** *** A concrete case.  Names: 0 "site", 1 "a", 2 "b", 3 "site1", 4 "site2",
    5 "c".  onsite(site, a, b), hopping(site1, site2, b, c). *)
Definition ex_call (f : bool) (l : list (arg Z Z)) : option Z :=
  match f, l with
  | false, [ASite s; AObj a; AObj b] => Some (100 * s + 10 * a + b)%Z
  | true, [ASite s; ASite t; AObj b; AObj c] => Some (1000 * s + 100 * t + 10 * b + c)%Z
  | _, _ => None
  end.
Definition exP : pyfuns Z Z nat Z := mkFuns (fun f : bool => if f then [3; 4; 2; 5] else [0; 1; 2])%nat ex_call.
Notation exsfun := (sfun exP).
Definition ex_on : exsfun := Plain exP false.
Definition ex_hop : exsfun := Plain exP true.
(** swapping two names; merging two; renaming to the name of the site parameter *)
Example ex_swap : substitute_params (site:=Z) Nat.eq_dec ex_on [(1, 2); (2, 1)]%nat = inl (Substituted exP false [0; 2; 1]%nat).
Proof. reflexivity. Qed.
Example ex_merge : substitute_params (site:=Z) Nat.eq_dec ex_on [(1, 2)]%nat = inr (EValue _) /\
  substitute_params (site:=Z) Nat.eq_dec ex_on [(1, 0)]%nat = inr (EValue _).
Proof. split; reflexivity. Qed.
Definition zNS := NoSymmetry Z.
Definition ex_sys : store Z Z exsfun :=
  let set h k v := fst (setitem Z.eq_dec zNS h (Simple (site:=Z) Z exsfun k) v) in
  set (set (set [] (KSite 1) (VFun Z ex_on)) (KSite 2) (VConst _ 8)) (KHop 2 1) (VFun Z ex_hop).
Example ex_sys_reachable : reachable Z.eq_dec zNS ex_sys.
Proof. repeat apply r_set. apply r_empty. Qed.
Definition ex_env (n : nat) : option Z := match n with 1%nat => Some 3%Z | 2%nat => Some 5%Z | 5%nat => Some 7%Z | 9%nat => Some 6%Z | _ => None end.
Definition ex_ham (h : store Z Z exsfun) (i j : nat) : fres Z Z :=
  match finalize_finite Z.eq_dec Z.leb (fun _ _ => 0%Z) h [] [] with
  | inl s => ham zNS (fun c => - c)%Z (@call1 Z Z nat Z (sfuns exP) ex_env) (@call2 Z Z nat Z (sfuns exP) ex_env) s i j
  | inr e => inr e
  end.
Example ex_before : map (fun p => ex_ham ex_sys (fst p) (snd p)) [(0, 0); (1, 1); (1, 0); (0, 1)]%nat = [inl 135; inl 8; inl 2157; inl (-2157)]%Z.
Proof. vm_compute. reflexivity. Qed.
(** b and a swapped, c renamed to 9 *)
Example ex_after :
  match substituted (P:=exP) Nat.eq_dec Bool.bool_dec (fun _ => true) false ex_sys [(1, 2); (2, 1); (5, 9)]%nat with
  | inl h' => map (fun p => ex_ham h' (fst p) (snd p)) [(0, 0); (1, 1); (1, 0); (0, 1)]%nat
  | inr _ => []
  end = [inl 153; inl 8; inl 2136; inl (-2136)]%Z.
Proof. vm_compute. reflexivity. Qed.
(** An unhashable constant (a numpy array) makes substituted() fail. *)
Example ex_unhashable : substituted (P:=exP) Nat.eq_dec Bool.bool_dec (fun c => negb (c =? 8)%Z) false ex_sys [(5, 9)]%nat = inr (EType _).
Proof. reflexivity. Qed.
