(** * Properties C01-C12 and C15 of kwant.builder.Builder.

    [site], its equality, the constants [C] with their conjugation [conj] and
    the callables [F] are arbitrary; the symmetry [Sy] is any structure obeying
    the group-action laws [SymLaws], which both NoSymmetry and every
    TranslationalSymmetry with exact data do (see the examples at the end and
    SymmetryProps.v). *)
From Coq Require Import List Bool Arith ZArith.
From Verif Require Import BuilderModel BuilderProofs BuilderSpec BuilderMain BuilderMain2
  HoppingKindModel SymmetryModel SymmetryProofs SymmetryProps.
Import ListNotations.

Section Props.
Variable site : Type.
Variable dec : forall a b : site, {a = b} + {a <> b}.
Variable Sy : Symmetry site.
Hypothesis L : SymLaws Sy.
Variable C : Type.
Variable conj : C -> C.
Variable F : Type.

Notation store := (store site C F).
Notation getitem := (@getitem site dec Sy C conj F).
Notation contains := (@contains site dec Sy C F).
Notation setitem := (@setitem site dec Sy C F).
Notation delitem := (@delitem site dec Sy C F).
Notation neighbors := (@neighbors site dec Sy C F).
Notation degree := (@degree site dec Sy C F).
Notation reachable := (@reachable site dec Sy C F).
Notation same_site := (same_site Sy).
Notation same_hop := (same_hop Sy).
Notation read_site := (@read_site site dec Sy C conj F).
Notation read_hop := (@read_hop site dec Sy C conj F).
Notation hconj := (@hconj C conj F).
Notation abs := (@abs site dec Sy C conj F).
Notation simple k := (Simple C F k).

(** ** C01: Hermiticity. *)
Theorem C01_hermitian : (forall c, conj (conj c) = c) ->
  forall h, reachable h ->
  forall a b, read_hop h b a = option_map hconj (read_hop h a b).
Proof. exact (fun I h R a b => main_C01 L conj I R a b). Qed.

(** ** C02: refinement of the abstract last-write-wins mapping, one step and
    for whole histories (starting from the empty builder, or from any reachable
    one). *)
Theorem C02_step : forall h o, reachable h ->
  spec_step Sy conj (abs h) o (is_ok (snd (exec1 dec Sy h o))) (abs (fst (exec1 dec Sy h o))).
Proof. exact (fun h o R => main_step L conj o (reach_WF L R)). Qed.

Theorem C02_history : forall os h, reachable h ->
  spec_run Sy conj (abs h) (snd (exec dec Sy h os)) (abs (fst (exec dec Sy h os))).
Proof. exact (fun os h R => exec_run L conj os (reach_WF L R)). Qed.

Theorem C02_empty : forall s a b, read_site [] s = None /\ read_hop [] a b = None.
Proof. exact (fun s a b => main_empty dec Sy conj F s a b). Qed.

(** The exceptions of a failing hopping assignment. *)
Theorem C02_errors : forall h a b v e, reachable h ->
  snd (setitem h (simple (KHop a b)) v) = Some e ->
  (a = b /\ e = EValue site) \/
  (a <> b /\ exists s, e = EKeySite s /\ read_site h s = None /\ (same_site a s \/ same_site b s)).
Proof. exact (fun h a b v e R => main_set_errors L conj a b v R). Qed.

(** ** C03: reads do not distinguish symmetry images. *)
Theorem C03_invariant : forall h g s a b,
  getitem h (KSite (act Sy g s)) = getitem h (KSite s) /\
  getitem h (KHop (act Sy g a) (act Sy g b)) = getitem h (KHop a b) /\
  contains h (KSite (act Sy g s)) = contains h (KSite s) /\
  contains h (KHop (act Sy g a) (act Sy g b)) = contains h (KHop a b) /\
  degree h (act Sy g s) = degree h s.
Proof. exact (fun h g s a b => Logic.conj (main_C03_site dec L conj h g s)
  (Logic.conj (main_C03_hop dec L conj h g a b) (Logic.conj (main_C03_csite dec L h g s)
  (Logic.conj (main_C03_chop dec L h g a b) (main_C03_deg dec L h g s))))). Qed.

Theorem C03_neighbors : forall h g s, reachable h ->
  match neighbors h s with
  | inl l => exists l', neighbors h (act Sy g s) = inl l' /\ l' = map (act Sy g) l
  | inr e => neighbors h (act Sy g s) = inr e
  end.
Proof. exact (fun h g s R => main_C03_nb L g s R). Qed.

(** ** C04: failing one-key operations leave the builder untouched. *)
Theorem C04_set_atomic : forall h k v h' e, reachable h ->
  setitem h (simple k) v = (h', Some e) -> h' = h.
Proof. exact (fun h k v h' e R => main_C04_set L k v R). Qed.
Theorem C04_del_atomic : forall h k h' e, reachable h ->
  delitem h (simple k) = (h', Some e) -> h' = h.
Proof. exact (fun h k h' e R => main_C04_del L k R). Qed.

(** ** C05: deleting a site. *)
Theorem C05_delete_site : forall h s, reachable h ->
  (read_site h s = None -> exists e, delitem h (simple (KSite s)) = (h, Some e)) /\
  (read_site h s <> None ->
   exists h', delitem h (simple (KSite s)) = (h', None) /\
    (forall t, same_site s t -> read_site h' t = None) /\
    (forall t, ~ same_site s t -> read_site h' t = read_site h t) /\
    (forall x y, same_site s x \/ same_site s y -> read_hop h' x y = None) /\
    (forall x y, ~ same_site s x -> ~ same_site s y -> read_hop h' x y = read_hop h x y)).
Proof. exact (fun h s R => main_C05 L conj s R). Qed.

(** ** C06: deleting a hopping. *)
Theorem C06_delete_hopping : forall h a b, reachable h -> a <> b ->
  (read_hop h a b = None -> exists e, delitem h (simple (KHop a b)) = (h, Some e) /\
     ((exists s, e = EKeySite s) \/ exists s t, e = EKeyHop s t)) /\
  (read_hop h a b <> None ->
   exists h', delitem h (simple (KHop a b)) = (h', None) /\
    (forall t, read_site h' t = read_site h t) /\
    (forall x y, same_hop a b x y \/ same_hop b a x y -> read_hop h' x y = None) /\
    (forall x y, ~ same_hop a b x y -> ~ same_hop b a x y -> read_hop h' x y = read_hop h x y)).
Proof. exact (fun h a b R n => main_C06 L conj R n). Qed.

(** ** C07: membership. *)
Theorem C07_contains_site : forall h s,
  contains h (KSite s) = inl true <-> read_site h s <> None.
Proof. exact (fun h s => main_C07_site dec Sy conj h s). Qed.
Theorem C07_contains_hopping : forall h a b, reachable h ->
  contains h (KHop a b) = inl true <-> read_hop h a b <> None.
Proof. exact (fun h a b R => main_C07_hop L conj a b R). Qed.
Theorem C07_contains_total : forall (h : store) a b, a <> b -> exists r, contains h (KHop a b) = inl r.
Proof. exact (fun h a b n => main_C07_total dec Sy h n). Qed.
Theorem C07_contains_symmetric : forall h a b, reachable h ->
  contains h (KHop a b) = contains h (KHop b a).
Proof. exact (fun h a b R => main_C07_sym L a b R). Qed.
Theorem C07_hopping_has_sites : forall h a b, reachable h ->
  contains h (KHop a b) = inl true ->
  contains h (KSite a) = inl true /\ contains h (KSite b) = inl true.
Proof. exact (fun h a b R => main_C07_ends L a b R). Qed.

(** ** C08: enumeration. *)
Theorem C08_sites : forall h, reachable h ->
  NoDup (sites h) /\
  (forall s, In s (sites h) -> contains h (KSite s) = inl true) /\
  (forall s, contains h (KSite s) = inl true ->
     exists r, In r (sites h) /\ same_site s r /\
       forall r', In r' (sites h) -> same_site s r' -> r' = r).
Proof. exact (fun h R => main_C08_sites L R). Qed.
Theorem C08_site_value_pairs : forall h, reachable h ->
  map fst (site_value_pairs h) = sites h /\
  forall s v, In (s, v) (site_value_pairs h) -> read_site h s = Some v.
Proof. exact (fun h R => main_C08_svp L conj R). Qed.
Theorem C08_hoppings : forall h, reachable h ->
  NoDup (hoppings h) /\
  hoppings h = map fst (hopping_value_pairs h) /\
  (forall a b v, In (a, b, v) (hopping_value_pairs h) -> read_hop h a b = Some v) /\
  (forall a b, contains h (KHop a b) = inl true ->
     exists x y, In (x, y) (hoppings h) /\ (same_hop a b x y \/ same_hop b a x y) /\
       forall x' y', In (x', y') (hoppings h) ->
         same_hop a b x' y' \/ same_hop b a x' y' -> (x', y') = (x, y)).
Proof. exact (fun h R => main_C08_hoppings L conj R). Qed.

(** ** C09: neighbors and degree. *)
Theorem C09_neighbors : forall h s, reachable h ->
  (contains h (KSite s) = inl true ->
   exists l, neighbors h s = inl l /\ NoDup l /\ degree h s = inl (length l) /\
     forall t, In t l <-> contains h (KHop s t) = inl true) /\
  (contains h (KSite s) = inl false ->
   exists e, neighbors h s = inr e /\ degree h s = inr e).
Proof. exact (fun h s R => main_C09 L s R). Qed.
Theorem C09_neighbors_symmetric : forall h s t ls lt, reachable h ->
  neighbors h s = inl ls -> neighbors h t = inl lt -> (In t ls <-> In s lt).
Proof. exact (fun h s t ls lt R => main_C09_sym L s t R). Qed.

(** ** C10: eradicate_dangling computes the 2-core: it terminates without error,
    the survivors form a self-supporting set of the original builder and every
    self-supporting set survives; values among survivors are unchanged. *)
Theorem C10_two_core : forall h, reachable h ->
  exists h', eradicate_dangling dec Sy h = (h', None) /\
    (forall s n, degree h' s = inl n -> (2 <= n)%nat) /\
    (forall s, contains h' (KSite s) = inl true -> contains h (KSite s) = inl true) /\
    (forall X, self_supporting dec Sy h X -> forall s, X s = true -> contains h' (KSite s) = inl true) /\
    self_supporting dec Sy h (fun s => mem dec (to_fd Sy s) h') /\
    (forall s, contains h' (KSite s) = inl true -> read_site h' s = read_site h s) /\
    (forall a b, contains h' (KSite a) = inl true -> contains h' (KSite b) = inl true ->
       read_hop h' a b = read_hop h a b).
Proof. exact (fun h R => main_C10 L conj R). Qed.

(** ** C11: general keys. *)
Theorem C11_general_key_set : forall (h : store) k v r,
  setitem h k v = r <->
  processes (fun h sk => setitem h (simple sk) v) None h [k] r.
Proof. exact (fun h k v r => main_C11_set dec Sy h k v r). Qed.
Theorem C11_general_key_del : forall (h : store) k r,
  delitem h k = r <-> processes (fun h sk => delitem h (simple sk)) None h [k] r.
Proof. exact (fun h k r => main_C11_del dec Sy h k r). Qed.
Theorem C11_flat_set : forall (h : store) k ks v, simple_keys k = Some ks ->
  (exists b, forall k, In k ks -> is_site_key k = b) ->
  setitem h k v = assign_all dec Sy h ks v.
Proof. exact (fun h k ks v => @main_C11_flat site dec Sy C F h k ks v). Qed.
Theorem C11_flat_del : forall (h : store) k ks, simple_keys k = Some ks ->
  (exists b, forall k, In k ks -> is_site_key k = b) ->
  delitem h k = delete_all dec Sy h ks.
Proof. exact (fun h k ks => @main_C11_flat_del site dec Sy C F h k ks). Qed.

(** ** C12: update. *)
Theorem C12_update : forall h o, reachable h -> reachable o ->
  exists h', update dec Sy h o = (h', None) /\
    (forall s, read_site h' s = match read_site o s with Some v => Some v | None => read_site h s end) /\
    (forall a b, read_hop h' a b = match read_hop o a b with Some v => Some v | None => read_hop h a b end).
Proof. exact (fun h o R Ro => main_C12 L conj R Ro). Qed.

Theorem C12_update_empty : forall o, reachable o ->
  exists h', update dec Sy [] o = (h', None) /\
    (forall s, read_site h' s = read_site o s) /\
    (forall a b, read_hop h' a b = read_hop o a b).
Proof. exact (fun o Ro => main_C12_empty L conj Ro). Qed.

(** ** C15: HoppingKind.  [tag_of]/[mk]/[tsub] are the tag, the site constructor
    and the componentwise difference of tags. *)
Section C15.
Variables fam tag : Type.
Variable fdec : forall a b : fam, {a = b} + {a <> b}.
Variable family : site -> fam.
Variable tag_of : site -> tag.
Variable mk : fam -> tag -> site.
Variable tsub : tag -> tag -> tag.
Theorem C15_hopping_kind : forall h delta fa fb, reachable h ->
  NoDup (hopping_kind dec Sy fdec family tag_of mk tsub delta fa fb h) /\
  forall a b, In (a, b) (hopping_kind dec Sy fdec family tag_of mk tsub delta fa fb h) <->
    In a (sites h) /\ family a = fa /\ b = mk fb (tsub (tag_of a) delta) /\
    contains h (KSite b) = inl true.
Proof. exact (fun h delta fa fb R => main_C15 L fdec family tag_of mk tsub delta fa fb R). Qed.
(** With the laws of integer tags: the difference of the tags is delta. *)
Theorem C15_tag_difference :
  (forall f t, family (mk f t) = f) -> (forall f t, tag_of (mk f t) = t) ->
  (forall s, mk (family s) (tag_of s) = s) ->
  (forall x d y, y = tsub x d <-> tsub x y = d) ->
  forall h delta fa fb, reachable h ->
  forall a b, In (a, b) (hopping_kind dec Sy fdec family tag_of mk tsub delta fa fb h) <->
    In a (sites h) /\ family a = fa /\ family b = fb /\ tsub (tag_of a) (tag_of b) = delta /\
    contains h (KSite b) = inl true.
Proof. exact (fun H1 H2 H3 H4 h delta fa fb R => main_C15_tags L fdec family tag_of mk tsub H1 H2 H3 H4 delta fa fb R). Qed.
End C15.
End Props.

Print Assumptions C01_hermitian.
Print Assumptions C02_step.
Print Assumptions C02_history.
Print Assumptions C02_empty.
Print Assumptions C02_errors.
Print Assumptions C03_invariant.
Print Assumptions C03_neighbors.
Print Assumptions C04_set_atomic.
Print Assumptions C04_del_atomic.
Print Assumptions C05_delete_site.
Print Assumptions C06_delete_hopping.
Print Assumptions C07_contains_site.
Print Assumptions C07_contains_hopping.
Print Assumptions C07_contains_total.
Print Assumptions C07_contains_symmetric.
Print Assumptions C07_hopping_has_sites.
Print Assumptions C08_sites.
Print Assumptions C08_site_value_pairs.
Print Assumptions C08_hoppings.
Print Assumptions C09_neighbors.
Print Assumptions C09_neighbors_symmetric.
Print Assumptions C10_two_core.
Print Assumptions C11_general_key_set.
Print Assumptions C11_general_key_del.
Print Assumptions C11_flat_set.
Print Assumptions C11_flat_del.
Print Assumptions C12_update.
Print Assumptions C12_update_empty.
Print Assumptions C15_hopping_kind.
Print Assumptions C15_tag_difference.

(** ** Non-vacuity: a builder with the translational symmetry of
    SymmetryProps.v (period (2,1)), complex-integer constants, with a site that
    hops to its own image. *)
Definition ts_dec (a b : ts_site ex_data) : {a = b} + {a <> b}.
Proof.
  assert (D : forall p q : Z * vec, {p = q} + {p <> q})
    by (decide equality; [apply (list_eq_dec Z.eq_dec)|apply Z.eq_dec]).
  destruct (D (proj1_sig a) (proj1_sig b)) as [E|E].
  - left. apply sig_eq. exact E.
  - right. intros ->. apply E. reflexivity.
Defined.
Definition exS := TransSymm false C14_data_ok.
Definition exC := (Z * Z)%type.
Definition exconj (c : exC) : exC := (fst c, - snd c)%Z.
Notation exset h k v := (fst (setitem ts_dec exS (C:=exC) (F:=nat) h k v)).
Open Scope Z_scope.
Definition ex0 := exset [] (Iter [Simple _ _ (KSite (ex_site 0 0)); Simple _ _ (KSite (ex_site 1 0));
                                  Simple _ _ (KSite (ex_site 8 3))]) (VConst nat (4, 0)).
(* (0,0) hops to its image (2,1); to (1,0); and (1,0) to an image of (8,3) *)
Definition ex1 := exset ex0 (Simple _ _ (KHop (ex_site 0 0) (ex_site 2 1))) (VConst nat (1, 2)).
Definition ex2 := exset ex1 (Simple _ _ (KHop (ex_site 1 0) (ex_site 0 0))) (VFun exC 7%nat).
Definition ex3 := exset ex2 (Simple _ _ (KHop (ex_site 1 0) (ex_site 10 4))) (VHC exC 9%nat).

Example ex3_reachable : reachable ts_dec exS ex3.
Proof. repeat apply r_set. apply r_empty. Qed.
Example exS_laws : SymLaws exS.
Proof. apply TransSymm_laws. Qed.
Example NoSymmetry_has_laws : SymLaws (NoSymmetry nat).
Proof. apply NoSymmetry_laws. Qed.
Example exconj_inv : forall c, exconj (exconj c) = c.
Proof. intros [a b]. unfold exconj. simpl. rewrite Z.opp_involutive. reflexivity. Qed.
Example ex3_reads :
  read_hop ts_dec exS exconj ex3 (ex_site 2 1) (ex_site 0 0) = Some (VConst nat (1, -2)) /\
  read_hop ts_dec exS exconj ex3 (ex_site (-4) (-2)) (ex_site (-3) (-2)) = Some (VHC exC 7%nat) /\
  read_hop ts_dec exS exconj ex3 (ex_site 10 4) (ex_site 1 0) = Some (VFun exC 9%nat) /\
  read_hop ts_dec exS exconj ex3 (ex_site 0 0) (ex_site 8 3) = None /\
  degree ts_dec exS ex3 (ex_site 4 2) = inl 3%nat.
Proof. vm_compute. repeat split. Qed.
(** deleting the self-coupled site: the iteration over the shrinking list *)
Example ex3_del :
  let r := delitem ts_dec exS ex3 (Simple _ _ (KSite (ex_site 2 1))) in
  (snd r, degree ts_dec exS (fst r) (ex_site 1 0), length (fst r)) = (None, inl 1%nat, 2%nat).
Proof. vm_compute. reflexivity. Qed.
Example ex3_erad :
  let r := eradicate_dangling ts_dec exS ex3 in
  (snd r, map (fun s => proj1_sig s) (sites (fst r))) = (None, [(0, [0; 0])]).
Proof. vm_compute. reflexivity. Qed.
Example ex3_errors :
  map (fun k => match snd (setitem ts_dec exS ex3 (Simple _ _ k) (VFun exC 0%nat)) with
                | Some (EKeySite s) => Some (proj1_sig s)
                | Some (EValue _) => Some (99, [])
                | _ => None end)
    [KHop (ex_site 0 0) (ex_site 0 1); KHop (ex_site 0 0) (ex_site 0 0); KHop (ex_site 0 0) (ex_site 1 0)]
  = [Some (0, [0; 1]); Some (99, []); None].
Proof. vm_compute. reflexivity. Qed.

(** C15: two families on a chain; the laws of tags hold. *)
Definition hk_dec (a b : bool * Z) : {a = b} + {a <> b}.
Proof. decide equality; [apply Z.eq_dec|apply bool_dec]. Defined.
Example C15_laws : forall x d y, y = x - d <-> x - y = d.
Proof. intros. split; intros; subst; ring. Qed.
Definition hk_builder := fst (setitem hk_dec (NoSymmetry _) (C:=exC) (F:=nat) []
  (Iter [Simple _ _ (KSite (true, 1)); Simple _ _ (KSite (false, 3)); Simple _ _ (KSite (true, 5));
         Simple _ _ (KSite (false, 0))]) (VConst nat (4, 0))).
Example C15_ex : hopping_kind hk_dec (NoSymmetry _) bool_dec fst snd pair Z.sub (-2) true false hk_builder
  = [((true, 1), (false, 3))].
Proof. reflexivity. Qed.
