(** * Model of kwant.builder.Builder (kwant/builder.py)

    Executable transcription.  Exceptions are values; every mutating operation
    returns the state in which the builder is left *also when it raises*. *)
From Coq Require Import List Bool Arith.
Import ListNotations.
Set Implicit Arguments.

(** ** Symmetries: builder.py:241-325 (class Symmetry).
    A symmetry is given by its group elements (integer tuples in the code), the
    unary minus used by [to_fd], the zero test used by [in_fd], [which] and the
    one-site form of [act].  [eadd] is not computed by the builder; it is only
    needed to state the laws.  The two-site form [act element a b] acts on both
    sites with the same element (lattice.py:693-721). *)
Record Symmetry (site : Type) := mkSym {
  elt   : Type;
  e0    : elt;
  eneg  : elt -> elt;
  eadd  : elt -> elt -> elt;
  eis0  : elt -> bool;
  which : site -> elt;
  act   : elt -> site -> site }.

Arguments elt {site} s.
Arguments e0 {site} s.
Arguments eneg {site} s _.
Arguments eadd {site} s _ _.
Arguments eis0 {site} s _.
Arguments which {site} s _.
Arguments act {site} s _ _.

(** Laws of a symmetry: a group acting freely, [which] equivariant, no element
    of order two (translations: Z^n). *)
Record SymLaws {site} (S : Symmetry site) : Prop := mkLaws {
  law_assoc : forall x y z, eadd S x (eadd S y z) = eadd S (eadd S x y) z;
  law_0l    : forall x, eadd S (e0 S) x = x;
  law_negl  : forall x, eadd S (eneg S x) x = e0 S;
  law_is0   : forall x, eis0 S x = true <-> x = e0 S;
  law_tors  : forall x, eadd S x x = e0 S -> x = e0 S;
  law_act0  : forall s, act S (e0 S) s = s;
  law_act   : forall x y s, act S (eadd S x y) s = act S x (act S y s);
  law_which : forall x s, which S (act S x s) = eadd S x (which S s) }.

Section BuilderModel.

Variable site : Type.
Variable site_eq_dec : forall a b : site, {a = b} + {a <> b}.
Variable S : Symmetry site.
Variable C : Type.             (* constant values: numbers / matrices *)
Variable conj : C -> C.        (* herm_conj on constants, builder.py:469-500 *)
Variable F : Type.             (* Python callables given by the user *)

(** builder.py:291-300 Symmetry.to_fd, one-site form. *)
Definition to_fd (a : site) : site := act S (eneg S (which S a)) a.

(** builder.py:291-300 Symmetry.to_fd, two-site form. *)
Definition to_fd2 (a b : site) : site * site :=
  let e := eneg S (which S a) in (act S e a, act S e b).

(** builder.py:302-307 Symmetry.in_fd. *)
Definition in_fd (a : site) : bool := eis0 S (which S a).

(** User-visible values: constants, callables and HermConjOfFunc proxies
    (builder.py:503-514). *)
Inductive val := VConst (c : C) | VFun (f : F) | VHC (f : F).

(** Stored values: a value or the marker [Other] (builder.py:691-694). *)
Inductive sval := SVal (v : val) | SOther.

(** One dictionary entry of [Builder.H] (builder.py:911-932, "Note on H").
    The first head/value pair [tail, onsite] is represented by [onsite] alone
    (its head is by construction equal to the tail). *)
Record node := mkNode { onsite : val; outs : list (site * sval) }.

(** [Builder.H]: a Python dict, i.e. an insertion-ordered association list. *)
Definition store := list (site * node).

Inductive err :=
  | EKeySite (s : site)          (* KeyError(site) *)
  | EKeyHop (a b : site)         (* KeyError((a, b)) *)
  | EValue                       (* ValueError: hopping from a site to itself *)
  | EType                        (* TypeError *)
  | EIndex                       (* IndexError *)
  | ERuntime                     (* RuntimeError *)
  | EUser                        (* exception raised by a user's function *)
  | EAssert                      (* failed assert / corrupted store *)
  | EFuel.                       (* model artefact: loop bound exhausted *)

Definition outcome := (store * option err)%type.
Definition res (A : Type) := (A + err)%type.

(** *** Python dict operations *)
Definition eqb (a b : site) : bool := if site_eq_dec a b then true else false.

Fixpoint lookup {A} (k : site) (h : list (site * A)) : option A :=
  match h with
  | [] => None
  | (k', v) :: t => if eqb k k' then Some v else lookup k t
  end.

Definition mem {A} (k : site) (h : list (site * A)) : bool :=
  match lookup k h with Some _ => true | None => false end.

(** d[k] = v : replaces in place or appends at the end. *)
Fixpoint assign {A} (k : site) (v : A) (h : list (site * A)) : list (site * A) :=
  match h with
  | [] => [(k, v)]
  | (k', v') :: t => if eqb k k' then (k', v) :: t else (k', v') :: assign k v t
  end.

(** del d[k] (only called on present keys), and [del hvhv[i:i+2]] for the first
    occurrence of a head. *)
Fixpoint remove1 {A} (k : site) (h : list (site * A)) : list (site * A) :=
  match h with
  | [] => []
  | (k', v') :: t => if eqb k k' then t else (k', v') :: remove1 k t
  end.

(** *** Edges *)

(** builder.py:934-945 _get_edge. *)
Definition get_edge (h : store) (tail head : site) : res sval :=
  match lookup tail h with
  | None => inr (EKeySite tail)
  | Some nd =>
    match lookup head (outs nd) with
    | Some v => inl v
    | None => if mem head h then inr (EKeyHop tail head) else inr (EKeySite head)
    end
  end.

(** builder.py:947-956 _set_edge. *)
Definition set_edge (h : store) (tail head : site) (v : sval) : outcome :=
  match lookup tail h with
  | None => (h, Some (EKeySite tail))
  | Some nd =>
    (assign tail (mkNode (onsite nd) (assign head v (outs nd))) h, None)
  end.

(** builder.py:958-973 _del_edge. *)
Definition del_edge (h : store) (tail head : site) : outcome :=
  match lookup tail h with
  | None => (h, Some (EKeySite tail))
  | Some nd =>
    if mem head (outs nd) then
      (assign tail (mkNode (onsite nd) (remove1 head (outs nd))) h, None)
    else if mem head h then (h, Some (EKeyHop tail head))
    else (h, Some (EKeySite head))
  end.

(** builder.py:979-981 _out_degree. *)
Definition out_degree (h : store) (tail : site) : res nat :=
  match lookup tail h with
  | None => inr (EKeySite tail)
  | Some nd => inl (length (outs nd))
  end.

(** Sequencing: stop at the first exception. *)
Definition andthen (r : outcome) (f : store -> outcome) : outcome :=
  match r with
  | (h, None) => f h
  | (h, Some e) => (h, Some e)
  end.

(** *** Keys: builder.py:1016-1058 (expand), 206-235 (validate_hopping). *)
Inductive skey :=
  | KSite (s : site)
  | KHop (a b : site)
  | KBadLen                       (* tuple of length other than two *)
  | KBadElt.                      (* 2-tuple of non-sites, or not a tuple *)

(** builder.py:206-235 validate_hopping.  A [Site] passed as hopping is a
    2-tuple (family, tag) of non-sites, hence TypeError. *)
Definition validate_hopping (k : skey) : res (site * site) :=
  match k with
  | KSite _ => inr EType
  | KBadLen => inr EIndex
  | KBadElt => inr EType
  | KHop a b => if site_eq_dec a b then inr EValue else inl (a, b)
  end.

(** builder.py:469-500 herm_conj, 503-514 HermConjOfFunc, as used in
    builder.py:1070-1080. [VHC] is excluded by an assert there. *)
Definition herm_conj_stored (v : sval) : res val :=
  match v with
  | SVal (VConst c) => inl (VConst (conj c))
  | SVal (VFun f) => inl (VHC f)
  | SVal (VHC _) => inr EAssert
  | SOther => inr EAssert          (* both directions marked: corrupted *)
  end.

(** builder.py:1060-1080 __getitem__. *)
Definition getitem (h : store) (k : skey) : res val :=
  match k with
  | KSite s =>
    let s := to_fd s in
    match lookup s h with
    | Some nd => inl (onsite nd)
    | None => inr (EKeySite s)
    end
  | _ =>
    match validate_hopping k with
    | inr e => inr e
    | inl (a, b) =>
      let (a, b) := to_fd2 a b in
      match get_edge h a b with
      | inr e => inr e
      | inl (SVal v) => inl v
      | inl SOther =>
        if in_fd b then
          match get_edge h b a with
          | inr e => inr e
          | inl v => herm_conj_stored v
          end
        else
          let (b, a) := to_fd2 b a in
          if in_fd a then inr EAssert
          else match get_edge h b a with
               | inr e => inr e
               | inl v => herm_conj_stored v
               end
      end
    end
  end.

(** builder.py:1082-1091 __contains__. *)
Definition contains (h : store) (k : skey) : res bool :=
  match k with
  | KSite s => inl (mem (to_fd s) h)
  | _ =>
    match validate_hopping k with
    | inr e => inr e
    | inl (a, b) =>
      let (a, b) := to_fd2 a b in
      match lookup a h with
      | None => inl false
      | Some nd => inl (mem b (outs nd))
      end
    end
  end.

(** builder.py:1093-1102 _set_site. *)
Definition set_site (h : store) (k : skey) (v : val) : outcome :=
  match k with
  | KSite s =>
    let s := to_fd s in
    match lookup s h with
    | Some nd => (assign s (mkNode v (outs nd)) h, None)
    | None => (assign s (mkNode v []) h, None)
    end
  | _ => (h, Some EType)
  end.

(** builder.py:1120-1129: the two writes of _set_hopping. *)
Definition set_both (h : store) (a b b2 a2 : site) (v : val) : outcome :=
  match v with
  | VHC f =>
    andthen (set_edge h a b SOther) (fun h => set_edge h b2 a2 (SVal (VFun f)))
  | _ =>
    andthen (set_edge h a b (SVal v)) (fun h => set_edge h b2 a2 SOther)
  end.

(** builder.py:1104-1129 _set_hopping. *)
Definition set_hopping (h : store) (k : skey) (v : val) : outcome :=
  match validate_hopping k with
  | inr e => (h, Some e)
  | inl (a, b) =>
    let (a, b) := to_fd2 a b in
    if in_fd b then
      if mem a h then
        if mem b h then set_both h a b b a v
        else (h, Some (EKeySite b))
      else (h, Some (EKeySite a))
    else
      let (b2, a2) := to_fd2 b a in
      if in_fd a2 then (h, Some EAssert)
      else if mem b2 h then set_both h a b b2 a2 v
      else (h, Some (EKeySite b))
  end.

(** builder.py:1151-1156: the loop of _del_site.  [k] is the position of the
    islice iterator in the *current* list of neighbors of [s] (the list may
    shrink while it is being iterated). *)
Fixpoint del_site_loop (fuel : nat) (h : store) (s : site) (k : nat) : outcome :=
  match fuel with
  | O => (h, Some EFuel)
  | Datatypes.S fuel =>
    match lookup s h with
    | None => (h, Some (EKeySite s))
    | Some nd =>
      match nth_error (outs nd) k with
      | None => (h, None)
      | Some (nb, _) =>
        andthen
          (if mem nb h then del_edge h nb s
           else if in_fd nb then (h, Some EAssert)
           else let (nb', s') := to_fd2 nb s in del_edge h nb' s')
          (fun h => del_site_loop fuel h s (Datatypes.S k))
      end
    end
  end.

(** builder.py:1140-1158 _del_site. *)
Definition del_site (h : store) (k : skey) : outcome :=
  match k with
  | KSite s =>
    let s := to_fd s in
    match lookup s h with
    | None => (h, Some (EKeySite s))
    | Some nd =>
      andthen (del_site_loop (Datatypes.S (length (outs nd))) h s 0)
              (fun h => (remove1 s h, None))
    end
  | _ => (h, Some EType)
  end.

(** builder.py:1160-1172 _del_hopping. *)
Definition del_hopping (h : store) (k : skey) : outcome :=
  match validate_hopping k with
  | inr e => (h, Some e)
  | inl (a, b) =>
    let (a, b) := to_fd2 a b in
    andthen (del_edge h a b) (fun h =>
      if in_fd b then del_edge h b a
      else let (b, a) := to_fd2 b a in
           if in_fd a then (h, Some EAssert) else del_edge h b a)
  end.

(** *** General keys: builder.py:1016-1058 (expand), 1131-1138 (__setitem__),
    1174-1181 (__delitem__).  A callable key is applied to the builder when it
    is reached.  Simplification: iterables are finite, and a generator that
    reads the builder while it is being consumed is evaluated when reached. *)
Inductive key :=
  | Simple (k : skey)
  | Iter (l : list key)
  | Call (f : store -> key).

Inductive kind := IsSite | IsHop.
Definition kind_of (k : skey) : kind :=
  match k with KSite _ => IsSite | _ => IsHop end.

(** State of the expansion loop: the builder, the chosen [func] (None before
    the first simple key), the pending exception. *)
Definition run1 (op : kind -> store -> skey -> outcome)
    (st : store * option kind * option err) (k : skey)
    : store * option kind * option err :=
  match st with
  | (h, fn, Some e) => (h, fn, Some e)
  | (h, fn, None) =>
    let fn := match fn with None => kind_of k | Some x => x end in
    let (h', e) := op fn h k in (h', Some fn, e)
  end.

Section RunKey.
Variable op : kind -> store -> skey -> outcome.
(** Depth-first, left-to-right traversal: builder.py:1038-1058. *)
Fixpoint run_key (st : store * option kind * option err) (k : key)
    {struct k} : store * option kind * option err :=
  match st with
  | (_, _, Some _) => st
  | (h, _, None) =>
    match k with
    | Simple sk => run1 op st sk
    | Iter l => (fix go st l := match l with
                                | [] => st
                                | k :: l => go (run_key st k) l
                                end) st l
    | Call f => run_key st (f h)
    end
  end.
End RunKey.

Definition set_op (v : val) (fn : kind) (h : store) (k : skey) : outcome :=
  match fn with IsSite => set_site h k v | IsHop => set_hopping h k v end.
Definition del_op (fn : kind) (h : store) (k : skey) : outcome :=
  match fn with IsSite => del_site h k | IsHop => del_hopping h k end.

(** builder.py:1131-1138 __setitem__. *)
Definition setitem (h : store) (k : key) (v : val) : outcome :=
  let '(h', _, e) := run_key (set_op v) (h, None, None) k in (h', e).
(** builder.py:1174-1181 __delitem__. *)
Definition delitem (h : store) (k : key) : outcome :=
  let '(h', _, e) := run_key del_op (h, None, None) k in (h', e).

(** *** Queries *)

(** builder.py:1221-1231 sites. *)
Definition sites (h : store) : list site := map fst h.

(** builder.py:1233-1236 site_value_pairs. *)
Definition site_value_pairs (h : store) : list (site * val) :=
  map (fun p => (fst p, onsite (snd p))) h.

(** builder.py:1251-1257 hopping_value_pairs. *)
Definition node_values (tail : site) (l : list (site * sval))
    : list (site * site * val) :=
  flat_map (fun hv => match snd hv with
                      | SOther => []
                      | SVal v => [(tail, fst hv, v)]
                      end) l.
Definition hopping_value_pairs (h : store) : list (site * site * val) :=
  flat_map (fun p => node_values (fst p) (outs (snd p))) h.

(** builder.py:1238-1249 hoppings. *)
Definition hoppings (h : store) : list (site * site) :=
  flat_map (fun p =>
    flat_map (fun hv => match snd hv with
                        | SOther => []
                        | SVal _ => [(fst p, fst hv)]
                        end) (outs (snd p))) h.

(** builder.py:1269-1275 degree. *)
Definition degree (h : store) (s : site) : res nat := out_degree h (to_fd s).

(** builder.py:1277-1295 neighbors.  (For NoSymmetry the code takes a shortcut
    that yields the same since all actions are trivial.) *)
Definition neighbors (h : store) (s : site) : res (list site) :=
  let shift := which S s in
  let s := act S (eneg S shift) s in
  match lookup s h with
  | None => inr (EKeySite s)
  | Some nd => inl (map (fun p => act S shift (fst p)) (outs nd))
  end.

(** builder.py:1259-1267 dangling. *)
Definition dangling (h : store) : list site :=
  map fst (filter (fun p => length (outs (snd p)) <? 2) h).

(** builder.py:1198-1215: the while loop of eradicate_dangling. *)
Fixpoint erad_loop (fuel : nat) (h : store) (s : site) : outcome :=
  match fuel with
  | O => (h, Some EFuel)
  | Datatypes.S fuel =>
    match lookup s h with
    | None => (h, Some (EKeySite s))
    | Some nd =>
      match outs nd with
      | [] => (remove1 s h, None)
      | [(nb, _)] =>
        if mem nb h then
          andthen (del_edge h nb s) (fun h => erad_loop fuel (remove1 s h) nb)
        else
          let (nb', s') := to_fd2 nb s in
          andthen (del_edge h nb' s')
                  (fun h => erad_loop fuel (remove1 s h) (to_fd nb))
      | _ => (h, None)
      end
    end
  end.

(** builder.py:1183-1215 eradicate_dangling.  (The loop can delete at most one
    site per iteration, which bounds the number of iterations.) *)
Definition erad_one (r : outcome) (s : site) : outcome :=
  andthen r (fun h => if mem s h then erad_loop (Datatypes.S (length h)) h s
                      else (h, None)).
Definition eradicate_dangling (h : store) : outcome :=
  fold_left erad_one (dangling h) (h, None).

(** builder.py:1351-1369 update, for builders with the same symmetry (leads
    not modelled).  Values never have to be expanded: keys are simple. *)
Definition update (h other : store) : outcome :=
  let r := fold_left (fun r p => andthen r (fun h => set_site h (KSite (fst p)) (snd p)))
                     (site_value_pairs other) (h, None) in
  fold_left (fun r p => andthen r (fun h =>
               set_hopping h (KHop (fst (fst p)) (snd (fst p))) (snd p)))
            (hopping_value_pairs other) r.

(** builder.py:1421-1427: the copy of [H] made by substituted(), with every
    callable value replaced (which one by which is SubstModel.v). *)
Definition map_val (f : F -> F) (v : val) : val :=
  match v with VConst c => VConst c | VFun g => VFun (f g) | VHC g => VHC (f g) end.
Definition map_sval (f : F -> F) (v : sval) : sval :=
  match v with SVal v => SVal (map_val f v) | SOther => SOther end.
Definition map_node (f : F -> F) (nd : node) : node :=
  mkNode (map_val f (onsite nd)) (map (fun hv => (fst hv, map_sval f (snd hv))) (outs nd)).
Definition map_store (f : F -> F) (h : store) : store :=
  map (fun p => (fst p, map_node f (snd p))) h.

End BuilderModel.
