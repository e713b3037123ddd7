(** * Specification vocabulary for the builder properties.

    Nothing here refers to how a builder stores its data: only to the public
    operations ([getitem], [setitem], ...) and to the group action. *)
From Coq Require Import List Bool Permutation.
From Verif Require Import BuilderModel FillModel.
Import ListNotations.
Set Implicit Arguments.

Section Spec.
Variable site : Type.
Variable dec : forall a b : site, {a = b} + {a <> b}.
Variable Sy : Symmetry site.
Variable C : Type.
Variable conj : C -> C.
Variable F : Type.

Notation store := (store site C F).
Notation val := (val C F).
Notation key := (key site C F).

(** Two sites / two hoppings are images of each other under the symmetry. *)
Definition same_site (a b : site) : Prop := exists g, b = act Sy g a.
Definition same_hop (a b c d : site) : Prop :=
  exists g, c = act Sy g a /\ d = act Sy g b.

(** The result of a call that may raise, forgetting which exception. *)
Definition value_of {A E : Type} (r : A + E) : option A :=
  match r with inl x => Some x | inr _ => None end.

(** Hermitian conjugate of a value: of a constant by [conj], of a function by
    wrapping ([VHC f] is the function returning conj (f ...)), of a wrapped
    function by unwrapping. *)
Definition hconj (v : val) : val :=
  match v with
  | VConst _ c => VConst _ (conj c)
  | VFun _ f => VHC _ f
  | VHC _ f => VFun _ f
  end.

(** What a user reads. *)
Definition read_site (h : store) (s : site) : option val :=
  value_of (getitem dec Sy conj h (KSite s)).
Definition read_hop (h : store) (a b : site) : option val :=
  value_of (getitem dec Sy conj h (KHop a b)).

(** ** Abstract mapping: the specification machine. *)
Record amap := mkMap { asite : site -> option val; ahop : site -> site -> option val }.

Definition abs (h : store) : amap := mkMap (read_site h) (read_hop h).

Inductive sop :=                         (* simple item operations *)
  | SetSite (s : site) (v : val)
  | SetHop (a b : site) (v : val)
  | DelSite (s : site)
  | DelHop (a b : site).

Definition exec1 (h : store) (o : sop) : outcome site C F :=
  match o with
  | SetSite s v => setitem dec Sy h (Simple _ _ (KSite s)) v
  | SetHop a b v => setitem dec Sy h (Simple _ _ (KHop a b)) v
  | DelSite s => delitem dec Sy h (Simple _ _ (KSite s))
  | DelHop a b => delitem dec Sy h (Simple _ _ (KHop a b))
  end.

(** When does an operation succeed on a mapping? *)
Definition enabled (m : amap) (o : sop) : Prop :=
  match o with
  | SetSite s v => True
  | SetHop a b v => a <> b /\ asite m a <> None /\ asite m b <> None
  | DelSite s => asite m s <> None
  | DelHop a b => a <> b /\ ahop m a b <> None
  end.

(** Its effect on the mapping, when it succeeds. *)
Definition effect (m : amap) (o : sop) (m' : amap) : Prop :=
  match o with
  | SetSite s v =>
    (forall t, same_site s t -> asite m' t = Some v) /\
    (forall t, ~ same_site s t -> asite m' t = asite m t) /\
    (forall x y, ahop m' x y = ahop m x y)
  | SetHop a b v =>
    (forall t, asite m' t = asite m t) /\
    (forall x y, same_hop a b x y -> ahop m' x y = Some v) /\
    (forall x y, same_hop b a x y -> ahop m' x y = Some (hconj v)) /\
    (forall x y, ~ same_hop a b x y -> ~ same_hop b a x y -> ahop m' x y = ahop m x y)
  | DelSite s =>
    (forall t, same_site s t -> asite m' t = None) /\
    (forall t, ~ same_site s t -> asite m' t = asite m t) /\
    (forall x y, same_site s x \/ same_site s y -> ahop m' x y = None) /\
    (forall x y, ~ same_site s x -> ~ same_site s y -> ahop m' x y = ahop m x y)
  | DelHop a b =>
    (forall t, asite m' t = asite m t) /\
    (forall x y, same_hop a b x y \/ same_hop b a x y -> ahop m' x y = None) /\
    (forall x y, ~ same_hop a b x y -> ~ same_hop b a x y -> ahop m' x y = ahop m x y)
  end.

(** One step of the specification machine: [okb] tells whether it succeeded;
    a failing step changes nothing. *)
Definition spec_step (m : amap) (o : sop) (okb : bool) (m' : amap) : Prop :=
  if okb then enabled m o /\ effect m o m'
  else ~ enabled m o /\ (forall t, asite m' t = asite m t) /\
       (forall x y, ahop m' x y = ahop m x y).

(** Histories: lists of operations with their success flags. *)
Inductive spec_run : amap -> list (sop * bool) -> amap -> Prop :=
  | sr_nil m : spec_run m [] m
  | sr_cons m o okb m1 tr m2 :
      spec_step m o okb m1 -> spec_run m1 tr m2 -> spec_run m ((o, okb) :: tr) m2.

(** The builder executing a history (exceptions are caught by the caller). *)
Definition is_ok (e : option (err site)) : bool :=
  match e with None => true | Some _ => false end.
Fixpoint exec (h : store) (os : list sop) : store * list (sop * bool) :=
  match os with
  | [] => (h, [])
  | o :: os =>
    let (h', e) := exec1 h o in
    let (h'', tr) := exec h' os in (h'', (o, is_ok e) :: tr)
  end.

(** ** Sets of sites in which every site keeps two hoppings (for C10). *)
Definition self_supporting (h : store) (X : site -> bool) : Prop :=
  (forall g s, X (act Sy g s) = X s) /\
  forall s, X s = true -> exists l, neighbors dec Sy h s = inl l /\
    2 <= length (filter X l).

(** ** The simple keys of a key made of nested iterables, in order (for C11). *)
Fixpoint simple_keys (k : key) : option (list (skey site)) :=
  match k with
  | Simple _ _ sk => Some [sk]
  | Iter l => (fix go l := match l with
                | [] => Some []
                | k :: l => match simple_keys k, go l with
                            | Some a, Some b => Some (a ++ b)
                            | _, _ => None
                            end
                end) l
  | Call _ => None
  end.

(** Execute one-key assignments one after the other, stopping at the first
    exception. *)
Fixpoint assign_all (h : store) (ks : list (skey site)) (v : val)
    : outcome site C F :=
  match ks with
  | [] => (h, None)
  | k :: ks => match setitem dec Sy h (Simple _ _ k) v with
               | (h', None) => assign_all h' ks v
               | (h', Some e) => (h', Some e)
               end
  end.
Fixpoint delete_all (h : store) (ks : list (skey site)) : outcome site C F :=
  match ks with
  | [] => (h, None)
  | k :: ks => match delitem dec Sy h (Simple _ _ k) with
               | (h', None) => delete_all h' ks
               | (h', Some e) => (h', Some e)
               end
  end.

Definition is_site_key (k : skey site) : bool :=
  match k with KSite _ => true | _ => false end.

(** General keys, as a work list processed from the left: an iterable is
    replaced by its elements, a callable by its value on the *current* builder,
    a simple key is handed to [item] (the one-key operation).  The first simple
    key fixes the kind (site / hopping); a key of the other kind is a TypeError
    that leaves the builder as it is at that point. *)
Inductive processes (item : store -> skey site -> outcome site C F)
    : option bool -> store -> list key -> outcome site C F -> Prop :=
  | p_done fn h : processes item fn h [] (h, None)
  | p_iter fn h l w r :
      processes item fn h (l ++ w) r -> processes item fn h (Iter l :: w) r
  | p_call fn h f w r :
      processes item fn h (f h :: w) r -> processes item fn h (Call f :: w) r
  | p_ok fn h k w h' r :
      fn = None \/ fn = Some (is_site_key k) -> item h k = (h', None) ->
      processes item (Some (is_site_key k)) h' w r ->
      processes item fn h (Simple _ _ k :: w) r
  | p_err fn h k w h' e :
      fn = None \/ fn = Some (is_site_key k) -> item h k = (h', Some e) ->
      processes item fn h (Simple _ _ k :: w) (h', Some e)
  | p_mixed b h k w :
      b <> is_site_key k ->
      processes item (Some b) h (Simple _ _ k :: w) (h, Some (EType _)).
End Spec.

(** Builders (with symmetry [Sy]) that a program can obtain: from an empty one by
    any sequence of (possibly failing) item assignments and deletions,
    eradicate_dangling, update, fill from a template of higher symmetry that
    has itself been obtained in this way, and substituted (here: replacement of
    the callable values by others). *)
Inductive reachable (site : Type) (dec : forall a b : site, {a = b} + {a <> b})
    (Sy : Symmetry site) (C F : Type) : store site C F -> Prop :=
  | r_empty : reachable dec Sy []
  | r_set h k v : reachable dec Sy h -> reachable dec Sy (fst (setitem dec Sy h k v))
  | r_del h k : reachable dec Sy h -> reachable dec Sy (fst (delitem dec Sy h k))
  | r_erad h : reachable dec Sy h -> reachable dec Sy (fst (eradicate_dangling dec Sy h))
  | r_update h o : reachable dec Sy h -> reachable dec Sy o ->
      reachable dec Sy (fst (update dec Sy h o))
  | r_map f h : reachable dec Sy h -> reachable dec Sy (map_store f h)
  | r_fill ST VNone shape order phi fuel T h start max_sites :
      SymLaws ST -> (forall g s, act Sy g s = act ST (phi g) s) ->
      (forall k l, Permutation (order k l) l) ->
      reachable dec ST T -> reachable dec Sy h ->
      reachable dec Sy (fst (fill dec Sy ST VNone shape order fuel T h start max_sites)).
