(** * Specification of attach_lead (C39), in terms of public operations only. *)
From Coq Require Import List Bool ZArith.
From Verif Require Import BuilderModel BuilderSpec SymmetryModel AttachModel.
Import ListNotations.
Set Implicit Arguments.

Section Spec.
Variable site : Type.
Variable dec : forall a b : site, {a = b} + {a <> b}.
Variables C F : Type.
Variable L : line site.                      (* symmetry of the lead *)
Variables T h : store site C F.              (* the lead, the system *)
(** sites and hoppings of the infinite lead *)
Definition lead_site (s : site) : Prop := contains dec (lsym L) T (KSite s) = inl true.
Definition lead_hop (s t : site) : Prop := contains dec (lsym L) T (KHop s t) = inl true.
Definition present (s : site) : Prop := contains dec (NoSymmetry site) h (KSite s) = inl true.
Notation dom := (dom L).

(** The lead cells in which the system has lead sites (up to the cell of [origin]). *)
Definition meets (origin : option site) (z : Z) : Prop :=
  exists s, present s /\ lead_site s /\ dom s = z /\ forall o, origin = Some o -> (z <= dom o)%Z.
Definition is_max (P : Z -> Prop) (z : Z) : Prop := P z /\ forall y, P y -> (y <= z)%Z.
Definition is_min (P : Z -> Prop) (z : Z) : Prop := P z /\ forall y, P y -> (z <= y)%Z.

(** The lead sites that can be reached from the cell after [mx] along lead
    hoppings, never entering the system, nor cells beyond. *)
Inductive reach (mx : Z) : site -> Prop :=
  | re_start s : lead_site s -> dom s = (mx + 1)%Z -> ~ present s -> reach mx s
  | re_step s t : reach mx s -> lead_hop s t -> ~ present t -> (dom t <= mx + 1)%Z -> reach mx t.
(** The system interrupts the lead: nothing before the first common cell is reached. *)
Definition interrupted (mn mx : Z) : Prop :=
  forall s t, reach mx s -> lead_hop s t -> ~ present t -> (mn <= dom t)%Z.

(** The sites of the lead that are connected to the sites in [l], possibly after
    translations by the subgroup L'. *)
Inductive conn (L' : line site) (l : list site) : site -> Prop :=
  | co_start s : In s l -> conn L' l s
  | co_step s t : conn L' l s -> lead_hop s t -> conn L' l t
  | co_image g s : conn L' l s -> conn L' l (act (lsym L') g s).

(** The lead that is attached, (L1, T1): the given one, (L, T), if its hoppings
    reach at most the next cell; otherwise one with a longer period, [sub n],
    that agrees with it on all the sites that are connected (up to translations
    by the longer period) to the fundamental domain of the given one. *)
Definition effective (conj : C -> C) (sub : Z -> line site) (L1 : line site) (T1 : store site C F) : Prop :=
  let n := hop_range L T in
  ((n <= 1)%Z /\ L1 = L /\ T1 = T) \/
  ((1 < n)%Z /\ L1 = sub n /\
    (forall s, read_site dec (lsym L1) conj T1 s <> None <-> conn (sub n) (sites T) s) /\
    (forall s, read_site dec (lsym L1) conj T1 s <> None ->
       read_site dec (lsym L1) conj T1 s = read_site dec (lsym L) conj T s) /\
    (forall a b, read_site dec (lsym L1) conj T1 a <> None -> read_site dec (lsym L1) conj T1 b <> None ->
       read_hop dec (lsym L1) conj T1 a b = read_hop dec (lsym L) conj T a b)).
End Spec.
