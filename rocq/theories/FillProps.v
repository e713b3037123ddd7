(** * Property C13: Builder.fill computes the flood-fill closure.

    Target with symmetry [Sy], template with symmetry [ST]; the first is a
    subgroup of the second through [phi].  [order] is the arbitrary iteration
    order of Python sets. *)
From Coq Require Import List Bool Arith ZArith Permutation.
From Verif Require Import BuilderModel BuilderProofs BuilderSpec BuilderMain FillModel FillSpec FillMain
  SymmetryModel SymmetryProofs SymmetryProps BuilderProps.
Import ListNotations.
Local Open Scope nat_scope.

Section C13.
Variable site : Type.
Variable dec : forall a b : site, {a = b} + {a <> b}.
Variables Sy ST : Symmetry site.
Hypothesis L : SymLaws Sy.
Hypothesis LT : SymLaws ST.
Variables C F : Type.
Variable conj : C -> C.
Variable VNone : val C F.
Variable shape : site -> option bool.
Variable order : nat -> list site -> list site.
Variable phi : elt Sy -> elt ST.
Hypothesis Hphi : forall g s, act Sy g s = act ST (phi g) s.
Hypothesis Hord : forall k l, Permutation (order k l) l.
Variables T h : store site C F.
Hypothesis RT : reachable dec ST T.
Hypothesis Rh : reachable dec Sy h.
Variable start : list site.
Notation fill := (@fill site dec Sy ST C F VNone shape order).
Notation filled := (@filled site dec Sy ST C F shape T h start).
Notation read_site Sy := (@read_site site dec Sy C conj F).
Notation read_hop Sy := (@read_hop site dec Sy C conj F).

(** Normal return. *)
Theorem C13_fill : forall fuel mx h' done, fill fuel T h start mx = (h', inl done) ->
  NoDup done /\ (forall t, In t done <-> filled t) /\
  (forall m, mx = Some m -> length done <= m) /\
  (forall s, read_site Sy h s <> None -> read_site Sy h' s = read_site Sy h s) /\
  (forall s t, filled t -> same_site Sy t s ->
     read_site Sy h s = None /\ read_site Sy h' s = read_site ST T s /\ read_site Sy h' s <> None) /\
  (forall s, read_site Sy h s = None -> (forall t, filled t -> ~ same_site Sy t s) ->
     read_site Sy h' s = None) /\
  (forall a b, read_site Sy h a <> None -> read_site Sy h b <> None ->
     read_hop Sy h' a b = read_hop Sy h a b) /\
  (forall a b, read_site Sy h' a <> None -> read_site Sy h' b <> None ->
     read_site Sy h a = None \/ read_site Sy h b = None ->
     read_hop Sy h' a b = read_hop ST T a b).
Proof. exact (fun fuel mx h' done => @main_C13 site dec Sy ST L LT C F conj VNone shape order phi Hphi Hord
  T h RT Rh start fuel mx h' done). Qed.

(** The result is again a legal builder, so C01-C12 apply to it (in particular
    it is Hermitian). *)
Theorem C13_reachable : forall fuel mx, reachable dec Sy (fst (fill fuel T h start mx)).
Proof. exact (fun fuel mx => r_fill VNone shape order phi fuel start mx LT Hphi Hord RT Rh). Qed.

(** Exceptions: bad argument (nothing changed), too many sites, the shape
    function raised (builder emptied); [EFuel] is "not finished yet". *)
Theorem C13_errors : forall fuel mx h' e, fill fuel T h start mx = (h', inr e) ->
  (mx = Some 0 /\ h' = h /\ e = EValue _) \/
  (h' = [] /\
   ((e = ERuntime _ /\ exists m, mx = Some m /\ more_filled_than dec Sy ST shape T h start m) \/
    (e = EUser _ /\ shape_raises dec Sy ST shape T h start) \/
    (e = EFuel _ /\ more_filled_than dec Sy ST shape T h start fuel /\ forall m, mx = Some m -> fuel <= m))).
Proof. exact (fun fuel mx h' e => @main_C13_errors site dec Sy ST L LT C F VNone shape order phi Hphi Hord
  T h RT Rh start fuel mx h' e). Qed.

(** Termination and success: if the closure has at most max_sites sites and the
    shape function does not raise, fill returns normally. *)
Theorem C13_success : forall fuel m l, 0 < m -> m < fuel ->
  (forall t, filled t -> In t l) -> length l <= m ->
  ~ shape_raises dec Sy ST shape T h start ->
  exists h' done, fill fuel T h start (Some m) = (h', inl done).
Proof. exact (fun fuel m l => @main_C13_complete site dec Sy ST L LT C F VNone shape order phi Hphi Hord
  T h RT Rh start fuel m l). Qed.

Theorem C13_success_no_raise : forall fuel mx h' done, fill fuel T h start mx = (h', inl done) ->
  ~ shape_raises dec Sy ST shape T h start.
Proof. exact (fun fuel mx h' done => @main_C13_noraise site dec Sy ST L LT C F VNone shape order phi Hphi Hord
  T h RT Rh start fuel mx h' done). Qed.
End C13.
Print Assumptions C13_fill.
Print Assumptions C13_reachable.
Print Assumptions C13_errors.
Print Assumptions C13_success.
Print Assumptions C13_success_no_raise.

(** Non-vacuity: fill a finite box from the translationally symmetric builder
    [ex3] of BuilderProps.v; (6, 3) is already present, with another value and
    a hopping to (-7, 0). *)
Definition exNS := NoSymmetry (ts_site ex_data).
Definition ex_phi (_ : elt exNS) : elt exS := e0 exS.
Example ex_phi_ok : forall g s, act exNS g s = act exS (ex_phi g) s.
Proof. intros g s. symmetry. apply (law_act0 exS_laws). Qed.
Definition ex_shape (s : ts_site ex_data) : option bool :=
  match snd (proj1_sig s) with
  | [x; y] => Some ((-1 <=? x) && (x <=? 12))%Z
  | _ => None
  end.
Definition ex_tgt :=
  fst (setitem ts_dec exNS (fst (setitem ts_dec exNS (C:=exC) (F:=nat) []
    (Iter [Simple _ _ (KSite (ex_site 6 3)); Simple _ _ (KSite (ex_site (-7) 0))]) (VConst nat (9, 0)%Z)))
    (Simple _ _ (KHop (ex_site 6 3) (ex_site (-7) 0))) (VConst nat (5, 5)%Z)).
Example ex_tgt_reachable : reachable ts_dec exNS ex_tgt.
Proof. repeat apply r_set. apply r_empty. Qed.
Definition ex_filled := fill ts_dec exNS exS (VFun exC 0) ex_shape (fun _ l => rev l) 30 ex3 ex_tgt
  [ex_site 0 0] (Some 20).
Example ex_filled_ok :
  match ex_filled with
  | (h', inl done) =>
      map (fun s => snd (proj1_sig s)) done = [[0; 0]; [1; 0]; [2; 1]; [3; 1]; [4; 2]; [10; 4]; [5; 2]; [12; 5]]%Z /\
      read_hop ts_dec exNS exconj h' (ex_site 4 2) (ex_site 6 3) = Some (VConst nat (1, 2)%Z) /\
      read_hop ts_dec exNS exconj h' (ex_site 6 3) (ex_site 4 2) = Some (VConst nat (1, -2)%Z) /\
      read_hop ts_dec exNS exconj h' (ex_site 6 3) (ex_site (-7) 0) = Some (VConst nat (5, 5)%Z) /\
      read_site ts_dec exNS exconj h' (ex_site 6 3) = Some (VConst nat (9, 0)%Z) /\
      length h' = 10
  | _ => False
  end.
Proof. vm_compute. repeat split. Qed.
Example ex_fill_too_many :
  match fill ts_dec exNS exS (VFun exC 0) ex_shape (fun _ l => rev l) 30 ex3 ex_tgt [ex_site 0 0] (Some 3) with
  | (h', inr (ERuntime _)) => h' = []
  | _ => False
  end.
Proof. vm_compute. reflexivity. Qed.
