(** * Specification vocabulary for finalized systems (C20-C22). *)
From Coq Require Import List Bool ZArith Sorting.Sorted.
From Verif Require Import BuilderModel BuilderSpec.
Import ListNotations.
Set Implicit Arguments.

(** The order of sites is total. *)
Record total_order {A : Type} (leb : A -> A -> bool) : Prop := mkTO {
  to_total : forall x y, leb x y = true \/ leb y x = true;
  to_trans : forall x y z, leb x y = true -> leb y z = true -> leb x z = true;
  to_anti : forall x y, leb x y = true -> leb y x = true -> x = y }.

Section Eval.
Variable site : Type.
Variable Sy : Symmetry site.
Variable C : Type.
Variable conj : C -> C.
Variable F : Type.
Variable call1 : val C F -> site -> option C.
Variable call2 : F -> site -> site -> option C.

(** The numerical value of a hopping (a, b) whose builder value is [v]: a
    function is called with the sites moved together such that the first one lies
    in the fundamental domain; a conjugated function is called with swapped
    sites.  [None]: the function raised. *)
Definition eval_hop (v : val C F) (a b : site) : option C :=
  match v with
  | VConst _ c => Some c
  | VFun _ f => call2 f (act Sy (eneg Sy (which Sy a)) a) (act Sy (eneg Sy (which Sy a)) b)
  | VHC _ f => option_map conj
      (call2 f (act Sy (eneg Sy (which Sy b)) b) (act Sy (eneg Sy (which Sy b)) a))
  end.
(** The same for the onsite value of [s]. *)
Definition eval_site (v : val C F) (s : site) : option C :=
  match v with VConst _ c => Some c | _ => call1 v (act Sy (eneg Sy (which Sy s)) s) end.
End Eval.

(** A symmetry with one direction: group elements are the integers ([tr]),
    [dom s] is the cell of [s] (the fundamental domain is cell 0). *)
Record one_dim {site : Type} (Sy : Symmetry site) (dom : site -> Z) (tr : Z -> elt Sy) : Prop := mkOD {
  od_which : forall s, which Sy s = tr (dom s);
  od_zero : tr 0%Z = e0 Sy;
  od_add : forall x y, tr (x + y)%Z = eadd Sy (tr x) (tr y);
  od_inj : forall x y, tr x = tr y -> x = y }.

Section Connected.
Variable site : Type.
Variable dec : forall a b : site, {a = b} + {a <> b}.
Variable Sy : Symmetry site.
Variable C : Type.
Variable conj : C -> C.
Variable F : Type.
Variable dom : site -> Z.
Variable tr : Z -> elt Sy.
(** [t] is a site of cell 0 that has a hopping to cell 1. *)
Definition connected (h : store site C F) (t : site) : Prop :=
  dom t = 0%Z /\ exists x, read_hop dec Sy conj h t x <> None /\ dom x = 1%Z.
(** No hopping connects cells further than nearest neighbors. *)
Definition nearest_cells (h : store site C F) : Prop :=
  forall a b, read_hop dec Sy conj h a b <> None -> (Z.abs (dom a - dom b) <= 1)%Z.
(** A correct interface order: sorted, and exactly the connected sites of some
    cell [k], each once. *)
Definition correct_order (leb : site -> site -> bool) (h : store site C F) (o : list site) : Prop :=
  StronglySorted (fun x y => leb x y = true) o /\ NoDup o /\
  exists k, forall t, In t o <-> connected h (act Sy (tr (- k)%Z) t).
End Connected.
