(** * Vocabulary for the specification of wraparound. *)
From Coq Require Import List.
From Verif Require Import BuilderModel BuilderSpec SystemSpec.
Import ListNotations.
Set Implicit Arguments.

(** [S] is the group of all translations, [R] that of the kept ones, [W] that of
    those that are wrapped around; [pW] drops the kept component. *)
Record splits (site : Type) (S R W : Symmetry site) (pW : elt S -> elt W) : Prop := mkSplits {
  sp_comm : forall x y, eadd S x y = eadd S y x;
  sp_add : forall x y, pW (eadd S x y) = eadd W (pW x) (pW y);
  sp_R : forall r, exists x, pW x = e0 W /\ forall s, act R r s = act S x s;
  sp_W : forall g, exists x, pW x = g /\ forall s, act W g s = act S x s;
  sp_ker : forall x, pW x = e0 W -> exists r, forall s, act S x s = act R r s }.


(** The wrapped component of the cell of a site.  The sites for which it vanishes
    are the sites of the new builder. *)
Definition dom (site : Type) (S W : Symmetry site) (pW : elt S -> elt W) (s : site) : elt W := pW (which S s).
Definition proper (site : Type) (S W : Symmetry site) (pW : elt S -> elt W) (s : site) : Prop := dom S W pW s = e0 W.

(** The sum of a list of values; [None] if one of them is the [None] of a value
    function that raises an exception. *)
Fixpoint osum (C : Type) (add : C -> C -> C) (zero : C) (l : list (option C)) : option C :=
  match l with
  | [] => Some zero
  | x :: l => match x, osum add zero l with Some a, Some b => Some (add a b) | _, _ => None end
  end.

(** The matrix element between two sites of the system described by the builder
    [h] with symmetry [S]: zero if there is no hopping. *)
Section Element.
Variable site : Type.
Variable dec : forall a b : site, {a = b} + {a <> b}.
Variable S : Symmetry site.
Variables C F : Type.
Variable conj : C -> C.
Variable zero : C.
Variable call1 : val C F -> site -> option C.
Variable call2 : F -> site -> site -> option C.
Definition element (h : store site C F) (x y : site) : option C :=
  if dec x y then match read_site dec S conj h x with Some v => eval_site S call1 v x | None => Some zero end
  else match read_hop dec S conj h x y with Some v => eval_hop S conj call2 v x y | None => Some zero end.
End Element.
