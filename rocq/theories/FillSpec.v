(** * Specification of the flood fill (C13), in terms of public operations only. *)
From Coq Require Import List Bool.
From Verif Require Import BuilderModel BuilderSpec.
Import ListNotations.
Set Implicit Arguments.

Section FillSpec.
Variable site : Type.
Variable dec : forall a b : site, {a = b} + {a <> b}.
Variables Sy ST : Symmetry site.             (* symmetries of target and template *)
Variables C F : Type.
Variable shape : site -> option bool.        (* None: raises *)
Variables T h : store site C F.              (* template, target before *)
Variable start : list site.
Notation in_template k := (contains dec ST T k = inl true).
Notation absent s := (contains dec Sy h (KSite s) = inl false).

(** The sites (representatives in the fundamental domain of the target) that can
    be reached from the starting sites through template hoppings, staying inside
    the shape and never entering a site of the target. *)
Inductive filled : site -> Prop :=
  | f_start s : In s start -> in_template (KSite s) -> absent s ->
      shape (to_fd Sy s) = Some true -> filled (to_fd Sy s)
  | f_step s t : filled s -> in_template (KHop s t) -> absent t ->
      shape (to_fd Sy t) = Some true -> filled (to_fd Sy t).

(** A site that has to be examined and on which the shape function raises. *)
Definition shape_raises : Prop :=
  exists t, absent t /\ shape (to_fd Sy t) = None /\
    ((In t start /\ in_template (KSite t)) \/
     exists s, filled s /\ in_template (KHop s t)).

Definition more_filled_than (m : nat) : Prop :=
  exists l, NoDup l /\ (forall t, In t l -> filled t) /\ m < length l.
End FillSpec.
