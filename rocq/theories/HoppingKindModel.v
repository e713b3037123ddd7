(** * Model of HoppingKind.__call__ (kwant/builder.py:439-452) *)
From Coq Require Import List Bool.
From Verif Require Import BuilderModel.
Import ListNotations.
Set Implicit Arguments.

Section HK.
Variable site : Type.
Variable site_eq_dec : forall a b : site, {a = b} + {a <> b}.
Variable S : Symmetry site.
Variable C F fam tag : Type.
Variable fam_eq_dec : forall a b : fam, {a = b} + {a <> b}.
Variable family : site -> fam.
Variable tag_of : site -> tag.
Variable mk : fam -> tag -> site.          (* Site(family, tag, True) *)
Variable tsub : tag -> tag -> tag.         (* componentwise difference *)

(** builder.py:439-452: for a in H ... yield a, b. *)
Definition hopping_kind (delta : tag) (family_a family_b : fam)
    (h : store site C F) : list (site * site) :=
  flat_map (fun a =>
    if fam_eq_dec (family a) family_a then
      let b := mk family_b (tsub (tag_of a) delta) in
      if mem site_eq_dec (to_fd S b) h then [(a, b)] else []
    else []) (map fst h).
End HK.
