(** * Specification vocabulary for lattices. *)
From Coq Require Import List Bool Arith ZArith Reals.
From Verif Require Import KpmReal CvpModel CvpSpec LllSpec.
Import ListNotations.
Open Scope R_scope.

(** the position of the site with a given tag *)
Definition site_position (prim : nat -> nat -> R) (offset : nat -> R) (tag : point) (k : nat) : R := offset k + vector prim tag k.

(** What is assumed about the numerical libraries (see CvpSpec.v, LllSpec.v) *)
Definition good_libraries (m d : nat) (round : R -> Z) (lstsq_mat : (nat -> nat -> R) -> (nat -> nat -> R) -> nat -> nat -> R)
    (lstsq : (nat -> nat -> R) -> (nat -> R) -> nat -> R) (inv : (nat -> nat -> R) -> nat -> nat -> R) (argsort : (point -> R) -> list point -> list point) : Prop :=
  lstsq_mat_ok m d lstsq_mat /\ round_ok round /\ argsort_ok argsort /\
  forall b, independent m d b -> lstsq_ok m d b (lstsq b) /\ inv_ok m d b inv.
