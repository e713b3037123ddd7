(** * Specification vocabulary for Builder.closest. *)
From Coq Require Import List Bool Arith ZArith Reals.
From Verif Require Import KpmReal CvpModel CvpSpec LllSpec LatticeSpec ClosestModel.
Import ListNotations.
Open Scope R_scope.

(** a site at a position *)
Definition located (fpos : nat -> option (point -> nat -> R)) (s : site) (p : nat -> R) : Prop := exists f, fpos (fst s) = Some f /\ p = f (snd s).
(** The symmetry is a translational symmetry of the builder: its action moves the sites of
    each family with positions by integer combinations of linearly independent periods *)
Definition translational (m d : nat) (fpos : nat -> option (point -> nat -> R)) (smat : nat -> nat -> nat -> Z) (fdim : nat -> nat) (periods : nat -> nat -> R) : Prop :=
  independent m d periods /\
  forall fam f tag e k, fpos fam = Some f -> length tag = fdim fam -> lattice_point m e -> (k < d)%nat ->
    f (snd (sym_act m smat e (fam, tag))) k = f tag k + vector periods e k.
Definition good_sites (fpos : nat -> option (point -> nat -> R)) (fdim : nat -> nat) (sites : list site) : Prop :=
  forall s, In s sites -> length (snd s) = fdim (fst s) /\ fpos (fst s) <> None.
