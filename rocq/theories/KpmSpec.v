(** * Specification vocabulary for C31, C49: Chebyshev moments. *)
From Coq Require Import List Bool Arith ZArith.
From Verif Require Import StarRing KpmModel.
Import ListNotations.
Set Implicit Arguments.

Section Spec.
Variable R : StarRing.
Notation vec := (list R).
Variable H : vec -> vec.
(** T_0 v = v, T_1 v = H v, T_(n+2) v = 2 H T_(n+1) v - T_n v *)
Fixpoint cheb (n : nat) (v : vec) : vec :=
  match n with
  | 0 => v
  | S m => match m with
    | 0 => H v
    | S k => vsub (vscale two (H (cheb m v))) (cheb k v)
    end
  end.
(** H is a Hermitian linear map of vectors of length [d]. *)
Definition hermitian (d : nat) : Prop :=
  (forall v, length v = d -> length (H v) = d) /\
  (forall x y, length x = d -> length y = d -> vdot (H x) y = vdot x (H y)).
End Spec.

Section Histories.
Variable R : StarRing.
Notation vec := (list R).
Variables (next : nat -> option vec) (matvec : vec -> vec) (A : Type) (zero : A) (inj : R -> A) (dbl : R -> A -> A) (oper : option (vec -> vec -> A)).
Notation sd := (sd R A).
(** calls of the methods of a SpectralDensity object *)
Inductive call := CMoments (k : Z) | CVectors (k : Z).
Definition run_call (c : call) (s : sd) : kout sd :=
  match c with
  | CMoments k => add_moments next matvec zero inj dbl oper k s
  | CVectors k => add_vectors next matvec zero inj dbl oper k s
  end.
(** a new object, then calls that return or raise ValueError *)
Inductive history (limit : option nat) (nv : option Z) (acc : bool) (nm : Z) : list call -> sd -> Prop :=
  | HInit s : sd_init next matvec zero inj dbl oper limit nv acc nm = (s, None) -> history limit nv acc nm [] s
  | HCall cs s c s' e : history limit nv acc nm cs s -> run_call c s = (s', e) -> e = None \/ e = Some KValue -> history limit nv acc nm (cs ++ [c]) s'.
End Histories.

Arguments cheb {R}. Arguments hermitian {R}. Arguments run_call {R} next matvec {A}. Arguments history {R} next matvec {A}.
