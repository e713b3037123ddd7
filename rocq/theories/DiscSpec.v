(** * Specification vocabulary for discrete symmetries. *)
From Coq Require Import List Bool Arith ZArith.
From Verif Require Import StarRing KpmCorrSpec RmtSpec.
Import ListNotations.
Set Implicit Arguments.

Section Spec.
Variable R : StarRing.
Notation matrix := (nat -> nat -> R).
Local Open Scope star_scope.
Notation "0" := (r0 R) : star_scope.
Notation "1" := (r1 R) : star_scope.
Variable n : nat.
Notation "x ** y" := (mmul n x y) (at level 40, left associativity).
Notation "x == y" := (@meq R n x y) (at level 70).
Notation I := (@unit_matrix R).
Notation "x ^+" := (mT (mC x)) (at level 30).

(** antiunitary operators t K with square 1 or -1; a unitary operator with square 1 *)
Definition antiunitary_symmetry (t : matrix) : Prop := unitary n t /\ (t ** mC t == I \/ t ** mC t == mN I).
Definition unitary_symmetry (c : matrix) : Prop := unitary n c /\ c ** c == I.
Definition opt (P : matrix -> Prop) (x : option matrix) : Prop := match x with Some x => P x | None => True end.
(** A lawful set of time reversal t, particle-hole p, and chiral symmetry c:
    if two are present, so is the third, and c p K t K = 1. *)
Definition lawful (t p c : option matrix) : Prop :=
  opt antiunitary_symmetry t /\ opt antiunitary_symmetry p /\ opt unitary_symmetry c /\
  match t, p, c with
  | Some t, Some p, Some c => c ** p ** mC t == I
  | Some _, Some _, None | Some _, None, Some _ | None, Some _, Some _ => False
  | _, _, _ => True
  end.
(** same matrix where given *)
Definition extends (x y : option matrix) : Prop := match x, y with Some x, Some y => x == y | Some _, None => False | None, _ => True end.

(** A Hamiltonian with the symmetry: t h^* t^+ = h, p h^* p^+ = -h, c h c^+ = -h;
    commutes with a matrix *)
Definition time_symmetric (t h : matrix) : Prop := t ** mC h ** t^+ == h.
Definition particle_symmetric (p h : matrix) : Prop := p ** mC h ** p^+ == mN h.
Definition chiral_symmetric (c h : matrix) : Prop := c ** h ** c^+ == mN h.
Definition commute (x y : matrix) : Prop := x ** y == y ** x.
(** a matrix with m columns, filled up with zeros *)
Definition fill_columns (m : nat) (h : matrix) : matrix := fun i j => if j <? m then h i j else 0.
(** the Bloch Hamiltonian for Bloch factor z *)
Definition bloch (ham hop : matrix) (z : R) : matrix := fun i j => ham i j + z * hop i j + rconj R z * rconj R (hop j i).
(** symmetries of an infinite system: for all Bloch factors on the unit circle;
    antiunitary symmetries invert the momentum *)
Definition on_circle (P : R -> Prop) : Prop := forall z, z * rconj R z = 1 -> P z.
Definition lead_time t ham hop : Prop := on_circle (fun z => t ** mC (bloch ham hop z) ** t^+ == bloch ham hop (rconj R z)).
Definition lead_particle p ham hop : Prop := on_circle (fun z => p ** mC (bloch ham hop z) ** p^+ == mN (bloch ham hop (rconj R z))).
Definition lead_chiral c ham hop : Prop := on_circle (fun z => c ** bloch ham hop z ** c^+ == mN (bloch ham hop z)).
Definition lead_conserved (q : matrix) ham hop : Prop := on_circle (fun z => commute q (bloch ham hop z)).
(** the conservation law with eigenvalues [vals] and eigenvectors [vecs] *)
Definition from_int (z : Z) : R := match z with Z0 => 0 | Zpos p => Pos.iter (radd R 1) 0 p | Zneg p => - Pos.iter (radd R 1) 0 p end.
Definition conservation (vals : nat -> Z) (vecs : matrix) : matrix := vecs ** (fun i j => if i =? j then from_int (vals i) else 0) ** vecs^+.
(** n x k matrices with orthonormal columns that together form a basis *)
Definition orthonormal (ps : list (nat * matrix)) : Prop :=
  (forall a b i j, a < length ps -> b < length ps -> i < fst (nth a ps (0%nat, I)) -> j < fst (nth b ps (0%nat, I)) ->
     mmul n ((snd (nth a ps (0%nat, I)))^+) (snd (nth b ps (0%nat, I))) i j = if (a =? b) && (i =? j) then 1 else 0) /\
  (forall i j, i < n -> j < n -> lsum R (fun p => mmul (fst p) (snd p) ((snd p)^+) i j) ps = I i j).
End Spec.
Arguments antiunitary_symmetry {R}. Arguments unitary_symmetry {R}. Arguments opt {R}. Arguments lawful {R}. Arguments extends {R}. Arguments time_symmetric {R}. Arguments particle_symmetric {R}.
Arguments chiral_symmetric {R}. Arguments commute {R}. Arguments fill_columns {R}. Arguments bloch {R}. Arguments on_circle {R}. Arguments lead_time {R}. Arguments lead_particle {R}. Arguments lead_chiral {R}. Arguments lead_conserved {R}. Arguments from_int {R}. Arguments conservation {R}. Arguments orthonormal {R}.
