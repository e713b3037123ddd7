(** * Model of kwant/physics/symmetry.py (DiscreteSymmetry) and of its use in
    system.py and builder.py.

    All matrices are n x n (functions of two indices), except for projectors,
    which have fewer columns after the removal of the vanishing ones, and
    inter-cell hoppings.  Arithmetic is exact: numbers below the tolerances of
    the code are zero.  Type errors and mismatched sizes are not modelled. *)
From Coq Require Import List Bool Arith ZArith.
From Verif Require Import StarRing KpmCorrSpec RmtSpec.
Import ListNotations.
Set Implicit Arguments.

(** symmetry.py:36 _names, and 'Conservation law' *)
Inductive name := NConserv | NTime | NParticleHole | NChiral.
(** the ValueErrors of __init__ *)
Inductive derr := EProduct | EUnitary (s : name) | ESquare (s : name) | EStack | ECanonical (s : name).

Section Disc.
Variable R : StarRing.
Notation matrix := (nat -> nat -> R).
Local Open Scope star_scope.
Notation "0" := (r0 R) : star_scope.
Notation "1" := (r1 R) : star_scope.
Variable n : nat.
(** comparison of numbers (up to tolerances); [gt x] is (x > 1e-7) for an
    element of a complex array *)
Variable eqb : R -> R -> bool.
Variable gt : R -> bool.

Definition all_below (k l : nat) (f : nat -> nat -> bool) : bool := forallb (fun i => forallb (f i) (seq 0 l)) (seq 0 k).
(** symmetry.py:15-16 almost_identity *)
Definition almost_identity (x : matrix) : bool := all_below n n (fun i j => eqb (x i j) (@unit_matrix R i j)).
(** symmetry.py:31-32 cond_conj *)
Definition cond_conj (x : matrix) (cj : bool) : matrix := if cj then mC x else x.
Definition dag (x : matrix) : matrix := mT (mC x).
Notation "x ** y" := (mmul n x y) (at level 40, left associativity).

(** projectors with their numbers of columns *)
Record disc := mkDisc { projectors : option (list (nat * matrix)); time_reversal : option matrix; particle_hole : option matrix; chiral : option matrix }.

(** symmetry.py:119-128 Auto-compute a missing symmetry *)
Definition complete (t p c : option matrix) : option matrix * option matrix * option matrix :=
  match t, p, c with
  | Some t', Some p', None => (t, p, Some (p' ** mC t'))
  | None, Some p', Some c' => (Some (p' ** mC p' ** p' ** mC c'), p, c)
  | Some t', None, Some c' => (t, Some (t' ** mC t' ** c' ** t'), c)
  | _, _, _ => (t, p, c)
  end.
(** symmetry.py:131-142, one pass of the loop *)
Definition check (s : option matrix) (cj : bool) (nm : name) : option derr :=
  match s with
  | None => None
  | Some s =>
    if negb (almost_identity (mT (mC s) ** s)) then Some (EUnitary nm)
    else let sq := s ** cond_conj s cj in
      if negb (almost_identity sq || (cj && almost_identity (mN sq))) then Some (ESquare nm) else None
  end.
(** symmetry.py:145-147: p[:, _column_sum(abs(p)) > 1e-10] *)
Definition trim (p : matrix) : nat * matrix :=
  let kept := filter (fun j => existsb (fun i => negb (eqb (p i j) 0)) (seq 0 n)) (seq 0 n) in
  (length kept, fun i j => p i (nth j kept n)).
(** projector.dot(projector.conj().T) *)
Definition full (p : nat * matrix) : matrix := mmul (fst p) (snd p) (dag (snd p)).
Definition msum (l : list matrix) : matrix := fun i j => lsum R (fun x => x i j) l.
(** symmetry.py:155-167 the check of one symmetry for canonical form *)
Definition nonzero_block (s : matrix) (cj : bool) (pi pj : nat * matrix) : bool :=
  negb (all_below (fst pi) (fst pj) (fun a b => negb (gt (mmul n (mmul n (dag (snd pi)) s) (cond_conj (snd pj) cj) a b)))).
Definition canonical (ps : list (nat * matrix)) (s : option matrix) (cj : bool) : bool :=
  match s with
  | None => true
  | Some s => forallb (fun pi => length (filter (nonzero_block s cj pi) ps) <=? 1) ps
  end.
(** symmetry.py:96-169 __init__ *)
Definition init (ps : option (list matrix)) (t p c : option matrix) : disc + derr :=
  let e0 := match t, p, c with
  | Some t', Some p', Some c' => if almost_identity (c' ** p' ** mC t') then None else Some EProduct
  | _, _, _ => None
  end in
  let '(t, p, c) := complete t p c in
  match e0, check t true NTime, check p true NParticleHole, check c false NChiral with
  | Some e, _, _, _ | None, Some e, _, _ | None, None, Some e, _ | None, None, None, Some e => inr e
  | None, None, None, None =>
    match ps with
    | None => inl (mkDisc None t p c)
    | Some ps =>
      let ps := map trim ps in
      if negb (almost_identity (msum (map full ps))) then inr EStack
      else if negb (canonical ps t true) then inr (ECanonical NTime)
      else if negb (canonical ps p true) then inr (ECanonical NParticleHole)
      else if negb (canonical ps c false) then inr (ECanonical NChiral)
      else inl (mkDisc (Some ps) t p c)
    end
  end.

Definition vanishes (x : matrix) : bool := all_below n n (fun i j => eqb (x i j) 0).
Definition msub (x y : matrix) : matrix := fun i j => x i j - y i j.
(** symmetry.py:189-197 padding of a matrix with m columns *)
Definition pad (m : nat) (h : matrix) : matrix := fun i j => if j <? m then h i j else 0.
(** symmetry.py:199-205 *)
Definition breaks_conservation (h : matrix) (ps : option (list (nat * matrix))) : bool :=
  match ps with
  | None => false
  | Some ps => existsb (fun p => negb (vanishes (msub (full p ** h) (mT (mT (full p) ** mT h))))) ps
  end.
(** symmetry.py:206-212 *)
Definition breaks (h : matrix) (s : option matrix) (cj : bool) (sg : R) : bool :=
  match s with
  | None => false
  | Some s => negb (vanishes (msub (dag s ** mT (mT s ** mT h)) (mscale sg (cond_conj h cj))))
  end.
(** symmetry.py:171-213 validate; the matrix has n rows and m columns *)
Definition validate (d : disc) (m : nat) (h : matrix) : list name :=
  let h := pad m h in
  (if breaks_conservation h (projectors d) then [NConserv] else []) ++
  (if breaks h (time_reversal d) true 1 then [NTime] else []) ++
  (if breaks h (particle_hole d) true (- (1)) then [NParticleHole] else []) ++
  (if breaks h (chiral d) false (- (1)) then [NChiral] else []).

(** ** system.py *)
(** system.py:389-393 InfiniteSystem.validate_symmetries (before list(set(.))) *)
Definition infinite_validate (d : disc) (ham : matrix) (m : nat) (hop : matrix) : list name := validate d n ham ++ validate d m hop.
(** system.py:336-344: one name of [broken]; setattr(symmetries,
    'particle-hole', None) does not change the attribute particle_hole *)
Definition ignore (d : disc) (nm : name) : disc :=
  match nm with
  | NConserv => mkDisc None (time_reversal d) (particle_hole d) (chiral d)
  | NTime => mkDisc (projectors d) None (particle_hole d) (chiral d)
  | NParticleHole => d
  | NChiral => mkDisc (projectors d) (time_reversal d) (particle_hole d) None
  end.
(** system.py:328-355 InfiniteSystem.modes: the symmetries passed on to
    physics.modes.  [broken] is infinite_validate as a set, in any order *)
Definition modes_symmetries (d : disc) (energy : R) (broken : list name) : disc :=
  let d := fold_left ignore broken d in
  if eqb energy 0 then d else mkDisc (projectors d) (time_reversal d) None None.
(** system.py:346-350: ham.flat[::ham.shape[0] + 1] -= energy *)
Definition shift (energy : R) (ham : matrix) : matrix := fun i j => if i =? j then ham i j - energy else ham i j.

(** ** builder.py *)
(** builder.py:2102-2117: the projectors of a conservation law with integer
    eigenvalues [vals] and eigenvectors [vecs] (of all sites) *)
Definition zinsert := fix zinsert (x : Z) (l : list Z) : list Z := match l with [] => [x] | y :: t => if (x <? y)%Z then x :: l else if (x =? y)%Z then l else y :: zinsert x t end.
(** sorted(np.unique(eigvals.data)) *)
Definition unique_sorted (l : list Z) : list Z := fold_right zinsert [] l.
Definition cons_projectors (vals : nat -> Z) (vecs : matrix) : list matrix :=
  map (fun v => mmul n vecs (fun i j => if ((i =? j) && (vals i =? v)%Z)%nat then 1 else 0)) (unique_sorted (map vals (seq 0 n))).
End Disc.
Arguments almost_identity {R}. Arguments cond_conj {R}. Arguments dag {R}. Arguments mkDisc {R}. Arguments projectors {R}. Arguments time_reversal {R}. Arguments particle_hole {R}. Arguments chiral {R}.
Arguments complete {R}. Arguments check {R}. Arguments trim {R}. Arguments full {R}. Arguments msum {R}. Arguments nonzero_block {R}. Arguments canonical {R}. Arguments init {R}.
Arguments vanishes {R}. Arguments msub {R}. Arguments pad {R}. Arguments breaks_conservation {R}. Arguments breaks {R}. Arguments validate {R}. Arguments infinite_validate {R}. Arguments ignore {R}.
Arguments modes_symmetries {R}. Arguments shift {R}. Arguments cons_projectors {R}.
