(** * Model of Polyatomic.neighbors, lattice.py:283-362.

    The sublattices are numbered 0, ..., N - 1 and assumed to be distinct.
    Real arithmetic is exact; [None] stands for an exception or a loop of lll
    or cvp still running.  A HoppingKind is a triple (delta, family_a, family_b). *)
From Coq Require Import List Bool Arith ZArith Reals.
From Verif Require Import KpmReal CvpModel LatticeModel.
Import ListNotations.
Open Scope R_scope.

(** numpy.sort of floats *)
Fixpoint rinsert (x : R) (l : list R) : list R :=
  match l with [] => [x] | y :: t => if Rle_dec x y then x :: l else y :: rinsert x t end.
Definition rsort (l : list R) : list R := fold_right rinsert [] l.
(** comparison of tags by the first coordinate, then the second, ... *)
Fixpoint lex_leb (s t : point) : bool :=
  match s, t with
  | [], _ => true
  | _, [] => false
  | x :: s, y :: t => (x <? y)%Z || ((x =? y)%Z && lex_leb s t)
  end.
Fixpoint linsert (x : point) (l : list point) : list point :=
  match l with [] => [x] | y :: t => if lex_leb x y then x :: l else y :: linsert x t end.
(** tags[np.lexsort(tags.T[::-1])] *)
Definition lexsort (l : list point) : list point := fold_right linsert [] l.
Fixpoint sequence {A} (l : list (option A)) : option (list A) :=
  match l with
  | [] => Some []
  | None :: _ => None
  | Some x :: l => match sequence l with Some r => Some (x :: r) | None => None end
  end.

Definition kind := (point * nat * nat)%type.
Section Neighbors.
Variables m d : nat.
Variable prim : nat -> nat -> R.
Variable N : nat.                                    (* len(self.sublattices) *)
Variable basis : nat -> nat -> R.                    (* the offsets of the sublattices *)
Variable round : R -> Z.
Variable lstsq_mat : (nat -> nat -> R) -> (nat -> nat -> R) -> nat -> nat -> R.
Variable lstsq : (nat -> nat -> R) -> (nat -> R) -> nat -> R.
Variable inv : (nat -> nat -> R) -> nat -> nat -> R.
Variable argsort : (point -> R) -> list point -> list point.
Variables lfuel cfuel : nat.
Notation n_closest i := (n_closest m d prim (basis i) round lstsq_mat lstsq inv argsort lfuel cfuel).
Notation pos i := (pos m prim (basis i)).

Definition norm (u : nat -> R) : R := sqrt (Rsum d (fun k => u k * u k)).
Definition zeros : point := repeat 0%Z m.
(** lattice.py:311-314: eps *= norm(self.vec(shortest_hopping)) *)
Definition tolerance (eps : R) : option R :=
  match n_closest 0%nat (pos 0%nat zeros) 2 false (1 / 10 ^ 9) with
  | Some tags => Some (eps * norm (vec m prim (last tags [])))
  | None => None
  end.
(** lattice.py:316-317 sublat_pairs *)
Definition sublat_pairs : list (nat * nat) :=
  filter (fun p => fst p <=? snd p)%nat (flat_map (fun i => map (pair i) (seq 0 N)) (seq 0 N)).
(** lattice.py:330-336 one entry of sites: tags, (j, i), ij_dist *)
Definition pair_sites (n : nat) (rtol : R) (p : nat * nat) : option (list point * (nat * nat) * list R) :=
  let (i, j) := p in
  let origin := pos j zeros in
  match n_closest i origin (n + 1) true rtol with
  | Some tags => Some (tags, (j, i), map (fun tag => norm (fun k => pos i tag k - origin k)) tags)
  | None => None
  end.
(** lattice.py:337-344 n_dist; [None]: IndexError *)
Definition nth_dist (n : nat) (eps : R) (distances : list R) : option R :=
  let gb := boundaries eps distances in
  if (length gb =? n)%nat then (match distances with [] => None | _ => Some (last distances 0) end)
  else match nth_error gb n with Some g => Some (nth g distances 0) | None => None end.
(** lattice.py:347-362 *)
Definition select (eps n_dist : R) (group : list point * (nat * nat) * list R) : list kind :=
  let '(tags, (i, j), distance) := group in
  let tags := map fst (filter (fun td => Rltb (Rabs (snd td - n_dist)) eps) (combine tags distance)) in
  let tags := rev (lexsort tags) in
  let tags := if (i =? j)%nat && (1 <? length tags)%nat then firstn (length tags / 2) tags else tags in
  map (fun tag => (tag, j, i)) tags.
Definition neighbors (n : nat) (eps : R) : option (list kind) :=
  match tolerance eps, sequence (map (pair_sites n eps) sublat_pairs) with
  | Some tol, Some sites =>
    match nth_dist n tol (rsort (flat_map (fun s => snd s) sites)) with
    | Some n_dist => Some (flat_map (select tol n_dist) sites)
    | None => None
    end
  | _, _ => None
  end.
End Neighbors.
