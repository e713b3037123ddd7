(** * Model of Polyatomic.shape (flood fill) and wire, lattice.py:132-281. *)
From Coq Require Import List Bool Arith ZArith Reals.
From Verif Require Import KpmReal.
Import ListNotations.
Set Implicit Arguments.

Section Shape.
Variables tag fam : Type.
Variable tdec : forall a b : tag, {a = b} + {a <> b}.
Notation site := (fam * tag)%type.
Variable tadd : tag -> tag -> tag.
Variable lats : list fam.                            (* self.sublattices *)
Variable deltas : list tag.                          (* list(self.voronoi) *)
Variable fd : fam -> tag -> tag.                     (* symmetry.to_fd(Site(lat, tag)).tag *)
Variable inside : fam -> tag -> bool.                (* function(Site(lat, tag).pos) *)
(** The order in which Python iterates over a set is not specified: [set_tags l]
    and [set_sites l] are the elements of the set of the elements of l in that order. *)
Variable set_tags : list tag -> list tag.
Variable set_sites : list site -> list site.

Definition mem (t : tag) (l : list tag) : bool := if in_dec tdec t l then true else false.
(** lattice.py:192-197 *)
Definition first_sites (starts : list tag) : list site :=
  flat_map (fun t => flat_map (fun lat => if inside lat (fd lat t) then [(lat, fd lat t)] else []) lats) (set_tags starts).
(** lattice.py:203-223: one pass of the while loop; [tags] as in the code *)
Definition next (tags : list tag) (sites : list site) : list tag * list site :=
  let cur := set_tags (map snd sites) in
  let old := tags ++ cur in
  let new_tags := set_tags (filter (fun t => negb (mem t old)) (flat_map (fun t => map (tadd t) deltas) cur)) in
  (cur, set_sites (flat_map (fun t => flat_map (fun lat => let u := fd lat t in if negb (mem u old) && inside lat u then [(lat, u)] else []) lats) new_tags)).
(** the sites yielded in at most [fuel] passes, and whether the generator is exhausted *)
Fixpoint fill (fuel : nat) (tags : list tag) (sites : list site) : list site * bool :=
  match sites with
  | [] => ([], true)
  | _ =>
    match fuel with
    | O => ([], false)
    | S fuel => let (tags', sites') := next tags sites in let (r, b) := fill fuel tags' sites' in (sites ++ r, b)
    end
  end.
(** lattice.py:188-223; [None]: ValueError.  [starts]: the closest tags of the sublattices *)
Definition shape_sites (fuel : nat) (starts : list tag) : option (list site * bool) :=
  match first_sites starts with
  | [] => None
  | sites => Some (fill fuel (set_tags (map snd sites)) sites)
  end.
End Shape.

(** lattice.py:270-277: wire_shape; [d] is the dimension of space *)
Section Wire.
Open Scope R_scope.
Variable d : nat.
Definition wdot (u v : nat -> R) : R := Rsum d (fun k => u k * v k).
Definition wire_shape (center period : nat -> R) (radius : R) (pos : nat -> R) : bool :=
  let direction := fun k => period k / sqrt (wdot period period) in
  let rel_pos := fun k => pos k - center k in
  let projection := fun k => rel_pos k - direction k * wdot direction rel_pos in
  if Rle_dec (wdot projection projection) (radius ^ 2) then true else false.
End Wire.
