(** * Model of site_ranges and orbital offsets (builder.py, operator.pyx).

    Numbers are unbounded naturals (gint overflow is not modelled). *)
From Coq Require Import List Bool Arith.
Import ListNotations.
Set Implicit Arguments.

Section Ranges.
Variable fam : Type.                          (* site families *)
Variable fdec : forall a b : fam, {a = b} + {a <> b}.
Variable norbs : fam -> nat.                  (* 0: not declared (None) *)

(** builder.py:703-726 _site_ranges, the loop.  [idx]: enumerate's counter,
    [cur]: (current_fam, current_norbs); result in reverse order. *)
Fixpoint ranges_loop (fams : list fam) (idx total : nat) (cur : option (fam * nat))
    (acc : list (nat * nat * nat)) : option (list (nat * nat * nat) * nat) :=
  match fams with
  | [] => Some (acc, total)
  | f :: fams =>
    if norbs f =? 0 then None
    else
      let new := match cur with Some (g, _) => if fdec f g then false else true | None => true end in
      let cur := if new then Some (f, norbs f) else cur in
      let cn := match cur with Some (_, k) => k | None => 0 end in
      let acc := if new then (idx, cn, total) :: acc else acc in
      ranges_loop fams (S idx) (total + cn) cur acc
  end.
Definition site_ranges (fams : list fam) : option (list (nat * nat * nat)) :=
  match ranges_loop fams 0 0 None [] with
  | None => None
  | Some (acc, total) => Some (rev acc ++ [(length fams, 0, total)])
  end.
End Ranges.

(** operator.pyx:36-45 _bisect; the loop runs at most [fuel] times (the array
    length suffices). *)
Fixpoint bisect_loop (fuel : nat) (a : list nat) (x lo hi : nat) : nat :=
  match fuel with
  | O => lo
  | S fuel =>
    if lo <? hi then
      let mid := (lo + hi) / 2 in
      if x <? nth mid a 0 then bisect_loop fuel a x lo mid
      else bisect_loop fuel a x (mid + 1) hi
    else lo
  end.
Definition bisect (a : list nat) (x : nat) : nat := bisect_loop (length a) a x 0 (length a).

(** operator.pyx:114-125 _get_orbs: (start_orb, norbs). *)
Definition get_orbs (ranges : list (nat * nat * nat)) (site : nat) : nat * nat :=
  let run_idx := bisect (map (fun r => fst (fst r)) ranges) site - 1 in
  let '(first_site, norb, orb_offset) := nth run_idx ranges (0, 0, 0) in
  (orb_offset + (site - first_site) * norb, norb).

(** operator.pyx:130-148 _get_all_orbs, one row: (offsets, norbs). *)
Definition get_all_orbs (ranges : list (nat * nat * nat)) (where_ : list (nat * nat)) : list (nat * nat) * list (nat * nat) :=
  (map (fun w => (fst (get_orbs ranges (fst w)), fst (get_orbs ranges (snd w)))) where_,
   map (fun w => (snd (get_orbs ranges (fst w)), snd (get_orbs ranges (snd w)))) where_).

(** operator.pyx:151-157 _get_tot_norbs; [n_sites] is cell_size for an infinite
    system and num_nodes otherwise. *)
Definition get_tot_norbs (ranges : list (nat * nat * nat)) (n_sites : nat) : nat := fst (get_orbs ranges n_sites).
