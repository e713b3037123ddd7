(** * Model of kwant/physics/gauge.py: magnetic_gauge for infinite systems. *)
From Coq Require Import Reals List Bool Arith ZArith.
From Verif Require Import StarRing DijkstraModel DiscretizeReal GaugeModel.
Import ListNotations.
Set Implicit Arguments.
Local Open Scope R_scope.

(** A finalized infinite system: the sites 0 ... n - 1 (n is cell_size) form a unit
    cell, sites n + k stand for the site k of the previous unit cell (not all of them
    need to be present); the graph as in GaugeModel. *)
Section Inf.
Variable n : nat.
Variable adj : list (list nat).
(** gauge.py:314-315 unit_cell_links *)
Definition cell_adj : list (list nat) := map (fun i => filter (fun j => (j <? n)%nat) (nth i adj [])) (seq 0 n).
(** gauge.py:329 hop_links *)
Definition hop_links : list (nat * nat) :=
  flat_map (fun i => map (pair i) (filter (fun j => (n <=? j)%nat) (nth i adj []))) (seq 0 (length adj)).
(** gauge.py:326-327, 333-334, 346-347 _shift_diagonally, _add_coo_matrices: the rows
    of the matrix of two unit cells and the links between them.  (The order of the
    entries within the rows, which matters only for ties, is that of the list of
    matrices.) *)
Definition shift (k : nat) (r : list (nat * option R)) : list (nat * option R) := map (fun e => ((fst e + k)%nat, snd e)) r.
Definition ext_row (uc : graph) (hop : list ((nat * nat) * option R)) (i : nat) : list (nat * option R) :=
  (if (i <? n)%nat then row uc i else shift n (row uc (i - n))) ++
  map (fun h => (snd (fst h), snd h)) (filter (fun h => (fst (fst h) =? i)%nat) hop) ++
  map (fun h => (fst (fst h), snd h)) (filter (fun h => (snd (fst h) =? i)%nat) hop).
Definition extended (uc : graph) (hop : list ((nat * nat) * option R)) : graph := map (ext_row uc hop) (seq 0 (2 * n)).
(** np.argmin *)
Fixpoint argmin_from (k best : nat) (m : R) (l : list R) : nat :=
  match l with
  | [] => best
  | x :: l => if rltb x m then argmin_from (S k) k x l else argmin_from (S k) best m l
  end.
Definition argmin (l : list R) : nat := match l with [] => O | x :: l => argmin_from 1 0 x l end.
(** positions of the sites: the position in the unit cell, and the period of the
    symmetry.  gauge.py:351-354 extended_sites *)
Variable pos : nat -> vec.
Variable period : vec.
Definition site_pos (s : Z * nat) : vec := vadd (pos (snd s)) (vscale (IZR (fst s)) period).
Definition ext_site (i : nat) : Z * nat := ((- Z.of_nat (i / n))%Z, (i mod n)%nat).
Definition ext_pos (i : nat) : vec := site_pos (ext_site i).
Section Loops.
Variable pick : list nat -> (nat -> R) -> list nat -> nat.
Variable pop : list nat -> nat.
Variable argsort : list R -> list nat.
(** csgraph.connected_components(graph, return_labels=False) *)
Variable components : list (list nat) -> nat.
(** gauge.py:655-698 _check_infinite_syst; without links in the unit cell the
    assignment to rows, cols raises ValueError *)
Definition check_infinite : bool := negb (forallb (fun r => match r with [] => true | _ => false end) cell_adj) && (components cell_adj <=? 1)%nat.
(** gauge.py:293-356 _loops_in_infinite *)
Definition hop_lengths : list R := map (fun ij => distance (ext_pos (fst ij)) (ext_pos (snd ij))) hop_links.
Definition all_hops : list ((nat * nat) * option R) := combine hop_links (map Some hop_lengths).
Definition smallest_hop : list ((nat * nat) * option R) :=
  combine hop_links (map (fun kd => if (fst kd =? argmin hop_lengths)%nat then Some (snd kd) else None) (combine (seq 0 (length hop_lengths)) hop_lengths)).
Definition loops_in_infinite : option (list (list nat)) :=
  if check_infinite then
    let uc := distance_matrix cell_adj ext_pos in
    obind (shortest_distance_forest pick pop uc) (fun tree =>
    obind (find_loops pick argsort uc tree) (fun loops =>
    match hop_links with
    | [] => None (* ValueError of argmin *)
    | _ :: _ => option_map (fun loops' => loops ++ loops') (find_loops pick argsort (extended uc all_hops) (extended uc smallest_hop))
    end))
  else None.
(** gauge.py:810-821 _previous_phase_infinite *)
Definition reduce (ij : nat * nat) : nat * nat :=
  if (n <=? fst ij)%nat && (n <=? snd ij)%nat then ((fst ij mod n)%nat, (snd ij mod n)%nat) else ij.
Fixpoint previous_phase_inf (ph : phases) (prev : RC) (path : list nat) : RC :=
  match path with
  | i :: ((j :: _) as rest) =>
    let '(i', j') := reduce (i, j) in
    previous_phase_inf ph (cdiv (rmul RC prev (get1 ph (i', j'))) (get1 ph (j', i'))) rest
  | _ => prev
  end.
(** syst.id_by_site: None is KeyError *)
Definition site_id (s : Z * nat) : option nat :=
  if (fst s =? 0)%Z && (snd s <? n)%nat then Some (snd s)
  else if (fst s =? -1)%Z && (snd s + n <? length adj)%nat then Some (snd s + n)%nat
  else None.
(** gauge.py:864-879 _infinite_wrapper *)
Definition wrapper_inf (ph : phases) (a b : Z * nat) : option RC :=
  let t := Z.max (fst a) (fst b) in
  obind (site_id ((fst a - t)%Z, snd a)) (fun i =>
  obind (site_id ((fst b - t)%Z, snd b)) (fun j => Some (wrapper ph i j))).
(** gauge.py:894-903, 936-1033 _peierls_infinite, magnetic_gauge *)
Definition magnetic_gauge_inf (dblquad : (R -> R -> R) -> R) (f : field) (tol : R) (average : bool) : option (Z * nat -> Z * nat -> option RC) :=
  option_map (fun loops => wrapper_inf (calculate_phases ext_pos (surface_integral dblquad f false tol) (fun ph => previous_phase_inf ph (r1 RC)) loops))
    loops_in_infinite.
End Loops.
End Inf.
