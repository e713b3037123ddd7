(** * Model of kwant/builder.py: Builder.closest. *)
From Coq Require Import List Bool Arith ZArith Reals.
From Verif Require Import KpmReal CvpModel LllModel LllSpec.
Import ListNotations.
Open Scope R_scope.

(** Real arithmetic is exact; lll.lll and lll.cvp as in LllModel.v and CvpModel.v.  A
    site is a family (a number) and a tag.  [lfuel] and [cfuel] bound the loops of lll
    and cvp; the outer [None] is a loop still running or an exception. *)
Definition site := (nat * point)%type.
Section Closest.
Variables m d : nat.                                 (* num_directions; dimension of positions *)
(** positions of the sites of a family; None: the family does not provide pos() *)
Variable fpos : nat -> option (point -> nat -> R).
(** the translational symmetry: the change of the tags of a family by each generator
    (TranslationalSymmetry.act, lattice.py:656-696, for a site) *)
Variable smat : nat -> nat -> nat -> Z.
Variable round : R -> Z.
Variable lstsq_mat : (nat -> nat -> R) -> (nat -> nat -> R) -> nat -> nat -> R.
Variable lstsq : (nat -> nat -> R) -> (nat -> R) -> nat -> R.
Variable inv : (nat -> nat -> R) -> nat -> nat -> R.
Variable argsort : (point -> R) -> list point -> list point.

Definition sym_act (e : point) (s : site) : site :=
  (fst s, map (fun c => (nth c (snd s) 0 + Zsum m (fun i => nth i e 0 * smat (fst s) i c))%Z) (seq 0 (length (snd s)))).
(** ta.identity(n, int)[i], ta.zeros *)
Definition unit_element (i : nat) : point := map (fun j => if (i =? j)%nat then 1%Z else 0%Z) (seq 0 m).
Definition zero_tag (n : nat) : point := map (fun _ => 0%Z) (seq 0 n).
(** Site.pos *)
Definition site_pos (s : site) : option (nat -> R) := option_map (fun f => f (snd s)) (fpos (fst s)).
(** builder.py:1314-1322 space_basis, transf (not transposed) *)
Definition space_basis (s : site) : option (nat -> nat -> R) :=
  match fpos (fst s) with
  | None => None
  | Some f => Some (fun i k => f (snd (sym_act (unit_element i) s)) k - f (snd s) k)
  end.
Definition reduced_basis (lfuel : nat) (s : site) : option ((nat -> nat -> R) * (nat -> nat -> Z)) :=
  match space_basis s with
  | None => None
  | Some b =>
    match lll realA m d (gs_coefficient realA d) round lstsq_mat lfuel b (134 / 100) with
    | LDone v t => Some (v, t)
    | _ => None
    end
  end.
(** builder.py:1335-1340 tag_basis (the cache is not modelled: all tags of a family have
    the same length) *)
Definition tag_basis (transf : nat -> nat -> Z) (s : site) (j c : nat) : Z :=
  Zsum m (fun i => (transf i j * nth c (snd (sym_act (unit_element i) (fst s, zero_tag (length (snd s))))) 0)%Z).
(** builder.py:1341-1343 the closest translated site *)
Definition shifted (cfuel : nat) (v : nat -> nat -> R) (t : nat -> nat -> Z) (x : nat -> R) (s : site) : option site :=
  match site_pos s with
  | None => None
  | Some p =>
    match cvp m d v (lstsq v) inv round argsort cfuel (fun k => x k - p k) 1 false (1 / 10 ^ 9) with
    | CDone (shift :: _) => Some (fst s, map (fun c => (Zsum m (fun j => nth j shift 0 * tag_basis t s j c) + nth c (snd s) 0)%Z) (seq 0 (length (snd s))))
    | _ => None
    end
  end.
(** builder.py:1344-1348 keep the closest site; the distance is infinite at first *)
Definition dist2 (x p : nat -> R) : R := Rsum d (fun k => (p k - x k) * (p k - x k)).
Definition keep (x : nat -> R) (best : option (R * site)) (s : site) : option (option (R * site)) :=
  match site_pos s with
  | None => None
  | Some p =>
    let r := dist2 x p in
    match best with
    | Some (r', _) => if Rlt_dec r r' then Some (Some (r, s)) else Some best
    | None => Some (Some (r, s))
    end
  end.
Fixpoint scan (translated : site -> option site) (x : nat -> R) (best : option (R * site)) (sites : list site) : option (option (R * site)) :=
  match sites with
  | [] => Some best
  | s :: rest =>
    match site_pos s, translated s with
    | Some _, Some s' => match keep x best s' with Some best' => scan translated x best' rest | None => None end
    | _, _ => None
    end
  end.
(** builder.py:1297-1349 closest *)
Definition closest (lfuel cfuel : nat) (sites : list site) (x : nat -> R) : option (option site) :=
  option_map (option_map snd)
    (if (m =? 0)%nat then scan Some x None sites
     else match sites with
     | [] => None (* StopIteration *)
     | s :: _ =>
       match reduced_basis lfuel s with
       | None => None
       | Some (v, t) => scan (shifted cfuel v t x) x None sites
       end
     end).
End Closest.
