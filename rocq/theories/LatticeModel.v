(** * Model of kwant/lattice.py: positions of sites, closest sites, the
    neighbours used by the flood fill.

    Real arithmetic is exact; see LllModel.v and CvpModel.v for lll.lll,
    lll.cvp and lll.voronoi and for the numerical libraries.  Tags are lists of
    m integers.  [lfuel] and [cfuel] bound the loops of lll and cvp; [None]
    stands for a loop still running or an exception. *)
From Coq Require Import List Bool Arith ZArith Reals.
From Verif Require Import KpmReal CvpModel LllModel LllSpec.
Import ListNotations.
Open Scope R_scope.

Section Lattice.
Variables m d : nat.                                 (* lattice_dim, dim *)
Variable prim : nat -> nat -> R.                     (* _prim_vecs *)
Variable offset : nat -> R.
Variable round : R -> Z.
Variable lstsq_mat : (nat -> nat -> R) -> (nat -> nat -> R) -> nat -> nat -> R.
Variable lstsq : (nat -> nat -> R) -> (nat -> R) -> nat -> R.
Variable inv : (nat -> nat -> R) -> nat -> nat -> R.
Variable argsort : (point -> R) -> list point -> list point.

(** lattice.py:454 (125): reduced_vecs, transf = lll.lll(prim_vecs), c = 1.34 *)
Definition reduced (lfuel : nat) : option ((nat -> nat -> R) * (nat -> nat -> Z)) :=
  match lll realA m d (gs_coefficient realA d) round lstsq_mat lfuel prim (134 / 100) with
  | LDone v t => Some (v, t)
  | _ => None
  end.
(** np.dot(points, transf.T) *)
Definition dot_transf_T (transf : nat -> nat -> Z) (p : point) : point :=
  map (fun j => Zsum m (fun i => nth i p 0 * transf j i)%Z) (seq 0 m).
(** ta.dot(points, transf) *)
Definition dot_transf (transf : nat -> nat -> Z) (p : point) : point :=
  map (fun j => Zsum m (fun i => nth i p 0 * transf i j)%Z) (seq 0 m).
(** lattice.py:501-503 pos: ta.dot(tag, prim_vecs) + offset *)
Definition pos (tag : point) (k : nat) : R := Rsum m (fun i => IZR (nth i tag 0%Z) * prim i k) + offset k.
(** lattice.py:374-386 vec *)
Definition vec (tag : point) (k : nat) : R := Rsum m (fun i => IZR (nth i tag 0%Z) * prim i k).
(** lattice.py:479-493 n_closest *)
Definition n_closest (lfuel cfuel : nat) (x : nat -> R) (n : nat) (group : bool) (rtol : R) : option (list point) :=
  match reduced lfuel with
  | None => None
  | Some (v, t) =>
    match cvp m d v (lstsq v) inv round argsort cfuel (fun k => x k - offset k) n group rtol with
    | CDone ps => Some (map (dot_transf_T t) ps)
    | _ => None
    end
  end.
(** lattice.py:495-499 closest *)
Definition closest (lfuel cfuel : nat) (x : nat -> R) : option point :=
  match n_closest lfuel cfuel x 1 false (1 / 10 ^ 9) with Some (t :: _) => Some t | _ => None end.
(** lattice.py:455 (126), and wraparound.py:391: voronoi *)
Definition voronoi_tags (lfuel cfuel : nat) : option (list point) :=
  match reduced lfuel with
  | None => None
  | Some (v, t) => option_map (map (dot_transf t)) (voronoi m d v (lstsq v) inv round argsort cfuel false (1 / 10 ^ 9))
  end.
End Lattice.
