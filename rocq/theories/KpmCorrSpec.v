(** * Specification vocabulary for C49, C50, C51. *)
From Coq Require Import List Bool Arith ZArith.
From Verif Require Import StarRing KpmModel KpmSpec KpmCorrModel.
Import ListNotations.
Set Implicit Arguments.

Section Histories.
Variable R : StarRing.
Notation vec := (list R).
Variables (next : nat -> option vec) (H : vec -> vec) (op1 op2 : vec -> vec).
Notation corr := (corr R).
(** calls of the methods of a Correlator *)
Definition run_ccall (c : call) (s : corr) : kout corr :=
  match c with CMoments k => corr_add_moments next H H op1 op2 k s | CVectors k => corr_add_vectors next H H op1 op2 k s end.
(** add_moments needs accumulate_vectors=True *)
Definition allowed (acc : bool) (c : call) : Prop := match c with CMoments k => acc = true \/ (k <= 0)%Z | CVectors _ => True end.
Inductive chistory (limit : option nat) (nv : option Z) (acc : bool) (nm : Z) : list call -> corr -> Prop :=
  | CInit c : corr_init next H H op1 op2 limit nv acc nm = (c, None) -> chistory limit nv acc nm [] c
  | CCall cs s c s' e : chistory limit nv acc nm cs s -> allowed acc c -> run_ccall c s = (s', e) -> e = None \/ e = Some KValue -> chistory limit nv acc nm (cs ++ [c]) s'.
End Histories.
Arguments run_ccall {R}. Arguments chistory {R}.

Section Matrices.
Variable R : StarRing.
Variable d : nat.
Notation matrix := (nat -> nat -> R).
Definition mmul (x y : matrix) : matrix := fun i j => sum R d (fun k => rmul R (x i k) (y k j)).
Definition trace (x : matrix) : R := sum R d (fun i => x i i).
Definition unit_matrix : matrix := fun i j => if i =? j then r1 R else r0 R.
(** (h - b) / a *)
Definition scaled (h : matrix) (ainv b : R) : matrix := fun i j => rmul R ainv (rsub R (h i j) (rmul R b (unit_matrix i j))).
(** Chebyshev polynomials of a matrix *)
Fixpoint cheb_matrix (x : matrix) (n : nat) : matrix :=
  match n with
  | 0 => unit_matrix
  | S m => match m with
    | 0 => x
    | S k => fun i j => rsub R (rmul R two (mmul x (cheb_matrix x m) i j)) (cheb_matrix x k i j)
    end
  end.
End Matrices.
Arguments mmul {R}. Arguments trace {R}. Arguments unit_matrix {R}. Arguments scaled {R}. Arguments cheb_matrix {R}.
