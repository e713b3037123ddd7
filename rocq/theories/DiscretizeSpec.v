(** * Specification vocabulary for discretize. *)
From Coq Require Import List Bool Arith ZArith Lia.
From Verif Require Import StarRing DiscretizeModel.
Import ListNotations.
Set Implicit Arguments.

Section Spec.
Variable F : Type.
Variable coords : list nat.
Variable K : StarRing.
Variable kinv : K -> K.
Variable env : F -> list K -> K.
Variable kpar : nat -> K.
(** how often the momentum c occurs in a product *)
Definition count_mom (c : nat) (s : summand F) : nat :=
  fold_right (fun f m => match f with Mom _ c' e => if c =? c' then e + m else m | Fn _ => m end) 0 s.
(** The step of the finite differences: the grid spacing, or half of it in
    directions in which there is an even number of derivatives *)
Definition step (s : summand F) (c : nat) (a : K) : K :=
  if (0 <? count_mom c s) && Nat.even (count_mom c s) then rmul K a (kinv (radd K (r1 K) (r1 K))) else a.
Definition steps (a : list K) (s : summand F) : list K := map (fun p => step s (fst p) (snd p)) (combine coords a).
(** x with the coordinate i replaced by x_i + h *)
Fixpoint moved (i : nat) (h : K) (x : list K) : list K :=
  match x, i with
  | y :: x', 0 => radd K y h :: x'
  | y :: x', S i' => y :: moved i' h x'
  | [], _ => []
  end.
(** - i d/dx_i, as a central difference *)
Definition central (i : nat) (h : K) (phi : list K -> K) (x : list K) : K :=
  rmul K (rmul K (ropp K (ri K)) (kinv (rmul K (radd K (r1 K) (r1 K)) h))) (rsub K (phi (moved i h x)) (phi (moved i (ropp K h) x))).
Fixpoint position (c : nat) (l : list nat) : option nat :=
  match l with [] => None | x :: l' => if c =? x then Some 0 else option_map S (position c l') end.
(** the operators act on functions of the continuous coordinates *)
Definition factor_op (h : list K) (f : factor F) (phi : list K -> K) : list K -> K :=
  match f with
  | Fn g => fun x => rmul K (env g x) (phi x)
  | Mom _ c e => match position c coords with
               | Some i => Nat.iter e (central i (nth i h (r0 K))) phi
               | None => fun x => rmul K (kpow K (kpar c) e) (phi x)
               end
  end.
(** a product of operators: the rightmost one acts first *)
Definition summand_op (a : list K) (s : summand F) (phi : list K -> K) : list K -> K := fold_right (factor_op (steps a s)) phi s.
Definition expression_op (a : list K) (e : expression F) (phi : list K -> K) (x : list K) : K :=
  lsum K (fun s => summand_op a s phi x) e.
(** the adjoint of a product of operators *)
Variable fconj : F -> F.
Definition adjoint_factor (f : factor F) : factor F := match f with Fn g => Fn (fconj g) | Mom _ c e => Mom F c e end.
Definition adjoint (s : summand F) : summand F := rev (map adjoint_factor s).
End Spec.
