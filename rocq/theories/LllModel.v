(** * Model of kwant/linalg/lll.py: gs, is_c_reduced, lll.

    The arithmetic is a parameter (a record of operations without laws): the
    theorems are about the real numbers, the examples run the same code on
    rational numbers.  numpy arrays are functions of their indices; a row is
    tabulated when it is written.  [gsc] is gs_coefficient, [round] is
    numpy.round (to an integer) and [lstsq] is numpy.linalg.lstsq.  The while
    loop is bounded by [fuel]. *)
From Coq Require Import List Bool Arith ZArith QArith Reals.
Import ListNotations.

Record arith := mkArith {
  F : Type; f0 : F; f1 : F;
  fadd : F -> F -> F; fsub : F -> F -> F; fmul : F -> F -> F; fdiv : F -> F -> F;
  fltb : F -> F -> bool; fZ : Z -> F }.

Section Lll.
Variable A : arith.
Notation F := (F A).
Notation "x + y" := (fadd A x y).
Notation "x - y" := (fsub A x y).
Notation "x * y" := (fmul A x y).
Notation "x / y" := (fdiv A x y).
Notation vector := (nat -> F).
Notation matrix := (nat -> nat -> F).

(** a numpy vector of length n *)
Definition tab (n : nat) (f : vector) : vector := let l := map f (seq 0 n) in fun i => nth i l (f0 A).
(** M[i] = f *)
Definition set_row (n : nat) (M : matrix) (i : nat) (f : vector) : matrix := let row := tab n f in fun a => if (a =? i)%nat then row else M a.
(** M[i, j] = x *)
Definition set_entry (n : nat) (M : matrix) (i j : nat) (x : F) : matrix := set_row n M i (fun k => if (k =? j)%nat then x else M i k).
(** M[[i, j]] = M[[j, i]] *)
Definition swap_rows (M : matrix) (i j : nat) : matrix := let x := M i in let y := M j in fun a => if (a =? i)%nat then y else if (a =? j)%nat then x else M a.
Fixpoint fsum (n : nat) (f : vector) : F := match n with O => f0 A | S n => fsum n f + f n end.
Definition fdot (d : nat) (a b : vector) : F := fsum d (fun k => a k * b k).
Definition fabs (x : F) : F := if fltb A x (f0 A) then f0 A - x else x.

Variables m d : nat.   (* shape of the array of basis vectors *)
Variable gsc : vector -> vector -> F.
Variable round : F -> Z.
Variable lstsq : matrix -> matrix -> matrix.

(** lll.py:16-18 gs_coefficient, in exact arithmetic *)
Definition gs_coefficient (a b : vector) : F := fdot d a b / fdot d b b.
(** lll.py:21-27 gs *)
Definition gs (mat : matrix) : matrix :=
  fold_left (fun mat i =>
    fold_left (fun (mat : matrix) j => let x := gsc (mat i) (mat j) in set_row d mat i (fun k => mat i k - x * mat j k)) (seq 0 i) mat)
    (seq 0 m) mat.
(** lll.py:30-34 is_c_reduced *)
Definition is_c_reduced (vecs : matrix) (c : F) : bool :=
  let vecs := gs vecs in
  let r := fun i => fdot d (vecs i) (vecs i) in
  forallb (fun i => fltb A (r i / r (S i)) c) (seq 0 (m - 1)).

(** the arrays vecs, vecsstar and u *)
Record state := mkState { vecs : matrix; star : matrix; u : matrix }.
(** lll.py:70-73 ll_reduce *)
Definition ll_reduce (i : nat) (st : state) : state :=
  fold_left (fun st j =>
    let z := fZ A (round (u st i j)) in
    mkState (set_row d (vecs st) i (fun k => vecs st i k - z * vecs st j k)) (star st)
            (set_row m (u st) i (fun k => u st i k - z * u st j k)))
    (rev (seq 0 i)) st.
(** lll.py:77-79 *)
Definition orthogonalize (i : nat) (st : state) : state :=
  fold_left (fun st j =>
    let x := gsc (vecs st i) (star st j) in
    mkState (vecs st) (set_row d (star st) i (fun k => star st i k - x * star st j k)) (set_entry m (u st) i j x))
    (seq 0 i) st.
(** lll.py:76-80 *)
Definition initialize (basis : matrix) : state :=
  fold_left (fun st i => ll_reduce i (orthogonalize i st)) (seq 0 m)
    (mkState basis basis (fun i j => if (i =? j)%nat then f1 A else f0 A)).
(** lll.py:89-102 the exchange of vectors i and i+1 *)
Definition exchange (i : nat) (st : state) : state :=
  let star1 := let x := u st (S i) i in set_row d (star st) (S i) (fun k => star st (S i) k + x * star st i k) in
  let x := gsc (vecs st i) (star1 (S i)) in
  let u1 := set_entry m (u st) i i x in
  let u2 := set_entry m (set_entry m u1 i (S i) (f1 A)) (S i) i (f1 A) in
  let u3 := set_entry m u2 (S i) (S i) (f0 A) in
  let star2 := set_row d star1 i (fun k => star1 i k - x * star1 (S i) k) in
  let vecs3 := swap_rows (vecs st) i (S i) in
  let star3 := swap_rows star2 i (S i) in
  let u4 := swap_rows u3 i (S i) in
  let u5 := fold_left (fun u j => set_entry m (set_entry m u j i (gsc (vecs3 j) (star3 i))) j (S i) (gsc (vecs3 j) (star3 (S i))))
              (seq (i + 2) (m - (i + 2))) u4 in
  let st := mkState vecs3 star3 u5 in
  if fltb A (f1 A / fZ A 2) (fabs (u5 (S i) i)) then ll_reduce (S i) st else st.
(** lll.py:85-86 the test *)
Definition in_order (c : F) (i : nat) (st : state) : bool :=
  fltb A (fdot d (star st i) (star st i)) (c * fdot d (star st (S i)) (star st (S i))).
(** lll.py:84-103 the loop; [None]: still running *)
Fixpoint loop (fuel : nat) (c : F) (i : nat) (st : state) : option state :=
  match fuel with
  | O => None
  | S fuel =>
    if (i <? m - 1)%nat then
      if in_order c i st then loop fuel c (S i) st
      else loop fuel c (i - 1) (exchange i st)
    else Some st
  end.

Inductive lll_result := LDone (vecs : matrix) (transf : nat -> nat -> Z) | LValueError | LRuntimeError | LFuel.
(** numpy.allclose(a, b, atol=1e-6), with its default rtol = 1e-5 *)
Definition close (a b : F) : bool :=
  negb (fltb A (f1 A / fZ A 1000000 + f1 A / fZ A 100000 * fabs b) (fabs (a - b))).
(** lll.py:37-109 lll *)
Definition lll (fuel : nat) (basis : matrix) (c : F) : lll_result :=
  if (d <? m)%nat then LValueError
  else match loop fuel c 0 (initialize basis) with
  | None => LFuel
  | Some st =>
    let coefs := lstsq basis (vecs st) in
    if negb (forallb (fun j => forallb (fun i => close (fZ A (round (coefs j i))) (coefs j i)) (seq 0 m)) (seq 0 m)) then LRuntimeError
    else if negb (is_c_reduced (vecs st) c) then LRuntimeError
    else LDone (vecs st) (fun j i => round (coefs j i))
  end.
End Lll.
Arguments LDone {A}. Arguments LValueError {A}. Arguments LRuntimeError {A}. Arguments LFuel {A}.

(** the real numbers *)
Definition realA : arith := mkArith R 0%R 1%R Rplus Rminus Rmult Rdiv (fun x y => if Rlt_dec x y then true else false) IZR.
(** the rational numbers, always reduced *)
Definition ratA : arith := mkArith Q 0%Q 1%Q (fun x y => Qred (x + y)) (fun x y => Qred (x - y)) (fun x y => Qred (x * y)) (fun x y => Qred (x / y))
  (fun x y => negb (Qle_bool y x)) inject_Z.
