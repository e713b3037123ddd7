(** * Specification vocabulary: charged particles in a magnetic field, in the basis of the
    harmonic oscillator. *)
From Coq Require Import String Ascii.
From mathcomp Require Import all_ssreflect all_algebra.
From Verif Require Import LandauModel.
Set Implicit Arguments. Unset Strict Implicit. Unset Printing Implicit Defensive.
Import GRing.Theory Num.Theory.
Local Open Scope ring_scope.

Section Spec.
Variable C : numClosedFieldType.
Variable q : nat.
Variable B : C.
(** States of the oscillator: amplitudes of all levels 0, 1, 2, ... *)
Definition state := nat -> C.
(** a|n> = sqrt(n)|n-1>, a^+|n> = sqrt(n+1)|n+1> *)
Definition lower (psi : state) : state := fun n => sqrtC n.+1%:R * psi n.+1.
Definition raise (psi : state) : state := fun n => if n is k.+1 then sqrtC n%:R * psi k else 0.
(** the momenta; in a negative field the ladder operators exchange their roles *)
Definition momentum_operator (k : momentum) (psi : state) : state := fun n =>
  let s := sqrtC (`|B| / 2%:R) in
  let (down, up) := if B < 0 then (raise psi n, lower psi n) else (lower psi n, raise psi n) in
  match k with K0 => s * (down + up) | K1 => 'i * s * (down - up) end.
(** a product of momenta *)
Definition momenta_operator (ks : seq momentum) (psi : state) : state := foldr momentum_operator psi ks.
Definition level (n : nat) : state := fun m => (m == n)%:R.
(** <m| k k ... k |n> *)
Definition matrix_element (ks : seq momentum) (m n : nat) : C := momenta_operator ks (level n) m.
(** The matrix element of the Hamiltonian between two sites *)
Definition exact (H : seq (term C q)) (to from : lsite) : 'M[C]_q :=
  \sum_(t <- H | t_offset t == to.1 - from.1) matrix_element (t_momenta t) to.2 from.2 *: t_coef t from.1.
Definition hermitian (H : seq (term C q)) : Prop :=
  forall to from i j, exact H to from i j = (exact H from to j i)^*.
(** All monomials are of degree up to d in the two momenta *)
Definition degree_le (d : nat) (H : seq (term C q)) : Prop := all (fun t => size (t_momenta t) <= d)%N H.
(** The letter B occurs in no name of a parameter, except in the name "B" *)
Definition names_ok (H : seq (term C q)) : Prop := forall t name, List.In t H -> List.In name (t_params t) -> name = "B"%string \/ ~ List.In "B"%char (list_ascii_of_string name).
End Spec.
