(** * Specification vocabulary for hamiltonian_submatrix (C23, C24). *)
From Coq Require Import List Bool Arith.
From Verif Require Import SubmatrixModel.
Import ListNotations.
Set Implicit Arguments.

Section Spec.
Variable K : Type.
Variable k0 : K.
Variable kconj : K -> K.
Variable E : Type.
Variable nb : nat -> list nat.                  (* neighbors *)
Variable ham : nat -> nat -> mat K + E.         (* hamiltonian(i, j) as a matrix *)

(** number of orbitals of a site: the number of rows of its onsite matrix *)
Definition norb (f : nat) : nat := match ham f f with inl m => mr m | inr _ => 0 end.

(** The element (a, b) of the block between sites [t] and [f]. *)
Definition block (t f a b : nat) : K :=
  if (t =? f) || existsb (Nat.eqb t) (nb f) then
    match ham t f with inl m => mget m a b | inr _ => k0 end
  else k0.

(** hamiltonian(t, f) can be evaluated and has the right shape. *)
Definition good (t f : nat) : Prop := exists m, ham t f = inl m /\ mr m = norb t /\ mc m = norb f.
Definition all_good (to from : list nat) : Prop :=
  (forall s, In s to \/ In s from -> exists m, ham s s = inl m) /\
  forall t f, In t to -> In f from -> t = f \/ In t (nb f) -> good t f.

(** [get] is the matrix made of the blocks between [to] and [from]. *)
Definition is_block_matrix (get : nat -> nat -> K) (to from : list nat) : Prop :=
  forall p q t f a b, nth_error to p = Some t -> nth_error from q = Some f -> a < norb t -> b < norb f ->
    get (list_sum (map norb (firstn p to)) + a) (list_sum (map norb (firstn q from)) + b) = block t f a b.

(** A graph of a finite system: symmetric, no loops, no repeated edges. *)
Record simple_graph (n : nat) : Prop := mkSG {
  sg_range : forall f t, f < n -> In t (nb f) -> t < n;
  sg_sym : forall f t, f < n -> In t (nb f) -> In f (nb t);
  sg_loop : forall f, ~ In f (nb f);
  sg_nodup : forall f, NoDup (nb f) }.

(** Hermiticity: hamiltonian(f, t) is the conjugate transpose of hamiltonian(t, f). *)
Definition hermitian_at (t f : nat) : Prop :=
  match ham t f, ham f t with
  | inl m, inl m' => mr m' = mc m /\ mc m' = mr m /\ forall a b, a < mr m' -> b < mc m' -> mget m' a b = kconj (mget m b a)
  | inr _, inr _ => True
  | _, _ => False
  end.
End Spec.
