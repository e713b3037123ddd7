(** * Specification vocabulary for shortest paths. *)
From Coq Require Import List Bool Arith.
From Verif Require Import DijkstraModel.
Import ListNotations.
Set Implicit Arguments.

Section Spec.
Variable W : Type.
Variable w0 : W.
Variable wadd : W -> W -> W.
Variable wltb : W -> W -> bool.
(** the order of the weights *)
Definition wle (a b : W) : Prop := wltb b a = false.
(** [wltb] is the strict part of a total order that is compatible with addition *)
Record ordered_weights : Prop := {
  wle_refl : forall a, wle a a;
  wle_trans : forall a b c, wle a b -> wle b c -> wle a c;
  wle_antisym : forall a b, wle a b -> wle b a -> a = b;
  wle_total : forall a b, wle a b \/ wle b a;
  wadd_mono : forall a b w, wle a b -> wle (wadd a w) (wadd b w) }.
(** all weights are non-negative (or inf), and all columns in range *)
Definition good_graph (g : csr W) : Prop :=
  forall i j w, In (j, Some w) (row g i) -> j < length g /\ forall a, wle a (wadd a w).
(** remove_min returns a node of the heap with the smallest value *)
Definition min_oracle (pick : list nat -> (nat -> W) -> list nat -> nat) : Prop :=
  forall tr val h, h <> [] -> In (pick tr val h) h /\ forall x, In x h -> wle (val (pick tr val h)) (val x).
(** [route g s p t L]: p is a path from s to t along links of finite weight,
    listed backwards from t to s; the sum of the weights is L *)
Inductive route (g : csr W) (s : nat) : list nat -> nat -> W -> Prop :=
| route_start : route g s [s] s w0
| route_step p u L x w : route g s p u L -> In (x, Some w) (row g u) -> route g s (x :: p) x (wadd L w).
Definition reachable (g : csr W) (s t : nat) : Prop := exists p L, route g s p t L.
Definition shortest (g : csr W) (s t : nat) (p : list nat) (L : W) : Prop :=
  route g s p t L /\ forall p' L', route g s p' t L' -> wle L L'.
End Spec.
