(** * Specification vocabulary for C32, C53: symmetries of matrices. *)
From Coq Require Import List Bool Arith ZArith.
From Verif Require Import StarRing KpmCorrSpec RmtModel.
Import ListNotations.
Set Implicit Arguments.

Section Spec.
Variable R : StarRing.
Notation matrix := (nat -> nat -> R).
Local Open Scope star_scope.
Notation "0" := (r0 R) : star_scope.
Notation "1" := (r1 R) : star_scope.
(** kron(identity, m): [m] acts on the last (fastest) index *)
Definition kron (m : list (list R)) : matrix := fun i j =>
  let k := length m in if i / k =? j / k then nth (j mod k) (nth (i mod k) m []) 0 else 0.
Definition mC (x : matrix) : matrix := fun i j => rconj R (x i j).
Definition mT (x : matrix) : matrix := fun i j => x j i.
Definition mN (x : matrix) : matrix := fun i j => - x i j.
Variable n : nat.
(** equal as n x n matrices *)
Definition meq (x y : matrix) : Prop := forall i j, i < n -> j < n -> x i j = y i j.
(** an element of the base field, as -1, 0, 1 *)
Definition sign (z : Z) : R := match z with Z0 => 0 | Zpos _ => 1 | Zneg _ => - (1) end.
Definition mscale (c : R) (x : matrix) : matrix := fun i j => c * x i j.
(** the antiunitary operator U K: h is mapped to U h^* U^+ ; its square is U U^* *)
Definition antiunitary (u h : matrix) : matrix := mmul n (mmul n u (mC h)) (mT (mC u)).
Definition square (u : matrix) : matrix := mmul n u (mC u).
Definition hermitian_matrix (h : matrix) : Prop := meq (mT (mC h)) h.
Definition unitary (s : matrix) : Prop := meq (mmul n (mT (mC s)) s) unit_matrix /\ meq (mmul n s (mT (mC s))) unit_matrix.
(** Pauli matrices on pairs of neighboring indices *)
Definition pauli_y : matrix := kron [[0; - ri R]; [ri R; 0]].
Definition pauli_z : matrix := kron [[1; 0]; [0; - (1)]].
End Spec.
Arguments kron {R}. Arguments mC {R}. Arguments mT {R}. Arguments mN {R}. Arguments meq {R}. Arguments sign {R}. Arguments mscale {R}.
Arguments antiunitary {R}. Arguments square {R}. Arguments hermitian_matrix {R}. Arguments unitary {R}. Arguments pauli_y {R}. Arguments pauli_z {R}.

(** The representations listed in the docstring of rmt.gaussian: the matrix U
    of H = U H^* U^+ (time reversal) and of H = - U H^* U^+ (particle-hole).
    tau acts on the last index, sigma on the one before it; in class AII
    there is no tau index. *)
Section Doc.
Variable R : StarRing.
Local Open Scope star_scope.
Notation "0" := (r0 R) : star_scope.
Notation "1" := (r1 R) : star_scope.
Notation im := (ri R).
Definition doc_1 : list (list R) := [[1]].
Definition doc_x : list (list R) := [[0; 1]; [1; 0]].
Definition doc_y : list (list R) := [[0; - im]; [im; 0]].
Definition doc_z : list (list R) := [[1; 0]; [0; - (1)]].
(** sigma_y (x) tau_0 and sigma_y (x) tau_z *)
Definition doc_y0 : list (list R) := [[0; 0; - im; 0]; [0; 0; 0; - im]; [im; 0; 0; 0]; [0; im; 0; 0]].
Definition doc_yz : list (list R) := [[0; 0; - im; 0]; [0; 0; 0; im]; [im; 0; 0; 0]; [0; - im; 0; 0]].
Definition doc_t (s : sym) : option (list (list R)) :=
  match s with SAI => Some doc_1 | SBDI => Some doc_z | SCI => Some doc_x | SAII | SDIII => Some doc_y | SCII => Some doc_y0 | _ => None end.
Definition doc_p (s : sym) : option (list (list R)) :=
  match s with SC | SCI => Some doc_y | SCII => Some doc_yz | SD | SBDI => Some doc_1 | SDIII => Some doc_x | _ => None end.
Definition doc_c (s : sym) : bool := match s with SAIII | SBDI | SCII | SDIII | SCI => true | _ => false end.
(** the sizes the docstring allows *)
Definition doc_size (s : sym) (n : nat) : Prop :=
  match s with SA | SD | SAI => True | SCII => exists k, n = (4 * k)%nat | _ => exists k, n = (2 * k)%nat end.
(** the squares of the antiunitary symmetries of the Altland-Zirnbauer classes *)
Definition az_t (s : sym) : Z := match s with SAI | SBDI | SCI => 1 | SAII | SDIII | SCII => -1 | _ => 0 end%Z.
Definition az_p (s : sym) : Z := match s with SD | SBDI | SDIII => 1 | SC | SCI | SCII => -1 | _ => 0 end%Z.
End Doc.
Arguments doc_t {R}. Arguments doc_p {R}.

(** ** Vocabulary for C53: the circular ensembles *)
Section Circ.
Variable R : StarRing.
Variable n : nat.
Notation matrix := (nat -> nat -> R).
Notation Y := (@pauli_y R).
(** what numpy.linalg.qr promises *)
Record qr_ok (h q r : matrix) : Prop := {
  qr_unitary : unitary n q;
  qr_product : meq n (mmul n q r) h;
  qr_upper : forall i j, j < i -> i < n -> r i j = r0 R;
  qr_real : meq n (mC h) h -> meq n (mC q) q /\ meq n (mC r) r }.
(** a set of "positive numbers": self-conjugate, invertible, determined by the square *)
Record positive_numbers (pos : R -> Prop) : Prop := {
  pos_real : forall x, pos x -> rconj R x = x;
  pos_inv : forall x, pos x -> exists y, rmul R x y = r1 R;
  pos_sq : forall x y, pos x -> pos y -> rmul R x x = rmul R y y -> x = y }.
(** ph = x / |x| *)
Definition is_phase (pos : R -> Prop) (x ph : R) : Prop :=
  rmul R ph (rconj R ph) = r1 R /\ pos (rmul R (rconj R ph) x) /\ (rconj R x = x -> rconj R ph = ph).
(** the symmetries listed in the docstring of rmt.circular *)
Definition circ_c (s : sym) (r : matrix) : Prop := doc_c s = true -> meq n r (mT (mC r)).
Definition circ_t (s : sym) (r : matrix) : Prop :=
  match s with
  | SAI | SBDI => meq n r (mT r)
  | SCI => meq n r (mN (mmul n (mmul n Y (mT r)) Y))
  | SAII | SDIII => meq n r (mN (mT r))
  | SCII => meq n r (mmul n (mmul n Y (mT r)) Y)
  | _ => True
  end.
Definition circ_p (s : sym) (r : matrix) : Prop :=
  match s with
  | SCI => meq n r (mN (mmul n (mmul n Y (mC r)) Y))
  | SC | SCII => meq n r (mmul n (mmul n Y (mC r)) Y)
  | SD | SBDI => meq n r (mC r)
  | SDIII => meq n (mN r) (mC r)
  | _ => True
  end.
Definition circ_size (s : sym) : Prop := match s with SC | SCI | SCII | SAII | SDIII => exists k, n = 2 * k | _ => True end.
Definition circ_charge (s : sym) (charge : option Z) : Prop :=
  match charge with
  | None => True
  | Some q => match s with
              | SD | SDIII => (q = 1 \/ q = -1)%Z
              | SAIII | SBDI => (0 <= q <= Z.of_nat n)%Z
              | SCII => (0 <= q <= Z.of_nat (n / 2))%Z
              | _ => True
              end
  end.
(** the two last rows exchanged *)
Definition swap_last (m : matrix) : matrix := fun i j =>
  if i =? n - 1 then m (n - 2) j else if i =? n - 2 then m (n - 1) j else m i j.
End Circ.
Arguments qr_ok {R}. Arguments positive_numbers {R}. Arguments is_phase {R}. Arguments circ_c {R}. Arguments circ_t {R}. Arguments circ_p {R}. Arguments swap_last {R}.
