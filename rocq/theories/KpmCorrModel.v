(** * Model of kwant/kpm.py: Correlator (moments matrix). *)
From Coq Require Import List Bool Arith ZArith.
From Verif Require Import StarRing KpmModel.
Import ListNotations.
Set Implicit Arguments.

Section Corr.
Variable R : StarRing.
Notation vec := (list R).
Notation sd := (sd R vec).
(** [next]: the vector factory; [H]: the rescaled Hamiltonian of _spectrum_R;
    [HL]: that of _spectrum_L; operators as functions of vectors
    (kpm.py:1088-1103 _normalize_operator) *)
Variables (next : nat -> option vec) (H HL : vec -> vec) (op1 op2 : vec -> vec).
(** kpm.py:570 fake_op; its moments are vectors (0. = []) *)
Definition fake_op (bra ket : vec) : vec := ket.
Notation init n h := (sd_init n h [] (fun _ => []) (fun _ m => m) (Some fake_op)).
Notation addm n h := (add_moments n h [] (fun _ => []) (fun _ m => m) (Some fake_op)).
Notation addv n h := (add_vectors n h [] (fun _ => []) (fun _ m => m) (Some fake_op)).

(** kpm.py:697-706 _op_factory.  Simplification: the vectors of _spectrum_R
    have been saved when they are asked for here (an index out of range ends
    the generator). *)
Definition op_factory (r : sd) (k : nat) : option vec :=
  match nth_error (f_saved (s_fac r)) k with Some (Some v) => Some (op1 v) | _ => None end.

Record corr := mkC { c_R : sd; c_L : sd; c_num : nat; c_nvec : nat; c_psi : list (list vec); c_omega : list (list vec); c_matrix : list (list (list R)) }.

(** kpm.py:708-718 _update_psi; psi[r][n] here (swapped afterwards in the code) *)
Definition update_psi (r : sd) : list (list vec) :=
  map (fun i => map (fun n => op2 (nth n (nth i (s_moments r) []) [])) (seq 0 (s_num r))) (seq 0 (s_nvec r)).
(** kpm.py:685-695 _calculate_moments_matrix, before the mean: omega.conj() @ psi.
    Simplification: numpy would broadcast if one of the lengths were 1. *)
Definition moments_matrix (omega psi : list (list vec)) : list (list (list R)) + kerr :=
  if negb (length omega =? length psi) then inr KValue
  else inl (map (fun op => map (fun o => map (fun p => vdot o p) (snd op)) (fst op)) (combine omega psi)).
Definition finish (r l : sd) (num nvec : nat) (psi : list (list vec)) (old : list (list (list R))) : kout corr :=
  let omega := s_moments l in
  match moments_matrix omega psi with
  | inl m => (mkC r l num nvec psi omega m, None)
  | inr e => (mkC r l num nvec psi omega old, Some e)
  end.
(** kpm.py:557-606 __init__ *)
Definition corr_init (limit : option nat) (nv : option Z) (acc : bool) (nm : Z) : kout corr :=
  match init next H limit nv true nm with
  | (r, Some e) => (mkC r r 0 0 [] [] [], Some e)
  | (r, None) =>
    let psi := update_psi r in
    match init (op_factory r) HL None (Some (Z.of_nat (s_nvec r))) acc (Z.of_nat (s_num r)) with
    | (l, Some e) => (mkC r l (s_num r) (s_nvec r) psi [] [], Some e)
    | (l, None) => finish r l (s_num r) (s_nvec r) psi []
    end
  end.
(** kpm.py:636-661 add_moments *)
Definition corr_add_moments (k : Z) (c : corr) : kout corr :=
  match addm next H k (c_R c) with
  | (r, Some e) => (mkC r (c_L c) (c_num c) (c_nvec c) (c_psi c) (c_omega c) (c_matrix c), Some e)
  | (r, None) =>
    let psi := update_psi r in
    match addm (op_factory r) HL k (c_L c) with
    | (l, Some e) => (mkC r l (s_num r) (c_nvec c) psi (c_omega c) (c_matrix c), Some e)
    | (l, None) => finish r l (s_num r) (c_nvec c) psi (c_matrix c)
    end
  end.
(** kpm.py:663-683 add_vectors *)
Definition corr_add_vectors (k : Z) (c : corr) : kout corr :=
  match addv next H k (c_R c) with
  | (r, Some e) => (mkC r (c_L c) (c_num c) (c_nvec c) (c_psi c) (c_omega c) (c_matrix c), Some e)
  | (r, None) =>
    let psi := update_psi r in
    match addv (op_factory r) HL k (c_L c) with
    | (l, Some e) => (mkC r l (c_num c) (c_nvec c) psi (c_omega c) (c_matrix c), Some e)
    | (l, None) => finish r l (c_num c) (s_nvec l) psi (c_matrix c)
    end
  end.
End Corr.
Arguments op_factory {R}. Arguments update_psi {R}. Arguments moments_matrix {R}. Arguments fake_op {R}. Arguments finish {R}.
Arguments corr_init {R}. Arguments corr_add_moments {R}. Arguments corr_add_vectors {R}. Arguments mkC {R}.

(** ** The velocity operator, kpm.py:1042-1085 _velocity (a direction given) *)
Section Velocity.
Variable R : StarRing.
(** 1j *)
Variable im : R.
(** coo_matrix: (row, col, data) *)
Definition coo := list (nat * nat * R).
(** directions[op_type]: 0, 1, 2; [pos]: positions of the orbitals; exceptions:
    ValueError only if direction > dim *)
Definition velocity (pos : nat -> list R) (dim direction : nat) (h : coo) : coo + kerr :=
  if dim <? direction then inr KValue
  else if (dim <=? direction) then inr KIndex
  else inl (map (fun e => match e with (row, col, x) =>
    (row, col, rmul R x (rmul R im (rsub R (nth direction (pos col) (r0 R)) (nth direction (pos row) (r0 R))))) end) h).
(** the matrix of a coo_matrix: duplicates are added *)
Definition coo_get (h : coo) (i j : nat) : R :=
  lsum R (fun e => if (fst (fst e) =? i) && (snd (fst e) =? j) then snd e else r0 R) h.
End Velocity.
Arguments velocity {R}. Arguments coo_get {R}.

(** ** LocalVectors, kpm.py:954-986 *)
Section Local.
Variable R : StarRing.
Definition local_vector (tot : nat) (orbs : list nat) (k : nat) : option (list R) :=
  match nth_error orbs k with
  | Some o => Some (map (fun i => if i =? o then r1 R else r0 R) (seq 0 tot))
  | None => None
  end.
End Local.
Arguments local_vector {R}.
