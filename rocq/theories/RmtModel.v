(** * Model of kwant/rmt.py: random matrices with symmetries.

    Matrices are functions of two indices.  The random numbers are arbitrary
    functions [g1], [g2] (and [bits]); an unknown symmetry class is not
    modelled ([sym] has only the ten known ones); sizes are natural numbers. *)
From Coq Require Import List Bool Arith ZArith.
From Verif Require Import StarRing.
Import ListNotations.
Set Implicit Arguments.

(** rmt.py:16 sym_list *)
Inductive sym := SA | SAI | SAII | SAIII | SBDI | SCII | SD | SDIII | SC | SCI.
(** rmt.py:19-28 t *)
Definition sq_t (s : sym) : Z := match s with SCI | SAI | SBDI => 1 | SCII | SAII | SDIII => -1 | _ => 0 end.
(** rmt.py:31-40 p *)
Definition sq_p (s : sym) : Z := match s with SD | SDIII | SBDI => 1 | SC | SCI | SCII => -1 | _ => 0 end.
(** rmt.py:43-48 c *)
Definition has_c (s : sym) : bool := (negb (sq_t s =? 0)%Z && negb (sq_p s =? 0)%Z) || match s with SAIII => true | _ => false end.

Inductive rerr := RValue | RRuntime | RIndex.

(** np.arange(n) + tau_z, with tau_z = (n // 2) * [1, -1]; the same with sigma_z *)
Definition idx_x (i : nat) : nat := if Nat.even i then i + 1 else i - 1.
Definition idx_sigma_x (i : nat) : nat := if i mod 4 <? 2 then i + 2 else i - 2.

Section Rmt.
Variable R : StarRing.
Notation matrix := (nat -> nat -> R).
Local Open Scope star_scope.
Notation "0" := (r0 R) : star_scope.
Notation "1" := (r1 R) : star_scope.
Notation conj := (rconj R).
Notation im := (ri R).

(** rmt.py:51-59 h_t_matrix, h_p_matrix *)
Definition h_t_matrix (s : sym) : option (list (list R)) :=
  match s with
  | SAI => Some [[1]] | SCI => Some [[0; 1]; [1; 0]] | SBDI => Some [[1; 0]; [0; - (1)]]
  | SAII => Some [[0; im]; [- im; 0]]
  | SCII => Some [[0; 0; im; 0]; [0; 0; 0; im]; [- im; 0; 0; 0]; [0; - im; 0; 0]]
  | SDIII => Some [[0; im]; [- im; 0]]
  | _ => None
  end.
Definition h_p_matrix (s : sym) : option (list (list R)) :=
  match s with
  | SC => Some [[0; im]; [- im; 0]] | SCI => Some [[0; im]; [- im; 0]]
  | SCII => Some [[0; 0; im; 0]; [0; 0; 0; - im]; [- im; 0; 0; 0]; [0; im; 0; 0]]
  | SD => Some [[1]] | SDIII => Some [[0; 1]; [1; 0]] | SBDI => Some [[1]]
  | _ => None
  end.

Definition tau_z (i : nat) : R := if Nat.even i then 1 else - (1).
Definition sigma_z (i : nat) : R := if i mod 4 <? 2 then 1 else - (1).
(** tau_z.reshape(-1, 1) * h[idx_x][:, idx_x].conj() * tau_z *)
Definition flip_tau (h : matrix) : matrix := fun i j => tau_z i * conj (h (idx_x i) (idx_x j)) * tau_z j.
Definition flip_sigma (h : matrix) : matrix := fun i j => sigma_z i * conj (h (idx_sigma_x i) (idx_sigma_x j)) * sigma_z j.

(** rmt.py:62-160 gaussian; [factor] = v / sqrt(2), [half] = 0.5, [isqrt2] = 1 / sqrt(2) *)
Definition gaussian (n : nat) (s : sym) (g1 g2 : matrix) (factor half isqrt2 : R) : matrix + rerr :=
  if (has_c s || (sq_t s =? -1)%Z || (sq_p s =? -1)%Z) && negb (n mod 2 =? 0)%nat then inr RValue
  else if match s with SCII => negb (n mod 4 =? 0)%nat | _ => false end then inr RValue
  else
    let h : matrix := match s with
      | SAI => g1
      | SD | SBDI => fun i j => im * g1 i j
      | _ => fun i j => g1 i j + im * g2 i j
      end in
    let h : matrix := fun i j => h i j + conj (h j i) in
    let hf := if has_c s then ((fun i j => h i j - tau_z i * h i j * tau_z j) : matrix, factor * half) else (h, factor) in
    let hf := match s with
      | SAII | SDIII => ((fun i j => fst hf i j + flip_tau (fst hf) i j) : matrix, snd hf * isqrt2)
      | SC | SCI => ((fun i j => fst hf i j - flip_tau (fst hf) i j) : matrix, snd hf * isqrt2)
      | SCII => ((fun i j => fst hf i j + flip_sigma (fst hf) i j) : matrix, snd hf * isqrt2)
      | _ => hf
      end in
    inl (fun i j => fst hf i j * snd hf).

(** ** circular *)
(** numpy.linalg.qr; x / |x|; equality with zero (np.allclose: exact here);
    det(s) > 0 *)
Variable qr : matrix -> matrix * matrix.
Variable phase : R -> R.
Variable is_zero : R -> bool.
Variable detpos : matrix -> bool.
Definition last_two (n i : nat) : nat := if i =? n - 1 then n - 2 else if i =? n - 2 then n - 1 else i.
(** rmt.py:269-286: the signs of the chiral classes *)
Definition chiral_diag (n : nat) (s : sym) (charge : option Z) (bits : nat -> bool) : (nat -> R) + rerr :=
  let sg b : R := if b : bool then 1 else - (1) in
  match s with
  | SCII =>
    match charge with
    | None => inl (fun k => sg (bits (k / 2)))
    | Some q => if ((0 <=? q)%Z && (q <=? Z.of_nat (n / 2))%Z)
                then inl (fun k => sg (negb (k <? 2 * Z.to_nat q))) else inr RValue
    end
  | _ =>
    match charge with
    | None => inl (fun k => sg (bits k))
    | Some q => if ((0 <=? q)%Z && (q <=? Z.of_nat n)%Z)
                then inl (fun k => sg (negb (k <? Z.to_nat q))) else inr RValue
    end
  end.
(** rmt.py:220-233: the random matrix that is decomposed *)
Definition circular_input (s : sym) (g1 g2 : matrix) : matrix :=
  if (sq_p s =? 1)%Z then g1
  else if (sq_p s =? 0)%Z then fun i j => g1 i j + im * g2 i j
  else let h := fun i j => g1 i j + im * g2 i j in fun i j => (h i j - flip_tau h i j) * im.
(** rmt.py:163-290 circular *)
Definition circular (n : nat) (s : sym) (charge : option Z) (g1 g2 : matrix) (bits : nat -> bool) : matrix + rerr :=
  if ((sq_t s =? -1)%Z || (sq_p s =? -1)%Z) && negb (n mod 2 =? 0)%nat then inr RValue
  else
    let u := fst (qr (circular_input s g1 g2)) in
    let r := snd (qr (circular_input s g1 g2)) in
    if (sq_p s =? -1)%Z && negb (forallb (fun k => is_zero (r (2 * k)%nat (2 * k + 1)%nat)) (seq 0 (n / 2))) then inr RRuntime
    else
      let u : matrix := fun i j => u i j * phase (r j j) in
      let u : matrix + rerr :=
        match s, charge with
        | (SD | SDIII), Some q =>
          if negb ((q =? -1)%Z || (q =? 1)%Z) then inr RValue
          else
            let dp := match s with SDIII => xorb (detpos u) (negb (Nat.even (n / 2))) | _ => detpos u end in
            if xorb (0 <? q)%Z dp then (if n <? 2 then inr RIndex else inl (fun i j => u (last_two n i) j)) else inl u
        | _, _ => inl u
        end in
      match u with
      | inr e => inr e
      | inl u =>
        match s with
        | SAI => inl (fun i j => sum R n (fun k => u k i * u k j))
        | SCI => inl (fun i j => im * tau_z j * sum R n (fun k => u k i * u k (idx_x j)))
        | SAII | SDIII => inl (fun i j => im * sum R n (fun k => (u k i * tau_z k) * u (idx_x k) j))
        | SAIII | SBDI | SCII =>
          match chiral_diag n s charge bits with
          | inr e => inr e
          | inl diag => inl (fun i j => sum R n (fun k => (diag k * conj (u k i)) * u k j))
          end
        | _ => inl u
        end
      end.
End Rmt.
Arguments gaussian {R}. Arguments circular {R}. Arguments circular_input {R}. Arguments chiral_diag {R}. Arguments h_t_matrix {R}. Arguments h_p_matrix {R}.
