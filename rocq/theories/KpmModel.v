(** * Model of kwant/kpm.py: Chebyshev moments.

    Numbers are elements of any [StarRing] (exact arithmetic); vectors are
    lists.  Not modelled here: the kernels and the Fourier transform (KpmReal.v),
    random numbers (the vectors of the factory are an arbitrary sequence),
    the search for the spectral bounds. *)
From Coq Require Import List Bool Arith ZArith.
From Verif Require Import StarRing.
Import ListNotations.
Set Implicit Arguments.

Inductive kerr := KValue | KIndex | KStop.
(** the outcome of a method: the object afterwards, and an exception *)
Definition kout (S : Type) := (S * option kerr)%type.

Section Kpm.
Variable R : StarRing.
Notation vec := (list R).

(** numpy: x - y, c * x, vdot *)
Definition vsub (x y : vec) : vec := map (fun ab => rsub R (fst ab) (snd ab)) (combine x y).
Definition vscale (c : R) (x : vec) : vec := map (rmul R c) x.
Definition vdot (x y : vec) : R := lsum R (fun ab => rmul R (rconj R (fst ab)) (snd ab)) (combine x y).
Definition two : R := radd R (r1 R) (r1 R).

(** ** _VectorFactory, kpm.py:850-929 *)
(** [next k]: the vector yielded by the k-th call of next() (None: StopIteration);
    [limit]: len(vectors) if it has one *)
Record factory := mkF {
  f_max : option nat; f_pos : nat; f_acc : bool; f_saved : list (option vec); f_num : nat; f_last : option nat }.
Variable next : nat -> option vec.

(** kpm.py:909-929 add_vectors; [k] is an integer, None was refused before *)
Definition f_add (k : Z) (f : factory) : kout factory :=
  if (k <=? 0)%Z then (f, Some KValue)
  else if match f_max f with Some m => m <? f_num f + Z.to_nat k | None => false end then (f, Some KValue)
  else (mkF (f_max f) (f_pos f) (f_acc f) (if f_acc f then f_saved f ++ repeat None (Z.to_nat k) else f_saved f)
          (f_num f + Z.to_nat k) (f_last f), None).
(** kpm.py:865-886 __init__ *)
Definition f_init (limit : option nat) (num : option Z) (acc : bool) : factory * option kerr :=
  let f := mkF limit 0 acc [] 0 None in
  match num, limit with
  | None, None => (f, Some KValue)
  | None, Some m => f_add (Z.of_nat m) f
  | Some k, _ => f_add k f
  end.
Fixpoint set_nth {A} (i : nat) (x : A) (l : list A) : list A :=
  match i, l with 0, _ :: l => x :: l | S i, y :: l => y :: set_nth i x l | _, [] => [] end.
(** kpm.py:888-907 _fill_in_saved_vectors and __getitem__ (index >= 0) *)
Definition f_get (i : nat) (f : factory) : factory * (vec + kerr) :=
  if match f_last f with Some l => i <? l | None => false end && negb (f_acc f) then (f, inr KValue)
  else if f_num f <=? i then (f, inr KIndex)
  else
    let f := mkF (f_max f) (f_pos f) (f_acc f) (f_saved f) (f_num f) (Some i) in
    if f_acc f then
      match nth_error (f_saved f) i with
      | None => (f, inr KIndex)
      | Some (Some v) => (f, inl v)
      | Some None =>
        match next (f_pos f) with
        | None => (f, inr KStop)
        | Some v => (mkF (f_max f) (S (f_pos f)) (f_acc f) (set_nth i (Some v) (f_saved f)) (f_num f) (Some i), inl v)
        end
      end
    else
      match next (f_pos f) with
      | None => (f, inr KStop)
      | Some v => (mkF (f_max f) (S (f_pos f)) (f_acc f) (f_saved f) (f_num f) (Some i), inl v)
      end.

(** ** SpectralDensity *)
(** the rescaled Hamiltonian's matvec, kpm.py:1182-1183 [rescaled]; [ainv] is
    1 / a *)
Definition mul_vec (h : nat -> nat -> R) (n : nat) (v : vec) : vec :=
  map (fun i => sum R n (fun j => rmul R (h i j) (nth j v (r0 R)))) (seq 0 n).
Definition rescaled (h : nat -> nat -> R) (n : nat) (ainv b : R) (v : vec) : vec :=
  vscale ainv (vsub (mul_vec h n v) (vscale b v)).

Section SD.
Variable matvec : vec -> vec.
(** The moments of the operator are elements of A; operator None (ONone) is
    only used with numbers: [inj] makes a moment of a number, [dbl x m] is
    2 x - m. *)
Variable A : Type.
Variable zero : A.
Variable inj : R -> A.
Variable dbl : R -> A -> A.
Variable oper : option (vec -> vec -> A).

Record sd := mkSD {
  s_fac : factory;
  s_num : nat;                                  (* num_moments *)
  s_last2 : list (vec * vec);                   (* _last_two_alphas *)
  s_moments : list (list A) }.                  (* _moments_list; 0. = [] *)
Definition s_nvec (s : sd) : nat := length (s_moments s).

(** alpha_next = 2 * H alpha_next - alpha; alpha = alpha_save *)
Definition advance (al : vec * vec) : vec * vec := (snd al, vsub (vscale two (matvec (snd al))) (fst al)).
(** kpm.py:464-473: n from [n] on, [k] times *)
Fixpoint loop_none (k n : nat) (al : vec * vec) (m : list A) : (vec * vec) * list A :=
  match k with
  | 0 => (al, m)
  | S k =>
    let al := advance al in
    let m := set_nth (2 * n) (dbl (vdot (fst al) (fst al)) (nth 0 m zero)) m in
    let m := set_nth (2 * n + 1) (dbl (vdot (snd al) (fst al)) (nth 1 m zero)) m in
    loop_none k (S n) al m
  end.
(** kpm.py:479-484 *)
Fixpoint loop_op (op : vec -> vec -> A) (v0 : vec) (k n : nat) (al : vec * vec) (m : list A) : (vec * vec) * list A :=
  match k with
  | 0 => (al, m)
  | S k => let al := advance al in loop_op op v0 k (S n) al (set_nth n (op v0 (snd al)) m)
  end.
(** kpm.py:463-484: the moments of one vector *)
Definition iterate (v0 : vec) (m_start n_moments : nat) (al : vec * vec) (m : list A) : (vec * vec) * list A :=
  match oper with
  | None =>
    let r := loop_none (n_moments / 2 - m_start / 2) (m_start / 2) al m in
    (fst r, if n_moments mod 2 =? 1 then set_nth (n_moments - 1) (dbl (vdot (snd (fst r)) (snd (fst r))) (nth 0 (snd r) zero)) (snd r) else snd r)
  | Some op => loop_op op v0 (n_moments - m_start) m_start al m
  end.
(** one_moment[0] = ..., one_moment[1] = ... (kpm.py:439-448); the list has length
    [n]: the second assignment fails if n = 1 *)
Definition first_moments (v0 v1 : vec) (n : nat) : list A + kerr :=
  let f x := match oper with None => inj (vdot v0 x) | Some op => op v0 x end in
  if n <? 2 then inr KIndex else inl (f v0 :: f v1 :: repeat zero (n - 2)).
(** one_moment[0:num_moments] = self._moments_list[r] (kpm.py:450-452) *)
Definition old_moments (n_moments num : nat) (old : list A) : list A := old ++ skipn num (repeat zero n_moments).

(** The body of the loop over r, kpm.py:436-490, for new vectors.  [old],
    [last]: one entry per vector *)
Definition body_new (n_moments r : nat) (s : sd) : kout sd :=
  match f_get r (s_fac s) with
  | (f, inr e) => (mkSD f (s_num s) (s_last2 s) (s_moments s), Some e)
  | (f, inl v0) =>
    let s := mkSD f (s_num s) (s_last2 s) (s_moments s) in
    let v1 := matvec v0 in
    match first_moments v0 v1 n_moments with
    | inr e => (s, Some e)
    | inl m =>
      let res := iterate v0 2 n_moments (v0, v1) m in
      (mkSD f (s_num s) (if f_acc f then set_nth r (fst res) (s_last2 s) else s_last2 s) (set_nth r (snd res) (s_moments s)), None)
    end
  end.
(** the same for new moments *)
Definition body_more (n_moments r : nat) (s : sd) : kout sd :=
  match f_get r (s_fac s) with
  | (f, inr e) => (mkSD f (s_num s) (s_last2 s) (s_moments s), Some e)
  | (f, inl v0) =>
    let m := old_moments n_moments (s_num s) (nth r (s_moments s) []) in
    let res := iterate v0 (s_num s) n_moments (nth r (s_last2 s) ([], [])) m in
    (mkSD f (s_num s) (if f_acc f then set_nth r (fst res) (s_last2 s) else s_last2 s) (set_nth r (snd res) (s_moments s)), None)
  end.
Fixpoint for_r (body : nat -> sd -> kout sd) (k r : nat) (s : sd) : kout sd :=
  match k with
  | 0 => (s, None)
  | S k => match body r s with (s, None) => for_r body k (S r) s | (s, Some e) => (s, Some e) end
  end.
(** kpm.py:390-490 _update_moments_list *)
Definition update (n_moments num_vectors : nat) (s : sd) : kout sd :=
  if num_vectors <? s_nvec s then (s, Some KValue)
  else
    let r_start := if s_nvec s =? num_vectors then 0 else s_nvec s in
    let new_vectors := num_vectors - s_nvec s in
    let s := mkSD (s_fac s) (s_num s) (s_last2 s ++ repeat ([], []) new_vectors) (s_moments s ++ repeat [] new_vectors) in
    if n_moments =? s_num s then
      if new_vectors =? 0 then (s, None)
      else for_r (body_new n_moments) (num_vectors - r_start) r_start s
    else if negb (f_acc (s_fac s)) then (s, Some KValue)
    else if n_moments <? s_num s then (s, Some KValue)
    else if negb (new_vectors =? 0) then (s, Some KValue)
    else for_r (body_more n_moments) (num_vectors - r_start) r_start s.

(** kpm.py:163-252 __init__, from the check of num_moments on *)
Definition sd_init (limit : option nat) (num_vectors : option Z) (acc : bool) (num_moments : Z) : kout sd :=
  let dummy f := mkSD f (Z.to_nat num_moments) [] [] in
  if (num_moments <=? 0)%Z then (dummy (mkF limit 0 acc [] 0 None), Some KValue)
  else match f_init limit num_vectors acc with
       | (f, Some e) => (dummy f, Some e)
       | (f, None) => update (Z.to_nat num_moments) (f_num f) (dummy f)
       end.
(** kpm.py:318-356 add_moments(num_moments) *)
Definition add_moments (k : Z) (s : sd) : kout sd :=
  if (k <=? 0)%Z then (s, Some KValue)
  else match update (s_num s + Z.to_nat k) (s_nvec s) s with
       | (s', None) => (mkSD (s_fac s') (s_num s + Z.to_nat k) (s_last2 s') (s_moments s'), None)
       | (s', Some e) => (s', Some e)
       end.
(** kpm.py:360-376 add_vectors *)
Definition add_vectors (k : Z) (s : sd) : kout sd :=
  match f_add k (s_fac s) with
  | (f, Some e) => (mkSD f (s_num s) (s_last2 s) (s_moments s), Some e)
  | (f, None) => update (s_num s) (f_num f) (mkSD f (s_num s) (s_last2 s) (s_moments s))
  end.
End SD.
End Kpm.
Arguments vsub {R}. Arguments vscale {R}. Arguments vdot {R}. Arguments two {R}. Arguments mkF {R}.
Arguments f_add {R}. Arguments f_init {R}. Arguments f_get {R}. Arguments mul_vec {R}. Arguments rescaled {R}.
Arguments advance {R}. Arguments loop_none {R} matvec {A}. Arguments loop_op {R} matvec {A}. Arguments iterate {R} matvec {A}.
Arguments first_moments {R A}. Arguments old_moments {A}. Arguments body_new {R} next matvec {A}. Arguments body_more {R} next matvec {A}.
Arguments update {R} next matvec {A}. Arguments sd_init {R} next matvec {A}. Arguments add_moments {R} next matvec {A}. Arguments add_vectors {R} next matvec {A}.
Arguments mkSD {R A}. Arguments for_r {R A}. Arguments s_nvec {R A}. Arguments s_fac {R A}. Arguments s_num {R A}. Arguments s_last2 {R A}. Arguments s_moments {R A}.
