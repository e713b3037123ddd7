(** * Model of kwant/_system.pyx: hamiltonian_submatrix.

    Matrix elements are of any type [K] with zero, conjugation, addition (only
    used when scipy adds up repeated sparse entries) and a test for zero.
    Not modelled: overflow of gint, the deprecated [args] (parameters are
    hidden in [ham]), numpy views and strides.  The object identity test
    "to_sites is from_sites" is modelled for None only: for a list passed twice
    it merely avoids calling hamiltonian(i, i) again. *)
From Coq Require Import List Bool Arith ZArith.
From Verif Require Import BuilderModel SystemModel.
Import ListNotations.
Set Implicit Arguments.

Section SubmatrixModel.
Variable K : Type.
Variable k0 : K.
Variable kadd : K -> K -> K.
Variable kconj : K -> K.
Variable isz : K -> bool.                   (* value == 0 *)
Variable E : Type.                          (* exceptions of hamiltonian() *)

(** A dense array: shape and content. *)
Record mat := mkMat { mr : nat; mc : nat; mget : nat -> nat -> K }.
Definition mzero (r c : nat) : mat := mkMat r c (fun _ _ => k0).      (* np.zeros *)
Definition mherm (m : mat) : mat := mkMat (mc m) (mr m) (fun i j => kconj (mget m j i)).

Inductive serr :=
  | SIndex                                  (* IndexError: site number out of range *)
  | SValue                                  (* ValueError: dimension mismatch *)
  | SOverrun                                (* write outside the buffer: undefined behavior *)
  | SHam (e : E).
Definition sres (A : Type) := (A + serr)%type.
Definition sbind {A B} (x : sres A) (f : A -> sres B) : sres B :=
  match x with inl a => f a | inr e => inr e end.
Fixpoint sfold {A B} (f : A -> B -> sres A) (l : list B) (a : A) : sres A :=
  match l with [] => inl a | x :: l => sbind (f a x) (sfold f l) end.
Fixpoint smap {A B} (f : A -> sres B) (l : list A) : sres (list B) :=
  match l with
  | [] => inl []
  | x :: l => sbind (f x) (fun y => sbind (smap f l) (fun r => inl (y :: r)))
  end.

(** The system: graph.num_nodes, graph.out_neighbors, and
    ta.matrix(hamiltonian(i, j), complex). *)
Variable n : nat.
Variable nb : nat -> list nat.
Variable ham : nat -> nat -> mat + E.
Definition hamS (i j : nat) : sres mat := match ham i j with inl m => inl m | inr e => inr (SHam e) end.

(** h_sub_view[r0:r1, c0:c1] = h.  The shapes must agree (Cython would also
    broadcast an extent of 1; never needed, as the shapes always agree). *)
Definition assign_slice (m : mat) (r0 r1 c0 c1 : nat) (h : mat) : sres mat :=
  if ((r1 - r0) =? mr h) && ((c1 - c0) =? mc h) then
    inl (mkMat (mr m) (mc m) (fun i j =>
      if (r0 <=? i) && (i <? r1) && (c0 <=? j) && (j <? c1) then mget h (i - r0) (j - c0) else mget m i j))
  else inr SValue.

Definition square (h : mat) (k : nat) : bool := (mr h =? mc h) && (mc h =? k).
Definition shape (h : mat) (r c : nat) : bool := (mr h =? r) && (mc h =? c).

(** _system.pyx:152-186 make_dense *)
Definition dense_to (dict : list (nat * nat)) (to_norb to_off from_norb from_off : list nat)
    (n_fs fs : nat) (m : mat) (ts : nat) : sres mat :=
  match lookup Nat.eq_dec ts dict with
  | None => inl m
  | Some n_ts =>
    sbind (hamS ts fs) (fun h =>
    if shape h (nth n_ts to_norb 0) (nth n_fs from_norb 0) then
      assign_slice m (nth n_ts to_off 0) (nth (n_ts + 1) to_off 0) (nth n_fs from_off 0) (nth (n_fs + 1) from_off 0) h
    else inr SValue)
  end.
Definition dense_from (diag : list mat) (dict : list (nat * nat)) (to_norb to_off from_norb from_off : list nat)
    (m : mat) (p : nat * nat) : sres mat :=
  let (n_fs, fs) := p in
  sbind (match lookup Nat.eq_dec fs dict with
         | None => inl m
         | Some n_ts =>
           let h := nth n_fs diag (mzero 0 0) in
           if square h (nth n_fs from_norb 0) then
             assign_slice m (nth n_ts to_off 0) (nth (n_ts + 1) to_off 0) (nth n_fs from_off 0) (nth (n_fs + 1) from_off 0) h
           else inr SValue
         end)
    (sfold (dense_to dict to_norb to_off from_norb from_off n_fs fs) (nb fs)).
Definition make_dense (diag : list mat) (from_sites : list nat) (dict : list (nat * nat))
    (to_norb to_off from_norb from_off : list nat) : sres mat :=
  sfold (dense_from diag dict to_norb to_off from_norb from_off)
    (combine (seq 0 (length from_sites)) from_sites) (mzero (last to_off 0) (last from_off 0)).

(** _system.pyx:189-224 make_dense_full *)
Definition dense_full_to (to_norb to_off from_norb from_off : list nat) (fs : nat) (m : mat) (ts : nat) : sres mat :=
  if ts <? fs then inl m
  else
    sbind (hamS ts fs) (fun h =>
    if shape h (nth ts to_norb 0) (nth fs from_norb 0) then
      sbind (assign_slice m (nth ts to_off 0) (nth (ts + 1) to_off 0) (nth fs from_off 0) (nth (fs + 1) from_off 0) h)
        (fun m => assign_slice m (nth fs from_off 0) (nth (fs + 1) from_off 0) (nth ts to_off 0) (nth (ts + 1) to_off 0) (mherm h))
    else inr SValue).
Definition dense_full_from (diag : list mat) (to_norb to_off from_norb from_off : list nat) (m : mat) (fs : nat) : sres mat :=
  let h := nth fs diag (mzero 0 0) in
  if square h (nth fs from_norb 0) then
    sbind (assign_slice m (nth fs to_off 0) (nth (fs + 1) to_off 0) (nth fs from_off 0) (nth (fs + 1) from_off 0) h)
      (sfold (dense_full_to to_norb to_off from_norb from_off fs) (nb fs))
  else inr SValue.
Definition make_dense_full (diag : list mat) (to_norb to_off from_norb from_off : list nat) : sres mat :=
  sfold (dense_full_from diag to_norb to_off from_norb from_off) (seq 0 n) (mzero (last to_off 0) (last from_off 0)).

(** The buffers of the sparse functions: [cap] entries allocated, the first k
    filled (in reverse order here). *)
Definition coo := list (nat * nat * K).
Definition push (cap : nat) (b : coo) (e : nat * nat * K) : sres coo :=
  if length b <? cap then inl (e :: b) else inr SOverrun.
(** for i in range(h.shape[0]): for j in range(h.shape[1]) *)
Definition indices (h : mat) : list (nat * nat) := list_prod (seq 0 (mr h)) (seq 0 (mc h)).
Definition push_block (cap r0 c0 : nat) (h : mat) (b : coo) : sres coo :=
  sfold (fun b ij => let v := mget h (fst ij) (snd ij) in
           if isz v then inl b else push cap b (fst ij + r0, snd ij + c0, v)) (indices h) b.
(** _system.pyx:140-146 *)
Definition push_block_herm (cap r0 c0 : nat) (h : mat) (b : coo) : sres coo :=
  sfold (fun b ij => let v := mget h (fst ij) (snd ij) in
           if isz v then inl b
           else sbind (push cap b (fst ij + r0, snd ij + c0, v)) (fun b =>
                push cap b (snd ij + c0, fst ij + r0, kconj v))) (indices h) b.

Definition sum_nat {A} (f : A -> nat) (l : list A) : nat := list_sum (map f l).

(** _system.pyx:24-89 make_sparse *)
Definition sparse_size (from_sites : list nat) (dict : list (nat * nat)) (to_norb from_norb : list nat) : nat :=
  sum_nat (fun p : nat * nat =>
    (match lookup Nat.eq_dec (snd p) dict with
     | Some _ => nth (fst p) from_norb 0 * nth (fst p) from_norb 0
     | None => 0 end) +
    sum_nat (fun ts => match lookup Nat.eq_dec ts dict with
                       | Some n_ts => nth n_ts to_norb 0 * nth (fst p) from_norb 0
                       | None => 0 end) (nb (snd p)))
    (combine (seq 0 (length from_sites)) from_sites).
Definition sparse_to (cap : nat) (dict : list (nat * nat)) (to_norb to_off from_norb from_off : list nat)
    (n_fs fs : nat) (b : coo) (ts : nat) : sres coo :=
  match lookup Nat.eq_dec ts dict with
  | None => inl b
  | Some n_ts =>
    sbind (hamS ts fs) (fun h =>
    if shape h (nth n_ts to_norb 0) (nth n_fs from_norb 0) then
      push_block cap (nth n_ts to_off 0) (nth n_fs from_off 0) h b
    else inr SValue)
  end.
Definition sparse_from (cap : nat) (diag : list mat) (dict : list (nat * nat)) (to_norb to_off from_norb from_off : list nat)
    (b : coo) (p : nat * nat) : sres coo :=
  let (n_fs, fs) := p in
  sbind (match lookup Nat.eq_dec fs dict with
         | None => inl b
         | Some n_ts =>
           let h := nth n_fs diag (mzero 0 0) in
           if square h (nth n_fs from_norb 0) then push_block cap (nth n_ts to_off 0) (nth n_fs from_off 0) h b
           else inr SValue
         end)
    (sfold (sparse_to cap dict to_norb to_off from_norb from_off n_fs fs) (nb fs)).
Record coo_matrix := mkCoo { cr : nat; cc : nat; centries : coo }.
Definition finish (to_off from_off : list nat) (r : sres coo) : sres coo_matrix :=
  sbind r (fun b => inl (mkCoo (last to_off 0) (last from_off 0) (rev b))).
Definition make_sparse (diag : list mat) (from_sites : list nat) (dict : list (nat * nat))
    (to_norb to_off from_norb from_off : list nat) : sres coo_matrix :=
  let cap := sparse_size from_sites dict to_norb from_norb in
  finish to_off from_off (sfold (sparse_from cap diag dict to_norb to_off from_norb from_off)
    (combine (seq 0 (length from_sites)) from_sites) []).

(** _system.pyx:92-149 make_sparse_full *)
Definition sparse_full_size (to_norb from_norb : list nat) : nat :=
  sum_nat (fun fs => nth fs from_norb 0 * nth fs from_norb 0 +
    sum_nat (fun ts => if fs <? ts then 2 * nth ts to_norb 0 * nth fs from_norb 0 else 0) (nb fs)) (seq 0 n).
Definition sparse_full_to (cap : nat) (to_norb to_off from_norb from_off : list nat) (fs : nat) (b : coo) (ts : nat) : sres coo :=
  if ts <? fs then inl b
  else
    sbind (hamS ts fs) (fun h =>
    if shape h (nth ts to_norb 0) (nth fs from_norb 0) then
      push_block_herm cap (nth ts to_off 0) (nth fs from_off 0) h b
    else inr SValue).
Definition sparse_full_from (cap : nat) (diag : list mat) (to_norb to_off from_norb from_off : list nat) (b : coo) (fs : nat) : sres coo :=
  let h := nth fs diag (mzero 0 0) in
  if square h (nth fs from_norb 0) then
    sbind (push_block cap (nth fs to_off 0) (nth fs from_off 0) h b)
      (sfold (sparse_full_to cap to_norb to_off from_norb from_off fs) (nb fs))
  else inr SValue.
Definition make_sparse_full (diag : list mat) (to_norb to_off from_norb from_off : list nat) : sres coo_matrix :=
  let cap := sparse_full_size to_norb from_norb in
  finish to_off from_off (sfold (sparse_full_from cap diag to_norb to_off from_norb from_off) (seq 0 n) []).

(** Conversion of a sparse matrix to a dense one (scipy coo_matrix.toarray):
    entries with the same indices are added up. *)
Definition coo_get (m : coo_matrix) (i j : nat) : K :=
  fold_left (fun s e => if (fst (fst e) =? i) && (snd (fst e) =? j) then kadd s (snd e) else s) (centries m) k0.

(** ** hamiltonian_submatrix: _system.pyx:227-333 *)

(** The onsite blocks of the requested sites (lines 277-295, 302-313). *)
Definition onsite_blocks (sites : option (list Z)) : sres (list mat) :=
  match sites with
  | None => smap (fun i => hamS i i) (seq 0 n)
  | Some l => smap (fun s => if (s <? 0)%Z || (Z.of_nat n <=? s)%Z then inr SIndex
                             else hamS (Z.to_nat s) (Z.to_nat s)) l
  end.
Fixpoint cumsum_from (s : nat) (l : list nat) : list nat :=
  match l with [] => [] | x :: l => (s + x) :: cumsum_from (s + x) l end.
Definition offsets (norb : list nat) : list nat := 0 :: cumsum_from 0 norb.

Definition site_list (sites : option (list Z)) : list nat :=
  match sites with None => seq 0 n | Some l => map Z.to_nat l end.

Definition submatrix_with {M : Type}
    (full : list mat -> list nat -> list nat -> list nat -> list nat -> sres M)
    (part : list mat -> list nat -> list (nat * nat) -> list nat -> list nat -> list nat -> list nat -> sres M)
    (to_sites from_sites : option (list Z)) : sres (M * list nat * list nat) :=
  sbind (onsite_blocks from_sites) (fun diag =>
  let from_norb := map mr diag in
  let from_off := offsets from_norb in
  sbind (onsite_blocks to_sites) (fun tdiag =>
  let to_norb := map mr tdiag in
  let to_off := offsets to_norb in
  sbind (match to_sites, from_sites with
         | None, None => full diag to_norb to_off from_norb from_off
         | _, _ =>
           let dict := id_table Nat.eq_dec (site_list to_sites) in
           part diag (site_list from_sites) dict to_norb to_off from_norb from_off
         end) (fun m => inl (m, to_norb, from_norb)))).

(** The result is (matrix, to_norb, from_norb), as with return_norb=True. *)
Definition submatrix_dense := submatrix_with make_dense_full make_dense.
Definition submatrix_sparse := submatrix_with make_sparse_full make_sparse.
End SubmatrixModel.
