(** * Specification vocabulary for the operators (C25-C27). *)
From Coq Require Import List Bool Arith ZArith.
From Verif Require Import StarRing OrbitalsModel SubmatrixModel OperatorModel.
Import ListNotations.
Set Implicit Arguments.

Section Forms.
Variable R : StarRing.
Local Open Scope star_scope.
Notation conj := (rconj R).
(** <bra| A |ket> for an r x c matrix A *)
Definition form (r c : nat) (bra : nat -> R) (A : nat -> nat -> R) (ket : nat -> R) : R :=
  sum R r (fun i => sum R c (fun j => conj (bra i) * A i j * ket j)).
Definition mmul (n : nat) (A B : nat -> nat -> R) (i j : nat) : R := sum R n (fun k => A i k * B k j).
Definition mdag (A : nat -> nat -> R) (i j : nat) : R := conj (A j i).
(** the part of a vector that starts at orbital [s] *)
Definition part (v : nat -> R) (s : nat) : nat -> R := fun i => v (s + i)%nat.

(** M_a, i [H^dagger M_a - M_a H] *)
Definition density_form (na sa : nat) (M : nat -> nat -> R) (bra ket : nat -> R) : R :=
  form na na (part bra sa) M (part ket sa).
Definition current_form (na nb sa sb : nat) (M H : nat -> nat -> R) (bra ket : nat -> R) : R :=
  ri R * (form nb na (part bra sb) (mmul na (mdag H) M) (part ket sa)
          - form na nb (part bra sa) (mmul na M H) (part ket sb)).
Definition source_form (na sa : nat) (M H : nat -> nat -> R) (bra ket : nat -> R) : R :=
  ri R * (form na na (part bra sa) (mmul na (mdag H) M) (part ket sa)
          - form na na (part bra sa) (mmul na M H) (part ket sa)).

(** The result of calling an operator, [els] being the expected elements. *)
Definition is_result (summed : bool) (els : list R) (r : result R) : Prop :=
  match r with
  | RArr v => summed = false /\ vlen v = length els /\ forall k x, nth_error els k = Some x -> vget v k = x
  | RScal x => summed = true /\ x = lsum R (fun x => x) els
  end.
Definition total (r : result R) : R :=
  match r with RArr v => sum R (vlen v) (vget v) | RScal x => x end.
Definition real_result (r : result R) : result R :=
  match r with RArr v => RArr (mkVec (vlen v) (fun i => rre R (vget v i))) | RScal x => RScal (rre R x) end.
End Forms.

Arguments form {R}.
Arguments mmul {R}.
Arguments mdag {R}.
Arguments part {R}.
Arguments density_form {R}.
Arguments current_form {R}.
Arguments source_form {R}.
Arguments is_result {R}.
Arguments total {R}.
Arguments real_result {R}.

Section Syst.
Variable R : StarRing.
Variables P E Fam : Type.
Variable fdec : forall a b : Fam, {a = b} + {a <> b}.
Variable norbs : Fam -> nat.
Variable fams : list Fam.                     (* the family of each site *)

(** number of orbitals, and first orbital, of a site *)
Definition norb (a : nat) : nat := match nth_error fams a with Some f => norbs f | None => 0 end.
Definition start (a : nat) : nat := list_sum (map norbs (firstn a fams)).

(** A low-level system: its site_ranges describe the sites, the graph and
    the cell are in range. *)
Record wf (s : osyst R P E Fam) : Prop := mkWf {
  wf_n : o_n s = length fams;
  wf_ranges : exists ranges, o_ranges s = Some ranges /\ site_ranges fdec norbs fams = Some ranges;
  wf_fams : o_fams s = None \/ o_fams s = Some fams /\ o_norbs s = norbs;
  wf_edges : forall a b, In (a, b) (o_edges s) -> a < o_n s /\ b < o_n s;
  wf_cell : forall c, o_cell s = Some c -> c <= o_n s }.

(** The matrix of the operator on site [a]. *)
Definition onsite_matrix (o : onsite_in R P E Fam) (p : option P) (a : nat) : nat -> nat -> R :=
  match o with
  | OFun f => match f a p with inl m => mget m | inr _ => fun _ _ => r0 R end
  | ODict d =>
    match nth_error fams a with
    | Some f => match find (fun e => if fdec (fst e) f then true else false) d with
                | Some e => mget (snd e) | None => fun _ _ => r0 R end
    | None => fun _ _ => r0 R
    end
  | OMat m => if mr m =? 1 then fun i j => if i =? j then mget m 0 0 else r0 R else mget m
  end.
(** A scalar is only handled correctly on sites with the maximal number of orbitals. *)
Definition scalar_fits (o : onsite_in R P E Fam) (l : list nat) : Prop :=
  match o with
  | OMat m => mr m = 1 -> forall a, In a l -> forall b, b < length fams -> norb b <= norb a
  | _ => True
  end.
(** Functions and dictionaries are only handled correctly for hoppings
    between sites with equal numbers of orbitals. *)
Definition function_fits (o : onsite_in R P E Fam) (l : list (nat * nat)) : Prop :=
  match o with
  | OMat _ => True
  | _ => forall a b, In (a, b) l -> norb a = norb b
  end.
Definition ham_matrix (s : osyst R P E Fam) (p : option P) (a b : nat) : nat -> nat -> R :=
  match o_ham s a b p with inl m => mget m | inr _ => fun _ _ => r0 R end.
(** hamiltonian(a, b) has the declared shape *)
Definition ham_shape (s : osyst R P E Fam) (p : option P) (a b : nat) : Prop :=
  forall m, o_ham s a b p = inl m -> mr m = norb a /\ mc m = norb b.

(** The selected sites and hoppings. *)
Definition selected_sites (s : osyst R P E Fam) (w : where_in) (l : list nat) : Prop :=
  match w with
  | WNone => l = seq 0 (nsites s)
  | WFun f => l = filter f (seq 0 (match o_fams s with Some _ => o_n s | None => nsites s end))
  | WInts z => map Z.of_nat l = z
  | WSites z => map Some l = z
  end.
Definition selected_hoppings (s : osyst R P E Fam) (w : hwhere_in) (l : list (nat * nat)) : Prop :=
  match w with
  | HNone => l = o_edges s
  | HFun f => l = filter (fun e => f (fst e) (snd e)) (o_edges s)
  | HInts z => map zz l = z
  | HSites z => map Some l = z
  end.
End Syst.

(** ** When a call succeeds *)
Section Good.
Variable R : StarRing.
Variables P E Fam : Type.
Variable fdec : forall a b : Fam, {a = b} + {a <> b}.
Variable hermok : mat R -> mat R -> bool.
Variable norbs : Fam -> nat.
Variable fams : list Fam.
Notation norb := (norb norbs fams).
(** the onsite value exists, has the right shape and passes the check *)
Definition onsite_good (o : onsite_in R P E Fam) (p : option P) (check : bool) (a : nat) : Prop :=
  match o with
  | OFun f => exists m, f a p = inl m /\ mr m = norb a /\ mc m = norb a /\ (check = true -> hermok m m = true)
  | ODict d => exists f m, nth_error fams a = Some f /\ In (f, m) d
  | OMat _ => True
  end.
Definition ham_good (s : osyst R P E Fam) (p : option P) (check : bool) (a b : nat) : Prop :=
  exists m, o_ham s a b p = inl m /\ mr m = norb a /\ mc m = norb b /\
    (check = true -> exists m', o_ham s b a p = inl m' /\ mr m' = norb b /\ mc m' = norb a /\ hermok m' m = true).

(** [hv] = H v for the Hamiltonian of the (finite) system: [edges] are the
    hoppings, the onsite terms are separate. *)
Definition apply_ham (s : osyst R P E Fam) (p : option P) (v hv : nat -> R) : Prop :=
  forall a i, a < o_n s -> i < norb a ->
    hv (start norbs fams a + i) =
      radd R (lsum R (fun e => sum R (norb (snd e)) (fun j => rmul R (ham_matrix s p a (snd e) i j) (v (start norbs fams (snd e) + j))))
                (filter (fun e => fst e =? a) (o_edges s)))
             (sum R (norb a) (fun j => rmul R (ham_matrix s p a a i j) (v (start norbs fams a + j)))).
(** the sum of all currents of hoppings (a, _), the hoppings being [edges] in this order *)
Definition currents_at (edges : list (nat * nat)) (a : nat) (j : nat -> R) : R :=
  lsum R (fun ke => j (fst ke)) (filter (fun ke => fst (snd ke) =? a) (combine (seq 0 (length edges)) edges)).
End Good.
