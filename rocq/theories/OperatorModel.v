(** * Model of kwant/operator.pyx: Density, Current, Source.

    Complex numbers are the elements of any [StarRing] (exact arithmetic, no
    overflow of gint).  Arrays are accessed without bounds checks, as in the
    code (boundscheck is off): reading outside of an array gives an arbitrary
    value.  The deprecated [args] and [params] are merged into one optional
    value of type [P] (None: nothing is given); missing parameters show up as
    exceptions of the user's functions. *)
From Coq Require Import List Bool Arith ZArith.
From Verif Require Import StarRing OrbitalsModel SubmatrixModel.
Import ListNotations.
Set Implicit Arguments.

Section OperatorModel.
Variable R : StarRing.
Variable P : Type.                          (* parameters *)
Variable E : Type.                          (* exceptions raised by user functions *)
Variable Fam : Type.                        (* site families *)
Variable fdec : forall a b : Fam, {a = b} + {a <> b}.
Variable junk : nat -> R.                   (* memory outside of the buffers *)
Variable hermok : mat R -> mat R -> bool.   (* numerical comparison in _is_herm_conj *)
Notation conj := (rconj R).
Notation "x +! y" := (radd R x y) (at level 50, left associativity).
Notation "x -! y" := (rsub R x y) (at level 50, left associativity).
Notation "x *! y" := (rmul R x y) (at level 40, left associativity).

Inductive oerr := EValue | EType | EIndex | EKey | EAssert | EUserCode | EUser (e : E).
Definition ores (A : Type) := (A + oerr)%type.
Definition obind {A B} (x : ores A) (f : A -> ores B) : ores B := match x with inl a => f a | inr e => inr e end.

(** for i in range(n): the body updates the state *)
Definition loop {S : Type} (n : nat) (body : nat -> S -> S) (s : S) : S := fold_left (fun s i => body i s) (seq 0 n) s.
Definition buf := nat -> R.
Definition upd (b : buf) (k : nat) (v : R) : buf := fun i => if i =? k then v else b i.
(** a one-dimensional array *)
Record vec := mkVec { vlen : nat; vget : buf }.

(** The memory of a C-contiguous two-dimensional array; m[i, j] without bounds check. *)
Definition rdflat (m : mat R) : buf :=
  fun k => if k <? mr m * mc m then mget m (k / mc m) (k mod mc m) else junk k.
Definition rdm (m : mat R) (i j : nat) : R := rdflat m (i * mc m + j).

(** The low-level system.  [o_cell]: cell_size of an InfiniteSystem;
    [o_fams]: the families of syst.sites if the system is a finalized Builder. *)
Record osyst := mkOS {
  o_cell : option nat;
  o_n : nat;                                (* graph.num_nodes *)
  o_edges : list (nat * nat);               (* list(graph) *)
  o_ranges : option (list (nat * nat * nat));
  o_fams : option (list Fam);
  o_norbs : Fam -> nat;                     (* family.norbs *)
  o_ham : nat -> nat -> option P -> mat R + E }.
Definition nsites (s : osyst) : nat := match o_cell s with Some c => c | None => o_n s end.

(** operator.pyx:50-73 _is_herm_conj; the comparison of the elements up to
    rounding is the parameter [hermok] *)
Definition is_herm_conj (a b : mat R) : ores bool :=
  if (mr a =? mc b) && (mc a =? mr b) then inl (hermok a b) else inr EAssert.

(** operator.pyx:85-94 _check_onsite *)
Definition check_onsite (M : mat R) (norbs : nat) (check : bool) : ores unit :=
  if negb (mr M =? mc M) then inr EUserCode
  else if negb (mr M =? norbs) then inr EUserCode
  else if check then obind (is_herm_conj M M) (fun ok : bool => if ok then inl tt else inr EValue)
  else inl tt.

Definition user {A} (x : A + E) : ores A := match x with inl a => inl a | inr e => inr (EUser e) end.

(** operator.pyx:97-110 _check_ham ("and" in line 101 is faithful) *)
Definition check_ham (s : osyst) (H : mat R) (p : option P) (a na b nb : nat) (check : bool) : ores unit :=
  if negb (mr H =? na) && negb (mc H =? nb) then inr EUserCode
  else if check then
    obind (if a =? b then inl H else user (o_ham s b a p)) (fun Hc =>
    obind (is_herm_conj Hc H) (fun ok : bool => if ok then inl tt else inr EValue))
  else inl tt.

(** ** [where] *)
Inductive where_in :=
  | WNone
  | WFun (f : nat -> bool)                  (* a function of the site (number) *)
  | WInts (l : list Z)
  | WSites (l : list (option nat)).         (* Site objects, looked up in id_by_site *)
Fixpoint ids {A} (l : list (option A)) : ores (list A) :=
  match l with [] => inl [] | None :: _ => inr EKey
  | Some x :: l => obind (ids l) (fun r => inl (x :: r)) end.

(** operator.pyx:192-197 the range checks *)
Definition check_sites (s : osyst) (l : list Z) : ores (list nat) :=
  if match o_cell s with Some c => existsb (fun z => (Z.of_nat c <=? z)%Z) l | None => false end then inr EValue
  else if existsb (fun z => (z <? 0)%Z || (Z.of_nat (o_n s) <=? z)%Z) l then inr EValue
  else inl (map Z.to_nat l).
(** operator.pyx:160-199 _normalize_site_where *)
Definition normalize_site_where (s : osyst) (w : where_in) : ores (list nat) :=
  obind (match w with
         | WNone => inl (map Z.of_nat (seq 0 (nsites s)))
         | WFun f => inl (map Z.of_nat (filter f (seq 0 (match o_fams s with Some _ => o_n s | None => nsites s end))))
         | WInts l => match l with [] => inr EIndex | _ => inl l end
         | WSites l => match l with [] => inr EIndex
                       | _ => match o_fams s with None => inr EType
                              | Some _ => obind (ids l) (fun r => inl (map Z.of_nat r)) end end
         end) (check_sites s).

Inductive hwhere_in :=
  | HNone
  | HFun (f : nat -> nat -> bool)
  | HInts (l : list (Z * Z))
  | HSites (l : list (option (nat * nat))).
(** graph.has_edge; negative or too large numbers raise, which is caught
    in lines 242-243 and has the same effect as False *)
Definition has_edge (s : osyst) (e : Z * Z) : bool :=
  existsb (fun h : nat * nat => (Z.of_nat (fst h) =? fst e)%Z && (Z.of_nat (snd h) =? snd e)%Z) (o_edges s).
Definition zz (e : nat * nat) : Z * Z := (Z.of_nat (fst e), Z.of_nat (snd e)).

(** operator.pyx:236-243 *)
Definition given_hoppings (s : osyst) (l : list (Z * Z)) : ores (list (Z * Z)) :=
  if existsb (fun e => negb (has_edge s e)) l then inr EValue else inl l.
(** operator.pyx:247-249 (">" is faithful) *)
Definition check_hoppings (s : osyst) (l : list (Z * Z)) : ores (list (nat * nat)) :=
  if match o_cell s with
     | Some c => existsb (fun e => (Z.of_nat c <? fst e)%Z || (Z.of_nat c <? snd e)%Z) l | None => false end
  then inr EValue
  else inl (map (fun e => (Z.to_nat (fst e), Z.to_nat (snd e))) l).
(** operator.pyx:202-251 _normalize_hopping_where *)
Definition normalize_hopping_where (s : osyst) (w : hwhere_in) : ores (list (nat * nat)) :=
  obind (match w with
         | HNone => match o_cell s with Some _ => inr EValue | None => inl (map zz (o_edges s)) end
         | HFun f => inl (map zz (filter (fun e => f (fst e) (snd e)) (o_edges s)))
         | HInts l => match l with [] => inr EIndex | _ => given_hoppings s l end
         | HSites l => match l with [] => inr EIndex
                       | _ => match o_fams s with None => inr EType
                              | Some _ => obind (ids l) (fun r => given_hoppings s (map zz r)) end end
         end) (check_hoppings s).

(** ** [onsite] *)
Inductive onsite_in :=
  | OFun (f : nat -> option P -> mat R + E) (* applied to the site with this number *)
  | ODict (d : list (Fam * mat R))
  | OMat (m : mat R).                       (* a scalar is a 1x1 matrix (ta.matrix) *)
Inductive nonsite :=                        (* normalized *)
  | NFun (f : nat -> option P -> ores (mat R))
  | NMat (m : mat R).
Fixpoint assocf (f : Fam) (d : list (Fam * mat R)) : option (mat R) :=
  match d with [] => None | (g, m) :: d => if fdec f g then Some m else assocf f d end.
Fixpoint check_dict (norbs : Fam -> nat) (check : bool) (d : list (Fam * mat R)) : ores unit :=
  match d with [] => inl tt
  | (g, m) :: d => obind (check_onsite m (norbs g) check) (fun _ => check_dict norbs check d) end.
(** c * ta.identity(n) *)
Definition scaled_identity (c : R) (n : nat) : mat R := mkMat n n (fun i j => if i =? j then c else r0 R).
Definition rnorbs (r : nat * nat * nat) : nat := snd (fst r).

(** operator.pyx:273-321 _normalize_onsite, with 257-270 _FunctionalOnsite, _DictOnsite *)
Definition normalize_onsite (s : osyst) (ranges : list (nat * nat * nat)) (o : onsite_in) (check : bool) : ores nonsite :=
  match o with
  | OFun f => inl (NFun (fun a p => user (f a p)))
  | ODict d =>
    match o_fams s with
    | None => inr EType
    | Some fams =>
      obind (check_dict (o_norbs s) check d) (fun _ =>
      inl (NFun (fun a _ => match nth_error fams a with
                            | None => inr EIndex
                            | Some f => match assocf f d with Some m => inl m | None => inr EKey end end)))
    end
  | OMat m =>
    obind (check_onsite m (mr m) check) (fun _ =>
    if mr m =? 1 then inl (NMat (scaled_identity (mget m 0 0) (list_max (map rnorbs ranges))))
    else match nodup Nat.eq_dec (map rnorbs (removelast ranges)) with
         | [_] => if mr m =? rnorbs (nth 0 ranges (0, 0, 0)) then inl (NMat m) else inr EValue
         | _ => inr EValue
         end)
  end.

(** ** BlockSparseMatrix: operator.pyx:324-392 *)
Record bsm := mkBSM { b_offs : list (nat * nat); b_shapes : list (nat * nat); b_doffs : list nat; b_data : buf }.
Fixpoint data_offs (size : nat) (shapes : list (nat * nat)) : list nat :=
  match shapes with [] => [] | (r, c) :: l => size :: data_offs (size + r * c) l end.
Definition put_block (off r c : nat) (m : mat R) (data : buf) : buf :=
  loop r (fun i d => loop c (fun j d => upd d (off + i * c + j) (rdm m i j)) d) data.
Fixpoint populate (f : nat -> nat -> nat -> nat -> ores (mat R)) (wh : list (nat * nat)) (doffs : list nat)
    (shapes : list (nat * nat)) (data : buf) : ores buf :=
  match wh, doffs, shapes with
  | (a, b) :: wh, off :: doffs, (na, nb) :: shapes =>
    obind (f a na b nb) (fun m => populate f wh doffs shapes (put_block off na nb m data))
  | _, _, _ => inl data
  end.
Definition make_bsm (wh offs shapes : list (nat * nat)) (f : nat -> nat -> nat -> nat -> ores (mat R)) : ores bsm :=
  let doffs := data_offs 0 shapes in
  obind (populate f wh doffs shapes junk) (fun data => inl (mkBSM offs shapes doffs data)).
Definition bget (b : bsm) (w : nat) : buf := fun k => b_data b (nth w (b_doffs b) 0 + k).

(** ** Operators *)
Inductive kind := Density | Current | Source.
Record op := mkOp {
  p_kind : kind;
  p_syst : osyst;
  p_onsite : nonsite;
  p_where : list (nat * nat);               (* for Density and Source: pairs (a, a) *)
  p_check : bool;
  p_sum : bool;
  p_ranges : list (nat * nat * nat);
  p_bons : option bsm;                      (* _bound_onsite *)
  p_bham : option bsm }.                    (* _bound_hamiltonian *)

(** operator.pyx:451-467, 763-767, 918-922, 1046-1050 __init__.  An empty list
    of hoppings is a one-dimensional array and does not fit gint[:, :]. *)
Definition init (k : kind) (s : osyst) (o : onsite_in) (wh : list (nat * nat)) (check sum : bool) : ores op :=
  match o_ranges s with
  | None => inr EValue
  | Some ranges =>
    obind (normalize_onsite s ranges o check) (fun u =>
    match k, wh with
    | Current, [] => inr EValue
    | _, _ => inl (mkOp k s u wh check sum ranges None None)
    end)
  end.
Definition dup (l : list nat) : list (nat * nat) := map (fun a => (a, a)) l.
Definition make_density (s : osyst) (o : onsite_in) (w : where_in) (check sum : bool) : ores op :=
  obind (normalize_site_where s w) (fun l => init Density s o (dup l) check sum).
Definition make_current (s : osyst) (o : onsite_in) (w : hwhere_in) (check sum : bool) : ores op :=
  obind (normalize_hopping_where s w) (fun l => init Current s o l check sum).
Definition make_source (s : osyst) (o : onsite_in) (w : where_in) (check sum : bool) : ores op :=
  obind (normalize_site_where s w) (fun l => init Source s o (dup l) check sum).

(** operator.pyx:666-690 _eval_onsites.  For a Current the block shapes are
    (norbs(a), norbs(b)) although the blocks are those of site a. *)
Definition eval_onsites (q : op) (f : nat -> option P -> ores (mat R)) (p : option P) : ores bsm :=
  let (offs, shapes) := get_all_orbs (p_ranges q) (p_where q) in
  make_bsm (p_where q) offs shapes (fun a na _ _ =>
    obind (f a p) (fun m => obind (check_onsite m na (p_check q)) (fun _ => inl m))).
(** operator.pyx:692-705 _eval_hamiltonian *)
Definition eval_hamiltonian (q : op) (p : option P) : ores bsm :=
  let (offs, shapes) := get_all_orbs (p_ranges q) (p_where q) in
  make_bsm (p_where q) offs shapes (fun a na b nb =>
    obind (user (o_ham (p_syst q) a b p)) (fun m =>
    obind (check_ham (p_syst q) m p a na b nb (p_check q)) (fun _ => inl m))).

(** operator.pyx:608-637, 925-936, 1053-1064 bind *)
Definition bind (q : op) (p : option P) : ores op :=
  obind (match p_onsite q with
         | NFun f => obind (eval_onsites q f p) (fun b => inl (Some b))
         | NMat _ => inl None
         end) (fun bons =>
  obind (match p_kind q with
         | Density => inl None
         | _ => obind (eval_hamiltonian q p) (fun b => inl (Some b))
         end) (fun bham =>
  inl (mkOp (p_kind q) (p_syst q) (p_onsite q) (p_where q) (p_check q) (p_sum q) (p_ranges q) bons bham))).

(** The beginning of _operate: the pointer M_a as a function of w.
    operator.pyx:780-786 and 798-799, 949-955 and 974-975, 1077-1083 and 1102-1103 *)
Definition onsite_ptr (q : op) (p : option P) : ores (nat -> buf) :=
  match p_onsite q with
  | NMat m => inl (fun _ => rdflat m)
  | NFun f =>
    match p_bons q with
    | Some b => inl (bget b)
    | None => obind (eval_onsites q f p) (fun b => inl (bget b))
    end
  end.
(** operator.pyx:957-960, 1085-1088 *)
Definition ham_blocks (q : op) (p : option P) : ores bsm :=
  match p_bham q with Some b => inl b | None => eval_hamiltonian q p end.

(** operator.pyx:800-814 the body of the loop of Density._operate *)
Definition density_el (M : buf) (a_s n : nat) (bra ket : buf) : R :=
  loop n (fun i tmp => loop n (fun j tmp =>
    tmp +! conj (bra (a_s + i)) *! M (i * n + j) *! ket (a_s + j)) tmp) (r0 R).
Definition density_act (M : buf) (a_s n : nat) (ket out : buf) : buf :=
  loop n (fun i out =>
    let tmp := loop n (fun j tmp => tmp +! M (i * n + j) *! ket (a_s + j)) (r0 R) in
    upd out (a_s + i) (out (a_s + i) +! tmp)) out.
(** operator.pyx:976-1000 Current._operate *)
Definition current_el (M H : buf) (a_s b_s na nb : nat) (bra ket : buf) : R :=
  ri R *! loop nb (fun i tmp => loop na (fun j tmp => loop na (fun k tmp =>
    tmp +! (conj (bra (b_s + i)) *! conj (H (j * nb + i)) *! M (j * na + k) *! ket (a_s + k)
            -! conj (bra (a_s + j)) *! M (j * na + k) *! H (k * nb + i) *! ket (b_s + i))) tmp) tmp) (r0 R).
Definition current_act (M H : buf) (a_s b_s na nb : nat) (ket out : buf) : buf :=
  loop nb (fun i out => loop na (fun j out => loop na (fun k out =>
    let out := upd out (b_s + i) (out (b_s + i) +! ri R *! conj (H (j * nb + i)) *! M (j * na + k) *! ket (a_s + k)) in
    upd out (a_s + j) (out (a_s + j) -! ri R *! M (j * na + k) *! H (k * nb + i) *! ket (b_s + i))) out) out) out.
(** operator.pyx:1104-1126 Source._operate *)
Definition source_tmp (M H : buf) (a_s n : nat) (ket : buf) (i : nat) : R :=
  loop n (fun j tmp => loop n (fun k tmp =>
    tmp +! (conj (H (j * n + i)) *! M (j * n + k) *! ket (a_s + k)
            -! M (i * n + j) *! H (j * n + k) *! ket (a_s + k))) tmp) (r0 R).
Definition source_el (M H : buf) (a_s n : nat) (bra ket : buf) : R :=
  ri R *! loop n (fun i tmp2 => tmp2 +! conj (bra (a_s + i)) *! source_tmp M H a_s n ket i) (r0 R).
Definition source_act (M H : buf) (a_s n : nat) (ket out : buf) : buf :=
  loop n (fun i out => upd out (a_s + i) (out (a_s + i) +! ri R *! source_tmp M H a_s n ket i)) out.

(** The loop over w: [el w] is the matrix element, [ac w] the action. *)
Definition pair_at (l : list (nat * nat)) (w : nat) : nat * nat := nth w l (0, 0).
Definition operate (q : op) (p : option P) :
    ores ((nat -> buf -> buf -> R) * (nat -> buf -> buf -> buf)) :=
  obind (onsite_ptr q p) (fun M =>
  match p_kind q with
  | Density =>
    inl (fun w => let (a_s, n) := get_orbs (p_ranges q) (fst (pair_at (p_where q) w)) in density_el (M w) a_s n,
         fun w => let (a_s, n) := get_orbs (p_ranges q) (fst (pair_at (p_where q) w)) in density_act (M w) a_s n)
  | Current =>
    obind (ham_blocks q p) (fun H =>
    inl (fun w => current_el (M w) (bget H w) (fst (pair_at (b_offs H) w)) (snd (pair_at (b_offs H) w))
                    (fst (pair_at (b_shapes H) w)) (snd (pair_at (b_shapes H) w)),
         fun w => current_act (M w) (bget H w) (fst (pair_at (b_offs H) w)) (snd (pair_at (b_offs H) w))
                    (fst (pair_at (b_shapes H) w)) (snd (pair_at (b_shapes H) w))))
  | Source =>
    obind (ham_blocks q p) (fun H =>
    inl (fun w => source_el (M w) (bget H w) (fst (pair_at (b_offs H) w)) (fst (pair_at (b_shapes H) w)),
         fun w => source_act (M w) (bget H w) (fst (pair_at (b_offs H) w)) (fst (pair_at (b_shapes H) w))))
  end).

Definition already_bound (q : op) (p : option P) : bool :=
  match p_bons q, p_bham q, p with None, None, _ => false | _, _, None => false | _, _, Some _ => true end.
Inductive result := RArr (v : vec) | RScal (x : R).

(** operator.pyx:470-559 __call__.  The test "bra is ket" is modelled as
    "ket was not given". *)
Definition call (q : op) (bra : vec) (ket : option vec) (p : option P) : ores result :=
  if already_bound q p then inr EValue
  else
    let ket_ := match ket with None => bra | Some k => k end in
    let tot := get_tot_norbs (p_ranges q) (nsites (p_syst q)) in
    if negb (vlen bra =? tot) then inr EValue
    else if negb (vlen ket_ =? tot) then inr EValue
    else
      obind (operate q p) (fun ops =>
      let n := length (p_where q) in
      let res := loop n (fun w out => upd out w (fst ops w (vget bra) (vget ket_))) (fun _ => r0 R) in
      let res := if p_check q && (match ket with None => true | Some _ => false end) then fun i => rre R (res i) else res in
      if p_sum q then inl (RScal (loop n (fun w s => s +! res w) (r0 R))) else inl (RArr (mkVec n res))).

(** operator.pyx:562-605 act *)
Definition act (q : op) (ket : vec) (p : option P) : ores vec :=
  if already_bound q p then inr EValue
  else
    let tot := get_tot_norbs (p_ranges q) (nsites (p_syst q)) in
    if negb (vlen ket =? tot) then inr EValue
    else
      obind (operate q p) (fun ops =>
      inl (mkVec tot (loop (length (p_where q)) (fun w out => snd ops w (vget ket) out) (fun _ => r0 R)))).

(** operator.pyx:819-868 Density.tocoo *)
Definition coo_rows (offs shapes : list (nat * nat)) : list (nat * nat) :=
  flat_map (fun blk => let '((ro, co), (r, c)) := blk in map (fun n => (ro + n / c, co + n mod c)) (seq 0 (r * c)))
    (combine offs shapes).
Definition tocoo (q : op) (p : option P) : ores (coo_matrix R) :=
  if match p_bons q, p with Some _, Some _ => true | _, _ => false end then inr EValue
  else
    obind (match p_onsite q with
           | NMat m =>
             let offs := fst (get_all_orbs (p_ranges q) (p_where q)) in
             let sz := mr m * mc m in
             inl (offs, map (fun _ => (mr m, mc m)) (p_where q), fun k => rdflat m (k mod sz))
           | NFun f =>
             obind (match p_bons q with Some b => inl b | None => eval_onsites q f p end) (fun b =>
             inl (b_offs b, b_shapes b, b_data b))
           end) (fun t =>
    let '(offs, shapes, data) := t in
    let rc := coo_rows offs shapes in
    let tot := get_tot_norbs (p_ranges q) (nsites (p_syst q)) in
    (* scipy checks the index ranges *)
    if forallb (fun e => (fst e <? tot) && (snd e <? tot)) rc then
      inl (mkCoo tot tot (map (fun ek => (fst ek, data (snd ek))) (combine rc (seq 0 (length rc)))))
    else inr EValue).
End OperatorModel.
Arguments OFun {R P E Fam}.
Arguments ODict {R P E Fam}.
Arguments OMat {R P E Fam}.
Arguments NFun {R P E}.
Arguments NMat {R P E}.
Arguments RArr {R}.
Arguments RScal {R}.
Arguments mkVec {R}.
Arguments EValue {E}.
Arguments EType {E}.
Arguments EIndex {E}.
Arguments EKey {E}.
Arguments EAssert {E}.
Arguments EUserCode {E}.
Arguments rdflat {R}.
Arguments rdm {R}.
Arguments make_bsm {R E}.
Arguments check_onsite {R E}.
Arguments is_herm_conj {R E}.
Arguments scaled_identity {R}.
