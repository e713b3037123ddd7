(** * Model of kwant/solvers/common.py and kwant/physics/noise.py.

    Complex numbers are elements of any [StarRing] (exact arithmetic).  Sparse
    and dense matrices are both [mat] (number of rows, of columns, entries);
    the scipy/numpy operations used (dot, bmat, slicing, coo construction with
    summed duplicates) are modelled entry by entry, including their shape
    errors.  The actual linear solver is a parameter. *)
From Coq Require Import List Bool Arith ZArith.
From Verif Require Import StarRing SubmatrixModel.
Import ListNotations.
Set Implicit Arguments.

Inductive serr := SValue | SIndex | SType | SAssert | SNotImplemented.
Definition sres (A : Type) := (A + serr)%type.
Definition sbind {A B} (x : sres A) (f : A -> sres B) : sres B := match x with inl a => f a | inr e => inr e end.
Definition stry {A} (x : option A) (e : serr) : sres A := match x with Some a => inl a | None => inr e end.
Fixpoint smap {A B} (f : A -> sres B) (l : list A) : sres (list B) :=
  match l with [] => inl [] | x :: l => sbind (f x) (fun y => sbind (smap f l) (fun r => inl (y :: r))) end.

(** Python's l[z] and list.index *)
Definition pynth {A} (l : list A) (z : Z) : option A :=
  let n := Z.of_nat (length l) in
  if (0 <=? z)%Z && (z <? n)%Z then nth_error l (Z.to_nat z)
  else if (- n <=? z)%Z && (z <? 0)%Z then nth_error l (Z.to_nat (n + z))
  else None.
Fixpoint index_of (x : Z) (l : list Z) : option nat :=
  match l with [] => None | y :: l => if (x =? y)%Z then Some 0 else option_map S (index_of x l) end.
Definition zmem (x : Z) (l : list Z) : bool := existsb (Z.eqb x) l.
(** [0, s0, s0 + s1, ...]: zeros(len + 1) with [1:] = cumsum *)
Fixpoint offsets (s : nat) (sizes : list nat) : list nat :=
  s :: match sizes with [] => [] | x :: l => offsets (s + x) l end.

Section Solver.
Variable R : StarRing.
Notation "x +! y" := (radd R x y) (at level 50, left associativity).
Notation "x -! y" := (rsub R x y) (at level 50, left associativity).
Notation "x *! y" := (rmul R x y) (at level 40, left associativity).
Notation mat := (mat R).

(** the integer n as a number *)
Fixpoint rnat (n : nat) : R := match n with O => r0 R | S n => r1 R +! rnat n end.

(** ** numpy / scipy *)
Definition mdot (a b : mat) : sres mat :=
  if mc a =? mr b then inl (mkMat (mr a) (mc b) (fun i j => sum R (mc a) (fun k => mget a i k *! mget b k j)))
  else inr SValue.
Definition mconjt (a : mat) : mat := mkMat (mc a) (mr a) (fun i j => rconj R (mget a j i)).     (* a.conj().T *)
Definition mtrans (a : mat) : mat := mkMat (mc a) (mr a) (fun i j => mget a j i).               (* a.T *)
Definition mneg (a : mat) : mat := mkMat (mr a) (mc a) (fun i j => ropp R (mget a i j)).
Definition madd (a b : mat) : sres mat :=
  if (mr a =? mr b) && (mc a =? mc b) then inl (mkMat (mr a) (mc a) (fun i j => mget a i j +! mget b i j)) else inr SValue.
Definition mid (n : nat) (x : R) : mat := mkMat n n (fun i j => if i =? j then x else r0 R).    (* x * identity *)
Definition mtrace (a : mat) : R := sum R (Nat.min (mr a) (mc a)) (fun i => mget a i i).
(** a[:, s:] and a[:, :s] *)
Definition cols_from (s : nat) (a : mat) : mat := mkMat (mr a) (mc a - s) (fun i j => mget a i (s + j)).
Definition cols_to (s : nat) (a : mat) : mat := mkMat (mr a) (Nat.min s (mc a)) (mget a).
(** a[slice(r0, r1), slice(c0, c1)]: bounds are cut to the shape *)
Definition slice := (nat * nat)%type.
Definition sl_start (s : slice) (n : nat) : nat := Nat.min (fst s) n.
Definition sl_len (s : slice) (n : nat) : nat := Nat.min (snd s) n - sl_start s n.
Definition mslice (a : mat) (rs cs : slice) : mat :=
  mkMat (sl_len rs (mr a)) (sl_len cs (mc a)) (fun i j => mget a (sl_start rs (mr a) + i) (sl_start cs (mc a) + j)).
(** bmat([[a, b]]), bmat([[a], [b]]) *)
Definition hstack (a b : mat) : sres mat :=
  if mr a =? mr b then inl (mkMat (mr a) (mc a + mc b) (fun i j => if j <? mc a then mget a i j else mget b i (j - mc a)))
  else inr SValue.
Definition vstack (a b : mat) : sres mat :=
  if mc a =? mc b then inl (mkMat (mr a + mr b) (mc a) (fun i j => if i <? mr a then mget a i j else mget b (i - mr a) j))
  else inr SValue.
Fixpoint hstack_list (a : mat) (l : list mat) : sres mat :=
  match l with [] => inl a | b :: l => sbind (hstack a b) (fun m => hstack_list m l) end.
(** coo matrix; duplicate entries are summed, indices are checked *)
Definition coo (r c : nat) (l : list (nat * nat * R)) : sres mat :=
  if forallb (fun e => (fst (fst e) <? r) && (snd (fst e) <? c)) l then
    inl (mkMat r c (fun i j => lsum R (fun e => if (fst (fst e) =? i) && (snd (fst e) =? j) then snd e else r0 R) l))
  else inr SValue.
Definition norm2 (a : mat) : R := sum R (mr a) (fun i => sum R (mc a) (fun j => rconj R (mget a i j) *! mget a i j)).

(** ** BlockResult *)
(** PropagatingModes: len(momenta) and block_nmodes, or a self-energy *)
Inductive linfo := IModes (nmom : nat) (blocks : option (list nat)) | ISigma (sigma : mat).
Record bres := mkBR {
  q_data : mat;
  q_info : list linfo;
  q_out : list Z; q_in : list Z;
  q_sizes : list nat;
  q_cons : bool;                            (* current_conserving *)
  q_ooff : list nat; q_ioff : list nat;     (* out_offsets, in_offsets *)
  q_oblk : list (option (list nat)); q_iblk : list (option (list nat)) }.

(** solvers/common.py:651-662 BlockResult.__init__ *)
Definition block_init (data : mat) (info : list linfo) (out inn : list Z) (sizes : list nat) (cons : bool)
    (blk : list (option (list nat))) : sres bres :=
  sbind (smap (fun z => stry (pynth sizes z) SIndex) inn) (fun si =>
  sbind (smap (fun z => stry (pynth sizes z) SIndex) out) (fun so =>
  sbind (smap (fun z => stry (pynth blk z) SIndex) inn) (fun bi =>
  sbind (smap (fun z => stry (pynth blk z) SIndex) out) (fun bo =>
  inl (mkBR data info out inn sizes cons (offsets 0 so) (offsets 0 si) bo bi))))).

(** solvers/common.py:799-848 SMatrix.__init__ *)
Definition smatrix_init (data : mat) (info : list linfo) (out inn : list Z) (cons : bool) : sres bres :=
  if existsb (fun ki => match snd ki with ISigma _ => zmem (Z.of_nat (fst ki)) (out ++ inn) | IModes _ _ => false end)
       (combine (seq 0 (length info)) info) then inr SAssert
  else block_init data info out inn
         (map (fun i => match i with IModes n _ => n / 2 | ISigma _ => 0 end) info) cons
         (map (fun i => match i with IModes _ (Some b) => Some (offsets 0 b) | _ => None end) info).

(** A lead, or a block (conserved quantity) of a lead *)
Inductive key := KLead (l : Z) | KBlock (l b : Z).

(** solvers/common.py:670-683 and 850-879 out_block_coords, in_block_coords *)
Definition block_coords (leads : list Z) (offs : list nat) (blks : list (option (list nat))) (k : key) : sres slice :=
  match k with
  | KLead l =>
    sbind (stry (index_of l leads) SValue) (fun i =>
    sbind (stry (nth_error offs i) SIndex) (fun a => sbind (stry (nth_error offs (S i)) SIndex) (fun b => inl (a, b))))
  | KBlock l b =>
    sbind (stry (index_of l leads) SValue) (fun i =>
    sbind (stry (nth_error offs i) SIndex) (fun o =>
    sbind (stry (nth_error blks i) SIndex) (fun bl =>
    sbind (stry bl SType) (fun bo =>
    sbind (stry (pynth bo b) SIndex) (fun x => sbind (stry (pynth bo (b + 1)) SIndex) (fun y => inl (o + x, o + y)))))))
  end.
Definition out_block_coords (q : bres) (k : key) : sres slice := block_coords (q_out q) (q_ooff q) (q_oblk q) k.
Definition in_block_coords (q : bres) (k : key) : sres slice := block_coords (q_in q) (q_ioff q) (q_iblk q) k.

(** solvers/common.py:685-687 submatrix *)
Definition submatrix (q : bres) (o i : key) : sres mat :=
  sbind (out_block_coords q o) (fun rs => sbind (in_block_coords q i) (fun cs => inl (mslice (q_data q) rs cs))).

Fixpoint slsum {A} (f : A -> sres R) (l : list A) : sres R :=
  match l with [] => inl (r0 R) | x :: l => sbind (f x) (fun a => sbind (slsum f l) (fun s => inl (a +! s))) end.

(** solvers/common.py:703-740 BlockResult.transmission.  [st]: _transmission,
    [np]: num_propagating.  The conditional expression in line 736 applies to
    the whole difference, as in the code. *)
Definition transmission_ (q : bres) (st : Z -> Z -> sres R) (np : Z -> sres R) (a b : Z) : sres R :=
  match zmem a (q_out q), zmem b (q_in q) with
  | true, true => st a b
  | oka, okb =>
    if q_cons q then
      if oka then
        if S (length (q_in q)) =? length (q_info q) then
          sbind (np a) (fun n => sbind (slsum (fun i => st a i) (q_in q)) (fun s => inl (n -! s)))
        else inr SValue
      else if okb then
        if S (length (q_out q)) =? length (q_info q) then
          sbind (np b) (fun n => sbind (slsum (fun o => st o b) (q_out q)) (fun s => inl (n -! s)))
        else inr SValue
      else if (S (length (q_out q)) =? length (q_info q)) && (S (length (q_in q)) =? length (q_info q)) then
        slsum (fun oi => if (fst oi =? snd oi)%Z
                         then sbind (st (fst oi) (snd oi)) (fun t => sbind (np (fst oi)) (fun n => inl (t -! n)))
                         else inl (r0 R)) (list_prod (q_out q) (q_in q))
      else inr SValue
    else inr SValue
  end.

(** solvers/common.py:881-900 SMatrix._transmission, transmission, num_propagating *)
Definition sm_st (q : bres) (o i : key) : sres R := sbind (submatrix q o i) (fun m => inl (norm2 m)).
Definition sm_np (q : bres) (l : Z) : sres R := sbind (stry (pynth (q_sizes q) l) SIndex) (fun n => inl (rnat n)).
Definition sm_transmission (q : bres) (o i : key) : sres R :=
  match o, i with
  | KLead a, KLead b => transmission_ q (fun o i => sm_st q (KLead o) (KLead i)) (sm_np q) a b
  | _, _ => sm_st q o i
  end.

(** solvers/common.py:742-759 conductance_matrix.  [tr]: transmission *)
Definition conductance_matrix (n : nat) (tr : Z -> Z -> sres R) : sres mat :=
  sbind (smap (fun i => smap (fun j => if i =? j then inl (r0 R)
                                       else sbind (tr (Z.of_nat i) (Z.of_nat j)) (fun t => inl (ropp R t))) (seq 0 n)) (seq 0 n))
    (fun rows =>
     let result i j := nth j (nth i rows []) (r0 R) in
     inl (mkMat n n (fun i j => if i =? j then ropp R (sum R n (fun k => result k j)) else result i j))).
Definition sm_conductance (q : bres) : sres mat :=
  conductance_matrix (length (q_info q)) (fun i j => sm_transmission q (KLead i) (KLead j)).

(** ** GreensFunction *)
Variable nchan : mat -> nat.                (* number of open channels of a self-energy, common.py:942-953 *)
Variable nchan_refl : mat -> nat.           (* the same in _transmission, common.py:976-983 (other tolerance) *)
(** solvers/common.py:936-940 GreensFunction.__init__ *)
Definition gf_init (data : mat) (sigmas : list mat) (out inn : list Z) (cons : bool) : sres bres :=
  block_init data (map ISigma sigmas) out inn (map (@mr R) sigmas) cons (map (fun _ => None) sigmas).
Definition sigma_of (q : bres) (l : Z) : sres mat :=
  sbind (stry (pynth (q_info q) l) SIndex) (fun i => match i with ISigma s => inl s | IModes _ _ => inr SType end).
(** 1j * (sigma - sigma.conj().T) *)
Definition gamma (s : mat) : sres mat :=
  if mr s =? mc s then inl (mkMat (mr s) (mc s) (fun i j => ri R *! (mget s i j -! rconj R (mget s j i)))) else inr SValue.
(** solvers/common.py:955-963 _a_ttdagger_a_inv *)
Definition a_ttdagger (q : bres) (o i : Z) : sres mat :=
  sbind (submatrix q (KLead o) (KLead i)) (fun gf =>
  sbind (sigma_of q o) (fun so => sbind (gamma so) (fun go =>
  sbind (sigma_of q i) (fun si => sbind (gamma si) (fun gi =>
  sbind (mdot go gf) (fun m => sbind (mdot m gi) (fun m => mdot m (mconjt gf)))))))).
(** 2 * z.imag *)
Definition two_im (z : R) : R := ropp R (ri R *! (z -! rconj R z)).
(** solvers/common.py:965-987 _transmission *)
Definition gf_st (q : bres) (o i : Z) : sres R :=
  sbind (a_ttdagger q o i) (fun m =>
  let result := rre R (mtrace m) in
  if (o =? i)%Z then
    sbind (sigma_of q i) (fun s => sbind (gamma s) (fun g =>
    sbind (submatrix q (KLead o) (KLead i)) (fun gf =>
    sbind (mdot g gf) (fun gg => inl (result +! (two_im (mtrace gg) +! rnat (nchan_refl s)))))))
  else inl result).
Definition gf_np (q : bres) (l : Z) : sres R := sbind (sigma_of q l) (fun s => inl (rnat (nchan s))).
Definition gf_transmission (q : bres) (a b : Z) : sres R := transmission_ q (gf_st q) (gf_np q) a b.
Definition gf_conductance (q : bres) : sres mat := conductance_matrix (length (q_info q)) (gf_transmission q).

(** ** physics/noise.py:18-49 two_terminal_shotnoise *)
Definition shotnoise (q : bres) : sres R :=
  if negb (length (q_info q) =? 2) then inr SValue
  else
    match q_out q, q_in q with
    | o :: _, i :: _ =>
      sbind (submatrix q (KLead o) (KLead i)) (fun t =>
      sbind (mdot t (mconjt t)) (fun tt =>
      sbind (mdot tt tt) (fun tt2 => inl (rre R (mtrace (mkMat (mr tt) (mc tt) (fun i j => mget tt i j -! mget tt2 i j)))))))
    | _, _ => inr SIndex
    end.

(** ** The linear system *)
(** StabilizedModes: vecs, vecslmbdainv, nmodes, sqrt_hop; PropagatingModes:
    len(momenta), block_nmodes.  A lead has modes, a self-energy, or both. *)
Record modes := mkModes { m_u : mat; m_ulinv : mat; m_nprop : nat; m_v : mat; m_nmom : nat; m_blocks : option (list nat) }.
Record lead := mkLead { l_modes : option modes; l_sigma : mat; l_iface : list nat }.
Record syst := mkSyst {
  y_ham : mat;                              (* hamiltonian_submatrix(sparse=True) *)
  y_norb : list nat;
  y_leads : list lead }.
Definition is_selfenergy_lead (l : lead) : bool := match l_modes l with None => true | Some _ => false end.
Variable herm_ok : mat -> bool.             (* the numerical test, common.py:158-166 *)

(** np.r_[tuple(slice(offsets[i], offsets[i + 1]) for i in interface)] *)
Definition iface_orbs (offs : list nat) (iface : list nat) : sres (list nat) :=
  match iface with
  | [] => inr SValue
  | _ => sbind (smap (fun i => sbind (stry (nth_error offs i) SIndex) (fun a => sbind (stry (nth_error offs (S i)) SIndex) (fun b =>
           inl (seq a (b - a))))) iface) (fun l => inl (concat l))
  end.
(** sigma[i, j] is put at (coords[i], coords[j]) *)
Definition sig_sparse (n : nat) (sigma : mat) (coords : list nat) : sres mat :=
  coo n n (map (fun pq => (nth (fst pq) coords 0, nth (snd pq) coords 0, mget sigma (fst pq) (snd pq)))
             (list_prod (seq 0 (mr sigma)) (seq 0 (mc sigma)))).
Definition add_sigma (lhs sigma : mat) (coords : list nat) : sres mat :=
  if negb ((mr sigma =? length coords) && (mc sigma =? length coords)) then inr SValue
  else sbind (sig_sparse (mr lhs) sigma coords) (fun s => madd lhs s).

Inductive rhs_part := RNone | ROne (coords : list nat) | RTwo (top mid : mat).
Record lstate := mkLS { z_lhs : mat; z_indices : list (option (list nat)); z_rhs : list rhs_part; z_info : list linfo }.

(** One iteration of the loop, solvers/common.py:177-273 *)
Definition lead_step (offs : list nat) (in_leads : list Z) (realspace : bool) (num : nat) (l : lead) (z : lstate) : sres lstate :=
  let lhs := z_lhs z in
  let present := zmem (Z.of_nat num) in_leads in
  if negb realspace then
    match l_modes l with
    | None =>                                                      (* 180-203 *)
      if present then inr SAssert
      else
        sbind (iface_orbs offs (l_iface l)) (fun coords =>
        sbind (add_sigma lhs (l_sigma l) coords) (fun lhs' =>
        inl (mkLS lhs' (z_indices z ++ [None]) (z_rhs z ++ [RNone]) (z_info z ++ [ISigma (l_sigma l)]))))
    | Some m =>
      let info := z_info z ++ [IModes (m_nmom m) (m_blocks m)] in
      if mr (m_u m) =? 0 then                                      (* 211-213; no index is appended *)
        inl (mkLS lhs (z_indices z) (z_rhs z ++ [RNone]) info)
      else
        let np := m_nprop m in
        let indices := z_indices z ++ [Some (seq (mr lhs) np)] in
        let u_out := cols_from np (m_u m) in let ulinv_out := cols_from np (m_ulinv m) in
        let u_in := cols_to np (m_u m) in let ulinv_in := cols_to np (m_ulinv m) in
        sbind (iface_orbs offs (l_iface l)) (fun orbs =>
        if negb (mr (m_v m) =? length orbs) then inr SValue
        else
          sbind (coo (length orbs) (mr lhs) (map (fun p => (p, nth p orbs 0, r1 R)) (seq 0 (length orbs)))) (fun transf =>
          sbind (mdot (mconjt (m_v m)) transf) (fun v_sp =>
          sbind (mdot (m_v m) u_out) (fun vu => sbind (mdot (mtrans transf) vu) (fun vdaguout =>
          sbind (hstack lhs vdaguout) (fun top =>
          sbind (hstack v_sp (mneg ulinv_out)) (fun bot =>
          sbind (vstack top bot) (fun lhs' =>
          if present && (0 <? np) then
            sbind (mdot (m_v m) u_in) (fun vui => sbind (mdot (mtrans transf) (mneg vui)) (fun vdaguin =>
            inl (mkLS lhs' indices (z_rhs z ++ [RTwo vdaguin ulinv_in]) info)))
          else inl (mkLS lhs' indices (z_rhs z ++ [RNone]) info)))))))))
    end
  else                                                             (* 253-273 *)
    sbind (iface_orbs offs (l_iface l)) (fun coords =>
    sbind (add_sigma lhs (l_sigma l) coords) (fun lhs' =>
    inl (mkLS lhs' (z_indices z ++ [Some coords])
           (if present then z_rhs z ++ [ROne coords] else z_rhs z) (z_info z ++ [ISigma (l_sigma l)])))).
Fixpoint lead_loop (offs : list nat) (in_leads : list Z) (realspace : bool) (num : nat) (ls : list lead) (z : lstate) : sres lstate :=
  match ls with
  | [] => inl z
  | l :: ls => sbind (lead_step offs in_leads realspace num l z) (fun z' => lead_loop offs in_leads realspace (S num) ls z')
  end.

(** solvers/common.py:275-297 *)
Definition finish_rhs (lhs : mat) (p : rhs_part) : sres mat :=
  match p with
  | RNone => inl (mkMat (mr lhs) 0 (fun _ _ => r0 R))
  | ROne coords => coo (mr lhs) (length coords) (map (fun l => (nth l coords 0, l, ropp R (r1 R))) (seq 0 (length coords)))
  | RTwo top mi =>
    if mr top + mr mi <=? mr lhs then
      sbind (vstack top mi) (fun a => vstack a (mkMat (mr lhs - mr top - mr mi) (mc top) (fun _ _ => r0 R)))
    else inr SValue
  end.
Record linsys := mkLinSys { x_lhs : mat; x_rhs : list mat; x_indices : list (option (list nat)); x_norb : nat }.
(** solvers/common.py:88-299 _make_linear_sys *)
Definition make_linear_sys (y : syst) (in_leads : list Z) (energy : R) (check : bool) (realspace : bool) : sres (linsys * list linfo) :=
  match y_leads y with
  | [] => inr SValue
  | _ =>
    sbind (madd (y_ham y) (mneg (mid (mr (y_ham y)) energy))) (fun lhs =>
    if check && negb (herm_ok lhs) then inr SValue
    else
      sbind (lead_loop (offsets 0 (y_norb y)) in_leads realspace 0 (y_leads y) (mkLS lhs [] [] [])) (fun z =>
      sbind (smap (finish_rhs (z_lhs z)) (z_rhs z)) (fun rhs =>
      inl (mkLinSys (z_lhs z) rhs (z_indices z) (mr lhs), z_info z))))
  end.

(** ** The solver: _factorized and _solve_linear_sys together *)
Variable solve : mat -> mat -> list nat -> sres mat.

Definition all_leads (n : nat) : list Z := map Z.of_nat (seq 0 n).
Definition lead_list (n : nat) (l : option (list Z)) : list Z := match l with None => all_leads n | Some l => l end.
Fixpoint increasing (l : list Z) : bool :=
  match l with x :: ((y :: _) as l') => (x <? y)%Z && increasing l' | _ => true end.
(** np.concatenate of the chosen arrays; None (zero-dimensional) or nothing at all raises *)
Fixpoint choose (num : nat) (indices : list (option (list nat))) (out : list Z) : sres (list (list nat)) :=
  match indices with
  | [] => inl []
  | c :: r => sbind (choose (S num) r out) (fun t =>
      if zmem (Z.of_nat num) out then match c with Some c => inl (c :: t) | None => inr SValue end else inl t)
  end.
Definition kept_vars (indices : list (option (list nat))) (out : list Z) : sres (list nat) :=
  sbind (choose 0 indices out) (fun l => match l with [] => inr SValue | _ => inl (concat l) end).
(** solvers/common.py:385-400 and 481-497, the end of smatrix and of greens_function *)
Definition solve_block (ls : linsys) (out : list Z) : sres mat :=
  sbind (kept_vars (x_indices ls) out) (fun kept =>
  let len_rhs := list_sum (map (@mc R) (x_rhs ls)) in
  if (len_rhs =? 0) || (length kept =? 0) then inl (mkMat (length kept) len_rhs (fun _ _ => r0 R))
  else
    match x_rhs ls with
    | [] => inr SValue
    | a :: r => sbind (hstack_list a r) (fun rhs => solve (x_lhs ls) rhs kept)
    end).
Definition check_lists (inn out : list Z) : sres unit :=
  if negb (increasing inn && increasing out) then inr SValue
  else match inn, out with [], _ => inr SValue | _, [] => inr SValue | _, _ => inl tt end.

(** solvers/common.py:300-400 smatrix *)
Definition smatrix (y : syst) (energy : R) (out inn : option (list Z)) (check : bool) : sres bres :=
  let n := length (y_leads y) in
  let inn := lead_list n inn in let out := lead_list n out in
  sbind (check_lists inn out) (fun _ =>
  sbind (smap (fun l => sbind (stry (pynth (y_leads y) l) SIndex) (fun l => if is_selfenergy_lead l then inr SValue else inl tt)) (inn ++ out)) (fun _ =>
  sbind (make_linear_sys y inn energy check false) (fun li =>
  sbind (solve_block (fst li) out) (fun data => smatrix_init data (snd li) out inn check)))).

(** solvers/common.py:402-497 greens_function *)
Definition gf_infos (l : list linfo) : list mat := flat_map (fun i => match i with ISigma s => [s] | IModes _ _ => [] end) l.
Definition greens_function (y : syst) (energy : R) (out inn : option (list Z)) (check : bool) : sres bres :=
  let n := length (y_leads y) in
  let inn := lead_list n inn in let out := lead_list n out in
  sbind (check_lists inn out) (fun _ =>
  sbind (make_linear_sys y inn energy check true) (fun li =>
  sbind (solve_block (fst li) out) (fun data => gf_init data (gf_infos (snd li)) out inn check))).

(** solvers/common.py:499-561 ldos; [half] is 0.5 / pi, [nrhs] the number of
    right-hand sides solved at once *)
Variable half : R.
Variable nrhs : nat.
Definition cols_between (j e : nat) (a : mat) : mat := mkMat (mr a) (e - j) (fun i k => mget a i (j + k)).
Fixpoint ldos_loop (fuel j : nat) (lhs rhs : mat) (norb : nat) (acc : nat -> R) : sres (nat -> R) :=
  match fuel with
  | 0 => inl acc
  | S fuel =>
    if j <? mc rhs then
      let jend := Nat.min (j + nrhs) (mc rhs) in
      sbind (solve lhs (cols_between j jend rhs) (seq 0 norb)) (fun psi =>
      ldos_loop fuel (j + nrhs) lhs rhs norb
        (fun x => acc x +! sum R (mc psi) (fun k => rconj R (mget psi x k) *! mget psi x k)))
    else inl acc
  end.
Definition ldos (y : syst) (energy : R) (check : bool) : sres (nat * (nat -> R)) :=
  if negb check then inr SNotImplemented
  else if existsb is_selfenergy_lead (y_leads y) then inr SNotImplemented
  else
    sbind (make_linear_sys y (all_leads (length (y_leads y))) energy check false) (fun li =>
    let ls := fst li in
    if list_sum (map (@mc R) (x_rhs ls)) =? 0 then inl (x_norb ls, fun _ => r0 R)
    else
      match x_rhs ls with
      | [] => inr SValue
      | a :: r => sbind (hstack_list a r) (fun rhs =>
          sbind (ldos_loop (mc rhs) 0 (x_lhs ls) rhs (x_norb ls) (fun _ => r0 R)) (fun d =>
          inl (x_norb ls, fun x => d x *! half)))
      end).

(** solvers/common.py:616-645 WaveFunction.__init__ and __call__ *)
Definition mode_leads (y : syst) : list Z :=
  map (fun ki => Z.of_nat (fst ki)) (filter (fun ki => negb (is_selfenergy_lead (snd ki))) (combine (seq 0 (length (y_leads y))) (y_leads y))).
Definition wave_function (y : syst) (energy : R) (check : bool) (l : Z) : sres mat :=
  let ml := mode_leads y in
  sbind (make_linear_sys y ml energy check false) (fun li =>
  let ls := fst li in
  if negb (zmem l ml) then inr SValue
  else sbind (stry (pynth (x_rhs ls) l) SIndex) (fun rhs =>
       sbind (solve (x_lhs ls) rhs (seq 0 (x_norb ls))) (fun r => inl (mtrans r)))).
End Solver.
Arguments IModes {R}.
Arguments ISigma {R}.
Arguments slsum {R A}.
Arguments conductance_matrix {R}.
Arguments gf_init {R}.
(** physics/leads.py:179-198 StabilizedModes.selfenergy, used by greens_function
    for leads with modes (builder.py:683-685, system.py:201-205, physics/leads.py:1168-1196).
    [lsolve] is scipy.linalg.solve. *)
Definition mode_selfenergy {R : StarRing} (lsolve : mat R -> mat R -> sres (mat R)) (m : modes R) : sres (mat R) :=
  sbind (lsolve (cols_from R (m_nprop m) (m_ulinv m)) (mconjt R (m_v m))) (fun x =>
  sbind (mdot R (m_v m) (cols_from R (m_nprop m) (m_u m))) (fun vu => mdot R vu x)).
