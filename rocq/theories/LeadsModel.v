(** * Model of kwant/physics/leads.py.

    Exact arithmetic over the complex numbers (any numClosedFieldType).  Real
    input arrays are complex arrays with real entries.  LAPACK routines are
    oracles; their specifications are in LeadsSpec.v. *)
From mathcomp Require Import all_ssreflect all_algebra.
Set Implicit Arguments. Unset Strict Implicit. Unset Printing Implicit Defensive.
Import GRing.Theory Num.Theory.
Local Open Scope ring_scope.

Section Leads.
Variable C : numClosedFieldType.
(** A.T.conj() *)
Definition hc m n (A : 'M[C]_(m, n)) : 'M[C]_(n, m) := map_mx (@conjC C) (A^T).
(** A[:, :k]; columns that do not exist are zero *)
Definition first_cols m n (k : nat) (A : 'M[C]_(m, n)) : 'M[C]_(m, k) :=
  \matrix_(i, j) if insub (val j) is Some j' then A i j' else 0.
(** A * x: the columns of A are multiplied by the elements of x *)
Definition scale_cols m n (A : 'M[C]_(m, n)) (x : 'rV[C]_n) : 'M[C]_(m, n) := \matrix_(i, j) (A i j * x 0 j).

(** leads.py:85 Linsys; extract takes any number of columns *)
Record linsys (n : nat) := Linsys {
  ldim : nat;
  lmat : 'M[C]_(ldim + ldim);
  lmatb : option 'M[C]_(ldim + ldim);
  lv : 'M[C]_(n, ldim);
  lextract : forall r, 'M[C]_(ldim + ldim, r) -> 'rV[C]_r -> 'M[C]_(n, r) }.
(** ValueError, RuntimeErrors *)
Inductive lerr := EZeroHop | EFlatBand | EZeroVelocity | EUnbalanced | ELinAlg.

(** scipy.linalg.svd *)
Variable svd : forall n, 'M[C]_n -> 'M[C]_n * 'rV[C]_n * 'M[C]_n.
(** leads.py:27-48 lu_factor_rcond: [good_h a] is not (rcond < eps), [good_b b]
    is (rcond > eps * tol) *)
Variables good_h good_b : forall n, 'M[C]_n -> bool.

(** leads.py:258 n_nonsing = np.sum(s > eps * s[0]), with eps = 0 *)
Definition n_nonsing n (s : 'rV[C]_n) : nat := #|[pred i | 0 < s 0 i]|.
(** np.linalg.norm *)
Definition frob m n (A : 'M[C]_(m, n)) : C := sqrtC (\sum_i \sum_j `|A i j| ^+ 2).
Definition is_real m n (A : 'M[C]_(m, n)) : bool := [forall i, forall j, A i j \is Num.real].

(** leads.py:260-281 the regular transfer matrix *)
Definition linsys_regular n (h_cell h_hop : 'M[C]_n) : linsys n :=
  let B := sqrtC (frob h_hop) in
  let A := B^-1 *: h_hop in
  let mA_inv := - invmx A in
  Linsys (block_mx (B^-1 *: (mA_inv *m h_cell)) (B *: mA_inv) (B^-1 *: hc A) 0) None (B%:M)
    (fun r psi lmbdainv => B^-1 *: usubmx psi).
(** leads.py:334-341 extract_wf *)
Definition extract_wf n k (h : 'M[C]_n) (u v : 'M[C]_(n, k)) (need : bool) r (psi : 'M[C]_(k + k, r)) (lmbdainv : 'rV[C]_r) : 'M[C]_(n, r) :=
  let wf := - u *m scale_cols (usubmx psi) lmbdainv - v *m dsubmx psi in
  let wf := if need then wf + 'i *: (v *m usubmx psi + u *m scale_cols (dsubmx psi) lmbdainv) else wf in
  invmx h *m wf.
(** leads.py:345-372 the generalized eigenvalue problem *)
Definition pencil_a n k (h : 'M[C]_n) (u v : 'M[C]_(n, k)) (need : bool) : 'M[C]_(k + k) :=
  let temp := invmx h *m v in
  block_mx (if need then - 'i *: (hc u *m temp) else 0) (hc u *m temp)
           (if need then 1%:M - 'i *: (hc v *m temp) else 1%:M) (hc v *m temp).
Definition pencil_b n k (h : 'M[C]_n) (u v : 'M[C]_(n, k)) (need : bool) : 'M[C]_(k + k) :=
  let temp := invmx h *m u in
  block_mx (- (hc u *m temp)) (if need then - 1%:M + 'i *: (hc u *m temp) else - 1%:M)
           (- (hc v *m temp)) (if need then 'i *: (hc v *m temp) else 0).
(** leads.py:200-391 setup_linsys *)
Definition setup_linsys n (h_cell h_hop : 'M[C]_n) (stabilization : option (option bool * bool)) : linsys n + lerr :=
  if h_hop == 0 then inr EZeroHop else
  let: (u, s, vh) := svd h_hop in
  let k := n_nonsing s in
  if (k == n) && (stabilization == None) then inl (linsys_regular h_cell h_hop)
  else
    let: (stab0, stab1) := if stabilization is Some st then st else (None, false) in
    let sq := first_cols k (\row_j sqrtC (s 0 j)) in
    let u := scale_cols (first_cols k u) sq in
    let v := scale_cols (first_cols k (hc vh)) sq in
    let matrices_real := is_real h_cell && is_real h_hop in
    let add_imaginary := (stab0 == Some true) || ((stab0 == None) && ~~ matrices_real) in
    let need := add_imaginary || ~~ good_h h_cell in
    let h := if need then h_cell + 'i *: (u *m hc u + v *m hc v) else h_cell in
    if need && ~~ good_h h then inr EFlatBand
    else
      let A := pencil_a h u v need in
      let B := pencil_b h u v need in
      let stab1 := if ~~ stab1 then good_b B else stab1 in
      inl (Linsys (if stab1 then invmx B *m A else A) (if stab1 then None else Some B) v (@extract_wf n k h u v need)).

(** ** leads.py:611-869 make_proper_modes, without symmetries

    Simplifications: real arrays are complex; LinAlgErrors (also that
    of la.solve if r is not square) are ELinAlg. *)
(** A[:, indx] *)
Definition take_cols m r (A : 'M[C]_(m, r)) (idx : seq 'I_r) : 'M[C]_(m, size idx) := \matrix_(i, j) A i (tnth (in_tuple idx) j).
(** A[:, indx] = B, for different indices *)
Definition put_cols m r (A : 'M[C]_(m, r)) (idx : seq 'I_r) (B : 'M[C]_(m, size idx)) : 'M[C]_(m, r) :=
  \matrix_(i, j) if insub (index j idx) is Some j' then B i j' else A i j.
(** abs(a - b) <= eps *)
Variable near : C -> C -> bool.
(** np.angle *)
Variable angle : C -> C.
(** la.qr(mode='economic'), la.eigh; None: an exception *)
Variable qr : forall m c, 'M[C]_(m, c) -> option ('M[C]_(m, c) * 'M[C]_c).
Variable eigh : forall c, 'M[C]_c -> option ('rV[C]_c * 'M[C]_c).

(** leads.py:648-650 boundaries: positions in sort_order where the eigenvalue changes *)
Definition boundaries r (lam : 'rV[C]_r) (sort_order : seq 'I_r) : seq nat :=
  [seq x.1.+1 | x <- zip (iota 0 (size sort_order)) (zip sort_order (behead sort_order)) & ~~ near (lam 0 x.2.1) (lam 0 x.2.2)].
(** a[i : j] *)
Definition slice T (i j : nat) (a : seq T) : seq T := take (j - i) (drop i a).
(** leads.py:656-660 for interval in zip(boundaries[:-1], boundaries[1:]): if interval[1] > limit: break *)
Fixpoint intervals T (limit : nat) (sort_order : seq T) (bs : seq nat) : seq (seq T) :=
  match bs with
  | b :: ((c :: _) as t) => if (limit < c)%N then [::] else slice b c sort_order :: intervals limit sort_order t
  | _ => [::]
  end.
(** leads.py:644-660; [order] is np.argsort(angles) *)
Definition clusters r (lam : 'rV[C]_r) (order : seq 'I_r) : seq (seq 'I_r) :=
  let sort_order := order ++ order in
  let bs := boundaries lam sort_order in
  let bs := if (bs == [::]) && (0 < size order)%N then [:: 0%N; size order] else bs in
  intervals (head 0%N bs + size order) sort_order bs.
(** np.argsort(np.angle(lmbdainv)) *)
Definition argsort r (lam : 'rV[C]_r) : seq 'I_r := sort (fun i j => angle (lam 0 i) <= angle (lam 0 j)) (enum 'I_r).
(** leads.py:662-719 the loop body *)
Definition proper_step n k r (idx : seq 'I_r) (st : 'M[C]_(k + k, r) * 'M[C]_(n, r) * 'rV[C]_r) : ('M[C]_(k + k, r) * 'M[C]_(n, r) * 'rV[C]_r) + lerr :=
  let: (psi, full_psi, velocities) := st in
  if qr (take_cols full_psi idx) is Some (q, rr) then
  if rr \notin unitmx then inr ELinAlg else
  let full_psi := put_cols full_psi q in
  let psi := put_cols psi (take_cols psi idx *m invmx rr) in
  let vel_op := - 'i *: hc (dsubmx (take_cols psi idx)) *m usubmx (take_cols psi idx) in
  let vel_op := vel_op + hc vel_op in
  if eigh vel_op is Some (vel_vals, rot) then
  inl (put_cols psi (take_cols psi idx *m rot), put_cols full_psi (take_cols full_psi idx *m rot), put_cols velocities vel_vals)
  else inr ELinAlg else inr ELinAlg.
Fixpoint proper_loop n k r (ids : seq (seq 'I_r)) (st : 'M[C]_(k + k, r) * 'M[C]_(n, r) * 'rV[C]_r) : ('M[C]_(k + k, r) * 'M[C]_(n, r) * 'rV[C]_r) + lerr :=
  match ids with
  | [::] => inl st
  | idx :: t => match proper_step idx st with inl st' => proper_loop t st' | inr e => inr e end
  end.
(** np.lexsort([velocities, -np.sign(velocities) * momenta, np.sign(velocities)]);
    the last key is the primary one *)
Definition lexsort_le r (vel momenta : 'rV[C]_r) (i j : 'I_r) : bool :=
  let s i := Num.sg (vel 0 i) in
  let m i := - s i * momenta 0 i in
  (s i < s j) || (s i == s j) && ((m i < m j) || (m i == m j) && (vel 0 i <= vel 0 j)).
Definition lexsort r (vel momenta : 'rV[C]_r) : r.-tuple 'I_r := [tuple of sort (lexsort_le vel momenta) (ord_tuple r)].
Definition order_cols m r (A : 'M[C]_(m, r)) (order : r.-tuple 'I_r) : 'M[C]_(m, r) := \matrix_(i, j) A i (tnth order j).
(** the propagating modes: psi in the SVD basis, PropagatingModes, and the eigenvalues *)
Record proper n k r := Proper {
  pr_psi : 'M[C]_(k + k, r);
  pr_wf : 'M[C]_(n, r);
  pr_vel : 'rV[C]_r;
  pr_mom : 'rV[C]_r;
  pr_lam : 'rV[C]_r }.
Definition make_proper_modes n (L : linsys n) r (lam : 'rV[C]_r) (psi : 'M[C]_(ldim L + ldim L, r)) : proper n (ldim L) r + lerr :=
  match proper_loop (clusters lam (argsort lam)) (psi, @lextract n L r psi lam, 0) with
  | inr e => inr e
  | inl (psi, full_psi, vel) =>
    if [exists j, vel 0 j == 0] then inr EZeroVelocity else
    let nleft := #|[pred j | vel 0 j < 0]| in
    if (2 * nleft)%N != r then inr EUnbalanced else
    let momenta := \row_j - angle (lam 0 j) in
    let order := lexsort vel momenta in
    let vel := order_cols vel order in
    let momenta := order_cols momenta order in
    let norm := \row_j (sqrtC `|vel 0 j|)^-1 in
    inl (Proper (scale_cols (order_cols psi order) norm) (scale_cols (order_cols full_psi order) norm) vel momenta (order_cols lam order))
  end.

(** ** leads.py:872-909, 984-1165 compute_block_modes and modes, without symmetries *)
(** leads.py:394-465 unified_eigenproblem: the eigenvalues on the unit circle,
    their eigenvectors, and the reordered Schur vectors *)
Record eigdata (k : nat) := Eigdata {
  ed_r : nat;
  ed_lam : 'rV[C]_ed_r;
  ed_vec : 'M[C]_(k + k, ed_r);
  ed_schur : 'M[C]_(k + k) }.
Variable eig : forall k, 'M[C]_(k + k) -> option 'M[C]_(k + k) -> eigdata k.
(** leads.py:138-177 StabilizedModes; m is the number of orbitals on the interface *)
Record stabilized m := Stabilized {
  st_k : nat;
  st_c : nat;
  st_vecs : 'M[C]_(st_k, st_c);
  st_vecslmbdainv : 'M[C]_(st_k, st_c);
  st_nmodes : nat;
  st_sqrt_hop : 'M[C]_(m, st_k) }.
(** leads.py:179-196 selfenergy; the columns from nmodes on are as many as there
    are rows (otherwise la.solve raises an exception) *)
Definition out_cols k c (nmodes : nat) (A : 'M[C]_(k, c)) : 'M[C]_k :=
  \matrix_(i, j) if insub (nmodes + j)%N is Some j' then A i j' else 0.
Definition selfenergy m (s : stabilized m) : option 'M[C]_m :=
  if st_c s != (st_nmodes s + st_k s)%N then None else
  let v := st_sqrt_hop s in
  let vecs := out_cols (st_nmodes s) (st_vecs s) in
  let vecslmbdainv := out_cols (st_nmodes s) (st_vecslmbdainv s) in
  if vecslmbdainv \notin unitmx then None else Some (v *m vecs *m (invmx vecslmbdainv *m hc v)).
(** leads.py:984-1165: the hopping (n x m) is padded by zeros *)
Record lead_modes n m := LeadModes {
  lm_r : nat;
  lm_wf : 'M[C]_(n, lm_r);
  lm_vel : 'rV[C]_lm_r;
  lm_mom : 'rV[C]_lm_r;
  lm_stab : stabilized m }.
Definition modes m m' (h_cell : 'M[C]_(m + m')) (h_hop : 'M[C]_(m + m', m)) (stabilization : option (option bool * bool)) : lead_modes (m + m') m + lerr :=
  if h_hop == 0 then inl (LeadModes (0 : 'M_(_, 0)) 0 0 (Stabilized (0 : 'M_0) 0 0 0))
  else match setup_linsys h_cell (row_mx h_hop 0) stabilization with
  | inr e => inr e
  | inl L =>
    let k := ldim L in
    let ed := eig (lmat L) (lmatb L) in
    let nevan := (k - ed_r ed %/ 2)%N in
    let evan := first_cols nevan (ed_schur ed) in
    match make_proper_modes (ed_lam ed) (ed_vec ed) with
    | inr e => inr e
    | inl p => inl (LeadModes (pr_wf p) (pr_vel p) (pr_mom p)
        (Stabilized (row_mx (dsubmx (pr_psi p)) (dsubmx evan)) (row_mx (usubmx (pr_psi p)) (usubmx evan)) (ed_r ed %/ 2) (usubmx (lv L))))
    end
  end.
End Leads.
Arguments lextract {C n} l {r} _ _.
