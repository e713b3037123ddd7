(** * Specification vocabulary for the solvers (C28-C30, C40-C44). *)
From Coq Require Import List Bool Arith ZArith.
From Verif Require Import StarRing SubmatrixModel SolverModel.
Import ListNotations.
Set Implicit Arguments.

Section Spec.
Variable R : StarRing.
Local Open Scope star_scope.
Notation "0" := (r0 R) : star_scope.
Notation "1" := (r1 R) : star_scope.
Notation conj := (rconj R).
Notation mat := (mat R).

(** ** Scattering matrices *)
(** A mode is a pair (lead, number within the lead).  The modes of a list of leads, in order: *)
Definition mode := (Z * nat)%type.
Definition size (sizes : list nat) (l : Z) : nat := nth (Z.to_nat l) sizes O.
Definition modes_of (sizes : list nat) (leads : list Z) : list mode :=
  flat_map (fun l => map (pair l) (seq O (size sizes l))) leads.
Definition valid_lead (n : nat) (l : Z) : Prop := (0 <= l < Z.of_nat n)%Z.
(** [d] holds the elements of the complete matrix [full] for the given leads. *)
Definition data_for (sizes : list nat) (full : mode -> mode -> R) (out inn : list Z) (d : mat) : Prop :=
  mr d = length (modes_of sizes out) /\ mc d = length (modes_of sizes inn) /\
  forall r c x y, nth_error (modes_of sizes out) r = Some x -> nth_error (modes_of sizes inn) c = Some y -> mget d r c = full x y.
(** sum of |S|^2 between two leads *)
Definition T (sizes : list nat) (full : mode -> mode -> R) (o i : Z) : R :=
  sum R (size sizes o) (fun a => sum R (size sizes i) (fun b => conj (full (o, a) (i, b)) * full (o, a) (i, b))).
(** S S^dagger = 1 and S^dagger S = 1 *)
Definition unitary (sizes : list nat) (full : mode -> mode -> R) : Prop :=
  let ms := modes_of sizes (all_leads (length sizes)) in
  (forall x x', In x ms -> In x' ms -> (x = x' -> lsum R (fun y => full x y * conj (full x' y)) ms = 1) /\
                                      (x <> x' -> lsum R (fun y => full x y * conj (full x' y)) ms = 0)) /\
  (forall y y', In y ms -> In y' ms -> (y = y' -> lsum R (fun x => conj (full x y) * full x y') ms = 1) /\
                                      (y <> y' -> lsum R (fun x => conj (full x y) * full x y') ms = 0)).
(** leads of a list of lead data *)
Definition mode_sizes (info : list (linfo R)) : list nat := map (fun i => match i with IModes n _ => (n / 2)%nat | ISigma _ => O end) info.
Definition good_leads (n : nat) (l : list Z) : Prop := NoDup l /\ forall x, In x l -> valid_lead n x.

(** The modes selected by a key: lead, first mode, number of modes. *)
Definition key_modes (info : list (linfo R)) (k : key) : option (Z * nat * nat) :=
  match k with
  | KLead l => Some (l, O, size (mode_sizes info) l)
  | KBlock l b =>
    match nth_error info (Z.to_nat l) with
    | Some (IModes _ (Some bs)) =>
      if (0 <=? b)%Z && (b <? Z.of_nat (length bs))%Z then Some (l, list_sum (firstn (Z.to_nat b) bs), nth (Z.to_nat b) bs O) else None
    | _ => None
    end
  end.
(** the blocks of a lead add up to all its modes *)
Definition blocks_complete (info : list (linfo R)) : Prop :=
  forall n bs, In (IModes n (Some bs)) info -> list_sum bs = (n / 2)%nat.
Definition TK (full : mode -> mode -> R) (x y : Z * nat * nat) : R :=
  let '(o, s, len) := x in let '(i, s', len') := y in
  sum R len (fun a => sum R len' (fun b => conj (full (o, s + a)%nat (i, s' + b)%nat) * full (o, s + a)%nat (i, s' + b)%nat)).

(** ** Green's functions *)
(** self-energy [s] of a lead acting on the orbitals [coords] *)
Definition embed (coords : list nat) (s : mat) (x y : nat) : R :=
  sum R (length coords) (fun p => sum R (length coords) (fun q =>
    if (nth p coords O =? x)%nat && (nth q coords O =? y)%nat then mget s p q else 0)).
Definition delta (x y : nat) : R := if (x =? y)%nat then 1 else 0.
(** E - H - sum of the self-energies *)
Definition inverse_gf (h : nat -> nat -> R) (en : R) (coords : list (list nat)) (sigmas : list mat) (x y : nat) : R :=
  en * delta x y - h x y - lsum R (fun cs => embed (fst cs) (snd cs) x y) (combine coords sigmas).
Definition mul (n : nat) (A B : nat -> nat -> R) (i j : nat) : R := sum R n (fun k => A i k * B k j).
Definition inverses (n : nat) (A B : nat -> nat -> R) : Prop :=
  forall i j, (i < n)%nat -> (j < n)%nat -> mul n A B i j = delta i j /\ mul n B A i j = delta i j.
(** matrix elements between interfaces *)
Definition gf_full (coords : list (list nat)) (g : nat -> nat -> R) (x y : mode) : R :=
  g (nth (snd x) (nth (Z.to_nat (fst x)) coords []) O) (nth (snd y) (nth (Z.to_nat (fst y)) coords []) O).

(** ** The scattering problem *)
(** The orbitals of the interface of a lead: the orbitals of site i are
    numbered from the sum of the numbers of orbitals of the sites before. *)
Definition site_orbs (norb : list nat) (i : nat) : list nat := seq (list_sum (firstn i norb)) (nth i norb O).
Definition lead_orbs (norb : list nat) (l : lead R) : list nat := flat_map (site_orbs norb) (l_iface l).

(** [v u] of the interface orbital at position p: amplitude of mode column j *)
Definition vu (m : modes R) (p j : nat) : R := sum R (mc (m_v m)) (fun k => mget (m_v m) p k * mget (m_u m) k j).

(** [psi] inside and the outgoing amplitudes [amp l] form a solution with the
    incoming mode [n] of lead [i]: *)
Section State.
Variable y : syst R.
Variable en : R.
Variable inc : nat -> nat -> R.      (* amplitude of incoming mode j of lead l *)
Variables (psi : nat -> R) (amp : nat -> nat -> R).
Definition lead_force (num : nat) (l : lead R) (x : nat) : R :=
  let orbs := lead_orbs (y_norb y) l in
  sum R (length orbs) (fun p => if (nth p orbs O =? x)%nat then
    match l_modes l with
    | None => sum R (length orbs) (fun q => mget (l_sigma l) p q * psi (nth q orbs O))
    | Some m => sum R (mr (m_u m)) (fun j => vu m p (m_nprop m + j) * amp num j) + sum R (m_nprop m) (fun j => vu m p j * inc num j)
    end else 0).
Definition scattering : Prop :=
  (forall x, (x < mr (y_ham y))%nat ->
    sum R (mr (y_ham y)) (fun z => (mget (y_ham y) x z - en * delta x z) * psi z) +
    lsum R (fun nl => lead_force (fst nl) (snd nl) x) (combine (seq O (length (y_leads y))) (y_leads y)) = 0) /\
  (forall num l m, nth_error (y_leads y) num = Some l -> l_modes l = Some m ->
    forall k, (k < mr (m_u m))%nat ->
      let orbs := lead_orbs (y_norb y) l in
      sum R (length orbs) (fun p => conj (mget (m_v m) p k) * psi (nth p orbs O)) =
      sum R (mr (m_u m)) (fun j => mget (m_ulinv m) k (m_nprop m + j) * amp num j) + sum R (m_nprop m) (fun j => mget (m_ulinv m) k j * inc num j)).
End State.
(** unit amplitude in mode n of lead i *)
Definition unit_mode (i n : nat) (l j : nat) : R := if (l =? i)%nat && (j =? n)%nat then 1 else 0.

(** shapes of the mode data of a lead *)
Definition good_modes (m : modes R) : Prop :=
  mr (m_ulinv m) = mr (m_u m) /\ mc (m_v m) = mr (m_u m) /\ mc (m_u m) = (m_nprop m + mr (m_u m))%nat /\
  mc (m_ulinv m) = (m_nprop m + mr (m_u m))%nat /\ (m_nmom m / 2)%nat = m_nprop m /\ (m_nprop m <= mr (m_u m))%nat.
Definition good_syst (y : syst R) : Prop :=
  mr (y_ham y) = list_sum (y_norb y) /\ mc (y_ham y) = mr (y_ham y) /\
  (forall l, In l (y_leads y) -> forall i, In i (l_iface l) -> (i < length (y_norb y))%nat) /\
  (forall l m, In l (y_leads y) -> l_modes l = Some m -> good_modes m).
(** The linear solver returns (the wanted rows of) a solution. *)
Definition exact_solver (solve : mat -> mat -> list nat -> sres mat) : Prop :=
  forall A B kept D, solve A B kept = inl D ->
    exists X : nat -> nat -> R, (forall r j, (r < mr A)%nat -> (j < mc B)%nat -> sum R (mc A) (fun c => mget A r c * X c j) = mget B r j) /\
      mr D = length kept /\ mc D = mc B /\
      forall p j, (p < length kept)%nat -> (j < mc B)%nat -> mget D p j = X (nth p kept O) j.
End Spec.
Arguments scattering {R}.
Arguments unit_mode {R}.
Arguments T {R}.
Arguments TK {R}.
Arguments unitary {R}.
Arguments data_for {R}.
Arguments embed {R}.
Arguments inverse_gf {R}.
Arguments inverses {R}.
Arguments gf_full {R}.
Arguments mul {R}.

(** The slices of the given leads, in order, tile 0 .. n. *)
Fixpoint consecutive (a : nat) (l : list slice) (n : nat) : Prop :=
  match l with [] => a = n | (x, y) :: l => x = a /\ x <= y /\ consecutive y l n end.
Definition tiles (leads : list Z) (sizes : list nat) (coords : Z -> sres slice) (n : nat) : Prop :=
  exists l, Forall2 (fun z s => coords z = inl s /\ snd s - fst s = size sizes z) leads l /\ consecutive 0 l n.

(** Tr (t t^dagger - (t t^dagger)^2) of the block t from lead i to lead o *)
Section Noise.
Variables (R : StarRing) (sizes : list nat) (full : mode -> mode -> R).
Local Open Scope star_scope.
Definition tt_dagger (o i : Z) (a a' : nat) : R := sum R (size sizes i) (fun b => full (o, a) (i, b) * rconj R (full (o, a') (i, b))).
Definition noise (o i : Z) : R :=
  sum R (size sizes o) (fun a => tt_dagger o i a a - sum R (size sizes o) (fun a' => tt_dagger o i a a' * tt_dagger o i a' a)).
End Noise.
Arguments tt_dagger {R}.
Arguments noise {R}.

(** numbers of incoming (= outgoing) propagating modes of the leads *)
Definition lead_nmodes {R} (l : lead R) : nat := match l_modes l with Some m => m_nprop m | None => 0 end.
Definition mode_counts {R} (y : syst R) : list nat := map lead_nmodes (y_leads y).
(** every mode lead has at least one (propagating or evanescent) mode *)
Definition no_empty_lead {R} (y : syst R) : Prop := forall l m, In l (y_leads y) -> l_modes l = Some m -> mr (m_u m) <> 0.
Definition nonneg_leads (l : list Z) : Prop := forall z, In z l -> (0 <= z)%Z.
Arguments exact_solver {R}.

(** ** Transmissions from Green's functions (Fisher-Lee) *)
Section FisherLee.
Variables (R : StarRing) (coords : list (list nat)) (sigmas : list (mat R)) (G : nat -> nat -> R) (nch : mat R -> nat).
Local Open Scope star_scope.
Notation conj := (rconj R).
Definition orb (l : Z) (p : nat) : nat := nth p (nth (Z.to_nat l) coords []) O.
Definition sig (l : Z) : mat R := nth (Z.to_nat l) sigmas (mkMat O O (fun _ _ => r0 R)).
Definition len (l : Z) : nat := length (nth (Z.to_nat l) coords []).
(** Gamma = i (Sigma - Sigma^dagger) *)
Definition gam (l : Z) (p q : nat) : R := ri R * (mget (sig l) p q - conj (mget (sig l) q p)).
(** Tr (Gamma_o G_oi Gamma_i G_oi^dagger) *)
Definition tr4 (o i : Z) : R :=
  sum R (len o) (fun p => sum R (len o) (fun p' => sum R (len i) (fun q => sum R (len i) (fun q' =>
    gam o p p' * G (orb o p') (orb i q) * gam i q q' * conj (G (orb o p) (orb i q')))))).
(** Tr (Gamma_l G_ll) *)
Definition tr2 (l : Z) : R := sum R (len l) (fun p => sum R (len l) (fun p' => gam l p p' * G (orb l p') (orb l p))).
(** transmission; reflection: + N + 2 Im Tr (Gamma G), with 2 Im z = - i (z - conj z) *)
Definition gfT (o i : Z) : R :=
  if (o =? i)%Z then tr4 o i + (- (ri R * (tr2 i - conj (tr2 i))) + rnat R (nch (sig i))) else tr4 o i.
End FisherLee.
Arguments gfT {R}.
Arguments tr4 {R}.
Arguments tr2 {R}.
Arguments sig {R}.
Arguments gam {R}.
(** shapes: one square self-energy per lead, acting on existing orbitals *)
Definition good_sigmas {R} (n : nat) (coords : list (list nat)) (sigmas : list (mat R)) : Prop :=
  Forall2 (fun c s => mr s = length c /\ mc s = length c /\ forall x, In x c -> x < n) coords sigmas.

(** ** Currents *)
Section Currents.
Variable R : StarRing.
Local Open Scope star_scope.
Notation conj := (rconj R).
(** matrix element of the velocity operator, -i u^dagger (u/lambda) + h.c. *)
Definition current (m : modes R) (j j' : nat) : R :=
  - (ri R) * sum R (mr (m_u m)) (fun k => conj (mget (m_u m) k j) * mget (m_ulinv m) k j' - conj (mget (m_ulinv m) k j) * mget (m_u m) k j').
(** The first modes come in with unit current, the second leave with unit
    current, the others are evanescent. *)
Definition unit_currents (m : modes R) : Prop := forall j j', (j < mc (m_u m))%nat -> (j' < mc (m_u m))%nat ->
  current m j j' = if (j =? j')%nat then (if (j <? m_nprop m)%nat then - (r1 R) else if (j <? m_nprop m + m_nprop m)%nat then r1 R else r0 R) else r0 R.
Definition hermitian_ham (y : syst R) : Prop := forall u v, (u < mr (y_ham y))%nat -> (v < mr (y_ham y))%nat -> conj (mget (y_ham y) v u) = mget (y_ham y) u v.
(** current into a lead in the states 1 and 2 (matrix element) *)
Definition lead_current (y : syst R) (inc1 : nat -> nat -> R) (psi1 : nat -> R) (amp1 : nat -> nat -> R) (inc2 : nat -> nat -> R) (psi2 : nat -> R) (amp2 : nat -> nat -> R) (num : nat) (l : lead R) : R :=
  match l_modes l with
  | Some m => sum R (m_nprop m) (fun j => conj (amp1 num j) * amp2 num j) - sum R (m_nprop m) (fun j => conj (inc1 num j) * inc2 num j)
  | None => let orbs := lead_orbs (y_norb y) l in
      sum R (length orbs) (fun p => sum R (length orbs) (fun q =>
        conj (psi1 (nth p orbs O)) * (ri R * (mget (l_sigma l) p q - conj (mget (l_sigma l) q p))) * psi2 (nth q orbs O)))
  end.
End Currents.
Arguments current {R}.
Arguments unit_currents {R}.
Arguments hermitian_ham {R}.
Arguments lead_current {R}.

(** ** Fields and positivity *)
(** Every element is zero or invertible. *)
Definition is_field (R : StarRing) : Prop := exists inv : R -> R, forall x, x = r0 R \/ rmul R x (inv x) = r1 R.
(** A sum of absolute squares vanishes only if all terms do. *)
Definition positive (R : StarRing) : Prop := forall (n : nat) (f : nat -> R), sum R n (fun i => rmul R (rconj R (f i)) (f i)) = r0 R -> forall i, i < n -> f i = r0 R.
Definition mode_eqb (x x' : mode) : bool := (fst x =? fst x')%Z && (snd x =? snd x').
(** position of a mode in a list of modes *)
Fixpoint mode_index (x : mode) (l : list mode) : nat := match l with [] => 0 | a :: l => if mode_eqb x a then 0 else S (mode_index x l) end.
(** element of a block result between two modes *)
Definition elem {R} (sizes : list nat) (out inn : list Z) (d : mat R) (x x' : mode) : R := mget d (mode_index x (modes_of sizes out)) (mode_index x' (modes_of sizes inn)).

(** ** Self-energies from modes *)
(** scipy.linalg.solve returns a solution *)
Definition exact_lsolve {R : StarRing} (lsolve : mat R -> mat R -> sres (mat R)) : Prop := forall A B X, lsolve A B = inl X ->
  mr X = mc A /\ mc X = mc B /\ forall r j, r < mr A -> j < mc B -> sum R (mc A) (fun k => rmul R (mget A r k) (mget X k j)) = mget B r j.
(** the outgoing half of [vecslmbdainv] is invertible *)
Definition out_invertible {R : StarRing} (m : modes R) : Prop := exists Ai, inverses (mr (m_u m)) (fun k j => mget (m_ulinv m) k (m_nprop m + j)) Ai.
(** a lead with modes whose self-energy is that of its modes *)
Definition mode_lead {R : StarRing} (lsolve : mat R -> mat R -> sres (mat R)) (y : syst R) (l : lead R) : Prop :=
  exists m, l_modes l = Some m /\ unit_currents m /\ out_invertible m /\ mr (m_v m) = length (lead_orbs (y_norb y) l) /\ mode_selfenergy lsolve m = inl (l_sigma l).
