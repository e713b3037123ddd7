(** * Properties C23, C24: hamiltonian_submatrix. *)
From Coq Require Import List Bool Arith ZArith Lia.
From Verif Require Import BuilderModel BuilderSpec BuilderMain BuilderProps SymmetryModel SymmetryProofs SymmetryProps SystemModel SystemSpec SystemProps
  GraphModel SubmatrixModel SubmatrixSpec SubmatrixTop SubmatrixSystem.
Import ListNotations.
Local Open Scope nat_scope.

(** A system: [n] nodes, neighbors [nb], and hamiltonian(i, j) as a matrix (or
    an exception).  [to], [from]: the site lists, None for all sites. *)
Section C23.
Variable K : Type.
Variable k0 : K.
Variable kadd : K -> K -> K.
Variable kconj : K -> K.
Variable isz : K -> bool.
Variable E : Type.
Hypothesis isz_spec : forall x, isz x = true <-> x = k0.
Hypothesis add_0_l : forall x, kadd k0 x = x.
Hypothesis conj_0 : kconj k0 = k0.
Hypothesis conj_inv : forall x, kconj (kconj x) = x.
Variable n : nat.
Variable nb : nat -> list nat.
Variable ham : nat -> nat -> mat K + E.
Notation dense := (submatrix_dense k0 kconj n nb ham).
Notation sparse := (submatrix_sparse k0 kconj isz n nb ham).
Notation norb := (norb ham).
Notation sl := (site_list n).

(** When is there a result: site numbers in range, all needed matrix elements can
    be evaluated and have matching shapes. *)
Theorem C23_succeeds : forall to from, NoDup (sl to) ->
  (to = None -> from = None -> simple_graph nb n /\ forall f t, f < n -> In t (nb f) -> hermitian_at kconj ham t f) ->
  (exists r, dense to from = inl r) <-> in_range n to /\ in_range n from /\ all_good nb ham (sl to) (sl from).
Proof. exact (fun to from Hnd Hf => proj1 (@main_dense_iff K k0 kconj E n nb ham to from Hnd Hf)). Qed.

Theorem C23_blocks : forall to from M tn fn, NoDup (sl to) ->
  (to = None -> from = None -> simple_graph nb n /\ forall f t, f < n -> In t (nb f) -> hermitian_at kconj ham t f) ->
  dense to from = inl (M, tn, fn) ->
  tn = map norb (sl to) /\ fn = map norb (sl from) /\ mr M = list_sum tn /\ mc M = list_sum fn /\
  is_block_matrix k0 nb ham (mget M) (sl to) (sl from).
Proof. exact (fun to from M tn fn Hnd Hf => proj2 (@main_dense_iff K k0 kconj E n nb ham to from Hnd Hf) M tn fn). Qed.

Theorem C23_hermitian : forall M tn fn, simple_graph nb n ->
  (forall f t, f < n -> t = f \/ In t (nb f) -> hermitian_at kconj ham t f) ->
  dense None None = inl (M, tn, fn) ->
  mr M = mc M /\ forall i j, i < mr M -> j < mr M -> mget M i j = kconj (mget M j i).
Proof. exact (@main_hermitian K k0 kconj E conj_0 n nb ham). Qed.

Theorem C23_restriction : forall to from M0 M tn0 fn0 tn fn, simple_graph nb n ->
  (forall f t, f < n -> In t (nb f) -> hermitian_at kconj ham t f) -> NoDup (sl to) ->
  dense None None = inl (M0, tn0, fn0) -> dense to from = inl (M, tn, fn) ->
  forall p q t f a b, nth_error (sl to) p = Some t -> nth_error (sl from) q = Some f -> a < nth p tn 0 -> b < nth q fn 0 ->
  mget M (list_sum (firstn p tn) + a) (list_sum (firstn q fn) + b) =
  mget M0 (list_sum (firstn t tn0) + a) (list_sum (firstn f fn0) + b).
Proof. exact (@main_restriction K k0 kconj E n nb ham). Qed.

(** ** C24.  In particular the sparse functions never write outside of their
    buffers ([SOverrun]): the dense ones cannot raise that error. *)
Theorem C24_sparse_dense : forall to from, NoDup (sl to) ->
  (forall f, NoDup (nb f) /\ ~ In f (nb f)) -> (forall f t, f < n -> In t (nb f) -> t < n) ->
  match dense to from, sparse to from with
  | inl (M, tn, fn), inl (Sp, tn', fn') => tn' = tn /\ fn' = fn /\ cr Sp = mr M /\ cc Sp = mc M /\
       forall i j, i < mr M -> j < mc M -> coo_get k0 kadd Sp i j = mget M i j
  | inr e, inr e' => e = e'
  | _, _ => False end.
Proof. exact (@main_same K k0 kadd kconj isz E isz_spec add_0_l conj_0 conj_inv n nb ham). Qed.
End C23.
Print Assumptions C23_succeeds.
Print Assumptions C23_blocks.
Print Assumptions C23_hermitian.
Print Assumptions C23_restriction.
Print Assumptions C24_sparse_dense.

(** ** Finalized builders meet the hypotheses, and the matrix is made of what was
    stored in the builder. *)
Section C23sys.
Variable site : Type.
Variable dec : forall a b : site, {a = b} + {a <> b}.
Variable leb : site -> site -> bool.
Hypothesis TO : total_order leb.
Variable C : Type.
Variable conj : C -> C.
Variable F : Type.
Variable call1 : val C F -> site -> option C.
Variable call2 : F -> site -> site -> option C.
Variable junk : nat -> nat -> Z.
Variable K : Type.
Variable k0 : K.
Variable kconj : K -> K.
Variable to_mat : C -> mat K.               (* ta.matrix(value, complex) *)
Hypothesis conj_inv : forall c, conj (conj c) = c.
Hypothesis to_mat_conj : forall c, mr (to_mat (conj c)) = mc (to_mat c) /\ mc (to_mat (conj c)) = mr (to_mat c) /\
  forall a b, a < mc (to_mat c) -> b < mr (to_mat c) -> mget (to_mat (conj c)) a b = kconj (mget (to_mat c) b a).
Notation NS := (NoSymmetry site).
Let laws : SymLaws NS := NoSymmetry_laws site.
Let triv : forall g s, act NS g s = s := fun g s => eq_refl.
Notation finalize := (@finalize_finite site dec leb C F junk).
Notation mham := (@mham site NS C conj F call1 call2 K to_mat).

Theorem C23_finalized_ok : forall h ifaces pads s, reachable dec NS h -> finalize h ifaces pads = inl s ->
  simple_graph (nbs s) (length (s_sites s)) /\
  forall f t, f < length (s_sites s) -> In t (nbs s f) -> hermitian_at kconj (mham s) t f.
Proof. exact (fun h ifaces pads s R E => Logic.conj
  (@finite_simple site dec leb TO NS laws triv C conj F call1 call2 junk conj_inv h ifaces pads s R E)
  (@finite_hermitian site dec leb TO NS laws triv C conj F call1 call2 junk K kconj to_mat conj_inv to_mat_conj h ifaces pads s R E)). Qed.

(** The block (i, j) of the Hamiltonian matrix: the onsite value of the site for
    i = j, the value of the hopping (a, b) as read from the builder (zero if there
    is none) otherwise. *)
Theorem C23_finalized_blocks : forall h ifaces pads s to from M tn fn, reachable dec NS h -> finalize h ifaces pads = inl s ->
  let n := length (s_sites s) in
  NoDup (site_list n to) -> submatrix_dense k0 kconj n (nbs s) (mham s) to from = inl (M, tn, fn) ->
  mr M = list_sum tn /\ mc M = list_sum fn /\
  forall p q i j a b, nth_error (site_list n to) p = Some i -> nth_error (site_list n from) q = Some j ->
    nth_error (s_sites s) i = Some a -> nth_error (s_sites s) j = Some b ->
    forall x y, x < nth p tn 0 -> y < nth q fn 0 ->
    mget M (list_sum (firstn p tn) + x) (list_sum (firstn q fn) + y) =
    match (if dec a b then match read_site dec NS conj h a with Some v => eval_site NS call1 v a | None => None end
           else match read_hop dec NS conj h a b with Some v => eval_hop NS conj call2 v a b | None => None end) with
    | Some c => mget (to_mat c) x y
    | None => k0
    end.
Proof.
  intros h ifaces pads s to from M tn fn R E n Hnd HM.
  destruct (C23_finalized_ok h ifaces pads s R E) as (SG & HH).
  destruct (C23_blocks K k0 kconj (ferr site) n (nbs s) (mham s) to from M tn fn Hnd (fun _ _ => Logic.conj SG HH) HM)
    as (-> & -> & H1 & H2 & HB).
  split; [exact H1|]. split; [exact H2|]. intros p q i j a b Hp Hq Ha Hb x y Hx Hy.
  rewrite (SubmatrixMain.nth_map_error _ _ _ Hp) in Hx. rewrite (SubmatrixMain.nth_map_error _ _ _ Hq) in Hy.
  rewrite !firstn_map, (HB p q i j x y Hp Hq Hx Hy).
  exact (@finite_block site dec leb TO NS laws triv C conj F call1 call2 junk K k0 to_mat conj_inv h ifaces pads s i j a b x y R E Ha Hb).
Qed.
End C23sys.
Print Assumptions C23_finalized_ok.
Print Assumptions C23_finalized_blocks.

(** ** Non-vacuity *)
Definition gz (c : exC) : bool := ((fst c =? 0) && (snd c =? 0))%Z.
Definition exadd (a b : exC) : exC := (fst a + fst b, snd a + snd b)%Z.
(** three sites with 1, 2 and 1 orbitals; hoppings 0-1 and 1-2 *)
Definition t_nb (i : nat) : list nat := nth i [[1]; [2; 0]; [1]] [].
Definition t_of (r c : nat) (l : list (list exC)) : mat exC := mkMat r c (fun i j => nth j (nth i l []) (0, 0)%Z).
Definition t_ham (i j : nat) : mat exC + unit :=
  match i, j with
  | 0, 0 => inl (t_of 1 1 [[(1, 0)]])%Z
  | 1, 1 => inl (t_of 2 2 [[(2, 0); (0, 1)]; [(0, -1); (3, 0)]])%Z
  | 2, 2 => inl (t_of 1 1 [[(4, 0)]])%Z
  | 1, 0 => inl (t_of 2 1 [[(5, 1)]; [(0, 0)]])%Z
  | 0, 1 => inl (t_of 1 2 [[(5, -1); (0, 0)]])%Z
  | 2, 1 => inl (t_of 1 2 [[(0, 6); (7, 0)]])%Z
  | 1, 2 => inl (t_of 2 1 [[(0, -6)]; [(7, 0)]])%Z
  | _, _ => inr tt
  end.
Definition entries (m : mat exC) : list (list exC) := map (fun i => map (fun j => mget m i j) (seq 0 (mc m))) (seq 0 (mr m)).
Definition t_dense := submatrix_dense (0, 0)%Z exconj 3 t_nb t_ham.
Definition t_sparse := submatrix_sparse (0, 0)%Z exconj gz 3 t_nb t_ham.
Example C23_ex :
  match t_dense None None, t_dense (Some [1; 0]%Z) (Some [2; 1]%Z) with
  | inl (M, tn, fn), inl (M', tn', fn') =>
    entries M = [[(1, 0); (5, -1); (0, 0); (0, 0)];
                 [(5, 1); (2, 0); (0, 1); (0, -6)];
                 [(0, 0); (0, -1); (3, 0); (7, 0)];
                 [(0, 0); (0, 6); (7, 0); (4, 0)]]%Z /\ tn = [1; 2; 1] /\ fn = tn /\
    entries M' = [[(0, -6); (2, 0); (0, 1)]; [(7, 0); (0, -1); (3, 0)]; [(0, 0); (5, -1); (0, 0)]]%Z /\
    tn' = [2; 1] /\ fn' = [1; 2]
  | _, _ => False end /\
  t_dense (Some [3]%Z) None = inr (SIndex unit) /\ t_dense (Some [-1]%Z) None = inr (SIndex unit).
Proof. vm_compute. repeat split. Qed.
Example C24_ex :
  match t_sparse None None with inl (Sp, _, _) =>
    centries Sp = [(0, 0, (1, 0)%Z); (1, 0, (5, 1)%Z); (0, 1, (5, -1)%Z); (1, 1, (2, 0)%Z); (1, 2, (0, 1)%Z); (2, 1, (0, -1)%Z); (2, 2, (3, 0)%Z); (3, 1, (0, 6)%Z); (1, 3, (0, -6)%Z); (3, 2, (7, 0)%Z); (2, 3, (7, 0)%Z); (3, 3, (4, 0)%Z)] | _ => False end.
Proof. vm_compute. reflexivity. Qed.
Example C23_ex_hyps : simple_graph t_nb 3 /\ forall f t, f < 3 -> t = f \/ In t (t_nb f) -> hermitian_at exconj t_ham t f.
Proof.
  split.
  - assert (D : forall f, t_nb (S (S (S f))) = []) by (intros [|f]; reflexivity).
    constructor.
    + intros [|[|[|f]]] t H Ht; [| | |rewrite D in Ht; destruct Ht]; cbn in Ht; intuition (subst; auto with arith).
    + intros [|[|[|f]]] t H Ht; [| | |rewrite D in Ht; destruct Ht]; cbn in Ht; intuition (subst; cbn; auto).
    + intros [|[|[|f]]] Ht; [| | |rewrite D in Ht; destruct Ht]; cbn in Ht; intuition discriminate.
    + intros [|[|[|f]]]; [| | |rewrite D; constructor]; cbn; repeat constructor; cbn; intuition discriminate.
  - assert (X : forall f, f < 3 -> f = 0 \/ f = 1 \/ f = 2) by (intros [|[|[|f]]] H; auto; lia).
    intros f t Hf Ht.
    destruct (X f Hf) as [->|[->| ->]]; cbn in Ht; repeat match goal with H : _ \/ _ |- _ => destruct H end; try contradiction; subst;
      cbn; (split; [reflexivity|]); (split; [reflexivity|]); intros a b Ha Hb;
      (destruct a as [|[|a]]; [| |lia]); (destruct b as [|[|b]]; [| |lia]); try reflexivity; lia.
Qed.
(** Without the hypotheses on the graph sparse and dense differ: a repeated edge
    doubles a sparse element, a loop overruns the buffer. *)
Example C24_repeated_edge_refuted :
  let ham (i j : nat) : mat exC + unit := inl (t_of 1 1 [[(1, 0)]])%Z in
  let nb i := if i =? 0 then [1; 1] else [0; 0] in
  match submatrix_dense (0, 0)%Z exconj 2 nb ham (Some [0; 1]%Z) None, submatrix_sparse (0, 0)%Z exconj gz 2 nb ham (Some [0; 1]%Z) None with
  | inl (M, _, _), inl (Sp, _, _) => mget M 1 0 = (1, 0)%Z /\ coo_get (0, 0)%Z exadd Sp 1 0 = (2, 0)%Z
  | _, _ => False end.
Proof. vm_compute. split; reflexivity. Qed.
Example C24_loop_refuted :
  let ham (i j : nat) : mat exC + unit := inl (t_of 1 1 [[(1, 0)]])%Z in
  submatrix_sparse (0, 0)%Z exconj gz 1 (fun _ => [0]) ham None None = inr (SOverrun unit).
Proof. vm_compute. reflexivity. Qed.
(** A repeated row site: only its last occurrence is filled. *)
Example C23_repeated_site_refuted :
  match t_dense (Some [0; 0]%Z) (Some [0]%Z) with
  | inl (M, _, _) => entries M = [[(0, 0)]; [(1, 0)]]%Z | _ => False end.
Proof. vm_compute. reflexivity. Qed.
(** The builder of SystemProps.v as a matrix. *)
Definition s_mat (c : exC) : mat exC := mkMat 1 1 (fun _ _ => c).
Example C23_ex_sys : match hk_sys with
  | inl s => match submatrix_dense (0, 0)%Z exconj 4 (nbs s) (@mham _ (NoSymmetry _) exC exconj nat ex_call1 ex_call2 exC s_mat s) None None with
             | inl (M, _, _) => map (fun l => nth 0 l (9, 9)%Z) (entries M) = [(4, 0); (1, 2); (0, 0); (3, 5)]%Z | _ => False end
  | _ => False end.
Proof. vm_compute. reflexivity. Qed.
