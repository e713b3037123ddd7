(** * Properties C20-C22: finalized systems. *)
From Coq Require Import List Bool Arith ZArith Sorting.Sorted.
From Verif Require Import BuilderModel BuilderSpec BuilderMain BuilderProps SymmetryModel SymmetryProofs SymmetryProps
  GraphModel SystemModel SystemSpec SystemProofs SystemMain SystemOrder OrbitalsModel OrbitalsProofs.
Import ListNotations.
Local Open Scope nat_scope.

(** ** C20: finite systems.  [leb] is the order of sites; [call1], [call2] are
    the results of calling value functions with fixed parameters; [junk] is the
    content of uninitialized memory. *)
Section C20.
Variable site : Type.
Variable dec : forall a b : site, {a = b} + {a <> b}.
Variable leb : site -> site -> bool.
Hypothesis TO : total_order leb.
Variable C : Type.
Variable conj : C -> C.
Variable F : Type.
Variable call1 : val C F -> site -> option C.
Variable call2 : F -> site -> site -> option C.
Variable junk : nat -> nat -> Z.
Notation NS := (NoSymmetry site).
Notation reachable := (@reachable site dec NS C F).
Notation read_site := (@read_site site dec NS C conj F).
Notation read_hop := (@read_hop site dec NS C conj F).
Notation finalize := (@finalize_finite site dec leb C F junk).
Notation hamiltonian := (@ham site NS C conj F call1 call2).
Notation eval_hop := (@eval_hop site NS C conj F call2).
Notation eval_site := (@eval_site site NS C F call1).

Let laws : SymLaws NS := NoSymmetry_laws site.
Let triv : forall g s, act NS g s = s := fun g s => eq_refl.

(** [ifaces], [pads]: the interface and padding sites of the attached leads. *)
Theorem C20_finalized : forall h ifaces pads s, reachable h -> finalize h ifaces pads = inl s ->
  (* sites: sorted, each site of the builder once; id_by_site is the inverse *)
  StronglySorted (fun x y => leb x y = true) (s_sites s) /\ NoDup (s_sites s) /\
  (forall x, In x (s_sites s) <-> read_site h x <> None) /\
  (forall x k, lookup dec x (s_ids s) = Some k <-> nth_error (s_sites s) k = Some x) /\
  (* hamiltonian(i, i), hamiltonian(i, j) *)
  (forall i a, nth_error (s_sites s) i = Some a ->
     exists v, read_site h a = Some v /\ hamiltonian s i i = user site (eval_site v a)) /\
  (forall i j a b, i <> j -> nth_error (s_sites s) i = Some a -> nth_error (s_sites s) j = Some b ->
     hamiltonian s i j = match read_hop h a b with
                 | Some v => user site (eval_hop v a b)
                 | None => inr (FGraph site GEdge)
                 end) /\
  (* lead interfaces: the ids of the interface sites, in order; paddings: the
     same for those padding sites that are still present *)
  Forall2 (Forall2 (fun x k => nth_error (s_sites s) k = Some x)) ifaces (s_ifaces s) /\
  Forall2 (fun l ks => Forall2 (fun x k => nth_error (s_sites s) k = Some x)
         (filter (fun x => if in_dec dec x (s_sites s) then true else false) l) ks) pads (s_paddings s).
Proof. exact (fun h ifaces pads s R E =>
  @main_C20 site dec leb TO NS laws triv C conj F call1 call2 junk h ifaces pads s R E). Qed.

Theorem C20_succeeds : forall h ifaces pads, reachable h ->
  (forall l x, In l ifaces -> In x l -> read_site h x <> None) -> exists s, finalize h ifaces pads = inl s.
Proof. exact (fun h ifaces pads R H => @main_C20_total site dec leb NS laws triv C conj F junk h ifaces pads R H). Qed.

Theorem C20_lead_on_missing_site : forall h ifaces pads l x, reachable h ->
  In l ifaces -> In x l -> read_site h x = None -> finalize h ifaces pads = inr (FValue site).
Proof. exact (fun h ifaces pads l x R H1 H2 H3 =>
  @main_C20_missing site dec leb NS laws triv C conj F junk h ifaces pads l x R H1 H2 H3). Qed.

Theorem C20_hermitian : forall h ifaces pads s i j, (forall c, conj (conj c) = c) -> reachable h ->
  finalize h ifaces pads = inl s -> i < length (s_sites s) -> j < length (s_sites s) -> i <> j ->
  hamiltonian s j i = match hamiltonian s i j with inl c => inl (conj c) | inr e => inr e end.
Proof. exact (fun h ifaces pads s i j I R E Hi Hj Hij =>
  @main_C20_herm site dec leb TO NS laws triv C conj F call1 call2 junk h ifaces pads s i j I R E Hi Hj Hij). Qed.
End C20.
Print Assumptions C20_finalized.
Print Assumptions C20_succeeds.
Print Assumptions C20_lead_on_missing_site.
Print Assumptions C20_hermitian.

(** Calling a conjugated value (as read from a builder for the reversed hopping)
    at the reversed sites gives the conjugate of the value. *)
Theorem C20_call_conjugated : forall site C F (conj : C -> C) (call2 : F -> site -> site -> option C) v a b,
  (forall c, conj (conj c) = c) ->
  call_hop conj call2 (hconj conj v) b a = option_map conj (call_hop conj call2 v a b).
Proof. intros site C F conj call2 [c|f|f] a b H; cbn; auto.
  destruct (call2 f b a) as [c|]; cbn; [rewrite H|]; reflexivity. Qed.
Print Assumptions C20_call_conjugated.

(** ** C21: systems with one translational symmetry. *)
Section C21.
Variable site : Type.
Variable dec : forall a b : site, {a = b} + {a <> b}.
Variable leb : site -> site -> bool.
Hypothesis TO : total_order leb.
Variable Sy : Symmetry site.
Hypothesis L : SymLaws Sy.
Variable dom : site -> Z.
Variable tr : Z -> elt Sy.
Hypothesis OD : one_dim Sy dom tr.
Hypothesis inv : forall k a b, leb (act Sy (tr k) a) (act Sy (tr k) b) = leb a b.
Variable C : Type.
Variable conj : C -> C.
Variable F : Type.
Variable call1 : val C F -> site -> option C.
Variable call2 : F -> site -> site -> option C.
Variable junk : nat -> nat -> Z.
Notation reachable := (@reachable site dec Sy C F).
Notation read_site := (@read_site site dec Sy C conj F).
Notation read_hop := (@read_hop site dec Sy C conj F).
Notation finalize := (@finalize_infinite site dec leb Sy C F junk dom tr).
Notation hamiltonian := (@ham_inf site Sy C conj F call1 call2).
Notation eval_hop := (@eval_hop site Sy C conj F call2).
Notation eval_site := (@eval_site site Sy C F call1).
Notation connected := (@connected site dec Sy C conj F dom).
Notation nearest_cells := (@nearest_cells site dec Sy C conj F dom).
Notation correct_order := (@correct_order site dec Sy C conj F dom tr leb).

(** Accepted inputs; everything else raises ValueError. *)
Theorem C21_accepts : forall h order, reachable h ->
  ((nearest_cells h /\ (forall o, order = Some o -> correct_order h o)) /\ exists s, finalize h order = inl s) \/
  (~ (nearest_cells h /\ (forall o, order = Some o -> correct_order h o)) /\ finalize h order = inr (FValue site)).
Proof. exact (fun h order R => @main_C21_accept site dec leb TO Sy L dom tr OD inv C conj F junk h order R). Qed.

Theorem C21_finalized : forall h order s, reachable h -> finalize h order = inl s ->
  exists A B, s_sites s = A ++ B ++ map (act Sy (tr (-1)%Z)) A /\ s_cell s = length A + length B /\
    NoDup (s_sites s) /\
    StronglySorted (fun x y => leb x y = true) A /\ StronglySorted (fun x y => leb x y = true) B /\
    (forall t, In t A <-> connected h t) /\
    (forall t, In t B <-> dom t = 0%Z /\ read_site h t <> None /\ ~ connected h t) /\
    (forall x k, lookup dec x (s_ids s) = Some k <-> nth_error (s_sites s) k = Some x) /\
    (forall i a, nth_error (s_sites s) i = Some a ->
       exists v, read_site h a = Some v /\ hamiltonian s i i = user site (eval_site v a)) /\
    (forall i j a b, i <> j -> nth_error (s_sites s) i = Some a -> nth_error (s_sites s) j = Some b ->
       hamiltonian s i j =
         if (s_cell s <=? i) && (s_cell s <=? j) then inr (FGraph site GEdge) else
         match read_hop h a b with
         | Some v => user site (eval_hop v a b)
         | None => inr (FGraph site GEdge)
         end).
Proof. exact (fun h order s R E =>
  @main_C21 site dec leb TO Sy L dom tr OD inv C conj F call1 call2 junk h order s R E). Qed.
End C21.

(** The hypotheses on the symmetry and on the order of sites hold for every
    TranslationalSymmetry with one period and exact data. *)
Theorem C21_translational : forall data reversed (OK : data_ok 1 data),
  SymLaws (TransSymm reversed OK) /\ total_order (@ts_leb data) /\
  one_dim (TransSymm reversed OK) (ts_dom reversed OK) (ts_tr reversed OK) /\
  forall k a b, ts_leb (act (TransSymm reversed OK) (ts_tr reversed OK k) a)
                       (act (TransSymm reversed OK) (ts_tr reversed OK k) b) = ts_leb a b.
Proof. exact (fun data reversed OK => conj (TransSymm_laws reversed OK) (conj (@ts_total_order data)
  (conj (ts_one_dim reversed OK) (fun k a b => ts_leb_act (ts_tr reversed OK k) a b)))). Qed.
Print Assumptions C21_accepts.
Print Assumptions C21_finalized.
Print Assumptions C21_translational.

(** ** C22: orbital offsets.  [norbs f] is the declared number of orbitals of
    family [f] (0: not declared). *)
Section C22.
Variable fam : Type.
Variable fdec : forall a b : fam, {a = b} + {a <> b}.
Variable norbs : fam -> nat.

Theorem C22_orbitals : forall fams ranges i, site_ranges fdec norbs fams = Some ranges -> i <= length fams ->
  get_orbs ranges i = (list_sum (map norbs (firstn i fams)),
                       match nth_error fams i with Some f => norbs f | None => 0 end).
Proof. exact (fun fams ranges i E Hi => @get_orbs_spec fam fdec norbs fams ranges i E Hi). Qed.

(** total number of orbitals of the first [n] sites (the cell of an infinite
    system, or all sites) *)
Theorem C22_total : forall fams ranges n, site_ranges fdec norbs fams = Some ranges -> n <= length fams ->
  get_tot_norbs ranges n = list_sum (map norbs (firstn n fams)).
Proof. exact (fun fams ranges n E Hn => f_equal fst (@get_orbs_spec fam fdec norbs fams ranges n E Hn)). Qed.

Theorem C22_undeclared : forall fams, site_ranges fdec norbs fams = None <-> exists f, In f fams /\ norbs f = 0.
Proof. exact (ranges_None fdec norbs). Qed.
End C22.

(** Binary search on any sorted array: the number of elements <= x. *)
Theorem C22_bisect : forall a x, StronglySorted le a -> bisect a x <= length a /\
  (forall i, i < bisect a x -> nth i a 0 <= x) /\ (forall i, bisect a x <= i -> i < length a -> x < nth i a 0).
Proof. exact bisect_spec. Qed.
Print Assumptions C22_orbitals.
Print Assumptions C22_total.
Print Assumptions C22_undeclared.
Print Assumptions C22_bisect.

(** ** Non-vacuity *)
Definition ex_call1 (v : val exC nat) (s : bool * Z) : option exC := None.
Definition ex_call2 (f : nat) (a b : bool * Z) : option exC := Some (Z.of_nat f, snd a - 10 * snd b)%Z.
Definition hk_leb (a b : bool * Z) : bool :=
  if Bool.eqb (fst a) (fst b) then (snd a <=? snd b)%Z else negb (fst a).
Example hk_total : total_order hk_leb.
Proof.
  constructor.
  - intros [[] x] [[] y]; cbn; auto; destruct (Z.leb_spec x y), (Z.leb_spec y x); auto; exfalso;
      eapply Z.lt_irrefl; eapply Z.lt_trans; eauto.
  - intros [[] x] [[] y] [[] z]; cbn; auto; try discriminate; rewrite !Z.leb_le; apply Z.le_trans.
  - intros [[] x] [[] y]; cbn; auto; try discriminate; rewrite !Z.leb_le; intros; f_equal; apply Z.le_antisymm; auto.
Qed.
Definition hk_b1 := fst (setitem hk_dec (NoSymmetry _) hk_builder (Simple _ _ (KHop (true, 5) (false, 0))) (VFun exC 3%nat))%Z.
Definition hk_b2 := fst (setitem hk_dec (NoSymmetry _) hk_b1 (Simple _ _ (KHop (false, 3) (false, 0))) (VConst nat (1, 2)))%Z.
Example hk_b2_reachable : reachable hk_dec (NoSymmetry _) hk_b2.
Proof. repeat apply r_set. apply r_empty. Qed.
Definition hk_sys := finalize_finite hk_dec hk_leb (fun _ _ => 77%Z) hk_b2 [[(true, 5); (false, 3)]]%Z [[(true, 9); (true, 1)]]%Z.
Example C20_ex : match hk_sys with
  | inl s => s_sites s = [(false, 0); (false, 3); (true, 1); (true, 5)]%Z /\
      s_ifaces s = [[3; 1]] /\ s_paddings s = [[2]] /\
      let H := ham (NoSymmetry _) exconj ex_call1 ex_call2 s in
      H 3 0 = inl (3, 5)%Z /\ H 0 3 = inl (3, -5)%Z /\ H 1 0 = inl (1, 2)%Z /\ H 0 1 = inl (1, -2)%Z /\
      H 2 3 = inr (FGraph _ GEdge) /\ H 2 2 = inl (4, 0)%Z
  | _ => False end.
Proof. vm_compute. repeat split. Qed.

(** The builder [ex2] of BuilderProps.v (period (2, 1)), and [ex3], which has a
    hopping to a far cell. *)
Notation exd := (ts_dom false C14_data_ok).
Notation ext := (ts_tr false C14_data_ok).
Notation exfin := (finalize_infinite ts_dec (@ts_leb ex_data) exS (fun _ _ => 77%Z) exd ext).
Definition ex_call1' (v : val exC nat) (s : ts_site ex_data) : option exC := None.
Definition ex_call2' (f : nat) (a b : ts_site ex_data) : option exC :=
  Some (Z.of_nat f, hd 0 (snd (proj1_sig a)) + 10 * hd 0 (snd (proj1_sig b)))%Z.
Example C21_ex : match exfin ex2 None with
  | inl s => map (fun x => snd (proj1_sig x)) (s_sites s) = [[0; 0]; [1; 0]; [2; 0]; [-2; -1]]%Z /\ s_cell s = 3 /\
      let H := ham_inf exS exconj ex_call1' ex_call2' s in
      H 0 3 = inl (1, -2)%Z /\ H 3 0 = inl (1, 2)%Z /\ H 1 0 = inl (7, 1)%Z /\ H 0 1 = inl (7, -1)%Z /\
      H 3 3 = inl (4, 0)%Z /\ H 2 1 = inr (FGraph _ GEdge)
  | _ => False end.
Proof. vm_compute. repeat split. Qed.
Example C21_ex_order :
  (match exfin ex2 (Some [ex_site 8 4]) with inl s => s_cell s | _ => 0 end,
   match exfin ex2 (Some [ex_site 1 0]) with inr (FValue _) => true | _ => false end,
   match exfin ex2 (Some []) with inr (FValue _) => true | _ => false end,
   match exfin ex3 None with inr (FValue _) => true | _ => false end) = (3, true, true, true).
Proof. vm_compute. reflexivity. Qed.
Example C22_ex : site_ranges Nat.eq_dec (fun f => f + 1) [0; 0; 2; 2; 2; 1] = Some [(0, 1, 0); (2, 3, 2); (5, 2, 11); (6, 0, 13)] /\
  map (get_orbs [(0, 1, 0); (2, 3, 2); (5, 2, 11); (6, 0, 13)]) [0; 1; 2; 4; 5; 6] = [(0, 1); (1, 1); (2, 3); (8, 3); (11, 2); (13, 0)] /\
  site_ranges Nat.eq_dec (fun f => f) [1; 0] = None.
Proof. vm_compute. repeat split. Qed.
