(** * Model of finalization: kwant/builder.py FiniteSystem and InfiniteSystem.

    Not modelled: discrete symmetries, warnings, the cache of (value, parameter
    names) pairs (an identity), parameter names.  The arguments of value
    functions (args / params) are an opaque environment hidden in [call1] and
    [call2], which give the result of calling a value function ([None]: it
    raised). *)
From Coq Require Import List Bool Arith ZArith.
From Verif Require Import BuilderModel GraphModel.
Import ListNotations.
Set Implicit Arguments.

Section SystemModel.
Variable site : Type.
Variable dec : forall a b : site, {a = b} + {a <> b}.
Variable leb : site -> site -> bool.         (* the order of sites *)
Variable Sy : Symmetry site.
Variable C : Type.
Variable conj : C -> C.
Variable F : Type.
Variable call1 : val C F -> site -> option C.
Variable call2 : F -> site -> site -> option C.
Variable junk : nat -> nat -> Z.             (* uninitialized memory (graphs) *)

Notation store := (store site C F).
Notation val := (val C F).
Notation sval := (sval C F).

Inductive ferr :=
  | FBuilder (e : err site)        (* exceptions of the builder's methods *)
  | FGraph (e : gerr)              (* exceptions of the graph's methods *)
  | FValue                         (* ValueError *)
  | FKey                           (* KeyError *)
  | FIndex                         (* IndexError *)
  | FUser                          (* exception of a value function *)
  | FAssert.
Definition fres (A : Type) := (A + ferr)%type.
Definition fbind {A B} (x : fres A) (f : A -> fres B) : fres B :=
  match x with inl a => f a | inr e => inr e end.
Definition of_g {A} (x : gres A) : fres A := match x with inl a => inl a | inr e => inr (FGraph e) end.
Definition of_b {A} (x : res site A) : fres A := match x with inl a => inl a | inr e => inr (FBuilder e) end.
Fixpoint fmap {A B} (f : A -> fres B) (l : list A) : fres (list B) :=
  match l with
  | [] => inl []
  | x :: l => fbind (f x) (fun y => fbind (fmap f l) (fun r => inl (y :: r)))
  end.

(** Python's sorted(): insertion sort (for a total order the result does not
    depend on the algorithm). *)
Fixpoint insert (x : site) (l : list site) : list site :=
  match l with
  | [] => [x]
  | y :: r => if leb x y then x :: l else y :: insert x r
  end.
Fixpoint sort (l : list site) : list site :=
  match l with [] => [] | x :: l => insert x (sort l) end.

(** id_by_site = {}; for site_id, site in enumerate(sites): id_by_site[site] = site_id
    (builder.py:2178-2181, 2372-2374) *)
Definition id_table (sites : list site) : list (site * nat) :=
  fold_left (fun d p => assign dec (fst p) (snd p) d) (combine sites (seq 0 (length sites))) [].

Record system := mkSys {
  s_graph : cgraph;
  s_sites : list site;
  s_ids : list (site * nat);       (* id_by_site *)
  s_onsites : list val;
  s_hoppings : list sval;
  s_cell : nat;                    (* cell_size; unused (0) for finite systems *)
  s_ifaces : list (list nat);      (* lead_interfaces *)
  s_paddings : list (list nat) }.

(** ** FiniteSystem.__init__: builder.py:2174-2275 *)

(** builder.py:2184-2191: the graph. *)
Definition add_edge_f (r : fres graph) (t h : nat) : fres graph :=
  fbind r (fun g => match add_edge g (Z.of_nat t) (Z.of_nat h) with
                    | (g', inl _) => inl g'
                    | (_, inr e) => inr (FGraph e)
                    end).
Definition find_id (ids : list (site * nat)) (s : site) : fres nat :=
  match lookup dec s ids with Some k => inl k | None => inr FKey end.

Definition finite_node (ids : list (site * nat)) (r : fres graph) (p : site * node site C F) : fres graph :=
  fold_left (fun r hv =>
      if dec (fst p) (fst hv) then r
      else fbind r (fun _ => fbind (find_id ids (fst p)) (fun t =>
           fbind (find_id ids (fst hv)) (fun h => add_edge_f r t h))))
    (outs (snd p)) r.
Definition start_graph (num : nat) : fres graph :=
  match set_num_nodes (new_graph false) (Z.of_nat num) with
  | (g, None) => inl g
  | (_, Some e) => inr (FGraph e)
  end.

(** builder.H[site][1] *)
Definition onsite_of (h : store) (s : site) : fres val :=
  match lookup dec s h with Some nd => inl (onsite nd) | None => inr FKey end.

Definition nth_site (sites : list site) (i : Z) : fres site :=
  match (if (i <? 0)%Z then None else nth_error sites (Z.to_nat i)) with
  | Some s => inl s | None => inr FIndex end.

(** [ifaces], [pads]: the interface and padding sites of the attached leads
    (builder.py:2193-2231; finalizing the leads themselves is InfiniteSystem). *)
Definition finalize_finite (h : store) (ifaces pads : list (list site)) : fres system :=
  let sites := sort (map fst h) in
  let ids := id_table sites in
  fbind (fold_left (finite_node ids) h (start_graph (length sites))) (fun g =>
  fbind (of_g (compressed junk g false false false)) (fun c =>
  fbind (fmap (fun l => match fmap (find_id ids) l with
                        | inr FKey => inr FValue | r => r end) ifaces) (fun ifs =>
  let pds := map (fun l => flat_map (fun s => match lookup dec s ids with Some k => [k] | None => [] end) l) pads in
  fbind (fmap (onsite_of h) sites) (fun ons =>
  fbind (of_g (iter_edges c)) (fun es =>
  fbind (fmap (fun e => fbind (nth_site sites (fst e)) (fun a =>
                        fbind (nth_site sites (snd e)) (fun b => of_b (get_edge dec h a b)))) es) (fun hops =>
  inl (mkSys c sites ids ons hops 0 ifs pds))))))).

(** ** hamiltonian(i, j): builder.py:2052-2098 *)

(** Calling a stored hopping value at two sites; HermConjOfFunc.__call__ is
    builder.py:510-513. *)
Definition call_hop (v : val) (a b : site) : option C :=
  match v with
  | VConst _ c => Some c
  | VFun _ f => call2 f a b
  | VHC _ f => option_map conj (call2 f b a)
  end.
Definition call_site (v : val) (s : site) : option C :=
  match v with VConst _ c => Some c | _ => call1 v s end.

Definition nth_hop (l : list sval) (i : Z) : fres sval :=
  match (if (i <? 0)%Z then None else nth_error l (Z.to_nat i)) with
  | Some v => inl v | None => inr FIndex end.
Definition user {A} (x : option A) : fres A := match x with Some a => inl a | None => inr FUser end.

(** [to_fd2] is symmetry.to_fd with two sites.  (Negative i = j, which Python
    would count from the end, are not modelled.) *)
Definition ham (s : system) (i j : nat) : fres C :=
  if i =? j then
    match nth_error (s_onsites s) i, nth_error (s_sites s) i with
    | Some v, Some x => user (call_site v (to_fd Sy x))
    | _, _ => inr FIndex
    end
  else
    fbind (of_g (first_edge_id (s_graph s) (Z.of_nat i) (Z.of_nat j))) (fun id =>
    fbind (nth_hop (s_hoppings s) id) (fun v =>
    match v with
    | SVal w =>
      fbind (nth_site (s_sites s) (Z.of_nat i)) (fun a =>
      fbind (nth_site (s_sites s) (Z.of_nat j)) (fun b =>
      let (a, b) := to_fd2 Sy a b in user (call_hop w a b)))
    | SOther _ _ =>
      fbind (of_g (first_edge_id (s_graph s) (Z.of_nat j) (Z.of_nat i))) (fun id =>
      fbind (nth_hop (s_hoppings s) id) (fun v =>
      match v with
      | SVal w =>
        fbind (nth_site (s_sites s) (Z.of_nat j)) (fun b =>
        fbind (nth_site (s_sites s) (Z.of_nat i)) (fun a =>
        let (b, a) := to_fd2 Sy b a in
        fbind (user (call_hop w b a)) (fun c => inl (conj c))))
      | SOther _ _ => inr FAssert            (* Other is not a value *)
      end))
    end)).

(** ** InfiniteSystem.__init__: builder.py:2297-2442.
    One symmetry direction: [dom] is which(site)[0], [tr k] the element (k,). *)
Variable dom : site -> Z.
Variable tr : Z -> elt Sy.

(** builder.py:2311-2326: has the site neighbors in the next domain? *)
Definition has_next (p : site * node site C F) : bool :=
  existsb (fun hv => Z.eqb (dom (fst hv)) 1) (outs (snd p)).

(** builder.py:2337-2372: the order of the interface. [None] when the code
    raises ValueError; result: the interface. *)
Fixpoint take_site (x : site) (l : list site) : option (list site) :=
  match l with
  | [] => None
  | y :: r => if dec x y then Some r else option_map (cons y) (take_site x r)
  end.
Fixpoint order_loop (shift : Z) (lset : list site) (order : list site) : option (list site * list site) :=
  match order with
  | [] => match lset with [] => Some ([], []) | _ => None end
  | s :: order =>
    let iface := act Sy (tr shift) s in
    let lsite := act Sy (tr 1) iface in
    match take_site lsite lset with
    | None => None
    | Some lset => match order_loop shift lset order with
                   | Some (ifs, ls) => Some (iface :: ifs, lsite :: ls)
                   | None => None
                   end
    end
  end.
Definition list_eqb (l l' : list site) : bool := if list_eq_dec dec l l' then true else false.
(** returns (lsites_with, interface) *)
Definition interface_of (lwith : list site) (order : option (list site)) : fres (list site * list site) :=
  match order with
  | None => inl (lwith, sort (map (act Sy (tr (-1))) lwith))
  | Some o =>
    let shift := match o with [] => 0%Z | s :: _ => (- dom s - 1)%Z end in
    match order_loop shift lwith o with
    | None => inr FValue
    | Some (ifs, ls) => if list_eqb ifs (sort ifs) then inl (ls, ifs) else inr FValue
    end
  end.

(** builder.py:2384-2408: the graph and the onsite values. *)
Definition infinite_node (h : store) (ids : list (site * nat)) (cell : nat)
    (r : fres graph) (p : nat * site) : fres graph :=
  match lookup dec (snd p) h with
  | None => inr FKey
  | Some nd =>
    fold_left (fun r hv =>
      fbind r (fun _ =>
      match lookup dec (fst hv) ids with
      | None => if Z.eqb (dom (fst hv)) 1 then r else inr FValue
      | Some hid =>
        add_edge_f (if cell <=? hid then add_edge_f r hid (fst p) else r) (fst p) hid
      end)) (outs nd) r
  end.

(** builder.py:2411-2420: the hopping values. *)
Definition infinite_hop (h : store) (sites : list site) (cell : nat) (e : Z * Z) : fres sval :=
  fbind (nth_site sites (fst e)) (fun a =>
  fbind (nth_site sites (snd e)) (fun b =>
  let (a, b) := if (Z.of_nat cell <=? fst e)%Z then to_fd2 Sy a b else (a, b) in
  of_b (get_edge dec h a b))).

Definition finalize_infinite (h : store) (order : option (list site)) : fres system :=
  let lwith0 := map fst (filter has_next h) in
  let lwithout := map fst (filter (fun p => negb (has_next p)) h) in
  let cell := length lwith0 + length lwithout in
  fbind (interface_of lwith0 order) (fun '(lwith, interface) =>
  let sites := sort lwith ++ sort lwithout ++ interface in
  let ids := id_table sites in
  fbind (fmap (onsite_of h) (firstn cell sites)) (fun ons =>
  fbind (fold_left (infinite_node h ids cell) (combine (seq 0 cell) (firstn cell sites))
           (start_graph (length sites))) (fun g =>
  fbind (of_g (compressed junk g false false false)) (fun c =>
  fbind (of_g (iter_edges c)) (fun es =>
  fbind (fmap (infinite_hop h sites cell) es) (fun hops =>
  inl (mkSys c sites ids ons hops cell [] []))))))).

(** builder.py:2445-2450 InfiniteSystem.hamiltonian. *)
Definition ham_inf (s : system) (i j : nat) : fres C :=
  if (i =? j) && (s_cell s <=? j) then ham s (i - s_cell s) (j - s_cell s) else ham s i j.
End SystemModel.
