(** * Model of Builder.attach_lead (kwant/builder.py:1605-1768) *)
From Coq Require Import List Bool Arith ZArith.
From Verif Require Import BuilderModel FillModel SymmetryModel.
Import ListNotations.
Set Implicit Arguments.

(** A symmetry with one direction: its group elements are 1-tuples of integers. *)
Record line (site : Type) := mkLine { lsym : Symmetry site; toZ : elt lsym -> Z; ofZ : Z -> elt lsym }.
Arguments mkLine {site}.
Record LineLaws {site} (L : line site) : Prop := mkLineLaws {
  line_laws : SymLaws (lsym L);
  line_to : forall z, toZ L (ofZ L z) = z;
  line_of : forall e, ofZ L (toZ L e) = e;
  line_add : forall a b, toZ L (eadd (lsym L) a b) = (toZ L a + toZ L b)%Z }.

Section Attach.
Variable site : Type.
Variable dec : forall a b : site, {a = b} + {a <> b}.
Variables C F : Type.
Variable VNone : val C F.
Variable family : site -> Z.                      (* the site family, up to equality *)
Variable order : nat -> list site -> list site.   (* iteration orders of sets *)
Variable sord : list site -> list site.
Notation store := (store site C F).
Notation NS := (NoSymmetry site).

(** sym.which(site)[0] *)
Definition dom (L : line site) (s : site) : Z := toZ L (which (lsym L) s).

(** builder.py:1686-1690: the range of the hoppings, in unit cells *)
Definition hop_range (L : line site) (T : store) : Z :=
  fold_right Z.max 0%Z (map (fun h => Z.abs (dom L (snd h))) (hoppings T)).

(** builder.py:1692-1706: a lead with a longer period, L', filled with the given one *)
Definition enlarged (fuel : nat) (L L' : line site) (T : store) : store * res site (list site) :=
  fill dec (lsym L') (lsym L) VNone (fun _ => Some true) order fuel T [] (sites T) None.

(** builder.py:1711-1722: the lead has families that the system does not have *)
Definition lead_only_family (T h : store) : bool :=
  existsb (fun s => negb (existsb (fun t => Z.eqb (family t) (family s)) (sites h))) (sites T).

(** builder.py:1724-1730 all_doms *)
Definition all_doms (L : line site) (T h : store) : list Z :=
  map (dom L) (filter (fun s => existsb (fun t => Z.eqb (family t) (family s)) (sites T)
                                && mem dec (act (lsym L) (eneg (lsym L) (which (lsym L) s)) s) T) (sites h)).

(** builder.py:1742-1747 shape *)
Definition lead_shape (L : line site) (mn mx : Z) (s : site) : option bool :=
  if (dom L s <? mn)%Z then None else Some (dom L s <=? mx + 1)%Z.

(** builder.py:1759-1765 the interface, as a list without repetitions *)
Definition interface_of (L : line site) (T : store) (mx : Z) : list site :=
  nodup dec (flat_map (fun s =>
    match neighbors dec (lsym L) T s with
    | inl l => filter (fun t => Z.eqb (dom L t) mx) (map (act (lsym L) (ofZ L (mx + 1)%Z)) l)
    | inr _ => []
    end) (sites T)).

(** What is appended to self.leads: BuilderLead(lead_builder, interface, padding).
    (The two lists are sorted there.) *)
Record attached := mkAttached { a_line : line site; a_lead : store; a_interface : list site; a_padding : list site }.

(** builder.py:1708-1768 *)
Definition attach_core (fuel : nat) (L : line site) (T h : store) (origin : option site) (add_cells : Z)
    : store * res site attached :=
  match T with
  | [] => (h, inr (EValue _))
  | _ =>
    if lead_only_family T h then (h, inr (EValue _))
    else
      let doms := all_doms L T h in
      let doms := match origin with Some o => filter (fun z => Z.leb z (dom L o)) doms | None => doms end in
      match doms with
      | [] => (h, inr (EValue _))
      | d0 :: ds =>
        let mx := (fold_left Z.max ds d0 + add_cells)%Z in
        let mn := fold_left Z.min ds d0 in
        let start := map (act (lsym L) (ofZ L (mx + 1)%Z)) (sites T) in
        match fill dec NS (lsym L) VNone (lead_shape L mn mx) order fuel T h (sord start) None with
        | (h1, inr (EFuel _)) => (h1, inr (EFuel _))
        | (h1, inr _) => (h1, inr (ERuntime _))
        | (h1, inl done) =>
          let added := filter (fun s => negb (inb dec s start)) done in
          match delitem dec NS h1 (Iter (map (fun s => Simple C F (KSite s)) (sord start))) with
          | (h2, Some e) => (h2, inr e)
          | (h2, None) => (h2, inl (mkAttached L T (interface_of L T mx) added))
          end
        end
      end
  end.

(** builder.py:1605-1768 attach_lead.  [sub n] is sym.subgroup((n,)).  The
    outcome gives the builder and the new entry of its list of leads (the added
    sites are returned, and also stored as [a_padding]), or the exception.
    Simplifications: the builder has no symmetry (otherwise ValueError), the lead
    one direction (otherwise ValueError), warnings are not modelled. *)
Definition attach_lead (fuel : nat) (L : line site) (sub : Z -> line site) (T h : store) (origin : option site) (add_cells : Z)
    : store * res site attached :=
  if (add_cells <? 0)%Z then (h, inr (EValue _))
  else
    let n := hop_range L T in
    if (1 <? n)%Z then
      match enlarged fuel L (sub n) T with
      | (T', inl _) => attach_core fuel (sub n) T' h origin add_cells
      | (_, inr e) => (h, inr e)
      end
    else attach_core fuel L T h origin add_cells.
End Attach.
