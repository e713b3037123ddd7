(** * Model of TranslationalSymmetry objects: the cache of family data and
    reversed copies, lattice.py:509-735. *)
From Coq Require Import List Bool ZArith Arith.
From Verif Require Import BuilderModel SymmetryModel.
Import ListNotations.
Set Implicit Arguments.
Local Open Scope nat_scope.

Section Cache.
Variables fam rper : Type.
Variable fdec : forall a b : fam, {a = b} + {a <> b}.
Variable rneg : rper -> rper.                        (* -self.periods *)
Variable num_dir : rper -> nat.                      (* len(self.periods) *)
(** lattice.py:603-622: the periods in the basis of the lattice vectors (a list of
    rows), [None] if the family is incompatible (ValueError). *)
Variable bravais : rper -> fam -> option mat.
(** lattice.py:623-669: choice of the remaining columns of m, its determinant and
    inverse; [None]: ValueError or RuntimeError. *)
Variable complete : fam -> mat -> mat -> option famdata.

(** lattice.py:533-545 (and 723-733): a symmetry object.  The dictionary
    site_family_data is referred to by its address, since copies share it. *)
Record symobj := mkObj { o_periods : rper; o_rev : bool; o_cache : nat }.
Notation cache := (list (fam * famdata)).
Record world := mkWorld { w_heap : list cache; w_objs : list symobj }.

Inductive op :=
  | New (p : rper)                                   (* TranslationalSymmetry( *p) *)
  | Reversed (o : nat)                               (* o.reversed() *)
  | AddFamily (o : nat) (f : fam) (other : mat)      (* o.add_site_family(f, other) *)
  | DelFamily (o : nat) (f : fam)                    (* del o.site_family_data[f] *)
  | Which (o : nat) (f : fam) (tag : vec)            (* o.which(Site(f, tag)) *)
  | Act (o : nat) (g : vec) (f : fam) (tag : vec).   (* o.act(g, Site(f, tag)) *)
Inductive result := RUnit | RObj (o : nat) | RElt (g : vec) | RSite (f : fam) (tag : vec) | RKeyError | RValueError.

Definition get_cache (w : world) (o : symobj) : cache := nth (o_cache o) (w_heap w) [].
Fixpoint set_nth {A} (l : list A) (i : nat) (x : A) : list A :=
  match l, i with [], _ => [] | _ :: l, 0 => x :: l | y :: l, S i => y :: set_nth l i x end.
Definition set_cache (w : world) (o : symobj) (c : cache) : world := mkWorld (set_nth (w_heap w) (o_cache o) c) (w_objs w).

(** lattice.py:572-671 add_site_family, for a family that is not yet cached *)
Definition add_new_family (w : world) (o : symobj) (f : fam) (other : mat) : world * option famdata :=
  match bravais (o_periods o) f with
  | None => (w, None)
  | Some b => match complete f b other with
              | None => (w, None)
              | Some d => (set_cache w o (get_cache w o ++ [(f, d)]), Some d)
              end
  end.
(** lattice.py:677-682 _get_site_family_data *)
Definition get_data (w : world) (o : symobj) (f : fam) : world * option famdata :=
  match lookup fdec f (get_cache w o) with
  | Some d => (w, Some d)
  | None => add_new_family w o f []
  end.

Definition step (w : world) (x : op) : world * result :=
  match x with
  | New p => (mkWorld (w_heap w ++ [[]]) (w_objs w ++ [mkObj p false (length (w_heap w))]), RObj (length (w_objs w)))
  | Reversed i =>
    match nth_error (w_objs w) i with
    | None => (w, RUnit)
    | Some o => (mkWorld (w_heap w) (w_objs w ++ [mkObj (rneg (o_periods o)) (negb (o_rev o)) (o_cache o)]), RObj (length (w_objs w)))
    end
  | AddFamily i f other =>
    match nth_error (w_objs w) i with
    | None => (w, RUnit)
    | Some o => match lookup fdec f (get_cache w o) with
                | Some _ => (w, RKeyError)
                | None => match add_new_family w o f other with (w, Some _) => (w, RUnit) | (w, None) => (w, RValueError) end
                end
    end
  | DelFamily i f =>
    match nth_error (w_objs w) i with
    | None => (w, RUnit)
    | Some o => match lookup fdec f (get_cache w o) with
                | Some _ => (set_cache w o (remove1 fdec f (get_cache w o)), RUnit)
                | None => (w, RKeyError)
                end
    end
  | Which i f tag =>
    match nth_error (w_objs w) i with
    | None => (w, RUnit)
    | Some o => match get_data w o f with
                | (w, Some d) => (w, RElt (ts_which d (o_rev o) tag))
                | (w, None) => (w, RValueError)
                end
    end
  | Act i g f tag =>
    match nth_error (w_objs w) i with
    | None => (w, RUnit)
    | Some o => match get_data w o f with
                | (w, Some d) => (w, if length g =? num_dir (o_periods o) then RSite f (ts_act d (o_rev o) g tag) else RValueError)
                | (w, None) => (w, RValueError)
                end
    end
  end.
Fixpoint run (w : world) (l : list op) : world * list result :=
  match l with
  | [] => (w, [])
  | x :: l => let (w', r) := step w x in let (w'', rs) := run w' l in (w'', r :: rs)
  end.
Definition start : world := mkWorld [] [].
End Cache.
