(** * Model of add_peierls_phase: builder.py:1818-1878 *)
From Coq Require Import List Bool.
From Verif Require Import BuilderModel ParamModel SubstModel.
Import ListNotations.
Set Implicit Arguments.

Section Peierls.
Variables site obj name C Ph : Type.
Variable dec : forall a b : site, {a = b} + {a <> b}.
Variable Sy : Symmetry site.
Variable conj : C -> C.
Variable ndec : forall a b : name, {a = b} + {a <> b}.
Variable P : pyfuns site obj name C.                 (* the user's functions *)
Variable times : C -> Ph -> C.                       (* value * phase *)
Variable phase : obj -> site -> site -> option Ph.   (* phi(a, b) ([None]: raises) *)
Variables site0 site1 : name.                        (* '_site0', '_site1' *)
Notation arg := (arg site obj).

(** The functions occurring in the new builder: those of the old one (onsite
    values), wrap_hopping(hop), const_hopping. *)
Inductive pfun := Orig (f : P) | Wrapped (hop : val C P) | ConstHopping.

(** builder.py:503-514: a callable value, its parameters and its call *)
Definition val_params (v : val C P) : list name :=
  match v with VConst _ _ => [] | VFun _ f => pf_params P f | VHC _ f => pf_params P f end.
Definition val_call (v : val C P) (a b : site) (args : list arg) : option C :=
  match v with
  | VConst _ _ => None
  | VFun _ f => pf_call P f (ASite a :: ASite b :: args)
  | VHC _ f => option_map conj (pf_call P f (ASite b :: ASite a :: args))
  end.

(** *args, phi = args *)
Fixpoint split_last (l : list arg) : option (list arg * arg) :=
  match l with
  | [] => None
  | [x] => Some ([], x)
  | x :: l => match split_last l with Some (r, y) => Some (x :: r, y) | None => None end
  end.
Definition mul (c : option C) (p : option Ph) : option C :=
  match c, p with Some c, Some p => Some (times c p) | _, _ => None end.

Definition pairdec (p q : site * site) : {p = q} + {p <> q}.
Proof. decide equality. Defined.

Section Funs.
Variable peierls : name.                             (* peierls_parameter *)
(** builder.py:1826-1835 *)
Definition wrap_params (hop : val C P) : list name :=
  [site0; site1] ++ skipn 2 (val_params hop) ++ [peierls].
(** builder.py:1844-1847 *)
Definition const_params : list name := [site0; site1; peierls].
Definition p_params (g : pfun) : list name :=
  match g with Orig f => pf_params P f | Wrapped v => wrap_params v | ConstHopping => const_params end.

(** builder.py:1822-1824 (wrap_hopping) and 1841-1842 (const_hopping).
    [table] is the dictionary const_hoppings, which the function refers to.  The
    arguments are two sites and, as the last one, the phase. *)
Definition p_call (table : list (site * site * C)) (g : pfun) (args : list arg) : option C :=
  match g with
  | Orig f => pf_call P f args
  | Wrapped v =>
    match args with
    | ASite a :: ASite b :: r =>
      match split_last r with
      | Some (r, AObj phi) => mul (val_call v a b r) (phase phi a b)
      | _ => None
      end
    | _ => None
    end
  | ConstHopping =>
    match args with
    | [ASite a; ASite b; AObj phi] => mul (lookup pairdec (a, b) table) (phase phi a b)
    | _ => None
    end
  end.
Definition pfuns (table : list (site * site * C)) : pyfuns site obj name C :=
  mkFuns p_params (p_call table).

Notation pstore := (store site C pfun).

(** builder.py:1866-1867 *)
Definition lift (v : val C P) : val C pfun :=
  match v with VConst _ c => VConst _ c | VFun _ f => VFun _ (Orig f) | VHC _ f => VHC _ (Orig f) end.
Fixpoint copy_sites (ret : pstore) (l : list (site * val C P)) : res site pstore :=
  match l with
  | [] => inl ret
  | (s, v) :: l =>
    match setitem dec Sy ret (Simple C pfun (KSite s)) (lift v) with
    | (ret, None) => copy_sites ret l
    | (_, Some e) => inr e
    end
  end.

(** builder.py:1869-1874.  inspect.Signature raises ValueError for duplicate
    parameter names.  (memoize: a function of the arguments only.) *)
Fixpoint copy_hoppings (ret : pstore) (table : list (site * site * C))
    (l : list (site * site * val C P)) : res site (pstore * list (site * site * C)) :=
  match l with
  | [] => inl (ret, table)
  | (a, b, v) :: l =>
    let next table g :=
      match setitem dec Sy ret (Simple C pfun (KHop a b)) (VFun C g) with
      | (ret, None) => copy_hoppings ret table l
      | (_, Some e) => inr e
      end in
    match v with
    | VConst _ c => next (assign pairdec (a, b) c table) ConstHopping
    | _ => if duplicates ndec (wrap_params v) then inr (EValue _) else next table (Wrapped v)
    end
  end.

(** builder.py:1818-1878 _add_peierls_phase for a builder (or a lead's builder);
    the result is the new builder and the dictionary const_hoppings.  Leads are
    treated in the same way with their own parameter name (builder.py:1856-1865),
    discrete symmetries are not modelled. *)
Definition add_peierls (h : store site C P) : res site (pstore * list (site * site * C)) :=
  if duplicates ndec const_params then inr (EValue _)
  else
    match copy_sites [] (site_value_pairs h) with
    | inr e => inr e
    | inl ret => copy_hoppings ret [] (hopping_value_pairs h)
    end.
End Funs.
End Peierls.
