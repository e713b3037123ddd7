(** * Model of parameter substitution: builder.py:729-780 and Builder.substituted *)
From Coq Require Import List Bool.
From Verif Require Import BuilderModel ParamModel.
Import ListNotations.
Set Implicit Arguments.

Section Subst.
Variables site obj name C : Type.
Variable ndec : forall a b : name, {a = b} + {a <> b}.
Variable P : pyfuns site obj name C.                 (* the user's functions *)
Variable pdec : forall a b : P, {a = b} + {a <> b}.

(** builder.py:729-752 _Substituted: a function and new names of its parameters;
    __eq__ compares both. *)
Inductive sfun := Plain (f : P) | Substituted (f : P) (params : list name).
Definition s_func (g : sfun) : P := match g with Plain f => f | Substituted f _ => f end.
(** get_parameters; __signature__ (builder.py:744-748) *)
Definition s_params (g : sfun) : list name :=
  match g with Plain f => pf_params P f | Substituted _ ps => ps end.
(** __call__ (builder.py:750-751) *)
Definition s_call (g : sfun) (args : list (arg site obj)) : option C := pf_call P (s_func g) args.
Definition sfuns : pyfuns site obj name C := mkFuns s_params s_call.
Definition sdec (a b : sfun) : {a = b} + {a <> b}.
Proof. decide equality. apply list_eq_dec, ndec. Defined.

(** subs.get(p, p), for the dictionary [subs] *)
Fixpoint rename (subs : list (name * name)) (p : name) : name :=
  match subs with
  | [] => p
  | (q, r) :: subs => if ndec p q then r else rename subs p
  end.

(** builder.py:769-770 duplicates: is there a name that occurs more than once? *)
Fixpoint duplicates (l : list name) : bool :=
  match l with
  | [] => false
  | x :: l => (if in_dec ndec x l then true else false) || duplicates l
  end.

(** builder.py:755-780 _substitute_params *)
Definition substitute_params (func : sfun) (subs : list (name * name)) : res site sfun :=
  let params := map (rename subs) (s_params func) in
  if duplicates params then inr (EValue _)
  else if list_eq_dec ndec params (s_params func) then inl func
  else inl (Substituted (s_func func) params).

Variable hashable : C -> bool.                       (* numpy arrays are not *)
Notation store := (store site C sfun).
Notation val := (val C sfun).

(** builder.py:1388-1393 (sets of) the callable values; the proxy HermConjOfFunc
    is represented by the function it wraps. *)
Definition callable (v : val) : list sfun :=
  match v with VConst _ _ => [] | VFun _ f => [f] | VHC _ f => [f] end.
Definition functions (h : store) : list sfun :=
  nodup sdec (flat_map (fun p => callable (snd p)) (site_value_pairs h)) ++
  nodup sdec (flat_map (fun p => callable (snd p)) (hopping_value_pairs h)).

(** builder.py:1412-1413 value_map *)
Fixpoint value_map (subs : list (name * name)) (l : list sfun) : res site (list (sfun * sfun)) :=
  match l with
  | [] => inl []
  | f :: l =>
    match substitute_params f subs with
    | inr e => inr e
    | inl g => match value_map subs l with inr e => inr e | inl t => inl ((f, g) :: t) end
    end
  end.
(** value_map.get(value, value) *)
Fixpoint get (t : list (sfun * sfun)) (f : sfun) : sfun :=
  match t with
  | [] => f
  | (k, g) :: t => if sdec f k then g else get t f
  end.

(** value_map.get(value) needs the hash of the value, constants included. *)
Definition val_hashable (v : val) : bool := match v with VConst _ c => hashable c | _ => true end.
Definition all_hashable (h : store) : bool :=
  forallb (fun p => val_hashable (onsite (snd p)) &&
    forallb (fun hv => match snd hv with SVal v => val_hashable v | SOther _ _ => true end) (outs (snd p))) h.

(** builder.py:1378-1429 substituted.  [has_leads]: self.leads is not empty.
    (The warning about unknown names is not modelled.) *)
Definition substituted (has_leads : bool) (h : store) (subs : list (name * name)) : res site store :=
  if has_leads then inr (EValue _)
  else
    match value_map subs (functions h) with
    | inr e => inr e
    | inl t => if all_hashable h then inl (map_store (get t) h) else inr (EType _)
    end.
End Subst.
