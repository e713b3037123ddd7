(** * Model of wraparound: wraparound.py:58-286.  (memoize, _common.py:205-222, is an identity: it returns an equal function.) *)
From Coq Require Import List Bool Arith.
From Verif Require Import BuilderModel ParamModel SubstModel PeierlsModel.
Import ListNotations.
Set Implicit Arguments.

Section Wrap.
Variables site obj name C Ph : Type.
Variable dec : forall a b : site, {a = b} + {a <> b}.
Variable S : Symmetry site.                          (* builder.symmetry *)
Variable R : Symmetry site.                          (* ret.symmetry *)
Variable W : Symmetry site.                          (* sym *)
(** wraparound.py:245: drop the kept component of an element *)
Variable pW : elt S -> elt W.
Variable conj : C -> C.
Variable add : C -> C -> C.
Variable zero : C.
Variable scal : Ph -> C -> C.                        (* phase * value *)
(** cmath.exp(1j * ta.dot(elem, momenta)) *)
Variable bloch : elt W -> list (arg site obj) -> Ph.
Variable ndec : forall a b : name, {a = b} + {a <> b}.
Variable P : pyfuns site obj name C.                 (* the user's functions *)
Variables site0 site1 : name.                        (* '_site0', '_site1' *)
Variable momenta : list name.
(** sorted(range(len(selections)), key=...), wraparound.py:167 *)
Variable argsort : list (list name) -> list nat.
Notation arg := (arg site obj).
Notation val := (val C P).
Notation pairdec := (pairdec dec).

(** args[:mnp] and args[mnp:] with mnp = -len(momenta); for mnp = 0 Python's
    slices are empty and everything, respectively. *)
Definition take (args : list arg) : list arg :=
  match length momenta with 0 => [] | n => firstn (length args - n) args end.
Definition drop (args : list arg) : list arg :=
  match length momenta with 0 => args | n => skipn (length args - n) args end.
Definition takeN (l : list name) : list name :=
  match length momenta with 0 => [] | n => firstn (length l - n) l end.
Definition dropN (l : list name) : list name :=
  match length momenta with 0 => l | n => skipn (length l - n) l end.

(** Functions made by bind_site, bind_hopping_as_site, bind_hopping ... *)
Inductive bfun :=
  | BindSite (v : val)
  | BindHopSite (e : elt W) (v : val)
  | BindHop (e : elt W) (v : val).
(** ... and by bind_sum (whose values are never sums themselves). *)
Notation bval := (BuilderModel.val C bfun).
Inductive wfun := Bound (b : bfun) | BindSum (num_sites : nat) (vals : list bval).

(** get_parameters, i.e. the signatures set at wraparound.py:89, 101-104, 115-118 *)
Definition b_params (b : bfun) : list name :=
  match b with
  | BindSite v => val_params P v ++ momenta
  | BindHopSite _ v => [site0] ++ skipn 2 (val_params P v) ++ momenta
  | BindHop _ v => [site0; site1] ++ skipn 2 (val_params P v) ++ momenta
  end.
Definition bind {A B} (x : option A) (f : A -> option B) : option B :=
  match x with Some a => f a | None => None end.
(** Calls of the original values *)
Definition val_call1 (v : val) (a : site) (args : list arg) : option C :=
  match v with VFun _ f => pf_call P f (ASite a :: args) | _ => None end.
Definition val_or_call (v : val) (a b : site) (args : list arg) : option C :=
  match v with VConst _ c => Some c | _ => val_call conj P v a b args end.
(** wraparound.py:84-86, 94-99, 109-113 *)
Definition b_call (b : bfun) (args : list arg) : option C :=
  match b, args with
  | BindSite v, ASite a :: args => val_call1 v a (take args)
  | BindHopSite e v, ASite a :: args =>
    let phase := bloch e (drop args) in
    bind (val_or_call v a (act W e a) (take args)) (fun c =>
    let pv := scal phase c in Some (add pv (conj pv)))
  | BindHop e v, ASite a :: ASite b :: args =>
    let phase := bloch e (drop args) in
    bind (val_or_call v a (act W e b) (take args)) (fun c => Some (scal phase c))
  | _, _ => None
  end.

(** wraparound.py:136-160: the parameters of a sum except for the momenta *)
Definition site_params (n : nat) : list name := firstn n [site0; site1].
Definition bval_fun (v : bval) : option bfun :=
  match v with VConst _ _ => None | VFun _ b => Some b | VHC _ b => Some b end.
Fixpoint add_new (params l : list name) : list name :=
  match l with
  | [] => params
  | p :: l => add_new (if in_dec ndec p params then params else params ++ [p]) l
  end.
Definition own_params (n : nat) (b : bfun) : list name := takeN (skipn n (b_params b)).
Definition sum_keys (n : nat) (vals : list bval) : list name :=
  fold_left (fun ps v => match bval_fun v with None => ps | Some b => add_new ps (own_params n b) end)
    vals (site_params n).
(** selections (wraparound.py:146-154) *)
Definition selection (n : nat) (v : bval) : list name :=
  match bval_fun v with None => [] | Some b => site_params n ++ own_params n b end.
(** wraparound.py:164-176: the indices into in_args.  (The comparison with
    prev_selection, a tuple of integers, with a tuple of names is never true.) *)
Fixpoint index (s : name) (l : list name) : option nat :=
  match l with
  | [] => None
  | x :: l => if ndec s x then Some 0 else option_map Datatypes.S (index s l)
  end.
(** in_args[-len(momenta)], ..., in_args[-1] *)
Definition last_args (args : list arg) : option (list arg) :=
  if length args <? length momenta then None else Some (skipn (length args - length momenta) args).
Definition out_args (n : nat) (vals : list bval) (b : bfun) (in_args : list arg) : option (list arg) :=
  bind (omap (fun s => bind (index s (sum_keys n vals)) (nth_error in_args)) (site_params n ++ own_params n b)) (fun l =>
  bind (last_args in_args) (fun m => Some (l ++ m))).
(** A call of a value; HermConjOfFunc.__call__, builder.py:510-511 *)
Definition bval_call (v : bval) (args : list arg) : option C :=
  match v with
  | VConst _ _ => None
  | VFun _ b => b_call b args
  | VHC _ b => match args with x :: y :: args => option_map conj (b_call b (y :: x :: args)) | _ => None end
  end.
(** wraparound.py:125-134 *)
Fixpoint sum_loop (n : nat) (vals : list bval) (in_args : list arg) (acc : C) (order : list nat) : option C :=
  match order with
  | [] => Some acc
  | i :: order =>
    match nth_error vals i with
    | None => None
    | Some v =>
      match bval_fun v with
      | None => match v with VConst _ c => sum_loop n vals in_args (add acc c) order | _ => None end
      | Some b => bind (out_args n vals b in_args) (fun args =>
                  bind (bval_call v args) (fun c => sum_loop n vals in_args (add acc c) order))
      end
    end
  end.

Definition w_params (g : wfun) : list name :=
  match g with
  | Bound b => b_params b
  | BindSum n vals => sum_keys n vals ++ momenta
  end.
Definition w_call (g : wfun) (args : list arg) : option C :=
  match g with
  | Bound b => b_call b args
  | BindSum n vals => sum_loop n vals args zero (argsort (map (selection n) vals))
  end.
Definition wfuns : pyfuns site obj name C := mkFuns w_params w_call.

(** Constructing the functions: inspect.Signature raises ValueError for duplicate
    names; wraparound.py:152 has an assertion. *)
Definition mk_bound (b : bfun) : res site bval :=
  if duplicates ndec (b_params b) then inr (EValue _) else inl (VFun C b).
Definition sum_ok (n : nat) (vals : list bval) : bool :=
  forallb (fun v => match bval_fun v with
                    | None => true
                    | Some b => if list_eq_dec ndec (dropN (skipn n (b_params b))) momenta then true else false
                    end) vals.
Definition is_callable (v : val) : bool := match v with VConst _ _ => false | _ => true end.

Definition rbind {A B} (x : res site A) (f : A -> res site B) : res site B :=
  match x with inl a => f a | inr e => inr e end.
Notation sdict := (list (site * list bval)).
Notation hdict := (list (site * site * list bval)).

(** wraparound.py:230-235 *)
Definition site_entry (v : val) : res site bval :=
  match v with VConst _ c => inl (VConst _ c) | _ => mk_bound (BindSite v) end.
Fixpoint wrap_sites (d : sdict) (l : list (site * val)) : res site sdict :=
  match l with
  | [] => inl d
  | (s, v) :: l => rbind (site_entry v) (fun w => wrap_sites (assign dec (to_fd R s) [w] d) l)
  end.

Definition is_zero (e : elt W) : bool := eis0 W e.
(** d[k].append(v), for a present key *)
Definition append_site (d : sdict) (k : site) (v : bval) : res site sdict :=
  match lookup dec k d with Some l => inl (assign dec k (l ++ [v]) d) | None => inr (EKeySite k) end.
(** the same for a defaultdict(list) *)
Definition append_hop (d : hdict) (k : site * site) (v : bval) : hdict :=
  assign pairdec k (match lookup pairdec k d with Some l => l ++ [v] | None => [v] end) d.
Definition has_hop (d : hdict) (k : site * site) : bool :=
  match lookup pairdec k d with Some _ => true | None => false end.
(** wraparound.py:259-261 *)
Definition hop_entry (e : elt W) (v : val) : res site bval :=
  if negb (is_zero e) || is_callable v then mk_bound (BindHop e v)
  else match v with VConst _ c => inl (VConst _ c) | _ => mk_bound (BindHop e v) end.
(** wraparound.py:268-272 *)
Definition reverse_entry (v : bval) : res site bval :=
  match v with VConst _ c => inl (VConst _ (conj c)) | VFun _ b => inl (VHC C b) | VHC _ _ => inr (EAssert _) end.

(** wraparound.py:237-276 *)
Definition wrap_hop (ds : sdict) (dh : hdict) (a b : site) (v : val) : res site (sdict * hdict) :=
  let b_dom := pW (which S b) in
  let b_wa := act W (eneg W b_dom) b in
  let (a, b_wa) := to_fd2 R a b_wa in
  if dec a b_wa then
    rbind (mk_bound (BindHopSite b_dom v)) (fun w =>
    rbind (append_site ds a w) (fun ds => inl (ds, dh)))
  else
    rbind (hop_entry b_dom v) (fun w =>
    let r := to_fd2 R b_wa a in
    if has_hop dh r then
      if has_hop dh (a, b_wa) then inr (EAssert _)
      else rbind (reverse_entry w) (fun w => inl (ds, append_hop dh r w))
    else inl (ds, append_hop dh (a, b_wa) w)).
Fixpoint wrap_hops (ds : sdict) (dh : hdict) (l : list (site * site * val)) : res site (sdict * hdict) :=
  match l with
  | [] => inl (ds, dh)
  | (a, b, v) :: l => rbind (wrap_hop ds dh a b v) (fun d => wrap_hops (fst d) (snd d) l)
  end.

(** wraparound.py:280-284 *)
Definition liftb (v : bval) : BuilderModel.val C wfun :=
  match v with VConst _ c => VConst _ c | VFun _ b => VFun _ (Bound b) | VHC _ b => VHC _ (Bound b) end.
Definition combine_vals (n : nat) (l : list bval) : res site (BuilderModel.val C wfun) :=
  match l with
  | [v] => inl (liftb v)
  | _ => if sum_ok n l then inl (VFun C (BindSum n l)) else inr (EAssert _)
  end.
Notation wstore := (store site C wfun).
Fixpoint put_sites (ret : wstore) (l : sdict) : res site wstore :=
  match l with
  | [] => inl ret
  | (s, vs) :: l => rbind (combine_vals 1 vs) (fun v =>
      match setitem dec R ret (Simple C wfun (KSite s)) v with
      | (ret, None) => put_sites ret l | (_, Some e) => inr e end)
  end.
Fixpoint put_hops (ret : wstore) (l : hdict) : res site wstore :=
  match l with
  | [] => inl ret
  | (a, b, vs) :: l => rbind (combine_vals 2 vs) (fun v =>
      match setitem dec R ret (Simple C wfun (KHop a b)) v with
      | (ret, None) => put_hops ret l | (_, Some e) => inr e end)
  end.

(** wraparound.py:58-286.  Not modelled: the discrete symmetries, the names of
    the momenta (ValueError if there are not enough of them). *)
Definition wraparound (h : store site C P) : res site wstore :=
  rbind (wrap_sites [] (site_value_pairs h)) (fun ds =>
  rbind (wrap_hops ds [] (hopping_value_pairs h)) (fun d =>
  rbind (put_sites [] (fst d)) (fun ret => put_hops ret (snd d)))).
End Wrap.
