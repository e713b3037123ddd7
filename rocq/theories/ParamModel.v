(** * Value functions with named parameters.

    SystemModel.v leaves open how a value function is called; here it is called
    as builder.py:2046-2098 does when the parameters are given by name
    (hamiltonian(i, j, params=...)). *)
From Coq Require Import List Bool.
From Verif Require Import BuilderModel.
Import ListNotations.
Set Implicit Arguments.

Section Param.
Variables site obj name C : Type.

(** Arguments of a call: sites, and the values of parameters. *)
Inductive arg := ASite (s : site) | AObj (o : obj).

(** A collection of Python callables (plain functions, or instances of a class
    with __call__ and __signature__): [pf_params] is get_parameters
    (_common.py:142-176), in the positional order, with the site parameters;
    [pf_call] the result of a call with positional arguments ([None]: raises). *)
Record pyfuns := mkFuns { pf :> Type; pf_params : pf -> list name; pf_call : pf -> list arg -> option C }.

Fixpoint omap {A B} (f : A -> option B) (l : list A) : option (list B) :=
  match l with
  | [] => Some []
  | x :: l => match f x, omap f l with Some y, Some r => Some (y :: r) | _, _ => None end
  end.

(** args = map(params.__getitem__, param_names), builder.py:2060, 2086; the
    param_names are those after the site parameters (builder.py:2136-2146).
    [None]: a missing parameter (TypeError). *)
Definition route (env : name -> option obj) (nstrip : nat) (params : list name) : option (list arg) :=
  option_map (map AObj) (omap env (skipn nstrip params)).

(** value(site, *args), builder.py:2054-2063.  A HermConjOfFunc as onsite value
    cannot be called with one site (builder.py:510). *)
Definition call1 (P : pyfuns) (env : name -> option obj) (v : val C P) (s : site) : option C :=
  match v with
  | VConst _ c => Some c
  | VFun _ f => match route env 1 (pf_params P f) with Some l => pf_call P f (ASite s :: l) | None => None end
  | VHC _ _ => None
  end.
(** value(site_i, site_j, *args), builder.py:2079-2089 *)
Definition call2 (P : pyfuns) (env : name -> option obj) (f : P) (a b : site) : option C :=
  match route env 2 (pf_params P f) with Some l => pf_call P f (ASite a :: ASite b :: l) | None => None end.
End Param.
Arguments ASite {site obj} s.
Arguments AObj {site obj} o.
Arguments pf_params {site obj name C} p _.
Arguments pf_call {site obj name C} p _ _.
