(** * Model of Builder.fill (kwant/builder.py:1431-1603) *)
From Coq Require Import List Bool Arith.
From Verif Require Import BuilderModel.
Import ListNotations.
Set Implicit Arguments.

Section FillModel.
Variable site : Type.
Variable dec : forall a b : site, {a = b} + {a <> b}.
Variable S : Symmetry site.            (* of the target *)
Variable ST : Symmetry site.           (* of the template *)
Variable C F : Type.
Variable VNone : val C F.              (* the placeholder value None *)
(** The user's function [shape]; [None]: the call raises. *)
Variable shape : site -> option bool.
(** Iteration order of the set [active] in the k-th generation: arbitrary. *)
Variable order : nat -> list site -> list site.

Notation store := (store site C F).
Notation lookup := (lookup dec).
Notation mem := (mem dec).
Notation assign := (assign dec).

Definition inb (s : site) (l : list site) : bool := existsb (eqb dec s) l.

(** builder.py:1514-1521: initialization of [active]. *)
Definition fill_start1 (st : res site (store * list site)) (s : site)
    : res site (store * list site) :=
  match st with
  | inr e => inr e
  | inl (h, active) =>
    let s := to_fd S s in
    if mem s h then inl (h, active)
    else match shape s with
         | None => inr (EUser _)
         | Some true => inl (assign s (mkNode VNone []) h, active ++ [s])
         | Some false => inl (h, active)
         end
  end.

(** builder.py:1584-1590: fill the outgoing edge.  [hvhv] is H[tail]. *)
Definition fill_write (old_heads : list site) (tail head : site) (v : sval C F)
    (h : store) : res site store :=
  match lookup tail h with
  | None => inr (EKeySite tail)
  | Some nd =>
    let outs' := if inb head old_heads then assign head v (outs nd)
                 else outs nd ++ [(head, v)] in
    inl (assign tail (mkNode (onsite nd) outs') h)
  end.

(** builder.py:1561-1590: one head of the current tail. *)
Definition fill_head (T : store) (old_active old_heads : list site) (tail : site)
    (shift : elt ST) (st : res site (store * list site)) (hv : site * sval C F)
    : res site (store * list site) :=
  match st with
  | inr e => inr e
  | inl (h, new_active) =>
    let head := act ST shift (fst hv) in
    let head_fd := to_fd S head in
    let write h new_active :=
      match fill_write old_heads tail head (snd hv) h with
      | inl h => inl (h, new_active)
      | inr e => inr e
      end in
    if inb head_fd old_active || inb head_fd new_active then write h new_active
    else if mem head_fd h then
      let (t1, x1) := to_fd2 ST head tail in
      match get_edge dec T t1 x1 with
      | inr e => inr e
      | inl other_value =>
        let (t2, x2) := to_fd2 S head tail in
        match set_edge dec h t2 x2 other_value with
        | (h, None) => write h new_active
        | (_, Some e) => inr e
        end
      end
    else match shape head_fd with
         | None => inr (EUser _)
         | Some true =>
           write (assign head_fd (mkNode VNone []) h) (new_active ++ [head_fd])
         | Some false => inl (h, new_active)
         end
  end.

(** len(done) > max_sites, where [None] is float('inf'). *)
Definition exceeds (n : nat) (max_sites : option nat) : bool :=
  match max_sites with Some m => m <? n | None => false end.

(** builder.py:1543-1590: one tail. State: builder, new_active, done. *)
Definition fill_tail (max_sites : option nat) (T : store) (old_active : list site)
    (st : res site (store * list site * list site)) (tail : site)
    : res site (store * list site * list site) :=
  match st with
  | inr e => inr e
  | inl (h, new_active, done) =>
    let done := done ++ [tail] in
    if exceeds (length done) max_sites then inr (ERuntime _)
    else
      let shift := which ST tail in
      match lookup (act ST (eneg ST shift) tail) T with
      | None => inr (EKeySite (act ST (eneg ST shift) tail))
      | Some tnd =>
        match lookup tail h with
        | None => inr (EKeySite tail)
        | Some nd =>
          let h := assign tail (mkNode (onsite tnd) (outs nd)) h in
          let old_heads := map fst (outs nd) in
          match fold_left (fill_head T old_active old_heads tail shift) (outs tnd)
                          (inl (h, new_active)) with
          | inr e => inr e
          | inl (h, new_active) => inl (h, new_active, done)
          end
        end
      end
  end.

(** builder.py:1540-1593: the while loop, one generation per iteration. *)
Fixpoint fill_loop (fuel k : nat) (max_sites : option nat) (T h : store)
    (old_active active done : list site) : res site (store * list site) :=
  match active with
  | [] => inl (h, done)
  | _ =>
    match fuel with
    | O => inr (EFuel _)
    | Datatypes.S fuel =>
      let old_active := old_active ++ active in
      match fold_left (fill_tail max_sites T old_active) (order k active)
                      (inl (h, [], done)) with
      | inr e => inr e
      | inl (h, new_active, done) =>
        fill_loop fuel (Datatypes.S k) max_sites T h active new_active done
      end
    end
  end.

(** builder.py:1482-1603 fill.  Outcome: the builder and the list of added sites
    or the exception.  In the code every exception raised in the try block is
    re-raised as RuntimeError from the original one, after emptying the builder;
    the model reports the original one.  [fuel] bounds the number of executions
    of the while loop; the outcome [EFuel] means "still running".
    Not modelled: the symmetry check (has_subgroup enters as a hypothesis), start
    given as coordinates, the warnings.  The template is a builder different
    from the target. *)
Definition fill (fuel : nat) (T h : store) (start : list site) (max_sites : option nat)
    : store * res site (list site) :=
  if match max_sites with Some m => m =? 0 | None => false end then (h, inr (EValue _))
  else
    let start := filter (fun s => mem (to_fd ST s) T) start in
    match fold_left fill_start1 start (inl (h, [])) with
    | inr e => ([], inr e)
    | inl (h1, active) =>
      match fill_loop fuel 0 max_sites T h1 [] active [] with
      | inl (h', done) => (h', inl done)
      | inr e => ([], inr e)
      end
    end.
End FillModel.
