(** * A tactic for equations in commutative groups (sums, differences, opposites of atoms). *)
From mathcomp Require Import all_ssreflect all_algebra.
Set Implicit Arguments. Unset Strict Implicit. Unset Printing Implicit Defensive.
Import GRing.Theory.
Local Open Scope ring_scope.

Inductive zx := ZV of nat | ZA of zx & zx | ZN of zx | Z0.
Section Eval.
Variable V : zmodType.
Fixpoint zeval (e : seq V) (x : zx) : V :=
  match x with ZV i => nth 0 e i | ZA a b => zeval e a + zeval e b | ZN a => - zeval e a | Z0 => 0 end.
Fixpoint zcoef (x : zx) (i : nat) : int :=
  match x with ZV j => if j == i then 1 else 0 | ZA a b => zcoef a i + zcoef b i | ZN a => - zcoef a i | Z0 => 0 end.
Lemma zevalE e x : zeval e x = \sum_(i < size e) nth 0 e i *~ zcoef x i.
Proof.
elim: x => [j|a IHa b IHb|a IHa|] /=.
- case: (ltnP j (size e)) => Hj.
  + rewrite (bigD1 (Ordinal Hj)) //= eqxx mulr1z big1 ?addr0 // => i Hi. case: eqP => E; last by rewrite mulr0z.
    by case/eqP: Hi; apply/val_inj.
  + rewrite nth_default // big1 // => i _. case: eqP => E; last by rewrite mulr0z. by move: Hj; rewrite E leqNgt ltn_ord.
- by rewrite IHa IHb -big_split /=; apply: eq_bigr => i _; rewrite mulrzDl.
- by rewrite IHa -sumrN; apply: eq_bigr => i _; rewrite mulrNz.
- by rewrite big1 // => i _; rewrite mulr0z.
Qed.
Lemma zmod_eq e x y : all (fun i => zcoef x i == zcoef y i) (iota 0 (size e)) -> zeval e x = zeval e y.
Proof.
move=> /allP H. rewrite !zevalE; apply: eq_bigr => i _. have /H/eqP-> // : val i \in iota 0 (size e) by rewrite mem_iota ltn_ord.
Qed.
Lemma iff_sub (W : zmodType) (x y : V) (z w : W) (f : V -> W) : (f (x - y) = z - w) -> (forall a, f a = 0 -> a = 0) -> f 0 = 0 -> (x = y <-> z = w).
Proof.
move=> E Hi Hz. split=> [H|H].
- by apply/eqP; rewrite -subr_eq0 -E H subrr Hz.
- by apply/eqP; rewrite -subr_eq0; apply/eqP/Hi; rewrite E H subrr.
Qed.
End Eval.
Ltac zsame zz1 zz2 := match constr:(tt) with
  | _ => let _ := match constr:(tt) with _ => constr_eq zz1 zz2 end in constr:(true)
  | _ => let _ := match constr:(tt) with _ => unify zz1 zz2 end in constr:(true)
  | _ => constr:(false) end.
Ltac zfind z_x z_e := match z_e with
  | ?z_y :: ?z_t => match zsame z_x z_y with true => constr:(O) | false => let z_n := zfind z_x z_t in constr:(S z_n) end end.
Ltac zmem z_x z_e := match z_e with
  | ?z_y :: ?z_t => match zsame z_x z_y with true => constr:(true) | false => zmem z_x z_t end
  | _ => constr:(false) end.
Ltac zatoms z_t z_e := match z_t with
  | GRing.add ?z_a ?z_b => let z_e := zatoms z_a z_e in zatoms z_b z_e
  | GRing.opp ?z_a => zatoms z_a z_e
  | GRing.zero _ => z_e
  | _ => match zmem z_t z_e with true => z_e | false => constr:(z_t :: z_e) end end.
Ltac zquote z_t z_e := match z_t with
  | GRing.add ?z_a ?z_b => let z_a := zquote z_a z_e in let z_b := zquote z_b z_e in constr:(ZA z_a z_b)
  | GRing.opp ?z_a => let z_a := zquote z_a z_e in constr:(ZN z_a)
  | GRing.zero _ => constr:(Z0)
  | _ => let z_n := zfind z_t z_e in constr:(ZV z_n) end.
Ltac zmod := match goal with |- @eq ?z_T ?z_x ?z_y =>
  let z_V := match goal with |- @eq (GRing.Zmodule.sort ?z_V) _ _ => z_V | _ => constr:([zmodType of z_T]) end in
  let z_e := zatoms z_x (@nil z_T) in let z_e := zatoms z_y z_e in
  let z_a := zquote z_x z_e in let z_b := zquote z_y z_e in
  change (zeval (V := z_V) z_e z_a = zeval (V := z_V) z_e z_b); apply: zmod_eq; vm_compute; reflexivity end.
