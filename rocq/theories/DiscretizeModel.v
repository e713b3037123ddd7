(** * Model of kwant/continuum/discretizer.py: discretize_symbolic and the
    value functions of build_discretized.

    SymPy expressions are sums of ordered products; every factor is a momentum
    operator with an exponent or anything else (a constant, a function of the
    position, a power of a coordinate: an opaque name [Fn f]).  sympify, expand,
    as_ordered_terms and as_ordered_factors (which bring an expression to this
    form without changing the order of non-commuting factors) are not modelled,
    nor is the generation of the source code of the value functions. *)
From Coq Require Import List Bool Arith ZArith Lia.
From Verif Require Import StarRing.
Import ListNotations.
Set Implicit Arguments.

(** Offsets: tuples of integers, one for each coordinate in coords *)
Definition offset := list Z.
(** Python's order of tuples of the same length *)
Fixpoint lex_leb (a b : offset) : bool :=
  match a, b with
  | x :: a', y :: b' => (x <? y)%Z || ((x =? y)%Z && lex_leb a' b')
  | [], _ => true
  | _ :: _, [] => false
  end.
Fixpoint off_eqb (a b : offset) : bool :=
  match a, b with
  | x :: a', y :: b' => (x =? y)%Z && off_eqb a' b'
  | [], [] => true
  | _, _ => false
  end.
(** subs(x, x + s h) in one argument of the wave function or of a function *)
Fixpoint bump (i : nat) (s : Z) (o : offset) : offset :=
  match o, i with
  | x :: o', 0 => (x + s)%Z :: o'
  | x :: o', S i' => x :: bump i' s o'
  | [], _ => []
  end.

Section Model.
(** names of functions and constants *)
Variable F : Type.
(** k_x, k_y, k_z are 0, 1, 2 *)
Inductive factor := Fn (f : F) | Mom (c e : nat).
Definition summand := list factor.
Definition expression := list summand.
(** coords: sorted coordinates *)
Variable coords : list nat.
Fixpoint index_of (c i : nat) (l : list nat) : option nat :=
  match l with [] => None | x :: l' => if c =? x then Some i else index_of c (S i) l' end.

(** A product in the discretized expression: sign * (-I)^npow * prod_c 1 / (2 a_c) *
    (factors at shifted positions) * wf(x + off a).  The shifts and the offset
    are in units of the displacements a_c; in [t_den], coordinates are given by
    their index in coords. *)
Record term := mkTerm {
  t_neg : bool;
  t_npow : nat;
  t_den : list nat;
  t_facs : list (factor * offset);
  t_off : offset }.
Definition zeros : offset := repeat 0%Z (length coords).
(** the subs of the coordinate with index i by s displacements *)
Definition shift_term (i : nat) (s : Z) (t : term) : term :=
  mkTerm (t_neg t) (t_npow t) (t_den t) (map (fun p => (fst p, bump i s (snd p))) (t_facs t)) (bump i s (t_off t)).
(** discretizer.py:371-395 _differentiate, times -I; (expr1 - expr2) / (2 h) *)
Definition mom_term (i : nat) (neg : bool) (t : term) : term :=
  let t' := shift_term i (if neg then -1 else 1)%Z t in
  mkTerm (xorb neg (t_neg t')) (S (t_npow t')) (i :: t_den t') (t_facs t') (t_off t').
Definition differentiate (i : nat) (ts : list term) : list term :=
  map (mom_term i false) ts ++ map (mom_term i true) ts.
Definition mult (f : factor) (t : term) : term :=
  mkTerm (t_neg t) (t_npow t) (t_den t) ((f, zeros) :: t_facs t) (t_off t).
(** discretizer.py:398-429 _discretize_summand, for summand * wf *)
Definition apply_factor (f : factor) (ts : list term) : list term :=
  match f with
  | Mom c e => match index_of c 0 coords with
               | Some i => Nat.iter e (differentiate i) ts
               | None => map (mult f) ts
               end
  | Fn _ => map (mult f) ts
  end.
Definition discretize_summand (s : summand) : list term :=
  fold_right apply_factor [mkTerm false 0 [] [] zeros] s.

(** _common.py:290-308 gcd: the loop "while a: a, b = b % a, a" *)
Fixpoint euclid (fuel : nat) (a b : Z) : Z :=
  match fuel with
  | 0 => b
  | S n => if (a =? 0)%Z then b else euclid n (b mod a) a
  end.
Definition py_gcd (l : list Z) : Z :=
  match rev l with
  | [] => 0
  | [x] => x
  | b :: rest => Z.abs (fold_left (fun b a => euclid (S (Z.abs_nat a)) a b) rest b)
  end.
(** a coefficient after the rescaling: a_c is replaced by a_c / g_c *)
Record coef := mkCoef { c_term : term; c_scale : list Z }.
(** Python's defaultdict: d[k] += v; sums are lists *)
Fixpoint dict_add {V} (k : offset) (v : list V) (d : list (offset * list V)) : list (offset * list V) :=
  match d with
  | [] => [(k, v)]
  | (k', v') :: d' => if off_eqb k' k then (k', v' ++ v) :: d' else (k', v') :: dict_add k v d'
  end.
(** discretizer.py:461-484 _extract_hoppings.  The terms are not collected: terms
    with the same offset have the same sign and cannot cancel as long as the
    functions are opaque. *)
Definition scales (ts : list term) : list Z :=
  map (fun i => let g := py_gcd (map (fun t => nth i (t_off t) 0%Z) ts) in if (g <? 1)%Z then 1%Z else g) (seq 0 (length coords)).
Definition div_off (o : offset) (g : list Z) : offset := map (fun p => (fst p / snd p)%Z) (combine o g).
Definition extract_hoppings (ts : list term) : list (offset * list coef) :=
  let g := scales ts in
  fold_left (fun out t => dict_add (div_off (t_off t) g) [mkCoef t g] out) ts [].
(** discretizer.py:486-505 _discretize_expression *)
Definition is_mom (f : factor) : bool := match f with Mom _ _ => true | Fn _ => false end.
Definition discretize_expression (e : expression) : list (offset * list coef) :=
  if negb (existsb (existsb is_mom) e) then
    [(zeros, map (fun s => mkCoef (mkTerm false 0 [] (map (fun f => (f, zeros)) s) zeros) (repeat 1%Z (length coords))) e)]
  else
    fold_left (fun out s => fold_left (fun out kv => dict_add (fst kv) (snd kv) out) (extract_hoppings (discretize_summand s)) out) e [].

(** discretizer.py:219-233: the entries of a matrix; tb[offset][i, j] += hop.
    A coefficient in the dictionary carries its position in the matrix. *)
Variable n : nat.
Definition entries : list (nat * nat) := flat_map (fun i => map (pair i) (seq 0 n)) (seq 0 n).
Definition tb_full (h : nat -> nat -> expression) : list (offset * list (nat * nat * coef)) :=
  fold_left (fun tb ij =>
    fold_left (fun tb kv => dict_add (fst kv) (map (pair ij) (snd kv)) tb) (discretize_expression (h (fst ij) (snd ij))) tb)
    entries [(zeros, [])].
(** sorted *)
Fixpoint insert_off (x : offset) (l : list offset) : list offset :=
  match l with [] => [x] | y :: l' => if lex_leb x y then x :: l else y :: insert_off x l' end.
Definition sort_off (l : list offset) : list offset := fold_right insert_off [] l.
(** discretizer.py:231-233 only half of the hoppings are kept *)
Definition wanted (h : nat -> nat -> expression) : list offset :=
  let keys := map fst (tb_full h) in skipn (length keys / 2) (sort_off keys).
Definition discretize_symbolic (h : nat -> nat -> expression) : list (offset * list (nat * nat * coef)) :=
  filter (fun kv => existsb (off_eqb (fst kv)) (wanted h)) (tb_full h).

(** ** Values (discretizer.py:617-704 _builder_value): the functions and
    constants are evaluated at the position of site1 *)
Variable K : StarRing.
Variable kinv : K -> K.
(** params; the value of f at a position (one number for each of coords) *)
Variable env : F -> list K -> K.
(** the value of a momentum that is not in coords: a parameter *)
Variable kpar : nat -> K.
Fixpoint kpow (x : K) (e : nat) : K := match e with 0 => r1 K | S e' => rmul K x (kpow x e') end.
Definition kZ (z : Z) : K := match z with
  | Z0 => r0 K | Zpos p => Pos.iter_op (radd K) p (r1 K) | Zneg p => ropp K (Pos.iter_op (radd K) p (r1 K)) end.
Definition kdiv (x y : K) : K := rmul K x (kinv y).
(** x + o * h; h are the displacements *)
Definition move (h : list K) (o : offset) (x : list K) : list K :=
  map (fun p => radd K (fst p) (rmul K (kZ (fst (snd p))) (snd (snd p)))) (combine x (combine o h)).
Definition eval_factor (f : factor) (x : list K) : K :=
  match f with Fn g => env g x | Mom c e => kpow (kpar c) e end.
Definition eval_term (h : list K) (t : term) (x : list K) : K :=
  let sgn := if t_neg t then ropp K (r1 K) else r1 K in
  let den := fold_right (fun i r => rmul K (kinv (rmul K (kZ 2) (nth i h (r0 K)))) r) (r1 K) (t_den t) in
  let fac := fold_right (fun p r => rmul K (eval_factor (fst p) (move h (snd p) x)) r) (r1 K) (t_facs t) in
  rmul K (rmul K (rmul K sgn (kpow (ropp K (ri K)) (t_npow t))) den) fac.
(** a: the grid spacings; a_c is replaced by a_c / g_c *)
Definition rescaled (a : list K) (g : list Z) : list K := map (fun p => kdiv (fst p) (kZ (snd p))) (combine a g).
Definition eval_coef (a : list K) (c : coef) (x : list K) : K := eval_term (rescaled a (c_scale c)) (c_term c) x.
(** the matrix element i, j of an entry *)
Definition value (a : list K) (v : list (nat * nat * coef)) (x : list K) (i j : nat) : K :=
  lsum K (fun p => if (fst (fst p) =? i) && (snd (fst p) =? j) then eval_coef a (snd p) x else r0 K) v.
Fixpoint lookup {V} (k : offset) (d : list (offset * V)) : option V :=
  match d with [] => None | (k', v) :: d' => if off_eqb k' k then Some v else lookup k d' end.

(** discretizer.py:336-366 the builder: HoppingKind(-d) has the hoppings (site1,
    site2) with site2.tag - site1.tag = d; a hopping that is set in the other
    direction gives the Hermitian conjugate (C01, C15).  [org] is the
    offset of the lattice, pos = org + tag * a. *)
Definition pos (a org : list K) (tag : offset) : list K := move a tag org.
Definition vsub (t s : offset) : offset := map (fun p => (fst p - snd p)%Z) (combine t s).
Definition element (a org : list K) (h : nat -> nat -> expression) (s1 s2 : offset) (i j : nat) : K :=
  match lookup (vsub s2 s1) (discretize_symbolic h) with
  | Some v => value a v (pos a org s1) i j
  | None => match lookup (vsub s1 s2) (discretize_symbolic h) with
            | Some v => rconj K (value a v (pos a org s2) j i)
            | None => r0 K
            end
  end.
End Model.
