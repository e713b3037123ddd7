(** * Model of kwant/continuum/landau_levels.py: to_landau_basis and discretize_landau. *)
From Coq Require Import String Ascii.
From mathcomp Require Import all_ssreflect all_algebra.
Set Implicit Arguments. Unset Strict Implicit. Unset Printing Implicit Defensive.
Import GRing.Theory Num.Theory.
Local Open Scope ring_scope.

Section Landau.
(** complex numbers: exact arithmetic in any algebraically closed field with a norm *)
Variable C : numClosedFieldType.
(** number of orbitals *)
Variable q : nat.
(** the magnetic field *)
Variable B : C.

(** One monomial of the Hamiltonian after the discretization of the direction normal to the
    plane (discretize_symbolic, see C63): [t_offset] is the hopping in the normal direction,
    [t_momenta] the product of the two momenta in the plane, [t_coef] everything else as a
    function of the coordinate of from_site (an integer: the position is a multiple of the
    grid spacing), for the given B and parameters; [t_params] the names of its parameters. *)
Inductive momentum := K0 | K1.
Record term := mkTerm { t_offset : int; t_momenta : seq momentum; t_coef : int -> 'M[C]_q; t_params : seq string }.

(** landau_levels.py:61-69 to_landau_basis: k_0 -> sqrt(|B|/2) (a^+ + a),
    k_1 -> i sqrt(|B|/2) (a - a^+), and the expansion of the product (sympy) *)
Inductive letter := Raise | Lower.
Definition field_scale : C := sqrtC (`|B| / 2%:R).
Definition substitute (k : momentum) : seq (C * letter) :=
  match k with
  | K0 => [:: (field_scale, Raise); (field_scale, Lower)]
  | K1 => [:: ('i * field_scale, Lower); (- ('i * field_scale), Raise)]
  end.
Fixpoint expand (ks : seq momentum) : seq (C * seq letter) :=
  match ks with
  | [::] => [:: (1, [::])]
  | k :: ks => [seq (c.1 * r.1, c.2 :: r.2) | c <- substitute k, r <- expand ks]
  end.
(** landau_levels.py:324-349 _ladder_term; sympy multiplies equal neighbouring symbols to
    powers; the factor of the empty product is 1, with sign 0 *)
Definition add_letter (x : letter) (r : seq int) : seq int :=
  match x, r with
  | Raise, m :: r' => if 0 < m then (m + 1) :: r' else 1 :: r
  | Lower, m :: r' => if m < 0 then (m - 1) :: r' else -1 :: r
  | Raise, [::] => [:: 1]
  | Lower, [::] => [:: -1]
  end.
Definition ladder_term (w : seq letter) : seq int :=
  if w is [::] then [:: 0] else foldr add_letter [::] w.

(** Python's range and functools.reduce(operator.mul, ...) *)
Definition py_range (a b : int) : seq int := if a <= b then [seq a + (k%:Z) | k <- iota 0 `|b - a|] else [::].
Definition product (l : seq int) : int := foldr *%R 1 l.
(** landau_levels.py:370-410 _evaluate_ladder_term; None: math.sqrt of a negative number
    (ValueError), or the failing assertion n >= 0 *)
Fixpoint evaluate_loop (rev_term : seq int) (n : int) (ret : C) : option C :=
  match rev_term with
  | [::] => Some ret
  | m :: rest =>
    let step factors :=
      if product factors < 0 then None else evaluate_loop rest (n + m) (ret * sqrtC (product factors)%:~R) in
    if 0 < m then step (py_range (n + 1) (n + m + 1))
    else if m < 0 then
      if n == 0 then Some 0 else step (py_range (n + m + 1) (n + 1))
    else step [:: 1]
  end.
Definition evaluate_ladder_term (ladder : seq int) (n : int) (field : C) : option C :=
  if n < 0 then None else
  let ladder := if field < 0 then [seq - i | i <- ladder] else ladder in
  evaluate_loop (rev ladder) n 1.

(** sites: position and Landau level index *)
Definition lsite : Type := int * nat.
Definition kind : Type := int * int.
Definition displacement (to from : lsite) : kind := (to.1 - from.1, (to.2)%:Z - (from.2)%:Z).
(** a monomial in ladder operators with its prefactor *)
Record part := mkPart { p_offset : int; p_ladder : seq int; p_coef : int -> 'M[C]_q; p_params : seq string }.
(** landau_levels.py:113-131 (monomials); equal monomials are not collected here *)
Definition parts (H : seq term) : seq part :=
  flatten [seq [seq mkPart (t_offset t) (ladder_term w.2) (fun z => w.1 *: t_coef t z)
                      (if t_momenta t is [::] then t_params t else "B"%string :: t_params t)
               | w <- expand (t_momenta t)] | t <- H].
(** landau_levels.py:133-138 tb_hoppings *)
Definition part_kind (p : part) : kind := (p_offset p, \sum_(m <- p_ladder p) m).
Definition kinds (H : seq term) : seq kind := undup [seq part_kind p | p <- parts H].
Definition parts_of (H : seq term) (k : kind) : seq part := [seq p <- parts H | part_kind p == k].

(** NoSite: the builder has no such sites (KeyError) *)
Inductive outcome := NameError | ValueError | NoSite | Value of 'M[C]_q.
Fixpoint has_B (s : string) : bool := if s is String a s then Ascii.eqb a "B" || has_B s else false.
(** landau_levels.py:222-321 _builder_value: the value function.  arg_names is a string when
    line 273 tests whether it contains "B". *)
Definition arg_names (ps : seq part) : seq string := flatten [seq p_params p | p <- ps].
Fixpoint sum_parts (ps : seq part) (n : int) (field : C) (z : int) : option 'M[C]_q :=
  match ps with
  | [::] => Some 0
  | p :: ps =>
    match evaluate_ladder_term (p_ladder p) n field, sum_parts ps n field z with
    | Some x, Some y => Some (x *: p_coef p z + y)
    | _, _ => None
    end
  end.
Definition builder_value (ps : seq part) (is_onsite : bool) (to from : lsite) : outcome :=
  let names := arg_names ps in
  let is_parameter := has (String.eqb "B") names in
  if ~~ is_parameter && has_B (String.concat ", " names) then NameError else
  let field := if is_parameter then B else 1 in
  let ll_index := if ~~ is_onsite && (field < 0) then to.2 else from.2 in
  if sum_parts ps (ll_index%:Z) field from.1 is Some v then Value v else ValueError.

(** landau_levels.py:143-181, with the rules of Builder for the values of hoppings (a value
    can be given in either direction, the last one counts).  Sites exist for all integers
    as the first tag: translations in the normal direction are not divided out. *)
Definition dagger (M : 'M[C]_q) : 'M[C]_q := map_mx conjC M^T.
Definition dagger_outcome (x : outcome) : outcome := if x is Value v then Value (dagger v) else x.
Record setting := mkSetting { s_kind : kind; s_value : lsite -> lsite -> outcome }.
Definition settings (H : seq term) : seq setting :=
  mkSetting (0, 1) (fun _ _ => Value 0) ::
  [seq mkSetting k (builder_value (parts_of H k) false) | k <- kinds H & k != (0, 0)].
Definition apply_setting (to from : lsite) (acc : outcome) (s : setting) : outcome :=
  if displacement to from == s_kind s then s_value s to from
  else if displacement from to == s_kind s then dagger_outcome (s_value s from to)
  else acc.
(** the value of the Hamiltonian between two sites of the builder with N Landau levels *)
Definition entry (N : nat) (H : seq term) (to from : lsite) : outcome :=
  if ~~ ((to.2 < N) && (from.2 < N))%N then NoSite else
  if to == from then
    if (0, 0) \in kinds H then builder_value (parts_of H (0, 0)) true from from else Value 0
  else foldl (apply_setting to from) (Value 0) (settings H).
End Landau.
