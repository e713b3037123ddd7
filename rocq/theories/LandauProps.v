(** * C70: discretize_landau gives the exact matrix elements between Landau levels. *)
From Coq Require Import String Ascii Lia.
From mathcomp Require Import all_ssreflect all_algebra zify.
From Verif Require Import LandauModel LandauSpec LandauProofs.
Set Implicit Arguments. Unset Strict Implicit. Unset Printing Implicit Defensive.
Import Order.Theory GRing.Theory Num.Theory.
Local Open Scope ring_scope.

Lemma In_filter A (P : pred A) (s : seq A) x : List.In x [seq y <- s | P y] <-> List.In x s /\ P x.
Proof.
elim: s => [|y s IH] /=; first by split=> [|[]]. case: ifP => H /=; rewrite IH; split.
- by move=> [<-|[]]; [split; [left|]|split; [right|]].
- move=> [[->|] ?]; [by left|by right].
- move=> []; by [split; [right|]|].
- move=> [[E|] H'] //. by rewrite -E H in H'.
Qed.
Lemma In_flatten A B (f : A -> seq B) s y : List.In y (flatten [seq f x | x <- s]) <-> exists2 x, List.In x s & List.In y (f x).
Proof.
elim: s => [|x s IH] /=; first by split=> [|[]].
have X : forall (u v : seq B), List.In y (u ++ v) <-> List.In y u \/ List.In y v by move=> u v; apply: List.in_app_iff.
rewrite X IH. split.
- move=> [H|[x' H1 H2]]; [exists x => //; by left|exists x' => //; by right].
- move=> [x' [<-|H1] H2]; [by left|right; by exists x'].
Qed.
Lemma In_map A B (f : A -> B) s y : List.In y [seq f x | x <- s] <-> exists2 x, List.In x s & f x = y.
Proof. elim: s => [|x s IH] /=; first by split=> [|[]]. rewrite IH. split=> [[H|[x' H1 H2]]|[x' [<-|H1] H2]]; [exists x => //; by left|exists x' => //; by right|by left|right; by exists x']. Qed.
Lemma In_mem (A : eqType) (s : seq A) x : List.In x s <-> x \in s.
Proof. elim: s => [|y s IH] //=. rewrite inE IH. split=> [[->|->]|/orP[/eqP->|]]; rewrite ?eqxx ?orbT //; by [left|right]. Qed.
Lemma has_In A (P : pred A) s : has P s <-> exists2 x, List.In x s & P x.
Proof. elim: s => [|y s IH] /=; first by split=> [|[]]. split=> [/orP[H|/IH[x H1 H2]]|[x [<-|H1] H2]]; [exists y => //; by left|exists x => //; by right|by rewrite H2|apply/orP; right; apply/IH; by exists x]. Qed.
Lemma has_B_app s t : has_B (s ++ t) = has_B s || has_B t.
Proof. elim: s => //= a s ->. by rewrite orbA. Qed.
Lemma has_B_concat names : has_B (String.concat ", " names) = has has_B names.
Proof. elim: names => //= x [|y r] IH; first by rewrite orbF. by rewrite has_B_app /= IH. Qed.
Lemma has_B_In s : has_B s <-> List.In "B"%char (list_ascii_of_string s).
Proof. elim: s => [|a s IH] //=. rewrite -IH. split=> [/orP[/Ascii.eqb_spec ->|->]|[->|->]]; rewrite ?orbT //; by [left|right]. Qed.

Section Props.
Variable C : numClosedFieldType.
Variable q : nat.
Variable B : C.
Notation exact := (exact B).
Notation entry := (entry B).
Notation parts := (@parts C q B).
Notation builder_value := (@builder_value C q B).
Lemma sum_parts_ok (ps : seq (part C q)) n field z F : (forall p, List.In p ps -> evaluate_ladder_term (p_ladder p) n field = Some (F p)) ->
  sum_parts ps n field z = Some (\sum_(p <- ps) F p *: p_coef p z).
Proof.
elim: ps => [|p ps IH] H /=; first by rewrite big_nil. rewrite H; last by left. rewrite IH => [|p' Hp]; last by apply: H; right. by rewrite big_cons.
Qed.
Variable H : seq (term C q).
Hypothesis Hdeg : degree_le 6 H.
Hypothesis Hnames : names_ok H.
(** where a part comes from *)
Lemma part_spec p : List.In p (parts H) -> exists t w, [/\ List.In t H, List.In w (expand B (t_momenta t)) &
  p = mkPart (t_offset t) (ladder_term w.2) (fun z => w.1 *: t_coef t z) (if t_momenta t is [::] then t_params t else "B"%string :: t_params t)].
Proof. move/In_flatten=> [t Ht] /In_map[w Hw <-]. by exists t, w. Qed.
Lemma momenta_le t : List.In t H -> (size (t_momenta t) <= 6)%N.
Proof. move=> Ht. have : forall s, all (fun t => (size (t_momenta t) <= 6)%N) s -> List.In t s -> (size (t_momenta t) <= 6)%N by elim=> //= x s IH /andP[H1 H2] [<-|]; auto. apply; [exact: Hdeg|by []]. Qed.
(** the matrix element of a part *)
Definition V (lt : seq int) (to from : lsite) : C :=
  if B < 0 then word_op [seq - i | i <- lt] (level C to.2) from.2 else word_op lt (level C from.2) to.2.
Definition target (to from : lsite) : 'M[C]_q := if B < 0 then exact H (to.1, from.2) (from.1, to.2) else exact H to from.
Lemma target_sum to from : target to from = \sum_(p <- parts H | p_offset p == to.1 - from.1) V (p_ladder p) to from *: p_coef p from.1.
Proof.
have E (t : term C q) : (if B < 0 then matrix_element B (t_momenta t) from.2 to.2 else matrix_element B (t_momenta t) to.2 from.2) *: t_coef t from.1 =
  \sum_(w <- expand B (t_momenta t)) V (ladder_term w.2) to from *: (w.1 *: t_coef t from.1).
{ rewrite /V /matrix_element. have X w a b : letters_op (map (sw B) w) (level C a) b = word_op (if B < 0 then [seq - i | i <- ladder_term w] else ladder_term w) (level C a) b.
  { rewrite -ladder_term_op /sw. case: ifP => _; first by rewrite ladder_term_swap. by rewrite map_id. }
  case: ifP X => HB X; rewrite momenta_expand scaler_suml; apply: eq_bigr => w _; by rewrite X scalerA mulrC. }
transitivity (\sum_(t <- H | t_offset t == to.1 - from.1) (if B < 0 then matrix_element B (t_momenta t) from.2 to.2 else matrix_element B (t_momenta t) to.2 from.2) *: t_coef t from.1).
{ rewrite /target /LandauSpec.exact. by case: ifP => HB /=. }
rewrite /LandauModel.parts big_flatten big_map [LHS]big_mkcond. apply: eq_bigr => t _. rewrite big_map /=. case: ifP => Ht; first by rewrite E.
by rewrite big1.
Qed.
Lemma V_out lt to from : \sum_(m <- lt) m != to.2%:Z - from.2%:Z -> V lt to from = 0.
Proof. rewrite -/(tot lt) => Hn. rewrite /V. case: ifP => _; apply: word_out; rewrite ?tot_opp; move: (tot lt) Hn => x; lia. Qed.
Lemma target_kind to from : target to from = \sum_(p <- parts_of B H (displacement to from)) V (p_ladder p) to from *: p_coef p from.1.
Proof.
rewrite target_sum /parts_of big_filter [LHS]big_mkcond [RHS]big_mkcond. apply: eq_bigr => p _. rewrite /part_kind /displacement xpair_eqE.
case: eqP => //= _. case: eqP => //= /eqP Hn. by rewrite V_out // scale0r.
Qed.
(** the value functions *)
Lemma value_ok (to from : lsite) (is_onsite : bool) : (is_onsite -> to = from) -> builder_value (parts_of B H (displacement to from)) is_onsite to from = Value (target to from).
Proof.
move=> Hon. rewrite /LandauModel.builder_value. set ps := parts_of _ _ _. set names := arg_names ps. set isp := has _ names.
have Pin p : List.In p ps -> List.In p (parts H) /\ part_kind p = displacement to from by move/In_filter=> [H1 /eqP H2].
have NB : ~~ isp -> has_B (String.concat ", " names) = false.
{ move=> Hi. apply/negP. rewrite has_B_concat => /has_In[x Hx Bx]. have [p Hp Hxp] := proj1 (In_flatten _ _ _) Hx.
  have [t [w [Ht _ Ep]]] := part_spec (proj1 (Pin _ Hp)). have XB : x <> "B"%string.
  { move=> E. case/negP: Hi. apply/has_In. exists x => //. by rewrite E. }
  have Xt : List.In x (t_params t). { move: Hxp. rewrite Ep /=. case: (t_momenta t) => // _ _ [E|//]. by case: XB. }
  case: (Hnames Ht Xt) => // Hn. apply: Hn. by apply/has_B_In. }
have -> : ~~ isp && has_B (String.concat ", " names) = false by case Ei: isp NB => //= ->.
set field := if isp then B else 1. set idx := if _ then _ else _.
rewrite (@sum_parts_ok ps idx%:Z field from.1 (fun p => V (p_ladder p) to from)); first by rewrite target_kind.
move=> p Hp. have [Hp1 Hp2] := Pin p Hp. have [t [w [Ht Hw Ep]]] := part_spec Hp1.
have Hsz : (size w.2 <= 6)%N. { rewrite (expand_size (proj1 (In_mem _ _) Hw)). exact: momenta_le. }
have Hk : tot (ladder_term w.2) = to.2%:Z - from.2%:Z by have := congr1 snd Hp2; rewrite Ep /part_kind /tot /= => ->.
case Ei: isp.
- (* B is a parameter *)
  have Ef : field = B by rewrite /field Ei. rewrite Ef. have Eidx : idx = if B < 0 then to.2 else from.2.
  { rewrite /idx Ef. move: Hon. case: (is_onsite) => //= E. by rewrite E //; case: ifP. }
  rewrite Eidx Ep /= /V. case: ifP => HB; rewrite (@evaluate_correct _ _ _ (if B < 0 then from.2 else to.2)) //; rewrite ?HB //; lia.
- (* no ladder operators *)
  have E0 : t_momenta t = [::].
  { case Em: (t_momenta t) => //. exfalso. move: Ei. suff -> : isp by []. apply/has_In. exists "B"%string; last by rewrite String.eqb_refl.
    apply/In_flatten. exists p => //. rewrite Ep Em /=. by left. }
  have Ew : w.2 = [::]. { have := expand_size (proj1 (In_mem _ _) Hw). rewrite E0 /=. by case: (w.2). }
  rewrite Ew in Hk Ep. have Eto : to.2 = from.2 by move: Hk; rewrite /ladder_term tot_cons tot_nil; lia.
  have Z : [seq - i | i <- [:: 0]] = [:: 0] :> seq int by rewrite /= oppr0.
  rewrite Ep [p_ladder _]/= /evaluate_ladder_term Z (_ : (idx%:Z < 0) = false) //. have -> : (if field < 0 then [:: 0] else [:: 0]) = [:: 0] :> seq int by case: ifP.
  rewrite /= sqrtC1 mul1r /V Z /word_op /= /iop /= /level Eto eqxx. by case: ifP.
Qed.
Lemma kinds_In k : k \in kinds B H <-> exists2 p, List.In p (parts H) & part_kind p = k.
Proof. by rewrite /kinds mem_undup -In_mem In_map. Qed.
Lemma target_out to from : displacement to from \notin kinds B H -> target to from = 0.
Proof.
move=> Hk. rewrite target_kind. have -> : parts_of B H (displacement to from) = [::]; last by rewrite big_nil.
rewrite /parts_of. case E: [seq p <- _ | _] => [|p ps] //. exfalso. case/negP: Hk. apply/kinds_In. exists p; have : List.In p [seq p <- parts H | part_kind p == displacement to from] by rewrite E; left.
- by move/In_filter=> [].
- by move/In_filter=> [_ /eqP].
Qed.
Hypothesis Hherm : forall to from, target to from = dagger (target from to).
Lemma entry_target N to from : (to.2 < N)%N -> (from.2 < N)%N -> entry N H to from = Value (target to from).
Proof.
move=> HN1 HN2. rewrite /LandauModel.entry HN1 HN2 /=. case: eqP => [->|Hne].
{ have D0 : displacement from from = (0, 0) by rewrite /displacement !subrr. case: ifP => Hk; first by rewrite -[(0, 0)]D0 value_ok.
  by rewrite target_out // D0 Hk. }
have D0 : displacement to from != (0, 0). { apply/eqP=> [[H1 H2]]. apply: Hne. case: to from H1 H2 {HN1 HN2} => [a b] [c d] /= H1 H2. have -> : a = c by lia. by have -> : b = d by lia. }
have D1 : displacement from to != (0, 0). { apply/eqP=> [[H1 H2]]. apply: Hne. case: to from H1 H2 {HN1 HN2 D0} => [a b] [c d] /= H1 H2. have -> : a = c by lia. by have -> : b = d by lia. }
rewrite /settings /=. set acc := apply_setting _ _ _ _.
have F ks acc0 : foldl (apply_setting to from) acc0 [seq mkSetting k (builder_value (parts_of B H k) false) | k <- ks] =
  if (displacement to from \in ks) || (displacement from to \in ks) then Value (target to from) else acc0.
{ elim: ks acc0 => [|k ks IH] acc0 //=. rewrite IH !inE /apply_setting /=. case: (boolP (_ \in ks)) => H1 /=; first by rewrite orbT. case: (boolP (displacement from to \in ks)) => H2 /=; first by rewrite !orbT.
  rewrite !orbF. case: eqP => E1 /=; first by rewrite -E1 value_ok. case: eqP => E2 //=. by rewrite -E2 value_ok //= [in RHS]Hherm. }
rewrite F !mem_filter D0 D1 /=. case: ifP => // /negbT. rewrite negb_or => /andP[N1 N2].
have T0 := target_out N1. rewrite T0 /acc /apply_setting /=. case: ifP => _ //. case: ifP => _ //=. congr Value. apply/matrixP=> i j. by rewrite !mxE conjC0.
Qed.
End Props.

(** ** The matrix elements *)
(** In a positive (or no) field, the Hamiltonian between any two sites is the exact matrix
    element: there are no errors from the truncation to N levels *)
Theorem C70_exact (C : numClosedFieldType) q (B : C) (H : seq (term C q)) N (to from : lsite) : 0 <= B -> degree_le 6 H -> names_ok H -> hermitian B H ->
  (to.2 < N)%N -> (from.2 < N)%N -> entry B N H to from = Value (exact B H to from).
Proof.
move=> HB Hd Hn Hh H1 H2. have HB' : (B < 0) = false by apply/negP => X; have := le_lt_trans HB X; rewrite ltxx.
rewrite (entry_target (B := B) Hd Hn _ H1 H2); first by rewrite /target HB'.
move=> t f. rewrite /target HB'. apply/matrixP=> i j. by rewrite !mxE Hh.
Qed.
(** In a negative field, the indices of the two Landau levels are exchanged *)
Theorem C70_negative (C : numClosedFieldType) q (B : C) (H : seq (term C q)) N z z' m n : B < 0 -> degree_le 6 H -> names_ok H -> hermitian B H ->
  (m < N)%N -> (n < N)%N -> entry B N H (z, m) (z', n) = Value (exact B H (z, n) (z', m)).
Proof.
move=> HB Hd Hn Hh H1 H2. rewrite (entry_target (B := B) Hd Hn) //; last first.
{ move=> t f. rewrite /target HB. apply/matrixP=> i j. by rewrite !mxE Hh. }
by rewrite /target HB.
Qed.
(** No other sites *)
Theorem C70_sites (C : numClosedFieldType) q (B : C) (H : seq (term C q)) N (to from : lsite) : entry B N H to from <> NoSite C q -> (to.2 < N)%N /\ (from.2 < N)%N.
Proof. rewrite /entry. case: (to.2 < N)%N; case: (from.2 < N)%N => //=. Qed.

(** ** The operators are those of a particle in a magnetic field: [k_0, k_1] = -i B *)
Lemma ladder_comm (C : numClosedFieldType) (psi : state C) n : lower (raise psi) n - raise (lower psi) n = psi n.
Proof.
have S k : sqrtC k%:R * sqrtC k%:R = k%:R :> C by rewrite -expr2 sqrtCK.
case: n => [|n]; rewrite /lower /raise /= ?subr0 mulrA S ?mul1r //. rewrite mulrA S -mulrBl -natrB // subSnn mul1r //.
Qed.
Lemma scale_sq (C : numClosedFieldType) (B : C) : sqrtC (`|B| / 2%:R) * sqrtC (`|B| / 2%:R) = `|B| / 2%:R.
Proof. by rewrite -expr2 sqrtCK. Qed.
Lemma lin_lower (C : numClosedFieldType) (c d : C) (f g : state C) n : lower (fun k => c * f k + d * g k) n = c * lower f n + d * lower g n.
Proof. by rewrite /lower mulrDr !(mulrCA (sqrtC _)). Qed.
Lemma lin_raise (C : numClosedFieldType) (c d : C) (f g : state C) n : raise (fun k => c * f k + d * g k) n = c * raise f n + d * raise g n.
Proof. case: n => [|n] /=; first by rewrite !mulr0 addr0. by rewrite /raise mulrDr !(mulrCA (sqrtC _)). Qed.
Lemma momentum_lin (C : numClosedFieldType) (B : C) k (psi : state C) : momentum_operator B k psi =1
  fun n => (match k with K0 => sqrtC (`|B| / 2%:R) | K1 => if B < 0 then - ('i * sqrtC (`|B| / 2%:R)) else 'i * sqrtC (`|B| / 2%:R) end) * lower psi n
         + (match k with K0 => sqrtC (`|B| / 2%:R) | K1 => if B < 0 then 'i * sqrtC (`|B| / 2%:R) else - ('i * sqrtC (`|B| / 2%:R)) end) * raise psi n.
Proof. move=> n. rewrite /momentum_operator. case: k; case: ifP => _; rewrite ?mulrDr ?mulrN ?mulNr // addrC //. Qed.
Lemma momentum2 (C : numClosedFieldType) (B : C) k k' (psi : state C) n : let cl k := (match k with K0 => sqrtC (`|B| / 2%:R) | K1 => if B < 0 then - ('i * sqrtC (`|B| / 2%:R)) else 'i * sqrtC (`|B| / 2%:R) end) in
  let cr k := (match k with K0 => sqrtC (`|B| / 2%:R) | K1 => if B < 0 then 'i * sqrtC (`|B| / 2%:R) else - ('i * sqrtC (`|B| / 2%:R)) end) in
  momenta_operator B [:: k; k'] psi n = cl k * (cl k' * lower (lower psi) n + cr k' * lower (raise psi) n) + cr k * (cl k' * raise (lower psi) n + cr k' * raise (raise psi) n).
Proof.
move=> cl cr. rewrite /momenta_operator /= momentum_lin -/(cl k) -/(cr k). by rewrite (lower_ext (momentum_lin B k' psi)) (raise_ext (momentum_lin B k' psi)) lin_lower lin_raise.
Qed.
Section RingIdentities.
Variables (T : Type) (zero one : T) (add mul sub : T -> T -> T) (opp : T -> T).
Hypothesis th : ring_theory zero one add mul sub opp (@eq T).
Add Ring T_ring : th.
Infix "+!" := add (at level 50, left associativity).
Infix "-!" := sub (at level 50, left associativity).
Infix "*!" := mul (at level 40, left associativity).
Lemma comm_neg (s i X Y P Q : T) : s *! (opp (i *! s) *! X +! i *! s *! P) +! s *! (opp (i *! s) *! Q +! i *! s *! Y) -! (opp (i *! s) *! (s *! X +! s *! P) +! i *! s *! (s *! Q +! s *! Y)) = (one +! one) *! (i *! (s *! s)) *! (P -! Q).
Proof. ring. Qed.
Lemma comm_pos (s i X Y P Q : T) : s *! (i *! s *! X +! opp (i *! s) *! P) +! s *! (i *! s *! Q +! opp (i *! s) *! Y) -! (i *! s *! (s *! X +! s *! P) +! opp (i *! s) *! (s *! Q +! s *! Y)) = opp ((one +! one) *! (i *! (s *! s)) *! (P -! Q)).
Proof. ring. Qed.
Lemma level_id (s X Y P Q a a' : T) : a *! a = opp (s *! s) -> a' = opp a -> s *! (s *! X +! s *! P) +! s *! (s *! Q +! s *! Y) +! (a *! (a *! X +! a' *! P) +! a' *! (a *! Q +! a' *! Y)) = (one +! one) *! (s *! s) *! (P +! Q).
Proof.
move=> E ->. have -> : a *! (a *! X +! opp a *! P) +! opp a *! (a *! Q +! opp a *! Y) = (a *! a) *! (X -! P -! Q +! Y) by ring. rewrite E. ring.
Qed.
End RingIdentities.
Lemma R_theory (R : comRingType) : ring_theory (0 : R) 1 (fun x y => x + y) (fun x y => x * y) (fun x y => x - y) (fun x => - x) (@eq R).
Proof. split=> *; rewrite ?add0r ?mul1r ?mulrDl ?subrr //; by [rewrite addrC|rewrite addrA|rewrite mulrC|rewrite mulrA]. Qed.
Theorem C70_commutator (C : numClosedFieldType) (B : C) (psi : state C) n : B \is Num.real ->
  momenta_operator B [:: K0; K1] psi n - momenta_operator B [:: K1; K0] psi n = - ('i * B * psi n).
Proof.
move=> HR. rewrite !momentum2 /=. set s := sqrtC _. set X := lower (lower psi) n. set Y := raise (raise psi) n. rewrite -[psi n]ladder_comm. set P := lower (raise psi) n. set Q := raise (lower psi) n.
have Es : s * s = `|B| / 2%:R := scale_sq B.
have E2 : 'i * `|B| = 2%:R * ('i * (s * s)) by rewrite Es mulrCA [2%:R * _]mulrC divfK ?pnatr_eq0.
case: ifP => HB.
- have -> : - ('i * B * (P - Q)) = 2%:R * ('i * (s * s)) * (P - Q) by rewrite -E2 ltr0_norm // mulrN mulNr.
  exact: (comm_neg (R_theory [comRingType of C])).
- have HB' : 0 <= B by rewrite real_leNgt ?HB ?real0.
  have -> : - ('i * B * (P - Q)) = - (2%:R * ('i * (s * s)) * (P - Q)) by rewrite -E2 ger0_norm.
  exact: (comm_pos (R_theory [comRingType of C])).
Qed.

Print Assumptions C70_exact.
Print Assumptions C70_negative.
Print Assumptions C70_sites.
Print Assumptions C70_commutator.
