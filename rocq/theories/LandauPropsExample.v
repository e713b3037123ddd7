(** * C70: examples and findings. *)
From Coq Require Import String Ascii Lia.
From mathcomp Require Import all_ssreflect all_algebra zify.
From Verif Require Import LandauModel LandauSpec LandauProofs LandauProps.
Set Implicit Arguments. Unset Strict Implicit. Unset Printing Implicit Defensive.
Import Order.Theory GRing.Theory Num.Theory.
Local Open Scope ring_scope.

Section Example.
Variable C : numClosedFieldType.
Lemma lower_level n m : lower (level C n) m = if m.+1 == n then sqrtC n%:R else 0.
Proof. rewrite /lower /level. case: eqP => [<-|_]; by rewrite ?mulr1 ?mulr0. Qed.
Lemma raise_level n m : raise (level C n) m = lower (level C m) n.
Proof. rewrite lower_level. case: m => [|m] //=; rewrite /raise /level eqSS eq_sym. by case: ifP; rewrite ?mulr1 ?mulr0. Qed.
Lemma sqrt_sq k : sqrtC k%:R * sqrtC k%:R = k%:R :> C. Proof. by rewrite -expr2 sqrtCK. Qed.
Lemma lower_raise n m : lower (raise (level C n)) m = m.+1%:R * (m == n)%:R.
Proof. by rewrite /lower /raise mulrA sqrt_sq. Qed.
Lemma raise_lower n m : raise (lower (level C n)) m = m%:R * (m == n)%:R.
Proof. case: m => [|m]; rewrite /raise ?mul0r // /lower mulrA sqrt_sq //. Qed.

Lemma exact2 q (B : C) (t u : term C q) to from : exact B [:: t; u] to from =
  (if t_offset t == to.1 - from.1 then matrix_element B (t_momenta t) to.2 from.2 *: t_coef t from.1 else 0) +
  (if t_offset u == to.1 - from.1 then matrix_element B (t_momenta u) to.2 from.2 *: t_coef u from.1 else 0).
Proof. rewrite /exact !big_cons big_nil. case: ifP => _; case: ifP => _; by rewrite ?addr0 ?add0r. Qed.
(** Free electrons: the Landau levels |B| (2 n + 1), for both signs of the field *)
Definition free : seq (term C 1) := [:: mkTerm 0 [:: K0; K0] (fun _ => 1%:M) [::]; mkTerm 0 [:: K1; K1] (fun _ => 1%:M) [::]].
Lemma free_exact B (to from : lsite) : exact B free to from = if to == from then (`|B| * (2 * to.2 + 1)%:R)%:M else 0.
Proof.
have X m n : matrix_element B [:: K0; K0] m n + matrix_element B [:: K1; K1] m n = if m == n then `|B| * (2 * m + 1)%:R else 0.
{ rewrite /matrix_element !momentum2 /= lower_raise raise_lower. have Es := scale_sq B. set s := sqrtC _ in Es *.
  have Ei : ('i * s) * ('i * s) = - (s * s) by rewrite mulrACA -expr2 sqrCi mulN1r.
  rewrite (level_id (R_theory [comRingType of C])); last 2 first. { case: ifP => _; by rewrite ?mulrNN Ei. } { by case: ifP => _; rewrite ?opprK. }
  rewrite Es -[1 + 1]/(2%:R) [2%:R * _]mulrC divfK ?pnatr_eq0 // -mulrDl -natrD. case: ifP => _; rewrite ?mulr0 ?mulr1 //. congr (_ * _%:R). lia. }
rewrite exact2 [t_offset _]/= [t_momenta _]/= [t_coef _ _]/= [t_offset _]/= [t_momenta _]/= [t_coef _ _]/=. case: to from => [z m] [z' n]. rewrite xpair_eqE [(z, m).1]/= [(z, m).2]/= [(z', n).1]/= [(z', n).2]/=.
have -> : (0 == z - z') = (z == z') by lia. case: eqP => _ /=; last by rewrite addr0.
rewrite -scalerDl X. case: ifP => _; by rewrite ?scale0r // scale_scalar_mx mulr1.
Qed.
Lemma free_hermitian B : hermitian B free.
Proof.
move=> to from i j. rewrite !free_exact [from == to]eq_sym. case: eqP => [<-|_]; last by rewrite !mxE conjC0.
rewrite !mxE [j == i]eq_sym rmorphMn rmorphM /= conjC_nat. congr (_ * _ *+ _). by rewrite conj_Creal // normr_real.
Qed.
Theorem C70_levels B N z m n : B \is Num.real -> (m < N)%N -> (n < N)%N ->
  entry B N free (z, m) (z, n) = Value (if m == n then (`|B| * (2 * n + 1)%:R)%:M else 0).
Proof.
move=> HR Hm Hn. have Hd : degree_le 6 free by []. have Hna : names_ok free by move=> t name [<-|[<-|//]] [].
case: (real_ltP HR (real0 _)) => HB.
- rewrite C70_negative // ?free_exact ?xpair_eqE ?eqxx /=; last exact: free_hermitian. by rewrite [n == m]eq_sym.
- rewrite C70_exact // ?free_exact ?xpair_eqE ?eqxx /=; last exact: free_hermitian. by case: eqP => [->|].
Qed.

(** Hamiltonians linear in the momenta *)
Lemma real_lower n m : (lower (level C n) m)^* = lower (level C n) m.
Proof. rewrite lower_level. case: ifP => _; last by rewrite conjC0. by rewrite conj_Creal // ger0_real // sqrtC_ge0 ler0n. Qed.
Lemma real_scale (B : C) : (sqrtC (`|B| / 2%:R))^* = sqrtC (`|B| / 2%:R).
Proof. by rewrite conj_Creal // ger0_real // sqrtC_ge0 divr_ge0 // ler0n. Qed.
Lemma linear_hermitian (B : C) k m n : matrix_element B [:: k] m n = (matrix_element B [:: k] n m)^*.
Proof.
rewrite /matrix_element /= /momentum_operator !raise_level. case: k; case: ifP => _; rewrite rmorphM /= ?rmorphM ?rmorphD ?rmorphB /= !real_lower real_scale ?conjCi.
- by rewrite addrC. - by rewrite addrC. all: by rewrite rmorphN /= real_lower !mulNr -mulrN opprB.
Qed.
Lemma linear_opp (B : C) k m n : 0 < B -> matrix_element (- B) [:: k] m n = matrix_element B [:: k] n m.
Proof.
move=> HB. rewrite /matrix_element /= /momentum_operator !raise_level oppr_lt0 HB (lt_gtF HB) normrN. by case: k. Qed.
(** FINDING: for such Hamiltonians the sign of the field has no effect *)
Theorem C70_sign_lost q (H : seq (term C q)) B N to from : 0 < B -> degree_le 1 H -> names_ok H -> hermitian B H -> hermitian (- B) H ->
  (to.2 < N)%N -> (from.2 < N)%N -> entry (- B) N H to from = entry B N H to from.
Proof.
move=> HB Hd Hn H1 H2 Ht Hf. have Hd6 : degree_le 6 H by apply: sub_all Hd => t Hs; apply: leq_trans Hs _.
rewrite (C70_exact (ltW HB)) //. case: to from Ht Hf => [z m] [z' n] Ht Hf. rewrite C70_negative ?oppr_lt0 //. congr Value.
rewrite /exact /=. have : all (fun t => size (t_momenta t) <= 1)%N H := Hd. elim: (H) => [|t s IH] /=; first by rewrite !big_nil.
move=> /andP[Hs HA]. rewrite !big_cons IH //. case: ifP => // _. congr (_ *: _ + _). case: (t_momenta t) Hs => [|k [|//]] _; last exact: linear_opp.
by rewrite /matrix_element /= /level eq_sym.
Qed.
Lemma ME_K0 (B : C) m n : matrix_element B [:: K0] m n = sqrtC (`|B| / 2%:R) * (lower (level C n) m + lower (level C m) n).
Proof. rewrite /matrix_element /= /momentum_operator !raise_level. case: ifP => _ //. by rewrite addrC. Qed.
Lemma ME_K1 (B : C) m n : B < 0 -> matrix_element B [:: K1] m n = 'i * sqrtC (`|B| / 2%:R) * (lower (level C m) n - lower (level C n) m).
Proof. by move=> HB; rewrite /matrix_element /= /momentum_operator !raise_level HB. Qed.
(** the Pauli matrices, electrons with spin sigma_x k_x + sigma_y k_y *)
Definition sigma_x : 'M[C]_2 := \matrix_(i, j) (i != j)%:R.
Definition sigma_y : 'M[C]_2 := \matrix_(i, j) (if i == j then 0 else if i == 0 then - 'i else 'i).
Definition dirac : seq (term C 2) := [:: mkTerm 0 [:: K0] (fun _ => sigma_x) [::]; mkTerm 0 [:: K1] (fun _ => sigma_y) [::]].
Lemma dirac_hermitian (B : C) : hermitian B dirac.
Proof.
move=> to from i j. rewrite /dirac !exact2 [t_offset _]/= [t_momenta _]/= [t_offset _]/= [t_momenta _]/=.
have -> : (0 == from.1 - to.1) = (0 == to.1 - from.1) by lia. case: eqP => _; last by rewrite addr0 !mxE conjC0.
rewrite [t_coef _ _]/= [t_coef _ _]/= [t_coef _ _]/=. rewrite !mxE rmorphD /= !rmorphM /= -!linear_hermitian [j == i]eq_sym conjC_nat. congr (_ + _ * _).
case: i j => [[|[|//]] Hi] [[|[|//]] Hj] //=; by rewrite ?conjC0 ?rmorphN /= ?conjCi ?opprK.
Qed.
Theorem C70_negative_refuted : exists (H : seq (term C 2)) B N to from, [/\ B < 0, degree_le 6 H, names_ok H, hermitian B H &
  (to.2 < N)%N /\ (from.2 < N)%N /\ entry B N H to from <> Value (exact B H to from)].
Proof.
have H2 : - 2%:R < 0 :> C by rewrite oppr_lt0 ltr0n.
have Hna : names_ok dirac by move=> t name [<-|[<-|//]] [].
exists dirac, (- 2%:R), 2%N, (0, 1%N), (0, 0%N). split=> //; first exact: dirac_hermitian. split=> //. split=> //.
rewrite C70_negative //; last exact: dirac_hermitian. rewrite /dirac !exact2 [t_offset _]/= [t_momenta _]/= [t_offset _]/= [t_momenta _]/= [(0, _).1]/= [(0, _).1]/= subrr eqxx.
rewrite !(ME_K0 (- 2%:R)) !(ME_K1 _ _ H2) !lower_level /= normrN normr_nat divff ?pnatr_eq0 // !sqrtC1 !mul1r !add0r !addr0 !subr0 => [[]] /matrixP/(_ 0 1). rewrite !mxE /= !mulr1 mulrN1 mulrNN mulrN -!expr2 sqrCi opprK subrr.
by move/eqP; rewrite eq_sym -mulr2n pnatr_eq0.
Qed.
(** FINDING: monomials of high degree raise an error *)
Lemma expand_K0 (B : C) (w : seq letter) : exists c, List.In (c, w) (expand B (nseq (size w) K0)).
Proof.
elim: w => [|x w [c IH]]; first by exists 1; left. exists (field_scale B * c). apply/In_mem. apply/allpairsPdep.
exists (field_scale B, x), (c, w). split=> //=; last exact/In_mem. by case: x; rewrite !inE eqxx ?orbT.
Qed.
Lemma sum_parts_None q (ps : seq (part C q)) n field z p : List.In p ps -> evaluate_ladder_term (p_ladder p) n field = None -> sum_parts ps n field z = None.
Proof. elim: ps => //= p' ps IH [->|Hp] HN; first by rewrite HN. rewrite (IH Hp HN). by case: (evaluate_ladder_term _ _ _). Qed.
Theorem C70_degree_refuted B : 0 <= B -> let H := [:: mkTerm 0 (nseq 8 K0) (fun _ => 1%:M : 'M[C]_1) [::]] in entry B 2 H (0, 1%N) (0, 1%N) = ValueError C 1.
Proof.
move=> HB H. have HB' : (B < 0) = false by apply/negP => X; have := le_lt_trans HB X; rewrite ltxx.
set w := [:: Raise; Raise; Raise; Lower; Raise; Lower; Lower; Lower]. have [c Hc] := expand_K0 B w.
set p : part C 1 := mkPart 0 (ladder_term w) (fun z => c *: 1%:M) [:: "B"%string].
have Hp : List.In p (parts B H). { apply/In_flatten. eexists; first by left. apply/In_map. by exists (c, w). }
have Hk : part_kind p = (0, 0) by rewrite /part_kind /p /= !big_cons big_nil.
have Hps : List.In p (parts_of B H (0, 0)) by apply/In_filter; rewrite Hk.
rewrite /entry [(_ && _)%N]/= [~~ _]/= eqxx. have -> : (0, 0) \in kinds B H by apply/kinds_In; exists p.
have HI : has (String.eqb "B") (arg_names (parts_of B H (0, 0))). { apply/has_In. exists "B"%string => //. apply/In_flatten. exists p => //. by left. }
rewrite /builder_value HI /= (@sum_parts_None 1 _ _ _ _ p) //. by rewrite /evaluate_ladder_term /= HB'.
Qed.
(** FINDING: a name that contains the letter B, such as mu_B, raises an error *)
Theorem C70_name_refuted B : let H := [:: mkTerm 1 [::] (fun _ => 1%:M : 'M[C]_1) [:: "mu_B"%string]; mkTerm (-1) [::] (fun _ => 1%:M : 'M[C]_1) [:: "mu_B"%string]] in
  hermitian B H /\ degree_le 6 H /\ entry B 1 H (1, 0%N) (0, 0%N) = NameError C 1.
Proof.
have PK o f ps : part_kind (@mkPart C 1 o [:: 0] f ps) = (o, 0) by rewrite /part_kind /= big_seq1.
split; last first. { split=> //. rewrite /entry /= !PK /apply_setting /= /builder_value /parts_of /= !PK. by []. }
move=> to from i j. rewrite !exact2 [t_offset _]/= [t_offset _]/=.
have E : (1 == to.1 - from.1) = (-1 == from.1 - to.1) by lia. have E' : (-1 == to.1 - from.1) = (1 == from.1 - to.1) by lia.
have M a b : matrix_element B [::] a b = (a == b)%:R by []. rewrite E E' addrC [t_momenta _]/= [t_momenta _]/= !M [from.2 == to.2]eq_sym.
have F (b : bool) : (if b then (to.2 == from.2)%:R *: (1%:M : 'M[C]_1) else 0) i j = ((if b then (to.2 == from.2)%:R *: (1%:M : 'M[C]_1) else 0) j i)^*.
{ rewrite !ord1. case: b; rewrite !mxE ?conjC0 // rmorphM /= !conjC_nat. by []. }
by rewrite mxE F [X in _ + X]F -rmorphD [in RHS]mxE.
Qed.
End Example.

Print Assumptions C70_levels.
Print Assumptions C70_sign_lost.
Print Assumptions C70_negative_refuted.
Print Assumptions C70_degree_refuted.
Print Assumptions C70_name_refuted.
