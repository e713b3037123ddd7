(** * C61, C62: a chain. *)
From mathcomp Require Import all_ssreflect all_algebra all_fingroup all_field.
From Verif Require Import Zmod LeadsModel LeadsSpec LeadsProofs LeadsProps LeadsClusters LeadsModes LeadsModes2 LeadsTotal LeadsSelf LeadsProps2 LeadsProps3.
Set Implicit Arguments. Unset Strict Implicit. Unset Printing Implicit Defensive.
Import Order.Theory GRing.Theory Num.Theory.
Local Open Scope ring_scope.

(** A chain (h = 0, hopping 1) at zero energy: its self-energy is - i *)
Section Example.
Let svd n (A : 'M[algC]_n) : 'M[algC]_n * 'rV[algC]_n * 'M[algC]_n := (1%:M, const_mx 1, A).
Let good n (A : 'M[algC]_n) : bool := A \in unitmx.
Let near (x y : algC) : bool := x == y.
Let angle (z : algC) : algC := 'Re z + (if 0 <= 'Im z then 0 else 5%:R).
Let qr m c (A : 'M[algC]_(m, c)) : option ('M[algC]_(m, c) * 'M[algC]_c) :=
  let s := sqrtC (\sum_i \sum_j `|A i j| ^+ 2) in let q := s^-1 *: A in if (adj q *m q == 1%:M) && (A == q *m s%:M) then Some (q, s%:M) else None.
Let eigh c (A : 'M[algC]_c) : option ('rV[algC]_c * 'M[algC]_c) :=
  let w := \row_i A i i in if [&& A == diag_mx w, [forall i, w 0 i \is Num.real] & [forall i : 'I_c, forall j : 'I_c, (i <= j)%N ==> (w 0 i <= w 0 j)]] then Some (w, 1%:M) else None.
Let lam : 'rV[algC]_2 := \row_j (if j == 0 then 'i else - 'i).
Let eig k (a : 'M[algC]_(k + k)) (b : option 'M[algC]_(k + k)) : eigdata [numClosedFieldType of algC] k := Eigdata lam (col_mx (\matrix_(i, j) lam 0 j) (const_mx 1)) 0.
Let hop : 'M[algC]_(1 + 0, 1) := const_mx 1.
Lemma ex_angle_inj x y : `|x| = 1 -> `|y| = 1 -> angle x = angle y -> x = y.
Proof.
have N (z : algC) : `|z| = 1 -> 'Re z ^+ 2 + 'Im z ^+ 2 = 1 by move=> E; rewrite -normC2_Re_Im E expr1n.
have B (z : algC) : `|z| = 1 -> -1 <= 'Re z /\ 'Re z <= 1.
  move=> /N E. apply/andP. rewrite -real_ler_norml ?Creal_Re // -(@ler_pexpn2r _ 2) ?nnegrE // expr1n real_normK ?Creal_Re // -E ler_addl real_exprn_even_ge0 ?Creal_Im //.
have D (a b : algC) : -1 <= a /\ a <= 1 -> -1 <= b /\ b <= 1 -> a <> b + 5%:R.
  move=> [_ H1] [H2 _] E. have : 5%:R - 1 <= 1 :> algC. { apply: le_trans H1. rewrite E addrC ler_add2r. exact: H2. }
  by rewrite ler_subl_addr -[1 + 1]/(2%:R) ler_nat.
move=> Hx Hy E.
have [S1 S2] : (0 <= 'Im x) = (0 <= 'Im y) /\ 'Re x = 'Re y.
  move: E. rewrite /angle. case: ifP => H1; case: ifP => H2; rewrite ?addr0 => E; split=> //.
  - by case: (D _ _ (B _ Hx) (B _ Hy) E).
  - by case: (D _ _ (B _ Hx) (B _ Hy) E).
  - by case: (D _ _ (B _ Hy) (B _ Hx) (esym E)).
  - by case: (D _ _ (B _ Hy) (B _ Hx) (esym E)).
  - exact: addIr E.
have E2 : 'Im x ^+ 2 = 'Im y ^+ 2. { have := N _ Hx. by rewrite -(N _ Hy) S2 => /addrI. }
rewrite [x]Crect [y]Crect S2. congr (_ + _ * _). move/eqP: E2. rewrite eqf_sqr => /orP [/eqP//|/eqP E2]. move: S1. rewrite E2 oppr_ge0.
case: (real_ltgtP (Creal_Im y) (real0 _)) => [H|H|->]; rewrite ?oppr0 //; by rewrite (ltW H) (lt_geF H).
Qed.
Lemma ex_hop : row_mx hop (0 : 'M_(1 + 0, 0)) = 1%:M.
Proof.
apply/matrixP=> i j. rewrite !mxE. case: splitP => [j' _|[]//]. rewrite mxE. have -> : i = j; last by rewrite eqxx. by rewrite (ord1 (i : 'I_1)) (ord1 (j : 'I_1)).
Qed.
Lemma ex_qr m c (A : 'M[algC]_(m, c)) y : qr A = Some y -> qr_of A y.
Proof. rewrite /qr. by case: ifP => // /andP [/eqP H1 /eqP H2] [<-]. Qed.
Lemma ex_eigh c (A : 'M[algC]_c) y : hermitian A -> eigh A = Some y -> eigh_of A y.
Proof.
move=> _. rewrite /eigh. case: ifP => // /and3P [/eqP H1 /forallP H2 /forallP H3] [<-]. split=> //=.
- by split; rewrite -hcE hc1 mulmx1.
- by rewrite mulmx1 mul1mx.
- move=> i j Hij. have /forallP/(_ j)/implyP := H3 i. exact.
Qed.
Lemma ex_qr_total c (A : 'M[algC]_(1 + 0, c)) : injective_mx A -> exists y, qr A = Some y.
Proof.
move=> H. have := inj_le H. case: c A H => [|[|//]] A H _; rewrite /qr.
- have -> : (adj ((sqrtC (\sum_i \sum_j `|A i j| ^+ 2))^-1 *: A) *m ((sqrtC (\sum_i \sum_j `|A i j| ^+ 2))^-1 *: A) == 1%:M) by apply/eqP/matrixP; case.
  have -> : (A == (sqrtC (\sum_i \sum_j `|A i j| ^+ 2))^-1 *: A *m (sqrtC (\sum_i \sum_j `|A i j| ^+ 2))%:M) by apply/eqP/matrixP=> ? [].
  by eexists.
- have -> : \sum_i \sum_j `|A i j| ^+ 2 = `|A 0 0| ^+ 2 by rewrite (big_ord1 _ (fun i => \sum_j `|A i j| ^+ 2)) big_ord1.
  have N : `|A 0 0| != 0. { rewrite normr_eq0. apply/eqP => E. have /matrixP/(_ 0 0) : (1%:M : 'cV[algC]_1) = 0. apply: H. apply/matrixP=> i j. by rewrite mulmx1 [RHS]mxE -[RHS]E (ord1 (i : 'I_1)) ord1. rewrite !mxE => /eqP. by rewrite oner_eq0. }
  rewrite sqrCK ?normr_ge0 //. have -> : (adj (`|A 0 0|^-1 *: A) *m (`|A 0 0|^-1 *: A) == 1%:M).
    apply/eqP/matrixP=> i j. rewrite mxE (big_ord1 _ (fun l => adj _ i l * (_ *: A) l j)) !ord1 !mxE eqxx mulr1n rmorphM /= mulrACA [(A _ _)^* * _]mulrC -normCK conj_Creal ?realV ?normr_real //.
    by rewrite -invfM -expr2 mulVf // expf_neq0.
  have -> : (A == `|A 0 0|^-1 *: A *m (`|A 0 0|)%:M) by rewrite mul_mx_scalar scalerA mulfV // scale1r.
  by eexists.
Qed.
Lemma ex_eigh_total c (A : 'M[algC]_c) : (c <= 1 + 0)%N -> hermitian A -> exists y, eigh A = Some y.
Proof.
case: c A => [|[|//]] A _ Hh; rewrite /eigh.
- have -> : A == diag_mx (\row_i A i i) by apply/eqP/matrixP; case. have -> : [forall i, (\row_i A i i) 0 i \is Num.real] by apply/forallP; case.
  have -> : [forall i : 'I_0, forall j : 'I_0, (i <= j)%N ==> ((\row_i A i i) 0 i <= (\row_i A i i) 0 j)] by apply/forallP; case. by eexists.
- have -> : A == diag_mx (\row_i A i i) by apply/eqP/matrixP=> i j; rewrite !mxE !ord1 eqxx.
  have -> : [forall i, (\row_i A i i) 0 i \is Num.real] by apply/forallP => i; rewrite mxE; apply/CrealP; move/matrixP/(_ i i): Hh; rewrite mxE.
  have -> : [forall i : 'I_1, forall j : 'I_1, (i <= j)%N ==> ((\row_i A i i) 0 i <= (\row_i A i i) 0 j)] by apply/forallP => i; apply/forallP => j; rewrite !ord1 lexx implybT. by eexists.
Qed.
Lemma ex_setup : setup_linsys svd good good (0 : 'M_(1 + 0)) (row_mx hop 0) None = inl (linsys_regular 0 1%:M).
Proof.
rewrite /setup_linsys ex_hop. have -> : (1%:M == 0 :> 'M[algC]_(1 + 0)) = false by apply/eqP => /matrixP/(_ 0 0)/eqP; rewrite !mxE oner_eq0.
rewrite /svd. have -> : n_nonsing (const_mx 1 : 'rV[algC]_(1 + 0)) = 1%N by rewrite /n_nonsing -[RHS](card_ord 1); apply: eq_card => i; rewrite !inE mxE ltr01.
by [].
Qed.
Lemma ex_eig L : setup_linsys svd good good (0 : 'M_(1 + 0)) (row_mx hop 0) None = inl L -> eig_of (lmat L) (odflt 1%:M (lmatb L)) (eig (lmat L) (lmatb L)).
Proof.
rewrite ex_setup => -[<-]. rewrite /linsys_regular /=.
have F1 : frob (1%:M : 'M[algC]_(1 + 0)) = 1.
  rewrite /frob (big_ord1 _ (fun i => \sum_j _)) (big_ord1 _ (fun j => `| _ |^+2)). by rewrite mxE eqxx normr1 expr1n sqrtC1.
rewrite F1 sqrtC1 invr1 !scale1r invmx1 mulmx0 hc1. 
rewrite /eig. split=> /=.
- rewrite !mul1mx mul_block_col mul_col_mx !mul0mx add0r addr0. congr (col_mx _ _).
  + rewrite mulNmx mul1mx mul_mx_diag. apply/matrixP=> i j. rewrite !mxE. case: ifP => _; by rewrite ?mulrNN -expr2 sqrCi.
  + rewrite mul1mx mul_mx_diag. apply/matrixP=> i j. by rewrite !mxE mul1r.
- move=> j. rewrite mxE. case: ifP => _; by rewrite ?normrN normCi.
- exists 0%N, 0%N, 0, 0, 0, 0. split=> //.
  + split; [by rewrite mulmx0 !mulmx0|by case|by case].
  + split; [by rewrite mulmx0 !mulmx0|by case|by case].
  + by move=> i [].
  + move=> x. rewrite -[x]vsubmxK -[usubmx x]vsubmxK !mul_row_col !mul0mx add0r addr0 mul_col_mx -[in RHS]col_mx0 => /eq_col_mx [H1 H2].
    move: H1 H2. set y := dsubmx (usubmx x) => /matrixP/(_ 0 0) H1 /matrixP/(_ 0 0) H2.
    have U0 : usubmx (usubmx x) = 0 by apply/matrixP; case. have D0 : dsubmx x = 0 by apply/matrixP; case.
    suff Y0 : y = 0 by rewrite U0 D0 Y0 !col_mx0.
    clearbody y. clear U0 D0 x. rewrite mxE big_ord_recl big_ord1 [RHS]mxE in H1. rewrite mxE big_ord_recl big_ord1 [RHS]mxE in H2.
    move: H1 H2. rewrite !mxE /=. rewrite !mul1r mulNr -mulrBr => /eqP. rewrite mulf_eq0 (negPf (neq0Ci _)) subr_eq0 /= => /eqP H1. rewrite H1 => /eqP. rewrite -mulr2n mulrn_eq0 /= => /eqP H2.
    rewrite H2 in H1. apply/matrixP=> i j. rewrite [RHS]mxE ord1. case: (unliftP ord0 i) => [i' ->|->]; last exact: H1. by rewrite (ord1 i').
Qed.
Example C62_chain : exists lm, modes svd good good near angle qr eigh eig (0 : 'M_(1 + 0)) hop None = inl lm /\ selfenergy (lm_stab lm) = Some (- 'i)%:M.
Proof.
have S : svd_of (row_mx hop (0 : 'M_(1 + 0, 0))) (svd (row_mx hop 0)).
  rewrite ex_hop. have U1 : unitary (1%:M : 'M[algC]_(1 + 0)) by split; rewrite -hcE hc1 mulmx1.
  split=> //; [by rewrite diag_const_mx !mulmx1|by move=> i; rewrite mxE ler01|by move=> i j _; rewrite !mxE].
have Ra x : angle x \is Num.real by rewrite realD ?Creal_Re //; case: ifP => _; rewrite ?real0 ?realn.
have Hs s0 : None <> Some (s0 : option bool, true) by [].
have Hh : hermitian (0 : 'M[algC]_(1 + 0)) by rewrite /hermitian -hcE hc0.
have Nf phi : ~ flat_state (0 : 'M[algC]_(1 + 0)) (row_mx hop (0 : 'M_(1 + 0, 0))) phi by rewrite ex_hop => -[/eqP N _]; rewrite mul1mx.
have [lm [E1 E2 E3 V1 V2]] := @C61_total _ svd good good near angle qr eigh eig (fun _ _ => erefl) (fun _ _ H => H) (fun _ _ => erefl) Ra ex_angle_inj ex_qr ex_eigh 1%N 0%N 0 hop None S ex_qr_total ex_eigh_total Hs Hh ex_eig Nf.
exists lm. split=> //.
have [mu [e [G [K [[M1 [M2 M3]] [UK NK Ei] Q1 Q2]]]]] := @C62_selfenergy _ svd good good near angle qr eigh eig (fun _ _ => erefl) (fun _ _ H => H) (fun _ _ => erefl) Ra ex_angle_inj ex_qr ex_eigh 1%N 0%N 0 hop None S ex_qr_total ex_eigh_total Hs Hh ex_eig lm Nf E1.
have [Ek Er] : st_k (lm_stab lm) = 1%N /\ lm_r lm = 2%N.
  move: E1. rewrite /modes. have -> : (hop == 0) = false by apply/eqP => /matrixP/(_ 0 0)/eqP; rewrite !mxE oner_eq0. 
  rewrite ex_setup. case: (make_proper_modes _ _ _ _ _ _) => // p [<-]. by [].
have En : st_nmodes (lm_stab lm) = 1%N by move: E2; rewrite Er addnn => /eqP; rewrite -[2%N]/(1.*2) eqn_leq !leq_double -eqn_leq => /eqP <-.
have Ee : e = 0%N by move: M3; rewrite En Ek => /eqP; rewrite -[X in _ == X]addn0 eqn_add2l => /eqP.
subst e. case ES: (selfenergy (lm_stab lm)) => [Sg|]; last first. { have [d Nd _] := Q1.1 ES. case: Nd. apply/matrixP. by case. }
have [[c [d [Hr Hhalf]]] P2] := Q2 _ ES 1%:M. have [P3 P4] := P2 _ _ Hr Hhalf. clear P2 Q2 Q1.
have H1 : (1 < lm_r lm)%N by rewrite Er. pose i1 := Ordinal H1. pose w := lm_wf lm 0 i1. pose mu1 := mu 0 i1. pose c1 := c i1 0.
have Out j : (propagating (lm_wf lm) mu c j + evanescent G K d j) 0 0 = c1 * mu1^-1 ^+ j.+1 * w.
  have -> : evanescent G K d j = 0 by rewrite /evanescent (_ : G = 0) ?mul0mx //; apply/matrixP=> ? []. rewrite addr0 /propagating (bigD1 i1) //= big1 ?addr0; first by rewrite !mxE.
  move=> i Hi. rewrite Hr ?mul0r ?scale0r //. apply: V1. rewrite En. move: Hi. rewrite -val_eqE /= => Hi. have := ltn_ord i. rewrite {2}Er. by case: (val i) Hi => [|[|]].
have A1 : hc (1%:M : 'M[algC]_(1 + 0)) = 1%:M by apply: hc1.
have N1 : mu1 != 0 by rewrite -normr_eq0 (M1 i1).1 oner_neq0.
have /bloch_stateE B := M2 i1. move: (B N1). rewrite ex_hop A1 mul0mx add0r !mul1mx -scalerDl => /matrixP/(_ 0 0). rewrite !mxE -/w -/mu1 => Bw.
have [H0 _] := Hhalf. move: H0. rewrite ex_hop -hcE A1 mul1mx mul0mx add0r mulmx1 => /matrixP/(_ 0 0). rewrite [LHS]mxE Out [hop _ _]mxE [RHS]mxE => H0.
have Nw : w != 0. { apply/eqP => Ew. move: H0. rewrite Ew mulr0 addr0 => /eqP. by rewrite oner_eq0. }
have Em : mu1^-1 = - mu1. { move/eqP: Bw. rewrite mulf_eq0 (negPf Nw) orbF addrC addr_eq0 => /eqP. by []. }
have Em2 : mu1 ^+ 2 = - 1. { have := mulfV N1. rewrite Em mulrN -expr2 => <-. by rewrite opprK. }
have Ecw : c1 * w = 1. { move: H0. rewrite Em sqrrN Em2 mulrN1 mulNr => /eqP. by rewrite subr_eq0 => /eqP. }
have Es : Sg 0 0 = - mu1.
  move/matrixP/(_ 0 0): P3. rewrite mulmx1 [LHS]mxE (big_ord1 _ (fun l => adj hop 0 l * (propagating (lm_wf lm) mu c 0 + evanescent G K d 0) l 0)) Out !mxE rmorph1 mul1r expr1 mulrAC Ecw mul1r Em. by [].
have Ea : adj (1%:M : 'M[algC]_1) = 1%:M by rewrite -hcE hc1.
move: P4. rewrite Ea mul1mx mulmx1 mxE [X in _ * X]mxE [X in _ * (_ + X)]mxE [X in _ * (_ - X)]mxE Es => P4.
have P5 : 0 <= 'i * (- mu1 - (- mu1)^*) by rewrite P4; apply: sumr_ge0 => i _; apply: exprn_ge0.
have Emu : mu1 = 'i.
  move/eqP: Em2. rewrite -sqrCi eqf_sqr => /orP [/eqP//|/eqP Em']. move: P5. rewrite Em' opprK conjCi opprK -mulr2n mulrnAr -expr2 sqrCi mulNrn oppr_ge0. by rewrite lern0.
congr Some. apply/matrixP=> i j. by rewrite !ord1 Es Emu mxE eqxx mulr1n.
Qed.
End Example.
