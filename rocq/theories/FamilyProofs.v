(** * Proofs about the choice of the data of site families: linear algebra. *)
From Coq Require Import ZArith.
From mathcomp Require Import all_ssreflect all_algebra ssrZ.
From Verif Require Import SymmetryModel FamilyModel FamilySpec.
Set Implicit Arguments. Unset Strict Implicit. Unset Printing Implicit Defensive.
Import Order.Theory GRing.Theory Num.Theory.
Local Open Scope ring_scope.

Section Proofs.
Variable R : realFieldType.
Variables d l : nat.
Variable pinv : 'M[R]_(l.+1, d) -> 'M[R]_(d, l.+1).
Variable round : R -> int.
Variable svd_vh : forall k, 'M[R]_(k, d) -> 'M[R]_(k, d).
Variable norm : 'rV[R]_d -> R.
Variable argmax : ('I_l.+1 -> R) -> 'I_l.+1.
Hypothesis Hpinv : pinv_ok pinv.
Hypothesis Hround : round_ok round.
Hypothesis Hsvd : svd_ok svd_vh.
Hypothesis Hnorm : norm_ok norm.
Hypothesis Hargmax : argmax_ok argmax.
Variable prim : 'M[R]_(l.+1, d).
Hypothesis Hprim : row_free prim.
Notation intmx := (@intmx R _ _).

Lemma pinvP : prim *m pinv prim = 1%:M.
Proof. case: (Hpinv Hprim) => E _ _ _. by apply: (row_free_inj Hprim); rewrite /= E mul1mx. Qed.
Lemma half_int (n : int) : `|n%:~R : R| <= 2%:R^-1 -> n = 0.
Proof.
move=> H. apply/eqP; case: (eqVneq n 0) => // Hn. have {}Hn: 1 <= `|n| by rewrite -gtz0_ge1 normr_gt0.
have: (1 : R) <= 2%:R^-1. { apply: le_trans H. rewrite -intr_norm. by rewrite -[1]/(1%:~R) ler_int. }
by rewrite invf_ge1 ?ltr0n // lern1.
Qed.
Lemma round_int (n : int) : round n%:~R = n.
Proof. apply/eqP; rewrite eq_sym -subr_eq0; apply/eqP/half_int. by rewrite rmorphB /= Hround. Qed.
Lemma roundmx_int m n (A : 'M[int]_(m, n)) : roundmx round (intmx A) = A.
Proof. by apply/matrixP=> i j; rewrite !mxE round_int. Qed.
Lemma allclose_refl m n (rt at_ : R) (A : 'M[R]_(m, n)) : 0 <= at_ -> 0 <= rt -> allclose rt at_ A A.
Proof. by move=> Ha Hr; apply/forallP=> i; apply/forallP=> j; rewrite subrr normr0 addr_ge0 // mulr_ge0. Qed.
Lemma atol_ge0 : 0 <= default_atol R. Proof. by rewrite invr_ge0 exprn_ge0 // ler0n. Qed.
Lemma rtol_ge0 : 0 <= default_rtol R. Proof. by rewrite invr_ge0 exprn_ge0 // ler0n. Qed.
(** exactly commensurate periods *)
Lemma bravais_exact n (N : 'M[int]_(n, l.+1)) : bravais pinv round prim (intmx N *m prim) = Some (lists N).
Proof. by rewrite /bravais -mulmxA pinvP mulmx1 roundmx_int !allclose_refl ?lexx ?atol_ge0 ?rtol_ge0. Qed.

(** one more vector *)
Implicit Types rows : seq 'rV[int]_l.+1.
Lemma stack_row rows (i : 'I_(size rows)) : row i (intmx (stack rows)) = intmx (nth 0 rows i).
Proof. by apply/rowP=> j; rewrite !mxE. Qed.
Lemma stack_rcons rows v : (intmx (stack (rcons rows v)) :=: intmx (stack rows) + intmx v)%MS.
Proof.
apply/eqmxP/andP; split.
- apply/row_subP=> i. rewrite stack_row nth_rcons. case: ltnP => Hi.
  + by apply: submx_trans (addsmxSl _ _); rewrite -(stack_row (Ordinal Hi)) row_sub.
  + case: eqP => _; first exact: addsmxSr. rewrite (_ : intmx 0 = 0) ?sub0mx //. by apply/matrixP=> a b; rewrite !mxE.
- rewrite addsmx_sub; apply/andP; split.
  + apply/row_subP=> i. have Hi: (i < size (rcons rows v))%N by rewrite size_rcons ltnS ltnW.
    rewrite stack_row. by move: (stack_row (Ordinal Hi)); rewrite /= nth_rcons ltn_ord => <-; rewrite row_sub.
  + have Hi: (size rows < size (rcons rows v))%N by rewrite size_rcons.
    by move: (stack_row (Ordinal Hi)); rewrite /= nth_rcons ltnn eqxx => <-; rewrite row_sub.
Qed.
Lemma next_free rows : row_free (intmx (stack rows)) -> (size rows < l.+1)%N ->
  row_free (intmx (stack (rcons rows (next_vector svd_vh norm argmax prim rows)))).
Proof.
move=> HF Hs. set v := next_vector _ _ _ _ _. set S := intmx (stack rows).
have HA : row_free (S *m prim) by rewrite /row_free mxrankMfree.
have [VV VA] := Hsvd HA. set V := svd_vh _ in VV VA.
have Hv : ~~ (intmx v <= S)%MS.
{ apply/negP=> Hv. have Ev : intmx v = delta_mx 0 (argmax (fun j => norm (row j (residuals svd_vh prim rows)))).
  { apply/matrixP=> i j; rewrite !mxE. by case: andb. }
  have R0 : row (argmax (fun j => norm (row j (residuals svd_vh prim rows)))) (residuals svd_vh prim rows) = 0.
  { rewrite /residuals row_mul rowE -Ev. have : (intmx v *m prim <= V)%MS by rewrite VA submxMfree.
    case/submxP=> z ->. by rewrite mulmxBr mulmx1 -/S -/V -mulmxA (mulmxA V) VV mul1mx subrr. }
  have Z : residuals svd_vh prim rows = 0.
  { apply/row_matrixP=> j. rewrite row0. apply/(Hnorm _).2/eqP. rewrite eq_le (Hnorm _).1 andbT.
    apply: le_trans (Hargmax (fun j => norm (row j (residuals svd_vh prim rows))) j) _. by rewrite R0 (iffRL (Hnorm 0).2). }
  have : (prim <= V)%MS. { apply/submxP; exists (prim *m V^T). apply/eqP. rewrite -subr_eq0 -mulmxA -{1}[prim]mulmx1 -mulmxBr. by move/eqP: Z. }
  rewrite VA => /mxrankS. rewrite (eqP Hprim) mxrankMfree // => H. move: (leq_trans H (rank_leq_row S)). by rewrite leqNgt Hs. }
rewrite /row_free (stack_rcons _ _) size_rcons eqn_leq. apply/andP; split.
- apply: leq_trans (mxrank_adds_leqif _ _).1 _. rewrite -(addn1 (size rows)). apply: leq_add; exact: rank_leq_row.
- have : (S <= S + intmx v)%MS by apply: addsmxSl. move/mxrank_leqif_sup/ltn_leqif. rewrite (eqP HF) => ->.
  by apply: contra Hv => H; apply: submx_trans H; apply: addsmxSr.
Qed.
Lemma lt_aux a f b : (a + f.+1 = b)%N -> (a < b)%N.
Proof. by rewrite addnS => <-; rewrite ltnS leq_addr. Qed.
Lemma eq_aux (a b c : nat) : a = b -> c = a -> c == b.
Proof. by move=> -> ->. Qed.
Lemma extend_spec fuel rows : row_free (intmx (stack rows)) -> (size rows + fuel = l.+1)%N ->
  exists rest, let rows' := extend svd_vh norm argmax fuel prim rows in
  [/\ rows' = rows ++ rest, size rows' = l.+1 & row_free (intmx (stack rows'))].
Proof.
elim: fuel rows => [|f IH] rows HF Hs /=.
- exists [::]; split=> //; first by rewrite cats0. by move: Hs; rewrite addn0.
- have Hlt : (size rows < l.+1)%N := lt_aux Hs.
  rewrite Hlt. have [||rest [E1 E2 E3]] := IH (rcons rows (next_vector svd_vh norm argmax prim rows)).
  + exact: next_free.
  + by move: Hs; rewrite size_rcons addnS.
  + exists (next_vector svd_vh norm argmax prim rows :: rest). by rewrite -cat_rcons.
Qed.
(** the square matrix *)
Definition square rows : 'M[int]_l.+1 := \matrix_(i, j) nth 0 rows i 0 j.
Lemma square_unit rows : size rows = l.+1 -> row_free (intmx (stack rows)) -> intmx (square rows) \in unitmx.
Proof.
move=> Hs HF. rewrite -row_free_unit /row_free. apply: (eq_aux Hs). rewrite -(eqP HF).
apply/eqmx_rank/andP; split; apply/row_subP=> i.
- have Hi: (i < size rows)%N by rewrite Hs.
  rewrite (_ : row i _ = intmx (nth 0 rows i)); last by apply/rowP=> j; rewrite !mxE.
  by rewrite -(stack_row (Ordinal Hi)) row_sub.
- have Hi: (i < l.+1)%N := eq_ind _ (fun k => is_true (i < k)%N) (ltn_ord i) _ Hs.
  rewrite stack_row (_ : intmx _ = row (Ordinal Hi) (intmx (square rows))) ?row_sub //. by apply/rowP=> j; rewrite !mxE.
Qed.
Lemma det_intmx n (A : 'M[int]_n) : \det (intmx A) = (\det A)%:~R.
Proof. exact: (det_map_mx (intmul1_rmorphism R)). Qed.
Lemma finish_data num_dir rows : size rows = l.+1 -> row_free (intmx (stack rows)) ->
  let m := (square rows)^T in
  \det m != 0 /\ finish round num_dir rows = Data (mkFam [seq take num_dir r | r <- lists m] (take num_dir (lists (\adj m))) (Z_of_int (\det m))).
Proof.
move=> Hs HF m. have HU : intmx m \in unitmx. { rewrite -unitmx_tr (_ : _^T = intmx (square rows)) ?square_unit //. by apply/matrixP=> i j; rewrite !mxE. }
have HD : \det m != 0. { move: HU; rewrite unitmxE unitfE det_intmx. by rewrite intr_eq0. }
split=> //. rewrite /finish -/(square rows) -/m det_intmx round_int (negPf HD).
have -> : roundmx round ((\det m)%:~R *: invmx (intmx m)) = \adj m.
{ rewrite -[RHS](@roundmx_int _ _). congr roundmx. rewrite /invmx HU det_intmx scalerA mulfV ?intr_eq0 // scale1r. by rewrite [RHS](map_mx_adj (intmul1_rmorphism R)). }
rewrite ifF //. apply/negbF/forallP=> i. apply/forallP=> j. rewrite mul_mx_adj mxE. case: eqP => _; rewrite ?mulr1n ?mulr0n.
- rewrite Z_div_same_full // => E. by move: HD; rewrite -(Z_of_intK (\det m)) E.
- by rewrite Zdiv_0_l.
Qed.
End Proofs.
