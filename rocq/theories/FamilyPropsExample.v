(** * The assumptions of C69 can be met: numpy's functions exist over the real algebraic
    numbers, and the theorems apply to a square lattice. *)
From Coq Require Import ZArith.
From mathcomp Require Import all_ssreflect all_algebra ssrZ.
From mathcomp Require Import realalg.
From Verif Require Import SymmetryModel TsCacheModel TsCacheProps FamilyModel FamilySpec FamilyProofs FamilyLists FamilyProps.
Set Implicit Arguments. Unset Strict Implicit. Unset Printing Implicit Defensive.
Import Order.Theory GRing.Theory Num.Theory.
Local Open Scope ring_scope.

Section Exist.
Variable R : rcfType.
Hypothesis archi : forall x : R, exists n : nat, x <= n%:R.
Lemma sq_gt0 d (r : 'rV[R]_d) : r != 0 -> 0 < (r *m r^T) 0 0.
Proof.
move=> H. have E : (r *m r^T) 0 0 = \sum_i r 0 i ^+ 2 by rewrite mxE; apply: eq_bigr => i _; rewrite mxE.
rewrite E lt_neqAle eq_sym psumr_eq0 => [|i _]; last exact: sqr_ge0. rewrite sumr_ge0 => [|i _]; last exact: sqr_ge0.
rewrite andbT. apply: contra H => /allP H. apply/eqP/rowP=> i. rewrite mxE. apply/eqP. rewrite -(sqrf_eq0 (r 0 i)). apply: H. by rewrite mem_index_enum.
Qed.
Lemma gram_unit k d (A : 'M[R]_(k, d)) : row_free A -> A *m A^T \in unitmx.
Proof.
move=> HF. rewrite -row_free_unit. apply: inj_row_free => v Hv. apply/eqP. rewrite -(mulmx_free_eq0 v HF). apply: contraT => H.
have := sq_gt0 H. by rewrite trmx_mul mulmxA -(mulmxA v) Hv mul0mx mxE ltxx.
Qed.
Lemma schmidt d k (A : 'M[R]_(k, d)) : row_free A -> exists V : 'M[R]_(k, d), V *m V^T = 1%:M /\ (V == A)%MS.
Proof.
elim: k A => [|k IH] A HF.
{ exists A. split; last by apply/eqmxP. by apply/matrixP=> -[]. }
move: A HF. rewrite -[k.+1]/(1 + k)%N => A. rewrite -(vsubmxK A). set a := usubmx A; set B := dsubmx A => HF.
have HB : row_free B. { apply: inj_row_free => v Hv. have H := row_freeP HF. 
  have /eqP : row_mx (0 : 'rV_1) v *m col_mx a B == 0 by rewrite mul_row_col mul0mx add0r Hv.
  move/eqP; rewrite mulmx_free_eq0 // => /eqP E. have := congr1 rsubmx E. by rewrite row_mxKr => ->; apply/rowP=> i; rewrite !mxE. }
have [V [HV EV]] := IH B HB. have [EVB EBV] := andP EV. set r := a - a *m V^T *m V.
have Hr : r != 0.
{ apply/eqP=> E0. have Ea : a = a *m V^T *m V by apply/eqP; rewrite -subr_eq0; apply/eqP. have [C EC] := submxP EVB.
  have : row_mx (1%:M : 'M_1) (- (a *m V^T *m C)) *m col_mx a B == 0. { rewrite mul_row_col mul1mx mulNmx -mulmxA -EC {1}Ea subrr. by []. }
  rewrite mulmx_free_eq0 // => /eqP/(congr1 lsubmx). rewrite row_mxKl => /matrixP/(_ 0 0). rewrite !mxE eqxx => /eqP. by rewrite oner_eq0. }
have P := sq_gt0 Hr. set s := Num.sqrt ((r *m r^T) 0 0). have Hs : s ^+ 2 = (r *m r^T) 0 0 by rewrite sqr_sqrtr // ltW.
have Ps : s != 0 by rewrite -sqrf_eq0 Hs gt_eqF.
have rV : r *m V^T = 0 by rewrite mulmxBl -!mulmxA HV mulmx1 subrr.
have Vr : V *m r^T = 0 by rewrite -[LHS]trmxK trmx_mul trmxK rV trmx0.
have rr : r *m r^T = (s ^+ 2)%:M by apply/matrixP=> i j; rewrite Hs !ord1 [RHS]mxE eqxx.
exists (col_mx (s^-1 *: r) V). split.
- rewrite tr_col_mx mul_col_row linearZ /= -!scalemxAl -!scalemxAr rV Vr !scaler0 HV rr !scale_scalar_mx mulrA -expr2 -exprMn mulVf // expr1n. by rewrite -scalar_mx_block.
- have T1 : (a <= col_mx a B)%MS by rewrite -addsmxE addsmxSl. have T2 : (B <= col_mx a B)%MS by rewrite -addsmxE addsmxSr.
  have TV : (V <= col_mx a B)%MS := submx_trans EVB T2. set u := s^-1 *: r.
  have T3 : (u <= col_mx u V)%MS by rewrite -addsmxE addsmxSl. have T4 : (V <= col_mx u V)%MS by rewrite -addsmxE addsmxSr.
  rewrite !col_mx_sub TV (submx_trans EBV T4) !andbT. apply/andP; split.
  + rewrite scalemx_sub // addmx_sub // eqmx_opp. exact: mulmx_sub.
  + have -> : a = s *: u + a *m V^T *m V by rewrite scalerA mulfV // scale1r subrK. apply: addmx_sub; [exact: scalemx_sub|exact: mulmx_sub].
Qed.
(** the functions *)
Variable d : nat.
Definition ex_pinv l (A : 'M[R]_(l.+1, d)) : 'M[R]_(d, l.+1) := A^T *m invmx (A *m A^T).
Lemma ex_pinv_ok l : pinv_ok (@ex_pinv l).
Proof.
move=> A HF X. have U := gram_unit HF. have AX : A *m X = 1%:M by rewrite /X /ex_pinv mulmxA mulmxV.
split; rewrite ?AX ?mul1mx ?trmx1 //; first by rewrite -mulmxA AX mulmx1.
rewrite /X /ex_pinv !trmx_mul trmxK trmx_inv trmx_mul trmxK. by rewrite mulmxA.
Qed.
Lemma ex_svd_exists k (A : 'M[R]_(k, d)) : exists V : 'M[R]_(k, d), row_free A ==> ((V *m V^T == 1%:M) && (V == A)%MS).
Proof. case: (boolP (row_free A)) => [/schmidt[V [H1 H2]]|_]; [exists V|by exists A]. by rewrite H1 eqxx H2. Qed.
Definition ex_svd k (A : 'M[R]_(k, d)) : 'M[R]_(k, d) := xchoose (ex_svd_exists A).
Lemma ex_svd_ok : svd_ok ex_svd.
Proof. move=> k A HF. have := implyP (xchooseP (ex_svd_exists A)) HF. by move=> /andP[/eqP H1 /eqmxP H2]. Qed.
Definition ex_norm (x : 'rV[R]_d) : R := \sum_i `|x 0 i|.
Lemma ex_norm_ok : norm_ok ex_norm.
Proof.
move=> x. split; first by apply: sumr_ge0. split=> [/eqP|->]; last by rewrite /ex_norm big1 // => i _; rewrite mxE normr0.
rewrite psumr_eq0 // => /allP H. apply/rowP=> i. rewrite mxE. apply/eqP. rewrite -normr_eq0. apply: H. by rewrite mem_index_enum.
Qed.
Definition ex_argmax l (f : 'I_l.+1 -> R) : 'I_l.+1 := [arg max_(i > ord0) f i]%O.
Lemma ex_argmax_ok l : argmax_ok (@ex_argmax l).
Proof. move=> f i. rewrite /ex_argmax. case: arg_maxP => // j _. exact. Qed.
Lemma near (x : R) : exists n : nat, x <= n%:R + 2%:R^-1.
Proof. have [n H] := archi x. exists n. apply: le_trans H _. by rewrite ler_addl invr_ge0 ler0n. Qed.
Definition ex_near (x : R) : nat := ex_minn (near x).
Definition ex_round (x : R) : int := if 0 <= x then (ex_near x)%:Z else - (ex_near (- x))%:Z.
Lemma ex_near_ok x : 0 <= x -> `|x - (ex_near x)%:R| <= 2%:R^-1.
Proof.
rewrite /ex_near => Hx. case: ex_minnP => n Hn Hm. rewrite ler_distl Hn andbT. case: n Hn Hm => [|n] Hn Hm; first by rewrite sub0r (le_trans _ Hx) // oppr_le0 invr_ge0 ler0n.
case: (leP x (n%:R + 2%:R^-1)) => [/Hm|H]; first by rewrite ltnn. rewrite ler_subl_addr (le_trans _ (_ : n%:R + 2%:R^-1 + 2%:R^-1 <= _)) // ?ler_add2r ?(ltW H) //.
have E : 2%:R^-1 + 2%:R^-1 = 1 :> R by rewrite -mulr2n -[_ *+ 2]mulr_natl mulfV ?pnatr_eq0. by rewrite -addrA E -mulrSr.
Qed.
Lemma ex_round_ok : round_ok ex_round.
Proof.
move=> x. rewrite /ex_round. case: (leP 0 x) => H; first exact: ex_near_ok.
rewrite rmorphN /= opprK -normrN opprD. apply: ex_near_ok. by rewrite oppr_ge0 ltW.
Qed.
Lemma ex_round_odd x : ex_round (- x) = - ex_round x.
Proof.
rewrite /ex_round. have N0 : ex_near 0 = 0%N. { rewrite /ex_near. case: ex_minnP => n _ /(_ 0%N). rewrite add0r invr_ge0 ler0n => /(_ isT). by case: n. }
case: (ltgtP 0 x) => H.
- by rewrite oppr_ge0 (lt_geF H) opprK.
- by rewrite oppr_ge0 (ltW H) opprK.
- by rewrite -H oppr0 lexx N0.
Qed.
End Exist.

Notation A := realalg.
Lemma realalg_archi (x : A) : exists n : nat, x <= n%:R.
Proof. exists (Num.ExtraDef.archi_bound x). case: (leP 0 x) => H; first by rewrite ltW // archi_boundP. by apply: ltW (lt_le_trans H _); rewrite ler0n. Qed.

(** The square lattice with unit distance; the period (2, 1) *)
Definition ex_prim : 'M[A]_(2, 2) := 1%:M.
Definition ex_coords : mat := [:: [:: Zpos (xO xH); Zpos xH]].
Definition ex_periods : 'M[A]_(1, 2) := \row_j (if j == 0 then 2%:R else 1).
Lemma ex_lattice : lattice_vectors ex_prim ex_periods ex_coords.
Proof.
split=> // i. rewrite (ord1 i). split=> //. apply/rowP=> j. rewrite /position /= !big_ord_recl big_ord0 addr0 !mxE.
case: j => [[|[|//]] Hj] /=; by rewrite ?mulr1 ?mulr0 ?addr0 ?add0r.
Qed.
Notation ex_add := (add_site_family (@ex_pinv [rcfType of A] 2 1) (ex_round realalg_archi) (@ex_svd [rcfType of A] 2) (@ex_norm [rcfType of A] 2) (@ex_argmax [rcfType of A] 1)).
(** The family is accepted, its sites move by (2, 1) *)
Theorem C69_example : exists fd, ex_add ex_prim ex_periods [::] = Some (Data fd) /\
  forall g tag : vec, length g = 1%N -> length tag = 2%N ->
  position ex_prim (ts_act fd false g tag) = position ex_prim tag + translation ex_periods g.
Proof.
have HP : row_free ex_prim by rewrite row_free_unit unitmx1.
have HR : row_free ex_periods. { rewrite /row_free eqn_leq rank_leq_row lt0n mxrank_eq0. apply/eqP=> /rowP/(_ 0). rewrite !mxE /= => /eqP. by rewrite pnatr_eq0. }
have [fd E] := C69_automatic (@ex_pinv_ok _ 2 1) (ex_round_ok realalg_archi) (@ex_svd_ok _ 2) (@ex_norm_ok _ 2) (@ex_argmax_ok _ 1) HP HR ex_lattice.
exists fd. split=> // g tag Hg Ht.
exact: (proj1 (C69_acts (@ex_pinv_ok _ 2 1) (ex_round_ok realalg_archi) (@ex_svd_ok _ 2) (@ex_norm_ok _ 2) (@ex_argmax_ok _ 1) HP ex_lattice E Hg Ht)).
Qed.

(** The same through the objects of C54: a new symmetry, its first use *)
Notation ex_step := (@step (family [realFieldType of A] 2) (period_set [realFieldType of A] 2) (@fam_dec _ 2) (@opposite _ 2) (fun p => tag p)
  (fam_bravais (@ex_pinv [rcfType of A] 2) (ex_round realalg_archi)) (fam_complete (ex_round realalg_archi) (@ex_svd [rcfType of A] 2) (@ex_norm [rcfType of A] 2) (@ex_argmax [rcfType of A]))).
Definition ex_family : family [realFieldType of A] 2 := Tagged (fun l => 'M[A]_(l.+1, 2)) (ex_prim : 'M[A]_(1.+1, 2)).
Definition ex_set : period_set [realFieldType of A] 2 := Tagged (fun n => 'M[A]_(n, 2)) ex_periods.
Notation ex_start := (start (family [realFieldType of A] 2) (period_set [realFieldType of A] 2)).
Theorem C69_history_example g tg : length g = 1%N -> length tg = 2%N ->
  exists tg', snd (ex_step (fst (ex_step ex_start (New _ ex_set))) (Act _ 0 g ex_family tg)) = RSite ex_family tg' /\
  position ex_prim tg' = position ex_prim tg + translation ex_periods g.
Proof.
move=> Hg Ht. have HP : row_free ex_prim by rewrite row_free_unit unitmx1.
set w := fst _.
have [fd [E _]] := C69_example. rewrite /add_site_family in E. case EB: (bravais _ _ _ _) E => [b|] // [E].
have Eb : b = ex_coords. { have := bravais_lattice (@ex_pinv_ok _ 2 1) (ex_round_ok realalg_archi) HP ex_lattice. by rewrite EB => [[->]]. }
have ER : snd (ex_step w (Act _ 0 g ex_family tg)) = RSite ex_family (ts_act fd false g tg).
{ rewrite /w /= /get_data /= /add_new_family /= {1}/fam_bravais /= HP EB /fam_complete /= HP Eb /= -Eb E /=. by rewrite Hg. }
exists (ts_act fd false g tg). split=> //.
have H0 : List.nth_error (w_objs w) 0 = Some (mkObj ex_set false 0) by [].
have H1 : @first_use_ok _ _ (@fam_dec _ 2) w (Act _ 0 g ex_family tg) by move=> o [<-].
have [] := @C69_history [realFieldType of A] 2 _ _ _ _ _ (@ex_pinv_ok _ 2) (ex_round_ok realalg_archi) (ex_round_odd realalg_archi) (@ex_svd_ok _ 2) (@ex_norm_ok _ 2) (@ex_argmax_ok [rcfType of A]) [:: New _ ex_set] (conj I I) 0%N _ g ex_family tg ex_family _ ex_coords H0 H1 Ht HP ex_lattice ER.
by [].
Qed.

(** The tolerances: the period 1 + 10^-9 of a chain with unit distance is accepted, although
    no site then has a site at this distance *)
Theorem C69_tolerance_refuted : exists (periods : 'M[A]_1) fd,
  add_site_family (@ex_pinv [rcfType of A] 1 0) (ex_round realalg_archi) (@ex_svd [rcfType of A] 1) (@ex_norm [rcfType of A] 1) (@ex_argmax [rcfType of A] 0) (1%:M : 'M[A]_1) periods [::] = Some (Data fd) /\
  forall tg : vec, position (1%:M : 'M[A]_1) (ts_act fd false [:: Zpos xH] tg) <> position 1%:M tg + translation periods [:: Zpos xH].
Proof.
set e : A := 10%:R ^- 9. set x : A := 1 + e. set P : 'M[A]_1 := x%:M.
have He : 0 < e by rewrite invr_gt0 exprn_gt0 ?ltr0n.
have He8 : e <= 10%:R ^- 8 by rewrite lef_pinv ?posrE ?exprn_gt0 ?ltr0n // ler_eexpn2l // ltr1n.
have He2 : e < 2%:R^-1. { apply: le_lt_trans He8 _. rewrite ltf_pinv ?posrE ?exprn_gt0 ?ltr0n //. have L : 10%:R ^+ 1 <= 10%:R ^+ 8 :> A by rewrite ler_eexpn2l // ltr1n. apply: lt_le_trans L. by rewrite expr1 ltr_nat. }
have Hr : ex_round realalg_archi x = 1.
{ have := ex_round_ok realalg_archi x. set r := ex_round _ x => H.
  have : `|(1 - r)%:~R : A| < 1.
  { rewrite rmorphB /= (_ : _ - _ = (x - r%:~R) - e); last by rewrite /x [RHS]addrAC addrK.
    apply: le_lt_trans (ler_norm_sub _ _) _. have E : 2%:R^-1 + 2%:R^-1 = 1 :> A by rewrite -mulr2n -[_ *+ 2]mulr_natl mulfV ?pnatr_eq0.
    rewrite -[X in _ < X]E. apply: ler_lt_add; first exact: H. rewrite gtr0_norm; [exact: He2|exact: He]. }
  rewrite -intr_norm -[1]/(1%:~R) ltr_int => L. have E0 : `|1 - r| = 0. { apply: le_anti. by rewrite normr_ge0 andbT -ltz_addr1 add0r. } apply: esym. apply: subr0_eq. exact: normr0_eq0. }
have HF : row_free (1%:M : 'M[A]_1) by rewrite row_free_unit unitmx1.
have Hpi : ex_pinv (1%:M : 'M[A]_1) = 1%:M by rewrite /ex_pinv trmx1 !mul1mx invmx1.
have EB : bravais (@ex_pinv [rcfType of A] 1 0) (ex_round realalg_archi) 1%:M P = Some [:: [:: Zpos xH]].
{ rewrite /bravais Hpi !mulmx1. have ER : roundmx (ex_round realalg_archi) P = 1%:M by apply/matrixP=> i j; rewrite !ord1 !mxE /= Hr.
  rewrite ER allclose_refl ?atol_ge0 ?rtol_ge0 // andbT. have -> : allclose 0 (default_atol _) P (intmx _ 1%:M).
  { apply/forallP=> i. apply/forallP=> j. rewrite !ord1 !mxE /= mul0r addr0 addrAC subrr add0r gtr0_norm //. }
  congr Some. by rewrite /lists !enum_ordSl !enum_ord0 /= !mxE. }
case: (complete_spec (ex_round_ok realalg_archi) (@ex_svd_ok _ 1) (@ex_norm_ok _ 1) (@ex_argmax_ok _ 0) HF [:: [:: Zpos xH]] [::]) => [[_ [fd [rest [E _ _ _ _]]]]|[I _]]; last first.
{ exfalso. apply: I => y Hy /(_ 0%N isT). rewrite big_ord1 /= mulr1 => Ey [|i]; [exact: (esym Ey)|by rewrite nth_default ?Hy]. }
exists P, fd. split; first by rewrite /add_site_family EB E.
move=> tg. have Ep u : position (1%:M : 'M[A]_1) u 0 0 = (int_of_Z (nth Z0 u 0))%:~R by rewrite /position big_ord1 !mxE /= mulr1.
move/matrixP/(_ 0 0). rewrite mxE !Ep. set a := int_of_Z _; set b := int_of_Z _ => E1.
have Et : translation P [:: Zpos xH] 0 0 = 1 + e by rewrite /translation big_ord1 !mxE /= mul1r.
have : (a - b - 1)%:~R = e. { rewrite !rmorphB /= E1 Et [b%:~R + _]addrC addrK. by rewrite addrAC subrr add0r. }
move=> E2. have L1 : 0 < a - b - 1 by rewrite -(ltr0z [numDomainType of A]) E2. have L2 : a - b - 1 < 1.
{ rewrite -(ltr_int [numDomainType of A]) E2. apply: lt_trans He2 _. by rewrite invf_lt1 ?ltr0n // ltr1n. }
by move: L1 L2; case: (a - b - 1) => // -[].
Qed.

Print Assumptions C69_example.
Print Assumptions C69_history_example.
Print Assumptions C69_tolerance_refuted.
