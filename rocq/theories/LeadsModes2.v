(** * The modes returned by make_proper_modes. *)
From mathcomp Require Import all_ssreflect all_algebra all_fingroup.
From Verif Require Import Zmod LeadsModel LeadsSpec LeadsProofs LeadsClusters LeadsModes.
Set Implicit Arguments. Unset Strict Implicit. Unset Printing Implicit Defensive.
Import Order.Theory GRing.Theory Num.Theory.
Local Open Scope ring_scope.

Section Modes.
Variable C : numClosedFieldType.
Lemma core_rot n k (h : 'M[C]_n) (u v : 'M[C]_(n, k)) r s (X : 'M[C]_(k + k, r)) (T : 'M[C]_(r, s)) (lam : 'rV[C]_r) (lam' : 'rV[C]_s) F :
  diag_mx lam *m T = T *m diag_mx lam' -> core h u v X 1%:M (diag_mx lam) F -> core h u v (X *m T) 1%:M (diag_mx lam') (F *m T).
Proof.
move=> E [A1 A2 A3].
have U : usubmx (X *m T) = usubmx X *m T /\ dsubmx (X *m T) = dsubmx X *m T.
  by rewrite -{1 3}(vsubmxK X) mul_col_mx col_mxKu col_mxKd.
rewrite !mulmx1 in A1 A2. split; rewrite ?U.1 ?U.2 ?mulmx1 !mulmxA ?A1 ?A2 ?A3 // ?mulmxBl ?mulNmx -!mulmxA -?E //.
Qed.
Lemma cross_sub k r s (X : 'M[C]_(k + k, r)) (f : 'I_s -> 'I_r) a b : cross (mxsub id f X) (mxsub id f X) a b = cross X X (f a) (f b).
Proof. rewrite /cross !mxE; congr (_ - _); apply: eq_bigr => l _; by rewrite !mxE. Qed.
Lemma vop_sub k r s (X : 'M[C]_(k + k, r)) (f : 'I_s -> 'I_r) a b : vop (mxsub id f X) a b = vop X (f a) (f b).
Proof. by rewrite !vopE [LHS]mxE [RHS]mxE cross_sub. Qed.
Lemma gram_sub m r s (X : 'M[C]_(m, r)) (f : 'I_s -> 'I_r) a b : (hc (mxsub id f X) *m mxsub id f X) a b = (hc X *m X) (f a) (f b).
Proof. rewrite [LHS]mxE [RHS]mxE. by apply: eq_bigr => l _; rewrite !mxE. Qed.
Lemma offdiag (a b x : C) : `|a| = 1 -> a != b -> a^* * x * b = x -> x = 0.
Proof.
move=> Ha Hab E. have Na : a^* * a = 1 by rewrite mulrC -normCK Ha expr1n.
have : x * (b - a) = 0. { rewrite mulrBr. apply/eqP. rewrite subr_eq0. apply/eqP. have -> : x * a = a^* * x * b * a by rewrite E. by rewrite -[LHS]mul1r -Na mulrACA [a * b]mulrC mulrA. }
move/eqP. rewrite mulf_eq0 subr_eq0 [b == a]eq_sym (negPf Hab) orbF. by move/eqP.
Qed.
Lemma sgE (x : C) : x \is Num.real -> x != 0 -> x / `|x| = Num.sg x.
Proof.
move=> R N. case: (real_ltgtP R (real0 _)) => H; last by rewrite H eqxx in N.
- by rewrite (ltr0_sg H) (ltr0_norm H) invrN mulrN divff.
- by rewrite (gtr0_sg H) (gtr0_norm H) divff.
Qed.
Lemma hc_entry m n (A : 'M[C]_(m, n)) i j : hc A i j = (A j i)^*. Proof. by rewrite !mxE. Qed.

Section Proper.
Variables (near : C -> C -> bool) (angle : C -> C).
Variables (qr : forall m c, 'M[C]_(m, c) -> option ('M[C]_(m, c) * 'M[C]_c)) (eigh : forall c, 'M[C]_c -> option ('rV[C]_c * 'M[C]_c)).
Hypothesis Hqr : forall m c (A : 'M[C]_(m, c)) y, qr A = Some y -> qr_of A y.
Hypothesis Heigh : forall c (A : 'M[C]_c) y, hermitian A -> eigh A = Some y -> eigh_of A y.
Variables (n r : nat) (h t : 'M[C]_n) (L : linsys C n) (u : 'M[C]_(n, ldim L)) (lam : 'rV[C]_r) (psi : 'M[C]_(ldim L + ldim L, r)).
Hypothesis Hh : hermitian h.
Hypothesis Hlam : forall j, `|lam 0 j| = 1.
Hypothesis near_eq : forall i j, near (lam 0 i) (lam 0 j) = (lam 0 i == lam 0 j).
Hypothesis angle_real : forall i, angle (lam 0 i) \is Num.real.
Hypothesis angle_inj : forall i j, angle (lam 0 i) = angle (lam 0 j) -> lam 0 i = lam 0 j.
Hypothesis Hcore : core h u (lv L) psi 1%:M (diag_mx lam) (lextract L psi lam).

Lemma argsort_ok : sorted (fun i j => angle (lam 0 i) <= angle (lam 0 j)) (argsort angle lam) /\ perm_eq (argsort angle lam) (enum 'I_r).
Proof. split; last by rewrite /argsort perm_sort. apply: sort_sorted => i j. exact: real_leVge. Qed.
Lemma loop_result psi' full' vel : proper_loop qr eigh (clusters near lam (argsort angle lam)) (psi, lextract L psi lam, 0) = inl (psi', full', vel) ->
  exists T, [/\ psi' = psi *m T, core h u (lv L) psi' 1%:M (diag_mx lam) full', vop psi' = diag_mx vel, forall j, vel 0 j \is Num.real
    & forall i j, lam 0 i = lam 0 j -> (hc full' *m full') i j = (i == j)%:R].
Proof.
have [A1 A2] := argsort_ok. have Uo : uniq (argsort angle lam) by rewrite (perm_uniq A2) enum_uniq.
have Mo j : j \in argsort angle lam by rewrite (perm_mem A2) mem_enum.
have [C1 C2] := clusters_spec near_eq angle_inj A1 Uo.
have Uf : uniq (flatten (clusters near lam (argsort angle lam))) by rewrite (perm_uniq C1).
have Cl idx : idx \in clusters near lam (argsort angle lam) -> forall i j, i \in idx -> j \in idx -> lam 0 i = lam 0 j.
  move=> Hi i j Hii Hj. apply/eqP. by rewrite -(C2 _ Hi _ Hii).
move/(loop_ok Hqr Heigh Uf Cl) => [[T [/= E1 E2 E3]] G]. exists T.
have K : core h u (lv L) psi' 1%:M (diag_mx lam) full' by rewrite E1 E2; apply: core_rot Hcore.
have find i j : lam 0 i = lam 0 j -> exists idx a b, [/\ idx \in clusters near lam (argsort angle lam), tnth (in_tuple idx) a = i, tnth (in_tuple idx) b = j & (a == b) = (i == j)].
  move=> E. have /flattenP [idx Hi Hii] : i \in flatten (clusters near lam (argsort angle lam)) by rewrite (perm_mem C1).
  have Hj : j \in idx by rewrite (C2 _ Hi _ Hii) // E eqxx.
  have [a [Ea Ia]] := index_ord Hii. have [b [Eb Ib]] := index_ord Hj. exists idx, a, b. split=> //.
  rewrite -Ea -Eb. apply/idP/idP => [/eqP->//|/eqP Et]. have : uniq idx.
    have := Uf. move: Hi. elim: (clusters _ _ _) => [//|c l IH] /=. rewrite inE cat_uniq => /orP [/eqP->|Hi] /and3P [] // _ _ /IH. exact.
  move=> Ui. apply/eqP/val_inj. by rewrite /= -(index_tnth Ui a) -(index_tnth Ui b) Et.
split=> //.
- apply/matrixP=> i j. case: (eqVneq (lam 0 i) (lam 0 j)) => [E|N].
  + have [idx [a [b [Hi Ea Eb Eab]]]] := find _ _ E. have [G1 _ _] := G _ Hi. move/matrixP/(_ a b): G1.
    rewrite /= -[take_cols psi' _]/(mxsub id (tnth (in_tuple idx)) psi') vop_sub Ea Eb => ->.
    rewrite [LHS]mxE [RHS]mxE Eab. by rewrite mxE Ea.
  + have := conserved Hh K K. rewrite mulmx1 hc1 mul1mx => Ec.
    have -> : diag_mx vel i j = 0 by rewrite mxE; case: eqP => // E; rewrite E eqxx in N.
    rewrite vopE mxE. suff -> : cross psi' psi' i j = 0 by rewrite mulr0.
    apply: (offdiag (Hlam i) N). move/matrixP/(_ i j): Ec => {2}<-.
    have -> : hc (diag_mx lam) = diag_mx (map_mx (@conjC C) lam) by rewrite /hc tr_diag_mx map_diag_mx.
    by rewrite mul_mx_diag [RHS]mxE mul_diag_mx [X in _ = X * _]mxE [X in _ = X * _ * _]mxE.
- move=> j. have [idx [a [b [Hi Ea Eb Eab]]]] := find j j erefl. have [_ _ /(_ a)] := G _ Hi. by rewrite mxE Ea.
- move=> i j E. have [idx [a [b [Hi Ea Eb Eab]]]] := find _ _ E. have [_ G2 _] := G _ Hi. move/matrixP/(_ a b): G2.
  by rewrite /= -[take_cols full' _]/(mxsub id (tnth (in_tuple idx)) full') gram_sub Ea Eb [RHS]mxE Eab.
Qed.
(** ** Sorting and normalization *)
Lemma lexsort_total (vel mom : 'rV[C]_r) : (forall j, vel 0 j \is Num.real) -> (forall j, mom 0 j \is Num.real) -> total (lexsort_le vel mom).
Proof.
move=> Rv Rm i j. rewrite /lexsort_le.
have Rs l : Num.sg (vel 0 l) \is Num.real by rewrite sgr_def; case: (_ != 0); case: (_ < 0); rewrite ?mulr1n ?mulr0n ?expr0 ?expr1 ?realN ?real1 ?real0.
have Rm' l : - Num.sg (vel 0 l) * mom 0 l \is Num.real by rewrite realM // realN.
case: (real_ltgtP (Rs i) (Rs j)) => //= E. case: (real_ltgtP (Rm' i) (Rm' j)) => //= E'. exact: real_leVge.
Qed.
Lemma lexsort_trans (vel mom : 'rV[C]_r) : transitive (lexsort_le vel mom).
Proof.
have K (a b c x y z p q w : C) : (a < b) || (a == b) && ((x < y) || (x == y) && (p <= q)) -> (b < c) || (b == c) && ((y < z) || (y == z) && (q <= w)) ->
    (a < c) || (a == c) && ((x < z) || (x == z) && (p <= w)).
  move=> /orP [H1|/andP[/eqP<- /orP[H1|/andP[/eqP<- H1]]]] /orP [H2|/andP[/eqP<- /orP[H2|/andP[/eqP<- H2]]]].
  all: rewrite ?H1 ?H2 ?(lt_trans H1 H2) ?(le_trans H1 H2) ?eqxx ?orbT //.
by move=> j i l; apply: K.
Qed.
Lemma lexsort_perm (vel mom : 'rV[C]_r) : injective (tnth (lexsort vel mom)).
Proof.
have U : uniq (lexsort vel mom) by rewrite sort_uniq val_ord_tuple enum_uniq.
move=> i j E. apply/val_inj/eqP. by rewrite -(nth_uniq (tnth (lexsort vel mom) i) _ _ U) ?size_tuple ?ltn_ord // -!tnth_nth E.
Qed.
Lemma lexsort_sorted (vel mom : 'rV[C]_r) (i j : 'I_r) : (forall j, vel 0 j \is Num.real) -> (forall j, mom 0 j \is Num.real) -> (i <= j)%N -> lexsort_le vel mom (tnth (lexsort vel mom) i) (tnth (lexsort vel mom) j).
Proof.
move=> Rv Rm Hij. have S := sort_sorted (lexsort_total Rv Rm) (ord_tuple r). pose x0 := i.
rewrite !(tnth_nth x0). have Rf : reflexive (lexsort_le vel mom) by move=> l; have := lexsort_total Rv Rm l l; rewrite orbb.
have T := sorted_leq_nth (@lexsort_trans vel mom) Rf x0 S. have I (a : 'I_r) : val a \in [pred n | (n < size (sort (lexsort_le vel mom) (ord_tuple r)))%N] by rewrite inE size_sort size_tuple ltn_ord.
exact: (T _ _ (I i) (I j) Hij).
Qed.
Definition sel (o : r.-tuple 'I_r) : 'M[C]_r := \matrix_(l, j) (l == tnth o j)%:R.
Lemma order_sel m (A : 'M[C]_(m, r)) o : order_cols A o = A *m sel o.
Proof. apply/matrixP=> i j. rewrite !mxE (bigD1 (tnth o j)) //= mxE eqxx mulr1 big1 ?addr0 // => l Hl. by rewrite mxE (negPf Hl) mulr0. Qed.
Lemma sel_comm (x : 'rV[C]_r) o : diag_mx x *m sel o = sel o *m diag_mx (order_cols x o).
Proof. apply/matrixP=> i j. rewrite mul_diag_mx mul_mx_diag !mxE. case: eqP => [->|_]; by rewrite ?mulr0 ?mul0r ?mulr1 ?mul1r. Qed.

Theorem proper_result p : make_proper_modes near angle qr eigh lam psi = inl p ->
  [/\ [/\ exists2 T, T \in unitmx & pr_psi p = psi *m T, core h u (lv L) (pr_psi p) 1%:M (diag_mx (pr_lam p)) (pr_wf p) & vop (pr_psi p) = diag_mx (\row_j Num.sg (pr_vel p 0 j))],
      (forall i j, pr_lam p 0 i = pr_lam p 0 j -> (hc (pr_wf p) *m pr_wf p) i j = (i == j)%:R / `|pr_vel p 0 j|),
      (forall j, pr_vel p 0 j \is Num.real) /\ (forall j, pr_vel p 0 j != 0),
      (exists2 o : 'I_r -> 'I_r, injective o & forall j, pr_lam p 0 j = lam 0 (o j)) /\ (forall j, pr_mom p 0 j = - angle (pr_lam p 0 j))
    & (forall j : 'I_r, (pr_vel p 0 j < 0) = (j < r %/ 2)%N) /\ (r = 2 * (r %/ 2))%N /\
      forall i j : 'I_r, (i <= j)%N -> lexsort_le (pr_vel p) (pr_mom p) i j].
Proof.
rewrite /make_proper_modes. case El: (proper_loop _ _ _ _) => [[[psi' full'] vel]|//]. have [T [T1 K V R G]] := loop_result El.
case: ifP => // /existsP Hz. set nleft := #|_|. case: ifP => // /negbFE /eqP Hn [<-] /=. set mom := \row_j _. set o := lexsort vel mom.
have Nz j : vel 0 j != 0 by apply/negP => E; apply: Hz; exists j.
have Rm j : mom 0 j \is Num.real by rewrite mxE realN.
set nrm := \row_j _.
have Enrm j : nrm 0 j = (sqrtC `|vel 0 (tnth o j)|)^-1 by rewrite !mxE.
have Enrm2 j : nrm 0 j * nrm 0 j = `|vel 0 (tnth o j)|^-1 by rewrite Enrm -invfM -expr2 sqrtCK.
have Nnrm j : nrm 0 j != 0 by rewrite Enrm invr_eq0 sqrtC_eq0 normr_eq0.
have Rnrm j : (nrm 0 j)^* = nrm 0 j by apply/CrealP; rewrite Enrm realV ger0_real // sqrtC_ge0.
have Evo : vop (scale_cols (order_cols psi' o) nrm) = diag_mx (\row_j Num.sg (order_cols vel o 0 j)).
  rewrite scale_colsE vopM. have -> : hc (diag_mx nrm) = diag_mx nrm.
    rewrite /hc tr_diag_mx map_diag_mx. congr diag_mx. apply/rowP=> j. by rewrite mxE Rnrm.
  apply/matrixP=> i j. rewrite mul_mx_diag [LHS]mxE mul_diag_mx [X in X * _]mxE.
  rewrite -[order_cols psi' o]/(mxsub id (tnth o) psi') vop_sub V [X in _ * X * _]mxE [RHS]mxE (inj_eq (lexsort_perm (vel:=vel) (mom:=mom))).
  case: eqP => [->|_]; last by rewrite !mulr0n mulr0 mul0r. rewrite !mulr1n mulrAC Enrm2 !mxE mulrC. exact: sgE.
split.
- split.
  + exists (T *m sel o *m diag_mx nrm); last by rewrite scale_colsE order_sel T1 !mulmxA.
    have : vop (psi *m (T *m sel o *m diag_mx nrm)) \in unitmx.
      rewrite !mulmxA -T1 -order_sel -scale_colsE Evo unitmxE det_diag unitfE prodf_seq_neq0. apply/allP=> j _ /=. by rewrite !mxE sgr_eq0.
    by rewrite vopM !unitmx_mul => /andP [_ H].
  + rewrite !scale_colsE (order_sel psi') (order_sel full'). apply: (core_rot (lam := order_cols lam o)); first by rewrite diag_mxC.
    apply: core_rot K. exact: sel_comm.
  + exact: Evo.
- move=> i j Eij. rewrite !mxE in Eij. rewrite !scale_colsE. have -> : hc (order_cols full' o *m diag_mx nrm) *m (order_cols full' o *m diag_mx nrm) = diag_mx nrm *m (hc (order_cols full' o) *m order_cols full' o) *m diag_mx nrm.
    rewrite hcM !mulmxA. congr (_ *m _ *m _ *m _). rewrite /hc tr_diag_mx map_diag_mx. congr diag_mx. apply/rowP=> l. by rewrite mxE Rnrm.
  rewrite mul_mx_diag [LHS]mxE mul_diag_mx [X in X * _]mxE -[order_cols full' o]/(mxsub id (tnth o) full') gram_sub G // (inj_eq (lexsort_perm (vel:=vel) (mom:=mom))).
  case: eqP => [->|_]; last by rewrite mulr0 !mul0r. by rewrite mulr1 mul1r Enrm2 mxE.
- split=> j; rewrite mxE //.
- split; first by exists (tnth o); [exact: lexsort_perm|move=> j; rewrite mxE]. by move=> j; rewrite !mxE.
- have Hr : r = (2 * (r %/ 2))%N by rewrite -Hn mulKn.
  have S (i j : 'I_r) : (i <= j)%N -> lexsort_le vel mom (tnth o i) (tnth o j) by apply: lexsort_sorted.
  split; last first.
    split=> // i j /S. by rewrite /lexsort_le !mxE.
  have Hnl : nleft = (r %/ 2)%N by rewrite -Hn mulKn.
  move=> j. rewrite -Hnl. have -> : nleft = #|[pred l : 'I_r | order_cols vel o 0 l < 0]|.
    have Io : injective (tnth o) by exact: lexsort_perm.
    rewrite /nleft -[RHS](card_image Io). apply: eq_card => l. have [g gK Kg] := injF_bij Io.
    have El' : tnth o (g l) = l by exact: Kg. by rewrite -El' mem_image // !inE mxE.
  apply: (@downset r [pred l : 'I_r | order_cols vel o 0 l < 0]) => a b Hab /=. rewrite !mxE => Hb.
  have := S _ _ Hab. rewrite /lexsort_le (ltr0_sg Hb). case: (real_ltgtP (R (tnth o a)) (real0 _)) => // Ha; last by move: (Nz (tnth o a)); rewrite Ha eqxx.
  rewrite (gtr0_sg Ha). have L1 : (-1 < 1 :> C) by apply: (lt_trans (ltrN10 C)); exact: ltr01.
  by rewrite (lt_gtF L1) [1 == -1]eq_sym (lt_eqF L1).
Qed.
End Proper.
End Modes.
