(** * Properties of phs_symmetrization *)
From mathcomp Require Import all_ssreflect all_algebra.
From Verif Require Import PhsModel.
Set Implicit Arguments. Unset Strict Implicit. Unset Printing Implicit Defensive.
Import GRing.Theory Num.Theory.
Local Open Scope ring_scope.

Section Alg.
Variable C : numClosedFieldType.
Lemma cjM m n k (A : 'M[C]_(m, n)) (B : 'M[C]_(n, k)) : cj (A *m B) = cj A *m cj B.
Proof. exact: map_mxM. Qed.
Lemma cjK m n (A : 'M[C]_(m, n)) : cj (cj A) = A.
Proof. by apply/matrixP=> i j; rewrite !mxE conjCK. Qed.
Lemma dagE m n (A : 'M[C]_(m, n)) : dag A = cj A^T. Proof. by []. Qed.
Lemma dagM m n k (A : 'M[C]_(m, n)) (B : 'M[C]_(n, k)) : dag (A *m B) = dag B *m dag A.
Proof. by rewrite /dag trmx_mul cjM. Qed.
Lemma dagK m n (A : 'M[C]_(m, n)) : dag (dag A) = A.
Proof. by apply/matrixP=> i j; rewrite !mxE conjCK. Qed.
Lemma dagB m n (A B : 'M[C]_(m, n)) : dag (A - B) = dag A - dag B.
Proof. by apply/matrixP=> i j; rewrite !mxE rmorphB. Qed.
Lemma cjD m n (A B : 'M[C]_(m, n)) : cj (A + B) = cj A + cj B.
Proof. by apply/matrixP=> i j; rewrite !mxE rmorphD. Qed.
Lemma cjN m n (A : 'M[C]_(m, n)) : cj (- A) = - cj A.
Proof. by apply/matrixP=> i j; rewrite !mxE rmorphN. Qed.
Lemma cjB m n (A B : 'M[C]_(m, n)) : cj (A - B) = cj A - cj B.
Proof. by rewrite cjD cjN. Qed.
Lemma cj1 n : cj 1%:M = 1%:M :> 'M[C]_n.
Proof. exact: map_mx1. Qed.
Lemma dag1 n : dag 1%:M = 1%:M :> 'M[C]_n.
Proof. by rewrite /dag trmx1 cj1. Qed.
Lemma dag_cj m n (A : 'M[C]_(m, n)) : dag (cj A) = cj (dag A).
Proof. by apply/matrixP=> i j; rewrite !mxE. Qed.
Lemma dag_entry m n (A : 'M[C]_(m, n)) j : (dag A *m A) j j = \sum_i `|A i j| ^+ 2.
Proof. by rewrite !mxE; apply: eq_bigr => i _; rewrite !mxE mulrC -normCK. Qed.
Lemma tr_zero m n (A : 'M[C]_(m, n)) : \tr (dag A *m A) = 0 -> A = 0.
Proof.
rewrite /mxtrace => h; apply/matrixP=> i j; rewrite mxE.
have p0 : forall j, 0 <= (dag A *m A) j j by move=> k; rewrite dag_entry sumr_ge0 // => ? _; rewrite exprn_ge0.
have /eqP: (dag A *m A) j j = 0 by exact: (psumr_eq0P (fun k _ => p0 k) h).
rewrite dag_entry psumr_eq0; last by move=> ? _; rewrite exprn_ge0.
by move/allP/(_ i (mem_index_enum _)); rewrite implyTb expf_eq0 normr_eq0 => /andP[_ /eqP].
Qed.
Lemma dag_zero m n (A : 'M[C]_(m, n)) : dag A *m A = 0 -> A = 0.
Proof. by move=> h; apply: tr_zero; rewrite h linear0. Qed.
Lemma dag_zero' m n (A : 'M[C]_(m, n)) : A *m dag A = 0 -> A = 0.
Proof. by move=> h; rewrite -(dagK A) (dag_zero (A := dag A)) ?dagK // /dag /cj trmx0 map_mx0. Qed.
End Alg.
(** ** Specification *)
Section Spec.
Variable C : numClosedFieldType.
(** columns of [W] are orthonormal *)
Definition orthonormal d n (W : 'M[C]_(d, n)) := dag W *m W = 1%:M.
Definition unitary n (U : 'M[C]_n) := U *m dag U = 1%:M.
(** the antiunitary operator  psi |-> P psi^*  *)
Definition antiunitary d n (P : 'M[C]_d) (W : 'M[C]_(d, n)) := P *m cj W.
(** the space spanned by the columns of [W] is mapped into itself *)
Definition closed d n (P : 'M[C]_d) (W : 'M[C]_(d, n)) := exists X : 'M[C]_n, antiunitary P W = W *m X.
(** the columns of both matrices span the same space *)
Definition same_span d n (W V : 'M[C]_(d, n)) := (exists X : 'M[C]_n, V = W *m X) /\ (exists X : 'M[C]_n, W = V *m X).
(** what the numerical routines deliver: the Schur decomposition of a normal matrix is a
    unitary diagonalization *)
Definition schur_spec (schur : forall n, 'M[C]_n -> 'M[C]_n * 'M[C]_n) n (U : 'M[C]_n) :=
  U *m dag U = dag U *m U ->
    [/\ is_diag_mx (schur n U).1, unitary (schur n U).2 &
        U = (schur n U).2 *m (schur n U).1 *m dag (schur n U).2].
(** exp(i shift) and exp(-i shift / 2) for some real shift *)
Definition branch_spec (branch : forall n, 'rV[C]_n -> C * C) n :=
  forall v : 'rV[C]_n, (branch n v).2 ^+ 2 * (branch n v).1 = 1.
(** the pivoted economic QR decomposition of a matrix with at least as many rows as columns:
    Q has orthonormal columns, and if the columns of A are linearly dependent then all of
    them are combinations of the columns of Q but the last *)
Definition qr_spec d (qr : forall n, 'M[C]_(d, n) -> 'M[C]_(d, n)) n :=
  (n.+1 <= d)%N -> forall A : 'M[C]_(d, n.+1),
    orthonormal (qr _ A) /\
    forall y : 'cV[C]_n.+1, y != 0 -> A *m y = 0 -> exists X, A = but_last (qr _ A) *m X.
End Spec.

Section Closed.
Variable C : numClosedFieldType.
Variable d : nat.
Variable P : 'M[C]_d.
Hypothesis Pu : unitary P.
Lemma Pu' : dag P *m P = 1%:M.
Proof. exact: mulmx1C Pu. Qed.
Lemma dag_Pdot n (W : 'M[C]_(d, n)) m (V : 'M[C]_(d, m)) : dag (Pdot P W) *m Pdot P V = cj (dag W *m V).
Proof. by rewrite /Pdot dagM mulmxA -(mulmxA _ (dag P)) Pu' mulmx1 dag_cj cjM. Qed.
Lemma closed_U n (W : 'M[C]_(d, n)) : orthonormal W -> closed P W ->
  Pdot P W = W *m (dag W *m Pdot P W) /\ unitary (dag W *m Pdot P W).
Proof.
move=> oW [X hX]; have hU : dag W *m Pdot P W = X by rewrite /Pdot -/(antiunitary P W) hX mulmxA oW mul1mx.
rewrite hU; split=> //; apply: mulmx1C.
have := dag_Pdot W W; rewrite oW cj1 /Pdot -/(antiunitary P W) hX dagM => <-.
by rewrite mulmxA -(mulmxA _ (dag W)) oW mulmx1.
Qed.
Lemma unitary_closed n (W : 'M[C]_(d, n)) : orthonormal W -> unitary (dag W *m Pdot P W) ->
  Pdot P W = W *m (dag W *m Pdot P W).
Proof.
set U := dag W *m _ => oW uU; have uU' := mulmx1C uU.
apply/eqP; rewrite -subr_eq0; apply/eqP; apply: dag_zero.
rewrite dagB mulmxBl !mulmxBr dag_Pdot oW cj1 dagM.
have h : dag (Pdot P W) *m W = dag U by rewrite /U dagM dagK.
rewrite mulmxA h uU' -(mulmxA _ (dag W)) -/U uU' mulmxA -(mulmxA _ (dag W)) oW mulmx1 uU'.
by rewrite !subrr.
Qed.
Lemma U_square n (W : 'M[C]_(d, n)) (s : C) : orthonormal W ->
  Pdot P W = W *m (dag W *m Pdot P W) -> P *m cj P = s%:M ->
  (dag W *m Pdot P W) *m cj (dag W *m Pdot P W) = s%:M.
Proof.
move=> oW; set U := dag W *m Pdot P W => hc hP.
rewrite {1}/U -mulmxA /Pdot -(mulmxA P) -cjM -hc /Pdot cjM cjK (mulmxA P) hP.
by rewrite mul_scalar_mx -scalemxAr oW scalemx1.
Qed.
End Closed.
(** ** P^2 = 1 *)
Section Real.
Variable C : numClosedFieldType.
Variable d : nat.
Variable P : 'M[C]_d.
Variable schur : forall n, 'M[C]_n -> 'M[C]_n * 'M[C]_n.
Variable branch : forall n, 'rV[C]_n -> C * C.
Variable n : nat.
Hypothesis bS : branch_spec branch n.

Lemma sym_of_square (U : 'M[C]_n) (s : C) : unitary U -> U *m cj U = s%:M -> cj U = s *: dag U.
Proof.
move=> uU h; have uU' := mulmx1C uU.
by rewrite -(mul1mx (cj U)) -uU' -mulmxA h mul_mx_scalar.
Qed.
Lemma diag_entry (D : 'M[C]_n) : is_diag_mx D -> D = diag_mx (\row_i D i i).
Proof.
move=> /is_diag_mxP h; apply/matrixP=> i j; rewrite !mxE; case: eqP => [->|ne]; first by rewrite mulr1n.
by rewrite mulr0n h //; apply/eqP => e; apply: ne; apply: val_inj.
Qed.
(** the square root is a function of the eigenvalue *)
Definition f (v : 'rV[C]_n) (x : C) : C := sqrtC (x * (branch v).1) * (branch v).2.
Lemma f_sq v x : f v x ^+ 2 = x.
Proof. by rewrite /f exprMn sqrtCK -mulrA (mulrC _ (_ ^+ 2)) bS mulr1. Qed.
Lemma square_rootE (D : 'M[C]_n) : square_root branch D = diag_mx (\row_i f (\row_i D i i) (D i i)).
Proof.
rewrite /square_root /f; case: (branch _) => ph h /=.
by [].
Qed.

Lemma sqrt_facts (U : 'M[C]_n) : schur_spec schur U -> unitary U -> U^T = U ->
  let S := (schur U).2 *m square_root branch (schur U).1 *m dag (schur U).2 in
  [/\ S *m S = U, unitary S & S^T = S].
Proof.
move=> sS uU sU; have uU' := mulmx1C uU.
case: sS => [|dD uV eU]; first by rewrite uU uU'.
move: dD uV eU; set D := (schur U).1; set V := (schur U).2 => dD uV eU.
have uV' := mulmx1C uV.
rewrite square_rootE; set v := (\row_i D i i) : 'rV[C]_n.
set F := diag_mx _ => S.
have eD : D = diag_mx v by exact: diag_entry.
have FF : F *m F = D.
  rewrite eD mulmx_diag; congr diag_mx; apply/rowP => i; rewrite !mxE -expr2 f_sq; by [].
have DD : D *m dag D = 1%:M.
  have : dag V *m (U *m dag U) *m V = 1%:M by rewrite uU mulmx1 uV'.
  rewrite eU !dagM dagK !mulmxA uV' mul1mx -(mulmxA D) uV' mulmx1 -(mulmxA (D *m dag D)) uV' mulmx1; by [].
have nD : forall i, `|D i i| ^+ 2 = 1.
  move=> i; have := congr1 (fun M : 'M[C]_n => M i i) DD; rewrite !mxE eqxx mulr1n => <-.
  rewrite (bigD1 i) //= big1 ?addr0; first by rewrite !mxE normCK.
  move=> j ne; rewrite (_ : D i j = 0) ?mul0r //.
  by rewrite eD !mxE eq_sym (negbTE ne) mulr0n.
have nf : forall i, f v (D i i) * (f v (D i i))^* = 1.
  move=> i; rewrite -normCK -normrX f_sq; apply/eqP; rewrite -sqrp_eq1 ?normr_ge0 //; apply/eqP; exact: nD.
have uF : F *m dag F = 1%:M.
  have -> : dag F = diag_mx (\row_i (f v (D i i))^*).
    apply/matrixP => i j; rewrite !mxE eq_sym rmorphMn; case: eqP => [->|] //=.
  rewrite mulmx_diag; apply/matrixP=> i j; rewrite !mxE nf; by [].
split.
- rewrite /S eU -!mulmxA (mulmxA (dag V)) uV' mul1mx (mulmxA F F) FF; by [].
- rewrite /unitary /S !dagM dagK -!mulmxA (mulmxA (dag V)) uV' mul1mx (mulmxA F) uF mul1mx; exact: uV.
- have tF : F^T = F by rewrite /F tr_diag_mx.
  have tD : D^T = D by rewrite eD tr_diag_mx.
  have dVt : (dag V)^T = cj V by apply/matrixP => i j; rewrite !mxE.
  have tV : V^T *m cj V = 1%:M by rewrite -dVt -trmx_mul uV' trmx1.
  have tV' : cj V *m V^T = 1%:M by exact: mulmx1C.
  have com : D *m (V^T *m V) = V^T *m V *m D.
    have h := sU; rewrite eU !trmx_mul tD dVt in h.
    have := congr1 (fun M => V^T *m M *m V) h => /=.
    rewrite !mulmxA tV mul1mx => ->.
    by rewrite -[RHS]mulmx1 -uV' !mulmxA.
  have comF : F *m (V^T *m V) = V^T *m V *m F.
    apply/matrixP => i j.
    have := congr1 (fun M : 'M[C]_n => M i j) com.
    rewrite {1 2}eD !mul_diag_mx !mul_mx_diag !mxE.
    move/eqP; rewrite mulrC -subr_eq0 -mulrBr mulf_eq0 subr_eq0 => /orP[/eqP->|/eqP->]; first by rewrite mulr0 mul0r.
    by rewrite mulrC.
  rewrite /S !trmx_mul tF dVt -[LHS]mulmx1 -uV !mulmxA -(mulmxA _ V^T V) -(mulmxA (cj V) F).
  by rewrite comF !mulmxA tV' mul1mx.
Qed.

Lemma real_modes_ok (W : 'M[C]_(d, n)) (U : 'M[C]_n) : schur_spec schur U -> orthonormal W -> unitary U ->
  U *m cj U = 1%:M -> Pdot P W = W *m U ->
  exists V, [/\ finish (real_modes schur branch W U) = Modes V (nseq n 0%N), orthonormal V,
                antiunitary P V = V & same_span W V].
Proof.
move=> sS oW uU sq hc.
have sU : U^T = U.
  have := sym_of_square uU sq; rewrite scale1r /dag => /(congr1 (@cj C n n)); by rewrite !cjK.
have [SS uS tS] := sqrt_facts sS uU sU.
rewrite /real_modes sU eqxx /=.
case: sS => [|dD _ _]; first by rewrite uU (mulmx1C uU).
move: dD SS uS tS; case: (schur U) => D V /= dD SS uS tS.
rewrite dD /= tS eqxx /=.
move: SS uS tS; set S := V *m _ *m _; clearbody S => SS uS tS.
have oN : orthonormal (W *m S).
  by rewrite /orthonormal dagM mulmxA -(mulmxA _ (dag W)) oW mulmx1; exact: mulmx1C.
exists (W *m S); rewrite oN eqxx; split=> //.
- rewrite /antiunitary cjM mulmxA; rewrite /Pdot in hc; rewrite hc -SS -!mulmxA.
  have -> : cj S = dag S by rewrite /dag tS.
  by rewrite uS mulmx1.
- split; first by exists S.
  by exists (dag S); rewrite -mulmxA uS mulmx1.
Qed.
End Real.
(** ** P^2 = -1 *)
Section Paired.
Variable C : numClosedFieldType.
Variable d : nat.
Variable P : 'M[C]_d.
Hypothesis Pu : unitary P.
Hypothesis Psq : P *m cj P = - 1%:M.
Variable qr : forall n, 'M[C]_(d, n) -> 'M[C]_(d, n).

Definition tau (A : 'M[C]_d) : 'M[C]_d := P *m cj A *m dag P.
Lemma tauB A B : tau (A - B) = tau A - tau B.
Proof. by rewrite /tau cjB mulmxBr mulmxBl. Qed.
Lemma tau_out n (W : 'M[C]_(d, n)) : tau (W *m dag W) = Pdot P W *m dag (Pdot P W).
Proof. by rewrite /tau /Pdot dagM cjM dag_cj !mulmxA. Qed.
Lemma Pdot2 n (W : 'M[C]_(d, n)) : Pdot P (Pdot P W) = - W.
Proof. by rewrite /Pdot cjM cjK mulmxA Psq mulNmx mul1mx. Qed.
Lemma tau_out2 n (W : 'M[C]_(d, n)) : tau (Pdot P W *m dag (Pdot P W)) = W *m dag W.
Proof.
rewrite tau_out Pdot2 mulNmx (_ : dag (- W) = - dag W) ?mulmxN ?opprK //.
by apply/matrixP=> i j; rewrite !mxE rmorphN.
Qed.
Lemma P_anti : P^T = - P.
Proof.
have h : cj P = - dag P.
  by rewrite -(mul1mx (cj P)) -(mulmx1C Pu) -mulmxA Psq mulmxN mulmx1.
have := congr1 (@cj C d d) h; rewrite cjK cjN /dag cjK => h2.
by rewrite {2}h2 opprK.
Qed.
Lemma partner_orth (c : 'cV[C]_d) : dag c *m Pdot P c = 0.
Proof.
set a := dag c *m _; have h : a^T = - a.
  rewrite /a /Pdot !trmx_mul P_anti.
  have -> : (cj c)^T = dag c by apply/matrixP=> i j; rewrite !mxE.
  have -> : (dag c)^T = cj c by apply/matrixP=> i j; rewrite !mxE.
  by rewrite mulmxN mulNmx mulmxA.
apply/matrixP=> i j; rewrite !ord1 [RHS]mxE.
have := congr1 (fun M : 'M[C]_1 => M 0 0) h; rewrite !mxE => /eqP.
by rewrite -addr_eq0 -mulr2n mulrn_eq0 => /eqP.
Qed.
Lemma split_first n (W : 'M[C]_(d, n.+1)) : W *m dag W = first W *m dag (first W) + rest W *m dag (rest W).
Proof.
apply/matrixP=> i j; rewrite !mxE big_ord_recl big_ord_recl big_ord0 addr0 !mxE.
by congr (_ + _); apply: eq_bigr => k _; rewrite !mxE.
Qed.
Lemma first_unit n (W : 'M[C]_(d, n.+1)) : orthonormal W -> orthonormal (first W).
Proof.
move=> oW; apply/matrixP=> i j; rewrite !ord1.
have := congr1 (fun M : 'M[C]_n.+1 => M 0 0) oW; rewrite !mxE eqxx => <-.
by apply: eq_bigr => k _; rewrite !mxE.
Qed.
Lemma rest_orth n (W : 'M[C]_(d, n.+1)) : orthonormal W -> orthonormal (rest W).
Proof.
move=> oW; apply/matrixP=> i j.
have := congr1 (fun M : 'M[C]_n.+1 => M (lift 0 i) (lift 0 j)) oW; rewrite !mxE.
rewrite (inj_eq lift_inj) => <-; by apply: eq_bigr => k _; rewrite !mxE.
Qed.
Lemma but_last_orth n (W : 'M[C]_(d, n.+1)) : orthonormal W -> orthonormal (but_last W).
Proof.
move=> oW; apply/matrixP=> i j.
have := congr1 (fun M : 'M[C]_n.+1 => M (widen_ord (leqnSn n) i) (widen_ord (leqnSn n) j)) oW; rewrite !mxE.
rewrite -val_eqE /= val_eqE => <-; by apply: eq_bigr => k _; rewrite !mxE.
Qed.
Lemma first_in n (W : 'M[C]_(d, n.+1)) : orthonormal W -> W *m dag W *m first W = first W.
Proof.
by move=> oW; rewrite /first !colE mulmxA -(mulmxA W) oW mulmx1.
Qed.
Lemma orth_size n (W : 'M[C]_(d, n)) : orthonormal W -> (n <= d)%N.
Proof.
move=> oW; have := mxrankM_maxr (dag W) W; rewrite oW mxrank1 => h; apply: leq_trans h _; exact: rank_leq_row.
Qed.

Lemma reduced n (W : 'M[C]_(d, n.+2)) : qr_spec qr n -> orthonormal W -> tau (W *m dag W) = W *m dag W ->
  let c := first W in
  [/\ orthonormal (reduce P qr W),
      reduce P qr W *m dag (reduce P qr W) = W *m dag W - c *m dag c - Pdot P c *m dag (Pdot P c) &
      tau (reduce P qr W *m dag (reduce P qr W)) = reduce P qr W *m dag (reduce P qr W)].
Proof.
move=> qS oW tW c; set p := Pdot P c.
have oc : orthonormal c by exact: first_unit.
have op : orthonormal p by rewrite /orthonormal /p dag_Pdot // oc cj1.
set R := rest W; have oR : orthonormal R by exact: rest_orth.
have WE : W *m dag W = c *m dag c + R *m dag R by exact: split_first.
have Wp : W *m dag W *m p = p.
  rewrite -tW /tau /p /Pdot -!mulmxA (mulmxA (dag P)) (mulmx1C Pu) mul1mx -!cjM.
  by rewrite first_in.
have Kp : R *m dag R *m p = p.
  by rewrite -[RHS]Wp WE mulmxDl -(mulmxA c) partner_orth mulmx0 add0r.
set K := R *m dag R in Kp *; set L := p *m dag p.
have KK : K *m K = K by rewrite /K -mulmxA (mulmxA (dag R)) oR mul1mx.
have LL : L *m L = L by rewrite /L -mulmxA (mulmxA (dag p)) op mul1mx.
have KL : K *m L = L by rewrite /L mulmxA Kp.
have dK : dag K = K by rewrite /K dagM dagK.
have dL : dag L = L by rewrite /L dagM dagK.
have LK : L *m K = L by rewrite -{1}dL -{1}dK -dagM KL.
set Pi := K - L.
have PiK : Pi *m K = Pi by rewrite /Pi mulmxBl KK LK.
have PiPi : Pi *m Pi = Pi by rewrite {2}/Pi mulmxBr PiK /Pi mulmxBl KL LL subrr subr0.
have dPi : dag Pi = Pi by rewrite /Pi dagB dK dL.
have sz : (n.+1 <= d)%N by exact: orth_size oR.
have [oQ hQ] := qS sz (Pi *m R).
have [||X hX] := hQ (dag R *m p).
- apply/eqP => y0; have : dag p *m (R *m (dag R *m p)) = 1%:M by rewrite (mulmxA R) -/K Kp op.
  by rewrite y0 !mulmx0 => /matrixP /(_ 0 0) /eqP; rewrite !mxE eq_sym oner_eq0.
- by rewrite mulmxA -(mulmxA Pi) -/K PiK /Pi mulmxBl Kp /L -mulmxA op mulmx1 subrr.
have -> : reduce P qr W = but_last (qr (Pi *m R)) by [].
set W' := but_last _ in hX *; have oW' : orthonormal W' by exact: but_last_orth.
have SE : W' *m dag W' = Pi.
  set S := W' *m dag W'.
  have dS : dag S = S by rewrite /S dagM dagK.
  have SS : S *m S = S by rewrite /S -mulmxA (mulmxA (dag W')) oW' mul1mx.
  have PiE : Pi = W' *m (X *m dag R) by rewrite mulmxA -hX -mulmxA -/K PiK.
  have SPi : S *m Pi = Pi by rewrite {1}PiE /S -mulmxA (mulmxA (dag W')) oW' mul1mx -PiE.
  have PiS : Pi *m S = Pi by rewrite -{1}dPi -{1}dS -dagM SPi.
  apply/eqP; rewrite -subr_eq0; apply/eqP; apply: tr_zero.
  rewrite dagB dS dPi (mulmxBl S Pi) (mulmxBr S S Pi) (mulmxBr Pi S Pi) SS SPi PiS PiPi subrr subr0.
  rewrite /S /Pi /K /L !linearB /= mxtrace_mulC oW' (mxtrace_mulC R) oR (mxtrace_mulC p) op !mxtrace1.
  by rewrite -natrB // subn1 subrr.
have SE' : W' *m dag W' = W *m dag W - c *m dag c - p *m dag p.
  by rewrite SE /Pi WE (addrC (c *m _)) addrK.
split=> //; rewrite SE' !tauB tW tau_out tau_out2 -/p.
by rewrite -!addrA (addrC (- (p *m _))).
Qed.
End Paired.
Section PairedLoop.
Variable C : numClosedFieldType.
Variable d : nat.
Variable P : 'M[C]_d.
Hypothesis Pu : unitary P.
Hypothesis Psq : P *m cj P = - 1%:M.
Variable qr : forall n, 'M[C]_(d, n) -> 'M[C]_(d, n).

Lemma pairs_ok p (W : 'M[C]_(d, p.*2)) : (forall n, (n.+1 < p.*2)%N -> qr_spec qr n) ->
  orthonormal W -> tau P (W *m dag W) = W *m dag W ->
  [/\ size (pairs P qr W) = p.*2,
      forall i, (i < p.*2)%N -> orthonormal (nth 0 (pairs P qr W) i),
      \sum_(c <- pairs P qr W) c *m dag c = W *m dag W &
      forall i, (i < p)%N -> nth 0 (pairs P qr W) i.*2.+1 = Pdot P (nth 0 (pairs P qr W) i.*2)].
Proof.
elim: p W => [|p IH] W qS oW tW.
  split=> //; rewrite /= big_nil; apply/matrixP=> i j; rewrite !mxE big_ord0; by [].
have qS0 : qr_spec qr p.*2 by apply: qS; rewrite doubleS.
have [oR eR tR] := reduced Pu Psq qS0 oW tW.
have qS' : forall n, (n.+1 < p.*2)%N -> qr_spec qr n.
  by move=> n hn; apply: qS; rewrite doubleS; apply: leq_trans hn _; rewrite leqW // leqW.
have [sz un sm pr] := IH (reduce P qr W) qS' oR tR.
have oc := first_unit oW.
have op : orthonormal (Pdot P (first W)) by rewrite /orthonormal dag_Pdot // oc cj1.
split=> /=.
- by rewrite sz doubleS.
- by case=> [|[|i]] //=; rewrite doubleS !ltnS; exact: un.
- by rewrite !big_cons sm eR [X in _ + X]addrC subrK addrC subrK.
- by case=> [|i] //=; exact: pr.
Qed.
Lemma normalized_unit (c : 'cV[C]_d) : orthonormal c -> normalized c = c.
Proof. by move=> oc; rewrite /normalized oc mxE eqxx mulr1n sqrtC1 invr1 scale1r. Qed.
Lemma hstack_out n (cs : seq 'cV[C]_d) : size cs = n ->
  hstack n cs *m dag (hstack n cs) = \sum_(c <- cs) c *m dag c.
Proof.
move=> sz; rewrite (big_nth 0) sz big_mkord; apply/matrixP=> i j; rewrite !mxE summxE.
by apply: eq_bigr => k _; rewrite !mxE big_ord1 !mxE.
Qed.
(** equal projectors: same span and orthonormal *)
Lemma projector_span n (W V : 'M[C]_(d, n)) : orthonormal W -> V *m dag V = W *m dag W ->
  orthonormal V /\ same_span W V.
Proof.
move=> oW h.
have hV : V = W *m (dag W *m V).
  apply/eqP; rewrite -subr_eq0; apply/eqP; apply: dag_zero'.
  rewrite dagB mulmxBl !mulmxBr !dagM dagK.
  have a : V *m (dag V *m W *m dag W) = W *m dag W.
    by rewrite !mulmxA h -(mulmxA W) oW mulmx1.
  have b : W *m (dag W *m V) *m dag V = W *m dag W.
    by rewrite -!mulmxA h (mulmxA (dag W)) oW mul1mx.
  have c : W *m (dag W *m V) *m (dag V *m W *m dag W) = W *m dag W.
    by rewrite !mulmxA -(mulmxA (W *m dag W) V) h !mulmxA -(mulmxA W (dag W) W) oW mulmx1 -(mulmxA W (dag W) W) oW mulmx1.
  by rewrite h a b c !subrr.
set Z := dag W *m V in hV.
have ZZ : Z *m dag Z = 1%:M.
  by rewrite /Z dagM dagK !mulmxA -(mulmxA (dag W)) h mulmxA oW mul1mx oW.
split; last by split; [exists Z|exists (dag Z); rewrite hV -mulmxA ZZ mulmx1].
by rewrite /orthonormal hV dagM mulmxA -(mulmxA _ (dag W)) oW mulmx1; exact: mulmx1C.
Qed.
Lemma paired_ok p (W : 'M[C]_(d, p.*2)) : (forall n, (n.+1 < p.*2)%N -> qr_spec qr n) ->
  orthonormal W -> tau P (W *m dag W) = W *m dag W ->
  exists V, [/\ finish (paired_modes P qr W) = Modes V (iota 0 p.*2), orthonormal V, same_span W V &
     forall (i : nat) (h0 : (i.*2 < p.*2)%N) (h1 : (i.*2.+1 < p.*2)%N),
       col (Ordinal h1) V = antiunitary P (col (Ordinal h0) V)].
Proof.
move=> qS oW tW; have [sz un sm pr] := pairs_ok qS oW tW.
have ne : [seq normalized c | c <- pairs P qr W] = pairs P qr W.
  apply: (@eq_from_nth _ 0); first by rewrite size_map.
  move=> i; rewrite size_map => hi; rewrite (nth_map 0) // normalized_unit //; apply: un; by rewrite -sz.
rewrite /paired_modes ne; set cs := pairs P qr W in sz un sm pr *.
have -> : all (fun i => nth 0 cs i.*2.+1 == Pdot P (nth 0 cs i.*2)) (iota 0 p).
  by apply/allP => i; rewrite mem_iota add0n => /andP[_ hi]; rewrite pr.
have hV : hstack p.*2 cs *m dag (hstack p.*2 cs) = W *m dag W by rewrite hstack_out.
have [oV sV] := projector_span oW hV.
exists (hstack p.*2 cs); rewrite /= oV eqxx; split=> // i h0 h1.
have hc : forall j : 'I_p.*2, col j (hstack p.*2 cs) = nth 0 cs j.
  by move=> j; apply/matrixP=> k l; rewrite !mxE ord1.
rewrite !hc /= pr // -ltn_double; exact: h0.
Qed.
End PairedLoop.
(** ** The theorems *)
Lemma neg1 (C : numClosedFieldType) n : - 1%:M = (-1)%:M :> 'M[C]_n.
Proof. by rewrite -scaleN1r scalemx1. Qed.
Section Main.
Variable C : numClosedFieldType.
Variable d : nat.
Variable P : 'M[C]_d.
Variable schur : forall n, 'M[C]_n -> 'M[C]_n * 'M[C]_n.
Variable qr : forall n, 'M[C]_(d, n) -> 'M[C]_(d, n).
Variable branch : forall n, 'rV[C]_n -> C * C.
Hypothesis Pu : unitary P.

(** P^2 = 1: every returned mode is its own particle-hole partner *)
Lemma real_any n paired (W : 'M[C]_(d, n)) : P *m cj P = 1%:M -> orthonormal W -> closed P W ->
  schur_spec schur (dag W *m antiunitary P W) -> branch_spec branch n ->
  exists V, [/\ symmetrize P schur branch paired W = Modes V (nseq n 0%N), orthonormal V,
                antiunitary P V = V & same_span W V].
Proof.
move=> Psq oW cW sS bS; have [hc uU] := closed_U Pu oW cW.
have sq := U_square oW hc Psq.
rewrite /symmetrize uU eqxx /= sq eqxx.
exact: real_modes_ok bS _ _ sS oW uU sq hc.
Qed.
Theorem C71_real p (W : 'M[C]_(d, p.*2)) : P *m cj P = 1%:M -> orthonormal W -> closed P W ->
  schur_spec schur (dag W *m antiunitary P W) -> branch_spec branch p.*2 ->
  exists V, [/\ phs_symmetrization P schur qr branch W = Modes V (nseq p.*2 0%N), orthonormal V,
                antiunitary P V = V & same_span W V].
Proof. exact: real_any. Qed.
Theorem C71_real_odd p (W : 'M[C]_(d, p.*2.+1)) : P *m cj P = 1%:M -> orthonormal W -> closed P W ->
  schur_spec schur (dag W *m antiunitary P W) -> branch_spec branch p.*2.+1 ->
  exists V, [/\ phs_symmetrization_odd P schur branch W = Modes V (nseq p.*2.+1 0%N), orthonormal V,
                antiunitary P V = V & same_span W V].
Proof. exact: real_any. Qed.

(** P^2 = -1: the returned modes are pairs (psi, P psi) *)
Theorem C71_paired p (W : 'M[C]_(d, p.*2)) : (0 < p)%N -> P *m cj P = - 1%:M -> orthonormal W ->
  closed P W -> (forall n, (n.+1 < p.*2)%N -> qr_spec qr n) ->
  exists V, [/\ phs_symmetrization P schur qr branch W = Modes V (iota 0 p.*2), orthonormal V,
                same_span W V &
     forall (i : nat) (h0 : (i.*2 < p.*2)%N) (h1 : (i.*2.+1 < p.*2)%N),
       col (Ordinal h1) V = antiunitary P (col (Ordinal h0) V)].
Proof.
move=> p0 Psq oW cW qS; have [hc uU] := closed_U Pu oW cW.
have Psq' : P *m cj P = (-1)%:M by rewrite Psq neg1.
have sq := U_square oW hc Psq'.
have tW : tau P (W *m dag W) = W *m dag W.
  rewrite tau_out hc dagM mulmxA -(mulmxA W) uU mulmx1; by [].
have ne : (-1)%:M == 1%:M :> 'M[C]_p.*2 = false.
  apply/negP => /eqP /matrixP; have z : (0 < p.*2)%N by rewrite double_gt0.
  move=> /(_ (Ordinal z) (Ordinal z)) /eqP; rewrite !mxE eqxx !mulr1n -subr_eq0 -opprD oppr_eq0 -mulr2n.
  by rewrite pnatr_eq0.
have e1 : (-1)%:M == - 1%:M :> 'M[C]_p.*2 by rewrite neg1.
rewrite /phs_symmetrization /symmetrize uU eqxx /= sq ne e1.
exact: paired_ok.
Qed.

(** ... and there is never an odd number of them *)
Theorem C71_even p (W : 'M[C]_(d, p.*2.+1)) : P *m cj P = - 1%:M -> orthonormal W -> ~ closed P W.
Proof.
move=> Psq oW cW; have [hc uU] := closed_U Pu oW cW.
have Psq' : P *m cj P = (-1)%:M by rewrite Psq neg1.
have sq := U_square oW hc Psq'; set U := dag W *m _ in uU sq *.
have hU : U^T = - U.
  have := sym_of_square uU sq; rewrite scaleN1r /dag => /(congr1 (@cj C _ _)); by rewrite cjN !cjK => h; rewrite {2}h opprK.
have : \det U = - \det U.
  rewrite -{1}det_tr hU -scaleN1r detZ -signr_odd /= odd_double /= expr1 mulN1r; by [].
move/eqP; rewrite -addr_eq0 -mulr2n mulrn_eq0 /= => /eqP d0.
have := congr1 (fun M => \det M) uU; rewrite det_mulmx d0 mul0r det1 => /eqP.
by rewrite eq_sym oner_eq0.
Qed.

(** modes whose span is not closed are refused *)
Theorem C71_not_closed p (W : 'M[C]_(d, p.*2)) : orthonormal W -> ~ closed P W ->
  phs_symmetrization P schur qr branch W = ValueError _ _ _.
Proof.
move=> oW nc; rewrite /phs_symmetrization /symmetrize; case: eqP => [uU|//].
by case: nc; exists (dag W *m Pdot P W); exact: unitary_closed.
Qed.
(** ... and so is an operator that squares on them neither to 1 nor to -1 *)
Theorem C71_square p (W : 'M[C]_(d, p.*2)) : orthonormal W -> closed P W ->
  antiunitary P (antiunitary P W) <> W -> antiunitary P (antiunitary P W) <> - W ->
  phs_symmetrization P schur qr branch W = ValueError _ _ _.
Proof.
move=> oW cW n1 n2; have [hc uU] := closed_U Pu oW cW.
set U := dag W *m Pdot P W in hc uU.
have e : antiunitary P (antiunitary P W) = W *m (U *m cj U).
  by rewrite {2}/antiunitary -/(Pdot P W) hc /antiunitary cjM mulmxA -/(Pdot P W) hc -mulmxA.
rewrite /phs_symmetrization /symmetrize -/U uU eqxx /=.
case: eqP => [h|_]; first by case: n1; rewrite e h mulmx1.
by case: eqP => [h|//]; case: n2; rewrite e h mulmxN mulmx1.
Qed.
End Main.
(** ** The specification of the QR decomposition can be met (Gram-Schmidt) *)
Section QR.
Variable C : numClosedFieldType.
Variable d : nat.
Lemma unit_scale (v : 'cV[C]_d) : v != 0 -> exists a : C, a != 0 /\ orthonormal (a *: v).
Proof.
move=> nz; set s := (dag v *m v) 0 0.
have sp : 0 <= s by rewrite /s dag_entry sumr_ge0 // => ? _; rewrite exprn_ge0.
have sn : s != 0.
  apply: contraNneq nz => s0; apply/eqP; apply: dag_zero; apply/matrixP=> i j.
  by rewrite !ord1 -/s s0 mxE.
have rn : sqrtC s != 0 by rewrite sqrtC_eq0.
exists (sqrtC s)^-1; split; first by rewrite invr_eq0.
apply/matrixP=> i j; rewrite !ord1.
have -> : dag ((sqrtC s)^-1 *: v) = (sqrtC s)^-1 *: dag v.
  apply/matrixP=> k l; rewrite !mxE rmorphM; congr (_ * _).
  by apply: geC0_conj; rewrite invr_ge0 sqrtC_ge0.
rewrite -scalemxAl -scalemxAr !mxE -/s.
have -> : \sum_j0 dag v 0 j0 * v j0 0 = s by rewrite /s mxE.
by rewrite -{3}(sqrtCK s) expr2 (mulrA _ (sqrtC s)) mulVf // mul1r mulVf.
Qed.
Lemma new_direction k (Q : 'M[C]_(d, k)) : (k < d)%N -> exists q : 'cV[C]_d, orthonormal q /\ dag Q *m q = 0.
Proof.
move=> kd; have : kermx (dag Q)^T != 0.
  rewrite -mxrank_eq0 mxrank_ker subn_eq0 -ltnNge; apply: leq_ltn_trans kd.
  by apply: rank_leq_col.
case/rowV0Pn => v /sub_kermxP h nz.
case: (unit_scale (v := v^T)) => [|a [na ou]].
  by apply: contraNneq nz => h0; rewrite -(trmxK v) h0 trmx0.
exists (a *: v^T); split=> //; rewrite -scalemxAr.
by have := congr1 trmx h; rewrite trmx_mul trmxK trmx0 => ->; rewrite scaler0.
Qed.
Lemma dag_row m1 m2 (A : 'M[C]_(d, m1)) (B : 'M[C]_(d, m2)) : dag (row_mx A B) = col_mx (dag A) (dag B).
Proof. by rewrite /dag tr_row_mx /cj map_col_mx. Qed.
Lemma gram_schmidt m (A : 'M[C]_(d, m)) : (m <= d)%N ->
  exists Q : 'M[C]_(d, m), orthonormal Q /\ exists X : 'M[C]_m, A = Q *m X.
Proof.
elim: m A => [|m IH] A md.
  exists A; split; first by apply/matrixP=> [[]].
  by exists 1%:M; rewrite mulmx1.
rewrite -[m.+1]/(1 + m)%N in A *.
have [Q' [oQ [X eX]]] := IH (rsubmx A) (ltnW md).
set a := lsubmx A; set v := a - Q' *m (dag Q' *m a).
have vQ : dag Q' *m v = 0 by rewrite /v mulmxBr mulmxA oQ mul1mx subrr.
have [q [oq Qq [b eb]]] : exists q : 'cV[C]_d, [/\ orthonormal q, dag Q' *m q = 0 & exists b : C, v = b *: q].
  case: (eqVneq v 0) => [v0|nz].
    have [q [oq Qq]] := new_direction Q' md; exists q; split=> //; by exists 0; rewrite scale0r.
  have [c [nc oc]] := unit_scale nz; exists (c *: v); split=> //.
    by rewrite -scalemxAr vQ scaler0.
  by exists c^-1; rewrite scalerA mulVf // scale1r.
exists (row_mx q Q'); split.
  rewrite /orthonormal dag_row mul_col_row oq oQ Qq.
  have -> : dag q *m Q' = 0.
    have := congr1 (@dag C _ _) Qq; rewrite dagM dagK => ->.
    by apply/matrixP=> i j; rewrite !mxE rmorph0.
  by rewrite -scalar_mx_block.
exists (block_mx b%:M 0 (dag Q' *m a) X).
rewrite mul_row_block mulmx0 add0r -eX mul_mx_scalar -eb /v subrK.
by rewrite hsubmxK.
Qed.

Lemma qr_step n (A : 'M[C]_(d, n.+1)) : (n.+1 <= d)%N ->
  exists Q : 'M[C]_(d, n.+1), (dag Q *m Q == 1%:M) &&
    ((\rank A <= n)%N ==> (A^T <= (but_last Q)^T)%MS).
Proof.
move=> nd; case: (leqP (\rank A) n) => hr; last first.
  by have [Q [oQ _]] := gram_schmidt A nd; exists Q; rewrite oQ eqxx.
(* n columns suffice *)
have rd : (\rank A <= d)%N by exact: rank_leq_row.
have [B hB] : exists B : 'M[C]_(d, n), (A^T <= B^T)%MS.
  exists (\matrix_(i < d, j < n) (if insub (val j) : option 'I_(\rank A) is Some k then col_base A i k else 0)).
  set B := \matrix_(_, _) _.
  rewrite -{1}(mulmx_base A) trmx_mul; apply: submx_trans (submxMl _ _) _.
  apply/row_subP => k; have kn : (k < n)%N by exact: leq_trans (ltn_ord k) hr.
  rewrite (_ : row k _ = row (Ordinal kn) B^T) ?row_sub //.
  apply/rowP => i; do 2![rewrite [LHS]mxE]; do 3![rewrite [RHS]mxE]; rewrite insubT //= => lt; congr (col_base A i _); exact: val_inj.
have [Q' [oQ [X eX]]] := gram_schmidt B (ltnW nd).
have [q [oq Qq]] := new_direction Q' nd.
have qQ : dag q *m Q' = 0.
  have := congr1 (@dag C _ _) Qq; rewrite dagM dagK => ->.
  by apply/matrixP=> i j; rewrite !mxE rmorph0.
pose Q := \matrix_(i < d, j < n.+1) (if unlift ord_max j is Some k then Q' i k else q i 0).
have bQ : but_last Q = Q'.
  apply/matrixP=> i j; rewrite !mxE; have -> : widen_ord (leqnSn n) j = lift ord_max j.
    by apply: val_inj; rewrite /= /bump leqNgt ltn_ord.
  by rewrite liftK.
exists Q; rewrite bQ; apply/andP; split; last first.
  apply: submx_trans hB _; rewrite eX trmx_mul; exact: submxMl.
apply/eqP/matrixP=> i j; rewrite !mxE.
have E : forall (f g : 'I_d -> C), f =1 g -> \sum_k f k = \sum_k g k by move=> f g h; apply: eq_bigr.
case: (unliftP ord_max i) => [i'|] ->; case: (unliftP ord_max j) => [j'|] ->.
- have := congr1 (fun M : 'M[C]_n => M i' j') oQ; rewrite !mxE (inj_eq lift_inj) => <-.
  by apply: E => k; rewrite !mxE !liftK.
- have := congr1 (fun M : 'cV[C]_n => M i' 0) Qq; rewrite !mxE eq_sym (negbTE (neq_lift _ _)) mulr0n => h; rewrite -[RHS]h.
  by apply: E => k; rewrite !mxE !liftK unlift_none.
- have := congr1 (fun M : 'rV[C]_n => M 0 j') qQ; rewrite !mxE (negbTE (neq_lift _ _)) mulr0n => h; rewrite -[RHS]h.
  by apply: E => k; rewrite !mxE !liftK unlift_none.
- have := congr1 (fun M : 'M[C]_1 => M 0 0) oq; rewrite !mxE !eqxx => <-.
  by apply: E => k; rewrite !mxE !unlift_none.
Qed.
Definition qr_instance n : 'M[C]_(d, n) -> 'M[C]_(d, n) :=
  match n return 'M[C]_(d, n) -> 'M[C]_(d, n) with
  | 0%N => id
  | n'.+1 => match boolP (n'.+1 <= d)%N with
             | AltTrue h => fun A => xchoose (qr_step A h)
             | AltFalse _ => id
             end
  end.
Theorem C71_qr_exists n : qr_spec qr_instance n.
Proof.
move=> nd A; rewrite /qr_instance; case: {-}_ / boolP => [h|]; last by rewrite nd.
have := xchooseP (qr_step A h); move: (xchoose _) => Q /andP[/eqP o /implyP s]; split=> // y ny Ay.
have /s : (\rank A <= n)%N.
  rewrite -ltnS ltn_neqAle rank_leq_col andbT; apply: contraNneq ny => full.
  have fr : row_free A^T by rewrite /row_free mxrank_tr full.
  have := congr1 trmx Ay; rewrite trmx_mul trmx0 => /(congr1 (mulmx^~ (pinvmx A^T))).
  by rewrite mul0mx -mulmxA mulmxVp // mulmx1 => e; rewrite -(trmxK y) e trmx0.
by case/submxP => D e; exists D^T; rewrite -[LHS]trmxK e trmx_mul trmxK.
Qed.
End QR.
(** ** Examples *)
Section Examples.
Variable C : numClosedFieldType.
(** four modes with P = [0 1; -1 0] (blocks of size two), and all four of them *)
Definition P4 : 'M[C]_(2 + 2) := block_mx 0 1%:M (- 1%:M) 0.
Lemma dag_block (A B D E : 'M[C]_2) : dag (block_mx A B D E) = block_mx (dag A) (dag D) (dag B) (dag E).
Proof. by rewrite /dag tr_block_mx /cj map_block_mx. Qed.
Lemma P4u : unitary P4.
Proof.
rewrite /unitary /P4 dag_block dag1 (_ : dag (- 1%:M) = - 1%:M); last by rewrite -[in RHS]dag1; apply/matrixP=> i j; rewrite !mxE rmorphN.
have z : dag 0 = 0 :> 'M[C]_2 by rewrite /dag trmx0 /cj map_mx0.
by rewrite z mulmx_block !(mul0mx, mulmx0, mulmx1, mul1mx, mulNmx, mulmxN, opprK, oppr0, addr0, add0r) -scalar_mx_block.
Qed.
Lemma P4sq : P4 *m cj P4 = - 1%:M.
Proof.
have -> : cj P4 = P4 by rewrite /cj /P4 map_block_mx -!/(cj _) cjN cj1 /cj map_mx0.
rewrite /P4 mulmx_block !(mul0mx, mulmx0, mulmx1, mul1mx, mulNmx, mulmxN, opprK, oppr0, addr0, add0r).
have e := @scalar_mx_block _ 2 2 (1 : C).
by rewrite [in RHS]e opp_block_mx oppr0.
Qed.
Lemma all_closed n (P : 'M[C]_n) : closed P 1%:M.
Proof. by exists (antiunitary P 1%:M); rewrite mul1mx. Qed.
Lemma all_orth n : orthonormal (1%:M : 'M[C]_n).
Proof. by rewrite /orthonormal dag1 mul1mx. Qed.
Example C71_example_paired schur branch : exists V,
  phs_symmetrization (p := 2) P4 schur (@qr_instance C 4) branch 1%:M = Modes V [:: 0; 1; 2; 3]%N.
Proof.
have [V [h _ _ _]] := @C71_paired C 4 P4 schur (@qr_instance C 4) branch P4u 2 1%:M isT P4sq (all_orth 4) (all_closed P4) (fun n _ => @C71_qr_exists C 4 n).
by exists V.
Qed.
(** P = diag(i, -1): the modes become exp(i pi/4) and i *)
Definition P2 : 'M[C]_2 := diag_mx (\row_i (if val i == 0%N then 'i else -1)).
Lemma P2u : unitary P2.
Proof.
rewrite /unitary; have -> : dag P2 = diag_mx (\row_i (if val i == 0%N then - 'i else -1)).
  apply/matrixP => i j; rewrite !mxE (eq_sym j i); case: (i =P j) => [->|_]; last by rewrite !mulr0n rmorph0.
  by rewrite !mulr1n; case: eqP => _; rewrite ?conjCi // rmorphN rmorph1.
rewrite mulmx_diag; apply/matrixP => i j; rewrite !mxE; case: (i == j); rewrite ?mulr0n // !mulr1n.
by case: ifP => _; rewrite mulrN ?mulrNN ?mulr1 ?mulN1r ?opprK // -expr2 sqrCi opprK.
Qed.
Lemma P2sq : P2 *m cj P2 = 1%:M.
Proof.
by rewrite -P2u; congr (_ *m _); rewrite /dag /P2 tr_diag_mx.
Qed.
Example C71_example_real qr : exists V,
  phs_symmetrization (p := 1) P2 (fun n U => (U, 1%:M)) qr (fun n v => (1, 1)) 1%:M = Modes V [:: 0; 0]%N
  /\ antiunitary P2 V = V.
Proof.
have [|v|V [h _ e _]] := @C71_real C 2 P2 (fun n U => (U, 1%:M)) qr (fun n v => (1, 1)) P2u 1 1%:M P2sq (all_orth 2) (all_closed P2).
- rewrite /schur_spec dag1 mul1mx /antiunitary cj1 mulmx1 /= => _; split; rewrite ?mul1mx ?mulmx1 ?/unitary ?dag1 ?mul1mx //.
  exact: diag_mx_is_diag.
- by rewrite expr1n mulr1.
by exists V.
Qed.
(** The check is also passed by modes that are not orthonormal and whose span is not closed:
    (1,0,0,0) and (0,0,1,1) with P = P4.  The result then spans another space. *)
Definition A4 : 'M[C]_2 := \matrix_(i, j) ((val i == 0%N) && (val j == 0%N))%:R.
Definition B4 : 'M[C]_2 := \matrix_(i, j) (val j == 1%N)%:R.
Definition W4 : 'M[C]_(2 + 2, 2) := col_mx A4 B4.
Definition J2 : 'M[C]_2 := \matrix_(i, j) ((val i == 0%N) && (val j == 1%N))%:R - \matrix_(i, j) ((val i == 1%N) && (val j == 0%N))%:R.
Lemma cjA4 : cj A4 = A4. Proof. by apply/matrixP=> i j; rewrite !mxE rmorph_nat. Qed.
Lemma cjB4 : cj B4 = B4. Proof. by apply/matrixP=> i j; rewrite !mxE rmorph_nat. Qed.
Lemma PW4 : Pdot P4 W4 = col_mx B4 (- A4).
Proof.
rewrite /Pdot /W4 /cj map_col_mx -!/(cj _) cjA4 cjB4 /P4 mul_block_col.
by rewrite !(mul0mx, mul1mx, mulNmx, addr0, add0r).
Qed.
Lemma dagW4 : dag W4 = row_mx A4^T B4^T.
Proof.
by rewrite /dag /W4 tr_col_mx /cj map_row_mx -!map_trmx -!/(cj _) cjA4 cjB4.
Qed.
Lemma UW4 : dag W4 *m Pdot P4 W4 = J2.
Proof.
rewrite PW4 dagW4 mul_row_col mulmxN; apply/matrixP=> [[[|[|//]] ?] [[|[|//]] ?]];
rewrite !mxE !big_ord_recl !big_ord0 !mxE /= ?mulr0n ?mulr1n; by rewrite !(mulr0, mul0r, mulr1, mul1r, addr0, add0r).
Qed.
Lemma dagJ2 : dag J2 = - J2.
Proof.
by apply/matrixP=> i j; rewrite !mxE rmorphB !rmorph_nat opprB andbC (andbC (val j == 1%N)).
Qed.
Lemma J2sq : J2 *m J2 = - 1%:M.
Proof.
apply/matrixP=> [[[|[|//]] ?] [[|[|//]] ?]]; rewrite !mxE !big_ord_recl !big_ord0 !mxE /= ?mulr0n ?mulr1n;
by rewrite !(subrr, subr0, sub0r, mulr0, mul0r, mulr1, mul1r, addr0, add0r, mulN1r, oppr0).
Qed.
Definition c4 : 'cV[C]_(2 + 2) := \col_i (val i == 0%N)%:R.
Lemma first_W4 : first W4 = c4.
Proof.
apply/matrixP=> i j; rewrite !mxE; case: splitP => k e; rewrite !mxE /= e ?andbT //.
Qed.
Lemma c4_unit : orthonormal c4.
Proof.
apply/matrixP=> i j; rewrite !ord1 dag_entry [RHS]mxE eqxx mulr1n.
rewrite (bigD1 (ord0 : 'I_(2 + 2))) //= big1 => [|k ne]; first by rewrite mxE /= normr1 expr1n addr0.
rewrite mxE; have -> : (val k == 0%N) = false by apply/negbTE.
by rewrite normr0 expr0n.
Qed.
Lemma pair_orth (c p : 'cV[C]_(2 + 2)) : orthonormal c -> orthonormal p -> dag c *m p = 0 ->
  orthonormal (hstack 2 [:: c; p]).
Proof.
move=> oc op cp.
have pc : dag p *m c = 0.
  by rewrite -(dagK (dag p *m c)) dagM dagK cp; apply/matrixP=> i j; rewrite !mxE rmorph0.
have E : forall i j : 'I_2, (dag (hstack 2 [:: c; p]) *m hstack 2 [:: c; p]) i j = (dag (nth 0 [:: c; p] i) *m nth 0 [:: c; p] j) 0 0.
  by move=> i j; rewrite !mxE; apply: eq_bigr => k _; rewrite !mxE.
apply/matrixP=> [[[|[|//]] ?] [[|[|//]] ?]]; rewrite E /= ?oc ?op ?cp ?pc !mxE //.
Qed.
Lemma Pc4_3 : (Pdot P4 c4) (rshift 2 1) 0 = 0.
Proof.
have -> : c4 = col_mx (\col_i (val i == 0%N)%:R) 0.
  apply/matrixP=> i j; rewrite !mxE; case: splitP => k e; rewrite !mxE /= e //.
rewrite /Pdot /cj map_col_mx /P4 mul_block_col col_mxEd !mxE !big_ord_recl !big_ord0 !mxE /=.
by rewrite ?mulr0n ?mulr1n !(rmorph0, mulr0, mul0r, mulNr, mul1r, addr0, add0r, oppr0).
Qed.
(** the input is neither orthonormal nor closed, yet no error is raised *)
Theorem C71_check_refuted schur qr branch : exists V : 'M[C]_(2 + 2, 2),
  [/\ phs_symmetrization (p := 1) P4 schur qr branch W4 = Modes V [:: 0; 1]%N,
  ~ orthonormal W4, ~ closed P4 W4 & ~ same_span W4 V].
Proof.
have o1 := c4_unit.
have o2 : orthonormal (Pdot P4 c4) by rewrite /orthonormal dag_Pdot ?o1 ?cj1 //; exact: P4u.
have ov := pair_orth o1 o2 (partner_orth P4u P4sq c4).
exists (hstack 2 [:: c4; Pdot P4 c4]).
have ok : phs_symmetrization (p := 1) P4 schur qr branch W4 = Modes (hstack 2 [:: c4; Pdot P4 c4]) [:: 0; 1]%N.
  rewrite /phs_symmetrization /symmetrize UW4 dagJ2 mulmxN J2sq opprK eqxx /=.
  have -> : cj J2 = J2 by apply/matrixP=> i j; rewrite !mxE rmorphB !rmorph_nat.
  rewrite J2sq eqxx.
  have -> : (- 1%:M == 1%:M :> 'M[C]_2) = false.
    apply/negP => /eqP /matrixP /(_ 0 0) /eqP; rewrite !mxE eqxx mulr1n -subr_eq0 -opprD oppr_eq0 -mulr2n.
    by rewrite pnatr_eq0.
  rewrite /paired_modes /= first_W4 !normalized_unit // eqxx /=.
  by rewrite ov eqxx.
have w3 : W4 (rshift 2 1) 1 = 1 by rewrite /W4 col_mxEd mxE.
have ns : ~ same_span W4 (hstack 2 [:: c4; Pdot P4 c4]).
  case=> _ [X /matrixP /(_ (rshift 2 1) 1)]; rewrite w3 mxE.
  rewrite big1 => [/eqP|k _]; first by rewrite oner_eq0.
  case: k => [[|[|//]] ?]; rewrite mxE /= ?Pc4_3 ?mul0r //.
  by rewrite mxE /= mul0r.
have no : ~ orthonormal W4.
  move=> /matrixP /(_ 1 1); rewrite dag_entry !mxE (bigD1 (rshift 2 1)) //= (bigD1 (rshift 2 0)) //=.
  rewrite w3 [W4 _ _](_ : _ = 1) ?normr1 ?expr1n ?eqxx ?mulr1n; last by rewrite /W4 col_mxEd mxE.
  move/eqP; rewrite -subr_eq0 addrAC subrr add0r => h; move: h.
  rewrite Order.POrderTheory.gt_eqF // ltr_spaddl ?ltr01 ?sumr_ge0 // => ? _; by rewrite exprn_ge0.
split=> //.
(* if the space were closed, P w0 would be a combination of w0 and w1 *)
case=> X; rewrite -[antiunitary P4 W4]/(Pdot P4 W4) PW4 /W4 mul_col_mx => /eq_col_mx [_ /matrixP h].
have := h 1 0; have := h 0 0; rewrite !mxE !big_ord_recl !big_ord0 !mxE /=.
rewrite !(mul0r, mul1r, addr0, add0r, oppr0) => a b; move/eqP: a; rewrite -b.
by rewrite oppr_eq0 oner_eq0.
Qed.
End Examples.
Print Assumptions C71_real.
Print Assumptions C71_real_odd.
Print Assumptions C71_paired.
Print Assumptions C71_even.
Print Assumptions C71_not_closed.
Print Assumptions C71_square.
Print Assumptions C71_qr_exists.
Print Assumptions C71_example_paired.
Print Assumptions C71_example_real.
Print Assumptions C71_check_refuted.
