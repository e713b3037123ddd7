(** * C61: the propagating modes of a lead. *)
From mathcomp Require Import all_ssreflect all_algebra all_fingroup all_field.
From Verif Require Import Zmod LeadsModel LeadsSpec LeadsProofs LeadsProps LeadsClusters LeadsModes LeadsModes2.
Set Implicit Arguments. Unset Strict Implicit. Unset Printing Implicit Defensive.
Import Order.Theory GRing.Theory Num.Theory.
Local Open Scope ring_scope.

Section Props.
Variable C : numClosedFieldType.
Variables (svd : forall n, 'M[C]_n -> 'M[C]_n * 'rV[C]_n * 'M[C]_n) (good_h good_b : forall n, 'M[C]_n -> bool).
Variables (near : C -> C -> bool) (angle : C -> C).
Variables (qr : forall m c, 'M[C]_(m, c) -> option ('M[C]_(m, c) * 'M[C]_c)) (eigh : forall c, 'M[C]_c -> option ('rV[C]_c * 'M[C]_c)).

Lemma col_entry m r s (A : 'M[C]_(m, r)) (B : 'M[C]_(m, s)) (M : 'M[C]_m) i j : adj (col i A) *m M *m col j B = ((hc A *m M *m B) i j)%:M.
Proof.
apply/matrixP=> a b. rewrite !ord1 [RHS]mxE mulr1n [LHS]mxE [RHS]mxE. apply: eq_bigr => l _. congr (_ * _); last by rewrite mxE.
rewrite [LHS]mxE [RHS]mxE. apply: eq_bigr => c _. by rewrite !mxE.
Qed.

(** Every mode that make_proper_modes returns is a Bloch state of the lead with
    its momentum; its velocity is that of its band, dE/dk = <phi|dH/dk|phi> / <phi|phi>;
    the modes are normalized to unit current, and modes with the same momentum
    are orthogonal and do not mix under dH/dk.  They are a basis of the given
    eigenvectors; the first half moves left, the second half right; the
    left-movers are ordered by increasing momentum, the right-movers by
    decreasing momentum. *)
Theorem C61_propagating n (h t : 'M[C]_n) stab L r (lam : 'rV[C]_r) (psi : 'M[C]_(ldim L + ldim L, r)) p :
  svd_of t (svd t) -> (forall m (A : 'M[C]_m), good_h A -> A \in unitmx) -> (forall m (A : 'M[C]_m), good_b A -> A \in unitmx) ->
  (forall m c (A : 'M[C]_(m, c)) y, qr A = Some y -> qr_of A y) -> (forall c (A : 'M[C]_c) y, hermitian A -> eigh A = Some y -> eigh_of A y) ->
  (forall s0, stab <> Some (s0, true)) -> setup_linsys svd good_h good_b h t stab = inl L -> hermitian h ->
  lmat L *m psi = odflt 1%:M (lmatb L) *m psi *m diag_mx lam -> (forall j, `|lam 0 j| = 1) ->
  (forall i j, near (lam 0 i) (lam 0 j) = (lam 0 i == lam 0 j)) ->
  (forall i, angle (lam 0 i) \is Num.real) -> (forall i j, angle (lam 0 i) = angle (lam 0 j) -> lam 0 i = lam 0 j) ->
  make_proper_modes near angle qr eigh lam psi = inl p ->
  [/\ (forall j, bloch_state h t (pr_lam p 0 j) (col j (pr_wf p))) /\ (forall j, pr_vel p 0 j \is Num.real) /\ (forall j, pr_mom p 0 j = - angle (pr_lam p 0 j)),
      (forall i j, pr_lam p 0 i = pr_lam p 0 j ->
         adj (col i (pr_wf p)) *m dH_dk t (pr_lam p 0 j) *m col j (pr_wf p) = (if i == j then Num.sg (pr_vel p 0 j) else 0)%:M /\
         adj (col i (pr_wf p)) *m col j (pr_wf p) = (if i == j then `|pr_vel p 0 j|^-1 else 0)%:M),
      (exists2 T, T \in unitmx & pr_psi p = psi *m T) /\ (exists2 o : 'I_r -> 'I_r, injective o & forall j, pr_lam p 0 j = lam 0 (o j)) /\ lextract L (pr_psi p) (pr_lam p) = pr_wf p,
      (forall j : 'I_r, (j < r %/ 2)%N -> pr_vel p 0 j < 0) /\ (forall j : 'I_r, (r %/ 2 <= j)%N -> 0 < pr_vel p 0 j) /\ (r = 2 * (r %/ 2))%N
    & forall i j : 'I_r, (i <= j)%N ->
        ((j < r %/ 2)%N -> pr_mom p 0 i <= pr_mom p 0 j) /\ ((r %/ 2 <= i)%N -> pr_mom p 0 j <= pr_mom p 0 i) /\
        (((j < r %/ 2) || (r %/ 2 <= i))%N -> pr_mom p 0 i = pr_mom p 0 j -> pr_vel p 0 i <= pr_vel p 0 j)].
Proof.
move=> S Hgh Hgb Hqr Heigh Hs HL Hh Hpsi Hlam Hn Ha1 Ha2 Hp. have [u [Euv P Ex]] := setup_linsys_ok S Hgh Hgb Hs HL.
have Hcore : core h u (lv L) psi 1%:M (diag_mx lam) (lextract L psi lam).
  have [Phi K] : exists Phi, core h u (lv L) psi 1%:M (diag_mx lam) Phi by apply/P; rewrite mulmx1.
  by rewrite -(Ex _ _ _ _ K).
have [[[T UT ET] K V] G [R Nz] [[o Io Eo] Em] [Lt [Hr Sr]]] := proper_result Hqr Heigh Hh Hlam Hn Ha1 Ha2 Hcore Hp.
have Nl j : `|pr_lam p 0 j| = 1 by rewrite Eo.
have Nl0 j : pr_lam p 0 j != 0 by rewrite -normr_eq0 Nl oner_eq0.
have Cl j : (pr_lam p 0 j)^* * pr_lam p 0 j = 1 by rewrite mulrC -normCK Nl expr1n.
have [K1 K2 K3] := K. rewrite !mulmx1 in K1 K2.
have Pos (j : 'I_r) : (r %/ 2 <= j)%N -> 0 < pr_vel p 0 j.
  move=> Hj. case: (real_ltgtP (R j) (real0 _)) => // H; last by move: (Nz j); rewrite H eqxx. by move: H; rewrite Lt ltnNge Hj.
split=> //.
- split=> // j. apply/bloch_stateE => //. rewrite -[mu in mu *: _]/(pr_lam p 0 j).
  have Ecol m (A : 'M[C]_(m, n)) : A *m col j (pr_wf p) = col j (A *m pr_wf p) by rewrite !colE mulmxA.
  have Ecl m (A : 'M[C]_(m, r)) : col j (A *m diag_mx (pr_lam p)) = pr_lam p 0 j *: col j A.
    apply/matrixP=> a b. rewrite mul_mx_diag !mxE. by rewrite mulrC.
  rewrite -Euv hcM hcK !Ecol -!mulmxA K1 K2 K3 !mulmxA.
  have -> : col j (- (u *m usubmx (pr_psi p) *m diag_mx (pr_lam p)) - lv L *m dsubmx (pr_psi p)) = - col j (u *m usubmx (pr_psi p) *m diag_mx (pr_lam p)) - col j (lv L *m dsubmx (pr_psi p)).
    by apply/matrixP=> a b; rewrite !mxE.
  rewrite !Ecl scalerA mulVf // scale1r. zmod.
- move=> i j E. split; last first.
    rewrite -[adj _]mulmx1 col_entry mulmx1 (G _ _ E). congr (_%:M). case: eqP => _; by rewrite ?mul1r ?mul0r.
  rewrite col_entry. congr (_%:M). rewrite /dH_dk mulmxDr mulmxDl -!scalemxAr -!scalemxAl.
  have E1 : hc (pr_wf p) *m t *m pr_wf p = diag_mx (map_mx (@conjC C) (pr_lam p)) *m (hc (dsubmx (pr_psi p)) *m usubmx (pr_psi p)).
    rewrite -Euv -!mulmxA K2 !mulmxA. congr (_ *m _). rewrite -[u]hcK -hcM K3 hcM. congr (_ *m _). by rewrite /hc tr_diag_mx map_diag_mx.
  have E2 : hc (pr_wf p) *m adj t *m pr_wf p = hc (usubmx (pr_psi p)) *m dsubmx (pr_psi p) *m diag_mx (pr_lam p).
    rewrite -hcE -Euv hcM hcK -!mulmxA K3 !mulmxA. congr (_ *m _ *m _). by rewrite -[lv L]hcK -hcM K2.
  rewrite E1 E2. rewrite [LHS]mxE [X in X + _]mxE [X in _ + X]mxE mul_diag_mx mul_mx_diag [X in _ * X + _]mxE [X in _ + _ * X]mxE [X in _ * (X * _) + _]mxE.
  have -> : (if i == j then Num.sg (pr_vel p 0 j) else 0) = vop (pr_psi p) i j by rewrite V !mxE; case: eqP => [->|_]; rewrite ?mulr1n ?mulr0n.
  rewrite vopE /cross [RHS]mxE [X in _ = _ * X]mxE [X in _ = _ * (_ + X)]mxE.
  set x := (hc (dsubmx _) *m _) i j. set y := (hc (usubmx _) *m _) i j. rewrite E. set l := pr_lam p 0 j.
  have -> : - 'i * l * (l^* * x) = - ('i * x) by rewrite mulrA -[- 'i * l * l^*]mulrA [l * l^*]mulrC Cl mulr1 mulNr.
  have -> : 'i * l^-1 * (y * l) = 'i * y by rewrite [y * l]mulrC mulrA -['i / l * l]mulrA mulVf ?mulr1 ?Nl0.
  by rewrite mulrBr addrC.
- split; first by exists T. split; first by exists o. by rewrite -(Ex _ _ _ _ K).
- split; [by move=> j; rewrite Lt|by split].
- move=> i j Hij. have := Sr i j Hij. rewrite /lexsort_le => H. split; last split.
  + move=> Hj. have Hi := leq_ltn_trans Hij Hj. move: H. rewrite !(ltr0_sg _) ?Lt // ltxx eqxx /= !opprK !mul1r => /orP [/ltW//|/andP [/eqP-> _]]. exact: lexx.
  + move=> Hi. have Hj := leq_trans Hi Hij. move: H. rewrite !(gtr0_sg _) ?Pos // ltxx eqxx /= !mulN1r ltr_opp2 eqr_opp => /orP [/ltW//|/andP [/eqP-> _]]. exact: lexx.
  + move=> Hc Em'. move: H. have -> : Num.sg (pr_vel p 0 i) = Num.sg (pr_vel p 0 j).
      case/orP: Hc => Hc; [rewrite !(ltr0_sg _) ?Lt // (leq_ltn_trans Hij) //|rewrite !(gtr0_sg _) ?Pos // (leq_trans Hc)//].
    rewrite Em' !ltxx eqxx /=. by rewrite eqxx.
Qed.

(** REFUTED: "Finally, modes are ordered by the magnitude of their velocity".
    Modes with negative velocity and the same momentum are ordered by
    decreasing magnitude of the velocity.  (The documented key
    (sign(v), sign(v) * k, abs(v)) also contradicts the documented, and actual,
    order by increasing momentum of the modes with negative velocity.) *)
Theorem C61_left_order_refuted n (h t : 'M[C]_n) stab L r (lam : 'rV[C]_r) (psi : 'M[C]_(ldim L + ldim L, r)) p :
  svd_of t (svd t) -> (forall m (A : 'M[C]_m), good_h A -> A \in unitmx) -> (forall m (A : 'M[C]_m), good_b A -> A \in unitmx) ->
  (forall m c (A : 'M[C]_(m, c)) y, qr A = Some y -> qr_of A y) -> (forall c (A : 'M[C]_c) y, hermitian A -> eigh A = Some y -> eigh_of A y) ->
  (forall s0, stab <> Some (s0, true)) -> setup_linsys svd good_h good_b h t stab = inl L -> hermitian h ->
  lmat L *m psi = odflt 1%:M (lmatb L) *m psi *m diag_mx lam -> (forall j, `|lam 0 j| = 1) ->
  (forall i j, near (lam 0 i) (lam 0 j) = (lam 0 i == lam 0 j)) ->
  (forall i, angle (lam 0 i) \is Num.real) -> (forall i j, angle (lam 0 i) = angle (lam 0 j) -> lam 0 i = lam 0 j) ->
  make_proper_modes near angle qr eigh lam psi = inl p ->
  forall i j : 'I_r, (i <= j)%N -> (j < r %/ 2)%N -> pr_mom p 0 i = pr_mom p 0 j -> `|pr_vel p 0 j| <= `|pr_vel p 0 i|.
Proof.
move=> S Hgh Hgb Hqr Heigh Hs HL Hh Hpsi Hlam Hn Ha1 Ha2 Hp i j Hij Hj E.
have [_ _ _ [V _] O] := C61_propagating S Hgh Hgb Hqr Heigh Hs HL Hh Hpsi Hlam Hn Ha1 Ha2 Hp.
have [_ [_ O3]] := O i j Hij. have := O3 _ E. rewrite Hj => /(_ isT) H.
by rewrite (ltr0_norm (V _ Hj)) (ltr0_norm (V _ (leq_ltn_trans Hij Hj))) ler_opp2.
Qed.
End Props.

(** REFUTED: all eigenvalues are processed.  Three eigenvalues such that the
    first and the second and the second and the third are nearer than the
    tolerance (1 in this example), but the third and the first are not: there is
    no cluster at all, so that the velocities are never computed. *)
Section Chain.
Let w : algC := (4%:R + 'i * 3%:R) / 5%:R.
Let lam : 'rV[algC]_3 := \row_j nth 0 [:: w^*; 1; w] j.
Let near (x y : algC) : bool := `|x - y| <= 1.
Lemma w_rect : w = 4%:R / 5%:R + 'i * (3%:R / 5%:R). Proof. by rewrite /w mulrDl mulrA. Qed.
Lemma w_conj : w^* = 4%:R / 5%:R - 'i * (3%:R / 5%:R).
Proof. by rewrite w_rect conjC_rect ?realM ?realV ?realn. Qed.
Lemma rect_norm (a b : algC) : a \is Num.real -> b \is Num.real -> `|a + 'i * b| ^+ 2 = a ^+ 2 + b ^+ 2.
Proof. move=> Ra Rb. by rewrite normC2_rect. Qed.
Theorem C61_clusters_refuted (angle : algC -> algC) : angle (w^*) <= angle 1 -> angle 1 <= angle w ->
  (forall j, `|lam 0 j| = 1) /\ clusters near lam (argsort angle lam) = [::].
Proof.
move=> A1 A2. have Rq p q : p%:R / q%:R \is @Num.real [numDomainType of algC] by rewrite realM ?realV ?realn.
have N5 : 5%:R != 0 :> algC by rewrite pnatr_eq0.
have Nw : `|w| = 1. { apply/eqP. rewrite -(@eqr_expn2 _ 2) ?normr_ge0 ?ler01 // expr1n w_rect rect_norm // !expr_div_n -mulrDl -!natrX -natrD divff ?pnatr_eq0 ?eqxx //. }
have K : 1 = 4%:R / 5%:R + 1%:R / 5%:R :> algC. { by rewrite -mulrDl -natrD divff. }
have E1 : 1 - w = 1%:R / 5%:R + 'i * - (3%:R / 5%:R).
  rewrite w_rect opprD addrA mulrN. congr (_ - _). apply/eqP. rewrite subr_eq -mulrDl -natrD divff //.
have E2 : w^* - 1 = - (1%:R / 5%:R) + 'i * - (3%:R / 5%:R).
  rewrite w_conj addrAC mulrN. congr (_ - _). by rewrite [X in _ - X]K opprD addrA subrr sub0r.
have E3 : w - w^* = 0 + 'i * (6%:R / 5%:R).
  rewrite w_conj w_rect opprD opprK addrACA subrr -mulrDr -mulrDl -natrD. by [].
have L : (1%:R / 5%:R) ^+ 2 + (3%:R / 5%:R) ^+ 2 <= 1 :> algC.
  rewrite !expr_div_n -mulrDl -!natrX -natrD ler_pdivr_mulr ?mul1r ?ler_nat // ltr0n. by [].
have S1 : near (w^*) 1 by rewrite /near -(@ler_pexpn2r _ 2) ?nnegrE ?normr_ge0 ?ler01 // expr1n E2 rect_norm ?realN // sqrrN [X in _ + X]sqrrN.
have S2 : near 1 w by rewrite /near -(@ler_pexpn2r _ 2) ?nnegrE ?normr_ge0 ?ler01 // expr1n E1 rect_norm ?realN // [X in _ + X]sqrrN.
have S3 : ~~ near w (w^*).
  rewrite /near -(@ler_pexpn2r _ 2) ?nnegrE ?normr_ge0 ?ler01 // expr1n E3 rect_norm ?real0 // expr0n add0r expr_div_n -!natrX ler_pdivr_mulr ?ltr0n // mul1r ler_nat. by [].
split.
- move=> j. rewrite mxE. case: j => [[|[|[|]]]] //= _; by rewrite ?norm_conjC ?normr1.
- have En : enum 'I_3 = [:: ord0; lift ord0 ord0; lift ord0 (lift ord0 ord0)]. { apply: (inj_map val_inj). by rewrite val_enum_ord. }
  have -> : argsort angle lam = enum 'I_3.
    rewrite /argsort. apply: sorted_sort; first by move=> x y z; apply: le_trans.
    by rewrite En /= !mxE /= A1 A2.
  apply: (chain_clusters (i0 := ord0)); rewrite ?size_enum_ord // En.
  + move=> p. case: p => [|[|]] //= _; by rewrite !mxE.
  + by rewrite /= !mxE.
Qed.
End Chain.
