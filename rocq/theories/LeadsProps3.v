(** * C61, C62: the modes and the self-energy of a lead. *)
From mathcomp Require Import all_ssreflect all_algebra all_fingroup all_field.
From Verif Require Import Zmod LeadsModel LeadsSpec LeadsProofs LeadsProps LeadsClusters LeadsModes LeadsModes2 LeadsTotal LeadsSelf.
Set Implicit Arguments. Unset Strict Implicit. Unset Printing Implicit Defensive.
Import Order.Theory GRing.Theory Num.Theory.
Local Open Scope ring_scope.

Section OutCols.
Variable C : numClosedFieldType.
Variables (k c nm : nat).
Definition shift_mx : 'M[C]_(c, k) := \matrix_(l, j) (val l == nm + val j)%N%:R.
Hypothesis Hc : c = (nm + k)%N.
Lemma shiftP (j : 'I_k) : {j' : 'I_c | val j' = (nm + j)%N}.
Proof. have H : (nm + j < c)%N by rewrite Hc ltn_add2l. by exists (Ordinal H). Qed.
Lemma shift_mul m (A : 'M[C]_(m, c)) i j j' : val j' = (nm + val j)%N -> (A *m shift_mx) i j = A i j'.
Proof.
move=> E. rewrite mxE (bigD1 j') //= [shift_mx _ _]mxE E eqxx mulr1 big1 ?addr0 // => l Hl. rewrite mxE.
have -> : (val l == nm + j)%N = false by rewrite -E val_eqE (negPf Hl). by rewrite mulr0.
Qed.
Lemma out_colsE m (A : 'M[C]_(k, c)) : m = k -> out_cols nm A = A *m shift_mx.
Proof.
move=> _. apply/matrixP=> i j. have [j' E] := shiftP j. rewrite (shift_mul _ _ E) mxE. case: insubP => [y _ Ey|]; first by congr (A _ _); apply: val_inj; rewrite Ey.
by rewrite -E ltn_ord.
Qed.
Lemma shift_entry (x : 'cV[C]_k) (j : 'I_k) j' : val j' = (nm + val j)%N -> (shift_mx *m x) j' 0 = x j 0.
Proof.
move=> E. rewrite mxE (bigD1 j) //= mxE E eqxx mul1r big1 ?addr0 // => l Hl. rewrite mxE E eqn_add2l [_ == _]eq_sym val_eqE (negPf Hl). by rewrite mul0r.
Qed.
Lemma shift_low (x : 'cV[C]_k) (l : 'I_c) : (l < nm)%N -> (shift_mx *m x) l 0 = 0.
Proof.
move=> H. rewrite mxE big1 // => j _. rewrite mxE. case: eqP => [E|_]; last by rewrite mul0r. by move: H; rewrite E ltnNge leq_addr.
Qed.
Lemma shift_ex (a : 'cV[C]_c) : (forall l : 'I_c, (l < nm)%N -> a l 0 = 0) -> exists x, a = shift_mx *m x.
Proof.
move=> H. exists (\col_j a (sval (shiftP j)) 0). apply/matrixP=> l z. rewrite ord1. case: (ltnP l nm) => Hl; first by rewrite H // shift_low.
have Hj : (l - nm < k)%N by rewrite ltn_subLR // -Hc. have E : val l = (nm + val (Ordinal Hj))%N by rewrite /= subnKC.
rewrite (shift_entry _ E) mxE. congr (a _ 0). apply: val_inj. case: (shiftP _) => j0 E0. exact: etrans E (esym E0).
Qed.
Lemma shift_inj : injective_mx shift_mx.
Proof. move=> x E. apply/matrixP=> j z. rewrite ord1. have [j' Ej] := shiftP j. by rewrite -(shift_entry _ Ej) E !mxE. Qed.
End OutCols.

Section SelfCore.
Variable C : numClosedFieldType.
Lemma core_bloch_all n k r (h t : 'M[C]_n) (u v : 'M[C]_(n, k)) (psi : 'M[C]_(k + k, r)) (lam : 'rV[C]_r) F : u *m hc v = t -> core h u v psi 1%:M (diag_mx lam) F ->
  (forall j, `|lam 0 j| = 1) -> forall j, bloch_state h t (lam 0 j) (col j F).
Proof.
move=> Euv [K1 K2 K3] Nl j. rewrite !mulmx1 in K1 K2. have Nl0 : lam 0 j != 0 by rewrite -normr_eq0 Nl oner_eq0.
apply/bloch_stateE => //.
have Ecol q (A : 'M[C]_(q, n)) : A *m col j F = col j (A *m F) by rewrite !colE mulmxA.
have Ecl q (A : 'M[C]_(q, r)) : col j (A *m diag_mx lam) = lam 0 j *: col j A.
  apply/matrixP=> a b. rewrite mul_mx_diag !mxE. by rewrite mulrC.
rewrite -Euv hcM hcK !Ecol -!mulmxA K1 K2 K3 !mulmxA.
have -> : col j (- (u *m usubmx psi *m diag_mx lam) - v *m dsubmx psi) = - col j (u *m usubmx psi *m diag_mx lam) - col j (v *m dsubmx psi).
  by apply/matrixP=> a b; rewrite !mxE.
rewrite !Ecl scalerA mulVf // scale1r. zmod.
Qed.
Variables (m m' k r e nm : nat) (h : 'M[C]_(m + m')) (hop : 'M[C]_(m + m', m)) (u v : 'M[C]_(m + m', k)).
Hypothesis Hh : hermitian h.
Hypothesis Huv : u *m hc v = row_mx hop 0.
Hypothesis Hu : injective_mx u.
Variables (psi : 'M[C]_(k + k, r)) (lam : 'rV[C]_r) (F : 'M[C]_(m + m', r)) (vel : 'rV[C]_r).
Hypothesis Hc : core h u v psi 1%:M (diag_mx lam) F.
Hypothesis Hlam : forall j, `|lam 0 j| = 1.
Variables (X : 'M[C]_(k + k, e)) (K : 'M[C]_e) (G : 'M[C]_(m + m', e)).
Hypothesis HX : core h u v X K 1%:M G.
Hypothesis Hv : vop psi = diag_mx (\row_j Num.sg (vel 0 j)).
Hypothesis UK : upper K. Hypothesis NK : forall i, `|K i i| < 1.
Hypothesis Zi : injective_mx (row_mx psi X).
Hypothesis R : forall j, vel 0 j \is Num.real.
Hypothesis Nz : forall j, vel 0 j != 0.
Hypothesis Lt : forall j : 'I_r, (vel 0 j < 0) = (j < nm)%N.
Hypothesis Ec : (r + e = nm + k)%N.
Hypothesis Er : (nm <= r)%N.
Let out c d j := propagating F lam c j + evanescent G K d j.
Let right_moving (c : 'cV[C]_r) := forall i, vel 0 i < 0 -> c i 0 = 0.
Let st := Stabilized (row_mx (dsubmx psi) (dsubmx X)) (row_mx (usubmx psi) (usubmx X)) nm (usubmx v).
Let S := shift_mx C k (r + e) nm.
Lemma half_ext psi0 (f g : nat -> 'cV[C]_(m + m')) : (forall j, f j = g j) -> half_infinite h hop psi0 f <-> half_infinite h hop psi0 g.
Proof. move=> E. by rewrite /half_infinite !E; split=> -[H1 H2]; split=> // j; move: (H2 j); rewrite !E. Qed.
Lemma out_half psi0 c d : half_infinite h hop psi0 (out c d) <-> hc (usubmx v) *m psi0 = usubmx (row_mx psi X) *m col_mx c d.
Proof.
rewrite -(waves_half Huv Hu Hc Hlam HX (col_mx c d) psi0). apply: half_ext => j. by rewrite wavesE col_mxKu col_mxKd.
Qed.
Lemma right_shift c d : right_moving c -> exists x, col_mx c d = S *m x.
Proof.
move=> Hr. apply: shift_ex => // l Hl. have Hl' : (l < r)%N by apply: leq_trans Hl Er.
have -> : l = lshift e (Ordinal Hl') by apply: val_inj. rewrite col_mxEu. apply: Hr. by rewrite Lt.
Qed.
Lemma shift_right (x : 'cV[C]_k) : right_moving (usubmx (S *m x)).
Proof. move=> i. rewrite Lt => H. rewrite mxE. exact: shift_low. Qed.
Lemma sum_right c : right_moving c -> \sum_i Num.sg (vel 0 i) * `|c i 0| ^+ 2 = \sum_i `|c i 0| ^+ 2.
Proof.
move=> Hr. apply: eq_bigr => i _. case: (real_ltgtP (R i) (real0 _)) => H.
- by rewrite Hr // normr0 expr0n mulr0.
- by rewrite gtr0_sg // mul1r.
- by move: (Nz i); rewrite H eqxx.
Qed.
Lemma no_current (x : 'cV[C]_k) : usubmx (row_mx psi X) *m (S *m x) = 0 -> usubmx (S *m x) = 0.
Proof.
move=> E. have := vopZ Hh Hc Hlam HX Hv UK NK (S *m x). rewrite (sum_right (@shift_right x)).
have U : usubmx (row_mx psi X *m (S *m x)) = 0 by rewrite -(vsubmxK (row_mx psi X)) mul_col_mx col_mxKu.
rewrite vopE /cross U mulmx0 hc0 mul0mx subrr scaler0 mxE => /esym/eqP. rewrite psumr_eq0; last by move=> i _; apply: exprn_ge0.
move/allP => H. apply/matrixP=> i z. rewrite [RHS]mxE ord1. move: (H i (mem_index_enum _)). by rewrite expf_eq0 /= normr_eq0 => /eqP.
Qed.
Lemma self_none : selfenergy st = None <-> exists2 d, d <> 0 & half_infinite h hop 0 (evanescent G K d).
Proof.
rewrite /selfenergy /=. have -> : (r + e != nm + k)%N = false by rewrite Ec eqxx.
rewrite !(out_colsE Ec _ erefl) -(usub_row _ _).1 -/S.
have E0 d : half_infinite h hop 0 (evanescent G K d) <-> usubmx (row_mx psi X) *m col_mx 0 d = 0.
  rewrite -(half_ext 0 (f := out 0 d)); last first. { move=> j. rewrite /out /propagating big1 ?add0r // => i _. by rewrite mxE mul0r scale0r. }
  rewrite out_half mulmx0. by split=> ->.
have Er0 : right_moving 0 by move=> i _; rewrite mxE.
case: ifP => U; split=> //.
- move=> _. have [/eqP|] := eqVneq (kermx (usubmx (row_mx psi X) *m S)^T) 0. { rewrite kermx_eq0 row_free_unit unitmx_tr. by move=> U'; rewrite U' in U. }
  move=> /matrix0Pn [i [j Hij]]. pose x := (row i (kermx (usubmx (row_mx psi X) *m S)^T))^T.
  have Nx : x <> 0 by move/matrixP/(_ j 0); rewrite /x mxE mxE [RHS]mxE => /eqP; rewrite (negPf Hij).
  have Ex : usubmx (row_mx psi X) *m (S *m x) = 0. { apply: trmx_inj. by rewrite mulmxA trmx_mul /x trmxK -row_mul mulmx_ker row0 trmx0. }
  have Eu := no_current Ex. have Ea : col_mx 0 (dsubmx (S *m x)) = S *m x by rewrite -Eu vsubmxK.
  exists (dsubmx (S *m x)); last by apply/E0; rewrite Ea.
  move=> Ed. apply: Nx. apply: (shift_inj Ec). by rewrite -/S -Ea Ed col_mx0.
- move=> [d Nd /E0 Ed]. have [x Ex] := right_shift d Er0. move/negbFE/inj_unit: U => U.
  have E1 : usubmx (row_mx psi X) *m S *m x = 0 by rewrite -mulmxA -Ex. move/U: E1 => E1.
  move: Ex. rewrite E1 mulmx0 -[in RHS]col_mx0 => /eq_col_mx [_ /Nd]. by [].
Qed.
Lemma self_some Sg : selfenergy st = Some Sg -> forall psi0,
  (exists c d, right_moving c /\ half_infinite h hop psi0 (out c d)) /\
  (forall c d, right_moving c -> half_infinite h hop psi0 (out c d) ->
     adj hop *m out c d 0%N = Sg *m psi0 /\ (adj psi0 *m ('i *: (Sg - adj Sg)) *m psi0) 0 0 = \sum_i `|c i 0| ^+ 2).
Proof.
rewrite /selfenergy /=. have -> : (r + e != nm + k)%N = false by rewrite Ec eqxx.
rewrite !(out_colsE Ec _ erefl) -(usub_row _ _).1 -(usub_row _ _).2 -/S. case: ifP => // /negbFE U [<-] psi0. split.
- pose x := invmx (usubmx (row_mx psi X) *m S) *m (hc (usubmx v) *m psi0). exists (usubmx (S *m x)), (dsubmx (S *m x)). split; first exact: shift_right.
  apply/out_half. by rewrite vsubmxK mulmxA /x mulKVmx.
- move=> c d Hr /out_half E. have [x Ex] := right_shift d Hr.
  have Es : usubmx v *m (dsubmx (row_mx psi X) *m S) *m (invmx (usubmx (row_mx psi X) *m S) *m hc (usubmx v)) *m psi0 = usubmx v *m (dsubmx (row_mx psi X) *m col_mx c d).
    rewrite -mulmxA -(mulmxA (invmx _)) E Ex (mulmxA _ S) mulKmx // -!mulmxA. by [].
  split.
  + have -> : out c d 0%N = waves lam F K G (col_mx c d) 0 by rewrite wavesE col_mxKu col_mxKd. rewrite (waves_back Huv Hu Hc Hlam HX). by rewrite Es.
  + rewrite -!hcE (current Hh Hc Hlam HX Hv UK NK E Es) col_mxKu. exact: sum_right.
Qed.
Lemma evan_inj d : (forall j, evanescent G K d j = 0) -> d = 0.
Proof.
move=> H. have := H 0%N. have := H 1%N. rewrite /evanescent /= => H1 H0. have [_ Xi] := inj_row Zi. have [A1 A2 A3] := HX. rewrite !mulmx1 in A1 A3.
have B2 : dsubmx X *m d = 0 by rewrite -A3 -mulmxA H0 mulmx0.
have B1 : usubmx X *m (K *m d) = 0 by rewrite mulmxA -A2 -mulmxA H0 mulmx0.
have B3 : dsubmx X *m (K *m d) = 0 by rewrite -A3 -mulmxA H1 mulmx0.
have Kd : K *m d = 0. { apply: Xi. by rewrite -(vsubmxK X) mul_col_mx B1 B3 col_mx0. }
apply: Xi. rewrite -(vsubmxK X) mul_col_mx B2. have : h *m (G *m d) = 0 by rewrite H0 mulmx0.
rewrite mulmxA A1 mulmxBl mulNmx -[v *m _ *m K *m d]mulmxA Kd mulmx0 subr0 -mulmxA => /eqP. rewrite oppr_eq0 => /eqP/Hu ->. by rewrite col_mx0.
Qed.
End SelfCore.

Section Props.
Variable C : numClosedFieldType.
Variables (svd : forall n, 'M[C]_n -> 'M[C]_n * 'rV[C]_n * 'M[C]_n) (good_h good_b : forall n, 'M[C]_n -> bool).
Variables (near : C -> C -> bool) (angle : C -> C).
Variables (qr : forall m c, 'M[C]_(m, c) -> option ('M[C]_(m, c) * 'M[C]_c)) (eigh : forall c, 'M[C]_c -> option ('rV[C]_c * 'M[C]_c)).
Variable eig : forall k, 'M[C]_(k + k) -> option 'M[C]_(k + k) -> eigdata C k.
(** exact arithmetic *)
Hypothesis Hgood_h : forall n (A : 'M[C]_n), good_h A = (A \in unitmx).
Hypothesis Hgood_b : forall n (A : 'M[C]_n), good_b A -> A \in unitmx.
Hypothesis Hnear : forall x y, near x y = (x == y).
Hypothesis Hangle : forall x, angle x \is Num.real.
Hypothesis Hangle_inj : forall x y, `|x| = 1 -> `|y| = 1 -> angle x = angle y -> x = y.
Hypothesis Hqr : forall m c (A : 'M[C]_(m, c)) y, qr A = Some y -> qr_of A y.
Hypothesis Heigh : forall c (A : 'M[C]_c) y, hermitian A -> eigh A = Some y -> eigh_of A y.

Section Lead.
Variables (m m' : nat) (h : 'M[C]_(m + m')) (hop : 'M[C]_(m + m', m)) (stab : option (option bool * bool)).
Hypothesis Hsvd : svd_of (row_mx hop 0) (svd (row_mx hop 0)).
Hypothesis Hqr_total : forall c (A : 'M[C]_(m + m', c)), injective_mx A -> exists y, qr A = Some y.
Hypothesis Heigh_total : forall c (A : 'M[C]_c), (c <= m + m')%N -> hermitian A -> exists y, eigh A = Some y.
Hypothesis Hstab : forall s0, stab <> Some (s0, true).
Hypothesis Hh : hermitian h.
(** the eigenvalues on the unit circle are not defective: this is an energy
    where no propagating mode has velocity zero *)
Hypothesis Heig : forall L, setup_linsys svd good_h good_b h (row_mx hop 0) stab = inl L -> eig_of (lmat L) (odflt 1%:M (lmatb L)) (eig (lmat L) (lmatb L)).
Let run := modes svd good_h good_b near angle qr eigh eig h hop stab.

(** the result, in the case that there are hoppings *)
Lemma modes_data : hop <> 0 -> (forall phi, ~ flat_state h (row_mx hop 0) phi) ->
  exists L u (p : proper C (m + m') (ldim L) (ed_r (eig (lmat L) (lmatb L)))) K G, let r := ed_r (eig (lmat L) (lmatb L)) in let nevan := (ldim L - r %/ 2)%N in
  let X := first_cols nevan (ed_schur (eig (lmat L) (lmatb L))) in
  [/\ run = inl (LeadModes (pr_wf p) (pr_vel p) (pr_mom p) (Stabilized (row_mx (dsubmx (pr_psi p)) (dsubmx X)) (row_mx (usubmx (pr_psi p)) (usubmx X)) (r %/ 2) (usubmx (lv L)))),
      [/\ u *m hc (lv L) = row_mx hop 0, injective_mx u, core h u (lv L) (pr_psi p) 1%:M (diag_mx (pr_lam p)) (pr_wf p), (forall j, `|pr_lam p 0 j| = 1) & vop (pr_psi p) = diag_mx (\row_j Num.sg (pr_vel p 0 j))],
      [/\ core h u (lv L) X K 1%:M G, upper K, forall i, `|K i i| < 1 & injective_mx (row_mx (pr_psi p) X)],
      [/\ (forall j, pr_vel p 0 j \is Num.real), (forall j, pr_vel p 0 j != 0), (forall j : 'I_r, (pr_vel p 0 j < 0) = (j < r %/ 2)%N) & forall j, pr_mom p 0 j = - angle (pr_lam p 0 j)]
    & (r = 2 * (r %/ 2))%N /\ (r %/ 2 + nevan = ldim L)%N].
Proof.
move=> Hn Hf. have Ht : row_mx hop (0 : 'M_(m + m', m')) != 0 by apply/eqP => E; apply: Hn; move: E; rewrite -(row_mx0 _ _ m m') => /eq_row_mx [].
have [L HL] : exists L, setup_linsys svd good_h good_b h (row_mx hop 0) stab = inl L.
  have [_ H] := C60_errors svd good_h good_b h (row_mx hop 0) stab. apply: H; first exact/eqP.
  have [_ H] := @C60_flat_band _ svd good_h good_b _ h (row_mx hop 0) stab Hsvd Hgood_h Hh Ht. by move/H => [phi /Hf].
have Hgh n (A : 'M[C]_n) : good_h A -> A \in unitmx by rewrite Hgood_h.
have [u [Euv P Ex Iu]] := setup_linsys_inj Hsvd Hgh Hgood_b Hstab HL. move: (Heig HL).
rewrite /run /modes. move/eqP/negPf: (Hn) => ->. rewrite HL. move: P. set ed := eig _ _. move=> P [E1 Hlam [e [e' [X [K [X' [K' [[A1 A2 A3] [B1 B2 B3] Hsch Hdim Hinj]]]]]]]].
have Hcore : core h u (lv L) (ed_vec ed) 1%:M (diag_mx (ed_lam ed)) (lextract L (ed_vec ed) (ed_lam ed)).
  have [Phi Kc] : exists Phi, core h u (lv L) (ed_vec ed) 1%:M (diag_mx (ed_lam ed)) Phi by apply/P; rewrite mulmx1.
  by rewrite -(Ex _ _ _ _ Kc).
have [G HG] : exists G, core h u (lv L) X K 1%:M G by apply/P; rewrite mulmx1.
have [G' HG'] : exists G, core h u (lv L) X' 1%:M K' G by apply/P; rewrite mulmx1.
have Hn' i j : near (ed_lam ed 0 i) (ed_lam ed 0 j) = (ed_lam ed 0 i == ed_lam ed 0 j) by [].
have Ha2 i j : angle (ed_lam ed 0 i) = angle (ed_lam ed 0 j) -> ed_lam ed 0 i = ed_lam ed 0 j by apply: Hangle_inj.
have [Hi1 _] := inj_row Hinj. have [_ Hi2] := inj_row Hi1.
have [p [Ep Er Ee]] := make_total Hqr Heigh Hqr_total Heigh_total Hh Hlam Hn' (fun i => Hangle _) Ha2 Hcore Hi2 HG HG' A2 B2 A3 B3 Hinj Hdim.
have [[[T UT ET] Kp V] _ [R Nz] [[o Io Eo] Em] [Lt [Hr Sr]]] := proper_result Hqr Heigh Hh Hlam Hn' (fun i => Hangle _) Ha2 Hcore Ep.
have En : e = (ldim L - ed_r ed %/ 2)%N by rewrite -{1}Ee addKn. subst e.
have EX : first_cols (ldim L - ed_r ed %/ 2) (ed_schur ed) = X.
  apply/matrixP=> i j. rewrite mxE. case: insubP => [j' _ Ej|]; first by rewrite (Hsch _ _ j').
  rewrite -leqNgt => H. have := ltn_ord j. rewrite ltnNge. apply: contraNeq => _. by rewrite (leq_trans (leq_subr _ _)) // (leq_trans (leq_addr _ _) H).
exists L, u, p, K, G. rewrite -/ed EX. split=> //.
- rewrite Ep. by [].
- split=> //. by move=> j; rewrite Eo.
- split=> //. move=> x. rewrite -[x]vsubmxK mul_row_col ET -mulmxA => E.
  have : row_mx X (ed_vec ed) *m col_mx (dsubmx x) (T *m usubmx x) = 0 by rewrite mul_row_col addrC.
  move/Hi1. rewrite -[in RHS]col_mx0 => /eq_col_mx [-> Ex']. have -> : usubmx x = 0 by rewrite -[usubmx x]mul1mx -(mulVmx UT) -mulmxA Ex' mulmx0.
  by rewrite col_mx0.
Qed.

(** Unless the lead has a flat band at this energy, modes succeeds.  There are
    as many modes that move left (into the system) as right, and together with
    the evanescent states there is one outgoing state for each degree of freedom
    of the hopping. *)
Theorem C61_total : (forall phi, ~ flat_state h (row_mx hop 0) phi) ->
  exists lm, [/\ run = inl lm, (lm_r lm = st_nmodes (lm_stab lm) + st_nmodes (lm_stab lm))%N, (st_c (lm_stab lm) = st_nmodes (lm_stab lm) + st_k (lm_stab lm))%N,
    forall j : 'I_(lm_r lm), (j < st_nmodes (lm_stab lm))%N -> lm_vel lm 0 j < 0 & forall j : 'I_(lm_r lm), (st_nmodes (lm_stab lm) <= j)%N -> 0 < lm_vel lm 0 j].
Proof.
move=> Hf. case: (eqVneq hop 0) => [E|/eqP Hn].
  rewrite /run /modes E eqxx. eexists. by split=> //= -[].
have [L [u [p [K [G /= [-> _ _ [R Nz Lt _] [Er Ek]]]]]]] := modes_data Hn Hf. eexists; split; first by []; rewrite /=.
- by rewrite {1}Er mul2n addnn.
- by rewrite {1}Er mul2n -addnn -addnA Ek.
- by move=> j; rewrite Lt.
- move=> j Hj. case: (real_ltgtP (R j) (real0 _)) => // H; last by move: (Nz j); rewrite H eqxx. by move: H; rewrite Lt ltnNge Hj.
Qed.

(** The self-energy describes the lead exactly.  There is a basis of outgoing
    states: the right-moving modes (phi / mu^j, with momentum k = - angle mu)
    and evanescent states.
    - The self-energy cannot be computed if and only if there is a bound state at
      the end of the half-infinite lead.
    - Otherwise, each wave function psi0 on the interface continues to an
      outgoing solution of the Schroedinger equation in the half-infinite lead.
      For every such solution, the self-energy gives the term of the lead
      hop^+ psi(0) in the Schroedinger equation of the interface.  Also,
      <psi0| i (Sigma - Sigma^+) |psi0> is the current that leaves to the lead. *)
Theorem C62_selfenergy lm : (forall phi, ~ flat_state h (row_mx hop 0) phi) -> run = inl lm ->
  exists (mu : 'rV[C]_(lm_r lm)) e (G : 'M[C]_(m + m', e)) (K : 'M[C]_e),
  let out c d j := propagating (lm_wf lm) mu c j + evanescent G K d j in
  let right_moving (c : 'cV[C]_(lm_r lm)) := forall i, lm_vel lm 0 i < 0 -> c i 0 = 0 in
  [/\ (forall i, `|mu 0 i| = 1 /\ lm_mom lm 0 i = - angle (mu 0 i)) /\ (forall i, bloch_state h (row_mx hop 0) (mu 0 i) (col i (lm_wf lm))) /\ (st_nmodes (lm_stab lm) + e = st_k (lm_stab lm))%N,
      [/\ upper K, forall i, `|K i i| < 1 & forall d, (forall j, evanescent G K d j = 0) -> d = 0],
      selfenergy (lm_stab lm) = None <-> (exists2 d, d <> 0 & half_infinite h hop 0 (evanescent G K d))
    & forall Sigma, selfenergy (lm_stab lm) = Some Sigma -> forall psi0,
        (exists c d, right_moving c /\ half_infinite h hop psi0 (out c d)) /\
        (forall c d, right_moving c -> half_infinite h hop psi0 (out c d) ->
           adj hop *m out c d 0%N = Sigma *m psi0 /\
           (adj psi0 *m ('i *: (Sigma - adj Sigma)) *m psi0) 0 0 = \sum_i `|c i 0| ^+ 2)].
Proof.
move=> Hf. case: (eqVneq hop 0) => [E|/eqP Hn].
  rewrite /run /modes E eqxx => -[<-] /=. exists 0, 0%N, 0, 0. have T0 p (A B : 'M[C]_(p, 0)) : A = B by apply/matrixP=> ? [].
  have O0 c d j : propagating (0 : 'M[C]_(m + m', 0)) 0 c j + evanescent (0 : 'M[C]_(m + m', 0)) 0 d j = 0 by rewrite /propagating big_ord0 /evanescent mul0mx addr0.
  have Hi psi0 : half_infinite h (0 : 'M[C]_(m + m', m)) psi0 (fun j => 0) by split=> [|j]; rewrite !mulmx0 ?mul0mx !addr0.
  rewrite /selfenergy /=. have -> : (out_cols 0 (0 : 'M[C]_0) \notin unitmx) = false by rewrite unitmxE det_mx00 unitr1.
  split=> //.
  - by split; [case|split=> // -[]].
  - split; [by case|by case|]. move=> d _. apply/matrixP. by case.
  - split=> // -[d Nd _]. case: Nd. apply/matrixP. by case.
  - move=> Sigma [<-] psi0. split.
    + exists 0, 0. split; first by case. have [H1 H2] := Hi psi0. split=> [|j]; rewrite !O0 //. exact: (H2 0%N).
    + move=> c d _ _. rewrite O0 mulmx0. have EA (B : 'M[C]_(0, m)) : (0 : 'M[C]_(m, 0)) *m out_cols 0 (0 : 'M[C]_0) *m B = 0 by rewrite !mul0mx. rewrite !EA mul0mx. split=> //. rewrite big_ord0.
      have -> : adj (0 : 'M[C]_m) = 0 by rewrite -hcE hc0. by rewrite subr0 scaler0 mulmx0 mul0mx mxE.
have [L [u [p [K [G /= [-> [Euv Iu Hc Nl V] [HX UK NK Zi] [R Nz Lt Em] [Er Ek]]]]]]] := modes_data Hn Hf.
set nm := (_ %/ 2)%N. move: HX UK NK Zi. set X := first_cols _ _ => HX UK NK Zi [<-] /=.
exists (pr_lam p), _, G, K.
have Ec : (ed_r (eig (lmat L) (lmatb L)) + (ldim L - nm) = nm + ldim L)%N by rewrite {1}Er mul2n -addnn -addnA Ek.
have Er' : (nm <= ed_r (eig (lmat L) (lmatb L)))%N by apply: leq_div.
split.
- split=> //. split=> //. exact: core_bloch_all Euv Hc Nl.
- split=> // d Hd. apply: (evan_inj Iu HX Zi). exact: Hd.
- exact: (self_none Hh Euv Iu Hc Nl HX V UK NK R Nz Lt Ec Er').
- move=> Sg HS. exact: (self_some Hh Euv Iu Hc Nl HX V UK NK R Nz Lt Ec Er' HS).
Qed.
End Lead.
End Props.
