(** * The propagating modes of a lead can be computed, and they are balanced. *)
From Coq Require Import Lia.
From mathcomp Require Import all_ssreflect all_algebra.
From Verif Require Import Zmod LeadsModel LeadsSpec LeadsProofs LeadsClusters LeadsModes LeadsModes2.
Set Implicit Arguments. Unset Strict Implicit. Unset Printing Implicit Defensive.
Import Order.Theory GRing.Theory Num.Theory.
Local Open Scope ring_scope.

Section Total.
Variable C : numClosedFieldType.

(** ** Linear algebra *)
Lemma inj_le m p (A : 'M[C]_(m, p)) : injective_mx A -> (p <= m)%N.
Proof.
move=> H. have F : row_free A^T.
  rewrite -kermx_eq0. apply/eqP/row_matrixP => i. rewrite row0. apply: trmx_inj. rewrite trmx0. apply: H.
  by rewrite -{1}[A]trmxK -trmx_mul -row_mul mulmx_ker row0 trmx0.
move/eqP: F => <-. exact: rank_leq_col.
Qed.
Lemma inj_unit m (A : 'M[C]_m) : injective_mx A <-> A \in unitmx.
Proof.
split=> [H|U x E]; last by rewrite -[x]mul1mx -(mulVmx U) -mulmxA E mulmx0.
rewrite -unitmx_tr -row_free_unit -kermx_eq0. apply/eqP/row_matrixP => i. rewrite row0. apply: trmx_inj. rewrite trmx0. apply: H.
by rewrite -{1}[A]trmxK -trmx_mul -row_mul mulmx_ker row0 trmx0.
Qed.
Lemma inj_mul m p q (A : 'M[C]_(m, p)) (B : 'M[C]_(p, q)) : injective_mx A -> injective_mx B -> injective_mx (A *m B).
Proof. move=> HA HB x. by rewrite -mulmxA => /HA/HB. Qed.
Lemma inj_row m p q (A : 'M[C]_(m, p)) (B : 'M[C]_(m, q)) : injective_mx (row_mx A B) -> injective_mx A /\ injective_mx B.
Proof.
move=> H. split=> x E.
- have /H : row_mx A B *m col_mx x 0 = 0 by rewrite mul_row_col E mulmx0 addr0. by rewrite -[0 in RHS]vsubmxK => /eq_col_mx []; rewrite !linear0.
- have /H : row_mx A B *m col_mx 0 x = 0 by rewrite mul_row_col E mulmx0 addr0. by rewrite -[0 in RHS]vsubmxK => /eq_col_mx [_]; rewrite !linear0.
Qed.
Lemma stein p q (A : 'M[C]_p) (B : 'M[C]_q) (Y : 'M[C]_(p, q)) : upper A -> upper B -> (forall i j, `|A i i| * `|B j j| < 1) -> Y = hc A *m Y *m B -> Y = 0.
Proof.
move=> UA UB H E. apply/matrixP=> i j. rewrite [RHS]mxE.
have [N] := ubnP (i + j)%N. elim: N i j => [//|N IH] i j; rewrite ltnS => Hij.
have Z (i' : 'I_p) (j' : 'I_q) : (i' <= i)%N -> (j' <= j)%N -> (i', j') != (i, j) -> Y i' j' = 0.
  move=> Hi Hj N'. apply: IH. apply: leq_trans Hij. rewrite ltn_neqAle leq_add // andbT. apply/negP => /eqP Es. move: N'. rewrite xpair_eqE -!val_eqE /=.
  have := leq_add Hi (leqnn j'). rewrite Es leq_add2l => Hj'. have Ej : j' = j :> nat by apply/eqP; rewrite eqn_leq Hj Hj'.
  move: Es. rewrite Ej => /eqP. by rewrite eqn_add2r => /eqP ->; rewrite !eqxx.
have Eij : Y i j = (A i i)^* * Y i j * B j j.
  rewrite {1}E mxE (bigD1 j) //= [X in _ + X]big1 ?addr0.
    congr (_ * _). rewrite mxE (bigD1 i) //= big1 ?addr0; first by rewrite !mxE.
    move=> l Hl. rewrite !mxE. case: (ltnP i l) => Hil; first by rewrite UA // rmorph0 mul0r.
    rewrite Z ?mulr0 //. by rewrite xpair_eqE (negPf Hl).
  move=> l Hl. case: (ltnP j l) => Hjl; first by rewrite UB // mulr0.
  rewrite mxE big1 ?mul0r // => l' _. rewrite !mxE. case: (ltnP i l') => Hil; first by rewrite UA // rmorph0 mul0r.
  rewrite Z ?mulr0 //. by rewrite xpair_eqE (negPf Hl) andbF.
apply/eqP. have := H i j. rewrite -(norm_conjC (A i i)) -normrM. apply: contraTT => Hy. move/eqP: Eij.
rewrite mulrAC -[X in X == _]mul1r => /eqP/(mulIf Hy) <-. by rewrite normr1 ltxx.
Qed.

(** ** The current form has k positive and k negative directions *)
Definition form k d (X : 'M[C]_(k + k, d)) (c : 'cV[C]_d) : C := (hc c *m vop X *m c) 0 0.
Lemma formE k d (X : 'M[C]_(k + k, d)) c : form X c = vop (X *m c) 0 0.
Proof. by rewrite vopM. Qed.
Lemma sq0 m (z : 'cV[C]_m) : (hc z *m z) 0 0 = \sum_i `|z i 0| ^+ 2.
Proof. rewrite mxE. apply: eq_bigr => i _. by rewrite !mxE normCK mulrC. Qed.
Lemma sq_ge0 m (z : 'cV[C]_m) : 0 <= (hc z *m z) 0 0.
Proof. rewrite sq0. apply: sumr_ge0 => i _. exact: exprn_ge0. Qed.
Lemma sq_eq0 m (z : 'cV[C]_m) : (hc z *m z) 0 0 = 0 -> z = 0.
Proof.
rewrite sq0 => /eqP. rewrite psumr_eq0; last by move=> i _; apply: exprn_ge0. move/allP => H. apply/matrixP=> i j. rewrite mxE ord1.
move: (H i (mem_index_enum _)). by rewrite expf_eq0 /= normr_eq0 => /eqP.
Qed.
Lemma vop_dir k (y : 'cV[C]_k) (s : C) : s^* = - s -> vop (col_mx y (s *: y)) 0 0 = (2%:R * 'i * s) * (hc y *m y) 0 0.
Proof.
move=> Hs. rewrite vopE /cross col_mxKu col_mxKd hcZ -scalemxAl -scalemxAr Hs scaleNr opprK -scalerDl scalerA mxE. congr (_ * _). by rewrite -mulr2n -mulr_natl mulrCA mulrA.
Qed.
Lemma dim_bound k d (X : 'M[C]_(k + k, d)) (s : C) : s = 'i \/ s = - 'i -> injective_mx X -> (forall c : 'cV[C]_d, 0 <= - ('i * s * vop (X *m c) 0 0)) -> (d <= k)%N.
Proof.
move=> Hs HX HF. have Hs' : s^* = - s by case: Hs => ->; rewrite ?rmorphN /= conjCi.
have I2 : 'i * 'i = - 1 :> C by rewrite -expr2 sqrCi.
have Hs2 : 'i * s * ('i * s) = 1 by case: Hs => ->; rewrite ?(mulrN 'i) I2 ?opprK ?mulrNN mulr1.
rewrite -(leq_add2r k). apply: (@inj_le _ _ (row_mx X (- col_mx 1%:M (s%:M)))) => x. rewrite -[x]vsubmxK mul_row_col mulNmx => /subr0_eq E.
set c := usubmx x in E *. set y := dsubmx x in E *. have Ey : col_mx 1%:M (s%:M) *m y = col_mx y (s *: y) by rewrite mul_col_mx mul1mx mul_scalar_mx.
have := HF c. rewrite E Ey vop_dir // => H.
have Y0 : y = 0.
  apply: sq_eq0. apply/eqP. rewrite eq_le sq_ge0 andbT. move: H. set z := (hc y *m y) 0 0.
  have -> : 'i * s * (2%:R * 'i * s * z) = 2%:R * z * ('i * s * ('i * s)) by rewrite -[2%:R * 'i * s]mulrA [2%:R * ('i * s)]mulrC -['i * s * 2%:R * z]mulrA mulrA mulrC.
  by rewrite Hs2 mulr1 oppr_ge0 pmulr_rle0 // ltr0n.
move: E. rewrite Y0 mulmx0 => /HX ->. by rewrite -[RHS]vsubmxK !linear0.
Qed.

(** ** The modes are balanced *)
Lemma crossDr k p q (X : 'M[C]_(k + k, p)) (Y Y' : 'M[C]_(k + k, q)) : cross X (Y + Y') = cross X Y + cross X Y'.
Proof. rewrite /cross !linearD /=. zmod. Qed.
Lemma crossDl k p q (X X' : 'M[C]_(k + k, p)) (Y : 'M[C]_(k + k, q)) : cross (X + X') Y = cross X Y + cross X' Y.
Proof. rewrite /cross (linearD (@usubmx_linear _ _ _ _)) (linearD (@dsubmx_linear _ _ _ _)) /= !hcD !mulmxDl. zmod. Qed.
Lemma hc_cross k p q (X : 'M[C]_(k + k, p)) (Y : 'M[C]_(k + k, q)) : hc (cross X Y) = - cross Y X.
Proof. rewrite /cross hcB !hcM !hcK. zmod. Qed.
Lemma cross_row k p q s (X : 'M[C]_(k + k, p)) (X' : 'M[C]_(k + k, q)) (Y : 'M[C]_(k + k, s)) : cross X Y = 0 -> cross X' Y = 0 -> cross (row_mx X X') Y = 0.
Proof.
move=> H1 H2. have -> : row_mx X X' = X *m row_mx 1%:M 0 + X' *m row_mx 0 1%:M by rewrite !mul_mx_row !mulmx0 !mulmx1 add_row_mx addr0 add0r.
by rewrite crossDl -[Y]mulmx1 !crossM H1 H2 !mulmx0 !mul0mx addr0.
Qed.
Lemma cross_nondeg k s p (Z : 'M[C]_(k + k, p)) (x : 'M[C]_(k + k, s)) : p = (k + k)%N -> injective_mx Z -> cross Z x = 0 -> x = 0.
Proof.
move=> Ep; subst p. move=> /inj_unit U E. have : cross (Z *m invmx Z) (x *m 1%:M) = 0 by rewrite crossM E mulmx0 mul0mx.
rewrite mulmxV // mulmx1 /cross. have -> : (1%:M : 'M[C]_(k + k)) = block_mx 1%:M 0 0 1%:M by rewrite -scalar_mx_block.
rewrite /block_mx col_mxKu col_mxKd. have Hr (A B : 'M[C]_k) : hc (row_mx A B) = col_mx (hc A) (hc B) by rewrite /hc tr_row_mx map_col_mx.
rewrite !Hr !hc1 !hc0 !mul_col_mx !mul1mx !mul0mx. rewrite opp_col_mx add_col_mx subr0 sub0r -[in RHS]col_mx0 => /eq_col_mx [E2 /eqP]. rewrite oppr_eq0 => /eqP E1.
by rewrite -[x]vsubmxK E1 E2 col_mx0.
Qed.
Lemma iso_bound k e r (X : 'M[C]_(k + k, e)) (psi : 'M[C]_(k + k, r)) (vel : 'rV[C]_r) (s : C) (P : pred 'I_r) : s = 'i \/ s = - 'i ->
  cross X X = 0 -> cross X psi = 0 -> injective_mx (row_mx X psi) -> vop psi = diag_mx vel -> (forall j, P j -> 0 <= - ('i * s * vel 0 j)) -> (e + #|P| <= k)%N.
Proof.
move=> Hs H1 H2 Hi Hv HP. rewrite cardE. set idx := enum P. have Ui : uniq idx by apply: enum_uniq.
pose S : 'M[C]_(r, size idx) := take_cols 1%:M idx.
have Sm (c : 'cV[C]_(size idx)) a : (S *m c) (tnth (in_tuple idx) a) 0 = c a 0.
  rewrite mxE (bigD1 a) //= !mxE eqxx mul1r big1 ?addr0 // => b Hb. rewrite !mxE.
  have -> : (tnth (in_tuple idx) a == tnth (in_tuple idx) b) = false by apply/negP => /eqP E; move/negP: Hb; apply; rewrite -val_eqE /= -(index_tnth Ui a) -(index_tnth Ui b) E.
  by rewrite mul0r.
have So (c : 'cV[C]_(size idx)) j : j \notin idx -> (S *m c) j 0 = 0.
  move=> Hj. rewrite mxE big1 // => b _. rewrite !mxE. have -> : (j == tnth (in_tuple idx) b) = false by apply/negP => /eqP E; move: Hj; rewrite E mem_tnth.
  by rewrite mul0r.
have Si : injective_mx S. { move=> c E. apply/matrixP=> a b. rewrite ord1 -Sm E !mxE. by []. }
apply: (@dim_bound _ _ (row_mx X (psi *m S)) s Hs).
- move=> x. rewrite -[x]vsubmxK mul_row_col -mulmxA => E. have : row_mx X psi *m col_mx (usubmx x) (S *m dsubmx x) = 0 by rewrite mul_row_col.
  move/Hi. rewrite -[in RHS]col_mx0 => /eq_col_mx [-> /Si ->]. by rewrite col_mx0.
- move=> c. rewrite -[c]vsubmxK mul_row_col -mulmxA. set x := usubmx c. set d := S *m dsubmx c.
  have H2' : cross psi X = 0. { apply: (can_inj (@hcK _ _ _)). by rewrite hc_cross H2 oppr0 hc0. }
  have -> : vop (X *m x + psi *m d) = vop (psi *m d).
    rewrite !vopE crossDl !crossDr !crossM H1 H2 H2' !mulmx0 !mul0mx. congr (_ *: _). zmod.
  have Do j : j \notin idx -> d j 0 = 0 by apply: So. clearbody d.
  rewrite vopM Hv mul_mx_diag mxE mulr_sumr -sumrN. apply: sumr_ge0 => j _. rewrite !mxE.
  have -> : - ('i * s * ((d j 0)^* * vel 0 j * d j 0)) = - ('i * s * vel 0 j) * `|d j 0| ^+ 2 by rewrite mulNr normCK [d j 0 * _]mulrC; congr (- _); rewrite -[_^* * vel 0 j]mulrC !mulrA.
  case: (boolP (j \in idx)) => Hj; last by rewrite Do // normr0 expr0n mulr0.
  rewrite mulr_ge0 ?exprn_ge0 //. apply: HP. by rewrite mem_enum in Hj.
Qed.
Section Balance.
Variables (n k r e e' : nat) (h : 'M[C]_n) (u v : 'M[C]_(n, k)).
Hypothesis Hh : hermitian h.
Variables (psi : 'M[C]_(k + k, r)) (lam : 'rV[C]_r) (F : 'M[C]_(n, r)) (vel : 'rV[C]_r).
Hypothesis Hc : core h u v psi 1%:M (diag_mx lam) F.
Hypothesis Hlam : forall j, `|lam 0 j| = 1.
Variables (X : 'M[C]_(k + k, e)) (K : 'M[C]_e) (G : 'M[C]_(n, e)) (X' : 'M[C]_(k + k, e')) (K' : 'M[C]_e') (G' : 'M[C]_(n, e')).
Hypothesis HX : core h u v X K 1%:M G.
Hypothesis HX' : core h u v X' 1%:M K' G'.
Hypothesis UK : upper K. Hypothesis UK' : upper K'.
Hypothesis NK : forall i, `|K i i| < 1. Hypothesis NK' : forall i, `|K' i i| < 1.
Lemma diag_upper m (x : 'rV[C]_m) : upper (diag_mx x).
Proof. move=> i j H. rewrite mxE. case: eqP => // E. by move: H; rewrite E ltnn. Qed.
Lemma cross_dd : cross X X = 0.
Proof.
have E := conserved Hh HX HX. rewrite !hc1 !mul1mx !mulmx1 in E. apply: (stein UK UK) => // i j. by apply: mulr_ilt1.
Qed.
Lemma cross_gg : cross X' X' = 0.
Proof.
have E := conserved Hh HX' HX'. rewrite !hc1 !mul1mx !mulmx1 in E. apply: (stein UK' UK') => // i j. by apply: mulr_ilt1.
Qed.
Lemma cross_dp : cross X psi = 0.
Proof.
have E := conserved Hh HX Hc. rewrite !hc1 !mul1mx !mulmx1 in E. apply: (stein UK (@diag_upper _ (\row_j (lam 0 j)^-1))).
- move=> i j. by rewrite [diag_mx _ _ _]mxE eqxx mulr1n mxE normfV Hlam invr1 mulr1.
- rewrite -E -mulmxA mulmx_diag. have -> : \row_j (lam 0 j * (\row_j (lam 0 j)^-1) 0 j) = const_mx 1.
    apply/matrixP=> i j. rewrite !mxE divff // -normr_eq0 Hlam. exact: oner_neq0.
  by rewrite diag_const_mx mulmx1.
Qed.
Lemma cross_gp : cross X' psi = 0.
Proof.
have E := conserved Hh HX' Hc. rewrite !hc1 !mul1mx !mulmx1 in E. apply: (stein UK' (@diag_upper _ lam)) => // i j.
by rewrite [diag_mx _ _ _]mxE eqxx mulr1n Hlam mulr1.
Qed.
Hypothesis Hv : vop psi = diag_mx vel.
Hypothesis Rv : forall j, vel 0 j \is Num.real.
Hypothesis Hi : injective_mx (row_mx (row_mx X psi) X').
Hypothesis Hd : (e + r + e' = k + k)%N.
Lemma vel_neq0 j : vel 0 j != 0.
Proof.
apply/eqP => E. pose x := psi *m delta_mx j (0 : 'I_1). have Hx : x = 0.
  apply: (@cross_nondeg _ _ _ (row_mx (row_mx X psi) X')) => //.
  have Z p (Y : 'M[C]_(k + k, p)) : cross Y psi = 0 -> cross Y x = 0 by move=> EY; rewrite -[Y]mulmx1 /x crossM EY mulmx0 mul0mx.
  apply: cross_row; last by apply: Z cross_gp. apply: cross_row; first by apply: Z cross_dp.
  have : vop psi *m delta_mx j (0 : 'I_1) = 0. { rewrite Hv. apply/matrixP=> a b. rewrite mul_diag_mx !mxE. case: eqP => [->|]; by rewrite ?E ?mul0r ?mulr0. }
  rewrite vopE -scalemxAl => /eqP. rewrite scaler_eq0 (negPf (neq0Ci _)) /= => /eqP E1. by rewrite /x -[X in cross X _]mulmx1 crossM hc1 mul1mx.
have [Hi1 _] := inj_row Hi. have [_ Hi2] := inj_row Hi1. have /matrixP/(_ j 0) := Hi2 _ Hx. rewrite !mxE !eqxx /= => /eqP. by rewrite oner_eq0.
Qed.
Let nneg := #|[pred j | vel 0 j < 0]|. Let npos := #|[pred j | 0 < vel 0 j]|.
Lemma balanced : (nneg + e = k)%N /\ (npos + e = k)%N /\ (2 * nneg = r)%N.
Proof.
have [Hi1 _] := inj_row Hi.
have I2 : 'i * 'i = - 1 :> C by rewrite -expr2 sqrCi.
have Hi2 : injective_mx (row_mx X' psi).
  move=> x. rewrite -[x]vsubmxK mul_row_col => E. have : row_mx (row_mx X psi) X' *m col_mx (col_mx 0 (dsubmx x)) (usubmx x) = 0 by rewrite !mul_row_col mulmx0 add0r addrC.
  move/Hi. rewrite -[in RHS]col_mx0 => /eq_col_mx [E1 ->]. move: E1. rewrite -[in RHS]col_mx0 => /eq_col_mx [_ ->]. by rewrite col_mx0.
have P1 j : [pred j | 0 < vel 0 j] j -> 0 <= - ('i * 'i * vel 0 j) by rewrite I2 mulN1r opprK => /ltW.
have P2 j : [pred j | vel 0 j < 0] j -> 0 <= - ('i * - 'i * vel 0 j) by rewrite mulrN I2 opprK mul1r oppr_ge0 => /ltW.
have B1 := iso_bound (or_introl erefl) cross_dd cross_dp Hi1 Hv P1. have B2 := iso_bound (or_intror erefl) cross_dd cross_dp Hi1 Hv P2.
have B3 := iso_bound (or_introl erefl) cross_gg cross_gp Hi2 Hv P1. have B4 := iso_bound (or_intror erefl) cross_gg cross_gp Hi2 Hv P2.
have Er : (nneg + npos = r)%N.
  rewrite -[RHS](card_ord r) -(cardC [pred j | vel 0 j < 0]). congr (_ + _)%N. apply: eq_card => j. rewrite !inE.
  case: (real_ltgtP (Rv j) (real0 _)) => // H. by move: (vel_neq0 j); rewrite H eqxx.
move: B1 B2 B3 B4 Er Hd. rewrite -/nneg -/npos. move: nneg npos => p q. move=> /ssrnat.leP + /ssrnat.leP + /ssrnat.leP + /ssrnat.leP. rewrite -!plusE -!multE. lia.
Qed.
End Balance.

(** ** The loop does not fail *)
Section LoopTotal.
Lemma put_put r (idx : seq 'I_r) m (A : 'M[C]_(m, r)) (B B' : 'M[C]_(m, size idx)) : put_cols (put_cols A B) B' = put_cols A B'.
Proof. apply/matrixP=> i j. rewrite !mxE. by case: insubP. Qed.
Lemma emb1 r (idx : seq 'I_r) : uniq idx -> emb (1%:M : 'M[C]_(size idx)) = 1%:M.
Proof.
move=> U. have := put_mul U (1%:M : 'M[C]_r) 1%:M. rewrite mul1mx mulmx1 => <-. apply/matrixP=> i j.
case: (boolP (j \in idx)) => Hj; last by rewrite put_out. have [a [<- _]] := index_ord Hj. by rewrite put_in // mxE.
Qed.
Lemma embM r (idx : seq 'I_r) (B B' : 'M[C]_(size idx)) : uniq idx -> emb B *m emb B' = emb (B *m B').
Proof.
move=> U. rewrite -(put_mul U) -[emb B]mul1mx -(put_mul U 1%:M B) take_put // put_put -mulmxA. by rewrite put_mul // mul1mx.
Qed.
Lemma emb_inj r (idx : seq 'I_r) (B : 'M[C]_(size idx)) : uniq idx -> B \in unitmx -> injective_mx (emb B).
Proof. move=> U UB x E. rewrite -[x]mul1mx -(emb1 U) -(mulVmx UB) -embM // -mulmxA E. exact: mulmx0. Qed.
Lemma take_mul r (idx : seq 'I_r) m (A : 'M[C]_(m, r)) : take_cols A idx = A *m take_cols 1%:M idx.
Proof. apply/matrixP=> i a. rewrite !mxE (bigD1 (tnth (in_tuple idx) a)) //= !mxE eqxx mulr1 big1 ?addr0 // => l Hl. by rewrite !mxE (negPf Hl) mulr0. Qed.
Lemma take1_inj r (idx : seq 'I_r) : uniq idx -> injective_mx (take_cols (1%:M : 'M[C]_r) idx).
Proof.
move=> Ui c E. apply/matrixP=> a b. rewrite ord1 [RHS]mxE. move/matrixP/(_ (tnth (in_tuple idx) a) 0): E. rewrite [RHS]mxE mxE (bigD1 a) //= !mxE eqxx mul1r big1 ?addr0 // => l Hl. rewrite !mxE.
have -> : (tnth (in_tuple idx) a == tnth (in_tuple idx) l) = false by apply/negP => /eqP E; move/negP: Hl; apply; rewrite -val_eqE /= -(index_tnth Ui a) -(index_tnth Ui l) E.
by rewrite mul0r.
Qed.
Lemma unitary_unit m (A : 'M[C]_m) : unitary A -> A \in unitmx.
Proof. case=> E _. by have [] := mulmx1_unit E. Qed.
Variables (qr : forall m c, 'M[C]_(m, c) -> option ('M[C]_(m, c) * 'M[C]_c)) (eigh : forall c, 'M[C]_c -> option ('rV[C]_c * 'M[C]_c)).
Variables n : nat.
Hypothesis Hqr : forall c (A : 'M[C]_(n, c)), injective_mx A -> exists2 y, qr A = Some y & qr_of A y.
Hypothesis Heigh : forall c (A : 'M[C]_c), (c <= n)%N -> hermitian A -> exists2 y, eigh A = Some y & eigh_of A y.
Variables (k r : nat) (h : 'M[C]_n) (u v : 'M[C]_(n, k)) (lam : 'rV[C]_r).
Hypothesis lam0 : forall j, lam 0 j != 0.
Lemma take_inj (psi : 'M[C]_(k + k, r)) F idx : core h u v psi 1%:M (diag_mx lam) F -> injective_mx psi -> uniq idx -> (forall i j, i \in idx -> j \in idx -> lam 0 i = lam 0 j) ->
  injective_mx (take_cols F idx).
Proof.
move=> [_ E2 E3] Hpsi U Hl c E. rewrite !mulmx1 in E2. apply: (take1_inj U). apply: Hpsi. set S := take_cols _ _.
have Z : F *m (S *m c) = 0 by rewrite mulmxA -take_mul.
have Z1 : usubmx psi *m (S *m c) = 0 by rewrite -E2 -mulmxA Z mulmx0.
have Z2 : dsubmx psi *m (S *m c) = 0.
  case: (posnP (size idx)) => Hs; first by rewrite (_ : c = 0) ?mulmx0 //; apply/matrixP=> a; have := ltn_ord a; rewrite {2}Hs.
  pose a0 := Ordinal Hs. have Ed : diag_mx lam *m S = lam 0 (tnth (in_tuple idx) a0) *: S.
    apply/matrixP=> i a. rewrite mul_diag_mx !mxE. case: eqP => [->|_]; rewrite ?mulr0 // !mulr1. by apply: Hl; apply: mem_tnth.
  have : dsubmx psi *m diag_mx lam *m (S *m c) = 0 by rewrite -E3 -mulmxA Z mulmx0.
  rewrite -mulmxA (mulmxA (diag_mx lam)) Ed -scalemxAl -scalemxAr => /eqP. by rewrite scaler_eq0 (negPf (lam0 _)) => /eqP.
by rewrite -[psi]vsubmxK mul_col_mx Z1 Z2 col_mx0.
Qed.
Lemma step_total psi F vel idx : core h u v psi 1%:M (diag_mx lam) F -> injective_mx psi -> uniq idx -> (forall i j, i \in idx -> j \in idx -> lam 0 i = lam 0 j) ->
  exists psi' F' vel', [/\ proper_step qr eigh idx (psi, F, vel) = inl (psi', F', vel'), core h u v psi' 1%:M (diag_mx lam) F' & injective_mx psi'].
Proof.
move=> Hc Hi U Hl. have HF := take_inj Hc Hi U Hl. have [[q rr] Eq [/= Q1 Q2]] := Hqr HF.
have Ur : rr \in unitmx. { apply/inj_unit => x E. apply: HF. by rewrite Q2 -mulmxA E mulmx0. }
rewrite /proper_step Eq Ur /=. rewrite !take_put //. set vo := _ + hc _.
have Hv : hermitian vo by rewrite /hermitian -hcE /vo hcD hcK addrC.
have [[w rot] Ee [/= Z1 Z3 Z4 _]] := Heigh (inj_le HF) Hv. rewrite Ee. do 3!eexists. split=> //.
- have Eq' : q = take_cols F idx *m invmx rr by rewrite Q2 mulmxK.
  have K1 := put_mul U (psi *m emb (invmx rr)) rot. rewrite -put_mul // take_put // in K1.
  have K2 := put_mul U (F *m emb (invmx rr)) rot. rewrite -put_mul // take_put // in K2.
  rewrite Eq' K1 K2 !put_mul //. rewrite -!mulmxA. apply: core_rot Hc. by rewrite mulmxA (emb_comm U) // -!mulmxA (emb_comm U).
- have K1 := put_mul U (psi *m emb (invmx rr)) rot. rewrite -put_mul // take_put // in K1. rewrite K1 put_mul //.
  apply: inj_mul; last by apply: emb_inj => //; apply: unitary_unit. apply: inj_mul => //. apply: emb_inj => //. by rewrite unitmx_inv.
Qed.
Lemma loop_total ids psi F vel : core h u v psi 1%:M (diag_mx lam) F -> injective_mx psi -> uniq (flatten ids) ->
  (forall idx, idx \in ids -> forall i j, i \in idx -> j \in idx -> lam 0 i = lam 0 j) ->
  exists psi' F' vel', proper_loop qr eigh ids (psi, F, vel) = inl (psi', F', vel') /\ injective_mx psi'.
Proof.
elim: ids psi F vel => [|idx ids IH] psi F vel Hc Hi; first by do 3!eexists.
rewrite [flatten _]/= cat_uniq => /and3P [Ui _ U] L. have [|psi' [F' [vel' [E Hc' Hi']]]] := step_total vel Hc Hi Ui; first by apply: L; rewrite mem_head.
have -> : proper_loop qr eigh (idx :: ids) (psi, F, vel) = match proper_step qr eigh idx (psi, F, vel) with inl st' => proper_loop qr eigh ids st' | inr e => inr e end by [].
rewrite E. apply: IH => // idx' H. apply: L. by rewrite inE H orbT.
Qed.
End LoopTotal.

Section MakeTotal.
Variables (near : C -> C -> bool) (angle : C -> C).
Variables (qr : forall m c, 'M[C]_(m, c) -> option ('M[C]_(m, c) * 'M[C]_c)) (eigh : forall c, 'M[C]_c -> option ('rV[C]_c * 'M[C]_c)).
Hypothesis Hqr : forall m c (A : 'M[C]_(m, c)) y, qr A = Some y -> qr_of A y.
Hypothesis Heigh : forall c (A : 'M[C]_c) y, hermitian A -> eigh A = Some y -> eigh_of A y.
Variable n : nat.
Hypothesis Hqr' : forall c (A : 'M[C]_(n, c)), injective_mx A -> exists y, qr A = Some y.
Hypothesis Heigh' : forall c (A : 'M[C]_c), (c <= n)%N -> hermitian A -> exists y, eigh A = Some y.
Variables (h t : 'M[C]_n) (L : linsys C n) (u : 'M[C]_(n, ldim L)) (r : nat) (lam : 'rV[C]_r) (psi : 'M[C]_(ldim L + ldim L, r)).
Hypothesis Hh : hermitian h.
Hypothesis Hlam : forall j, `|lam 0 j| = 1.
Hypothesis near_eq : forall i j, near (lam 0 i) (lam 0 j) = (lam 0 i == lam 0 j).
Hypothesis angle_real : forall i, angle (lam 0 i) \is Num.real.
Hypothesis angle_inj : forall i j, angle (lam 0 i) = angle (lam 0 j) -> lam 0 i = lam 0 j.
Hypothesis Hcore : core h u (lv L) psi 1%:M (diag_mx lam) (lextract L psi lam).
Hypothesis Hpsi : injective_mx psi.
Lemma loop_success : exists psi' F' vel' T, [/\ proper_loop qr eigh (clusters near lam (argsort angle lam)) (psi, lextract L psi lam, 0) = inl (psi', F', vel'),
  psi' = psi *m T, T \in unitmx, core h u (lv L) psi' 1%:M (diag_mx lam) F' & vop psi' = diag_mx vel' /\ forall j, vel' 0 j \is Num.real].
Proof.
have [A1 A2] := argsort_ok angle_real. have Uo : uniq (argsort angle lam) by rewrite (perm_uniq A2) enum_uniq.
have Mo j : j \in argsort angle lam by rewrite (perm_mem A2) mem_enum.
have [C1 C2] := clusters_spec near_eq angle_inj A1 Uo.
have Uf : uniq (flatten (clusters near lam (argsort angle lam))) by rewrite (perm_uniq C1).
have Cl idx : idx \in clusters near lam (argsort angle lam) -> forall i j, i \in idx -> j \in idx -> lam 0 i = lam 0 j.
  move=> Hi i j Hii Hj. apply/eqP. by rewrite -(C2 _ Hi _ Hii).
have l0 j : lam 0 j != 0 by rewrite -normr_eq0 Hlam oner_neq0.
have Q c (A : 'M[C]_(n, c)) : injective_mx A -> exists2 y, qr A = Some y & qr_of A y by move=> /Hqr' [y E]; exists y => //; apply: Hqr.
have E c (A : 'M[C]_c) : (c <= n)%N -> hermitian A -> exists2 y, eigh A = Some y & eigh_of A y by move=> Hn H; have [y E] := Heigh' Hn H; exists y => //; apply: Heigh.
have [psi' [F' [vel' [El Hi]]]] := loop_total Q E l0 (0 : 'rV[C]_r) Hcore Hpsi Uf Cl.
have [T [ET K V R _]] := loop_result Hqr Heigh Hh Hlam near_eq angle_real angle_inj Hcore El.
exists psi', F', vel', T. split=> //. apply/inj_unit => x Ex. apply: Hi. by rewrite ET -mulmxA Ex mulmx0.
Qed.
Variables (e e' : nat) (X : 'M[C]_(ldim L + ldim L, e)) (K : 'M[C]_e) (G : 'M[C]_(n, e)) (X' : 'M[C]_(ldim L + ldim L, e')) (K' : 'M[C]_e') (G' : 'M[C]_(n, e')).
Hypothesis HX : core h u (lv L) X K 1%:M G.
Hypothesis HX' : core h u (lv L) X' 1%:M K' G'.
Hypothesis UK : upper K. Hypothesis UK' : upper K'.
Hypothesis NK : forall i, `|K i i| < 1. Hypothesis NK' : forall i, `|K' i i| < 1.
Hypothesis Hi : injective_mx (row_mx (row_mx X psi) X').
Hypothesis Hd : (e + r + e' = ldim L + ldim L)%N.
Lemma make_total : exists p, [/\ make_proper_modes near angle qr eigh lam psi = inl p, (r = 2 * (r %/ 2))%N & (r %/ 2 + e = ldim L)%N].
Proof.
have [psi' [F' [vel [T [El ET UT Hc [Hv Rv]]]]]] := loop_success.
have Hi' : injective_mx (row_mx (row_mx X psi') X').
  move=> x. rewrite -[x]vsubmxK -[usubmx x]vsubmxK !mul_row_col ET -mulmxA => E. set y1 := usubmx (usubmx x) in E *. set y2 := dsubmx (usubmx x) in E *.
  have : row_mx (row_mx X psi) X' *m col_mx (col_mx y1 (T *m y2)) (dsubmx x) = 0 by rewrite !mul_row_col.
  move/Hi. rewrite -[in RHS]col_mx0 => /eq_col_mx [+ ->]. rewrite -[in RHS]col_mx0 => /eq_col_mx [-> E2].
  have -> : y2 = 0 by rewrite -[y2]mul1mx -(mulVmx UT) -mulmxA E2 mulmx0. by rewrite !col_mx0.
have [B1 [B2 B3]] := balanced Hh Hc Hlam HX HX' UK UK' NK NK' Hv Rv Hi' Hd.
have N := vel_neq0 Hh Hc Hlam HX HX' UK UK' NK NK' Hv Hi' Hd.
have D : (r %/ 2)%N = #|[pred j | vel 0 j < 0]| by rewrite -{1}B3 mulKn.
rewrite D B3 B1. rewrite /make_proper_modes El. have -> : [exists j, vel 0 j == 0] = false by apply/existsP => [[j]]; rewrite (negPf (N j)).
rewrite B3 eqxx /=. by eexists.
Qed.
End MakeTotal.
End Total.
