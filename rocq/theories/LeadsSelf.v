(** * Proofs about the self-energy of a lead. *)
From mathcomp Require Import all_ssreflect all_algebra.
From Verif Require Import Zmod LeadsModel LeadsSpec LeadsProofs LeadsClusters LeadsModes LeadsModes2 LeadsTotal.
Set Implicit Arguments. Unset Strict Implicit. Unset Printing Implicit Defensive.
Import Order.Theory GRing.Theory Num.Theory.
Local Open Scope ring_scope.

Section Self.
Variable C : numClosedFieldType.
Lemma usub_row k p q (A : 'M[C]_(k + k, p)) (B : 'M[C]_(k + k, q)) : usubmx (row_mx A B) = row_mx (usubmx A) (usubmx B) /\ dsubmx (row_mx A B) = row_mx (dsubmx A) (dsubmx B).
Proof. by rewrite -{1 3}[A]vsubmxK -{1 3}[B]vsubmxK -block_mxEh block_mxEv col_mxKu col_mxKd. Qed.
Lemma iter_block p q (A : 'M[C]_p) (B : 'M[C]_q) (x : 'cV[C]_p) (y : 'cV[C]_q) j : iter j (mulmx (block_mx A 0 0 B)) (col_mx x y) = col_mx (iter j (mulmx A) x) (iter j (mulmx B) y).
Proof. elim: j => [//|j IH]. by rewrite !iterS IH mul_block_col !mul0mx addr0 add0r. Qed.

Section Waves.
Variables (m m' k r e : nat) (h : 'M[C]_(m + m')) (hop : 'M[C]_(m + m', m)) (u : 'M[C]_(m + m', k)) (v : 'M[C]_(m + m', k)).
Hypothesis Hh : hermitian h.
Hypothesis Huv : u *m hc v = row_mx hop 0.
Hypothesis Hu : injective_mx u.
Variables (psi : 'M[C]_(k + k, r)) (lam : 'rV[C]_r) (F : 'M[C]_(m + m', r)) (vel : 'rV[C]_r).
Hypothesis Hc : core h u v psi 1%:M (diag_mx lam) F.
Hypothesis Hlam : forall j, `|lam 0 j| = 1.
Variables (X : 'M[C]_(k + k, e)) (K : 'M[C]_e) (G : 'M[C]_(m + m', e)).
Hypothesis HX : core h u v X K 1%:M G.
Let v1 := usubmx v.
Lemma v_split : v = col_mx v1 0 /\ hop = u *m hc v1.
Proof.
have Ev : v = col_mx v1 (dsubmx v) by rewrite /v1 vsubmxK.
have Hr : hc v = row_mx (hc v1) (hc (dsubmx v)) by rewrite [in LHS]Ev /hc tr_col_mx map_row_mx.
move: Huv. rewrite Hr mul_mx_row => /eq_row_mx [<- E]. split=> //. rewrite [LHS]Ev. congr (col_mx _ _).
apply: (can_inj (@hcK _ _ _)). rewrite hc0. apply/matrixP=> i j. have := Hu (x := col j (hc (dsubmx v))). rewrite colE mulmxA E mul0mx => /(_ erefl) /matrixP /(_ i 0). by rewrite -colE !mxE.
Qed.
Let Z := row_mx psi X.
Let KK := block_mx (diag_mx (\row_j (lam 0 j)^-1)) 0 0 K.
Let GG := row_mx (F *m diag_mx (\row_j (lam 0 j)^-1)) G.
Lemma dlam : diag_mx lam *m diag_mx (\row_j (lam 0 j)^-1) = 1%:M.
Proof.
rewrite mulmx_diag -diag_const_mx. congr diag_mx. apply/matrixP=> i j. rewrite !mxE divff // -normr_eq0 Hlam. exact: oner_neq0.
Qed.
Lemma coreZ : core h u v Z KK 1%:M GG.
Proof.
have [A1 A2 A3] := Hc. have [B1 B2 B3] := HX. rewrite !mulmx1 in A1 A2 B1 B3.
rewrite /core !mulmx1 /Z (usub_row _ _).1 (usub_row _ _).2 /GG /KK. rewrite !mul_mx_row !mulmxA A1 A2 A3 B1 B2 B3 -!mulmxA.
split.
- rewrite mul_row_block !mulmx0 addr0 add0r ?mul_mx_row !opp_row_mx add_row_mx. congr (row_mx _ _); last by rewrite mulmxA. by rewrite mulmxBl mulNmx -!mulmxA dlam mulmx1.
- by rewrite mul_row_block !mulmx0 addr0 add0r.
- by rewrite dlam mulmx1.
Qed.
Definition waves (a : 'cV[C]_(r + e)) (j : nat) : 'cV[C]_(m + m') := GG *m iter j (mulmx KK) a.
Lemma waves_eq a j : h *m waves a j.+1 + row_mx hop 0 *m waves a j + adj (row_mx hop 0) *m waves a j.+2 = 0.
Proof.
have [A1 A2 A3] := coreZ. rewrite !mulmx1 in A1 A3. rewrite -hcE -Huv hcM hcK /waves !iterS. set w := iter _ _ _.
rewrite !mulmxA A1 -[u *m hc v *m GG]mulmxA A2 -[v *m hc u *m GG]mulmxA A3 !mulmxBl !mulNmx !mulmxA. zmod.
Qed.
Lemma waves_end a (psi0 : 'cV[C]_m) : h *m waves a 0 + hop *m psi0 + adj (row_mx hop 0) *m waves a 1 = 0 <-> hc v1 *m psi0 = usubmx Z *m a.
Proof.
have [A1 A2 A3] := coreZ. rewrite !mulmx1 in A1 A3. have [_ Eh] := v_split.
have -> : h *m waves a 0 + hop *m psi0 + adj (row_mx hop 0) *m waves a 1 = u *m (hc v1 *m psi0 - usubmx Z *m a).
  rewrite -hcE -Huv hcM hcK /waves /= !mulmxA A1 -[v *m hc u *m GG]mulmxA A3 Eh mulmxBl mulNmx mulmxBr !mulmxA. zmod.
split=> [/Hu/subr0_eq//|->]. by rewrite subrr mulmx0.
Qed.
Lemma waves_half a psi0 : half_infinite h hop psi0 (waves a) <-> hc v1 *m psi0 = usubmx Z *m a.
Proof. split=> [[/waves_end]//|H]. split; [exact/waves_end|exact: waves_eq]. Qed.
Lemma waves_back a : adj hop *m waves a 0 = v1 *m (dsubmx Z *m a).
Proof. have [A1 A2 A3] := coreZ. rewrite !mulmx1 in A3. have [_ Eh] := v_split. by rewrite -hcE Eh hcM hcK /waves /= -mulmxA (mulmxA (hc u)) A3. Qed.
Lemma wavesE a j : waves a j = propagating F lam (usubmx a) j + evanescent G K (dsubmx a) j.
Proof.
rewrite /waves -{1}[a]vsubmxK iter_block mul_row_col. congr (_ + _).
have E i l : iter l (mulmx (diag_mx (\row_j (lam 0 j)^-1))) (usubmx a) i 0 = (lam 0 i)^-1 ^+ l * usubmx a i 0.
  elim: l i => [|l IH] i; first by rewrite expr0 mul1r. by rewrite iterS mul_diag_mx mxE IH [X in X * _]mxE exprS mulrA.
apply/matrixP=> i z. rewrite ord1 -mulmxA -iterS !mxE /propagating summxE. apply: eq_bigr => l _. rewrite E !mxE. by rewrite mulrC [X in X * _]mulrC.
Qed.
(** The current *)
Hypothesis Hv : vop psi = diag_mx (\row_j Num.sg (vel 0 j)).
Hypothesis UK : upper K. Hypothesis NK : forall i, `|K i i| < 1.
Lemma vopZ (a : 'cV[C]_(r + e)) : vop (Z *m a) 0 0 = \sum_i Num.sg (vel 0 i) * `|usubmx a i 0| ^+ 2.
Proof.
have H1 := cross_dd Hh HX UK NK. have H2 := cross_dp Hh Hc Hlam HX UK NK.
have H2' : cross psi X = 0. { apply: (can_inj (@hcK _ _ _)). by rewrite hc_cross H2 oppr0 hc0. }
rewrite -{1}[a]vsubmxK mul_row_col. set x := usubmx a. set y := dsubmx a. clearbody x y.
have -> : vop (psi *m x + X *m y) = vop (psi *m x).
  rewrite !vopE crossDl !crossDr !crossM H1 H2 H2' !mulmx0 !mul0mx. congr (_ *: _). zmod.
rewrite vopM Hv mul_mx_diag mxE. apply: eq_bigr => j _. rewrite !mxE normCK [x j 0 * _]mulrC. by rewrite -[_^* * Num.sg _]mulrC mulrA.
Qed.
Lemma current (psi0 : 'cV[C]_m) a (Sg : 'M[C]_m) : hc v1 *m psi0 = usubmx Z *m a -> Sg *m psi0 = v1 *m (dsubmx Z *m a) ->
  (hc psi0 *m ('i *: (Sg - hc Sg)) *m psi0) 0 0 = \sum_i Num.sg (vel 0 i) * `|usubmx a i 0| ^+ 2.
Proof.
move=> E1 E2. rewrite -vopZ. congr (_ _ 0 0). rewrite vopE /cross -scalemxAr -scalemxAl. congr (_ *: _).
have U : usubmx (Z *m a) = usubmx Z *m a /\ dsubmx (Z *m a) = dsubmx Z *m a by rewrite -{1 3}(vsubmxK Z) mul_col_mx col_mxKu col_mxKd.
rewrite U.1 U.2 mulmxBr mulmxBl. have E3 : hc psi0 *m v1 = hc (usubmx Z *m a) by rewrite -E1 hcM hcK.
rewrite -mulmxA E2 -[hc psi0 *m hc Sg *m psi0]mulmxA. congr (_ - _); first by rewrite mulmxA E3.
apply: (can_inj (@hcK _ _ _)). rewrite !hcM !hcK -[_ *m Sg *m _]mulmxA E2 mulmxA E3 !hcM. by rewrite ?mulmxA.
Qed.
End Waves.
End Self.
