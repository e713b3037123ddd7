(** * Proofs about leads. *)
From mathcomp Require Import all_ssreflect all_algebra.
From Verif Require Import Zmod LeadsModel LeadsSpec.
Set Implicit Arguments. Unset Strict Implicit. Unset Printing Implicit Defensive.
Import Order.Theory GRing.Theory Num.Theory.
Local Open Scope ring_scope.

Section Proofs.
Variable C : numClosedFieldType.
Implicit Types m n k r : nat.
Lemma hcE m n (A : 'M[C]_(m, n)) : hc A = adj A. Proof. by apply/matrixP=> i j; rewrite !mxE. Qed.
Lemma hcM m n p (A : 'M[C]_(m, n)) (B : 'M[C]_(n, p)) : hc (A *m B) = hc B *m hc A. Proof. by rewrite /hc trmx_mul map_mxM. Qed.
Lemma hcD m n (A B : 'M[C]_(m, n)) : hc (A + B) = hc A + hc B. Proof. by rewrite /hc linearD map_mxD. Qed.
Lemma hcN m n (A : 'M[C]_(m, n)) : hc (- A) = - hc A. Proof. by rewrite /hc linearN map_mxN. Qed.
Lemma hcB m n (A B : 'M[C]_(m, n)) : hc (A - B) = hc A - hc B. Proof. by rewrite hcD hcN. Qed.
Lemma hcZ m n (c : C) (A : 'M[C]_(m, n)) : hc (c *: A) = c^* *: hc A. Proof. by rewrite /hc linearZ map_mxZ. Qed.
Lemma hcK m n (A : 'M[C]_(m, n)) : hc (hc A) = A. Proof. by apply/matrixP=> i j; rewrite !mxE conjCK. Qed.
Lemma hc1 n : hc (1%:M : 'M[C]_n) = 1%:M. Proof. by rewrite /hc trmx1 map_mx1. Qed.
Lemma hc0 m n : hc (0 : 'M[C]_(m, n)) = 0. Proof. by rewrite /hc trmx0 map_mx0. Qed.
Lemma scale_colsE m n (A : 'M[C]_(m, n)) x : scale_cols A x = A *m diag_mx x.
Proof. by apply/matrixP=> i j; rewrite mul_mx_diag !mxE. Qed.
Lemma Ci2 : 'i * 'i = -1 :> C. Proof. by rewrite -expr2 sqrCi. Qed.

Section Core.
Variables (n k : nat) (h : 'M[C]_n) (u v : 'M[C]_(n, k)).
(** the wave function behind a vector (or several) of the pencil *)
Definition core r s (X : 'M[C]_(k + k, r)) (P Q : 'M[C]_(r, s)) (Phi : 'M[C]_(n, s)) : Prop :=
  [/\ h *m Phi = - (u *m usubmx X *m Q) - v *m dsubmx X *m P, hc v *m Phi = usubmx X *m P & hc u *m Phi = dsubmx X *m Q].
Definition pencil_ok (a b : 'M[C]_(k + k)) : Prop :=
  forall r s (X : 'M[C]_(k + k, r)) (P Q : 'M[C]_(r, s)), a *m X *m P = b *m X *m Q <-> exists Phi, core X P Q Phi.

Lemma col_eq0 m1 m2 p (A : 'M[C]_(m1, p)) (B : 'M[C]_(m2, p)) A' B' : col_mx A B = col_mx A' B' <-> A = A' /\ B = B'.
Proof. by split=> [/eq_col_mx|[-> ->]]. Qed.
Lemma iff2 (A B A' B' : Prop) : (A <-> A') -> (B <-> B') -> (A /\ B <-> A' /\ B').
Proof. tauto. Qed.
Lemma eq_sub (V : zmodType) (x y z w : V) : x - y = z - w -> (x = y <-> z = w).
Proof. by move=> E; split=> H; apply/eqP; rewrite -subr_eq0; [rewrite -E|rewrite E]; rewrite H subrr. Qed.
Lemma eq_sub' (V : zmodType) (x y z w : V) : x - y = w - z -> (x = y <-> z = w).
Proof. move=> E. rewrite (eq_sub E). by split. Qed.
Lemma pencil_gen (need : bool) : let h' := if need then h + 'i *: (u *m hc u + v *m hc v) else h in h' \in unitmx -> pencil_ok (pencil_a h' u v need) (pencil_b h' u v need).
Proof.
move=> h' Uh r s X P Q. rewrite -(vsubmxK X). set X1 := usubmx X. set X2 := dsubmx X.
rewrite /pencil_a /pencil_b !mul_block_col /core !col_mxKu !col_mxKd !mul_col_mx col_eq0.
set G := invmx h'. have GK (z : 'M_(n, s)) : h' *m (G *m z) = z by rewrite mulmxA mulmxV // mul1mx.
have KG (z : 'M_(n, s)) : G *m (h' *m z) = z by rewrite mulmxA mulVmx // mul1mx.
clearbody G.
pose W := - (u *m X1 *m Q) - v *m X2 *m P + (if need then 'i *: (v *m X1 *m P + u *m X2 *m Q) else 0).
have E1 : hc u *m (G *m W) = X2 *m Q <->
  ((if need then - 'i *: (hc u *m (G *m v)) else 0) *m X1 + hc u *m (G *m v) *m X2) *m P = (- (hc u *m (G *m u)) *m X1 + (if need then - 1%:M + 'i *: (hc u *m (G *m u)) else - 1%:M) *m X2) *m Q.
  apply: eq_sub'. rewrite /W; case: (need); rewrite ?(mulmxDl, mulmxDr, mulmxN, mulNmx, scalerDr, mul0mx, mulmx0, scaleNr) -?(scalemxAl, scalemxAr) ?mulmxA ?mul1mx; zmod.
have E2 : hc v *m (G *m W) = X1 *m P <->
  ((if need then 1%:M - 'i *: (hc v *m (G *m v)) else 1%:M) *m X1 + hc v *m (G *m v) *m X2) *m P = (- (hc v *m (G *m u)) *m X1 + (if need then 'i *: (hc v *m (G *m u)) else 0) *m X2) *m Q.
  apply: eq_sub'. rewrite /W; case: (need); rewrite ?(mulmxDl, mulmxDr, mulmxN, mulNmx, scalerDr, mul0mx, mulmx0, scaleNr) -?(scalemxAl, scalemxAr) ?mulmxA ?mul1mx; zmod.
have E3 Phi : hc v *m Phi = X1 *m P -> hc u *m Phi = X2 *m Q -> (h' *m Phi = W <-> h *m Phi = - (u *m X1 *m Q) - v *m X2 *m P).
  move=> F1 F2. apply: eq_sub. rewrite /h' /W. case: (need); last by zmod.
  rewrite mulmxDl -scalemxAl mulmxDl -!mulmxA F1 F2 !scalerDr !mulmxA. zmod.
rewrite -E1 -E2. split.
- case=> F1 F2. exists (G *m W). split=> //. by apply/(E3 _ F2 F1).
- case=> Phi [F0 F1 F2]. have E : Phi = G *m W by rewrite -((E3 _ F1 F2).2 F0) KG. by rewrite -E.
Qed.
Lemma pencil_unit (a b : 'M[C]_(k + k)) : b \in unitmx -> pencil_ok a b -> pencil_ok (invmx b *m a) 1%:M.
Proof.
move=> Ub H r s X P Q. rewrite -H mul1mx. split=> [E|E].
- by rewrite -[RHS]mulmxA -E -!mulmxA mulKVmx.
- by rewrite -!mulmxA (mulmxA a) E -mulmxA mulKmx.
Qed.
Lemma core_extract need r (X : 'M[C]_(k + k, r)) (x : 'rV[C]_r) Phi : let h' := if need then h + 'i *: (u *m hc u + v *m hc v) else h in h' \in unitmx ->
  core X 1%:M (diag_mx x) Phi -> Phi = extract_wf h' u v need X x.
Proof.
move=> h' Uh [E1 E2 E3]. rewrite /extract_wf !scale_colsE. rewrite -[LHS](mulKmx Uh). congr (_ *m _).
rewrite /h'. rewrite !mulmx1 in E1 E2. case: (need); last by rewrite E1 mulNmx !mulmxA.
rewrite mulmxDl -scalemxAl mulmxDl -!mulmxA E2 E3 E1 !scalerDr !mulmxA !mulNmx ?mulmxA. zmod.
Qed.
End Core.
Lemma regular_ok n (h t : 'M[C]_n) (b : C) : b != 0 -> b \is Num.real -> t \in unitmx ->
  let A := b^-1 *: t in let mA := - invmx A in
  pencil_ok h A b%:M (block_mx (b^-1 *: (mA *m h)) (b *: mA) (b^-1 *: hc A) 0) 1%:M.
Proof.
move=> Hb Rb Ut A mA r s X P Q. rewrite -(vsubmxK X). set X1 := usubmx X. set X2 := dsubmx X.
have UA : A \in unitmx. { by rewrite /A unitmxZ // unitfE invr_eq0. }
rewrite /mA. clear mA. clearbody A.
rewrite !mul_block_col /core !col_mxKu !col_mxKd !mul_col_mx mul1mx mul_col_mx col_eq0.
have Hv (z : 'M_(n, s)) : hc (b%:M : 'M[C]_n) *m z = b *: z.
  by rewrite /hc tr_scalar_mx map_scalar_mx /= (CrealP Rb) mul_scalar_mx.
have E0 Phi : b *: Phi = X1 *m P <-> Phi = b^-1 *: (X1 *m P).
  by split=> [<-|->]; rewrite scalerA ?mulVf ?mulfV // scale1r.
split.
- case=> E1 E2. exists (b^-1 *: (X1 *m P)). rewrite Hv. split; last 1 first.
  + by rewrite -E2 mul0mx addr0 -!scalemxAl -scalemxAr mulmxA.
  + have F1 : A *m (X1 *m Q) = - (h *m (b^-1 *: (X1 *m P))) - b *: (X2 *m P).
      rewrite -E1 mulmxDl mulmxDr ?(mulmxN, mulNmx, scalerN) -?(scalemxAl, scalemxAr) ?(mulmxN, mulNmx, scalerN) -?(scalemxAl, scalemxAr) -!mulmxA !(mulKVmx UA) ?mulmxA. by [].
    by rewrite -!mulmxA F1 mul_scalar_mx; zmod.
  + by apply/E0.
- case=> Phi []; rewrite Hv => F1 /E0 F2 F3. split.
  + have {F1} F1 : A *m (X1 *m Q) = - (h *m Phi) - b *: (X2 *m P).
      rewrite F1 -!mulmxA mul_scalar_mx. zmod.
    rewrite -[RHS](mulKmx UA) F1 F2 mulmxDl ?(mulmxN, mulNmx, scalerN, scaleNr, mulmxDr) -?(scalemxAl, scalemxAr) ?(mulNmx, mulmxN, scalerN) -?(scalemxAl, scalemxAr) ?mulmxA. zmod.
  + by rewrite -F3 F2 mul0mx addr0 -!scalemxAl -scalemxAr mulmxA.
Qed.

(** the singular values *)
Lemma downset n (P : pred 'I_n) : (forall i j : 'I_n, (i <= j)%N -> P j -> P i) -> forall j, P j = (j < #|P|)%N.
Proof.
move=> H j. have card_lt m : (m <= n)%N -> #|[pred i : 'I_n | (i < m)%N]| = m.
  move=> Hm. by rewrite -sum1_card /= (big_ord_narrow Hm) /= sum1_card card_ord.
apply/idP/idP=> [Hj|].
- rewrite -(card_lt j.+1) ?ltn_ord //. apply/subset_leq_card/subsetP=> i. rewrite !inE ltnS => Hi. exact: H Hi Hj.
- apply: contraTT => Hj. rewrite -leqNgt. rewrite -[X in (_ <= X)%N](card_lt j) ?(ltnW (ltn_ord j)) //. apply/subset_leq_card/subsetP=> i. rewrite !inE => Hi.
  by case: ltnP => // Hij; rewrite (H _ _ Hij Hi) in Hj.
Qed.
Lemma first_colsE m n k (A : 'M[C]_(m, n)) i (j : 'I_k) (j' : 'I_n) : val j = val j' -> first_cols k A i j = A i j'.
Proof. move=> E. rewrite mxE. case: insubP => [w Hw Ew|]; last by rewrite E ltn_ord. congr (A i _). apply/val_inj. by rewrite /= Ew. Qed.
Section Svd.
Variables (n : nat) (t u vh : 'M[C]_n) (s : 'rV[C]_n).
Hypothesis S : svd_of t (u, s, vh).
Let k := n_nonsing s.
Lemma svd_pos (j : 'I_n) : (0 < s 0 j) = (j < k)%N.
Proof. case: S => _ _ _ _ D. apply: (@downset n [pred i | 0 < s 0 i]) => a b Hab /= H. exact: lt_le_trans H (D _ _ Hab). Qed.
Lemma n_nonsing_le : (k <= n)%N. Proof. by rewrite -[X in (_ <= X)%N]card_ord max_card. Qed.
Lemma svd_split : let sq := first_cols k (\row_j sqrtC (s 0 j)) in
  scale_cols (first_cols k u) sq *m hc (scale_cols (first_cols k (hc vh)) sq) = t.
Proof.
move=> sq. case: (S) => _ _ -> P _. apply/matrixP=> i j. rewrite [LHS]mxE [RHS]mxE.
have scE m' k' (A : 'M[C]_(m', k')) x a b : scale_cols A x a b = A a b * x 0 b by rewrite mxE.
have hE m' k' (A : 'M[C]_(m', k')) a b : hc A a b = (A b a)^* by rewrite !mxE.
have Z (l : 'I_n) : ~~ (l < k)%N -> s 0 l = 0.
  rewrite -svd_pos => H. apply/eqP. move: H. by rewrite lt0r P andbT negbK.
rewrite [RHS](bigID (fun l : 'I_n => (l < k)%N)) /= [X in _ = _ + X]big1 ?addr0; last first.
  move=> l Hl. by rewrite mul_mx_diag !mxE Z // mulr0 mul0r.
rewrite (big_ord_narrow n_nonsing_le) /=. apply: eq_bigr => l _.
have E (m : nat) (A : 'M[C]_(m, n)) a : first_cols k A a l = A a (widen_ord n_nonsing_le l) by apply: first_colsE.
rewrite mul_mx_diag [X in _ = X * _]mxE hE !scE /sq !E hE !mxE rmorphM conjCK (CrealP (ger0_real _)) ?sqrtC_ge0 //.
set a := u _ _; set b := vh _ _; set c := s _ _. by rewrite -[in RHS](sqrtCK c) expr2 -!mulrA [b * _]mulrC.
Qed.
(** the columns of u, v are linearly independent *)
Lemma svd_inj r (W : 'M[C]_n) (z : 'M[C]_(k, r)) : unitary W -> scale_cols (first_cols k W) (first_cols k (\row_j sqrtC (s 0 j))) *m z = 0 -> z = 0.
Proof.
set sq := first_cols k (\row_j _). set A := scale_cols _ _ => -[U _] E.
have G : hc A *m A = diag_mx (\row_(j < k) s 0 (widen_ord n_nonsing_le j)).
  apply/matrixP=> i j. rewrite [LHS]mxE.
  have E1 (m : nat) (B : 'M[C]_(m, n)) a l : first_cols k B a l = B a (widen_ord n_nonsing_le l) by apply: first_colsE.
  have E2 l a : A l a = W l (widen_ord n_nonsing_le a) * sqrtC (s 0 (widen_ord n_nonsing_le a)).
    by rewrite {1}/A [scale_cols _ _ _ _]mxE /sq !E1 [X in _ * X]mxE.
  set si := s 0 (widen_ord n_nonsing_le i). set sj := s 0 (widen_ord n_nonsing_le j).
  have P a : 0 <= s 0 a by case: (S).
  transitivity (sqrtC si * sqrtC sj * (adj W *m W) (widen_ord n_nonsing_le i) (widen_ord n_nonsing_le j)).
    rewrite [in RHS]mxE mulr_sumr. apply: eq_bigr => l _. rewrite [hc A _ _]mxE [A^T _ _]mxE !E2 -/si -/sj [adj W _ _]mxE rmorphM.
    rewrite (CrealP (_ : sqrtC si \is Num.real)) ?ger0_real ?sqrtC_ge0 //. by rewrite mulrACA mulrC. exact: P.
  rewrite U !mxE -val_eqE /= val_eqE -/si. case: eqP => [Eij|_]; last by rewrite mulr0.
  by rewrite mulr1 /sj -Eij -/si -expr2 sqrtCK.
have UD : diag_mx (\row_(j < k) s 0 (widen_ord n_nonsing_le j)) \in unitmx.
  rewrite unitmxE det_diag unitfE prodf_seq_neq0. apply/allP=> i _ /=. rewrite mxE. apply: lt0r_neq0. by rewrite svd_pos /=.
by rewrite -[z](mulKmx UD) -G -mulmxA E !mulmx0.
Qed.
Lemma unitary_unit m (A : 'M[C]_m) : unitary A -> A \in unitmx.
Proof. case=> _ /mulmx1_unit []//. Qed.
Lemma svd_full : k = n -> t \in unitmx.
Proof.
move=> E. case: (S) => Uu Uv -> _ _. rewrite !unitmx_mul (unitary_unit Uu) (unitary_unit Uv) andbT /= unitmxE det_diag unitfE prodf_seq_neq0.
apply/allP=> i _ /=. have : 0 < s 0 i by rewrite svd_pos E ltn_ord. by move/lt0r_neq0.
Qed.
End Svd.
Lemma frob_ge0 m n (A : 'M[C]_(m, n)) : 0 <= frob A.
Proof. rewrite /frob sqrtC_ge0. apply: sumr_ge0 => i _; apply: sumr_ge0 => j _. exact: exprn_ge0. Qed.
Lemma frob_neq0 m n (A : 'M[C]_(m, n)) : A != 0 -> frob A != 0.
Proof.
apply: contraNneq => H. apply/eqP/matrixP=> i j. rewrite mxE. move/eqP: H; rewrite sqrtC_eq0.
rewrite psumr_eq0; last by move=> a _; apply: sumr_ge0 => b _; apply: exprn_ge0.
move/allP/(_ i (mem_index_enum _)) => /=. rewrite psumr_eq0; last by move=> b _; apply: exprn_ge0.
move/allP/(_ j (mem_index_enum _)) => /=. by rewrite expf_eq0 /= normr_eq0 => /eqP.
Qed.

(** what setup_linsys provides *)
Definition linsys_ok n (h t : 'M[C]_n) (L : linsys C n) : Prop :=
  exists u : 'M[C]_(n, ldim L),
  [/\ u *m hc (lv L) = t, pencil_ok h u (lv L) (lmat L) (odflt 1%:M (lmatb L))
    & forall r (X : 'M[C]_(ldim L + ldim L, r)) (x : 'rV[C]_r) Phi, core h u (lv L) X 1%:M (diag_mx x) Phi -> Phi = lextract L X x].
Lemma setup_linsys_inj (svd : forall n, 'M[C]_n -> 'M[C]_n * 'rV[C]_n * 'M[C]_n) (good_h good_b : forall n, 'M[C]_n -> bool) n (h t : 'M[C]_n) stab L :
  svd_of t (svd n t) -> (forall m (A : 'M[C]_m), good_h m A -> A \in unitmx) -> (forall m (A : 'M[C]_m), good_b m A -> A \in unitmx) ->
  (forall s0, stab <> Some (s0, true)) ->
  setup_linsys svd good_h good_b h t stab = inl L ->
  exists u, [/\ u *m hc (lv L) = t, pencil_ok h u (lv L) (lmat L) (odflt 1%:M (lmatb L)), forall r X x Phi, @core n (ldim L) h u (lv L) r r X 1%:M (diag_mx x) Phi -> Phi = @lextract _ _ L r X x & injective_mx u].
Proof.
move=> Hsvd Hh Hb Hs. rewrite /setup_linsys. case: eqP => // /eqP Ht. move: Hsvd. case: (svd n t) => [[u s] vh] S.
case: ifP => [/andP[/eqP Ek _] [<-]|_].
- exists ((sqrtC (frob t))^-1 *: t). have B0 : sqrtC (frob t) != 0 by rewrite sqrtC_eq0 frob_neq0.
  have Br : sqrtC (frob t) \is Num.real by rewrite ger0_real // sqrtC_ge0 frob_ge0.
  rewrite /=. split.
  + by rewrite /hc tr_scalar_mx map_scalar_mx /= (CrealP Br) mul_mx_scalar scalerA mulfV // scale1r.
  + apply: regular_ok => //. exact: svd_full S Ek.
  + move=> r X x Phi [_ E _]. rewrite /hc tr_scalar_mx map_scalar_mx /= (CrealP Br) mul_scalar_mx mulmx1 in E.
    by rewrite -E scalerA mulVf // scale1r.
  + move=> x. rewrite -scalemxAl => /eqP. rewrite scaler_eq0 invr_eq0 (negPf B0) /= => /eqP E. have U := svd_full S Ek. by rewrite -[x]mul1mx -(mulVmx U) -mulmxA E mulmx0.
- have [st0 [st1 [E1 E2]]] : exists st0 st1, (if stab is Some st then st else (None, false)) = (st0, st1) /\ st1 = false.
    case: (stab) Hs => [[a []]|] Hs; [by case: (Hs a)|by exists a, false|by exists None, false].
  rewrite {}E1 {st1}E2 /=. set sq := first_cols _ (\row_j _). set u' := scale_cols (first_cols _ u) sq. set v' := scale_cols _ sq.
  set need := (_ || ~~ good_h _ h). set h' := (if need then _ else _).
  case: ifP => // Hg [<-].
  have Uh : h' \in unitmx.
    apply: (Hh). move: Hg. rewrite /h'. case E: (need); first by move/negbFE. by move: E; rewrite /need => /norP[_ /negPn].
  exists u'. rewrite /=. split.
  + exact: svd_split S.
  + have P := pencil_gen (h := h) (u := u') (v := v') (need := need) Uh.
    case G: (good_b _ _) => //=. apply: pencil_unit => //. exact: Hb G.
  + move=> r X x Phi. exact: core_extract.
  + move=> x E. apply: (svd_inj S _ E). by case: (S).
Qed.
Lemma setup_linsys_ok (svd : forall n, 'M[C]_n -> 'M[C]_n * 'rV[C]_n * 'M[C]_n) (good_h good_b : forall n, 'M[C]_n -> bool) n (h t : 'M[C]_n) stab L :
  svd_of t (svd n t) -> (forall m (A : 'M[C]_m), good_h m A -> A \in unitmx) -> (forall m (A : 'M[C]_m), good_b m A -> A \in unitmx) ->
  (forall s0, stab <> Some (s0, true)) ->
  setup_linsys svd good_h good_b h t stab = inl L -> linsys_ok h t L.
Proof. move=> H1 H2 H3 H4 H5. have [u [E1 E2 E3 _]] := setup_linsys_inj H1 H2 H3 H4 H5. by exists u. Qed.
Lemma core_bloch n k (h t : 'M[C]_n) (u v : 'M[C]_(n, k)) (mu : C) (x : 'cV[C]_(k + k)) Phi : u *m hc v = t -> mu != 0 ->
  core h u v x 1%:M (mu%:M) Phi <-> h *m Phi + mu *: (t *m Phi) + mu^-1 *: (hc t *m Phi) = 0 /\ x = col_mx (hc v *m Phi) (mu^-1 *: (hc u *m Phi)).
Proof.
move=> <- Hm. rewrite hcM hcK -[X in X = col_mx _ _](vsubmxK x) col_eq0. rewrite /core !mul_mx_scalar !scale1r. split.
- case=> E1 E2 E3. split; last by rewrite E2 E3 scalerA mulVf // scale1r.
  rewrite -!mulmxA E2 E3 E1 -!(scalemxAl, scalemxAr) scalerA mulVf // scale1r ?mulmxA. zmod.
- case=> E0 [-> ->]. split=> //; last by rewrite scalerA mulfV // scale1r.
  apply/eqP. rewrite -subr_eq0 -E0 -!(scalemxAl, scalemxAr) !mulmxA. apply/eqP. zmod.
Qed.
Lemma bloch_stateE n (h t : 'M[C]_n) mu (phi : 'cV[C]_n) : mu != 0 -> bloch_state h t mu phi <-> h *m phi + mu *: (t *m phi) + mu^-1 *: (hc t *m phi) = 0.
Proof.
move=> Hm. rewrite /bloch_state /lead_equation -hcE. split=> [H|H j].
- move: (H 0). by rewrite sub0r add0r opprK oppr0 expr0z expr1z exprN1 scale1r -!scalemxAr.
- have Um : mu \is a GRing.unit by rewrite unitfE.
  rewrite opprB opprD [1 - j]addrC !expfzDr // expr1z exprN1 -!scalemxAr -!scalerA -!scalerDr. rewrite H. by rewrite scaler0.
Qed.
End Proofs.
