(** * C60: the eigenproblem of the translation operator of a lead. *)
From mathcomp Require Import all_ssreflect all_algebra all_field.
From Verif Require Import Zmod LeadsModel LeadsSpec LeadsProofs.
Set Implicit Arguments. Unset Strict Implicit. Unset Printing Implicit Defensive.
Import Order.Theory GRing.Theory Num.Theory.
Local Open Scope ring_scope.

Section Props.
Variable C : numClosedFieldType.
Variables (svd : forall n, 'M[C]_n -> 'M[C]_n * 'rV[C]_n * 'M[C]_n) (good_h good_b : forall n, 'M[C]_n -> bool).

(** The eigenvectors of the matrices that setup_linsys returns are the Bloch
    states of the lead: extract maps the eigenvectors with eigenvalue mu
    bijectively to the states psi(j) = phi / mu^j that solve the Schroedinger
    equation of the lead.  This holds whatever kind of problem is chosen. *)
Theorem C60_linsys n (h t : 'M[C]_n) stab L :
  svd_of t (svd t) -> (forall m (A : 'M[C]_m), good_h A -> A \in unitmx) -> (forall m (A : 'M[C]_m), good_b A -> A \in unitmx) ->
  (forall s0, stab <> Some (s0, true)) ->
  setup_linsys svd good_h good_b h t stab = inl L ->
  forall mu, mu != 0 ->
    [/\ forall x, solves L mu x -> bloch_state h t mu (lextract L x (const_mx mu)),
        forall x, solves L mu x -> (lextract L x (const_mx mu) = 0 <-> x = 0)
      & forall phi, bloch_state h t mu phi -> exists x, solves L mu x /\ lextract L x (const_mx mu) = phi].
Proof.
move=> S Hh Hb Hs HL mu Hm. have [u [Euv P Ex]] := setup_linsys_ok S Hh Hb Hs HL.
have Ed : diag_mx (const_mx mu : 'rV[C]_1) = mu%:M by rewrite diag_const_mx.
have F (x : 'cV[C]_(ldim L + ldim L)) : solves L mu x <-> exists Phi, core h u (lv L) x 1%:M mu%:M Phi.
  by rewrite -P mulmx1 /solves mul_mx_scalar.
have G (x : 'cV[C]_(ldim L + ldim L)) (Phi : 'cV[C]_n) : core h u (lv L) x 1%:M mu%:M Phi -> lextract L x (const_mx mu) = Phi.
  rewrite -[X in core _ _ _ _ _ X]Ed. by move/Ex => <-.
split.
- move=> x /F [Phi H]. rewrite (G _ _ H). by move: H => /(core_bloch _ _ _ Euv Hm) [H _]; apply/bloch_stateE.
- move=> x /F [Phi H]. split=> [|->].
  + rewrite (G _ _ H) => E. move: H => /(core_bloch _ _ _ Euv Hm) [_ ->]. by rewrite E !mulmx0 scaler0 col_mx0.
  + apply: G. apply/(core_bloch _ _ _ Euv Hm). by rewrite !mulmx0 !scaler0 !addr0 col_mx0.
- move=> phi /(bloch_stateE _ _ _ Hm) H. exists (col_mx (hc (lv L) *m phi) (mu^-1 *: (hc u *m phi))).
  have K : core h u (lv L) (col_mx (hc (lv L) *m phi) (mu^-1 *: (hc u *m phi))) 1%:M mu%:M phi by apply/(core_bloch _ _ _ Euv Hm).
  split; [by apply/F; exists phi|exact: G].
Qed.

(** With exact tests of singularity, setup_linsys fails for a Hermitian lead
    exactly if there is no hopping or the lead has a flat band at the energy *)
Theorem C60_flat_band n (h t : 'M[C]_n) stab :
  svd_of t (svd t) -> (forall m (A : 'M[C]_m), good_h A = (A \in unitmx)) -> hermitian h -> t != 0 ->
  (exists phi, flat_state h t phi) <-> setup_linsys svd good_h good_b h t stab = inr EFlatBand.
Proof.
move=> S Hh Herm Ht. rewrite /setup_linsys (negPf Ht). move: S. case: (svd t) => [[u s] vh] S.
have nunit (A : 'M[C]_n) : A \notin unitmx <-> exists2 y : 'cV[C]_n, y != 0 & A *m y = 0.
  rewrite -unitmx_tr unitmxE unitfE negbK. split=> [/det0P [v Hv E]|[y Hy E]].
  - exists v^T; first by rewrite trmx_eq0. by apply: trmx_inj; rewrite trmx_mul trmxK E trmx0.
  - apply/det0P. exists y^T; first by rewrite trmx_eq0. by rewrite -trmx_mul E trmx0.
case: ifP => [/andP[/eqP Ek _]|_].
- split=> // -[phi [P _ E _]]. exfalso. have : t \notin unitmx by apply/nunit; exists phi. by rewrite (svd_full S Ek).
- case: (if stab is Some st then st else (None, false)) => st0 st1.
  set sq := first_cols _ (\row_j _). set u' := scale_cols (first_cols _ u) sq. set v' := scale_cols _ sq.
  set need := (_ || ~~ good_h h). set h' := (if need then _ else _).
  have Et : u' *m hc v' = t by exact: svd_split S.
  have K (y : 'cV[C]_n) : (h + 'i *: (u' *m hc u' + v' *m hc v')) *m y = 0 <-> [/\ h *m y = 0, hc u' *m y = 0 & hc v' *m y = 0].
    split; last first.
      case=> E1 E2 E3. by rewrite mulmxDl E1 -scalemxAl mulmxDl -!mulmxA E2 E3 !mulmx0 addr0 scaler0 addr0.
    move=> E. have sq0 m (z : 'cV[C]_m) : (hc z *m z) 0 0 = \sum_i `|z i 0| ^+ 2.
      rewrite mxE. apply: eq_bigr => i _. by rewrite !mxE normCK mulrC.
    have sqp m (z : 'cV[C]_m) : 0 <= \sum_i `|z i 0| ^+ 2 by apply: sumr_ge0 => i _; apply: exprn_ge0.
    have Eq : (hc y *m (h *m y)) 0 0 + 'i * (\sum_i `|(hc u' *m y) i 0| ^+ 2 + \sum_i `|(hc v' *m y) i 0| ^+ 2) = 0.
      rewrite -!sq0 !hcM !hcK.
      have : hc y *m (h *m y) + 'i *: (hc y *m u' *m (hc u' *m y) + hc y *m v' *m (hc v' *m y)) = 0.
        by rewrite -[RHS](mulmx0 _ (hc y)) -E mulmxDl mulmxDr -scalemxAl -scalemxAr mulmxDl mulmxDr !mulmxA.
      move/matrixP/(_ 0 0). rewrite [LHS]mxE [X in _ + X]mxE [X in _ + _ * X]mxE [RHS]mxE. by [].
    have R : (hc y *m (h *m y)) 0 0 \is Num.real.
      apply/CrealP. have <- : hc (hc y *m (h *m y)) 0 0 = ((hc y *m (h *m y)) 0 0)^* by rewrite !mxE.
      by rewrite !hcM hcK (hcE h) Herm mulmxA.
    have Sr : \sum_i `|(hc u' *m y) i 0| ^+ 2 + \sum_i `|(hc v' *m y) i 0| ^+ 2 \is Num.real by rewrite ger0_real // addr_ge0.
    have /eqP := congr1 (fun z => 'Im z) Eq. rewrite raddf0 Im_rect // paddr_eq0 // => /andP [Z1 Z2].
    have Z m (z : 'cV[C]_m) : \sum_i `|z i 0| ^+ 2 == 0 -> z = 0.
      rewrite psumr_eq0; last by move=> i _; apply: exprn_ge0. move/allP => H. apply/matrixP=> i j. rewrite mxE ord1.
      move: (H i (mem_index_enum _)). by rewrite expf_eq0 /= normr_eq0 => /eqP.
    move: Z1 Z2 => /Z Z1 /Z Z2. split=> //. move: E. by rewrite mulmxDl -scalemxAl mulmxDl -!mulmxA Z1 Z2 !mulmx0 addr0 scaler0 addr0.
  split.
  + case=> phi [Hphi E1 E2 E3]. have Nh : ~~ good_h h by rewrite Hh; apply/nunit; exists phi.
    have -> : need by rewrite /need Nh orbT.
    rewrite /= Hh. suff -> : (h' \notin unitmx) = true by []. apply/idP/nunit. exists phi => //. rewrite /h' /need Nh orbT.
    move: E3. rewrite -hcE -Et hcM hcK -mulmxA => E3. move: E2; rewrite -Et -mulmxA => E2. apply/K. split=> //.
    * apply: (svd_inj S _ E3). case: (S) => _ [V1 V2] _ _ _. by split; rewrite -!hcE ?hcK hcE.
    * apply: (svd_inj S _ E2). by case: (S).
  + case: ifP => // /andP [Hn]. rewrite Hh /= => /nunit [y Hy]. rewrite /h' Hn => /K [E1 E2 E3] _. exists y.
    by split=> //; rewrite -?hcE -Et ?hcM ?hcK -mulmxA ?E2 ?E3 mulmx0.
Qed.

(** There is nothing else that can go wrong *)
Theorem C60_errors n (h t : 'M[C]_n) stab :
  (setup_linsys svd good_h good_b h t stab = inr EZeroHop <-> t = 0) /\
  (t <> 0 -> setup_linsys svd good_h good_b h t stab <> inr EFlatBand -> exists L, setup_linsys svd good_h good_b h t stab = inl L).
Proof.
rewrite /setup_linsys. case: (svd t) => [[u s] vh]. case: eqP => [->|Ht]; first by split.
split; first by split=> //; case: ifP => // _; case: (if stab is Some st then st else _) => s0 s1; case: ifP.
move=> _. case: ifP => _; first by move=> _; eexists. case: (if stab is Some st then st else _) => s0 s1; case: ifP => // _ _. by eexists.
Qed.

(** REFUTED: "the second element [of stabilization] set to True forces Kwant to
    solve a generalized eigenvalue problem, and not to reduce it to the regular
    one".  On the contrary, True always reduces to a regular problem, without
    testing that the right hand side is invertible. *)
Theorem C60_stabilization_refuted n (h t : 'M[C]_n) s0 L :
  setup_linsys svd good_h good_b h t (Some (s0, true)) = inl L -> lmatb L = None.
Proof. rewrite /setup_linsys. case: eqP => // _. case: (svd t) => [[u s] vh]. rewrite andbF. by case: ifP => // _ [<-]. Qed.
End Props.

(** A chain with two decoupled orbitals: it has Bloch states with mu = i, and
    every choice of the stabilization finds them *)
Section Example.
Let svd n (A : 'M[algC]_n) : 'M[algC]_n * 'rV[algC]_n * 'M[algC]_n := (1%:M, const_mx 1, A).
Let good n (A : 'M[algC]_n) : bool := A \in unitmx.
Example C60_chain stab : (forall s0, stab <> Some (s0, true)) ->
  exists L, setup_linsys svd good good 0 (1%:M : 'M_2) stab = inl L /\ (exists2 x, x != 0 & solves L 'i x).
Proof.
move=> Hs. have U1 : unitary (1%:M : 'M[algC]_2) by split; rewrite -hcE hc1 mulmx1.
have S : svd_of (1%:M : 'M[algC]_2) (svd 1%:M).
  split=> //; [by rewrite diag_const_mx !mulmx1|by move=> i; rewrite mxE ler01|by move=> i j _; rewrite !mxE].
have H0 : hermitian (0 : 'M[algC]_2) by rewrite /hermitian -hcE hc0.
have N1 : (1%:M : 'M[algC]_2) != 0 by apply/eqP => /matrixP/(_ 0 0)/eqP; rewrite !mxE oner_eq0.
have [L HL] : exists L, setup_linsys svd good good 0 (1%:M : 'M_2) stab = inl L.
  have [_ H] := @C60_errors _ svd good good 2 0 1%:M stab. apply: H; first exact/eqP.
  have [_ H] := @C60_flat_band _ svd good good 2 0 1%:M stab S (fun _ _ => erefl) H0 N1.
  move/H => [phi []]. by rewrite mul1mx => /eqP.
exists L. split=> //. have I0 : 'i != 0 :> algC by rewrite neq0Ci.
have [_ B2 B3] := @C60_linsys _ svd good good 2 0 1%:M stab L S (fun _ _ H => H) (fun _ _ H => H) Hs HL 'i I0.
have Bl : bloch_state 0 1%:M 'i (const_mx 1 : 'cV[algC]_2).
  apply/bloch_stateE => //. by rewrite mul0mx hc1 !mul1mx add0r -scalerDl invCi subrr scale0r.
have [x [Sx Ex]] := B3 _ Bl. exists x => //. apply/eqP => /(B2 _ Sx). rewrite Ex => /matrixP/(_ 0 0)/eqP. by rewrite !mxE oner_eq0.
Qed.
End Example.
