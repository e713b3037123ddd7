(** * Properties of transform_modes *)
From mathcomp Require Import all_ssreflect all_algebra zify.
From Verif Require Import LeadsSpec.
From Verif Require Import TransformModel.
Set Implicit Arguments. Unset Strict Implicit. Unset Printing Implicit Defensive.
Import GRing.Theory Num.Theory.
Local Open Scope ring_scope.

(** ** Specification *)
Section Spec.
Variable C : numClosedFieldType.
Variables n N k e : nat.
(** exp(-i q) for a momentum q *)
Variable phase : C -> C.
(** [d] describes the propagating modes of the lead with Hamiltonian [h] and hopping [t] *)
Definition valid (h t : 'M[C]_n) (d : modes_data C n N k e) : Prop :=
  let psi j := col j (wave_functions d) in
  let mu j := phase (momenta d 0 j) in
  let v j := velocities d 0 j in
  [/\ forall j, bloch_state h t (mu j) (psi j),
      forall j, v j \is Num.real,
      forall i j, mu i = mu j -> adj (psi i) *m dH_dk t (mu j) *m psi j = (if i == j then Num.sg (v j) else 0)%:M,
      forall i j, mu i = mu j -> adj (psi i) *m psi j = (if i == j then `|v j|^-1 else 0)%:M
    & forall j : 'I_(N + N), ((j < N)%N -> v j < 0) /\ ((N <= j)%N -> 0 < v j)].
(** the stabilized data represent the modes: with a factorization t = u v^+ of the hopping,
    vecslmbdainv = v^+ psi and vecs = u^+ psi(next cell) for the propagating modes psi (times
    [s]) and for a basis Phi K^j of the evanescent ones *)
Definition stabilized (s : C) (h t : 'M[C]_n) (d : modes_data C n N k e) : Prop :=
  let psi j := col j (wave_functions d) in
  let mu j := phase (momenta d 0 j) in
  exists u : 'M[C]_(n, k), [/\ t = u *m adj (sqrt_hop d),
    forall j, col j (lsubmx (vecslmbdainv d)) = s *: (adj (sqrt_hop d) *m psi j),
    forall j, col j (lsubmx (vecs d)) = (s * (mu j)^-1) *: (adj u *m psi j)
  & exists (Phi : 'M[C]_(n, e)) (K : 'M[C]_e),
    [/\ t *m Phi + h *m Phi *m K + adj t *m Phi *m K *m K = 0,
        rsubmx (vecslmbdainv d) = adj (sqrt_hop d) *m Phi & rsubmx (vecs d) = adj u *m Phi *m K]].
(** the Hamiltonian and hopping of the other block *)
Definition image (cc : bool) (s : C) (U A : 'M[C]_n) : 'M[C]_n := s *: (U *m (if cc then conj_mx A else A) *m adj U).
End Spec.

Section Alg.
Variable C : numClosedFieldType.
Lemma adjM m p q (A : 'M[C]_(m, p)) (B : 'M[C]_(p, q)) : adj (A *m B) = adj B *m adj A.
Proof.
apply/matrixP=> i j; rewrite !mxE rmorph_sum; apply: eq_bigr => l _; by rewrite !mxE rmorphM mulrC.
Qed.
Lemma adjK m p (A : 'M[C]_(m, p)) : adj (adj A) = A.
Proof. by apply/matrixP=> i j; rewrite !mxE conjCK. Qed.
Lemma adjZ m p a (A : 'M[C]_(m, p)) : adj (a *: A) = a^* *: adj A.
Proof. by apply/matrixP=> i j; rewrite !mxE rmorphM. Qed.
(** [cv cc] conjugates if [cc] *)
Definition cv (cc : bool) m p (A : 'M[C]_(m, p)) : 'M[C]_(m, p) := if cc then conj_mx A else A.
Definition cs (cc : bool) (x : C) : C := if cc then x^* else x.
Lemma cvM cc m p q (A : 'M[C]_(m, p)) (B : 'M[C]_(p, q)) : cv cc (A *m B) = cv cc A *m cv cc B.
Proof. by case: cc; rewrite /cv // /conj_mx map_mxM. Qed.
Lemma cvD cc m p (A B : 'M[C]_(m, p)) : cv cc (A + B) = cv cc A + cv cc B.
Proof. by case: cc; rewrite /cv // /conj_mx map_mxD. Qed.
Lemma cv0 cc m p : cv cc (0 : 'M[C]_(m, p)) = 0.
Proof. by case: cc; rewrite /cv // /conj_mx map_mx0. Qed.
Lemma cvZ cc m p a (A : 'M[C]_(m, p)) : cv cc (a *: A) = cs cc a *: cv cc A.
Proof. by case: cc; rewrite /cv /cs //; apply/matrixP=> i j; rewrite !mxE rmorphM. Qed.
Lemma cv_adj cc m p (A : 'M[C]_(m, p)) : cv cc (adj A) = adj (cv cc A).
Proof. by case: cc; rewrite /cv //; apply/matrixP=> i j; rewrite !mxE. Qed.
Lemma cv_col cc m p (A : 'M[C]_(m, p)) j : cv cc (col j A) = col j (cv cc A).
Proof. by case: cc; rewrite /cv //; apply/matrixP=> i l; rewrite !mxE. Qed.
Lemma cv_scalar cc m a : cv cc (a%:M : 'M[C]_m) = (cs cc a)%:M.
Proof. by case: cc; rewrite /cv /cs //; apply/matrixP=> i l; rewrite !mxE; case: (i == l); rewrite ?rmorph0. Qed.
Lemma cs_inv cc x : cs cc (x^-1) = (cs cc x)^-1.
Proof. by case: cc; rewrite /cs // fmorphV. Qed.
Lemma cs_exp cc x (z : int) : cs cc (x ^ z) = (cs cc x) ^ z.
Proof. by case: cc; rewrite /cs // fmorphXz. Qed.
Lemma cs_real cc x : x \is Num.real -> cs cc x = x.
Proof. by case: cc => // h; rewrite /cs; apply: CrealP. Qed.
Lemma csK cc x : cs cc (cs cc x) = x.
Proof. by case: cc; rewrite /cs // conjCK. Qed.

Section Image.
Variable n : nat.
Variables (cc : bool) (s : C) (U : 'M[C]_n).
Hypothesis Uu : unitary U.
Hypothesis ss : s = 1 \/ s = -1.
Lemma s_conj : s^* = s.
Proof. by case: ss => ->; rewrite ?rmorphN rmorph1. Qed.
Lemma s_sq : s * s = 1.
Proof. by case: ss => ->; rewrite ?mulrNN mulr1. Qed.
Lemma image_adj A : adj (image cc s U A) = image cc s U (adj A).
Proof. by rewrite /image -!/(cv _ _) adjZ s_conj !adjM adjK cv_adj mulmxA. Qed.
Lemma image_mul A r (x : 'M[C]_(n, r)) : image cc s U A *m (U *m cv cc x) = s *: (U *m cv cc (A *m x)).
Proof.
rewrite /image -!/(cv _ _) -scalemxAl -!mulmxA (mulmxA (adj U)); case: Uu => -> _.
by rewrite mul1mx cvM.
Qed.
Lemma image_bloch h t mu phi : bloch_state h t mu phi ->
  bloch_state (image cc s U h) (image cc s U t) (cs cc mu) (U *m cv cc phi).
Proof.
move=> H j; rewrite image_adj -!cs_exp !scalemxAr -!cvZ !image_mul.
by rewrite -!scalerDr -!mulmxDr -!cvD H cv0 mulmx0 scaler0.
Qed.
Lemma image_overlap r q (x : 'M[C]_(n, r)) (y : 'M[C]_(n, q)) : adj (U *m cv cc x) *m (U *m cv cc y) = cv cc (adj x *m y).
Proof.
rewrite adjM -mulmxA (mulmxA (adj U)); case: Uu => -> _; by rewrite mul1mx cvM cv_adj.
Qed.
Lemma image_velocity t mu r q (x : 'M[C]_(n, r)) (y : 'M[C]_(n, q)) :
  adj (U *m cv cc x) *m dH_dk (image cc s U t) (cs cc mu) *m (U *m cv cc y) =
  (s * (-1) ^+ cc) *: cv cc (adj x *m dH_dk t mu *m y).
Proof.
have e : dH_dk (image cc s U t) (cs cc mu) *m (U *m cv cc y) = (s * (-1) ^+ cc) *: (U *m cv cc (dH_dk t mu *m y)).
  rewrite /dH_dk image_adj mulmxDl -(scalemxAl _ (image cc s U t)) -(scalemxAl _ (image cc s U (adj t))) !image_mul (mulmxDl (_ *: t)) cvD -!scalemxAl !cvZ.
  rewrite mulmxDr -!scalemxAr scalerDr !scalerA; congr (_ *: _ + _ *: _).
  - case: cc; rewrite /cs /= ?mulr1 ?expr1 ?expr0 ?mulr1; last by rewrite mulrC.
    by rewrite rmorphM rmorphN conjCi opprK mulrN1 !mulNr mulrC.
  - case: cc; rewrite /cs /= ?mulr1 ?expr1 ?expr0 ?mulr1; last by rewrite mulrC.
    by rewrite rmorphM conjCi fmorphV mulrN1 !mulNr mulrN opprK mulrC.
by rewrite -mulmxA e -scalemxAr image_overlap mulmxA.
Qed.
End Image.
End Alg.
Section Main.
Variable C : numClosedFieldType.
Variables n N k e : nat.
Variable phase : C -> C.
Hypothesis phN : forall q, phase (- q) = (phase q)^*.
Implicit Type d : modes_data C n N k e.

Definition moved (cc fl : bool) (U : 'M[C]_n) (perm : nat -> nat) d : modes_data C n N k e :=
  let front m (a : 'M[C]_(m, N + N + e)) := row_mx (permuted perm (lsubmx a)) (rsubmx a) in
  ModesData (permuted perm (U *m cv cc (wave_functions d)))
    (permuted perm (if cc then - momenta d else momenta d))
    (permuted perm (if fl != cc then - velocities d else velocities d))
    (front _ (cv cc (vecs d))) (front _ (if fl then - cv cc (vecslmbdainv d) else cv cc (vecslmbdainv d)))
    (U *m cv cc (sqrt_hop d)).

Section Moved.
Variables (cc fl : bool) (U : 'M[C]_n) (perm : nat -> nat) (pp : 'I_(N + N) -> 'I_(N + N)).
Hypothesis Uu : unitary U.
Hypothesis pE : forall j : 'I_(N + N), perm j = pp j.
Hypothesis pI : injective pp.
Hypothesis pH : forall j, (pp j < N)%N = (j < N)%N (+) (fl != cc).
Let s : C := (-1) ^+ fl.
Lemma s_cases : s = 1 \/ s = -1.
Proof. by rewrite /s; case: fl; [right|left]; rewrite ?expr1 ?expr0. Qed.
Lemma permuted_entry m (a : 'M[C]_(m, N + N)) i j : permuted perm a i j = a i (pp j).
Proof. by rewrite mxE pE insubT //= => lt; congr (a i _); exact: val_inj. Qed.
Lemma permuted_col m (a : 'M[C]_(m, N + N)) j : col j (permuted perm a) = col (pp j) a.
Proof. by apply/matrixP=> i l; rewrite mxE permuted_entry [RHS]mxE. Qed.
Variable d : modes_data C n N k e.
Let d' := moved cc fl U perm d.
Lemma psi_moved j : col j (wave_functions d') = U *m cv cc (col (pp j) (wave_functions d)).
Proof. by rewrite /= permuted_col cv_col !colE mulmxA. Qed.
Lemma mu_moved j : phase (momenta d' 0 j) = cs cc (phase (momenta d 0 (pp j))).
Proof. by rewrite /= permuted_entry; case: cc; rewrite ?mxE ?phN. Qed.
Lemma vel_moved j : velocities d' 0 j = (-1) ^+ (fl != cc) * velocities d 0 (pp j).
Proof. by rewrite /= permuted_entry; case: (fl != cc); rewrite ?mxE ?expr1 ?expr0 ?mul1r ?mulN1r. Qed.
Lemma signs : s * (-1) ^+ cc = (-1) ^+ (fl != cc).
Proof. by rewrite /s -signr_addb; case: fl; case: cc. Qed.
Lemma cs_inj (x y : C) : cs cc x = cs cc y -> x = y.
Proof. by move/(congr1 (cs cc)); rewrite !csK. Qed.
Lemma cs0 : cs cc (0 : C) = 0.
Proof. by rewrite /cs; case: cc; rewrite ?rmorph0. Qed.
Lemma sgr_real (x : C) : x \is Num.real -> Num.sg x \is Num.real.
Proof. by move=> h; rewrite sgr_def; case: (_ != 0); case: (_ < 0); rewrite ?mulr1n ?mulr0n ?expr0 ?expr1 ?realN ?real1 ?real0. Qed.
Lemma sgN (x : C) : x \is Num.real -> Num.sg (- x) = - Num.sg x.
Proof.
move=> h; case: (real_ltgtP h (real0 _)) => H.
- by rewrite (ltr0_sg H) gtr0_sg ?oppr_gt0 // opprK.
- by rewrite (gtr0_sg H) ltr0_sg ?oppr_lt0.
- by rewrite H oppr0 sgr0 oppr0.
Qed.

Lemma moved_valid h t : valid phase h t d -> valid phase (image cc s U h) (image cc s U t) d'.
Proof.
case=> B R V O H; split.
- move=> j; rewrite mu_moved psi_moved; exact: (image_bloch cc Uu s_cases (B _)).
- by move=> j; rewrite vel_moved; case: (fl != cc); rewrite ?expr1 ?expr0 ?mul1r ?mulN1r ?rpredN.
- move=> i j; rewrite !mu_moved !psi_moved vel_moved => /cs_inj E.
  rewrite (image_velocity _ Uu s_cases) signs (V _ _ E) cv_scalar (inj_eq pI) scale_scalar_mx.
  case: (i == j); last first.
    by rewrite cs0 mulr0.
  rewrite cs_real ?sgr_real //; case: (fl != cc); rewrite ?expr1 ?expr0 ?mul1r ?mulN1r ?sgN //.
- move=> i j; rewrite !mu_moved !psi_moved vel_moved => /cs_inj E.
  rewrite (image_overlap _ Uu) (O _ _ E) cv_scalar (inj_eq pI).
  case: (i == j); last by rewrite cs0.
  rewrite normrM normr_sign mul1r cs_real // rpredV normr_real //.
- move=> j; rewrite vel_moved; have := pH j; have [Hl Hr] := H (pp j).
  move: Hl Hr; rewrite !(leqNgt N); case: (fl != cc); rewrite ?addbT ?addbF => Hl Hr e2.
    rewrite expr1 mulN1r oppr_lt0 oppr_gt0; split=> h0; [apply: Hr|apply: Hl]; by rewrite e2 ?h0.
  rewrite expr0 mul1r; split=> h0; [apply: Hl|apply: Hr]; by rewrite e2.
Qed.

Lemma moved_stabilized s0 h t : s0 = 1 \/ s0 = -1 -> stabilized phase s0 h t d ->
  stabilized phase (s * s0) (image cc s U h) (image cc s U t) d'.
Proof.
move=> s0s [u [tE lE vE [Phi [K [eqE rE wE]]]]].
have s0c : cs cc s0 = s0 by apply: cs_real; case: s0s => ->; rewrite ?rpredN rpred1.
have sc : s^* = s := s_conj s_cases.
have ssq : s * s = 1 := s_sq s_cases.
have UU : adj U *m U = 1%:M by case: Uu.
exists (s *: (U *m cv cc u)); split.
- rewrite tE /image -/(cv _ _) /= cvM cv_adj -scalemxAl adjM !mulmxA; by [].
- move=> j; rewrite psi_moved /= row_mxKl permuted_col.
  have -> : col (pp j) (lsubmx (if fl then - cv cc (vecslmbdainv d) else cv cc (vecslmbdainv d))) = s *: cv cc (col (pp j) (lsubmx (vecslmbdainv d))).
    rewrite /s /cv; case: fl; case: cc; rewrite ?expr1 ?expr0 ?scaleN1r ?scale1r; by apply/matrixP=> i l; rewrite !mxE.
  by rewrite lE cvZ s0c scalerA cvM cv_adj adjM -mulmxA (mulmxA (adj U)) UU mul1mx.
- move=> j; rewrite mu_moved psi_moved /= row_mxKl permuted_col.
  have -> : col (pp j) (lsubmx (cv cc (vecs d))) = cv cc (col (pp j) (lsubmx (vecs d))).
    rewrite /cv; case: cc => //; by apply/matrixP=> i l; rewrite !mxE.
  rewrite vE cvZ cvM cv_adj adjZ sc adjM -scalemxAl -mulmxA (mulmxA (adj U)) UU mul1mx scalerA.
  congr (_ *: _).
  have -> : cs cc (s0 * (phase (momenta d 0 (pp j)))^-1) = s0 * (cs cc (phase (momenta d 0 (pp j))))^-1.
    by rewrite -cs_inv -{2}s0c; case: cc; rewrite /cs ?rmorphM.
  by rewrite mulrAC -!mulrA mulrC -!mulrA [X in _ = _ * X]mulrCA ssq; rewrite ?mulr1.
- exists (s *: (U *m cv cc Phi)), (cv cc K); split.
  + rewrite image_adj; last exact: s_cases.
    have E1 A (Y : 'M[C]_(n, e)) : image cc s U A *m (s *: (U *m cv cc Y)) = U *m cv cc (A *m Y).
      by rewrite -scalemxAr (@image_mul _ _ cc s U Uu) scalerA ssq scale1r.
    have E3 (Y : 'M[C]_(n, e)) : U *m cv cc Y *m cv cc K = U *m cv cc (Y *m K) by rewrite -mulmxA -cvM.
    by rewrite !E1 !E3 -!mulmxDr -!cvD eqE cv0 mulmx0.
  + rewrite /= row_mxKr.
    have -> : rsubmx (if fl then - cv cc (vecslmbdainv d) else cv cc (vecslmbdainv d)) = s *: cv cc (rsubmx (vecslmbdainv d)).
      rewrite /s /cv; case: fl; case: cc; rewrite ?expr1 ?expr0 ?scaleN1r ?scale1r; by apply/matrixP=> i l; rewrite !mxE.
    by rewrite rE cvM cv_adj adjM -scalemxAr -mulmxA (mulmxA (adj U)) UU mul1mx.
  + rewrite /= row_mxKr.
    have -> : rsubmx (cv cc (vecs d)) = cv cc (rsubmx (vecs d)).
      rewrite /cv; case: cc => //; by apply/matrixP=> i l; rewrite !mxE.
    rewrite wE !cvM cv_adj adjZ sc adjM -!scalemxAl -scalemxAr -scalemxAl scalerA ssq scale1r.
    by rewrite -!mulmxA (mulmxA (adj U)) UU mul1mx.
Qed.
End Moved.
End Main.
(** ** The theorems *)
Section Kinds.
Variable C : numClosedFieldType.
Variables n N k e : nat.
Variable phase : C -> C.
Hypothesis phN : forall q, phase (- q) = (phase q)^*.
Implicit Type d : modes_data C n N k e.
(** partner modes *)
Definition flip_half (j : 'I_(N + N)) : 'I_(N + N) :=
  match split j with inl j' => rshift N j' | inr j' => lshift N j' end.
Definition rev_half (j : 'I_(N + N)) : 'I_(N + N) :=
  match split j with inl j' => lshift N (rev_ord j') | inr j' => rshift N (rev_ord j') end.
Lemma split_lt (j : 'I_(N + N)) (j' : 'I_N) : j = lshift N j' -> split j = inl j'.
Proof. by move=> ->; exact: (unsplitK (inl j')). Qed.
Lemma flip_halfE (j : 'I_(N + N)) : perm_chiral N j = flip_half j.
Proof.
rewrite /perm_chiral /flip_half; case: splitP => j' -> /=.
  by rewrite muln1 modn_small // addnC.
by rewrite muln0 addn0 modnDl modn_small.
Qed.
Lemma rev_halfE (j : 'I_(N + N)) : perm_particle_hole N j = rev_half j.
Proof.
have key : forall j' : 'I_N, absz ((- 1%:Z - (j' : nat)%:Z) %% N%:Z)%Z = (N - j'.+1)%N.
  move=> j'; have -> : - 1%:Z - (j' : nat)%:Z = (- 1) * N%:Z + (N - j'.+1)%N%:Z.
    by have := ltn_ord j'; lia.
  by rewrite modzMDl modz_small //= ltz_nat ltn_subrL /= (leq_ltn_trans _ (ltn_ord j')).
rewrite /perm_particle_hole /rev_half; case: splitP => j' -> /=.
  by rewrite divn_small // muln0 addn0 key.
have N0 : (0 < N)%N by exact: leq_ltn_trans (ltn_ord j').
rewrite divnDl ?dvdnn // divnn N0 divn_small // addn0 muln1 addnC; congr (_ + _)%N.
rewrite -key; congr absz; rewrite PoszD opprD addrA (addrAC _ (- N%:Z)) -[- N%:Z]mulN1r.
by rewrite addrC modzMDl.
Qed.
Lemma flip_half_inj : injective flip_half.
Proof.
apply: (can_inj (g := flip_half)) => j; rewrite {2}/flip_half; case: splitP => j' e1.
  by rewrite /flip_half (unsplitK (inr j')); apply: val_inj.
by rewrite /flip_half (unsplitK (inl j')); apply: val_inj.
Qed.
Lemma rev_half_inj : injective rev_half.
Proof.
apply: (can_inj (g := rev_half)) => j; rewrite {2}/rev_half; case: splitP => j' e1.
  by rewrite /rev_half (unsplitK (inl (rev_ord j'))) rev_ordK; apply: val_inj.
by rewrite /rev_half (unsplitK (inr (rev_ord j'))) rev_ordK; apply: val_inj.
Qed.
Lemma flip_half_lt j : (flip_half j < N)%N = (j < N)%N (+) true.
Proof.
rewrite /flip_half addbT; case: (splitP j) => j' e1 /=; first by rewrite ltnNge leq_addr.
by rewrite ltn_ord.
Qed.
Lemma rev_half_lt j : (rev_half j < N)%N = (j < N)%N (+) false.
Proof.
rewrite /rev_half addbF; case: (splitP j) => j' e1 /=; first by rewrite rev_ord_proof.
by rewrite ltnNge leq_addr.
Qed.
Lemma rev_lt (j : 'I_(N + N)) : (rev_ord j < N)%N = (j < N)%N (+) true.
Proof. rewrite addbT /=; have := ltn_ord j; case: (ltnP j N) => h1 h2 /=; apply/idP; lia. Qed.
Lemma rev_E (j : 'I_(N + N)) : perm_time_reversal N j = rev_ord j.
Proof. by rewrite /perm_time_reversal /= -subnDA add1n. Qed.

(** the modes returned for a block with the Hamiltonian U h U^+, ... are its modes *)
Theorem C72_unitary d h t U tr ph ch : unitary U -> valid phase h t d -> stabilized phase 1 h t d ->
  exists2 d', transform_modes d (Some U) tr ph ch = Some d' &
    valid phase (U *m h *m adj U) (U *m t *m adj U) d' /\
    stabilized phase 1 (U *m h *m adj U) (U *m t *m adj U) d'.
Proof.
move=> Uu V S; exists (moved false false U perm_unitary d); first by [].
have pH (j : 'I_(N + N)) : (j < N)%N = (j < N)%N (+) (false != false) by rewrite addbF.
have pI : injective (fun j : 'I_(N + N) => j) by [].
have pE (j : 'I_(N + N)) : perm_unitary j = j by [].
have := moved_valid phN (cc:=false) (fl:=false) Uu pE pI pH V; have := moved_stabilized phN false false Uu pE (or_introl erefl) S.
by rewrite /image !scale1r mulr1 expr0.
Qed.
Theorem C72_time_reversal d h t U ph ch : unitary U -> valid phase h t d -> stabilized phase 1 h t d ->
  exists2 d', transform_modes d None (Some U) ph ch = Some d' &
    valid phase (U *m conj_mx h *m adj U) (U *m conj_mx t *m adj U) d' /\
    stabilized phase 1 (U *m conj_mx h *m adj U) (U *m conj_mx t *m adj U) d'.
Proof.
move=> Uu V S; exists (moved true false U (perm_time_reversal N) d); first by [].
have := moved_valid phN (cc:=true) (fl:=false) Uu rev_E rev_ord_inj rev_lt V; have := moved_stabilized phN true false Uu rev_E (or_introl erefl) S.
by rewrite /image !scale1r mulr1 expr0.
Qed.
(** for U with an anticommutation relation the stabilized data are those of minus the modes *)
Theorem C72_particle_hole d h t U ch : unitary U -> valid phase h t d -> stabilized phase 1 h t d ->
  exists2 d', transform_modes d None None (Some U) ch = Some d' &
    valid phase (- (U *m conj_mx h *m adj U)) (- (U *m conj_mx t *m adj U)) d' /\
    stabilized phase (-1) (- (U *m conj_mx h *m adj U)) (- (U *m conj_mx t *m adj U)) d'.
Proof.
move=> Uu V S; exists (moved true true U (perm_particle_hole N) d); first by [].
have := moved_valid phN (cc:=true) (fl:=true) Uu rev_halfE rev_half_inj rev_half_lt V; have := moved_stabilized phN true true Uu rev_halfE (or_introl erefl) S.
by rewrite /image !expr1 !scaleN1r mulr1.
Qed.
Theorem C72_chiral d h t U : unitary U -> valid phase h t d -> stabilized phase 1 h t d ->
  exists2 d', transform_modes d None None None (Some U) = Some d' &
    valid phase (- (U *m h *m adj U)) (- (U *m t *m adj U)) d' /\
    stabilized phase (-1) (- (U *m h *m adj U)) (- (U *m t *m adj U)) d'.
Proof.
move=> Uu V S; exists (moved false true U (perm_chiral N) d); first by [].
have := moved_valid phN (cc:=false) (fl:=true) Uu flip_halfE flip_half_inj flip_half_lt V; have := moved_stabilized phN false true Uu flip_halfE (or_introl erefl) S.
by rewrite /image !expr1 !scaleN1r mulr1.
Qed.
(** ... but not those of the modes themselves: the signs of wave functions and stabilized
    data do not match *)
Lemma one_sign d h t : (0 < N)%N -> valid phase h t d -> stabilized phase (-1) h t d -> ~ stabilized phase 1 h t d.
Proof.
move=> N0 [_ _ V _ H] [u [tE l1 _ _]] [_ [_ l2 _ _]].
have NN : (0 < N + N)%N by rewrite addn_gt0 N0.
pose j := Ordinal NN.
have z : adj (sqrt_hop d) *m col j (wave_functions d) = 0.
  have := l1 j; rewrite l2 => /eqP; rewrite scale1r scaleN1r -addr_eq0 -mulr2n => /eqP/matrixP h2.
  apply/matrixP=> a b; have /eqP := h2 a b; rewrite [X in X == _]mulmxnE.
  by rewrite [X in _ == X]mxE mulrn_eq0 /= => /eqP ->; rewrite mxE.
have tz : t *m col j (wave_functions d) = 0 by rewrite tE -mulmxA z mulmx0.
have tz' : adj (col j (wave_functions d)) *m adj t = 0.
  by rewrite -adjM tz; apply/matrixP=> a b; rewrite !mxE rmorph0.
have := V j j erefl; rewrite eqxx /dH_dk mulmxDr mulmxDl -!scalemxAr -!scalemxAl tz' mul0mx -mulmxA tz mulmx0 !scaler0 addr0.
have [Hj _] := H j; move/matrixP/(_ 0 0); rewrite !mxE eqxx mulr1n (ltr0_sg (Hj N0)) => /eqP.
by rewrite eq_sym oppr_eq0 oner_eq0.
Qed.
Theorem C72_sign_refuted d h t U : (0 < N)%N -> unitary U -> valid phase h t d -> stabilized phase 1 h t d ->
  forall d', transform_modes d None None None (Some U) = Some d' ->
    ~ stabilized phase 1 (- (U *m h *m adj U)) (- (U *m t *m adj U)) d'.
Proof.
move=> N0 Uu V S d' E; have [d2 E2 [V2 S2]] := C72_chiral Uu V S.
move: E; rewrite E2 => -[<-]; exact: one_sign N0 V2 S2.
Qed.
End Kinds.
(** ** The order of the modes *)
Section Order.
Variable C : numClosedFieldType.
Variables n N k e : nat.
Implicit Type d : modes_data C n N k e.
(** documentation of PropagatingModes: left-movers in the order of increasing momentum, then
    right-movers in the order of decreasing momentum *)
Definition ordered d : Prop :=
  (forall i j : 'I_(N + N), (i < j)%N -> (j < N)%N -> momenta d 0 i <= momenta d 0 j) /\
  (forall i j : 'I_(N + N), (N <= i)%N -> (i < j)%N -> momenta d 0 j <= momenta d 0 i).
Lemma mom_moved cc fl U (perm : nat -> nat) (pp : 'I_(N + N) -> 'I_(N + N)) d j : (forall j : 'I_(N + N), perm j = pp j) ->
  momenta (moved cc fl U perm d) 0 j = if cc then - momenta d 0 (pp j) else momenta d 0 (pp j).
Proof. by move=> pE; rewrite /= (permuted_entry pE); case: cc; rewrite ?mxE. Qed.
Lemma rev_half_val (j : 'I_(N + N)) : nat_of_ord (rev_half j) = if (j < N)%N then (N - j.+1)%N else (N + (N - (j - N).+1))%N.
Proof. by rewrite /rev_half; case: (splitP j) => j' e1 /=; rewrite e1 ?addKn. Qed.
Theorem C72_order d U tr ph ch d' : ordered d ->
  transform_modes d (Some U) tr ph ch = Some d' \/ transform_modes d None None (Some U) ch = Some d' -> ordered d'.
Proof.
move=> [O1 O2] [[<-]|[<-]].
  rewrite -[ModesData _ _ _ _ _ _]/(moved false false U perm_unitary d).
  have pE (j : 'I_(N + N)) : perm_unitary j = id j by [].
  by split=> i j; rewrite !(mom_moved _ _ _ _ _ pE); [exact: O1|exact: O2].
rewrite -[ModesData _ _ _ _ _ _]/(moved true true U (perm_particle_hole N) d).
split=> i j h1 h2; rewrite !(mom_moved _ _ _ _ _ (@rev_halfE N)) ler_opp2.
  by apply: O1; rewrite ?rev_half_val; have := ltn_ord j; have := ltn_ord i; repeat case: ifP; lia.
by apply: O2; rewrite ?rev_half_val; have := ltn_ord j; have := ltn_ord i; repeat case: ifP; lia.
Qed.
(** modes transformed by time reversal or a chiral symmetry are not in this order *)
Theorem C72_order_refuted d U ph ch d' : (1 < N)%N ->
  (forall i j : 'I_(N + N), (N <= i)%N -> (i < j)%N -> momenta d 0 j < momenta d 0 i) ->
  transform_modes d None (Some U) ph ch = Some d' \/ transform_modes d None None None (Some U) = Some d' -> ~ ordered d'.
Proof.
move=> N1 S.
have h0 : (0 < N + N)%N by lia.
have h1 : (1 < N + N)%N by lia.
move=> [[<-]|[<-]] [O _]; have := O (Ordinal h0) (Ordinal h1) isT N1.
  rewrite -[ModesData _ _ _ _ _ _]/(moved true false U (perm_time_reversal N) d).
  rewrite !(mom_moved _ _ _ _ _ (@rev_E N)) ler_opp2 Order.POrderTheory.lt_geF // S //=; lia.
rewrite -[ModesData _ _ _ _ _ _]/(moved false true U (perm_chiral N) d).
rewrite !(mom_moved _ _ _ _ _ (@flip_halfE N)) Order.POrderTheory.lt_geF //.
have a : nat_of_ord (flip_half (Ordinal h0)) = N.
  by rewrite -flip_halfE /perm_chiral /= mod0n (ltnW N1) muln1.
have b : nat_of_ord (flip_half (Ordinal h1)) = N.+1.
  by rewrite -flip_halfE /perm_chiral /= modn_small // N1 muln1.
by apply: S; rewrite a ?b.
Qed.
End Order.

(** ** Example: a chain at the center of the band *)
Section Example.
Variable C : numClosedFieldType.
Definition phase0 (q : C) : C := if q == 1 then 'i else if q == -1 then - 'i else 1.
Definition sgn (j : 'I_(1 + 1)) : C := if val j == 0%N then -1 else 1.
Definition chain : modes_data C 1 1 1 0 :=
  ModesData (const_mx (sqrtC 2%:R)^-1) (\row_j sgn j) (\row_j (2%:R * sgn j))
    (row_mx (\matrix_(i, j) ((sqrtC 2%:R)^-1 * (- 'i * sgn j))) 0)
    (row_mx (const_mx (sqrtC 2%:R)^-1) 0) 1%:M.
Lemma one_neq : (-1 == 1 :> C) = false.
Proof. by apply/negbTE; rewrite -subr_eq0 -opprD oppr_eq0 -mulr2n pnatr_eq0. Qed.
Lemma mu_chain j : phase0 (momenta chain 0 j) = 'i * sgn j.
Proof.
rewrite /= mxE /phase0 /sgn; case: (val j == 0%N); rewrite ?one_neq ?eqxx ?mulr1 //.
by rewrite mulrN1.
Qed.
Lemma sgn_sq j : sgn j * sgn j = 1. Proof. by rewrite /sgn; case: eqP => _; rewrite ?mulrNN mulr1. Qed.
Lemma mu_inv j : ('i * sgn j)^-1 = - ('i * sgn j) :> C.
Proof.
have nz : 'i * sgn j != 0 by rewrite mulf_neq0 // ?neq0Ci // /sgn; case: ifP => _; rewrite ?oppr_eq0 oner_eq0.
apply: (mulfI nz); rewrite mulfV // mulrN mulrACA sgn_sq mulr1 -expr2 sqrCi opprK //.
Qed.
Lemma phase0_conj q : phase0 (- q) = (phase0 q)^*.
Proof.
rewrite /phase0 eqr_oppLR eqr_opp; case: (q =P 1) => [->|_].
  by rewrite eq_sym one_neq conjCi.
by case: eqP => _; rewrite ?rmorphN ?conjCi ?opprK ?rmorph1.
Qed.
Lemma psi_chain j : col j (wave_functions chain) = const_mx (sqrtC 2%:R)^-1.
Proof. by apply/matrixP=> a b; rewrite !mxE. Qed.
Lemma half : (sqrtC 2%:R)^-1 * (sqrtC 2%:R)^-1 = 2%:R^-1 :> C.
Proof. by rewrite -invfM -expr2 sqrtCK. Qed.
Lemma conj_r : ((sqrtC 2%:R)^-1)^* = (sqrtC 2%:R)^-1 :> C.
Proof. by apply: geC0_conj; rewrite invr_ge0 sqrtC_ge0 ler0n. Qed.
Lemma adj_one : adj 1%:M = 1%:M :> 'M[C]_1.
Proof. by apply/matrixP=> a b; rewrite !ord1 !mxE rmorph1. Qed.
Lemma n2 : (2%:R : C) != 0. Proof. by rewrite pnatr_eq0. Qed.
Lemma dH_chain j : dH_dk (1%:M : 'M[C]_1) ('i * sgn j) = (2%:R * sgn j)%:M.
Proof.
rewrite /dH_dk adj_one mu_inv !scalemx1 -raddfD /=; congr _%:M.
by rewrite mulrN mulNr !mulrA -expr2 sqrCi !mulN1r !opprK -mulr2n mulr_natl.
Qed.
Lemma mu_eq i j : phase0 (momenta chain 0 i) = phase0 (momenta chain 0 j) -> i = j.
Proof.
rewrite !mu_chain => /(mulfI (neq0Ci C)); rewrite /sgn.
case: i => [[|[|//]] hi]; case: j => [[|[|//]] hj] //= /eqP; first by move=> _; apply: val_inj.
- by rewrite one_neq.
- by rewrite eq_sym one_neq.
- by move=> _; apply: val_inj.
Qed.
Lemma chain_valid : valid phase0 0 1%:M chain.
Proof.
split.
- move=> j l; rewrite mu_chain psi_chain mul0mx adj_one !mul1mx add0r -scalerDl.
  set x := 'i * sgn j.
  have nz : x != 0 by rewrite /x mulf_neq0 // ?neq0Ci // /sgn; case: ifP => _; rewrite ?oppr_eq0 oner_eq0.
  rewrite !opprD opprK !expfzDr // expr1z -/(x ^ (-1)) -[x ^ (-1)]/(x^-1) mu_inv -/x mulrN subrr scale0r //.
- by move=> j; rewrite /= mxE rpredM ?rpred_nat // /sgn; case: ifP => _; rewrite ?rpredN rpred1.
- move=> i j /[dup] /mu_eq -> _; rewrite eqxx mu_chain psi_chain dH_chain.
  apply/matrixP=> a b; rewrite !ord1 mul_mx_scalar -scalemxAl !mxE big_ord1 !mxE conj_r half eqxx mulr1n.
  rewrite mulrAC divff ?n2 // mul1r /sgn; case: ifP => _.
    by rewrite mulrN1 ltr0_sg ?oppr_lt0 ?ltr0n.
  by rewrite mulr1 gtr0_sg ?ltr0n.
- move=> i j /[dup] /mu_eq -> _; rewrite eqxx psi_chain.
  apply/matrixP=> a b; rewrite !ord1 !mxE big_ord1 !mxE conj_r half eqxx mulr1n normrM.
  by rewrite (ger0_norm (ler0n _ _)) /sgn; case: ifP => _; rewrite ?normrN normr1 mulr1.
- move=> [[|[|//]] hj]; rewrite /= mxE /sgn /=; split=> // _.
    by rewrite mulrN1 oppr_lt0 ltr0n.
  by rewrite mulr1 ltr0n.
Qed.
Lemma chain_stabilized : stabilized phase0 1 0 1%:M chain.
Proof.
exists 1%:M; split.
- by rewrite /= adj_one mulmx1.
- move=> j; rewrite psi_chain /= row_mxKl adj_one mul1mx scale1r; by apply/matrixP=> a b; rewrite !mxE.
- move=> j; rewrite psi_chain mu_chain mul1r mu_inv /= row_mxKl adj_one mul1mx.
  by apply/matrixP=> a b; rewrite !mxE mulrC !mulNr.
- have z : forall A B : 'M[C]_(1, 0), A = B by move=> A B; apply/matrixP=> a b; case: b.
  exists 0, 0; split; exact: z.
Qed.
(** the hypotheses of the theorems are met; here with the chiral symmetry 1 *)
Example C72_example : exists2 d', transform_modes chain None None None (Some 1%:M) = Some d' & valid phase0 0 (- 1%:M) d'.
Proof.
have Uu : unitary (1%:M : 'M[C]_1) by split; rewrite adj_one mulmx1.
have [d' e [v _]] := C72_chiral phase0_conj Uu chain_valid chain_stabilized.
exists d' => //; by move: v; rewrite mulmx0 mul0mx oppr0 adj_one !mulmx1.
Qed.
End Example.
Print Assumptions C72_unitary.
Print Assumptions C72_time_reversal.
Print Assumptions C72_particle_hole.
Print Assumptions C72_chiral.
Print Assumptions C72_sign_refuted.
Print Assumptions C72_order.
Print Assumptions C72_order_refuted.
Print Assumptions C72_example.
