(** * The clusters of equal eigenvalues. *)
From mathcomp Require Import all_ssreflect all_algebra.
From Verif Require Import LeadsModel.
Set Implicit Arguments. Unset Strict Implicit. Unset Printing Implicit Defensive.
Import Order.Theory GRing.Theory Num.Theory.

Section Intervals.
Variables (T : eqType) (x0 : T) (so : seq T).
Lemma slice_nil b : slice b b so = [::]. Proof. by rewrite /slice subnn take0. Qed.
Lemma nth_slice b c p : b <= p < c -> p < size so -> nth x0 so p \in slice b c so.
Proof.
move=> /andP[H1 H2] Hs. have -> : nth x0 so p = nth x0 (slice b c so) (p - b).
  by rewrite /slice nth_take ?ltn_sub2r ?(leq_ltn_trans H1 H2) // nth_drop subnKC.
apply: mem_nth. by rewrite /slice size_take size_drop; case: ifP => _; rewrite ltn_sub2r //; [exact: leq_ltn_trans H1 H2|exact: leq_ltn_trans H1 Hs].
Qed.
Lemma slice_nth b c x : x \in slice b c so -> exists p, [/\ b <= p, p < c, p < size so & x = nth x0 so p].
Proof.
move/(nthP x0) => [p Hp <-]. rewrite /slice size_take size_drop in Hp.
have [H1 H2] : p < c - b /\ p < size so - b by move: Hp; case: ifP => H1 H2; split=> //; [exact: ltn_trans H2 H1|apply: leq_trans H2 _; rewrite leqNgt H1].
exists (b + p). split; [exact: leq_addr|by rewrite -ltn_subRL|by rewrite -ltn_subRL|by rewrite /slice nth_take // nth_drop].
Qed.
Lemma intervals_mem limit bs idx : idx \in intervals limit so bs -> sorted ltn bs ->
  exists b c, [/\ idx = slice b c so, b \in bs, c \in bs, b < c <= limit & forall d, d \in bs -> (d <= b) || (c <= d)].
Proof.
elim: bs => [//|b [//|c t] IH] /=. case: ltnP => // Hc. rewrite inE => /orP [/eqP ->|H] /andP [Hbc Hs].
- exists b, c. rewrite !inE !eqxx orbT /=. split=> //; first by rewrite Hbc.
  move=> d. rewrite !inE => /orP [/eqP->|/orP[/eqP->|Hd]]; rewrite ?leqnn ?orbT //. apply/orP; right.
  have /allP/(_ d Hd) := order_path_min ltn_trans Hs. exact: ltnW.
- have [b' [c' [E1 E2 E3 E4 E5]]] := IH H Hs. exists b', c'. split=> //; try by rewrite inE ?E2 ?E3 orbT.
  move=> d. rewrite inE => /orP [/eqP->|]; last exact: E5. apply/orP; left.
  move: E2; rewrite inE => /orP [/eqP->|Hd]; first exact: ltnW. have /allP/(_ b' Hd) := order_path_min ltn_trans Hs.
  by move=> Hcb; apply/ltnW/(ltn_trans Hbc).
Qed.
Lemma intervals_flatten limit b bs : sorted ltn (b :: bs) -> limit \in b :: bs -> flatten (intervals limit so (b :: bs)) = slice b limit so.
Proof.
elim: bs b => [|c t IH] b /=.
- by rewrite inE => _ /eqP->; rewrite slice_nil.
- case/andP=> Hbc Hs. rewrite inE => Hl. case: ltnP => Hc.
  + case/orP: Hl => [/eqP->|]; first by rewrite slice_nil. rewrite inE => /orP[/eqP E|Hl]; first by rewrite E ltnn in Hc.
    have /allP/(_ _ Hl) H := order_path_min ltn_trans Hs. by rewrite ltnNge (ltnW Hc) in H.
  + rewrite /= IH //; last first.
      case/orP: Hl => // /eqP E. by rewrite E leqNgt Hbc in Hc.
    rewrite /slice. have -> : drop c so = drop (c - b) (drop b so) by rewrite drop_drop subnK // ltnW.
    have -> : limit - b = (c - b) + (limit - c) by rewrite addnC addnBA ?(ltnW Hbc) // subnK.
    by rewrite takeD.
Qed.
Lemma intervals_join limit b bs p q : sorted ltn (b :: bs) -> limit \in b :: bs -> b <= p -> p <= q -> q < limit -> q < size so ->
  (forall d, d \in b :: bs -> (d <= p) || (q < d)) -> exists2 idx, idx \in intervals limit so (b :: bs) & (nth x0 so p \in idx) && (nth x0 so q \in idx).
Proof.
elim: bs b => [|c t IH] b /=.
- rewrite inE => _ /eqP-> H1 H2 H3. by move: (leq_ltn_trans H1 (leq_ltn_trans H2 H3)); rewrite ltnn.
- case/andP=> Hbc Hs. rewrite inE => Hl Hbp Hpq Hq Hsz Hd.
  have Hcl : c <= limit.
    case/orP: Hl => [/eqP E|]; first by move: (leq_ltn_trans Hbp (leq_ltn_trans Hpq Hq)); rewrite E ltnn.
    rewrite inE => /orP[/eqP->//|Hl]. have /allP/(_ _ Hl) H := order_path_min ltn_trans Hs. exact: ltnW.
  rewrite ltnNge Hcl /=. have := Hd c; rewrite !inE eqxx orbT => /(_ isT) /orP [Hcp|Hqc].
  + have Hl' : limit \in c :: t.
      case/orP: Hl => // /eqP E. by move: (leq_ltn_trans Hbp (leq_ltn_trans Hpq Hq)); rewrite E ltnn.
    have Hd' d : d \in c :: t -> (d <= p) || (q < d) by move=> H; apply: Hd; rewrite inE H orbT.
    have [idx H1 H2] := IH c Hs Hl' Hcp Hpq Hq Hsz Hd'. exists idx => //. by rewrite inE H1 orbT.
  + exists (slice b c so); first by rewrite inE eqxx. by rewrite !nth_slice ?Hbp ?(leq_trans Hbp Hpq) ?(leq_ltn_trans Hpq Hqc) ?Hqc ?(leq_ltn_trans Hpq Hsz).
Qed.
End Intervals.

Lemma uniq_flatten (T : eqType) (ss : seq (seq T)) a b x : uniq (flatten ss) -> a \in ss -> b \in ss -> x \in a -> x \in b -> a = b.
Proof.
elim: ss => [//|c ss IH] /=. rewrite cat_uniq => /and3P [_ /hasPn N U]. rewrite !inE => /orP [/eqP->|Ha] /orP [/eqP->//|Hb] Xa Xb.
- have /N : x \in flatten ss by apply/flattenP; exists b. by rewrite /= Xa.
- have /N : x \in flatten ss by apply/flattenP; exists a. by rewrite /= Xb.
- exact: IH.
Qed.
Section Clusters.
Variables (C : numClosedFieldType) (near : C -> C -> bool) (angle : C -> C) (r : nat) (lam : 'rV[C]_r) (order : seq 'I_r).
Local Open Scope ring_scope.
Hypothesis near_eq : forall i j, near (lam 0 i) (lam 0 j) = (lam 0 i == lam 0 j).
Hypothesis angle_real : forall i, angle (lam 0 i) \is Num.real.
Hypothesis angle_inj : forall i j, angle (lam 0 i) = angle (lam 0 j) -> lam 0 i = lam 0 j.
Hypothesis Hsort : sorted (fun i j => angle (lam 0 i) <= angle (lam 0 j)) order.
Let so := order ++ order.
Local Close Scope ring_scope.
Let R := size order.
Lemma mem_boundaries_near i0 p : (p \in boundaries near lam so) = [&& 0 < p, p < R + R & ~~ near (lam 0%R (nth i0 so p.-1)) (lam 0%R (nth i0 so p))].
Proof.
have Ss : size so = R + R by rewrite size_cat.
have Sb : size (behead so) = (R + R).-1 by rewrite size_behead Ss.
have Sz : size (zip so (behead so)) = (R + R).-1 by rewrite size_zip Sb Ss; apply/minn_idPr/leq_pred.
rewrite /boundaries. apply/mapP/and3P.
- case=> x. rewrite mem_filter => /andP [N /(nthP (0, (i0, i0))) [q]]. rewrite size_zip size_iota Ss Sz => Hq Ex Ep.
  have Hq' : q < (R + R).-1 by apply: leq_trans Hq (geq_minr _ _).
  have E : x = (q, (nth i0 so q, nth i0 so q.+1)).
    rewrite -Ex nth_zip_cond size_zip size_iota ?Ss Sz Hq nth_iota ?(leq_trans Hq (geq_minl _ _)) // add0n.
    by rewrite nth_zip_cond Sz Hq' nth_behead.
  rewrite Ep E /=. move: N; rewrite E /= => N. split=> //. by rewrite -ltn_predRL.
- case: p => [[]//|p [_ Hp N]]. exists (p, (nth i0 so p, nth i0 so p.+1)) => //. rewrite mem_filter /= N /=.
  have Hp' : p < (R + R).-1 by rewrite ltn_predRL.
  have Hp2 : p < minn (R + R) (R + R).-1 by rewrite leq_min Hp' (ltn_trans (ltnSn p) Hp).
  apply/(nthP (0, (i0, i0))). exists p; first by rewrite size_zip size_iota Ss Sz.
  by rewrite nth_zip_cond size_zip size_iota Ss Sz Hp2 nth_iota ?(ltn_trans (ltnSn p) Hp) // add0n nth_zip_cond Sz Hp' nth_behead.
Qed.
Lemma mem_boundaries i0 p : (p \in boundaries near lam so) = [&& 0 < p, p < R + R & lam 0%R (nth i0 so p.-1) != lam 0%R (nth i0 so p)].
Proof. by rewrite (mem_boundaries_near i0) near_eq. Qed.
Lemma sorted_boundaries : sorted ltn (boundaries near lam so).
Proof.
rewrite /boundaries. set f := (fun x => ~~ _). set s := zip (iota 0 (size so)) _.
have : sorted (fun x y => x.1 < y.1) s.
  have -> : sorted (fun x y => x.1 < y.1) s = sorted ltn [seq x.1 | x <- s] by rewrite sorted_map. rewrite /s.
  have K m (z : seq ('I_r * 'I_r)) a : path ltn a [seq x.1 | x <- zip (iota a.+1 m) z] by elim: m z a => [|m IH] [|b z] a //=; rewrite ltnSn IH.
  move: (zip so _) => z. by case: (size so) z => [|m] [|b z] //=; apply: K.
move=> H. rewrite sorted_map. have := sorted_filter (leT := fun x y : nat * ('I_r * 'I_r) => x.1 < y.1) _ f H. apply. by move=> y x z; apply: ltn_trans.
Qed.
Lemma so_l i0 p : p < R -> nth i0 so p = nth i0 order p. Proof. by move=> H; rewrite nth_cat H. Qed.
Lemma so_r i0 p : nth i0 so (R + p) = nth i0 order p. Proof. by rewrite nth_cat ltnNge leq_addr /= addKn. Qed.
Lemma angle_mono i0 p q : p <= q -> q < R -> (angle (lam 0 (nth i0 order p)) <= angle (lam 0 (nth i0 order q)))%R.
Proof.
move=> Hpq Hq. have := sorted_leq_nth (leT := fun i j => (angle (lam 0 i) <= angle (lam 0 j))%R) _ _ i0 Hsort. apply=> //.
- move=> y x z. exact: le_trans.
- by rewrite inE (leq_ltn_trans Hpq Hq).
Qed.
(** equal eigenvalues are next to each other *)
Lemma angle_between i0 p q l : p <= l -> l <= q -> q < R -> lam 0%R (nth i0 order p) = lam 0%R (nth i0 order q) -> lam 0%R (nth i0 order l) = lam 0%R (nth i0 order q).
Proof.
move=> H1 H2 H3 E. apply: angle_inj. apply/eqP. rewrite eq_le (angle_mono i0 H2 H3) -E. by apply: angle_mono => //; apply: leq_ltn_trans H2 H3.
Qed.
Lemma const_run i0 b c : (forall p, b < p -> p < c -> lam 0%R (nth i0 so p.-1) = lam 0%R (nth i0 so p)) -> forall p, b <= p -> p < c -> lam 0%R (nth i0 so p) = lam 0%R (nth i0 so b).
Proof.
move=> H p. elim: p => [|p IH] Hb Hc; first by move: Hb; rewrite leqn0 => /eqP->.
move: Hb. rewrite leq_eqVlt => /orP [/eqP->//|Hb]. rewrite -(H p.+1) //=. apply: IH => //. exact: ltn_trans Hc.
Qed.
(** eigenvalues that are near in a chain that does not close: no cluster at all *)
Lemma chain_clusters i0 : 0 < R -> (forall p, p.+1 < R -> near (lam 0%R (nth i0 order p)) (lam 0%R (nth i0 order p.+1))) ->
  ~~ near (lam 0%R (nth i0 order R.-1)) (lam 0%R (nth i0 order 0)) -> clusters near lam order = [::].
Proof.
move=> R0 Hc Hn. have Eb : boundaries near lam so = [:: R].
  apply: (irr_sorted_eq ltn_trans ltnn sorted_boundaries) => // p. rewrite (mem_boundaries_near i0) inE. apply/idP/eqP.
  - case/and3P=> P0 PR. case: (ltngtP p R) => // H.
    + rewrite !so_l //; last by apply: leq_ltn_trans (leq_pred p) H. case: p P0 PR H => // p _ _ H. by rewrite Hc.
    + have [q Eq] : exists q, p = R + q.+1 by exists (p - R.+1); rewrite -addSnnS subnKC.
      rewrite Eq in PR. rewrite Eq addnS /= -addnS !so_r Hc //. by move: PR; rewrite ltn_add2l.
  - move=> ->. rewrite R0 -{1}[R]addn0 ltn_add2l R0 /=. rewrite so_l ?prednK //. by rewrite -{2}[R]addn0 so_r.
by rewrite /clusters -/so Eb.
Qed.
Hypothesis Huniq : uniq order.
Theorem clusters_spec : perm_eq (flatten (clusters near lam order)) order /\
  forall idx, idx \in clusters near lam order -> forall i, i \in idx -> i \in order -> forall j, j \in order -> (j \in idx) = (lam 0%R i == lam 0%R j).
Proof.
rewrite /clusters -/so. case ER: R => [|R'].
  have E : order = [::] by apply/size0nil. have -> : so = [::] by rewrite /so E. by rewrite E.
have [i0 Hi0] : exists i0, i0 \in order by move: ER; rewrite /R; case: (order) => // a l _; exists a; rewrite mem_head.
have R0 : 0 < R by rewrite ER.
rewrite -/R R0 andbT. case: eqP => [Eb|/eqP Nb].
- rewrite /= add0n ltnn /= cats0. have Es : slice 0 R so = order by rewrite /slice drop0 subn0 take_size_cat.
  rewrite Es. split=> // idx. rewrite inE => /eqP-> i Hi _ j Hj. rewrite Hj. symmetry.
  have A p : 0 < p -> p < R + R -> lam 0%R (nth i0 so p.-1) = lam 0%R (nth i0 so p).
    move=> H1 H2. have := mem_boundaries i0 p. rewrite Eb H1 H2 /= => /esym/negbFE. by move/eqP.
  have A2 l : l \in order -> lam 0%R l = lam 0%R (nth i0 so 0).
    move=> Hl. have Hx : index l order < R by rewrite index_mem.
    rewrite -[l in LHS](nth_index i0 Hl) -(so_l i0 Hx). apply: (const_run (c := R + R)) => //.
    by apply: ltn_trans Hx _; rewrite -[X in X < _]addn0 ltn_add2l.
  by rewrite (A2 i) // (A2 j) // eqxx.
- move: (sorted_boundaries) (mem_boundaries i0) Nb. case: (boundaries near lam so) => [//|b0 bs] Sb Mb _. rewrite -/R [head _ _]/=.
  have Mb0 : b0 \in b0 :: bs by rewrite mem_head.
  have Lb0 p : p \in b0 :: bs -> b0 <= p.
    rewrite inE => /orP[/eqP->//|Hp]. have /allP/(_ _ Hp) := order_path_min ltn_trans Sb. exact: ltnW.
  have B0 : 0 < b0 by move: (Mb b0); rewrite Mb0 => /esym/and3P [].
  have BR : b0 < R.
    rewrite ltnNge. apply/negP => HR.
    have A p : p < R -> lam 0%R (nth i0 so p) = lam 0%R (nth i0 so 0).
      apply: const_run => // p' H1 H2. apply/eqP. rewrite -[_ == _]negbK. apply/negP => N.
      have : p' \in b0 :: bs by rewrite Mb H1 N (leq_trans H2 (leq_addr _ _)).
      move/Lb0. by rewrite leqNgt (leq_trans H2 HR).
    have : b0 \in b0 :: bs by []. rewrite Mb => /and3P [_ H2 /negP []]. apply/eqP.
    have [d Ed] : exists d, b0 = R + d by exists (b0 - R); rewrite subnKC.
    have Hd : d < R by move: H2; rewrite Ed ltn_add2l.
    rewrite Ed so_r -(so_l i0 Hd) (A d Hd). case: (posnP d) => [->|Pd].
    + rewrite addn0 -(A R.-1) ?prednK //.
    + have -> : (R + d).-1 = R + d.-1 by rewrite -subn1 -addnBA // subn1.
      have Hd' : d.-1 < R by apply: leq_ltn_trans (leq_pred d) Hd.
      by rewrite so_r -(so_l i0 Hd') (A _ Hd').
  have ML : b0 + R \in b0 :: bs.
    rewrite Mb addn_gt0 B0 /= ltn_add2r BR /=. move: (Mb b0). rewrite Mb0 => /esym/and3P [_ _].
    rewrite [b0 + R]addnC so_r. have -> : (R + b0).-1 = R + b0.-1 by rewrite -subn1 -addnBA // subn1.
    by rewrite so_r !so_l ?(leq_ltn_trans (leq_pred _) BR).
  have PF : perm_eq (flatten (intervals (b0 + R) so (b0 :: bs))) order.
    rewrite (intervals_flatten so Sb ML) /slice addKn drop_cat BR.
    have -> : take R (drop b0 order ++ order) = drop b0 order ++ take b0 order.
      rewrite take_cat size_drop -/R. have -> : (R < R - b0) = false by apply/negbTE; rewrite -leqNgt leq_subr. by rewrite subKn // ltnW.
    by rewrite perm_catC cat_take_drop.
  split; first exact: PF.
  + move=> idx Hidx i Hi Hio j Hj. have [b [c [E1 Hb Hc /andP[Hbc Hcl] Hd]]] := intervals_mem Hidx Sb.
    have run p : b <= p -> p < c -> lam 0%R (nth i0 so p) = lam 0%R (nth i0 so b).
      apply: const_run => p' H1 H2. apply/eqP. rewrite -[_ == _]negbK. apply/negP => N.
      have : p' \in b0 :: bs.
        rewrite Mb (leq_ltn_trans (leq0n _) H1) N andbT /=. apply: ltn_trans H2 _. apply: leq_ltn_trans Hcl _. by rewrite ltn_add2r.
      move/Hd. by rewrite leqNgt H1 leqNgt H2.
    have [p [P1 P2 P3 P4]] := @slice_nth _ i0 so b c i ltac:(by rewrite -E1).
    apply/idP/idP => [Hji|/eqP E].
    * have [q [Q1 Q2 Q3 Q4]] := @slice_nth _ i0 so b c j ltac:(by rewrite -E1). by rewrite P4 Q4 !run.
    * have reach l : l \in order -> exists q, [/\ b0 <= q, q < b0 + R & l = nth i0 so q].
        move=> Hl. have Hx : index l order < R by rewrite index_mem. case: (leqP b0 (index l order)) => Hb0.
        - exists (index l order). split=> //; first exact: ltn_addl. by rewrite so_l // nth_index.
        - exists (R + index l order). split; [exact: leq_trans (ltnW BR) (leq_addr _ _)|by rewrite addnC ltn_add2r|by rewrite so_r nth_index].
      clear p P1 P2 P3 P4.
      have join p q : b0 <= p -> p <= q -> q < b0 + R -> lam 0%R (nth i0 so p) = lam 0%R (nth i0 so q) -> exists2 idx, idx \in intervals (b0 + R) so (b0 :: bs) & (nth i0 so p \in idx) && (nth i0 so q \in idx).
        move=> H1 H2 H3 El. have Sq : q < size so by rewrite size_cat; apply: ltn_trans H3 _; rewrite ltn_add2r.
        apply: (intervals_join i0 Sb ML H1 H2 H3 Sq) => d Hdb. rewrite leqNgt. case: ltnP => //= Hpd. rewrite ltnNge. apply/negP => Hdq.
        move: Hdb; rewrite Mb => /and3P [D1 D2 /negP []]. apply/eqP.
        have Spd : p <= d.-1 by rewrite -ltnS prednK.
        have Sdq : d.-1 <= q by apply: leq_trans (leq_pred d) Hdq.
        case: (ltnP q R) => Hq.
        - have Hl l : p <= l -> l <= q -> lam 0%R (nth i0 so l) = lam 0%R (nth i0 so q).
            move=> L1 L2. have L3 := leq_ltn_trans L2 Hq. rewrite !so_l //. apply: (angle_between L1 L2 Hq).
            by rewrite -!so_l // (leq_ltn_trans H2).
          by rewrite !Hl // ltnW.
        - have [q' Eq] : exists q', q = R + q' by exists (q - R); rewrite subnKC.
          have Hq' : q' < b0 by move: H3; rewrite Eq addnC ltn_add2r.
          case: (ltnP p R) => Hp.
          + exfalso. move: El. rewrite Eq so_r so_l // => El.
            have L1 := angle_mono i0 H1 Hp. have L2 : q' <= b0.-1 by rewrite -ltnS prednK.
            have Hb1 : b0.-1 < R by exact: leq_ltn_trans (leq_pred _) BR.
            have L3 := angle_mono i0 L2 Hb1. have L4 := angle_mono i0 (leq_pred b0) BR.
            move: (Mb b0). rewrite Mb0 => /esym/and3P [_ _ /negP []]. rewrite !so_l //. apply/eqP/angle_inj/eqP.
            by rewrite eq_le L4 (le_trans L1) // El.
          + have [p' Ep] : exists p', p = R + p' by exists (p - R); rewrite subnKC.
            have Hl l : R + p' <= l -> l <= R + q' -> lam 0%R (nth i0 so l) = lam 0%R (nth i0 so (R + q')).
              move=> L1 L2. have [l' El'] : exists l', l = R + l' by exists (l - R); rewrite subnKC // (leq_trans (leq_addr _ _) L1).
              rewrite El' !so_r. rewrite El' !leq_add2l in L1 L2. apply: (angle_between L1 L2 (ltn_trans Hq' BR)). by move: El; rewrite Ep Eq !so_r.
            rewrite Ep Eq in Hpd Hdq Spd Sdq. by rewrite (Hl d.-1) // (Hl d) // ltnW.
      have [p' [A1 A2 A3]] := reach i Hio. have [q' [B1 B2 B3]] := reach j Hj.
      have [idx' I1 /andP [I2 I3]] : exists2 idx', idx' \in intervals (b0 + R) so (b0 :: bs) & (i \in idx') && (j \in idx').
        rewrite A3 B3. rewrite A3 B3 in E. case: (leqP p' q') => Hpq; first exact: join. have [idx' J1 J2] := join q' p' B1 (ltnW Hpq) A2 (esym E).
        by exists idx' => //; rewrite andbC.
      suff -> : idx = idx' by [].
      have U : uniq (flatten (intervals (b0 + R) so (b0 :: bs))).
        by rewrite (perm_uniq PF).
      exact: uniq_flatten U Hidx I1 Hi I2.
Qed.
End Clusters.
