(** * C69: add_site_family chooses exact data for every commensurate lattice. *)
From Coq Require Import ZArith Lia.
From mathcomp Require Import all_ssreflect all_algebra ssrZ.
From Verif Require Import SymmetryModel SymmetryProofs TsCacheModel TsCacheProps FamilyModel FamilySpec FamilyProofs FamilyLists.
Set Implicit Arguments. Unset Strict Implicit. Unset Printing Implicit Defensive.
Import Order.Theory GRing.Theory Num.Theory.
Local Open Scope ring_scope.

Section Props.
Variable R : realFieldType.
Variables d l : nat.
Variable pinv : 'M[R]_(l.+1, d) -> 'M[R]_(d, l.+1).
Variable round : R -> int.
Variable svd_vh : forall k, 'M[R]_(k, d) -> 'M[R]_(k, d).
Variable norm : 'rV[R]_d -> R.
Variable argmax : ('I_l.+1 -> R) -> 'I_l.+1.
Hypothesis Hpinv : pinv_ok pinv.
Hypothesis Hround : round_ok round.
Hypothesis Hsvd : svd_ok svd_vh.
Hypothesis Hnorm : norm_ok norm.
Hypothesis Hargmax : argmax_ok argmax.
Variable prim : 'M[R]_(l.+1, d).
Hypothesis Hprim : row_free prim.
Notation intmx := (@intmx R _ _).
Notation complete := (complete round svd_vh norm argmax).
Notation add_site_family := (add_site_family pinv round svd_vh norm argmax).
Notation rows_of b := [seq to_row l r | r <- b].

Lemma comb_mx (vectors : mat) (x : seq R) tag : combination l vectors x tag <->
  \row_(j < l.+1) (zn tag j)%:~R = (\row_(i < size (rows_of vectors)) nth 0 x i) *m intmx (stack (rows_of vectors)).
Proof.
have E j : (\row_(i < size (rows_of vectors)) nth 0 x i *m intmx (stack (rows_of vectors))) 0 j = \sum_(i < size vectors) nth 0 x i * (zn (nth [::] vectors i) j)%:~R.
{ rewrite mxE. transitivity (\sum_(i < size (rows_of vectors)) (fun i => nth 0 x i * (zn (nth [::] vectors i) j)%:~R) i); last by rewrite size_map.
  apply: eq_bigr => i _. rewrite !mxE. congr (_ * _). rewrite (nth_map [::]) ?mxE //. by rewrite -(size_map (to_row l)). }
split=> H.
- apply/rowP=> j. by rewrite E mxE H.
- move=> j Hj. have := congr1 (fun A : 'rV[R]_l.+1 => A 0 (Ordinal Hj)) H. by rewrite E mxE.
Qed.
Lemma indep_free (vectors : mat) : lin_indep R l vectors <-> row_free (intmx (stack (rows_of vectors))).
Proof.
split=> [H|H].
- apply: inj_row_free => v Hv. set x := [seq v 0 i | i <- enum 'I_(size (rows_of vectors))].
  have Ex : v = \row_i nth 0 x i. { apply/rowP=> i. by rewrite mxE (nth_map i) ?size_enum_ord // nth_ord_enum. }
  have X := H x. rewrite Ex. apply/rowP=> i. rewrite !mxE. apply: X; first by rewrite size_map size_enum_ord size_map.
  apply/comb_mx. rewrite -Ex Hv. apply/rowP=> j. by rewrite !mxE nth_nil.
- move=> x Hx /comb_mx E i. case: (ltnP i (size x)) => Hi; last by rewrite nth_default.
  have Hi' : (i < size (rows_of vectors))%N by rewrite size_map -Hx.
  have : \row_(i0 < size (rows_of vectors)) nth 0 x i0 = 0.
  { apply/eqP. rewrite -(mulmx_free_eq0 _ H) -E. apply/eqP/rowP=> j. by rewrite !mxE nth_nil. }
  move/(congr1 (fun A : 'rV[R]__ => A 0 (Ordinal Hi'))). by rewrite !mxE.
Qed.
(** what complete returns *)
Lemma complete_spec (b other : mat) :
  (lin_indep R l (b ++ other) /\ exists fd rest, let rows := rows_of (b ++ other) ++ rest in let m := (square rows)^T in
    [/\ complete prim b other = Data fd, size rows = l.+1, row_free (intmx (stack rows)), \det m != 0 &
        fd = family_data (size b) (lists m) (lists (\adj m)) (Z_of_int (\det m))]) \/
  (~ lin_indep R l (b ++ other) /\ complete prim b other = Dependent).
Proof.
rewrite /FamilyModel.complete. set rows := rows_of _. case: ltnP => Hs.
{ right. split=> // /indep_free H. have := rank_leq_col (intmx (stack rows)). by rewrite (eqP H) leqNgt Hs. }
case: ltnP => Hr.
{ right. split=> // /indep_free H. by move: Hr; rewrite -/rows (eqP H) ltnn. }
have HF : row_free (intmx (stack rows)) by rewrite /row_free eqn_leq Hr rank_leq_row.
left. split; first by apply/indep_free. case: (extend_spec Hsvd Hnorm Hargmax Hprim HF (subnKC Hs)) => rest [E1 E2 E3]. rewrite E1 in E2 E3 *.
case: (finish_data Hround (size b) E2 E3) => HD ->. eexists; exists rest; split; first by []. 1,2,3: by [].
rewrite /family_data firstn_take. congr mkFam. by apply/eq_map=> r; rewrite firstn_take.
Qed.
(** the data *)
Section Data.
Variables (b other : mat) (rest : seq 'rV[int]_l.+1).
Notation rows := (rows_of (b ++ other) ++ rest).
Notation m := (square rows)^T.
Notation fd := (family_data (size b) (lists m) (lists (\adj m)) (Z_of_int (\det m))).
Hypothesis Hsize : size rows = l.+1.
Hypothesis HD : \det m != 0.
Lemma b_le : (size b <= l.+1)%N.
Proof. by rewrite -Hsize size_cat size_map size_cat -addnA leq_addr. Qed.
Lemma fd_ok : fam_ok (size b) fd.
Proof. have H := lists_exact HD. have Hb : (size b <= l.+1)%coq_nat := elimT ssrnat.leP b_le. exact (@family_data_ok (size b) l.+1 _ _ _ Hb H). Qed.
Lemma fd_dim : size (m_part fd) = l.+1.
Proof. by rewrite /= map_list size_map lists_size. Qed.
Lemma rows_nth i (j : 'I_l.+1) : (i < size (b ++ other))%N -> nth 0 rows i 0 j = zn (nth [::] (b ++ other) i) j.
Proof. move=> Hi. by rewrite nth_cat size_map Hi (nth_map [::]) // mxE. Qed.
Lemma m_part_row (j : 'I_l.+1) : nth [::] (m_part fd) j = take (size b) (nth [::] (lists m) j).
Proof. rewrite /= (nth_map_in _ [::]) ?lists_size // firstn_take //. Qed.
Lemma m_part_nth (i : nat) (j : 'I_l.+1) : (i < size b)%N -> zn (nth [::] (m_part fd) j) i = zn (nth [::] b i) j.
Proof.
move=> Hi. rewrite m_part_row nth_take //. have Hi' := leq_trans Hi b_le. rewrite (lists_nth m j (Ordinal Hi')) !mxE.
rewrite rows_nth /=; last by rewrite size_cat ltn_addr. by rewrite nth_cat Hi.
Qed.
Lemma act_nth (g : vec) (j : 'I_l.+1) : zn (matvec (m_part fd) g) j = \sum_(i < size b) zn g i * zn (nth [::] b i) j.
Proof.
rewrite matvec_nth (@dot_int (size b)); last by rewrite m_part_row size_takel // lists_row_size // b_le.
apply: eq_bigr => i _. by rewrite m_part_nth // mulrC.
Qed.
Lemma which_nth (tag : vec) i (x : seq R) : (i < size b)%N -> size tag = l.+1 ->
  \row_(j < l.+1) (zn tag j)%:~R = (\row_(k < l.+1) nth 0 x k) *m intmx (square rows) ->
  is_floor (nth Z0 (ts_which fd false tag) i) (nth 0 x i).
Proof.
move=> Hi Ht E. have Hi' := leq_trans Hi b_le. set D := dot (nth [::] (lists (\adj m)) i) tag.
have -> : nth Z0 (ts_which fd false tag) i = Z.div D (Z_of_int (\det m)).
{ rewrite /ts_which (nth_map_in _ Z0); last by rewrite matvec_size /= firstn_take size_takel // lists_size b_le.
  congr Z.div. apply: iZ_inj. by rewrite matvec_nth /= firstn_take nth_take. }
have ED : (iZ D)%:~R = nth 0 x i * (\det m)%:~R.
{ rewrite /D (@dot_int l.+1) ?lists_row_size // rmorph_sum /=.
  have E2 : (\row_(j < l.+1) (zn tag j)%:~R) *m intmx (\adj m)^T = (\det m)%:~R *: \row_(k < l.+1) nth 0 x k.
  { rewrite E -mulmxA (_ : _ *m _ = intmx ((square rows) *m (\adj m)^T)); last by rewrite /FamilyModel.intmx (map_mxM (intmul1_rmorphism R)).
    rewrite trmx_adj trmxK mul_mx_adj det_tr. rewrite (_ : intmx _ = ((\det (square rows))%:~R)%:M); last first.
    { apply/matrixP=> a c; rewrite !mxE. by case: (a == c). }
    by rewrite mul_mx_scalar. }
  have := congr1 (fun A : 'rV[R]_l.+1 => A 0 (Ordinal Hi')) E2. rewrite [X in X = _]mxE [X in _ = X]mxE [X in _ = _ * X]mxE mulrC => <-. apply: eq_bigr => j _.
  rewrite rmorphM /= (lists_nth (\adj m) (Ordinal Hi') j) mulrC [X in _ = X * _]mxE. congr (_ * _). move: (\adj m) => A. by rewrite !mxE. }
set z := Z_of_int (\det m). have Hz : z <> Z0 by move=> Ez; move: HD; rewrite -(Z_of_intK (\det m)) -/z Ez.
have Ez : \det m = iZ z by rewrite Z_of_intK. rewrite Ez in ED.
have [q [r [Eq [Hq Hr]]]] : exists q r, [/\ Z.div D z = q, D = Z.add (Z.mul z q) r & (Z.le 0 r /\ Z.lt r z) \/ (Z.lt z r /\ Z.le r 0)].
{ exists (Z.div D z), (Z.modulo D z). split=> //; first exact: Z_div_mod_eq_full. case: (Z.lt_total z 0) => [H|[//|H]]; [right|left]. exact: Z.mod_neg_bound. exact: Z.mod_pos_bound. }
rewrite Eq. move: ED; rewrite Hq iZD iZM rmorphD rmorphM /= => ED.
have Hz' : (iZ z)%:~R != 0 :> R by rewrite intr_eq0; apply/eqP=> E0; apply: Hz; apply: iZ_inj.
have Ex : nth 0 x i = (iZ q)%:~R + (iZ r)%:~R / (iZ z)%:~R. { apply: (mulIf Hz'). by rewrite -ED mulrDl divfK // mulrC. }
have L : 0 <= ((iZ r)%:~R / (iZ z)%:~R : R) < 1.
{ case: Hr => [] [H1 H2].
  - have Pz : 0 < (iZ z)%:~R :> R by rewrite ltr0z iZ_gt0 //; lia.
    apply/andP; split; first by apply: divr_ge0; [rewrite ler0z iZ_ge0|rewrite ltW].
    by rewrite ltr_pdivr_mulr // mul1r ltr_int iZ_lt.
  - have Pz : (iZ z)%:~R < 0 :> R by rewrite ltrz0 (iZ_lt (b := Z0)) //; lia.
    apply/andP; split; first by apply: mulr_le0; [rewrite lerz0 (iZ_le (b := Z0))|rewrite invr_le0 ltW].
    by rewrite ltr_ndivr_mulr // mul1r ltr_int iZ_lt. }
rewrite /is_floor Ex. by rewrite ler_addl ltr_add2l.
Qed.
End Data.

Lemma position_mx tag : position prim tag = (\row_(j < l.+1) (zn tag j)%:~R) *m prim.
Proof. rewrite mulmx_sum_row. apply: eq_bigr => j _. by rewrite mxE. Qed.
Lemma lattice_mx n (periods : 'M[R]_(n, d)) coords : lattice_vectors prim periods coords ->
  exists N : 'M[int]_(n, l.+1), periods = intmx N *m prim /\ coords = lists N.
Proof.
move=> [Hn H]. exists (\matrix_(i, j) zn (nth [::] coords i) j). split.
- apply/row_matrixP=> i. rewrite (proj2 (H i)) row_mul position_mx. congr (_ *m _). by apply/rowP=> j; rewrite !mxE.
- apply: (@eq_from_nth _ [::]); first by rewrite lists_size. move=> i. rewrite -length_size Hn => Hi.
  apply: eq_zn; first by rewrite lists_row_size // -(proj1 (H (Ordinal Hi))).
  move=> j. rewrite -length_size (proj1 (H (Ordinal Hi))) => Hj. by rewrite (lists_nth _ (Ordinal Hi) (Ordinal Hj)) mxE.
Qed.
Lemma bravais_lattice n (periods : 'M[R]_(n, d)) coords : lattice_vectors prim periods coords -> bravais pinv round prim periods = Some coords.
Proof. move=> /lattice_mx[N [-> ->]]. exact: bravais_exact. Qed.
Lemma bravais_spec n (periods : 'M[R]_(n, d)) b : bravais pinv round prim periods = Some b ->
  exists N : 'M[int]_(n, l.+1), b = lists N /\ forall i k,
    `|periods i k - (intmx N *m prim) i k| <= default_atol R * (1 + \sum_j `|prim j k|) + default_rtol R * `|periods i k|.
Proof.
rewrite /bravais. case: ifP => // /andP[H1 H2] [<-]. eexists; split; first by []. move=> i k.
set c := periods *m pinv prim in H1 H2 *. set N := roundmx round c.
have -> : periods i k - (intmx N *m prim) i k = - ((c *m prim) i k - periods i k) + ((c - intmx N) *m prim) i k.
{ rewrite mulmxBl [(c *m prim - _) i k]mxE [(- (intmx N *m prim)) i k]mxE. by rewrite opprB addrA subrK. }
apply: le_trans (ler_norm_add _ _) _. rewrite normrN.
have B1 := forallP (forallP H2 i) k. have B2 : `|((c - intmx N) *m prim) i k| <= default_atol R * \sum_j `|prim j k|.
{ rewrite mxE mulr_sumr. apply: le_trans (ler_norm_sum _ _ _) _. apply: ler_sum => j _. rewrite normrM ler_wpmul2r //.
  have := forallP (forallP H1 i) j. by rewrite mul0r addr0 !mxE. }
rewrite mulrDr mulr1. apply: le_trans (ler_add B1 B2) _. by rewrite addrAC.
Qed.

(** ** Lattices with commensurate periods are accepted *)
(** If the periods are lattice vectors, then a family is accepted if and only if the
    periods and other_vectors are linearly independent *)
Theorem C69_accepts n (periods : 'M[R]_(n, d)) coords other : lattice_vectors prim periods coords ->
  (lin_indep R l (coords ++ other) -> exists fd, add_site_family prim periods other = Some (Data fd)) /\
  (~ lin_indep R l (coords ++ other) -> add_site_family prim periods other = Some Dependent).
Proof.
move=> H. rewrite /FamilyModel.add_site_family (bravais_lattice H). case: (complete_spec coords other) => [[I [fd [rest [E _ _ _ _]]]]|[I E]]; split=> // J.
- by exists fd; rewrite E.
- by rewrite E.
Qed.
(** Without other_vectors: always *)
Theorem C69_automatic n (periods : 'M[R]_(n, d)) coords : row_free periods -> lattice_vectors prim periods coords ->
  exists fd, add_site_family prim periods [::] = Some (Data fd).
Proof.
move=> HP H. apply: (proj1 (C69_accepts [::] H)). rewrite cats0. have [N [E EN]] := lattice_mx H.
move=> x Hx HC i. case: (ltnP i (size x)) => Hi; last by rewrite nth_default.
have Hn : size coords = n := proj1 H. have Hi' : (i < n)%N by rewrite -Hn -Hx.
have Z : (\row_(k < n) nth 0 x k) *m intmx N = 0.
{ apply/rowP=> j. have := HC j (ltn_ord j). rewrite nth_nil -[iZ Z0]/(0 : int) mulr0z => EZ. rewrite mxE [RHS]mxE [RHS]EZ Hn. apply: eq_bigr => k _. by rewrite !mxE EN lists_nth. }
have : (\row_(k < n) nth 0 x k) *m periods == 0 by rewrite E mulmxA Z mul0mx.
rewrite mulmx_free_eq0 // => /eqP/rowP/(_ (Ordinal Hi')). by rewrite !mxE.
Qed.
(** The choice of the data never fails (RuntimeError, AssertionError) *)
Theorem C69_never_fails n (periods : 'M[R]_(n, d)) other : add_site_family prim periods other <> Some Failed.
Proof.
rewrite /FamilyModel.add_site_family. case: (bravais _ _ _ _) => // b [E]. case: (complete_spec b other) => [[_ [fd [rest [E' _ _ _ _]]]]|[_ E']]; by rewrite E' in E.
Qed.
Lemma complete_columns (b other : mat) fd : (forall r, List.In r b -> size r = l.+1) -> complete prim b other = Data fd -> fam_ok (size b) fd /\ columns l.+1 fd b.
Proof.
move=> Hb E. case: (complete_spec b other) => [[_ [fd' [rest [E' Hs _ HD Efd]]]]|[_ E']]; rewrite E' in E => //. case: E => E. rewrite E in Efd. split; first by rewrite Efd; apply: fd_ok.
have HM g : size (matvec (m_part fd) g) = l.+1 by rewrite matvec_size Efd fd_dim.
split; first by rewrite Efd; apply: fd_dim. move=> g tag Hg Ht. have Hr : forall r, List.In r b -> size r = size tag by move=> r /Hb ->.
apply: eq_zn; first by rewrite vadd_size ?translate_size // HM.
move=> j. rewrite vadd_size ?HM // => Hj. rewrite vadd_nth ?HM // (translate_nth _ _ Hr (leqnn _)). congr (_ + _).
rewrite -length_size Ht in Hj. rewrite Efd. exact: (act_nth Hs g (Ordinal Hj)).
Qed.

(** ** The data are exact *)
(** Accepted periods are lattice vectors up to the tolerances; the data satisfy the
    conditions of C14; act adds the tags of these lattice vectors *)
Theorem C69_data n (periods : 'M[R]_(n, d)) other fd : add_site_family prim periods other = Some (Data fd) ->
  fam_ok n fd /\ exists coords : mat, length coords = n /\
  (forall i : 'I_n, length (nth [::] coords i) = l.+1 /\ forall k,
     `|periods i k - position prim (nth [::] coords i) 0 k| <= 10%:R ^- 8 * (1 + \sum_j `|prim j k|) + 10%:R ^- 5 * `|periods i k|) /\
  columns l.+1 fd coords.
Proof.
rewrite /FamilyModel.add_site_family. case EB: (bravais _ _ _ _) => [b|] // [E]. have [N [Eb HN]] := bravais_spec EB.
have Hn : size b = n by rewrite Eb lists_size.
have Hr : forall r, List.In r b -> size r = l.+1 by move=> r /In_mem[i Hi ->]; rewrite Eb lists_row_size -?Hn.
have [F Cl] := complete_columns Hr E. split; first by rewrite -Hn. exists b. split=> //. split=> //.
move=> i. split; first by rewrite Eb; apply: lists_row_size. move=> k. suff -> : position prim (nth [::] b i) 0 k = (intmx N *m prim) i k by exact: HN.
rewrite position_mx !mxE. apply: eq_bigr => j _. by rewrite !mxE Eb lists_nth.
Qed.
(** With lattice vectors as periods the symmetry translates sites by exactly its periods,
    and the reversed symmetry by the opposite *)
Theorem C69_acts n (periods : 'M[R]_(n, d)) coords other fd : lattice_vectors prim periods coords ->
  add_site_family prim periods other = Some (Data fd) -> forall g tag : vec, length g = n -> length tag = l.+1 ->
  position prim (ts_act fd false g tag) = position prim tag + translation periods g /\
  position prim (ts_act fd true g tag) = position prim tag - translation periods g.
Proof.
move=> HL. rewrite /FamilyModel.add_site_family (bravais_lattice HL) => [[E]] g tag Hg Ht. have [N [EP EN]] := lattice_mx HL.
case: (complete_spec coords other) => [[_ [fd' [rest [E' Hs _ HD Efd]]]]|[_ E']]; rewrite E' in E => //. case: E => E. rewrite E in Efd. have Hn : size coords = n := proj1 HL.
have HV : size (matvec (m_part fd) g) = l.+1 by rewrite matvec_size Efd fd_dim.
have Et : translation periods g = (\row_(j < l.+1) (zn (matvec (m_part fd) g) j)%:~R) *m prim.
{ rewrite (_ : translation periods g = (\row_(i < n) (zn g i)%:~R) *m periods); last by rewrite mulmx_sum_row; apply: eq_bigr => i _; rewrite mxE.
  rewrite EP mulmxA. congr (_ *m _). apply/rowP=> j. rewrite !mxE Efd (act_nth Hs) Hn rmorph_sum /=. apply: eq_bigr => i _. by rewrite !mxE rmorphM /= EN lists_nth. }
rewrite Et !position_mx -mulmxDl -mulmxBl /ts_act. split; congr (_ *m _); apply/rowP=> j; rewrite !mxE vadd_nth ?vneg_size ?HV // ?vneg_nth ?rmorphD ?rmorphN //=.
Qed.
(** The fundamental domain: the group element of a site is given by the integer parts of its
    coefficients in the basis of the periods, other_vectors and further vectors that are
    chosen if these are too few *)
Theorem C69_fundamental_domain n (periods : 'M[R]_(n, d)) coords other fd : lattice_vectors prim periods coords ->
  add_site_family prim periods other = Some (Data fd) ->
  exists chosen : mat, let basis := coords ++ other ++ chosen in length basis = l.+1 /\
  forall tag, length tag = l.+1 -> (exists x : seq R, combination l basis x tag) /\
    forall x : seq R, combination l basis x tag -> length (ts_which fd false tag) = n /\ forall i, (i < n)%N -> is_floor (nth Z0 (ts_which fd false tag) i) (nth 0 x i).
Proof.
move=> HL. rewrite /FamilyModel.add_site_family (bravais_lattice HL) => [[E]]. have Hn : size coords = n := proj1 HL.
case: (complete_spec coords other) => [[_ [fd' [rest [E' Hs HF HD Efd]]]]|[_ E']]; rewrite E' in E => //. case: E => E. rewrite E in Efd.
set rows := _ ++ rest in Hs HF HD Efd. exists [seq [seq Z_of_int ((r : 'rV[int]_l.+1) 0 j) | j <- enum 'I_l.+1] | r <- rest]. set basis := coords ++ _.
have Eb : rows_of basis = rows.
{ rewrite /basis catA map_cat. congr (_ ++ _). rewrite -map_comp -[RHS]map_id. apply: eq_map => r /=. apply/rowP=> j. by rewrite mxE (nth_map j) ?size_enum_ord // nth_ord_enum Z_of_intK. }
have Ls : size basis = l.+1 by rewrite -Hs -Eb size_map. split=> // tag Ht.
have CM (x : seq R) : combination l basis x tag <-> \row_(j < l.+1) (zn tag j)%:~R = (\row_(k < l.+1) nth 0 x k) *m intmx (square rows).
{ have Sq i j : (i < l.+1)%N -> (square rows) (inord i) j = zn (nth [::] basis i) j.
  { move=> Hi. rewrite mxE inordK // -Eb (nth_map [::]) ?Ls // mxE. by []. }
  split=> H.
  - apply/rowP=> j. rewrite mxE (H j (ltn_ord j)) mxE Ls. apply: eq_bigr => i _. by rewrite !mxE -(Sq i) // inord_val !mxE.
  - move=> j Hj. have := congr1 (fun A : 'rV[R]_l.+1 => A 0 (Ordinal Hj)) H. rewrite mxE => ->. rewrite mxE Ls. apply: eq_bigr => i _. by rewrite !mxE -(Sq i (Ordinal Hj)) // inord_val !mxE. }
split.
- have U := square_unit Hs HF. set v := (\row_(j < l.+1) (zn tag j)%:~R) *m invmx (intmx (square rows)).
  exists [seq v 0 i | i <- enum 'I_l.+1]. apply/CM. rewrite [X in _ = X *m _](_ : _ = v); first by rewrite /v mulmxKV.
  apply/rowP=> k. by rewrite mxE (nth_map k) ?size_enum_ord // nth_ord_enum.
- move=> x /CM Hx. split.
  + rewrite /ts_which map_list length_size size_map matvec_size Efd /= firstn_take size_takel ?lists_size //. exact: (b_le Hs).
  + move=> i Hi. rewrite Efd. apply: which_nth => //. by rewrite Hn.
Qed.
(** Opposite periods *)
Lemma bravais_opp n (periods : 'M[R]_(n, d)) : (forall x, round (- x) = - round x) ->
  bravais pinv round prim (- periods) = option_map (List.map vneg) (bravais pinv round prim periods).
Proof.
move=> Ho. rewrite /bravais mulNmx. set c := periods *m _. have Er : roundmx round (- c) = - roundmx round c by apply/matrixP=> i j; rewrite !mxE Ho.
have Ec m1 m2 rt at_ (A B : 'M[R]_(m1, m2)) : allclose rt at_ (- A) (- B) = allclose rt at_ A B.
{ apply: eq_forallb => i. apply: eq_forallb => j. by rewrite !mxE -opprD !normrN. }
rewrite Er mulNmx Ec. have -> : intmx (- roundmx round c) = - intmx (roundmx round c) by apply/matrixP=> i j; rewrite !mxE rmorphN.
rewrite Ec. case: ifP => // _ /=. congr Some. rewrite map_list -map_comp. apply: eq_map => i /=. rewrite /vneg map_list -map_comp. apply: eq_map => j /=. rewrite !mxE. exact: (rmorphN ZInstances.Z_of_int_rmorphism).
Qed.
End Props.

(** ** Histories: the assumptions of C54 hold for these data *)
Section History.
Variable R : realFieldType.
Variable d : nat.
Variable pinv : forall l, 'M[R]_(l.+1, d) -> 'M[R]_(d, l.+1).
Variable round : R -> int.
Variable svd_vh : forall k, 'M[R]_(k, d) -> 'M[R]_(k, d).
Variable norm : 'rV[R]_d -> R.
Variable argmax : forall l, ('I_l.+1 -> R) -> 'I_l.+1.
Hypothesis Hpinv : forall l, pinv_ok (@pinv l).
Hypothesis Hround : round_ok round.
Hypothesis Hodd : forall x, round (- x) = - round x.
Hypothesis Hsvd : svd_ok svd_vh.
Hypothesis Hnorm : norm_ok norm.
Hypothesis Hargmax : forall l, argmax_ok (@argmax l).
(** a family is its lattice; symmetries are made from any number of periods *)
Definition family := {l : nat & 'M[R]_(l.+1, d)}.
Definition period_set := {n : nat & 'M[R]_(n, d)}.
Definition fam_dec (a b : family) : {a = b} + {a <> b} := eq_comparable a b.
Definition opposite (p : period_set) : period_set := Tagged (fun n => 'M[R]_(n, d)) (- tagged p).
Definition fam_bravais (p : period_set) (f : family) : option mat := if row_free (tagged f) then bravais (@pinv _) round (tagged f) (tagged p) else None.
Definition fam_complete (f : family) (b other : mat) : option famdata :=
  if row_free (tagged f) && all (fun r => size r == (tag f).+1) b then
    if complete round svd_vh norm (@argmax _) (tagged f) b other is Data fd then Some fd else None
  else None.
Notation step := (@step family period_set fam_dec opposite (fun p => tag p) fam_bravais fam_complete).
Notation run := (@run family period_set fam_dec opposite (fun p => tag p) fam_bravais fam_complete).
Notation start := (start family period_set).
Lemma opposite_opposite p : opposite (opposite p) = p.
Proof. case: p => n P. by rewrite /opposite /= opprK. Qed.
Lemma fam_bravais_opp p f : fam_bravais (opposite p) f = option_map (List.map vneg) (fam_bravais p f).
Proof. rewrite /fam_bravais. case: ifP => // _. exact: bravais_opp. Qed.
Lemma fam_bravais_len p f b : fam_bravais p f = Some b -> length b = tag p.
Proof. rewrite /fam_bravais. case: ifP => // _. rewrite /bravais. case: ifP => // _ [<-]. exact: lists_size. Qed.
Lemma fam_complete_ok f b other fd : fam_complete f b other = Some fd -> fam_ok (length b) fd /\ columns (tag f).+1 fd b.
Proof.
rewrite /fam_complete. case: ifP => // /andP[HF /allP HB]. case E: (complete _ _ _ _ _ _ _) => [||fd'] // [<-].
have Hr : forall r, List.In r b -> size r = (tag f).+1 by move=> r /In_mem[i Hi ->]; apply/eqP/HB/mem_nth.
exact: (complete_columns Hround Hsvd Hnorm (Hargmax (l:=tag f)) HF Hr E).
Qed.
(** After any history of symmetry objects, reversed copies, added and deleted families
    (families are met first by symmetries that are not reversed), a symmetry moves the sites
    of every lattice by exactly its periods, if they are lattice vectors *)
Theorem C69_history : forall history, @guarded family period_set fam_dec opposite (fun p => tag p) fam_bravais fam_complete start history ->
  let w := fst (run start history) in
  forall i o g (f : family) tg f' tg' coords, List.nth_error (w_objs w) i = Some o -> @first_use_ok family period_set fam_dec w (Act _ i g f tg) ->
  length tg = (tag f).+1 -> row_free (tagged f) -> lattice_vectors (tagged f) (tagged (o_periods o)) coords ->
  snd (step w (Act _ i g f tg)) = RSite f' tg' ->
  f' = f /\ position (tagged f) tg' = position (tagged f) tg + translation (tagged (o_periods o)) g.
Proof.
move=> history HG w i o g f tg f' tg' coords Ho HU Ht HF HL HA.
have [Ef [b [Eb [Lg ->]]]] := @C54_act _ _ fam_dec opposite (fun p => tag p) fam_bravais fam_complete (fun f => (tag f).+1) opposite_opposite fam_bravais_opp fam_bravais_len fam_complete_ok history HG i o g f tg f' tg' Ho HU Ht HA.
split=> //. move: Eb. rewrite /fam_bravais HF (bravais_lattice (Hpinv (l:=tag f)) Hround HF HL) => [[Eb]]. rewrite -{}Eb in Lg *.
have [N [EP EN]] := lattice_mx HL. have Hn : size coords = tag (o_periods o) := proj1 HL.
have Hr : forall r, List.In r coords -> size r = size tg. { move=> r /In_mem[k Hk ->]. rewrite EN lists_row_size -?Hn //. }
have -> : translation (tagged (o_periods o)) g = (\row_(i < tag (o_periods o)) (zn g i)%:~R) *m tagged (o_periods o) by rewrite mulmx_sum_row; apply: eq_bigr => k _; rewrite mxE.
rewrite EP mulmxA !position_mx -mulmxDl. congr (_ *m _). apply/rowP=> j. rewrite !mxE (translate_nth (n := size coords) _ _ Hr) // rmorphD rmorph_sum /= Hn.
congr (_ + _). apply: eq_bigr => k _. by rewrite rmorphM /= !mxE EN lists_nth.
Qed.
End History.

Print Assumptions C69_accepts.
Print Assumptions C69_automatic.
Print Assumptions C69_never_fails.
Print Assumptions C69_data.
Print Assumptions C69_acts.
Print Assumptions C69_fundamental_domain.
Print Assumptions C69_history.
