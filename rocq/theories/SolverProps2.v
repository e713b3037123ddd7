(** * C40-C42, C44-C48: scattering states, Green's functions, conservation laws.

    Read with SolverSpec: [scattering] (the equations of a scattering state),
    [unit_mode], [inverse_gf], [gfT] (Fisher-Lee), [current], [unit_currents],
    [lead_current], [mode_lead].  The linear solver is any function that
    returns solutions ([exact_solver]). *)
From Coq Require Import List Bool Arith ZArith Ring Lia Sorted.
From Verif Require Import StarRing SubmatrixModel SolverModel SolverSpec SolverProofs SolverBlocks SolverProps SolverMain SolverGF SolverGF2 SolverGF3 SolverFlux SolverUnitary SolverFisher3 GaussQ QSolve.
Import ListNotations.
Set Implicit Arguments.

Lemma increasing_sorted l : increasing l = true -> StronglySorted Z.lt l.
Proof.
  intros H. apply Sorted_StronglySorted; [intros a b c; apply Z.lt_trans|]. revert H.
  induction l as [|x l IH]; intros H; [constructor|]. destruct l as [|y l]; [repeat constructor|].
  cbn [increasing] in H. apply andb_true_iff in H. destruct H as [H1 H2]. constructor; auto. constructor. apply Z.ltb_lt; auto.
Qed.

Section Props.
Variable R : StarRing.
Add Ring RringSP2 : (r_theory R).
Notation mat := (mat R).
Variable herm_ok : mat -> bool.
Variable solve : mat -> mat -> list nat -> sres mat.
Hypothesis EX : exact_solver solve.
Variable y : syst R.
Hypothesis GS : good_syst y.
Variable en : R.
Notation nl := (length (y_leads y)).
Notation counts := (mode_counts y).
Notation coords := (map (lead_orbs (y_norb y)) (y_leads y)).
Notation sigmas := (map (@l_sigma R) (y_leads y)).

Section Smatrix.
Variables (check : bool) (out inn : option (list Z)) (q : bres R).
Notation o := (lead_list nl out).
Notation i := (lead_list nl inn).
(** Every column is the vector of outgoing amplitudes of a solution of the
    scattering problem whose only incoming wave is the column's mode. *)
Theorem C40_scattering : no_empty_lead y -> nonneg_leads o -> nonneg_leads i -> smatrix herm_ok solve y en out inn check = inl q ->
  mr (q_data q) = length (modes_of counts o) /\ mc (q_data q) = length (modes_of counts i) /\
  (modes_of counts o <> [] -> forall c l b, nth_error (modes_of counts i) c = Some (l, b) ->
     exists psi amp, scattering y en (unit_mode (Z.to_nat l) b) psi amp /\
       forall r l' a, nth_error (modes_of counts o) r = Some (l', a) -> mget (q_data q) r c = amp (Z.to_nat l') a).
Proof.
  intros HN Ho Hi H. destruct (@smatrix_scattering R herm_ok solve EX y GS en check out inn q HN Ho Hi H) as (_ & _ & _ & A & B & C). auto.
Qed.
(** the same block by block: the block from lead b to lead a of the result *)
Theorem C40_submatrix : no_empty_lead y -> nonneg_leads o -> nonneg_leads i -> smatrix herm_ok solve y en out inn check = inl q ->
  forall a b la lb ma mb, In a o -> In b i -> nth_error (y_leads y) (Z.to_nat a) = Some la -> nth_error (y_leads y) (Z.to_nat b) = Some lb ->
  l_modes la = Some ma -> l_modes lb = Some mb ->
  exists s, submatrix q (KLead a) (KLead b) = inl s /\ mr s = m_nprop ma /\ mc s = m_nprop mb /\
    forall c, c < m_nprop mb -> m_nprop ma <> 0 -> exists psi amp, scattering y en (unit_mode (Z.to_nat b) c) psi amp /\
      forall r, r < m_nprop ma -> mget s r c = amp (Z.to_nat a) r.
Proof.
  intros HN Ho Hi H a b la lb ma mb Ia Ib Ea Eb Ma Mb.
  destruct (@smatrix_scattering R herm_ok solve EX y GS en check out inn q HN Ho Hi H) as (Go & Gi & (info & Hinfo & Hlen & Hq) & A & B & C).
  pose proof (@elem_data R counts o i (q_data q) (proj1 Go) (proj1 Gi) A B) as ED.
  clear H. remember o as oo eqn:Eoo. remember i as ii eqn:Eii. clear Eoo Eii.
  rewrite <- Hlen in Go, Gi.
  assert (Hq' := Hq). rewrite <- Hinfo in ED.
  pose proof (sm_init Go Gi Hq') as Q.
  assert (Sa : size counts a = m_nprop ma) by (unfold size, mode_counts; rewrite (nth_error_nth _ _ 0 (map_nth_error lead_nmodes _ _ Ea)); unfold lead_nmodes; rewrite Ma; auto).
  assert (Sb : size counts b = m_nprop mb) by (unfold size, mode_counts; rewrite (nth_error_nth _ _ 0 (map_nth_error lead_nmodes _ _ Eb)); unfold lead_nmodes; rewrite Mb; auto).
  assert (SUB : exists m, submatrix q (KLead a) (KLead b) = inl m /\ mr m = size counts a /\ mc m = size counts b /\
     exists r0 c0, (forall r, r < size counts a -> nth_error (modes_of counts oo) (r0 + r) = Some (a, r)) /\ (forall c, c < size counts b -> nth_error (modes_of counts ii) (c0 + c) = Some (b, c)) /\
     forall r c, r < size counts a -> c < size counts b -> mget m r c = mget (q_data q) (r0 + r) (c0 + c)).
  { rewrite Q. unfold submatrix, out_block_coords, in_block_coords. cbn [q_out q_in q_ooff q_ioff q_oblk q_iblk q_data].
    rewrite Hinfo. apply In_nth_error in Ia, Ib. destruct Ia as (po & Hpo). destruct Ib as (pi & Hpi).
    rewrite (fun z => @coords_lead counts oo z po _ (proj1 Go) Hpo), (fun z => @coords_lead counts ii z pi _ (proj1 Gi) Hpi). cbn [sbind].
    pose proof (startof_le counts oo po Hpo) as Bo. pose proof (startof_le counts ii pi Hpi) as Bi.
    eexists. split; [reflexivity|]. unfold mslice. cbn [mr mc mget]. rewrite A, B.
    destruct (@slice_in (startof counts oo po) (size counts a) (length (modes_of counts oo)) Bo) as [S1 S2].
    destruct (@slice_in (startof counts ii pi) (size counts b) (length (modes_of counts ii)) Bi) as [S3 S4].
    rewrite S1, S2, S3, S4. split; auto. split; auto. exists (startof counts oo po), (startof counts ii pi).
    split; [intros r Hr; apply modes_of_nth; auto|]. split; [intros c Hc; apply modes_of_nth; auto|]. intros; reflexivity. }
  destruct SUB as (m & E1 & M1 & M2 & r0 & c0 & R1 & C1 & M3). exists m. split; auto. split; [lia|]. split; [lia|].
  intros c Hc Hne. assert (NE : modes_of counts oo <> []) by (intros E; specialize (R1 0 ltac:(lia)); rewrite E in R1; destruct (r0 + 0); discriminate R1).
  destruct (C NE _ _ _ (C1 c ltac:(lia))) as (psi & amp & Sc & Am). exists psi, amp. split; auto.
  intros r Hr. rewrite M3 by lia. apply Am. apply R1. lia.
Qed.
(** lists that are empty, unsorted or have duplicates: ValueError; self-energy
    leads or nonexistent leads: an exception *)
Theorem C40_refused :
  (~ (StronglySorted Z.lt o /\ StronglySorted Z.lt i) \/ o = [] \/ i = [] -> smatrix herm_ok solve y en out inn check = inr SValue) /\
  (forall z, In z (i ++ o) -> (Z.of_nat nl <= z)%Z \/ (exists l, (0 <= z)%Z /\ nth_error (y_leads y) (Z.to_nat z) = Some l /\ l_modes l = None) ->
     exists e, smatrix herm_ok solve y en out inn check = inr e).
Proof.
  split.
  - intros H. unfold smatrix, check_lists. cbv zeta. destruct (increasing i && increasing o) eqn:E; [|reflexivity].
    apply andb_true_iff in E. destruct E as [E1 E2]. apply increasing_sorted in E1, E2. cbn [negb].
    destruct H as [H|[->| ->]]; [tauto| |]; destruct i; reflexivity.
  - intros z Hz Hbad. destruct (smatrix herm_ok solve y en out inn check) as [q'|e] eqn:E; [|eauto]. exfalso.
    unfold smatrix in E. cbv zeta in E. apply sbind_inl in E. destruct E as (u & _ & E). apply sbind_inl in E. destruct E as (us & E & _).
    apply smap_inl in E. assert (W : exists u, sbind (stry (pynth (y_leads y) z) SIndex) (fun l => if is_selfenergy_lead l then inr SValue else inl tt) = inl u).
    { clear -E Hz. induction E; [destruct Hz|]. destruct Hz as [<-|Hz]; eauto. }
    destruct W as (u' & W). unfold pynth in W. destruct Hbad as [Hb|(l & Hpos & Hl & Hm)].
    + replace ((0 <=? z)%Z && (z <? Z.of_nat nl)%Z) with false in W by (symmetry; apply andb_false_iff; right; apply Z.ltb_ge; lia).
      replace ((- Z.of_nat nl <=? z)%Z && (z <? 0)%Z) with false in W by (symmetry; apply andb_false_iff; right; apply Z.ltb_ge; lia). discriminate W.
    + assert (Z.to_nat z < nl) by (apply nth_error_Some; congruence).
      replace ((0 <=? z)%Z && (z <? Z.of_nat nl)%Z) with true in W by (symmetry; apply andb_true_iff; split; [apply Z.leb_le|apply Z.ltb_lt]; lia).
      rewrite Hl in W. cbn in W. unfold is_selfenergy_lead in W. rewrite Hm in W. discriminate W.
Qed.
End Smatrix.

(** wave_function(lead): row b is the wave function in the scattering region of
    a scattering state coming in in mode b of the lead. *)
Theorem C41_wave : forall check l w, wave_function herm_ok solve y en check l = inl w ->
  exists ld m, valid_lead nl l /\ nth_error (y_leads y) (Z.to_nat l) = Some ld /\ l_modes ld = Some m /\
  mr w = m_nprop m /\ mc w = mr (y_ham y) /\
  forall b, b < m_nprop m -> exists psi amp, scattering y en (unit_mode (Z.to_nat l) b) psi amp /\ forall x, x < mr (y_ham y) -> mget w b x = psi x.
Proof. exact (wave_scattering herm_ok EX GS en). Qed.

(** ldos: 1/(2 pi) times the sum over all incoming modes of |psi|^2, however
    many right-hand sides are solved at once. *)
Theorem C42_ldos : forall check nrhs, 1 <= nrhs -> forall half norb d, ldos herm_ok solve half nrhs y en check = inl (norb, d) ->
  norb = mr (y_ham y) /\
  exists psi, (forall c l b, nth_error (modes_of counts (all_leads nl)) c = Some (l, b) -> exists amp, scattering y en (unit_mode (Z.to_nat l) b) (psi c) amp) /\
  forall x, x < mr (y_ham y) -> d x = rmul R half (sum R (length (modes_of counts (all_leads nl))) (fun c => rmul R (rconj R (psi c x)) (psi c x))).
Proof. intros check nrhs Hn. exact (ldos_spec herm_ok EX GS en check Hn). Qed.
Theorem C42_refused : forall check nrhs half, check = false \/ (exists l, In l (y_leads y) /\ l_modes l = None) ->
  ldos herm_ok solve half nrhs y en check = inr SNotImplemented.
Proof.
  intros check nrhs half H. unfold ldos. destruct check; [|reflexivity]. cbn [negb]. destruct H as [H|(l & H1 & H2)]; [discriminate|].
  replace (existsb (@is_selfenergy_lead R) (y_leads y)) with true; auto. symmetry. apply existsb_exists. exists l. split; auto. unfold is_selfenergy_lead. rewrite H2. reflexivity.
Qed.

(** ** Green's functions *)
Section GF.
Variable G : nat -> nat -> R.
Hypothesis HG : inverses (mr (y_ham y)) (inverse_gf (mget (y_ham y)) en coords sigmas) G.
Variables (check : bool) (out inn : option (list Z)) (q : bres R).
Notation o := (lead_list nl out).
Notation i := (lead_list nl inn).
Hypothesis (Ho : nonneg_leads o) (Hi : nonneg_leads i).
Hypothesis Hq : greens_function herm_ok solve y en out inn check = inl q.
Variables (nchan nchan_refl : mat -> nat).

(** The data are the elements of G = (E - H - Sigma)^-1 between the interfaces. *)
Theorem C45_data : 
  data_for (map (@mr R) sigmas) (gf_full coords G) o i (q_data q) /\
  (forall a b, In a o -> In b i -> exists g, submatrix q (KLead a) (KLead b) = inl g /\ mr g = length (nth (Z.to_nat a) coords []) /\ mc g = length (nth (Z.to_nat b) coords []) /\
     forall p p', p < mr g -> p' < mc g -> mget g p p' = G (nth p (nth (Z.to_nat a) coords []) 0) (nth p' (nth (Z.to_nat b) coords []) 0)).
Proof.
  destruct (@gf_data R herm_ok solve EX y GS en check out inn q G Ho Hi HG Hq) as (Go & Gi & Gs & Hini & D). split; [exact D|].
  remember o as oo eqn:Eoo. remember i as ii eqn:Eii. clear Eoo Eii.
  intros a b Ia Ib. rewrite <- (map_length (@l_sigma R)) in Go, Gi.
  destruct (gsub Gs check Go Gi D Hini a b Ia Ib) as (m & E & M1 & M2 & M3). exists m. split; auto. split; auto. split; auto. intros p p' Hp Hp'. apply M3; lia.
Qed.
(** transmission between computed leads: the Fisher-Lee formula *)
Theorem C44_value : forall a b, In a o -> In b i -> gf_transmission nchan nchan_refl q a b = inl (gfT coords sigmas G nchan_refl a b).
Proof.
  destruct (@gf_data R herm_ok solve EX y GS en check out inn q G Ho Hi HG Hq) as (Go & Gi & Gs & Hini & D).
  remember o as oo eqn:Eoo. remember i as ii eqn:Eii. clear Eoo Eii.
  rewrite <- (map_length (@l_sigma R)) in Go, Gi. intros a b Ia Ib. unfold gf_transmission.
  rewrite transmission_present; [|rewrite (gf_q _ _ _ Go Gi Hini); auto..]. exact (gf_st_value Gs check Go Gi D Hini nchan_refl a b Ia Ib).
Qed.
Section Herm.
Hypothesis (HH : hermitian_ham y) (Hreal : rconj R en = en).
(** transmissions into, and out of, a lead add up to its number of channels *)
Theorem C44_sums : forall l, valid_lead nl l ->
  lsum R (fun b => gfT coords sigmas G nchan_refl l b) (all_leads nl) = rnat R (nchan_refl (sig sigmas l)) /\
  lsum R (fun a => gfT coords sigmas G nchan_refl a l) (all_leads nl) = rnat R (nchan_refl (sig sigmas l)).
Proof.
  destruct (@gf_data R herm_ok solve EX y GS en check out inn q G Ho Hi HG Hq) as (_ & _ & Gs & _ & _).
  intros l Hl. rewrite <- (map_length (@l_sigma R) (y_leads y)) in Hl |- *. split; [exact (gfT_row Gs HH Hreal HG nchan_refl Hl)|exact (gfT_col Gs HH Hreal HG nchan_refl Hl)].
Qed.
Hypothesis Hch : forall l, In l (y_leads y) -> nchan (l_sigma l) = nchan_refl (l_sigma l).
Lemma Hch' : forall s, In s sigmas -> nchan s = nchan_refl s.
Proof. intros s Hs. apply in_map_iff in Hs. destruct Hs as (l & <- & Hl). auto. Qed.
Theorem C44_deduced : check = true -> forall a b, valid_lead nl a -> valid_lead nl b ->
  (In a o /\ ~ In b i /\ S (length i) = nl) \/ (~ In a o /\ In b i /\ S (length o) = nl) ->
  gf_transmission nchan nchan_refl q a b = inl (gfT coords sigmas G nchan_refl a b).
Proof.
  destruct (@gf_data R herm_ok solve EX y GS en check out inn q G Ho Hi HG Hq) as (Go & Gi & Gs & Hini & D).
  remember o as oo eqn:Eoo. remember i as ii eqn:Eii. clear Eoo Eii.
  rewrite <- (map_length (@l_sigma R) (y_leads y)) in Go, Gi. intros Hc a b Ha Hb H. rewrite <- (map_length (@l_sigma R) (y_leads y)) in Ha, Hb, H.
  exact (gf_deduced Gs Go Gi D Hini nchan nchan_refl HH Hreal HG Hch' Hc Ha Hb H).
Qed.
Theorem C44_conductance : check = true ->
  (forall k j, k < nl -> j < nl -> k <> j -> let a := Z.of_nat k in let b := Z.of_nat j in
     (In a o /\ In b i) \/ (In a o /\ ~ In b i /\ S (length i) = nl) \/ (~ In a o /\ In b i /\ S (length o) = nl)) ->
  exists g, gf_conductance nchan nchan_refl q = inl g /\
    (forall k j, k < nl -> j < nl -> mget g k j =
       if k =? j then rsub R (rnat R (nchan_refl (sig sigmas (Z.of_nat k)))) (gfT coords sigmas G nchan_refl (Z.of_nat k) (Z.of_nat k))
       else ropp R (gfT coords sigmas G nchan_refl (Z.of_nat k) (Z.of_nat j))) /\
    (forall k, k < nl -> sum R nl (fun j => mget g k j) = r0 R) /\ (forall j, j < nl -> sum R nl (fun k => mget g k j) = r0 R).
Proof.
  destruct (@gf_data R herm_ok solve EX y GS en check out inn q G Ho Hi HG Hq) as (Go & Gi & Gs & Hini & D).
  remember o as oo eqn:Eoo. remember i as ii eqn:Eii. clear Eoo Eii.
  rewrite <- (map_length (@l_sigma R) (y_leads y)) in Go, Gi. intros Hc H. rewrite <- (map_length (@l_sigma R) (y_leads y)) in H |- *.
  exact (gf_cond Gs Go Gi D Hini nchan nchan_refl HH Hreal HG Hch' Hc H).
Qed.
End Herm.
End GF.

(** ** Conservation of current *)
Section Conserve.
Hypothesis (HH : hermitian_ham y) (Hreal : rconj R en = en).
Hypothesis UC : forall l m, In l (y_leads y) -> l_modes l = Some m -> unit_currents m.
(** The currents into all leads (self-energy leads included) add up to zero,
    for any two solutions of the scattering problem. *)
Theorem C46_current : forall inc1 inc2 amp1 amp2 psi1 psi2, scattering y en inc1 psi1 amp1 -> scattering y en inc2 psi2 amp2 ->
  lsum R (fun kl => lead_current y inc1 psi1 amp1 inc2 psi2 amp2 (fst kl) (snd kl)) (combine (seq 0 nl) (y_leads y)) = r0 R.
Proof. intros inc1 inc2 amp1 amp2 psi1 psi2; exact (@flux R y GS HH en Hreal UC inc1 inc2 amp1 amp2 psi1 psi2). Qed.
Hypothesis (HN : no_empty_lead y) (NS : forall l, In l (y_leads y) -> l_modes l <> None).
(** The columns of the scattering matrix are orthonormal. *)
Theorem C46_isometry : forall inn check q, nonneg_leads (lead_list nl inn) -> smatrix herm_ok solve y en None inn check = inl q ->
  forall c c' x x', nth_error (modes_of counts (lead_list nl inn)) c = Some x -> nth_error (modes_of counts (lead_list nl inn)) c' = Some x' ->
  sum R (mr (q_data q)) (fun r => rmul R (rconj R (mget (q_data q) r c)) (mget (q_data q) r c')) = if mode_eqb x x' then r1 R else r0 R.
Proof. exact (smatrix_isometry herm_ok EX GS HH Hreal UC HN NS). Qed.
(** Over a field (complex numbers): the full scattering matrix is unitary. *)
Theorem C46_unitary : is_field R -> forall check q, smatrix herm_ok solve y en None None check = inl q ->
  let S := elem counts (all_leads nl) (all_leads nl) (q_data q) in
  data_for counts S (all_leads nl) (all_leads nl) (q_data q) /\ unitary counts S.
Proof. intros HF check q H. exact (smatrix_unitary herm_ok EX GS HH Hreal UC HN NS check HF H). Qed.
(** hence the sum rules of the transmissions, and the conductance matrix *)
Theorem C46_conductance : is_field R -> forall q, smatrix herm_ok solve y en None None true = inl q ->
  exists (t : Z -> Z -> R) g, 
    (forall a b, valid_lead nl a -> valid_lead nl b -> sm_transmission q (KLead a) (KLead b) = inl (t a b)) /\
    (forall l, valid_lead nl l -> lsum R (fun b => t l b) (all_leads nl) = rnat R (size counts l) /\ lsum R (fun a => t a l) (all_leads nl) = rnat R (size counts l)) /\
    sm_conductance q = inl g /\
    (forall k j, k < nl -> j < nl -> mget g k j = if k =? j then rsub R (rnat R (size counts (Z.of_nat k))) (t (Z.of_nat k) (Z.of_nat k)) else ropp R (t (Z.of_nat k) (Z.of_nat j))) /\
    (forall k, k < nl -> sum R nl (fun j => mget g k j) = r0 R) /\ (forall j, j < nl -> sum R nl (fun k => mget g k j) = r0 R).
Proof.
  intros HF q Hq. destruct (C46_unitary HF _ Hq) as (D & U).
  assert (Hnn : nonneg_leads (lead_list nl None)) by (intros z Hz; apply in_map_iff in Hz; destruct Hz as (k & <- & _); lia).
  destruct (@smatrix_scattering R herm_ok solve EX y GS en true None None q HN Hnn Hnn Hq) as (Go & Gi & (info & Hinfo & Hlen & Hini) & _).
  cbn [lead_list] in *.
  assert (Hall' : forall k, k < length info -> In (Z.of_nat k) (all_leads nl)) by (intros k Hk; apply in_map, in_seq; lia).
  set (S := elem counts (all_leads nl) (all_leads nl) (q_data q)) in *.
  assert (Hall : forall z, valid_lead nl z -> In z (all_leads nl)).
  { intros z Hz. unfold valid_lead in Hz. apply in_map_iff. exists (Z.to_nat z). split; [lia|apply in_seq; lia]. }
  remember (all_leads nl) as al eqn:Eal. rewrite <- Hlen in Go, Gi.
  rewrite <- Hinfo in D, U.
  destruct (@C30_unitary R (q_data q) info _ _ true Go Gi S D q Hini eq_refl U) as (g & E1 & E2 & E3 & E4).
  { intros k j Hk Hj Hne. left. auto. }
  exists (T counts S), g. rewrite Hlen in E2, E3, E4. split; [|split].
  - intros a b Ha Hb. rewrite (@C29_computed R (q_data q) info _ _ true Go Gi S D q Hini a b (Hall a Ha) (Hall b Hb)), Hinfo. reflexivity.
  - intros l Hl. assert (Lc : length counts = nl) by (unfold mode_counts; apply map_length).
    rewrite Hinfo in U. split.
    + rewrite Eal, <- Lc. apply T_row; auto. rewrite Lc. auto.
    + rewrite Eal, <- Lc. apply T_col; auto. rewrite Lc. auto.
  - rewrite Hinfo in E2. auto.
Qed.
(** Elements do not depend on which leads were asked for, nor on the solver. *)
Theorem C47_agree : positive R -> forall herm2 solve2, exact_solver solve2 -> forall out1 inn1 check1 q1 out2 inn2 check2 q2,
  nonneg_leads (lead_list nl out1) -> nonneg_leads (lead_list nl inn1) -> nonneg_leads (lead_list nl out2) -> nonneg_leads (lead_list nl inn2) ->
  smatrix herm_ok solve y en out1 inn1 check1 = inl q1 -> smatrix herm2 solve2 y en out2 inn2 check2 = inl q2 ->
  forall x x' r1 c1 r2 c2,
    nth_error (modes_of counts (lead_list nl out1)) r1 = Some x -> nth_error (modes_of counts (lead_list nl inn1)) c1 = Some x' ->
    nth_error (modes_of counts (lead_list nl out2)) r2 = Some x -> nth_error (modes_of counts (lead_list nl inn2)) c2 = Some x' ->
    mget (q_data q1) r1 c1 = mget (q_data q2) r2 c2.
Proof.
  intros P herm2 solve2 EX2 out1 inn1 check1 q1 out2 inn2 check2 q2 N1 N2 N3 N4 H1 H2 x x' r1 c1 r2 c2 X1 X2 X3 X4.
  exact (smatrix_agree herm_ok herm2 EX EX2 GS HH Hreal UC HN NS out1 inn1 check1 out2 inn2 check2 P N1 N2 N3 N4 H1 H2 r1 c1 r2 c2 X1 X2 X3 X4).
Qed.
End Conserve.

(** ** smatrix and greens_function *)
(** Both give the same transmissions, reflections included, if the
    self-energies are those of the modes. *)
Section SG.
Hypothesis HF : is_field R.
Variable lsolve : mat -> mat -> sres mat.
Hypothesis EL : exact_lsolve lsolve.
Hypothesis ML : forall l, In l (y_leads y) -> mode_lead lsolve y l.
Hypothesis HN : no_empty_lead y.
Variable G : nat -> nat -> R.
Hypothesis HG : inverses (mr (y_ham y)) (inverse_gf (mget (y_ham y)) en coords sigmas) G.
Variables (nchan nchan_refl : mat -> nat).
Hypothesis Hch : forall l, In l (y_leads y) -> nchan_refl (l_sigma l) = lead_nmodes l.
Theorem C48_same_transmission : forall herm2 solve2, exact_solver solve2 -> forall out1 inn1 check1 q1 out2 inn2 check2 q2,
  nonneg_leads (lead_list nl out1) -> nonneg_leads (lead_list nl inn1) -> nonneg_leads (lead_list nl out2) -> nonneg_leads (lead_list nl inn2) ->
  smatrix herm_ok solve y en out1 inn1 check1 = inl q1 -> greens_function herm2 solve2 y en out2 inn2 check2 = inl q2 ->
  forall a b, In a (lead_list nl out1) -> In b (lead_list nl inn1) -> In a (lead_list nl out2) -> In b (lead_list nl inn2) ->
  exists t, sm_transmission q1 (KLead a) (KLead b) = inl t /\ gf_transmission nchan nchan_refl q2 a b = inl t.
Proof.
  intros herm2 solve2 EX2 out1 inn1 check1 q1 out2 inn2 check2 q2 N1 N2 N3 N4 H1 H2 a b A1 B1 A2 B2.
  pose proof (smatrix_gfT HF herm_ok EX EL GS ML HN HG nchan_refl Hch check1 out1 inn1 N1 N2 H1 a b A1 B1) as ET.
  destruct (@gf_data R herm2 solve2 EX2 y GS en check2 out2 inn2 q2 G N3 N4 HG H2) as (Go & Gi & Gs & Hini & D).
  remember (lead_list nl out2) as o2 eqn:Eo2. remember (lead_list nl inn2) as i2 eqn:Ei2. clear Eo2 Ei2.
  rewrite <- (map_length (@l_sigma R)) in Go, Gi.
  destruct (@smatrix_scattering R herm_ok solve EX y GS en check1 out1 inn1 q1 HN N1 N2 H1) as (Go1 & Gi1 & (info & Hinfo & Hlen & Hini1) & M1 & M2 & _).
  remember (lead_list nl out1) as o1 eqn:Eo1. remember (lead_list nl inn1) as i1 eqn:Ei1. clear Eo1 Ei1.
  exists (gfT coords sigmas G nchan_refl a b). split.
  - pose proof (@elem_data R counts _ _ (q_data q1) (proj1 Go1) (proj1 Gi1) M1 M2) as ED. rewrite <- Hlen in Go1, Gi1. rewrite <- Hinfo in ED.
    rewrite (@C29_computed R _ info _ _ check1 Go1 Gi1 _ ED q1 Hini1 a b A1 B1), Hinfo. f_equal.
    exact ET.
  - unfold gf_transmission. rewrite transmission_present; [|rewrite (gf_q _ _ _ Go Gi Hini); auto..]. exact (gf_st_value Gs check2 Go Gi D Hini nchan_refl a b A2 B2).
Qed.
End SG.
End Props.

(** ** Concrete cases over the Gaussian rationals (QSolve: a checked solver) *)
Notation Q := GaussQ.
Definition qm (rows : list (list Q)) (nc : nat) : mat Q := mkMat (length rows) nc (fun i j => nth j (nth i rows []) (r0 Q)).
Definition z0 := gq 0 0 1.
(** lead 0: one mode; lead 1: two orbitals, one propagating and one evanescent
    mode; a third lead with a self-energy only *)
Definition ex_m0 : modes Q := @mkModes Q (qm [[gq 1 0 1; gq 1 0 1]] 2) (qm [[gq 0 (-1) 2; gq 0 1 2]] 2) 1 (qm [[gq 1 0 1]] 1) 2 None.
Definition ex_m1 : modes Q :=
  @mkModes Q (qm [[gq 1 0 1; gq 1 0 1; z0]; [z0; z0; gq 1 0 1]] 3) (qm [[gq 0 (-1) 2; gq 0 1 2; z0]; [z0; z0; gq 2 0 1]] 3) 1 (qm [[gq 1 0 1; gq 0 1 1]; [z0; gq 1 0 1]] 2) 2 (Some [1]).
Definition ex_sigma (m : modes Q) : mat Q := match mode_selfenergy qlsolve m with inl s => s | inr _ => qm [] 0 end.
Definition ex_l0 : lead Q := @mkLead Q (Some ex_m0) (ex_sigma ex_m0) [0].
Definition ex_l1 : lead Q := @mkLead Q (Some ex_m1) (ex_sigma ex_m1) [1].
Definition ex_l2 : lead Q := @mkLead Q None (qm [[gq 0 (-1) 1]] 1) [0].
(** two sites with one and two orbitals *)
Definition ex_h : mat Q := qm [[gq 1 0 1; gq 0 1 1; gq 1 1 1]; [gq 0 (-1) 1; z0; gq 2 0 1]; [gq 1 (-1) 1; gq 2 0 1; gq (-1) 0 1]] 3.
Definition ex_y : syst Q := @mkSyst Q ex_h [1; 2] [ex_l0; ex_l1].
Definition ex_y3 : syst Q := @mkSyst Q ex_h [1; 2] [ex_l0; ex_l1; ex_l2].
Definition ex_en : Q := gq 1 0 2.
Ltac qtac := apply qv_inj; vm_compute; reflexivity.
Ltac small i := destruct i as [|i]; [|try lia].
Lemma ex_good : good_syst ex_y /\ good_syst ex_y3.
Proof.
  assert (G0 : good_modes ex_m0) by (repeat split; cbn; auto with arith).
  assert (G1 : good_modes ex_m1) by (repeat split; cbn; auto with arith).
  split; (split; [reflexivity|split; [reflexivity|split]]).
  - intros l [<-|[<-|[]]] i [<-|[]]; cbn; lia.
  - intros l m [<-|[<-|[]]] [= <-]; auto.
  - intros l [<-|[<-|[<-|[]]]] i [<-|[]]; cbn; lia.
  - intros l m [<-|[<-|[<-|[]]]]; cbn; intros E; try discriminate E; injection E as <-; auto.
Qed.
Lemma ex_uc : unit_currents ex_m0 /\ unit_currents ex_m1.
Proof. split; intros j j' Hj Hj'; cbn in Hj, Hj'; repeat (destruct j as [|j]; [|try lia]); repeat (destruct j' as [|j']; [|try lia]); qtac. Qed.
Lemma ex_herm : hermitian_ham ex_y /\ hermitian_ham ex_y3 /\ rconj Q ex_en = ex_en.
Proof. split; [|split; [|qtac]]; intros u v Hu Hv; cbn in Hu, Hv; repeat (destruct u as [|u]; [|try lia]); repeat (destruct v as [|v]; [|try lia]); qtac. Qed.
Lemma ex_leads : no_empty_lead ex_y /\ (forall l, In l (y_leads ex_y) -> l_modes l <> None) /\
  (forall l m, In l (y_leads ex_y) -> l_modes l = Some m -> unit_currents m) /\ (forall l m, In l (y_leads ex_y3) -> l_modes l = Some m -> unit_currents m).
Proof.
  split; [|split; [|split]].
  - intros l m [<-|[<-|[]]] [= <-]; cbn; lia.
  - intros l [<-|[<-|[]]]; discriminate.
  - intros l m [<-|[<-|[]]] [= <-]; apply ex_uc.
  - intros l m [<-|[<-|[<-|[]]]]; cbn; intros E; try discriminate E; injection E as <-; apply ex_uc.
Qed.
Definition ex_inv (A : nat -> nat -> Q) (n : nat) : nat -> nat -> Q := gauss (mkMat n n A) (mkMat n n (delta Q)).
Definition inv_check (n : nat) (A B : nat -> nat -> Q) : bool :=
  forallb (fun i => forallb (fun j => gq_eqb (mul n A B i j) (delta Q i j) && gq_eqb (mul n B A i j) (delta Q i j)) (seq 0 n)) (seq 0 n).
Lemma inv_checked n A B : inv_check n A B = true -> inverses n A B.
Proof.
  intros H i j Hi Hj. unfold inv_check in H. rewrite forallb_forall in H. assert (Ii : In i (seq 0 n)) by (apply in_seq; lia). assert (Ij : In j (seq 0 n)) by (apply in_seq; lia).
  specialize (H i Ii). cbv beta in H. rewrite forallb_forall in H. specialize (H j Ij). apply andb_true_iff in H. destruct H as [H1 H2]. split; apply gq_eqb_eq; auto.
Qed.
Definition isl {A} (x : sres A) : bool := match x with inl _ => true | inr _ => false end.
Lemma ex_mode_leads : forall l, In l (y_leads ex_y) -> mode_lead qlsolve ex_y l.
Proof.
  assert (W : forall m, (exists s, mode_selfenergy qlsolve m = inl s) -> mode_selfenergy qlsolve m = inl (ex_sigma m)) by (intros m (s & E); unfold ex_sigma; rewrite E; reflexivity).
  intros l [<-|[<-|[]]].
  - exists ex_m0. split; [reflexivity|]. split; [apply ex_uc|]. split; [|split; [reflexivity|]].
    + exists (ex_inv (fun k j => mget (m_ulinv ex_m0) k (m_nprop ex_m0 + j)) 1). apply inv_checked. vm_compute. reflexivity.
    + apply W. assert (E : isl (mode_selfenergy qlsolve ex_m0) = true) by (vm_compute; reflexivity). destruct (mode_selfenergy qlsolve ex_m0); [eauto|discriminate].
  - exists ex_m1. split; [reflexivity|]. split; [apply ex_uc|]. split; [|split; [reflexivity|]].
    + exists (ex_inv (fun k j => mget (m_ulinv ex_m1) k (m_nprop ex_m1 + j)) 2). apply inv_checked. vm_compute. reflexivity.
    + apply W. assert (E : isl (mode_selfenergy qlsolve ex_m1) = true) by (vm_compute; reflexivity). destruct (mode_selfenergy qlsolve ex_m1); [eauto|discriminate].
Qed.
Definition ex_G (y : syst Q) : nat -> nat -> Q :=
  ex_inv (inverse_gf (mget (y_ham y)) ex_en (map (lead_orbs (y_norb y)) (y_leads y)) (map (@l_sigma Q) (y_leads y))) 3.
Lemma ex_G_inv : inverses 3 (inverse_gf (mget (y_ham ex_y)) ex_en (map (lead_orbs (y_norb ex_y)) (y_leads ex_y)) (map (@l_sigma Q) (y_leads ex_y))) (ex_G ex_y) /\
  inverses 3 (inverse_gf (mget (y_ham ex_y3)) ex_en (map (lead_orbs (y_norb ex_y3)) (y_leads ex_y3)) (map (@l_sigma Q) (y_leads ex_y3))) (ex_G ex_y3).
Proof. split; apply inv_checked; vm_compute; reflexivity. Qed.

(** The runs succeed. *)
Definition runq {A} (x : sres A) (f : A -> sres Q) := match sbind x f with inl b => Some (qv b) | inr _ => None end.
Notation ok := (fun _ : mat Q => true).
Definition ex_s y out inn := smatrix ok qsolve y ex_en out inn true.
Definition ex_g y out inn := greens_function ok qsolve y ex_en out inn true.
Definition tr (o i : Z) (q : bres Q) := sm_transmission q (KLead o) (KLead i).
Definition gtr (o i : Z) (q : bres Q) := gf_transmission (fun _ => 1) (fun _ => 1) q o i.

Definition rat (a : Z) (b : BinNums.positive) := Some ((a, b), (0%Z, 1%positive)).
Example ex_runs :
  runq (ex_s ex_y None None) (tr 0 0) = rat 1073 13873 /\ runq (ex_s ex_y None None) (tr 0 1) = rat 12800 13873 /\
  runq (ex_s ex_y None (Some [0%Z])) (tr 0 1) = rat 12800 13873 /\                       (* deduced *)
  runq (ex_s ex_y3 (Some [0; 1]%Z) (Some [0]%Z)) (tr 1 0) = rat 12800 24133 /\
  runq (ex_g ex_y None None) (gtr 0 0) = rat 1073 13873 /\ runq (ex_g ex_y None None) (gtr 0 1) = rat 12800 13873 /\
  runq (ex_g ex_y None (Some [0%Z])) (gtr 0 1) = rat 12800 13873 /\                      (* deduced *)
  runq (ex_g ex_y3 None None) (gtr 0 2) = rat 11296 24133 /\
  runq (ex_g ex_y3 None None) (fun q => sbind (gf_conductance (fun _ => 1) (fun _ => 1) q) (fun g => inl (mget g 0 1))) = rat (-12800) 24133 /\
  runq (wave_function ok qsolve ex_y3 ex_en true 1) (fun w => inl (mget w 0 2)) = Some (((-17984)%Z, 24133%positive), ((-3900)%Z, 24133%positive)) /\
  runq (ldos ok qsolve (gq 1 0 2) 1 ex_y ex_en true) (fun d => inl (snd d 1)) = rat 2912 13873 /\
  runq (ldos ok qsolve (gq 1 0 2) 7 ex_y ex_en true) (fun d => inl (snd d 1)) = rat 2912 13873.
Proof. repeat split; vm_compute; reflexivity. Qed.

(** The theorems apply to these runs. *)
Notation ex_nl := (length (y_leads ex_y)).
Example ex_unitary : exists q, smatrix ok qsolve ex_y ex_en None None true = inl q /\
  unitary (mode_counts ex_y) (elem (mode_counts ex_y) (all_leads ex_nl) (all_leads ex_nl) (q_data q)).
Proof.
  assert (E : isl (smatrix ok qsolve ex_y ex_en None None true) = true) by (vm_compute; reflexivity).
  destruct ex_herm as (H1 & _ & H3). destruct ex_leads as (L1 & L2 & L3 & _).
  pose proof (@C46_unitary Q ok qsolve qsolve_exact ex_y (proj1 ex_good) ex_en H1 H3 L3 L1 L2 GaussQ_field true) as C.
  destruct (smatrix ok qsolve ex_y ex_en None None true) as [q|e]; [|discriminate E].
  exists q. split; [reflexivity|]. exact (proj2 (C q eq_refl)).
Qed.
Example ex_same : exists q1 q2 t, smatrix ok qsolve ex_y ex_en (Some [0]%Z) None true = inl q1 /\ greens_function ok qsolve ex_y ex_en None (Some [1]%Z) true = inl q2 /\
  tr 0 1 q1 = inl t /\ gtr 0 1 q2 = inl t.
Proof.
  assert (E : isl (smatrix ok qsolve ex_y ex_en (Some [0]%Z) None true) = true) by (vm_compute; reflexivity).
  assert (E' : isl (greens_function ok qsolve ex_y ex_en None (Some [1]%Z) true) = true) by (vm_compute; reflexivity).
  destruct ex_leads as (L1 & _ & _ & _).
  assert (NN : forall l, In l [[0]; [0; 1]; [1]]%Z -> nonneg_leads l).
  { intros l Hl z Hz. cbn in Hl. repeat (destruct Hl as [<-|Hl]; [cbn in Hz; lia|]). destruct Hl. }
  assert (Hch : forall l, In l (y_leads ex_y) -> (fun _ : mat Q => 1) (l_sigma l) = lead_nmodes l) by (intros l [<-|[<-|[]]]; reflexivity).
  pose proof (@C48_same_transmission Q ok qsolve qsolve_exact ex_y (proj1 ex_good) ex_en GaussQ_field qlsolve qlsolve_exact ex_mode_leads L1 (ex_G ex_y) (proj1 ex_G_inv)
    (fun _ => 1) (fun _ => 1) Hch ok qsolve qsolve_exact (Some [0]%Z) None true) as C.
  destruct (smatrix ok qsolve ex_y ex_en (Some [0]%Z) None true) as [q|e]; [|discriminate E]. specialize (C q None (Some [1]%Z) true).
  destruct (greens_function ok qsolve ex_y ex_en None (Some [1]%Z) true) as [q'|e]; [|discriminate E']. specialize (C q').
  assert (A0 : lead_list ex_nl (Some [0]%Z) = [0]%Z) by reflexivity. assert (A1 : lead_list ex_nl (Some [1]%Z) = [1]%Z) by reflexivity. assert (A2 : lead_list ex_nl None = [0; 1]%Z) by reflexivity.
  rewrite A0, A1, A2 in C.
  destruct (C (NN _ ltac:(left; reflexivity)) (NN _ ltac:(right; left; reflexivity)) (NN _ ltac:(right; left; reflexivity)) (NN _ ltac:(right; right; left; reflexivity)) eq_refl eq_refl 0%Z 1%Z) as (t & T1 & T2); try (cbn; tauto).
  exists q, q', t. split; [reflexivity|]. split; [reflexivity|]. split; [exact T1|exact T2].
Qed.

(** ** What the code gets wrong *)
(** A lead without modes (u is empty, as for a vanishing hopping) shifts the
    index arrays of the leads after it (line 212: no entry in [indices]): the
    result for out lead 1 holds the amplitudes in lead 2. *)
Definition ex_empty : lead Q := @mkLead Q (Some (@mkModes Q (qm [] 0) (qm [] 0) 0 (qm [[]] 0) 0 None)) (qm [[z0]] 1) [0].
Definition ex_ye : syst Q := @mkSyst Q ex_h [1; 2] [ex_empty; ex_l0; ex_l1].
Example C40_empty_lead_refuted :
  runq (ex_s ex_ye None None) (tr 1 1) = rat 1073 13873 /\ runq (ex_s ex_ye None None) (tr 2 1) = rat 12800 13873 /\
  runq (ex_s ex_ye (Some [1]%Z) None) (tr 1 1) = rat 12800 13873 /\                    (* should be 1073/13873 *)
  match ex_s ex_ye (Some [2]%Z) None with inr SValue => True | _ => False end.            (* should be a result *)
Proof. repeat split; vm_compute; reflexivity. Qed.
(** A negative lead number is accepted; the data have no columns. *)
Example C40_negative_lead_refuted :
  match ex_s ex_y None (Some [-1]%Z) with inl q => mr (q_data q) = 2 /\ mc (q_data q) = 0 | inr _ => False end.
Proof. vm_compute. auto. Qed.
