(** * C66: the Peierls phases of magnetic_gauge for infinite systems. *)
From Coq Require Import ClassicalDedekindReals Reals List Bool Arith ZArith Lia Lra Permutation.
From Verif Require Import StarRing DiscretizeReal DijkstraModel DijkstraSpec GaugeModel GaugeSpec GaugeProofs GaugeForest GaugeLoops GaugePhases GaugeProps InfGaugeModel InfGaugeSpec InfGaugeProofs InfGaugePhases.
Import ListNotations.
Set Implicit Arguments.
Local Open Scope R_scope.

Section Props.
Variable pick : list nat -> (nat -> R) -> list nat -> nat.
Variable pop : list nat -> nat.
Variable argsort : list R -> list nat.
Variable components : list (list nat) -> nat.
Hypothesis HP : min_oracle rltb pick.
Hypothesis Hpop : pop_ok pop.
Hypothesis Hsort : argsort_ok argsort.
Hypothesis Hcomp : components_ok components.
Notation gauge := (fun n adj pos period => magnetic_gauge_inf n adj pos period pick pop argsort components).

Lemma ext_site_low n i : (i < n)%nat -> ext_site n i = (0%Z, i).
Proof. intros H. unfold ext_site. rewrite Nat.div_small, Nat.mod_small by auto. reflexivity. Qed.
Lemma ext_site_high n i : (i < n)%nat -> ext_site n (i + n) = ((-1)%Z, i).
Proof.
  intros H. unfold ext_site. replace (i + n)%nat with (i + 1 * n)%nat by lia. rewrite Nat.div_add, Nat.mod_add, Nat.div_small, Nat.mod_small by lia. reflexivity.
Qed.
Lemma connected_conn n adj pos period i j : (i < n)%nat -> connected_in n adj i j -> (j < n)%nat /\ conn (edge (distance_matrix (cell_adj n adj) (ext_pos n pos period))) i j.
Proof.
  intros Hi. induction 1 as [|j k H [IH1 IH2] L Hk]; [split; [auto|constructor]|]. split; [auto|]. econstructor; [exact IH2|]. apply uc_edge. auto.
Qed.
Lemma cell_connected_iff n adj : cell_connected n adj <-> forall i j, (i < length (cell_adj n adj))%nat -> (j < length (cell_adj n adj))%nat -> connected_in (length (cell_adj n adj)) (cell_adj n adj) i j.
Proof.
  rewrite cell_length. unfold cell_connected. split; intros H i j Hi Hj; specialize (H i j Hi Hj).
  - assert (E : forall j, connected_in n adj i j -> (j < n)%nat /\ connected_in n (cell_adj n adj) i j); [|apply E; auto]. clear H Hj j. induction 1 as [|j k H [IH1 IH2] L Hk]; [split; [auto|constructor]|]. split; [auto|]. econstructor; [exact IH2| |auto]. apply cell_linked. auto.
  - induction H as [|j k H IH L Hk]; [constructor|]. apply cell_linked in L. econstructor; [apply IH; tauto|tauto|auto].
Qed.

(** Around every closed loop of hoppings in the infinite system, through any number of
    unit cells, the product of the phases is given by the flux through the loop. *)
Theorem C66_flux n adj pos period dblquad f tol average : infinite_graph n adj -> (2 <= n)%nat -> cell_connected n adj -> periodic_stokes dblquad f tol (site_pos pos period) ->
  exists peierls phase, gauge n adj pos period dblquad f tol average = Some peierls /\
    (forall a b, hopping n adj a b -> peierls a b = Some (phase a b)) /\
    (forall a b, hopping n adj a b -> rmul RC (phase a b) (rconj RC (phase a b)) = r1 RC) /\
    (forall a b, hopping n adj a b -> phase b a = rconj RC (phase a b)) /\
    (forall a b z, hopping n adj a b -> phase (translate z a) (translate z b) = phase a b) /\
    (forall w, walk (hopping n adj) (closed w) -> walk_product phase (closed w) = expi (PI * surface_integral dblquad f false tol (map (site_pos pos period) w))).
Proof.
  intros Hadj Hn Hconn [(A0 & HAs0 & HA0) Hinv].
  set (P := site_pos pos period) in *. set (A := Ainv A0).
  assert (HAs : forall a b, A b a = - A a b) by (intros; apply Ainv_sym; auto).
  assert (HA : forall a b c, flux_through dblquad f tol P a b c = A a b + A b c + A c a) by (intros; apply Ainv_flux; auto).
  assert (HT : forall z a b, A (translate z a) (translate z b) = A a b) by (intros; apply (Ainv_inv (flux_through dblquad f tol P)); auto).
  set (Ae := fun i j => A (ext_site n i) (ext_site n j)).
  assert (St : stokes dblquad f tol (ext_pos n pos period) Ae) by (exact (@ext_stokes dblquad f tol P A HAs HA n pos period eq_refl)).
  assert (HAe : forall i j, Ae j i = - Ae i j) by (intros; apply HAs).
  assert (AeT : forall i j, (i < n)%nat -> (j < n)%nat -> Ae (i + n)%nat (j + n)%nat = Ae i j).
  { intros i j Hi Hj. unfold Ae. rewrite (ext_site_low Hi), (ext_site_low Hj), (ext_site_high Hi), (ext_site_high Hj). rewrite <- (HT (-1)%Z (0%Z, i) (0%Z, j)). reflexivity. }
  set (uc := distance_matrix (cell_adj n adj) (ext_pos n pos period)).
  assert (Huc : full uc) by (apply distance_full, cell_graph; auto).
  assert (Lu : length uc = n) by (unfold uc; rewrite distance_length; apply cell_length).
  assert (Eu : forall i j, edge uc i j <-> (i < n)%nat /\ (j < n)%nat /\ linked adj i j) by (intros; apply uc_edge).
  destruct (forest_ok HP Hpop Huc) as (t & Et & It).
  destruct (@find_loops_ok pick argsort HP Hsort uc Huc t) as (loops1 & El1 & V1); [apply (v_sub It)|apply (v_sym It)|intros x y H; apply (v_conn It); auto|].
  set (hs := smallest_hop n adj pos period). set (ha := all_hops n adj pos period).
  assert (Hgs : good_hops n hs) by (apply small_good; auto). assert (Hga : good_hops n ha) by (apply all_good; auto).
  assert (Hfe : full (extended n uc ha)) by (apply ext_full; auto; intros k o; apply all_some).
  assert (Hse : sub_of (extended n uc hs) (extended n uc ha)) by (apply ext_sub, small_sub).
  assert (Hne : hop_links n adj <> []). { destruct Hadj as (_ & _ & _ & i & j & H1 & H2). intros E. assert (H : In (i, j) (hop_links n adj)) by (apply hop_in; auto). rewrite E in H. destruct H. }
  destruct (@small_one n adj pos period Hne) as (i0 & j0 & H0 & Hsm). fold hs in Hsm. pose proof (hop_range Hadj _ _ H0) as (Hi0 & Hj0 & _).
  assert (Ls : forall i j, links (extended n uc hs) i j <-> ((i < n)%nat /\ edge uc i j) \/ ((n <= i)%nat /\ (n <= j)%nat /\ edge uc (i - n) (j - n)) \/ (i = i0 /\ j = j0) \/ (j = i0 /\ i = j0)).
  { intros i j. rewrite (links_ext Huc Lu i j Hgs), !Hsm. reflexivity. }
  assert (Ee : forall i j, edge (extended n uc ha) i j <-> ((i < n)%nat /\ edge uc i j) \/ ((n <= i)%nat /\ (n <= j)%nat /\ edge uc (i - n) (j - n)) \/ In (i, j) (hop_links n adj) \/ In (j, i) (hop_links n adj)).
  { intros i j. rewrite (edge_ext Huc Lu i j Hga). unfold ext_edge, ha. rewrite all_keys. reflexivity. }
  assert (Ssym : forall x y, links (extended n uc hs) x y -> links (extended n uc hs) y x).
  { intros x y. rewrite !Ls. intros [[H1 H2]|[(H1 & H2 & H3)|[[-> ->]|[-> ->]]]]; auto.
    - left. split; [apply Eu in H2; tauto|apply (f_sym Huc), H2].
    - right. left. split; [auto|]. split; [auto|apply (f_sym Huc), H3]. }
  assert (C1 : forall i j, (i < n)%nat -> (j < n)%nat -> conn (links (extended n uc hs)) i j).
  { intros i j Hi Hj. destruct (@connected_conn n adj pos period i j Hi (Hconn i j Hi Hj)) as [_ H]. revert H. apply conn_mono. intros x y H. apply Ls. left. split; [apply Eu in H; tauto|auto]. }
  assert (C2 : forall i j, (i < n)%nat -> (j < n)%nat -> conn (links (extended n uc hs)) (i + n) (j + n)).
  { intros i j Hi Hj. destruct (@connected_conn n adj pos period i j Hi (Hconn i j Hi Hj)) as [_ H]. clear Hj. induction H as [|j k H IH L]; [constructor|]. econstructor; [exact IH|]. apply Ls. right. left. split; [lia|]. split; [lia|]. replace (j + n - n)%nat with j by lia. replace (k + n - n)%nat with k by lia. auto. }
  assert (C3 : forall i j, In (i, j) (hop_links n adj) -> conn (links (extended n uc hs)) i j).
  { intros i j H. pose proof (hop_range Hadj _ _ H) as (Hi & Hj & _). eapply conn_trans; [apply (C1 i i0); auto|]. eapply conn_trans; [econstructor; [constructor|]; apply Ls; right; right; left; split; [reflexivity|reflexivity]|].
    replace j0 with (j0 - n + n)%nat by lia. replace j with (j - n + n)%nat by lia. apply C2; lia. }
  destruct (@find_loops_ok pick argsort HP Hsort (extended n uc ha) Hfe (extended n uc hs)) as (loops2 & El2 & V2); [auto|auto| |].
  { intros x y H. apply Ee in H. destruct H as [[H1 H2]|[(H1 & H2 & H3)|[H|H]]]; [apply C1; auto; apply Eu in H2; tauto| |apply C3; auto|apply conn_sym; [auto|apply C3; auto]].
    apply Eu in H3. replace x with (x - n + n)%nat by lia. replace y with (y - n + n)%nat by lia. apply C2; tauto. }
  (* the phases *)
  unfold magnetic_gauge_inf, loops_in_infinite.
  assert (Hck : check_infinite n adj components = true).
  { unfold check_infinite. apply andb_true_iff. split; [|apply Nat.leb_le, Hcomp; exact (proj1 (cell_connected_iff n adj) Hconn)]. apply negb_true_iff. destruct (forallb _ _) eqn:E; [|auto]. exfalso. rewrite forallb_forall in E.
    assert (H01 : connected_in n adj 0 1) by (apply Hconn; lia). assert (Hd : forall j, connected_in n adj 0 j -> j = O \/ exists k, linked adj 0 k /\ (k < n)%nat).
    { induction 1 as [|j k H IH L Hk]; [auto|]. destruct IH as [->|IH]; [right; exists k; auto|auto]. }
    destruct (Hd _ H01) as [?|(k & L & Hk)]; [discriminate|]. assert (Hc : linked (cell_adj n adj) 0 k) by (apply cell_linked; split; [lia|auto]). unfold linked in Hc.
    specialize (E (nth 0 (cell_adj n adj) []) ltac:(apply nth_In; rewrite cell_length; lia)). cbv beta in E. revert E Hc. destruct (nth 0 (cell_adj n adj) []); [intros _ []|discriminate]. }
  rewrite Hck. fold uc. rewrite Et. cbn [obind]. rewrite El1. cbn [obind]. fold ha hs. rewrite El2. destruct (hop_links n adj) as [|hl hr] eqn:Ehl; [congruence|]. rewrite <- Ehl in *. cbn [option_map].
  set (flux := surface_integral dblquad f false tol). set (ph := calculate_phases _ _ _ _).
  destruct (v_pot It (fun i j => PI * Ae i j)) as [u Hu]; [intros x y; rewrite (HAe x y); lra|].
  assert (Hfl : forall w, w <> [] -> flux (map (ext_pos n pos period) w) = sum_around Ae w) by (apply (surface_sum St)).
  destruct (@phases_inf_ok n (ext_pos n pos period) flux Ae HAe Hfl uc u Huc loops1 t [] V1) as (s1 & S1 & I1).
  { intros i j. apply sub_links, (v_sub It). }
  { apply (v_sym It). }
  { intros i j H. pose proof (sub_links (v_sub It) H) as He. apply Eu in He. rewrite reduce_id by tauto. auto. }
  { intros i j He _. apply Eu in He. tauto. }
  { constructor; [|intros i j H; cbn in H; congruence]. intros i j H. unfold rwrapper, wrapper. cbn [pget]. rewrite (Hu i j H). symmetry. apply expi_0. }
  match type of I1 with einv _ _ _ _ ?e => set (ph1 := e) in I1 end.
  set (kap := u i0 - u (j0 - n)%nat - PI * Ae i0 j0). set (pot := fun i => if (i <? n)%nat then u i else u (i - n)%nat + kap).
  assert (Plow : forall i, (i < n)%nat -> pot i = u i) by (intros i Hi; unfold pot; rewrite (proj2 (Nat.ltb_lt i n) Hi); auto).
  assert (Phigh : forall i, (n <= i)%nat -> pot i = u (i - n)%nat + kap) by (intros i Hi; unfold pot; rewrite (proj2 (Nat.ltb_ge i n) Hi); auto).
  assert (Hkey : forall i j, pget ph1 (i, j) <> None -> (i < n)%nat /\ (j < n)%nat /\ edge uc i j) by (intros i j H; destruct (e_one I1 i j H) as (H1 & _); apply S1 in H1; split; [apply Eu in H1; tauto|split; [apply Eu in H1; tauto|auto]]).
  assert (I2 : einv n Ae pot (extended n uc hs) ph1).
  { constructor.
    - intros i j H. apply Ls in H. destruct H as [[H1 H2]|[(H1 & H2 & H3)|[[-> ->]|[-> ->]]]].
      + pose proof (proj1 (Eu i j) H2) as (_ & Hj & _). rewrite !Plow by auto. apply (e_val I1). apply S1. auto.
      + pose proof (proj1 (Eu _ _) H3) as (Hi' & Hj' & _). rewrite !Phigh by auto. assert (Er : reduce n (i, j) = ((i - n)%nat, (j - n)%nat)).
        { unfold reduce. cbn [fst snd]. rewrite (proj2 (Nat.leb_le n i)), (proj2 (Nat.leb_le n j)) by auto. cbn [andb]. replace i with (i - n + 1 * n)%nat at 1 by lia. replace j with (j - n + 1 * n)%nat at 1 by lia. rewrite !Nat.mod_add, !Nat.mod_small by lia. auto. }
        unfold rwrapper. rewrite Er. cbn [fst snd]. assert (Hl : links s1 (i - n) (j - n)) by (apply S1; auto). pose proof (e_val I1 Hl) as Hv. unfold rwrapper in Hv. rewrite reduce_id in Hv by auto. cbn [fst snd] in Hv. rewrite Hv. f_equal.
        rewrite <- (AeT (i - n)%nat (j - n)%nat) by auto. replace (i - n + n)%nat with i by lia. replace (j - n + n)%nat with j by lia. lra.
      + unfold rwrapper. rewrite reduce_id by auto. cbn [fst snd]. unfold wrapper. destruct (pget ph1 (i0, j0)) eqn:E1; [exfalso; destruct (Hkey i0 j0) as (? & ? & _); [congruence|lia]|]. destruct (pget ph1 (j0, i0)) eqn:E2; [exfalso; destruct (Hkey j0 i0) as (? & ? & _); [congruence|lia]|].
        rewrite (Plow i0), (Phigh j0) by lia. rewrite <- expi_0. f_equal. unfold kap. lra.
      + unfold rwrapper. rewrite reduce_id by auto. cbn [fst snd]. unfold wrapper. destruct (pget ph1 (i0, j0)) eqn:E1; [exfalso; destruct (Hkey i0 j0) as (? & ? & _); [congruence|lia]|]. destruct (pget ph1 (j0, i0)) eqn:E2; [exfalso; destruct (Hkey j0 i0) as (? & ? & _); [congruence|lia]|].
        rewrite (Plow i0), (Phigh j0) by lia. rewrite <- expi_0. f_equal. unfold kap. rewrite (HAe i0 j0). lra.
    - intros i j H. destruct (e_one I1 i j H) as (H1 & H2 & H3). split; [|auto]. apply Ls. left. split; [apply (Hkey i j H)|apply (Hkey i j H)]. }
  destruct (@phases_inf_ok n (ext_pos n pos period) flux Ae HAe Hfl (extended n uc ha) pot Hfe loops2 (extended n uc hs) ph1 V2) as (s2 & S2 & I3).
  { intros i j. apply sub_links, Hse. }
  { auto. }
  { intros i j H. apply Ls in H. destruct H as [[H1 H2]|[(H1 & H2 & H3)|[[-> ->]|[-> ->]]]]; try (rewrite reduce_id by auto; cbn [fst snd]; apply Ls; auto; fail).
    pose proof (proj1 (Eu _ _) H3) as (Hi' & Hj' & _). assert (Er : reduce n (i, j) = ((i - n)%nat, (j - n)%nat)).
    { unfold reduce. cbn [fst snd]. rewrite (proj2 (Nat.leb_le n i)), (proj2 (Nat.leb_le n j)) by auto. cbn [andb]. replace i with (i - n + 1 * n)%nat at 1 by lia. replace j with (j - n + 1 * n)%nat at 1 by lia. rewrite !Nat.mod_add, !Nat.mod_small by lia. auto. }
    rewrite Er. cbn [fst snd]. apply Ls. auto. }
  { intros i j H H'. destruct (Nat.lt_ge_cases i n) as [|Hni]; [auto|]. destruct (Nat.lt_ge_cases j n) as [|Hnj]; [auto|]. exfalso. apply H'. apply Ls. apply Ee in H. destruct H as [[H1 _]|[(_ & _ & H3)|[H|H]]]; [lia|auto| |]; apply hop_range in H; auto; lia. }
  { auto. }
  assert (Eph : fold_left (fun ph loop => pset ph (last loop O, hd O loop) (cdiv (expi (PI * flux (map (ext_pos n pos period) loop))) (previous_phase_inf n ph (r1 RC) loop))) loops2 ph1 = ph).
  { unfold ph, calculate_phases, ph1. rewrite fold_left_app. reflexivity. }
  rewrite Eph in I3. clear Eph.
  assert (Hw : forall i j, (i < n)%nat \/ (j < n)%nat -> edge (extended n uc ha) i j -> wrapper ph i j = expi (PI * Ae i j + pot j - pot i)).
  { intros i j Hij H. assert (Hl : links s2 i j) by (apply S2; auto). pose proof (e_val I3 Hl) as Hv. unfold rwrapper in Hv. rewrite reduce_id in Hv by auto. exact Hv. }
  set (chi := fun s : site => u (snd s) - IZR (fst s) * kap).
  set (phase := fun a b : site => match wrapper_inf n adj ph a b with Some x => x | None => r1 RC end).
  assert (Hval : forall a b, hopping n adj a b -> wrapper_inf n adj ph a b = Some (expi (PI * A a b + chi b - chi a))).
  { intros [z k] [z' k'] (Hk & Hk' & H). cbn [fst snd] in *. unfold wrapper_inf. cbn [fst snd]. destruct H as [[<- L]|[[-> L]|[-> L]]].
    - rewrite Z.max_id, Z.sub_diag. unfold site_id. cbn [fst snd]. rewrite !(proj2 (Nat.ltb_lt _ n)) by auto. cbn [Z.eqb andb obind].
      rewrite (Hw k k'); [|auto|apply Ee; left; split; [auto|apply Eu; auto]]. do 2 f_equal. rewrite !Plow by auto. unfold Ae, chi. rewrite !ext_site_low by auto. cbn [fst snd]. rewrite <- (HT z (0%Z, k) (0%Z, k')). unfold translate. cbn [fst snd Z.add]. lra.
    - assert (Hh : In (k, (k' + n)%nat) (hop_links n adj)) by (apply hop_in; split; [auto|lia]). pose proof (hop_range Hadj _ _ Hh) as (_ & _ & Hlen).
      replace (Z.max z (z - 1)) with z by lia. rewrite Z.sub_diag. replace (z - 1 - z)%Z with (-1)%Z by lia. unfold site_id. cbn [fst snd]. rewrite (proj2 (Nat.ltb_lt k n)) by auto. rewrite (proj2 (Nat.ltb_lt (k' + n) (length adj))) by auto. cbn [Z.eqb andb obind].
      change (1 =? 1)%positive with true. cbn [andb obind].
      rewrite (Hw k (k' + n)%nat); [|auto|apply Ee; auto]. do 2 f_equal. rewrite (Plow k), (Phigh (k' + n)%nat) by lia. replace (k' + n - n)%nat with k' by lia. unfold Ae, chi. rewrite ?(ext_site_low Hk), ?(ext_site_low Hk'), ?(ext_site_high Hk), ?(ext_site_high Hk'). cbn [fst snd]. rewrite <- (HT z (0%Z, k) ((-1)%Z, k')). unfold translate. cbn [fst snd]. replace (0 + z)%Z with z by lia. replace (-1 + z)%Z with (z - 1)%Z by lia. rewrite minus_IZR. lra.
    - assert (Hh : In (k', (k + n)%nat) (hop_links n adj)) by (apply hop_in; split; [auto|lia]). pose proof (hop_range Hadj _ _ Hh) as (_ & _ & Hlen).
      replace (Z.max (z' - 1) z') with z' by lia. rewrite Z.sub_diag. replace (z' - 1 - z')%Z with (-1)%Z by lia. unfold site_id. cbn [fst snd]. rewrite (proj2 (Nat.ltb_lt k' n)) by auto. rewrite (proj2 (Nat.ltb_lt (k + n) (length adj))) by auto.
      change ((-1 =? 0)%Z && (k <? n)%nat) with false. change ((-1 =? -1)%Z) with true. change (0 =? 0)%Z with true. cbn [andb obind].
      rewrite (Hw (k + n)%nat k'); [|auto|apply Ee; auto]. do 2 f_equal. rewrite (Plow k'), (Phigh (k + n)%nat) by lia. replace (k + n - n)%nat with k by lia. unfold Ae, chi. rewrite ?(ext_site_low Hk), ?(ext_site_low Hk'), ?(ext_site_high Hk), ?(ext_site_high Hk'). cbn [fst snd]. rewrite <- (HT z' ((-1)%Z, k) (0%Z, k')). unfold translate. cbn [fst snd]. replace (0 + z')%Z with z' by lia. replace (-1 + z')%Z with (z' - 1)%Z by lia. rewrite minus_IZR. lra. }
  assert (Hphase : forall a b, hopping n adj a b -> phase a b = expi (PI * A a b + chi b - chi a)) by (intros a b H; unfold phase; rewrite (Hval a b H); auto).
  assert (Hrev : forall a b, hopping n adj a b -> hopping n adj b a).
  { intros [z k] [z' k'] (Hk & Hk' & H). split; [auto|]. split; [auto|]. cbn [fst snd] in *. destruct H as [[-> L]|[[-> L]|[-> L]]]; auto. left. split; [auto|]. apply Hadj. auto. }
  assert (Htr : forall a b z, hopping n adj a b -> hopping n adj (translate z a) (translate z b)).
  { intros [x k] [y k'] z (Hk & Hk' & H). split; [auto|]. split; [auto|]. unfold translate. cbn [fst snd] in *. destruct H as [[-> L]|[[-> L]|[-> L]]]; [left|right; left|right; right]; split; auto; lia. }
  exists (wrapper_inf n adj ph), phase. split; [reflexivity|]. split; [intros a b H; rewrite (Hval a b H), (Hphase a b H); auto|]. split; [|split; [|split]].
  - intros a b H. rewrite (Hphase a b H), expi_conj, expi_add, <- expi_0. f_equal. lra.
  - intros a b H. rewrite (Hphase a b H), (Hphase b a (Hrev _ _ H)), expi_conj. f_equal. rewrite (HAs a b). lra.
  - intros a b z H. rewrite (Hphase a b H), (Hphase _ _ (Htr _ _ z H)). f_equal. rewrite HT. unfold chi, translate. cbn [fst snd]. rewrite !plus_IZR. lra.
  - intros w Hc. rewrite (@closed_product phase A chi (hopping n adj) w Hphase Hc). f_equal. f_equal. symmetry. exact (@surface_walk dblquad f tol P A HAs HA w).
Qed.
(** A constant field. *)
Lemma const_periodic dblquad b tol pos period : inf_dimensions b period pos -> 
  (forall a c, vdot b (cross (site_pos pos period c) (site_pos pos period a)) / 2 = - (vdot b (cross (site_pos pos period a) (site_pos pos period c)) / 2)) /\
  (forall a c d, flux_through dblquad (Const b) tol (site_pos pos period) a c d = vdot b (cross (site_pos pos period a) (site_pos pos period c)) / 2 + vdot b (cross (site_pos pos period c) (site_pos pos period d)) / 2 + vdot b (cross (site_pos pos period d) (site_pos pos period a)) / 2) /\
  (forall a c d, flux_through dblquad (Const b) tol (site_pos pos period) (translate 1 a) (translate 1 c) (translate 1 d) = flux_through dblquad (Const b) tol (site_pos pos period) a c d).
Proof.
  intros [(Hb & Hp & Hx)|(Hb & Hp & Hx)]; (split; [|split]); intros [z1 k1] [z2 k2]; try intros [z3 k3]; pose proof (Hx k1) as P1; pose proof (Hx k2) as P2; try pose proof (Hx k3) as P3; unfold flux_through, translate, site_pos; cbn [fst snd]; rewrite ?plus_IZR;
  destruct b as [|b1 [|b2 [|b3 [|]]]]; try discriminate Hb; destruct period as [|t1 [|t2 [|t3 [|]]]]; try discriminate Hp;
  destruct (pos k1) as [|x1 [|y1 [|u1 [|]]]]; try discriminate P1; destruct (pos k2) as [|x2 [|y2 [|u2 [|]]]]; try discriminate P2; try (destruct (pos k3) as [|x3 [|y3 [|u3 [|]]]]; try discriminate P3); unfold integrator, const_triangle; cbn -[IZR]; field.
Qed.
Theorem C66_constant n adj pos period dblquad b tol average : infinite_graph n adj -> (2 <= n)%nat -> cell_connected n adj -> inf_dimensions b period pos ->
  exists peierls phase, gauge n adj pos period dblquad (Const b) tol average = Some peierls /\
    (forall a c, hopping n adj a c -> peierls a c = Some (phase a c)) /\
    (forall a c, hopping n adj a c -> rmul RC (phase a c) (rconj RC (phase a c)) = r1 RC) /\
    (forall a c, hopping n adj a c -> phase c a = rconj RC (phase a c)) /\
    (forall a c z, hopping n adj a c -> phase (translate z a) (translate z c) = phase a c) /\
    (forall w, walk (hopping n adj) (closed w) -> walk_product phase (closed w) = expi (PI * walk_sum (fun a c => vdot b (cross (site_pos pos period a) (site_pos pos period c)) / 2) (closed w))).
Proof.
  intros Hadj Hn Hc Hd. destruct (@const_periodic dblquad b tol pos period Hd) as (H1 & H2 & H3).
  destruct (@C66_flux n adj pos period dblquad (Const b) tol average Hadj Hn Hc) as (p & ph & E1 & E2 & E3 & E4 & E5 & E6); [split; [exists (fun a c => vdot b (cross (site_pos pos period a) (site_pos pos period c)) / 2); auto|auto]|].
  exists p, ph. split; [auto|]. split; [auto|]. split; [auto|]. split; [auto|]. split; [auto|]. intros w Hw. rewrite (E6 w Hw). f_equal. f_equal. apply surface_walk; auto.
Qed.
(** A unit cell that is not connected is refused. *)
Theorem C66_disconnected n adj pos period dblquad f tol average : ~ cell_connected n adj -> gauge n adj pos period dblquad f tol average = None.
Proof.
  intros H. unfold magnetic_gauge_inf, loops_in_infinite. destruct (check_infinite n adj components) eqn:E; [|auto]. exfalso. apply H. apply cell_connected_iff. apply Hcomp. unfold check_infinite in E. apply andb_true_iff in E. apply Nat.leb_le. tauto.
Qed.
(** ... but so is every system with a single site in the unit cell, though it is
    connected: ValueError in _check_infinite_syst. *)
Theorem C66_single_site_refuted : exists adj, infinite_graph 1 adj /\ cell_connected 1 adj /\ forall pos period dblquad f tol average, gauge 1%nat adj pos period dblquad f tol average = None.
Proof.
  exists [[1]; [0]]%nat. split; [|split].
  - split; [split; [|split]|split; [cbn; lia|split]].
    + intros [|[|[|i]]]; cbn; repeat constructor; cbn; auto.
    + intros i j. unfold linked. destruct i as [|[|i]]; cbn; [intros [<-|[]]; cbn; intuition lia|intros [<-|[]]; cbn; intuition lia|destruct i; intros []].
    + intros [|[|[|i]]]; unfold linked; cbn; [intros [E|[]]; discriminate|intros [E|[]]; discriminate|intros []|intros []].
    + intros i j Hi. unfold linked. destruct i as [|[|i]]; cbn; [lia|intros [<-|[]]; auto|destruct i; intros []].
    + exists 0%nat, 1%nat. split; [left; auto|auto].
  - intros i j Hi Hj. assert (i = j) by lia. subst. constructor.
  - intros. reflexivity.
Qed.
End Props.

(** An implementation of connected_components exists. *)
Fixpoint reachb (n : nat) (g : list (list nat)) (k i j : nat) : bool :=
  (i =? j)%nat || match k with O => false | S k => (j <? n)%nat && existsb (fun h => reachb n g k i h && existsb (Nat.eqb j) (nth h g [])) (seq 0 (length g)) end.
Lemma reachb_ok n g i j : connected_in n g i j <-> exists k, reachb n g k i j = true.
Proof.
  split.
  - induction 1 as [|j k H [m IH] L Hk]; [exists 0%nat; cbn; rewrite Nat.eqb_refl; auto|]. exists (S m). cbn [reachb]. apply orb_true_iff. right. apply andb_true_iff. split; [apply Nat.ltb_lt; auto|].
    assert (Hj : (j < length g)%nat). { destruct (le_lt_dec (length g) j) as [Hj|]; [|auto]. unfold linked in L. rewrite nth_overflow in L by auto. destruct L. }
    apply existsb_exists. exists j. split; [apply in_seq; lia|]. apply andb_true_iff. split; [auto|]. apply existsb_exists. exists k. split; [exact L|apply Nat.eqb_refl].
  - intros [k H]. revert j H. induction k as [|k IH]; intros j H; cbn [reachb] in H; apply orb_true_iff in H; destruct H as [H|H]; [apply Nat.eqb_eq in H; subst; constructor|discriminate|apply Nat.eqb_eq in H; subst; constructor|].
    apply andb_true_iff in H. destruct H as [Hj H]. apply Nat.ltb_lt in Hj. apply existsb_exists in H. destruct H as (h & _ & H). apply andb_true_iff in H. destruct H as [H L]. apply existsb_exists in L. destruct L as (j' & L & E). apply Nat.eqb_eq in E. subst j'. econstructor; [apply IH, H|exact L|auto].
Qed.
Lemma connected_dec n g i j : {connected_in n g i j} + {~ connected_in n g i j}.
Proof.
  destruct (@ClassicalDedekindReals.sig_forall_dec (fun k => reachb n g k i j <> true)) as [[k H]|H].
  - intros k. destruct (reachb n g k i j); [right|left]; congruence.
  - left. apply reachb_ok. exists k. destruct (reachb n g k i j) eqn:E; [auto|]. exfalso. apply H. congruence.
  - right. intros C. apply reachb_ok in C. destruct C as [k C]. exact (H k C).
Qed.
Definition components_dec (g : list (list nat)) : nat :=
  if forallb (fun i => forallb (fun j => if connected_dec (length g) g i j then true else false) (seq 0 (length g))) (seq 0 (length g)) then 1%nat else 2%nat.
Lemma components_dec_ok : components_ok components_dec.
Proof.
  intros g. unfold components_dec. destruct (forallb _ _) eqn:E.
  - split; [intros _ i j Hi Hj|lia]. rewrite forallb_forall in E. specialize (E i ltac:(apply in_seq; lia)). rewrite forallb_forall in E. specialize (E j ltac:(apply in_seq; lia)). destruct (connected_dec _ _ _ _); [auto|discriminate].
  - split; [lia|]. intros H. exfalso. assert (T : forallb (fun i => forallb (fun j => if connected_dec (length g) g i j then true else false) (seq 0 (length g))) (seq 0 (length g)) = true); [|congruence].
    apply forallb_forall. intros i Hi. apply in_seq in Hi. apply forallb_forall. intros j Hj. apply in_seq in Hj. destruct (connected_dec _ _ _ _) as [|N]; [auto|]. exfalso. apply N, H; lia.
Qed.

(** ** Example: a ladder, in a constant field *)
Definition lad : list (list nat) := [[1; 2]; [0; 3]; [0]; [1]]%nat.
Definition lad_pos (i : nat) : vec := match i with 0%nat => [0; 0] | _ => [0; 1] end.
Lemma lad_graph : infinite_graph 2 lad.
Proof.
  split; [split; [|split]|split; [cbn; lia|split]].
  - intros [|[|[|[|i]]]]; cbn; repeat (apply NoDup_cons; [cbn; intuition lia|]); try apply NoDup_nil. destruct i; apply NoDup_nil.
  - intros [|[|[|[|i]]]] j; unfold linked; cbn; [| | | |destruct i; intros []]; intros H; repeat (destruct H as [<-|H]); try contradiction; cbn; intuition lia.
  - intros [|[|[|[|i]]]]; unfold linked; cbn; [| | | |destruct i; intros []]; intuition lia.
  - intros [|[|[|[|i]]]] j Hi; unfold linked; cbn; [| | | |destruct i; intros []]; intuition lia.
  - exists 0%nat, 2%nat. split; [right; left; auto|auto].
Qed.
Lemma lad_connected : cell_connected 2 lad.
Proof.
  intros i j Hi Hj. destruct i as [|[|i]]; [| |lia]; destruct j as [|[|j]]; try lia; try constructor; (econstructor; [constructor| |lia]); unfold linked; cbn; auto.
Qed.
(** With unit cells at a distance of 1, each plaquette has the area 1; the loop around
    three plaquettes gets the phase of three of them. *)
Example C66_example b : exists peierls phase,
  magnetic_gauge_inf 2 lad lad_pos [1; 0] first_pick first_pop select_sort components_dec (fun _ => 0) (Const [b]) 0 false = Some peierls /\
  (forall a c, hopping 2 lad a c -> peierls a c = Some (phase a c)) /\
  walk_product phase (closed [(0, 0%nat); (1, 0%nat); (2, 0%nat); (3, 0%nat); (3, 1%nat); (2, 1%nat); (1, 1%nat); (0, 1%nat)]%Z) = expi (PI * (3 * b)).
Proof.
  destruct (@C66_constant _ _ _ _ first_pick_min first_pop_ok select_sort_ok components_dec_ok 2 lad lad_pos [1; 0] (fun _ => 0) [b] 0 false lad_graph) as (p & ph & E1 & E2 & _ & _ & _ & E3); [lia|apply lad_connected|left; split; [auto|split; [auto|intros [|i]; auto]]|].
  exists p, ph. split; [auto|]. split; [auto|]. rewrite E3.
  - f_equal. f_equal. unfold closed, site_pos. cbn. field.
  - unfold closed, hopping, linked. cbn. repeat (split; [split; [lia|split; [lia|]]; (left; split; [lia|cbn; tauto]) || (right; left; split; [lia|cbn; tauto]) || (right; right; split; [lia|cbn; tauto])|]). auto.
Qed.
