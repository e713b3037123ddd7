(** * greens_function: the data are elements of the Green's function. *)
From Coq Require Import List Bool Arith ZArith Ring Lia.
From Verif Require Import StarRing SubmatrixModel SolverModel SolverSpec SolverProofs SolverLinear SolverLinear2 SolverMain SolverGF SolverGF2.
Import ListNotations.
Set Implicit Arguments.

Section GF.
Variable R : StarRing.
Add Ring RringG3 : (r_theory R).
Notation mat := (mat R).
Notation conj := (rconj R).
Notation "x +! y" := (radd R x y) (at level 50, left associativity).
Notation "x -! y" := (rsub R x y) (at level 50, left associativity).
Notation "x *! y" := (rmul R x y) (at level 40, left associativity).
Notation O0 := (r0 R).
Variable herm_ok : mat -> bool.
Variable solve : mat -> mat -> list nat -> sres mat.
Hypothesis EX : exact_solver solve.
Variable y : syst R.
Hypothesis GS : good_syst y.
Variable en : R.
Variable check : bool.
Notation n := (mr (y_ham y)).
Notation leads := (y_leads y).
Notation nl := (length leads).
Notation orbs := (lead_orbs (y_norb y)).
Notation coords := (map orbs leads).
Notation sigmas := (map (@l_sigma R) leads).

Variable inn : list Z.
Definition present (k : nat) : bool := zmem (Z.of_nat k) inn.

Record ginv (h0 : mat) (s : nat) (ls : list (lead R)) (z z' : lstate R) : Prop := mkGInv {
  g_r : mr (z_lhs z') = n; g_c : mc (z_lhs z') = n;
  g_rv : forall X r, rv (z_lhs z') X r = rv (z_lhs z) X r +! lsum R (fun l => force_sigma R (orbs l) (l_sigma l) X r) ls;
  g_sig : forall l, In l ls -> mr (l_sigma l) = length (orbs l) /\ mc (l_sigma l) = length (orbs l);
  g_idx : z_indices z' = z_indices z ++ map (fun l => Some (orbs l)) ls;
  g_rhs : z_rhs z' = z_rhs z ++ flat_map (fun kl => if present (fst kl) then [ROne R (orbs (snd kl))] else []) (combine (seq s (length ls)) ls);
  g_inf : z_info z' = z_info z ++ map (fun l => ISigma (l_sigma l)) ls }.

Lemma gloop : forall ls s z z', (forall l, In l ls -> In l leads) -> mr (z_lhs z) = n -> mc (z_lhs z) = n ->
  lead_loop (offsets 0 (y_norb y)) inn true s ls z = inl z' -> ginv (z_lhs z) s ls z z'.
Proof.
  induction ls as [|l ls IH]; intros s z z' Hin Hr Hc H; cbn [lead_loop] in H.
  - injection H as <-. split; auto; intros; rewrite ?lsum_nil, ?app_nil_r; try ring; try contradiction; cbn; rewrite ?app_nil_r; auto.
  - apply sbind_inl in H. destruct H as (z1 & H1 & H).
    assert (Hl : In l leads) by (apply Hin; left; auto).
    assert (Hif : forall i, In i (l_iface l) -> i < length (y_norb y)) by (apply GS; auto).
    unfold lead_step in H1. cbn [negb] in H1. apply sbind_inl in H1. destruct H1 as (oo & Hoo & H1). apply (@iface_orbs_spec R _ l) in Hoo; [|auto]. subst oo.
    apply sbind_inl in H1. destruct H1 as (lhs' & Hlhs & [= <-]). unfold add_sigma in Hlhs.
    destruct (Nat.eqb_spec (mr (l_sigma l)) (length (orbs l))) as [S1|]; [|discriminate]. destruct (Nat.eqb_spec (mc (l_sigma l)) (length (orbs l))) as [S2|]; [|discriminate].
    cbn [negb andb] in Hlhs. apply sbind_inl in Hlhs. destruct Hlhs as (ss & Hss & Hadd). rewrite Hr in Hss.
    apply madd_inl in Hadd. destruct Hadd as (A1 & A2 & A3 & A4 & A5).
    apply IH in H; [|intros; apply Hin; right; auto|cbn; congruence|cbn; congruence]. destruct H as [K1 K2 K3 K4 K5 K6 K7]. cbn [z_lhs z_indices z_rhs z_info] in *.
    split; auto.
    + intros X r. rewrite K3, lsum_cons. destruct (@rv_sigma R n (l_sigma l) ss (orbs l) X r S1 S2 (fun x => @orbs_lt R y GS l x Hl) Hss) as (R1 & R2 & R3).
      rewrite <- R3. assert (E : rv lhs' X r = rv (z_lhs z) X r +! rv ss X r); [|rewrite E; ring].
      unfold rv. rewrite A4, <- A2, <- sum_add. apply sum_ext. intros c _. rewrite A5. ring.
    + intros l' [<-|Hl']; auto.
    + rewrite K5, <- app_assoc. reflexivity.
    + rewrite K6. cbn [length seq combine flat_map fst snd]. unfold present at 2. destruct (zmem (Z.of_nat s) inn); [rewrite <- app_assoc; reflexivity|reflexivity].
    + rewrite K7, <- app_assoc. reflexivity.
Qed.

Variables (ls : linsys R) (info : list (linfo R)).
Hypothesis HM : make_linear_sys herm_ok y inn en check true = inl (ls, info).
Lemma gls : mr (x_lhs ls) = n /\ mc (x_lhs ls) = n /\
  (forall X r, r < n -> rv (x_lhs ls) X r = ropp R (sum R n (fun z => inverse_gf (mget (y_ham y)) en coords sigmas r z *! X z))) /\
  good_sigmas n coords sigmas /\ x_indices ls = map Some coords /\ info = map ISigma sigmas /\
  Forall2 (fun c B => mr B = n /\ mc B = length c /\ forall r j, j < length c -> mget B r j = if nth j c 0 =? r then ropp R (r1 R) else O0)
    (flat_map (fun kc => if present (fst kc) then [snd kc] else []) (combine (seq 0 (length coords)) coords)) (x_rhs ls) /\ leads <> [].
Proof.
  unfold make_linear_sys in HM. destruct (y_leads y) as [|l0 ll] eqn:El; [discriminate|]. rewrite <- El in *.
  apply sbind_inl in HM. destruct HM as (h0 & Hh & H). apply madd_inl in Hh. destruct Hh as (A1 & A2 & A3 & A4 & A5).
  destruct (check && negb (herm_ok h0)); [discriminate|].
  apply sbind_inl in H. destruct H as (z & Hz & H). apply sbind_inl in H. destruct H as (rhs & Hr & [= <- <-]).
  assert (Ec : mc (y_ham y) = n) by apply GS.
  apply gloop in Hz; [|auto|cbn; congruence|cbn; congruence]. destruct Hz as [K1 K2 K3 K4 K5 K6 K7]. cbn [x_lhs x_rhs x_indices x_norb z_lhs z_rhs z_info z_indices app] in *.
  split; auto. split; auto. split; [|split; [|split; [|split; [|split]]]].
  - intros X r Hrn. rewrite K3. unfold rv. rewrite A4, Ec.
    assert (EM : forall l, In l leads -> force_sigma R (orbs l) (l_sigma l) X r = sum R n (fun z0 => embed (orbs l) (l_sigma l) r z0 *! X z0)).
    { intros l Hl. symmetry. unfold embed, force_sigma.
      transitivity (sum R n (fun c => sum R (length (orbs l)) (fun p => sum R (length (orbs l)) (fun q => if nth p (orbs l) 0 =? r then if nth q (orbs l) 0 =? c then mget (l_sigma l) p q *! X c else O0 else O0)))).
      { apply sum_ext. intros c _. rewrite <- sum_mul_r. apply sum_ext. intros p _. rewrite <- sum_mul_r. apply sum_ext. intros q _. destruct (nth p (orbs l) 0 =? r); cbn [andb]; [destruct (nth q (orbs l) 0 =? c)|]; ring. }
      rewrite sum_swap. apply sum_ext. intros p _. destruct (nth p (orbs l) 0 =? r).
      - rewrite sum_swap. apply sum_ext. intros q Hq. rewrite (@sum_delta2 R n (nth q (orbs l) 0) (fun c => mget (l_sigma l) p q *! X c)); auto. apply (@orbs_lt R y GS l); auto. apply nth_In. auto.
      - transitivity (sum R n (fun _ => O0)); [apply sum_ext; intros; apply sum_0|apply sum_0]. }
    rewrite (lsum_ext R _ _ _ EM). rewrite <- sum_lswap, <- sum_add. unfold sum. rewrite <- lsum_opp. apply lsum_ext. intros c _. rewrite A5. cbn [mneg mid mget].
    unfold inverse_gf. rewrite lsum_mul_r.
    assert (EC : lsum R (fun cs => embed (fst cs) (snd cs) r c) (combine coords sigmas) = lsum R (fun l => embed (orbs l) (l_sigma l) r c) leads).
    { generalize leads as lx. induction lx as [|x lx IH]; [reflexivity|]. cbn [map combine]. rewrite !lsum_cons, IH. reflexivity. }
    rewrite EC. unfold delta. destruct (r =? c); ring.
  - unfold good_sigmas. assert (G : forall l, In l leads -> mr (l_sigma l) = length (orbs l) /\ mc (l_sigma l) = length (orbs l) /\ forall x, In x (orbs l) -> x < n).
    { intros l Hl. destruct (K4 l Hl). split; auto. split; auto. intros x Hx. apply (@orbs_lt R y GS l); auto. }
    clear -G. revert G. generalize leads as lx. induction lx as [|l lx IH]; intros G; cbn; constructor; [apply G; left; auto|apply IH; intros; apply G; right; auto].
  - rewrite K5, map_map. reflexivity.
  - rewrite K7, map_map. reflexivity.
  - apply smap_inl in Hr. rewrite K6 in Hr. rewrite map_length. clear -Hr K1 K2.
    assert (G : forall (c : list nat) B, @finish_rhs R (z_lhs z) (ROne R c) = inl B -> mr B = n /\ mc B = length c /\ forall r j, j < length c -> mget B r j = if nth j c 0 =? r then ropp R (r1 R) else O0).
    { intros c B HB. unfold finish_rhs in HB. apply coo_inl in HB. destruct HB as (B1 & B2 & B3). rewrite K1 in B1. split; auto. split; auto. intros r j Hj. rewrite B3, lsum_map. cbn [fst snd].
      change (lsum R ?f (seq 0 ?k)) with (sum R k f).
      transitivity (sum R (length c) (fun l => if l =? j then (if nth l c 0 =? r then ropp R (r1 R) else O0) else O0)).
      - apply sum_ext. intros l _. rewrite andb_comm. destruct (l =? j); reflexivity.
      - apply (@sum_delta R (length c) j (fun l => if nth l c 0 =? r then ropp R (r1 R) else O0)). auto. }
    clear -G Hr. revert rhs Hr. generalize leads as lx. intros lx. generalize 0 at 1 3 as s. revert lx.
    induction lx as [|l lx IH]; intros s rhs H; cbn [length seq combine flat_map map fst snd] in *; [inversion H; constructor|].
    destruct (present s); cbn [app] in *; [|apply IH; auto]. inversion H as [|? B ? rhs' HB HR]; subst. constructor; auto.
  - rewrite El. discriminate.
Qed.
End GF.

Section Top.
Variable R : StarRing.
Add Ring RringG4 : (r_theory R).
Notation mat := (mat R).
Notation "x *! y" := (rmul R x y) (at level 40, left associativity).
Notation O0 := (r0 R).
Variable herm_ok : mat -> bool.
Variable solve : mat -> mat -> list nat -> sres mat.
Hypothesis EX : exact_solver solve.
Variable y : syst R.
Hypothesis GS : good_syst y.
Variable en : R.
Variable check : bool.
Notation n := (mr (y_ham y)).
Notation leads := (y_leads y).
Notation nl := (length leads).
Notation orbs := (lead_orbs (y_norb y)).
Notation coords := (map orbs leads).
Notation sigmas := (map (@l_sigma R) leads).

Theorem gf_data out inn q G : let o := lead_list nl out in let i := lead_list nl inn in nonneg_leads o -> nonneg_leads i ->
  inverses n (inverse_gf (mget (y_ham y)) en coords sigmas) G ->
  greens_function herm_ok solve y en out inn check = inl q ->
  good_leads nl o /\ good_leads nl i /\ good_sigmas n coords sigmas /\
  gf_init (q_data q) sigmas o i check = inl q /\ data_for (map (@mr R) sigmas) (gf_full coords G) o i (q_data q).
Proof.
  intros o i Ho Hi HG H. unfold greens_function in H. fold o i in H.
  apply sbind_inl in H. destruct H as ([] & Hc & H). apply check_lists_inl in Hc. destruct Hc as [Ii Io].
  apply sbind_inl in H. destruct H as ([ls info] & HM & H). cbn [fst snd] in H. apply sbind_inl in H. destruct H as (data & Hdat & H).
  destruct (@gls R herm_ok y GS en check i ls info HM) as (L1 & L2 & L3 & L4 & L5 & L6 & L7 & L8).
  assert (Einf : gf_infos info = sigmas). { rewrite L6. unfold gf_infos. rewrite flat_map_map. generalize sigmas as s. induction s as [|a s IHs]; auto. cbn. rewrite IHs. auto. }
  rewrite Einf in H.
  assert (HB : q_data q = data /\ (forall z, In z (i ++ o) -> (0 <= z)%Z -> valid_lead nl z)).
  { unfold gf_init, block_init in H. apply sbind_inl in H. destruct H as (x1 & X1 & H). apply sbind_inl in H. destruct H as (x2 & X2 & H). apply sbind_inl in H. destruct H as (x3 & _ & H). apply sbind_inl in H. destruct H as (x4 & _ & H).
    injection H as <-. cbn [q_data]. split; auto. intros z Hz Hz0. apply in_app_or in Hz.
    assert (G1 : forall l x, smap (fun z0 => stry (pynth (map (@mr R) sigmas) z0) SIndex) l = inl x -> In z l -> valid_lead nl z).
    { intros l x Hs Hzl. apply smap_inl in Hs. apply In_nth_error in Hzl. destruct Hzl as (k & Hk). destruct (@F2_nth_error _ _ _ _ _ _ _ Hs Hk) as (u & _ & Hu).
      destruct (pynth (map (@mr R) sigmas) z) as [w|] eqn:E; [|discriminate]. pose proof (@pynth_range _ _ _ _ E Hz0) as V. rewrite !map_length in V. auto. }
    destruct Hz as [Hz|Hz]; eauto. }
  destruct HB as [Hq Hpy].
  assert (Vi : forall z, In z i -> valid_lead nl z) by (intros z Hz; apply Hpy; [apply in_or_app; auto|apply Hi; auto]).
  assert (Vo : forall z, In z o -> valid_lead nl z) by (intros z Hz; apply Hpy; [apply in_or_app; auto|apply Ho; auto]).
  split; [split; [apply increasing_NoDup; auto|auto]|]. split; [split; [apply increasing_NoDup; auto|auto]|]. split; auto. rewrite Hq. split; auto. clear H Hq.
  set (sizes := map (@mr R) sigmas).
  assert (Esz : forall k c, nth_error coords k = Some c -> nth k sizes 0 = length c).
  { intros k c Hk. destruct (@F2_nth_error _ _ _ _ _ _ _ L4 Hk) as (s & Hs & E1 & _). unfold sizes. rewrite <- E1. exact (nth_error_nth _ _ 0 (map_nth_error (@mr R) _ _ Hs)). }
  assert (Lc : length coords = nl) by apply map_length.
  unfold solve_block in Hdat. apply sbind_inl in Hdat. destruct Hdat as (kept & Hk & Hdat).
  (* kept *)
  assert (Ek : kept = map (fun oa => orb coords (fst oa) (snd oa)) (modes_of sizes o)).
  { unfold kept_vars in Hk. apply sbind_inl in Hk. destruct Hk as (l & Hl & Hk). assert (Hkc : kept = concat l) by (destruct l; [discriminate|congruence]). subst kept.
    apply choose_concat in Hl. rewrite Hl, L5. rewrite (modes_of_all sizes Io Vo), map_flat_map'. replace (seq 0 nl) with (seq 0 (length (map Some coords))) by (rewrite !map_length; auto).
    apply flat_map_combine. intros k x Hx. cbn [fst snd]. destruct (nth_error coords k) as [c|] eqn:Ec.
    - rewrite (map_nth_error _ _ _ Ec) in Hx. injection Hx as <-. rewrite (Esz k c Ec). destruct (zmem (Z.of_nat k) o); auto. rewrite map_map. cbn [fst snd]. unfold orb. rewrite Nat2Z.id, (nth_error_nth _ _ _ Ec).
      clear. change (c = map (fun x => nth x c 0) (seq 0 (length c))). apply nth_ext with (d := 0) (d' := nth 0 c 0); [rewrite map_length, seq_length; auto|]. intros a Ha.
      rewrite (map_nth (fun x => nth x c 0)), seq_nth by auto. reflexivity.
    - exfalso. apply nth_error_None in Ec. assert (Hlt : k < length (map Some coords)) by (apply nth_error_Some; congruence). rewrite (map_length Some coords) in Hlt. lia. }
  assert (Lk : length kept = length (modes_of sizes o)) by (rewrite Ek, map_length; auto).
  (* columns *)
  set (sel := flat_map (fun kc => if present i (fst kc) then [kc] else []) (combine (seq 0 (length coords)) coords)) in *.
  assert (Esel : flat_map (fun kc => if present i (fst kc) then [snd kc] else []) (combine (seq 0 (length coords)) coords) = map snd sel).
  { unfold sel. rewrite map_flat_map'. apply flat_map_ext. intros kc. destruct (present i (fst kc)); reflexivity. }
  rewrite Esel in L7.
  assert (Lsel : length sel = length (x_rhs ls)) by (apply F2_len in L7; rewrite map_length in L7; auto).
  set (kbs := combine (map fst sel) (x_rhs ls)).
  assert (Ekb : map snd kbs = x_rhs ls). { unfold kbs. assert (G1 : forall (a : list nat) (b : list mat), length a = length b -> map snd (combine a b) = b) by (induction a as [|? ? IHa]; intros [|] Hx; try discriminate; auto; cbn; f_equal; apply IHa; cbn in Hx; lia). apply G1. rewrite map_length. auto. }
  assert (Ecm : map (@colmap R) (lcols kbs) = modes_of sizes i).
  { rewrite (modes_of_all sizes Ii Vi), <- Lc. transitivity (flat_map (fun kc : nat * list nat => map (pair (Z.of_nat (fst kc))) (seq 0 (length (snd kc)))) sel).
    - unfold lcols, kbs. rewrite map_flat_map'. clear -L7. revert L7. generalize (x_rhs ls) as bs. generalize sel as sl. induction sl as [|[k c] sl IH]; intros bs HF; [reflexivity|].
      inversion HF as [|? B ? bs' HB HR]; subst. cbn [map combine flat_map fst snd]. rewrite IH by auto. f_equal. destruct HB as (_ & -> & _). rewrite map_map. reflexivity.
    - unfold sel. rewrite <- (@flat_map_combine _ _ coords (fun kc => if zmem (Z.of_nat (fst kc)) i then map (pair (Z.of_nat (fst kc))) (seq 0 (length (snd kc))) else [])).
      + clear. generalize (combine (seq 0 (length coords)) coords) as l. induction l as [|kc l IH]; [reflexivity|]. cbn [flat_map]. rewrite flat_map_app, IH. f_equal. unfold present. destruct (zmem (Z.of_nat (fst kc)) i); cbn; rewrite ?app_nil_r; reflexivity.
      + intros k c Hkc. cbn [fst snd]. rewrite (Esz k c Hkc). reflexivity. }
  assert (Etot : list_sum (map (@mc R) (x_rhs ls)) = length (modes_of sizes i)).
  { rewrite <- Ecm, map_length, <- Ekb. unfold lcols. clear. generalize kbs as l. induction l as [|kb l IH]; auto. cbn [map flat_map]. rewrite app_length, map_length, seq_length, <- IH. reflexivity. }
  rewrite Etot in Hdat.
  assert (Hkbs : kbs = combine (map fst sel) (x_rhs ls)) by reflexivity. clearbody kbs.
  destruct ((length (modes_of sizes i) =? 0) || (length kept =? 0)) eqn:E0.
  - injection Hdat as <-. split; auto. split; auto. intros r c x z Hx Hz. exfalso. apply orb_true_iff in E0. destruct E0 as [E0|E0]; apply Nat.eqb_eq in E0.
    + apply length_zero_iff_nil in E0. rewrite E0 in Hz. destruct c; discriminate.
    + rewrite Lk in E0. apply length_zero_iff_nil in E0. rewrite E0 in Hx. destruct r; discriminate.
  - destruct (x_rhs ls) as [|a rr] eqn:Er; [discriminate|]. rewrite <- Er in *. apply sbind_inl in Hdat. destruct Hdat as (M & HMM & Hsol).
    assert (Es : map snd kbs = a :: rr) by (rewrite Ekb; auto).
    destruct (@hstack_all R nat kbs a rr M Es HMM) as (F1 & F2 & F3).
    destruct (EX Hsol) as (X & X1 & X2 & X3 & X4).
    assert (EmM : mc M = length (modes_of sizes i)) by (rewrite F2, <- Ecm, map_length; auto).
    split; [congruence|]. split; [congruence|]. intros r c [lo pa] [li pb] Hx Hz.
    assert (Hr : r < length kept) by (rewrite Lk; apply nth_error_Some; congruence).
    assert (Hcc : c < mc M) by (rewrite EmM; apply nth_error_Some; congruence).
    assert (Hkr : nth r kept 0 = orb coords lo pa) by (rewrite Ek; apply nth_error_nth; rewrite (map_nth_error _ _ _ Hx); reflexivity).
    (* the column *)
    assert (HMc : forall x, x < n -> mget M x c = if orb coords li pb =? x then ropp R (r1 R) else O0).
    { rewrite <- Ecm in Hz. destruct (nth_error (lcols kbs) c) as [[[k B] b']|] eqn:El.
      - rewrite (map_nth_error (@colmap R) _ _ El) in Hz. unfold colmap in Hz. cbn [fst snd] in Hz. injection Hz as <- <-.
        assert (Hin : In ((k, B), b') (lcols kbs)) by (eapply nth_error_In; eauto). unfold lcols in Hin. apply in_flat_map in Hin. destruct Hin as ([k' B'] & Hin & Hb).
        apply in_map_iff in Hb. destruct Hb as (b'' & [= -> -> ->] & Hb). apply in_seq in Hb. cbn [snd] in Hb.
        intros x Hx'. rewrite (F3 _ _ _ El). cbn [snd]. unfold orb. rewrite Nat2Z.id.
        assert (HBc : exists cc, nth_error coords k = Some cc /\ mc B = length cc /\ forall r j, j < length cc -> mget B r j = if nth j cc 0 =? r then ropp R (r1 R) else O0).
        { assert (Hsl : forall kc, In kc sel -> nth_error coords (fst kc) = Some (snd kc)).
          { intros [k0 c0] Hk0. unfold sel in Hk0. apply in_flat_map in Hk0. destruct Hk0 as ([k1 c1] & Hk1 & Hk2). destruct (present i (fst (k1, c1))); [|destruct Hk2]. destruct Hk2 as [[= -> ->]|[]]. apply in_combine_seq. auto. }
          clear -L7 Hin Hsl Hkbs. rewrite Hkbs in Hin. clear Hkbs. revert L7 Hin Hsl. generalize (x_rhs ls) as bs. generalize sel as sl. induction sl as [|[k0 c0] sl IH]; intros bs HF Hin Hsl; [destruct Hin|].
          inversion HF as [|? B0 ? bs' HB HR]; subst. cbn [map combine fst] in Hin. destruct Hin as [[= -> ->]|Hin].
          - exists c0. destruct HB as (_ & H2 & H3). split; [apply (Hsl (k, c0)); left; auto|]. split; auto.
          - apply (IH bs'); auto. intros; apply Hsl; right; auto. }
        destruct HBc as (cc & Hcc' & Hmc & Hent). rewrite (nth_error_nth _ _ _ Hcc'). apply Hent. lia.
      - exfalso. apply nth_error_None in El. assert (c < length (map (@colmap R) (lcols kbs))) by (apply nth_error_Some; congruence). rewrite map_length in *. lia. }
    (* orbital numbers are in range *)
    assert (Hsig : forall l p (lst : list Z), (forall z, In z lst -> valid_lead nl z) -> In (l, p) (modes_of sizes lst) -> orb coords l p < n).
    { intros l p lst Hv Hin. unfold modes_of in Hin. apply in_flat_map in Hin. destruct Hin as (l' & Hl' & Hin). apply in_map_iff in Hin. destruct Hin as (p' & [= -> ->] & Hp). apply in_seq in Hp.
      assert (Vl : valid_lead (length sigmas) l) by (rewrite map_length; apply Hv; auto).
      destruct (@good_at R n coords sigmas L4 l Vl) as (E1 & E2 & E3). apply E3. pose proof (@size_len R n coords sigmas L4 l Vl) as Esl. fold sizes in Esl. rewrite Esl in Hp. lia. }
    assert (Hro : orb coords lo pa < n) by (apply (Hsig lo pa o Vo); eapply nth_error_In; eauto).
    assert (Hci : orb coords li pb < n) by (apply (Hsig li pb i Vi); eapply nth_error_In; eauto).
    rewrite X4 by auto. rewrite Hkr. unfold gf_full. cbn [fst snd]. change (nth pa (nth (Z.to_nat lo) coords []) 0) with (orb coords lo pa). change (nth pb (nth (Z.to_nat li) coords []) 0) with (orb coords li pb).
    set (xo := orb coords lo pa) in *. set (xi := orb coords li pb) in *. set (D := inverse_gf (mget (y_ham y)) en coords sigmas) in *.
    assert (HDX : forall x, x < n -> sum R n (fun z => D x z *! X z c) = delta R x xi).
    { intros x Hx'. assert (E : rv (x_lhs ls) (fun z => X z c) x = mget M x c) by (apply X1; lia). rewrite (L3 (fun z => X z c) x Hx'), (HMc x Hx') in E. fold D in E.
      transitivity (ropp R (ropp R (sum R n (fun z => D x z *! X z c)))); [ring|]. rewrite E. unfold delta. rewrite Nat.eqb_sym. destruct (x =? xi); ring. }
    (* X = G D X *)
    transitivity (sum R n (fun z => delta R xo z *! X z c)); [symmetry; apply (@sum_delta_l R n xo (fun z => X z c)); auto|].
    transitivity (sum R n (fun u => G xo u *! delta R u xi)).
    + transitivity (sum R n (fun z => sum R n (fun u => G xo u *! D u z) *! X z c)).
      { apply sum_ext. intros z Hz'. f_equal. symmetry. apply (HG xo z Hro Hz'). }
      transitivity (sum R n (fun u => G xo u *! sum R n (fun z => D u z *! X z c))).
      { transitivity (sum R n (fun z => sum R n (fun u => G xo u *! (D u z *! X z c)))); [apply sum_ext; intros z _; rewrite <- sum_mul_r; apply sum_ext; intros; ring|].
        rewrite sum_swap. apply sum_ext. intros u _. apply sum_mul_l. }
      apply sum_ext. intros u Hu. rewrite HDX by auto. reflexivity.
    + transitivity (sum R n (fun u => if u =? xi then G xo u else O0)); [apply sum_ext; intros u _; unfold delta; destruct (u =? xi); ring|]. apply (@sum_delta R n xi (fun u => G xo u)). auto.
Qed.
End Top.
