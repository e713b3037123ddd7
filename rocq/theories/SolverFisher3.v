(** * smatrix and greens_function give the same transmissions. *)
From Coq Require Import List Bool Arith ZArith Ring Lia.
From Verif Require Import StarRing SubmatrixModel SolverModel SolverSpec SolverProofs SolverLinear SolverLinear2 SolverMain SolverFlux SolverField SolverFisher SolverFisher2 SolverUnitary.
From Verif Require SubmatrixMain.
Import ListNotations.
Set Implicit Arguments.

Lemma modes_NoDup_leads sizes leads : NoDup leads -> NoDup (modes_of sizes leads).
Proof.
  intros H. unfold modes_of. apply SubmatrixMain.flat_map_NoDup; auto.
  - intros a _. apply FinFun.Injective_map_NoDup; [intros x x' [= ->]; auto|apply seq_NoDup].
  - intros a b x Ha Hb Hx Hx'. apply in_map_iff in Hx, Hx'. destruct Hx as (p & <- & _), Hx' as (p' & [= E E'] & _). auto.
Qed.
Lemma elem_data {R : StarRing} sizes out inn (d : mat R) : NoDup out -> NoDup inn -> mr d = length (modes_of sizes out) -> mc d = length (modes_of sizes inn) ->
  data_for sizes (elem sizes out inn d) out inn d.
Proof.
  intros Ho Hi H1 H2. split; [auto|split; [auto|]]. intros r c x x' Hr Hc. unfold elem.
  rewrite (mode_index_nth (modes_NoDup_leads sizes Ho) _ Hr), (mode_index_nth (modes_NoDup_leads sizes Hi) _ Hc). reflexivity.
Qed.

Section FL.
Variable R : StarRing.
Add Ring RringFT : (r_theory R).
Notation mat := (mat R).
Notation conj := (rconj R).
Notation "x +! y" := (radd R x y) (at level 50, left associativity).
Notation "x -! y" := (rsub R x y) (at level 50, left associativity).
Notation "x *! y" := (rmul R x y) (at level 40, left associativity).
Notation O0 := (r0 R).
Hypothesis HF : is_field R.
Variable herm_ok : mat -> bool.
Variable solve : mat -> mat -> list nat -> sres mat.
Hypothesis EX : exact_solver solve.
Variable lsolve : mat -> mat -> sres mat.
Hypothesis EL : exact_lsolve lsolve.
Variable y : syst R.
Hypothesis GS : good_syst y.
Variable en : R.
Notation n := (mr (y_ham y)).
Notation leads := (y_leads y).
Notation nl := (length leads).
Notation orbs := (lead_orbs (y_norb y)).
Notation coords := (map orbs leads).
Notation sigmas := (map (@l_sigma R) leads).
Notation counts := (mode_counts y).
Hypothesis ML : forall l, In l leads -> mode_lead lsolve y l.
Hypothesis HN : no_empty_lead y.
Variable G : nat -> nat -> R.
Hypothesis HG : inverses n (inverse_gf (mget (y_ham y)) en coords sigmas) G.
Variable nch : mat -> nat.
Hypothesis Hch : forall l, In l leads -> nch (l_sigma l) = lead_nmodes l.

Lemma count_at k l : nth_error leads k = Some l -> size counts (Z.of_nat k) = lead_nmodes l.
Proof. intros H. unfold size, mode_counts. rewrite Nat2Z.id. exact (nth_error_nth _ _ 0 (map_nth_error lead_nmodes _ _ H)). Qed.
Lemma orb_at k l p : nth_error leads k = Some l -> orb coords (Z.of_nat k) p = nth p (orbs l) 0.
Proof. intros H. unfold orb. rewrite Nat2Z.id, (nth_error_nth _ _ [] (map_nth_error orbs _ _ H)). reflexivity. Qed.
Lemma len_at k l : nth_error leads k = Some l -> len coords (Z.of_nat k) = length (orbs l).
Proof. intros H. unfold len. rewrite Nat2Z.id, (nth_error_nth _ _ [] (map_nth_error orbs _ _ H)). reflexivity. Qed.
Lemma sig_at k l : nth_error leads k = Some l -> sig sigmas (Z.of_nat k) = l_sigma l.
Proof. intros H. unfold sig. rewrite Nat2Z.id. exact (nth_error_nth _ _ _ (map_nth_error (@l_sigma R) _ _ H)). Qed.
Lemma gam_at k l m Ai p q : nth_error leads k = Some l -> l_modes l = Some m -> unit_currents m ->
  inverses (mr (m_u m)) (fun k j => mget (m_ulinv m) k (m_nprop m + j)) Ai -> mr (m_v m) = length (orbs l) -> mode_selfenergy lsolve m = inl (l_sigma l) ->
  p < length (orbs l) -> q < length (orbs l) -> gam sigmas (Z.of_nat k) p q = Gx m Ai p q.
Proof.
  intros Hk Hm UC HA Hv Hs Hp Hq. assert (GM : good_modes m) by (apply (proj2 (proj2 (proj2 GS)) l m); auto; eapply nth_error_In; eauto).
  destruct (selfenergy_S0 EL GM HA Hs) as (_ & _ & E). rewrite Hv in E. unfold gam. rewrite (sig_at _ Hk), !E by auto. exact (@gamma_X R m GM UC Ai HA p q).
Qed.

(** the elements of the scattering matrix, given by the scattering states *)
Theorem T_gfT (full : mode -> mode -> R) o i : o < nl -> i < nl ->
  (forall lo mo, nth_error leads o = Some lo -> l_modes lo = Some mo -> forall li mi, nth_error leads i = Some li -> l_modes li = Some mi -> 
    forall a b, a < m_nprop mo -> b < m_nprop mi -> exists psi amp, scattering y en (unit_mode i b) psi amp /\ full (Z.of_nat o, a) (Z.of_nat i, b) = amp o a) ->
  T counts full (Z.of_nat o) (Z.of_nat i) = gfT coords sigmas G nch (Z.of_nat o) (Z.of_nat i).
Proof.
  intros Ho Hi Hfull. destruct HF as (inv & Hinv).
  destruct (nth_error leads o) as [lo|] eqn:Elo; [|apply nth_error_None in Elo; lia]. destruct (nth_error leads i) as [li|] eqn:Eli; [|apply nth_error_None in Eli; lia].
  destruct (ML lo (nth_error_In _ _ Elo)) as (mo & Hmo & UCo & (Ao & HAo) & Hvo & Hso).
  destruct (ML li (nth_error_In _ _ Eli)) as (mi & Hmi & UCi & (Ai & HAi) & Hvi & Hsi).
  assert (GMo : good_modes mo) by (apply (proj2 (proj2 (proj2 GS)) lo mo); auto; eapply nth_error_In; eauto).
  assert (GMi : good_modes mi) by (apply (proj2 (proj2 (proj2 GS)) li mi); auto; eapply nth_error_In; eauto).
  assert (So : size counts (Z.of_nat o) = m_nprop mo) by (rewrite (count_at _ Elo); unfold lead_nmodes; rewrite Hmo; reflexivity).
  assert (Si : size counts (Z.of_nat i) = m_nprop mi) by (rewrite (count_at _ Eli); unfold lead_nmodes; rewrite Hmi; reflexivity).
  set (Gm := fun q p => G (nth q (orbs lo) 0) (nth p (orbs li) 0)).
  set (F := fun a b => Tm R (length (orbs lo)) (length (orbs li)) (X mo Ao) Gm (W mi Ai) a b -! (if o =? i then Q mo Ao a b else O0)).
  assert (EF : forall a b, a < m_nprop mo -> b < m_nprop mi -> full (Z.of_nat o, a) (Z.of_nat i, b) = F a b).
  { intros a b Ha Hb. destruct (Hfull lo mo eq_refl Hmo li mi eq_refl Hmi a b Ha Hb) as (psi & amp & Sc & ->).
    apply (@amp_G R lsolve EL y GS en ML i b psi amp Sc li mi Ai Eli Hmi Hb HAi G HG o lo mo Ao Elo Hmo HAo). destruct GMo as (_ & _ & _ & _ & _ & G6). lia. }
  unfold T. rewrite So, Si.
  transitivity (sum R (m_nprop mo) (fun a => sum R (m_nprop mi) (fun b => conj (F a b) *! F a b))).
  { apply sum_ext. intros a Ha. apply sum_ext. intros b Hb. rewrite EF by auto. reflexivity. }
  assert (E4 : sum R (m_nprop mo) (fun a => sum R (m_nprop mi) (fun b => conj (Tm R (length (orbs lo)) (length (orbs li)) (X mo Ao) Gm (W mi Ai) a b) *! Tm R (length (orbs lo)) (length (orbs li)) (X mo Ao) Gm (W mi Ai) a b)) = tr4 coords sigmas G (Z.of_nat o) (Z.of_nat i)).
  { rewrite T_tr4. unfold tr4. rewrite (len_at _ Elo), (len_at _ Eli).
    apply sum_ext. intros p Hp. apply sum_ext. intros p' Hp'. apply sum_ext. intros q Hq. apply sum_ext. intros q' Hq'.
    rewrite (@gam_at o lo mo Ao p p' Elo Hmo UCo HAo Hvo Hso Hp Hp'), (@gam_at i li mi Ai q q' Eli Hmi UCi HAi Hvi Hsi Hq Hq').
    rewrite (@WW R inv Hinv mi GMi UCi Ai HAi q q'), !(orb_at _ _ Elo), !(orb_at _ _ Eli). reflexivity. }
  unfold gfT. destruct (Z.eqb_spec (Z.of_nat o) (Z.of_nat i)) as [Eoi|Noi].
  - assert (o = i) by lia. subst i. assert (li = lo) by congruence. subst li. assert (mi = mo) by congruence. subst mi.
    assert (EQ : forall a b, b < m_nprop mo -> a < mr (m_u mo) -> Q mo Ao a b = Q mo Ai a b).
    { intros a b Hb Ha. rewrite <- (@AiA R mo Ai HAi (fun j => Q mo Ao j b) a Ha). unfold Q at 2. apply sum_ext. intros k Hk. f_equal. symmetry. exact (@B_Q R mo Ao HAo k b Hk). }
    assert (EX' : forall a p, a < mr (m_u mo) -> X mo Ao a p = X mo Ai a p).
    { intros a p Ha. rewrite <- (@AiA R mo Ai HAi (fun j => X mo Ao j p) a Ha). unfold X at 2. apply sum_ext. intros k Hk. f_equal. unfold X. exact (@AX R mo Ao HAo (fun k' => conj (mget (m_v mo) p k')) k Hk). }
    unfold F. rewrite Nat.eqb_refl. rewrite <- E4. destruct GMo as (M1 & M2 & M3 & M4 & M5 & M6).
    transitivity (sum R (m_nprop mo) (fun a => sum R (m_nprop mo) (fun b => conj (Tm R (length (orbs lo)) (length (orbs lo)) (X mo Ai) Gm (W mo Ai) a b -! Q mo Ai a b) *! (Tm R (length (orbs lo)) (length (orbs lo)) (X mo Ai) Gm (W mo Ai) a b -! Q mo Ai a b)))).
    { apply sum_ext. intros a Ha. apply sum_ext. intros b Hb.
      assert (ET : Tm R (length (orbs lo)) (length (orbs lo)) (X mo Ao) Gm (W mo Ai) a b = Tm R (length (orbs lo)) (length (orbs lo)) (X mo Ai) Gm (W mo Ai) a b).
      { unfold Tm. apply sum_ext. intros q _. rewrite EX' by lia. reflexivity. }
      rewrite ET, EQ by lia. reflexivity. }
    rewrite (@refl R inv Hinv mo GMi UCi Ai HAi (length (orbs lo)) Gm). cbv zeta. f_equal.
    + apply sum_ext. intros a Ha. apply sum_ext. intros b Hb.
      assert (ET : Tm R (length (orbs lo)) (length (orbs lo)) (X mo Ao) Gm (W mo Ai) a b = Tm R (length (orbs lo)) (length (orbs lo)) (X mo Ai) Gm (W mo Ai) a b).
      { unfold Tm. apply sum_ext. intros q _. rewrite EX' by lia. reflexivity. }
      rewrite ET. reflexivity.
    + assert (E2 : tr2 coords sigmas G (Z.of_nat o) = sum R (length (orbs lo)) (fun p => sum R (length (orbs lo)) (fun p' => Gx mo Ai p p' *! Gm p' p))).
      { unfold tr2. rewrite (len_at _ Elo). apply sum_ext. intros p Hp. apply sum_ext. intros p' Hp'. rewrite (@gam_at o lo mo Ai p p' Elo Hmo UCi HAi Hvi Hsi Hp Hp'), !(orb_at _ _ Elo). reflexivity. }
      rewrite E2, (sig_at _ Elo), (Hch lo (nth_error_In _ _ Elo)). unfold lead_nmodes. rewrite Hmo. reflexivity.
  - assert (Hne : o <> i) by congruence. unfold F. rewrite (proj2 (Nat.eqb_neq o i) Hne), <- E4. apply sum_ext. intros a _. apply sum_ext. intros b _.
    match goal with |- conj (?t -! O0) *! _ = _ => replace (t -! O0) with t by ring end. reflexivity.
Qed.

Theorem smatrix_gfT check out inn q : nonneg_leads (lead_list nl out) -> nonneg_leads (lead_list nl inn) ->
  smatrix herm_ok solve y en out inn check = inl q -> forall o i, In o (lead_list nl out) -> In i (lead_list nl inn) ->
  T counts (elem counts (lead_list nl out) (lead_list nl inn) (q_data q)) o i = gfT coords sigmas G nch o i.
Proof.
  intros Ho Hi H o i Ino Ini.
  destruct (@smatrix_scattering R herm_ok solve EX y GS en check out inn q HN Ho Hi H) as (Go & Gi & _ & M1 & M2 & MS).
  destruct (proj2 Go o Ino) as [O1 O2]. destruct (proj2 Gi i Ini) as [I1 I2].
  replace o with (Z.of_nat (Z.to_nat o)) in * by lia. replace i with (Z.of_nat (Z.to_nat i)) in * by lia. set (o' := Z.to_nat o) in *. set (i' := Z.to_nat i) in *.
  apply T_gfT; [lia|lia|]. intros lo mo Elo Hmo li mi Eli Hmi a b Ha Hb.
  assert (So : size counts (Z.of_nat o') = m_nprop mo) by (rewrite (count_at _ Elo); unfold lead_nmodes; rewrite Hmo; reflexivity).
  assert (Si : size counts (Z.of_nat i') = m_nprop mi) by (rewrite (count_at _ Eli); unfold lead_nmodes; rewrite Hmi; reflexivity).
  assert (Ir : In (Z.of_nat o', a) (modes_of counts (lead_list nl out))). { unfold modes_of. apply in_flat_map. exists (Z.of_nat o'). split; auto. apply in_map, in_seq. lia. }
  assert (Ic : In (Z.of_nat i', b) (modes_of counts (lead_list nl inn))). { unfold modes_of. apply in_flat_map. exists (Z.of_nat i'). split; auto. apply in_map, in_seq. lia. }
  assert (NE : modes_of counts (lead_list nl out) <> []) by (intros E; rewrite E in Ir; destruct Ir).
  apply In_nth_error in Ir, Ic. destruct Ir as (r & Hr). destruct Ic as (c & Hc).
  destruct (MS NE c (Z.of_nat i') b Hc) as (psi & amp & Sc & Am). exists psi, amp. rewrite Nat2Z.id in Sc. split; auto.
  unfold elem. rewrite (mode_index_nth (modes_NoDup_leads counts (proj1 Go)) _ Hr), (mode_index_nth (modes_NoDup_leads counts (proj1 Gi)) _ Hc).
  rewrite (Am r (Z.of_nat o') a Hr), Nat2Z.id. reflexivity.
Qed.
End FL.
