(** * From the linear system to scattering states. *)
From Coq Require Import List Bool Arith ZArith Ring Lia.
From Verif Require Import StarRing SubmatrixModel SolverModel SolverSpec SolverProofs SolverLinear.
Import ListNotations.
Set Implicit Arguments.

Lemma F2_len {A B} (P : A -> B -> Prop) l l' : Forall2 P l l' -> length l = length l'.
Proof. induction 1; cbn; auto. Qed.
(** ** Increasing lists of leads *)
Lemma increasing_cons x l : increasing (x :: l) = true -> increasing l = true /\ forall z, In z l -> (x < z)%Z.
Proof.
  revert x. induction l as [|z l IH]; intros x H; [split; auto; intros z []|].
  change (increasing (x :: z :: l)) with ((x <? z)%Z && increasing (z :: l)) in H. apply andb_true_iff in H. destruct H as [H1 H2]. apply Z.ltb_lt in H1.
  split; auto. intros w [<-|Hw]; auto. destruct (IH z H2) as [_ H3]. specialize (H3 w Hw). lia.
Qed.
Lemma increasing_eq l : increasing l = true -> forall l', increasing l' = true -> (forall z, In z l <-> In z l') -> l = l'.
Proof.
  induction l as [|x l IH]; intros H l' H' E.
  - destruct l' as [|z l']; auto. exfalso. apply (E z). left; auto.
  - destruct l' as [|x' l']; [exfalso; apply (E x); left; auto|].
    destruct (increasing_cons _ _ H) as [H1 H2]. destruct (increasing_cons _ _ H') as [H1' H2'].
    assert (x = x').
    { destruct (proj1 (E x) (or_introl eq_refl)) as [|Hx]; auto. destruct (proj2 (E x') (or_introl eq_refl)) as [|Hx']; auto.
      specialize (H2 x' Hx'). specialize (H2' x Hx). lia. }
    subst x'. f_equal. apply IH; auto. intros z. split; intros Hz.
    + destruct (proj1 (E z) (or_intror Hz)) as [<-|]; auto. specialize (H2 x Hz). lia.
    + destruct (proj2 (E z) (or_intror Hz)) as [<-|]; auto. specialize (H2' x Hz). lia.
Qed.
Lemma increasing_NoDup l : increasing l = true -> NoDup l.
Proof. induction l as [|x l IH]; intros H; constructor; destruct (increasing_cons _ _ H) as [H1 H2]; auto. intros Hx. specialize (H2 x Hx). lia. Qed.
Lemma increasing_of x l : (forall z, In z l -> (x < z)%Z) -> increasing l = true -> increasing (x :: l) = true.
Proof. intros H Hl. destruct l as [|z l]; auto. change (increasing (x :: z :: l)) with ((x <? z)%Z && increasing (z :: l)). rewrite Hl, (proj2 (Z.ltb_lt x z)); auto. apply H. left; auto. Qed.
Lemma increasing_filter p l : increasing l = true -> increasing (filter p l) = true.
Proof.
  induction l as [|x l IH]; intros H; auto. destruct (increasing_cons _ _ H) as [H1 H2]. cbn [filter]. destruct (p x); auto.
  apply increasing_of; auto. intros z Hz. apply filter_In in Hz. apply H2. tauto.
Qed.
Lemma increasing_all n : increasing (all_leads n) = true.
Proof.
  unfold all_leads. generalize 0 as s. induction n as [|n IH]; intros s; auto. cbn [seq map]. apply increasing_of; auto.
  intros z Hz. apply in_map_iff in Hz. destruct Hz as (k & <- & Hk). apply in_seq in Hk. lia.
Qed.
Lemma filter_leads n l : increasing l = true -> (forall z, In z l -> valid_lead n z) -> filter (fun z => zmem z l) (all_leads n) = l.
Proof.
  intros H Hv. symmetry. apply increasing_eq; auto; [apply increasing_filter, increasing_all|].
  intros z. rewrite filter_In, zmem_iff. split; [|tauto]. intros Hz. split; auto. destruct (Hv z Hz) as [A B]. unfold all_leads. apply in_map_iff. exists (Z.to_nat z). split; [lia|]. apply in_seq. lia.
Qed.
Lemma flat_map_filter {A B} (p : A -> bool) (f : A -> list B) l : flat_map f (filter p l) = flat_map (fun x => if p x then f x else []) l.
Proof. induction l as [|x l IH]; auto. cbn. destruct (p x); cbn; rewrite IH; auto. Qed.
Lemma flat_map_map {A B C} (f : B -> list C) (g : A -> B) l : flat_map f (map g l) = flat_map (fun x => f (g x)) l.
Proof. induction l as [|x l IH]; auto. cbn. rewrite IH. auto. Qed.
(** the modes of increasing valid leads, as a sum over all leads *)
Lemma modes_of_all sizes n l : increasing l = true -> (forall z, In z l -> valid_lead n z) ->
  modes_of sizes l = flat_map (fun k => if zmem (Z.of_nat k) l then map (pair (Z.of_nat k)) (seq 0 (nth k sizes 0)) else []) (seq 0 n).
Proof.
  intros H Hv. unfold modes_of. rewrite <- (@filter_leads n l H Hv) at 1. rewrite flat_map_filter. unfold all_leads. rewrite flat_map_map.
  apply flat_map_ext. intros k. unfold size. rewrite Nat2Z.id. reflexivity.
Qed.

Section Linear.
Variable R : StarRing.
Add Ring RringL2 : (r_theory R).
Notation mat := (mat R).
Notation conj := (rconj R).
Notation "x +! y" := (radd R x y) (at level 50, left associativity).
Notation "x -! y" := (rsub R x y) (at level 50, left associativity).
Notation "x *! y" := (rmul R x y) (at level 40, left associativity).
Notation O0 := (r0 R).

(** ** Stacked columns *)
Definition lcols {K} (l : list (K * mat)) : list ((K * mat) * nat) := flat_map (fun kb => map (pair kb) (seq 0 (mc (snd kb)))) l.
Lemma hstack_cols {K} (l : list (K * mat)) : forall acc ac M,
  (mc acc = length ac /\ forall c (kb : K * mat) b, nth_error ac c = Some (kb, b) -> forall i, mget acc i c = mget (snd kb) i b) ->
  hstack_list R acc (map snd l) = inl M ->
  mr M = mr acc /\ mc M = length (ac ++ lcols l) /\ forall c kb b, nth_error (ac ++ lcols l) c = Some (kb, b) -> forall i, mget M i c = mget (snd kb) i b.
Proof.
  induction l as [|[k B] l IH]; intros acc ac M [A1 A2] H; cbn [map snd hstack_list] in H.
  - injection H as <-. cbn. rewrite app_nil_r. auto.
  - apply sbind_inl in H. destruct H as (m & Hm & H). apply hstack_inl in Hm. destruct Hm as (E1 & E2 & E3 & E4).
    destruct (IH m (ac ++ map (pair (k, B)) (seq 0 (mc B))) M) as (F1 & F2 & F3); auto.
    + split; [rewrite app_length, map_length, seq_length; lia|]. intros c kb b Hc i. rewrite E4. destruct (c <? mc acc) eqn:Ec.
      * apply Nat.ltb_lt in Ec. rewrite nth_error_app1 in Hc by lia. apply A2. auto.
      * apply Nat.ltb_ge in Ec. rewrite nth_error_app2 in Hc by lia. 
        assert (Hlt : c - length ac < mc B). { apply Nat.lt_le_trans with (length (map (pair (k, B)) (seq 0 (mc B)))); [apply nth_error_Some; congruence|rewrite map_length, seq_length; auto]. }
        rewrite (map_nth_error (pair (k, B)) _ (seq 0 (mc B)) (seq_nth_error Hlt)) in Hc. injection Hc as <- <-. rewrite A1. reflexivity.
    + split; [lia|]. unfold lcols in *. cbn [flat_map snd]. rewrite app_assoc. split; auto.
Qed.
Lemma hstack_all {K} (l : list (K * mat)) a r M : map snd l = a :: r -> hstack_list R a r = inl M ->
  mr M = mr a /\ mc M = length (lcols l) /\ forall c kb b, nth_error (lcols l) c = Some (kb, b) -> forall i, mget M i c = mget (snd kb) i b.
Proof.
  intros El H. destruct l as [|[k B] l]; [discriminate|]. cbn in El. injection El as -> <-.
  destruct (@hstack_cols K l a (map (pair (k, a)) (seq 0 (mc a))) M) as (F1 & F2 & F3); auto.
  split; [rewrite map_length, seq_length; auto|]. intros c kb b Hc i.
  assert (Hlt : c < mc a). { apply Nat.lt_le_trans with (length (map (pair (k, a)) (seq 0 (mc a)))); [apply nth_error_Some; congruence|rewrite map_length, seq_length; auto]. }
  rewrite (map_nth_error (pair (k, a)) _ (seq 0 (mc a)) (seq_nth_error Hlt)) in Hc. injection Hc as <- <-. reflexivity.
Qed.

(** ** The assembled system *)
Variable herm_ok : mat -> bool.
Variable y : syst R.
Hypothesis GS : good_syst y.
Variable en : R.
Variable check : bool.
Notation n := (mr (y_ham y)).
Notation leads := (y_leads y).
Notation base := (base y).
Notation orbs := (lead_orbs (y_norb y)).
Notation NN := (base (length leads)).

Section Inn.
Variable inn : list Z.
Definition blk_ok (k : nat) (l : lead R) (B : mat) : Prop :=
  mr B = NN /\ mc B = (if zmem (Z.of_nat k) inn then nprop l else 0) /\
  forall m j, l_modes l = Some m -> j < mc B ->
    (forall r, r < n -> mget B r j = ropp R (sum R (length (orbs l)) (fun q => if nth q (orbs l) 0 =? r then vu m q j else O0))) /\
    (forall kk, kk < mr (m_u m) -> mget B (base k + kk) j = mget (m_ulinv m) kk j) /\
    (forall r, n <= r -> r < NN -> (r < base k \/ base k + mr (m_u m) <= r) -> mget B r j = O0).

Variables (ls : linsys R) (info : list (linfo R)).
Hypothesis HM : make_linear_sys herm_ok y inn en check false = inl (ls, info).

Lemma mls_inv : exists h0 z, inv y inn h0 (length leads) z /\ x_lhs ls = z_lhs z /\ x_norb ls = n /\ x_indices ls = z_indices z /\ info = z_info z /\
  smap (finish_rhs (z_lhs z)) (z_rhs z) = inl (x_rhs ls) /\
  (forall X r, r < n -> rv h0 X r = sum R n (fun z => (mget (y_ham y) r z -! en *! delta R r z) *! X z)) /\ leads <> [].
Proof.
  unfold make_linear_sys in HM. destruct (y_leads y) as [|l0 ll] eqn:El; [discriminate|]. rewrite <- El in *.
  apply sbind_inl in HM. destruct HM as (h0 & Hh & H). apply madd_inl in Hh. destruct Hh as (A1 & A2 & A3 & A4 & A5).
  destruct (check && negb (herm_ok h0)); [discriminate|].
  apply sbind_inl in H. destruct H as (z & Hz & H). apply sbind_inl in H. destruct H as (rhs & Hr & [= <- <-]).
  assert (Ec : mc (y_ham y) = n) by apply GS.
  exists h0, z. split; [|cbn [x_lhs x_norb x_indices x_rhs]; repeat split; auto].
  - apply (@loop_inv R y GS inn h0 (offsets 0 (y_norb y)) eq_refl leads 0 (@mkLS R h0 [] [] []) z); auto.
    split; cbn [z_lhs z_rhs z_indices z_info firstn seq combine map].
    + rewrite A3. unfold SolverLinear.base. cbn. lia.
    + rewrite A4, Ec. unfold SolverLinear.base. cbn. lia.
    + intros X r Hr'. rewrite lsum_nil. ring.
    + intros; lia.
    + split; auto. intros; lia.
    + auto.
    + auto.
  - intros X r Hr'. unfold rv. rewrite A4, Ec. apply sum_ext. intros c Hc. rewrite A5. cbn [mneg mid mget]. unfold delta. destruct (r =? c); ring.
  - rewrite El. discriminate.
Qed.

Lemma rhs_ok : length (x_rhs ls) = length leads /\ forall k l, nth_error leads k = Some l -> exists B, nth_error (x_rhs ls) k = Some B /\ blk_ok k l B.
Proof.
  destruct mls_inv as (h0 & z & Hi & E1 & E2 & E3 & E4 & E5 & _ & _). apply smap_inl in E5. destruct (i_rhs Hi) as [L1 L2].
  split; [rewrite <- L1; symmetry; eapply F2_len; eauto|]. intros k l Hl.
  assert (Hk : k < length leads) by (apply nth_error_Some; congruence).
  assert (Hin : In l leads) by (eapply nth_error_In; eauto).
  destruct (L2 k l Hk Hl) as (p & Hp & Hok). destruct (@F2_nth_error _ _ _ _ _ _ _ E5 Hp) as (B & HB & HF). exists B. split; auto.
  unfold part_ok in Hok. unfold blk_ok. destruct (active inn k l) eqn:Ea.
  - destruct Hok as (m & top & mi & Em & -> & T1 & T2 & T3 & T4 & T5 & T6). unfold finish_rhs in HF.
    destruct (mr top + mr mi <=? mr (z_lhs z)) eqn:Ele; [|discriminate]. apply Nat.leb_le in Ele. rewrite (i_r Hi) in *.
    apply sbind_inl in HF. destruct HF as (a & Ha & HF). apply vstack_inl in Ha. destruct Ha as (V0 & V1 & V2 & V3).
    apply vstack_inl in HF. cbn [mr mc mget] in HF. destruct HF as (W0 & W1 & W2 & W3).
    apply andb_true_iff in Ea. destruct Ea as [Ez En]. rewrite Ez. unfold nprop in *. rewrite Em in *.
    assert (Hcol : forall r j, mget B r j = if r <? base k then mget top r j else if r <? base k + mr (m_u m) then mget mi (r - base k) j else O0).
    { intros r j. rewrite W3, V2, T1, T3. destruct (r <? base k + mr (m_u m)) eqn:E1'; [|apply Nat.ltb_ge in E1'; replace (r <? base k) with false by (symmetry; apply Nat.ltb_ge; lia); reflexivity].
      rewrite V3, T1. reflexivity. }
    split; [lia|]. split; [lia|]. intros m' j [= <-] Hj. pose proof (base_ge y k) as Hb. split; [|split].
    + intros r Hr. rewrite Hcol. replace (r <? base k) with true by (symmetry; apply Nat.ltb_lt; lia). apply T5. lia.
    + intros kk Hkk. rewrite Hcol. replace (base k + kk <? base k) with false by (symmetry; apply Nat.ltb_ge; lia).
      replace (base k + kk <? base k + mr (m_u m)) with true by (symmetry; apply Nat.ltb_lt; lia). replace (base k + kk - base k) with kk by lia. apply T6.
    + intros r Hr1 Hr2 [Hr3|Hr3]; rewrite Hcol.
      * apply Nat.ltb_lt in Hr3. rewrite Hr3. rewrite T5 by lia. transitivity (ropp R O0); [|ring]. f_equal. apply sum_zero. intros q Hq.
        destruct (Nat.eqb_spec (nth q (orbs l) 0) r) as [Er|]; auto. exfalso. assert (r < n); [|lia]. rewrite <- Er. apply (@orbs_lt R y GS l); auto. apply nth_In; auto.
      * replace (r <? base k) with false by (symmetry; apply Nat.ltb_ge; lia). replace (r <? base k + mr (m_u m)) with false by (symmetry; apply Nat.ltb_ge; lia). reflexivity.
  - subst p. cbn [finish_rhs] in HF. injection HF as <-. cbn [mr mc mget]. rewrite (i_r Hi). split; auto.
    assert (E : (if zmem (Z.of_nat k) inn then nprop l else 0) = 0). { unfold active in Ea. destruct (zmem (Z.of_nat k) inn); auto. cbn [andb] in Ea. apply Nat.ltb_ge in Ea. lia. }
    rewrite E. split; auto. intros; lia.
Qed.

Lemma lsum_combine_pick (F : lead R -> R) : forall (ll : list (lead R)) s num l, nth_error ll num = Some l ->
  lsum R (fun kl => if fst kl =? s + num then F (snd kl) else O0) (combine (seq s (length ll)) ll) = F l.
Proof.
  induction ll as [|x ll IH]; intros s num l H; [destruct num; discriminate|]. cbn [length seq combine]. rewrite lsum_cons. cbn [fst snd].
  destruct num as [|num]; cbn [nth_error] in H.
  - injection H as ->. rewrite Nat.add_0_r, Nat.eqb_refl. rewrite lsum_zero; [ring|]. intros [k l'] Hin. apply in_combine_l in Hin. apply in_seq in Hin. cbn.
    destruct (Nat.eqb_spec k s); [lia|auto].
  - replace (s =? s + S num) with false by (symmetry; apply Nat.eqb_neq; lia). rewrite <- Nat.add_succ_comm, (IH (S s) num l H). ring.
Qed.

(** A solution of the system with column j of the block of lead k is a
    scattering state with unit amplitude in mode j of lead k. *)
Lemma solution_scattering k l B j X : nth_error leads k = Some l -> nth_error (x_rhs ls) k = Some B -> j < mc B ->
  (forall r, r < NN -> rv (x_lhs ls) X r = mget B r j) ->
  scattering y en (unit_mode k j) X (fun num a => X (base num + a)).
Proof.
  intros Hl HB Hj HX. destruct mls_inv as (h0 & z & Hi & E1 & E2 & E3 & E4 & E5 & Hh & _). rewrite E1 in HX.
  destruct rhs_ok as [_ Hok]. destruct (Hok k l Hl) as (B' & HB' & K1 & K2 & K3). assert (B' = B) by congruence. subst B'. clear HB'.
  assert (Hz : zmem (Z.of_nat k) inn = true /\ j < nprop l) by (destruct (zmem (Z.of_nat k) inn); [split; [auto|lia]|lia]). destruct Hz as [Hz Hjn].
  unfold nprop in Hjn. destruct (l_modes l) as [m|] eqn:Em; [|lia]. destruct (K3 m j eq_refl Hj) as (T1 & T2 & T3).
  assert (Hunit : forall num np (f : nat -> R), (num = k -> j < np) -> sum R np (fun j' => f j' *! unit_mode k j num j') = if num =? k then f j else O0).
  { intros num np f Hnp. unfold unit_mode. destruct (Nat.eqb_spec num k) as [->|N].
    - transitivity (sum R np (fun j' => if j' =? j then f j' else O0)); [apply sum_ext; intros; cbn [andb]; destruct (i =? j); ring|]. apply sum_delta; auto.
    - cbn [andb]. apply sum_zero. intros. ring. }
  pose proof (base_ge y (length leads)) as Hge.
  assert (Hk : k < length leads) by (apply nth_error_Some; congruence).
  split.
  - intros x Hx. rewrite <- Hh by auto.
    transitivity (rv (z_lhs z) X x +! lsum R (fun kl => if fst kl =? 0 + k then sum R (length (orbs (snd kl))) (fun q => if nth q (orbs (snd kl)) 0 =? x then vu m q j else O0) else O0) (combine (seq 0 (length leads)) leads)).
    + rewrite (i_top Hi X Hx). rewrite firstn_all. 
      match goal with |- ?a +! ?b = ?a' +! ?b' +! ?c => transitivity (a +! (b' +! c)); [|ring] end. f_equal. rewrite <- lsum_add. apply lsum_ext.
      intros [num l'] Hin. cbn [fst snd Nat.add].
      assert (Hnl : nth_error leads num = Some l').
      { apply In_nth_error in Hin. destruct Hin as (i & Hi'). assert (Hi2 : i < length leads). { apply Nat.lt_le_trans with (length (combine (seq 0 (length leads)) leads)); [apply nth_error_Some; congruence|rewrite combine_length; lia]. }
        destruct (nth_error leads i) as [li|] eqn:Eli; [|apply nth_error_None in Eli; lia].
        assert (Ec : nth_error (combine (seq 0 (length leads)) leads) i = Some (i, li)).
        { clear -Hi2 Eli. assert (G : forall (ll : list (lead R)) s i li, nth_error ll i = Some li -> nth_error (combine (seq s (length ll)) ll) i = Some (s + i, li)).
          { induction ll as [|x ll IH]; intros s i' li' H; [destruct i'; discriminate|]. destruct i' as [|i']; cbn in *; [injection H as ->; rewrite Nat.add_0_r; auto|]. rewrite (IH (S s) _ _ H). f_equal. f_equal. lia. }
          apply (G leads 0 i li Eli). }
        rewrite Ec in Hi'. injection Hi' as <- <-. auto. }
      unfold lead_force, oforce. destruct (l_modes l') as [m'|] eqn:Em'.
      * assert (Hnp : num = k -> j < m_nprop m') by (intros ->; assert (l' = l) by congruence; subst; assert (m' = m) by congruence; subst; auto).
        destruct (Nat.eqb_spec num k) as [->|N].
        -- assert (l' = l) by congruence. subst l'. assert (m' = m) by congruence. subst m'. rewrite <- sum_add. apply sum_ext. intros p Hp.
           destruct (nth p (orbs l) 0 =? x); [|ring]. rewrite Hunit by auto. rewrite Nat.eqb_refl. reflexivity.
        -- transitivity (sum R (length (orbs l')) (fun p => if nth p (orbs l') 0 =? x then sum R (mr (m_u m')) (fun j0 => vu m' p (m_nprop m' + j0) *! X (base num + j0)) else O0)); [|ring].
           apply sum_ext. intros p Hp. destruct (nth p (orbs l') 0 =? x); auto. rewrite Hunit by auto. apply Nat.eqb_neq in N. rewrite N. ring.
      * destruct (Nat.eqb_spec num k) as [->|N]; [congruence|]. unfold force_sigma. ring.
    + rewrite (HX x) by lia. rewrite (T1 x Hx). rewrite (@lsum_combine_pick (fun l' => sum R (length (orbs l')) (fun q => if nth q (orbs l') 0 =? x then vu m q j else O0)) leads 0 k l Hl). ring.
  - intros num l' m' Hl' Em' kk Hkk. cbv zeta.
    assert (Hnum : num < length leads) by (apply nth_error_Some; congruence).
    pose proof (@i_bot _ _ _ _ _ _ Hi num l' m' Hnum Hl' Em' X kk Hkk) as Hb. unfold matchrow in Hb.
    assert (Hex : extra l' = mr (m_u m')) by (unfold extra; rewrite Em'; auto).
    destruct (@base_row R y num l' (length leads) kk Hnum Hl' ltac:(lia)) as [B1 B2].
    rewrite (HX (base num + kk) B2) in Hb.
    assert (Hnp : num = k -> j < m_nprop m') by (intros ->; assert (l' = l) by congruence; subst; assert (m' = m) by congruence; subst; auto).
    rewrite Hunit by auto.
    assert (Hval : mget B (base num + kk) j = if num =? k then mget (m_ulinv m') kk j else O0).
    { destruct (Nat.eqb_spec num k) as [->|N].
      - assert (l' = l) by congruence. subst l'. assert (m' = m) by congruence. subst m'. apply T2. auto.
      - apply T3; auto.
        assert (Hek : extra l = mr (m_u m)) by (unfold extra; rewrite Em; auto).
        destruct (Nat.lt_ge_cases num k) as [C|C].
        + left. destruct (@base_row R y num l' k kk C Hl' ltac:(lia)). lia.
        + right. pose proof (base_S y _ Hl) as HS. pose proof (@base_mono R y (S k) num ltac:(lia)). lia. }
    rewrite Hval in Hb. match type of Hb with _ = ?a -! ?b => transitivity (b +! (a -! b)); [ring|rewrite <- Hb; reflexivity] end.
Qed.
End Inn.
End Linear.
Arguments lcols {R K}.
Arguments modes_of_all sizes {n l}.
Arguments mls_inv {R herm_ok y} GS {en check inn ls info}.
Arguments rhs_ok {R herm_ok y} GS {en check inn ls info}.
