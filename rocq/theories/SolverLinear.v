(** * The linear system assembled by _make_linear_sys. *)
From Coq Require Import List Bool Arith ZArith Ring Lia.
From Verif Require Import StarRing SubmatrixModel SolverModel SolverSpec SolverProofs.
Import ListNotations.
Set Implicit Arguments.

Section Linear.
Variable R : StarRing.
Add Ring RringL : (r_theory R).
Notation mat := (mat R).
Notation conj := (rconj R).
Notation "x +! y" := (radd R x y) (at level 50, left associativity).
Notation "x -! y" := (rsub R x y) (at level 50, left associativity).
Notation "x *! y" := (rmul R x y) (at level 40, left associativity).
Notation O0 := (r0 R).

(** row r of a matrix applied to a vector *)
Definition rv (a : mat) (X : nat -> R) (r : nat) : R := sum R (mc a) (fun c => mget a r c *! X c).

Lemma lsum_list_prod {A B} (f : A * B -> R) l l' : lsum R f (list_prod l l') = lsum R (fun x => lsum R (fun y => f (x, y)) l') l.
Proof. induction l as [|x l IH]; [reflexivity|]. cbn [list_prod]. rewrite lsum_app, lsum_map, IH, lsum_cons. reflexivity. Qed.
Lemma sum_delta2 n k f : k < n -> sum R n (fun i => if k =? i then f i else O0) = f k.
Proof. intros H. rewrite <- (@sum_delta R n k f H). apply sum_ext. intros i _. rewrite Nat.eqb_sym. reflexivity. Qed.

Lemma site_orbs_lt norb i x : i < length norb -> In x (site_orbs norb i) -> x < list_sum norb.
Proof.
  intros Hi Hx. unfold site_orbs in Hx. apply in_seq in Hx.
  rewrite <- (firstn_skipn i norb), list_sum_app.
  assert (E : skipn i norb = nth i norb 0 :: skipn (S i) norb).
  { clear Hx x. revert i Hi. induction norb as [|y l IH]; intros i Hi; [cbn in Hi; lia|]. destruct i as [|i]; [reflexivity|]. cbn in Hi. cbn [skipn nth]. rewrite IH by lia. reflexivity. }
  rewrite E. change (list_sum (?a :: ?t)) with (a + list_sum t). lia.
Qed.
Lemma lead_orbs_lt norb (l : lead R) x : (forall i, In i (l_iface l) -> i < length norb) -> In x (lead_orbs norb l) -> x < list_sum norb.
Proof. intros H Hx. apply in_flat_map in Hx. destruct Hx as (i & Hi & Hx). eapply site_orbs_lt; eauto. Qed.
Lemma iface_orbs_spec norb (l : lead R) coords : (forall i, In i (l_iface l) -> i < length norb) ->
  iface_orbs (offsets 0 norb) (l_iface l) = inl coords -> coords = lead_orbs norb l.
Proof.
  intros H E. unfold iface_orbs in E. destruct (l_iface l) as [|i0 f0] eqn:Ef; [discriminate|]. rewrite <- Ef in *.
  apply sbind_inl in E. destruct E as (ll & Hl & [= <-]).
  rewrite (@smap_map _ _ _ (site_orbs norb)) in Hl.
  - injection Hl as <-. unfold lead_orbs. rewrite flat_map_concat_map. reflexivity.
  - intros i Hi. specialize (H i Hi). rewrite !offsets_nth by lia. cbn [stry sbind]. unfold site_orbs. f_equal. f_equal.
    assert (E : list_sum (firstn (S i) norb) = list_sum (firstn i norb) + nth i norb 0).
    { clear -H. revert i H. induction norb as [|y l IH]; intros i Hi; [cbn in Hi; lia|]. destruct i as [|i]; [cbn; lia|]. cbn in Hi.
      change (firstn (S (S i)) (y :: l)) with (y :: firstn (S i) l). change (firstn (S i) (y :: l)) with (y :: firstn i l).
      cbn [nth]. change (list_sum (?a :: ?t)) with (a + list_sum t). rewrite IH by lia. lia. }
    lia.
Qed.

(** ** Pieces *)
Lemma mdot_inl (a b m : mat) : mdot R a b = inl m -> mc a = mr b /\ mr m = mr a /\ mc m = mc b /\ forall i j, mget m i j = sum R (mc a) (fun k => mget a i k *! mget b k j).
Proof. unfold mdot. destruct (Nat.eqb_spec (mc a) (mr b)); [|discriminate]. intros [= <-]. auto. Qed.
Lemma madd_inl (a b m : mat) : madd R a b = inl m -> mr a = mr b /\ mc a = mc b /\ mr m = mr a /\ mc m = mc a /\ forall i j, mget m i j = mget a i j +! mget b i j.
Proof. unfold madd. destruct (Nat.eqb_spec (mr a) (mr b)); [|discriminate]. destruct (Nat.eqb_spec (mc a) (mc b)); [|discriminate]. intros [= <-]. auto. Qed.
Lemma hstack_inl (a b m : mat) : hstack R a b = inl m -> mr a = mr b /\ mr m = mr a /\ mc m = mc a + mc b /\
  forall i j, mget m i j = if j <? mc a then mget a i j else mget b i (j - mc a).
Proof. unfold hstack. destruct (Nat.eqb_spec (mr a) (mr b)); [|discriminate]. intros [= <-]. auto. Qed.
Lemma vstack_inl (a b m : mat) : vstack R a b = inl m -> mc a = mc b /\ mc m = mc a /\ mr m = mr a + mr b /\
  forall i j, mget m i j = if i <? mr a then mget a i j else mget b (i - mr a) j.
Proof. unfold vstack. destruct (Nat.eqb_spec (mc a) (mc b)); [|discriminate]. intros [= <-]. auto. Qed.
Lemma coo_inl r c l m : coo R r c l = inl m -> mr m = r /\ mc m = c /\
  forall i j, mget m i j = lsum R (fun e => if (fst (fst e) =? i) && (snd (fst e) =? j) then snd e else O0) l.
Proof. unfold coo. destruct (forallb _ l); [|discriminate]. intros [= <-]. auto. Qed.
Lemma rv_hstack a b m X r : hstack R a b = inl m -> rv m X r = rv a X r +! rv b (fun c => X (mc a + c)) r.
Proof.
  intros H. apply hstack_inl in H. destruct H as (_ & _ & H2 & H3). unfold rv. rewrite H2, sum_split. f_equal.
  - apply sum_ext. intros c Hc. rewrite H3. apply Nat.ltb_lt in Hc. rewrite Hc. reflexivity.
  - apply sum_ext. intros c Hc. rewrite H3. replace (mc a + c <? mc a) with false by (symmetry; apply Nat.ltb_ge; lia).
    replace (mc a + c - mc a) with c by lia. reflexivity.
Qed.

Definition force_sigma (orbs : list nat) (sigma : mat) (X : nat -> R) (x : nat) : R :=
  sum R (length orbs) (fun p => if nth p orbs 0 =? x then sum R (length orbs) (fun q => mget sigma p q *! X (nth q orbs 0)) else O0).
Lemma rv_sigma n (sigma s : mat) orbs X r : mr sigma = length orbs -> mc sigma = length orbs -> (forall x, In x orbs -> x < n) ->
  sig_sparse R n sigma orbs = inl s -> mr s = n /\ mc s = n /\ rv s X r = force_sigma orbs sigma X r.
Proof.
  intros H1 H2 Hn H. apply coo_inl in H. destruct H as (E1 & E2 & E3). split; auto. split; auto.
  unfold rv, force_sigma. rewrite E2.
  transitivity (sum R n (fun c => sum R (length orbs) (fun p => sum R (length orbs) (fun q =>
     if nth p orbs 0 =? r then if nth q orbs 0 =? c then mget sigma p q *! X c else O0 else O0)))).
  { apply sum_ext. intros c Hc. rewrite E3, lsum_map, lsum_list_prod, H1, H2. change (lsum R ?f (seq 0 ?k)) with (sum R k f).
    rewrite <- sum_mul_r. apply sum_ext. intros p Hp. change (lsum R ?f (seq 0 ?k)) with (sum R k f). rewrite <- sum_mul_r. apply sum_ext. intros q Hq.
    cbn [fst snd]. destruct (nth p orbs 0 =? r); cbn [andb]; [|ring]. destruct (nth q orbs 0 =? c); ring. }
  rewrite sum_swap. apply sum_ext. intros p Hp. destruct (nth p orbs 0 =? r).
  - rewrite sum_swap. apply sum_ext. intros q Hq. rewrite (@sum_delta2 n (nth q orbs 0) (fun c => mget sigma p q *! X c)); auto. apply Hn. apply nth_In. auto.
  - transitivity (sum R n (fun _ => O0)); [|apply sum_0]. apply sum_ext. intros. apply sum_0.
Qed.
Lemma transf_get orbs N (t : mat) : coo R (length orbs) N (map (fun p => (p, nth p orbs 0, r1 R)) (seq 0 (length orbs))) = inl t ->
  mr t = length orbs /\ mc t = N /\ forall p c, p < length orbs -> mget t p c = if nth p orbs 0 =? c then r1 R else O0.
Proof.
  intros H. apply coo_inl in H. destruct H as (E1 & E2 & E3). split; auto. split; auto. intros p c Hp. rewrite E3, lsum_map. cbn [fst snd].
  change (lsum R ?f (seq 0 ?k)) with (sum R k f).
  transitivity (sum R (length orbs) (fun i => if i =? p then (if nth i orbs 0 =? c then r1 R else O0) else O0)).
  - apply sum_ext. intros i _. destruct (i =? p); cbn [andb]; reflexivity.
  - rewrite (@sum_delta R (length orbs) p (fun i => if nth i orbs 0 =? c then r1 R else O0)); auto.
Qed.

(** ** The loop *)
Variable y : syst R.
Hypothesis GS : good_syst y.
Notation n := (mr (y_ham y)).
Notation leads := (y_leads y).
Notation orbs := (lead_orbs (y_norb y)).
Definition extra (l : lead R) : nat := match l_modes l with Some m => mr (m_u m) | None => 0 end.
Definition base (k : nat) : nat := n + list_sum (map extra (firstn k leads)).
Definition nprop (l : lead R) : nat := match l_modes l with Some m => m_nprop m | None => 0 end.

Lemma base_S k l : nth_error leads k = Some l -> base (S k) = base k + extra l.
Proof.
  unfold base. generalize leads as ls. intros ls. revert k. induction ls as [|x ls IH]; intros k H; [destruct k; discriminate|].
  destruct k as [|k]; cbn [nth_error] in H; [injection H as ->; cbn; lia|]. specialize (IH k H).
  change (firstn (S (S k)) (x :: ls)) with (x :: firstn (S k) ls). change (firstn (S k) (x :: ls)) with (x :: firstn k ls).
  cbn [map]. change (list_sum (?a :: ?t)) with (a + list_sum t). lia.
Qed.
Lemma base_ge k : n <= base k. Proof. unfold base. lia. Qed.

Lemma orbs_lt l x : In l leads -> In x (orbs l) -> x < n.
Proof. destruct GS as (G1 & _ & G3 & _). intros Hl Hx. rewrite G1. apply (@lead_orbs_lt (y_norb y) l x (G3 l Hl) Hx). Qed.

(** contribution of lead number k to row x of the system part *)
Definition oforce (k : nat) (l : lead R) (X : nat -> R) (x : nat) : R :=
  match l_modes l with
  | None => force_sigma (orbs l) (l_sigma l) X x
  | Some m => sum R (length (orbs l)) (fun p => if nth p (orbs l) 0 =? x then sum R (mr (m_u m)) (fun j => vu m p (m_nprop m + j) *! X (base k + j)) else O0)
  end.
Definition matchrow (k : nat) (l : lead R) (m : modes R) (X : nat -> R) (kk : nat) : R :=
  sum R (length (orbs l)) (fun p => conj (mget (m_v m) p kk) *! X (nth p (orbs l) 0)) -!
  sum R (mr (m_u m)) (fun j => mget (m_ulinv m) kk (m_nprop m + j) *! X (base k + j)).
Variable inn : list Z.
Definition active (k : nat) (l : lead R) : bool := zmem (Z.of_nat k) inn && (0 <? nprop l).
Definition part_ok (k : nat) (l : lead R) (p : rhs_part R) : Prop :=
  if active k l then exists m top mi, l_modes l = Some m /\ p = RTwo R top mi /\ mr top = base k /\ mc top = m_nprop m /\ mr mi = mr (m_u m) /\ mc mi = m_nprop m /\
    (forall r j, j < m_nprop m -> mget top r j = ropp R (sum R (length (orbs l)) (fun q => if nth q (orbs l) 0 =? r then vu m q j else O0))) /\
    (forall kk j, mget mi kk j = mget (m_ulinv m) kk j)
  else p = RNone R.
Definition linf (l : lead R) : linfo R := match l_modes l with Some m => IModes (m_nmom m) (m_blocks m) | None => ISigma (l_sigma l) end.
Definition idx_of (k : nat) (l : lead R) : option (list nat) := match l_modes l with Some m => Some (seq (base k) (m_nprop m)) | None => None end.
Definition nonempty : Prop := forall l m, In l leads -> l_modes l = Some m -> mr (m_u m) <> 0.

Variable h0 : mat.
Record inv (k : nat) (z : lstate R) : Prop := mkInv {
  i_r : mr (z_lhs z) = base k; i_c : mc (z_lhs z) = base k;
  i_top : forall X r, r < n -> rv (z_lhs z) X r = rv h0 X r +! lsum R (fun kl => oforce (fst kl) (snd kl) X r) (combine (seq 0 k) (firstn k leads));
  i_bot : forall num l m, num < k -> nth_error leads num = Some l -> l_modes l = Some m -> forall X kk, kk < mr (m_u m) -> rv (z_lhs z) X (base num + kk) = matchrow num l m X kk;
  i_rhs : length (z_rhs z) = k /\ forall num l, num < k -> nth_error leads num = Some l -> exists p, nth_error (z_rhs z) num = Some p /\ part_ok num l p;
  i_idx : nonempty -> z_indices z = map (fun kl => idx_of (fst kl) (snd kl)) (combine (seq 0 k) (firstn k leads));
  i_inf : z_info z = map linf (firstn k leads) }.

Lemma firstn_S_nth {A} k (l : list A) x : nth_error l k = Some x -> firstn (S k) l = firstn k l ++ [x].
Proof. revert k. induction l as [|a l IH]; intros k H; [destruct k; discriminate|]. destruct k as [|k]; cbn [nth_error] in H; [injection H as ->; reflexivity|]. cbn [firstn app]. f_equal. apply IH. auto. Qed.
Lemma combine_S k l : nth_error leads k = Some l -> combine (seq 0 (S k)) (firstn (S k) leads) = combine (seq 0 k) (firstn k leads) ++ [(k, l)].
Proof.
  intros H. rewrite seq_S, (firstn_S_nth _ _ H). cbn [Nat.add].
  assert (length (firstn k leads) = k). { apply firstn_length_le. apply Nat.lt_le_incl. apply nth_error_Some. congruence. }
  assert (G : forall (a : list nat) (b : list (lead R)), length a = length b -> combine (a ++ [k]) (b ++ [l]) = combine a b ++ [(k, l)]).
  { induction a as [|x a IH]; intros b Hb; destruct b; try discriminate; [reflexivity|]. cbn. f_equal. apply IH. cbn in Hb. lia. }
  apply G. rewrite seq_length. auto.
Qed.
Lemma nth_error_snoc {A} (l : list A) x k : length l = k -> nth_error (l ++ [x]) k = Some x.
Proof. intros <-. rewrite nth_error_app2, Nat.sub_diag by lia. reflexivity. Qed.

(** rows of other leads are not touched *)
Lemma base_mono a b : a <= b -> base a <= base b.
Proof.
  intros H. unfold base. apply Nat.add_le_mono_l. replace b with (a + (b - a)) by lia. generalize (b - a) as d. clear. intros d. revert a.
  generalize leads as ls. induction ls as [|x ls IH]; intros a; [rewrite !firstn_nil; auto|]. destruct a as [|a]; [cbn; lia|].
  change (S a + d) with (S (a + d)). cbn [firstn map]. change (list_sum (?a :: ?t)) with (a + list_sum t). specialize (IH a). lia.
Qed.
Lemma base_row num l k kk : num < k -> nth_error leads num = Some l -> kk < extra l -> n <= base num + kk < base k.
Proof. intros H1 H2 H3. pose proof (base_ge num). pose proof (base_S _ H2). pose proof (@base_mono (S num) k ltac:(lia)). lia. Qed.

Lemma step_inv offs k l z z' : offs = offsets 0 (y_norb y) -> nth_error leads k = Some l -> inv k z ->
  lead_step offs inn false k l z = inl z' -> inv (S k) z'.
Proof.
  intros -> Hl Hinv H. assert (Hin : In l leads) by (eapply nth_error_In; eauto).
  pose proof (base_S _ Hl) as HbS.
  assert (Hif : forall i, In i (l_iface l) -> i < length (y_norb y)) by (apply GS; auto).
  unfold lead_step in H. cbn [negb] in H. destruct (l_modes l) as [m|] eqn:Em.
  - (* modes *)
    assert (Hm : good_modes m) by (eapply GS; eauto). destruct Hm as (M1 & M2 & M3 & M4 & M5 & M6).
    unfold extra in HbS. rewrite Em in HbS.
    destruct (Nat.eqb_spec (mr (m_u m)) 0) as [E0|E0].
    + injection H as <-. rewrite E0, Nat.add_0_r in HbS.
      assert (Hfz : forall X r, oforce k l X r = O0).
      { intros X r. unfold oforce. rewrite Em, E0. apply sum_zero. intros p _. destruct (nth p (orbs l) 0 =? r); reflexivity. }
      assert (Hact : active k l = false). { unfold active, nprop. rewrite Em. replace (m_nprop m) with 0 by lia. apply andb_false_r. }
      split; cbn [z_lhs z_rhs z_indices z_info].
      * rewrite HbS. apply (i_r Hinv).
      * rewrite HbS. apply (i_c Hinv).
      * intros X r Hr. rewrite (combine_S _ Hl), lsum_app, lsum_cons, lsum_nil. cbn [fst snd]. rewrite Hfz, (i_top Hinv _ Hr). ring.
      * intros num l' m' Hnum Hl' Em' X kk Hkk. destruct (Nat.eq_dec num k) as [->|N].
        -- assert (l' = l) by congruence. subst. assert (m' = m) by congruence. subst. lia.
        -- apply (i_bot Hinv); auto. lia.
      * destruct (i_rhs Hinv) as [L1 L2]. split; [rewrite app_length; cbn; lia|]. intros num l' Hnum Hl'. destruct (Nat.eq_dec num k) as [->|N].
        -- exists (RNone R). split; [apply nth_error_snoc; auto|]. assert (l' = l) by congruence. subst. unfold part_ok. rewrite Hact. reflexivity.
        -- destruct (L2 num l' ltac:(lia) Hl') as (p & Hp & Hok). exists p. split; auto. rewrite nth_error_app1; auto. lia.
      * intros HN. exfalso. apply (HN l m); auto.
      * rewrite (firstn_S_nth _ _ Hl), map_app, (i_inf Hinv). cbn. unfold linf. rewrite Em. reflexivity.
    + apply sbind_inl in H. destruct H as (oo & Hoo & H). apply (@iface_orbs_spec _ l) in Hoo; [|auto]. subst oo.
      destruct (Nat.eqb_spec (mr (m_v m)) (length (orbs l))) as [Ev|]; [|discriminate]. cbn [negb] in H.
      apply sbind_inl in H. destruct H as (tr & Htr & H). apply transf_get in Htr. destruct Htr as (T1 & T2 & T3).
      apply sbind_inl in H. destruct H as (vsp & Hvsp & H). apply mdot_inl in Hvsp. destruct Hvsp as (V0 & V1 & V2 & V3).
      apply sbind_inl in H. destruct H as (vu_ & Hvu & H). apply mdot_inl in Hvu. destruct Hvu as (U0 & U1 & U2 & U3).
      apply sbind_inl in H. destruct H as (vdo & Hvdo & H). apply mdot_inl in Hvdo. destruct Hvdo as (D0 & D1 & D2 & D3).
      apply sbind_inl in H. destruct H as (top & Htop & H).
      apply sbind_inl in H. destruct H as (bot & Hbot & H).
      apply sbind_inl in H. destruct H as (lhs' & Hlhs & H). apply vstack_inl in Hlhs. destruct Hlhs as (W0 & W1 & W2 & W3).
      assert (Hrv : forall X r, rv lhs' X r = if r <? mr top then rv top X r else rv bot X (r - mr top)).
      { intros X r. unfold rv. rewrite W1. destruct (r <? mr top) eqn:Er.
        - apply sum_ext. intros c _. rewrite W3, Er. reflexivity.
        - rewrite <- W0. apply sum_ext. intros c _. rewrite W3, Er. reflexivity. }
      pose proof (hstack_inl _ _ Htop) as (P0 & P1 & P2 & _). pose proof (hstack_inl _ _ Hbot) as (Q0 & Q1 & Q2 & _).
      cbn [cols_from cols_to mconjt mtrans mneg mr mc mget] in *.
      assert (HR : mr (z_lhs z) = base k) by apply (i_r Hinv). assert (HC : mc (z_lhs z) = base k) by apply (i_c Hinv).
      assert (Emc : mc (m_u m) - m_nprop m = mr (m_u m)) by lia.
      assert (Emc' : mc (m_ulinv m) - m_nprop m = mr (m_u m)) by lia.
      assert (Hvdo : forall r j, mget vdo r j = sum R (length (orbs l)) (fun p => if nth p (orbs l) 0 =? r then vu m p (m_nprop m + j) else O0)).
      { intros r j. rewrite D3, T1. apply sum_ext. intros p Hp. rewrite T3 by auto. rewrite U3. unfold vu. destruct (nth p (orbs l) 0 =? r); ring. }
      assert (Htopv : forall X r, rv top X r = rv (z_lhs z) X r +! oforce k l X r).
      { intros X r. rewrite (@rv_hstack _ _ _ X r Htop). f_equal. unfold rv, oforce. rewrite Em, D2, U2, Emc, HC.
        transitivity (sum R (mr (m_u m)) (fun c => sum R (length (orbs l)) (fun p => (if nth p (orbs l) 0 =? r then vu m p (m_nprop m + c) *! X (base k + c) else O0)))).
        { apply sum_ext. intros c Hc. rewrite Hvdo, <- sum_mul_r. apply sum_ext. intros p _. destruct (nth p (orbs l) 0 =? r); ring. }
        rewrite sum_swap. apply sum_ext. intros p Hp. destruct (nth p (orbs l) 0 =? r); [reflexivity|apply sum_0]. }
      assert (Hfar : forall X r, n <= r -> oforce k l X r = O0).
      { intros X r Hr. unfold oforce. rewrite Em. apply sum_zero. intros p Hp. destruct (Nat.eqb_spec (nth p (orbs l) 0) r) as [E|]; auto.
        exfalso. assert (r < n); [|lia]. rewrite <- E. apply (@orbs_lt l); auto. apply nth_In; auto. }
      assert (Hbotv : forall X kk, kk < mr (m_u m) -> rv bot X kk = matchrow k l m X kk).
      { intros X kk Hkk. rewrite (@rv_hstack _ _ _ X kk Hbot). unfold matchrow, rv. cbn [mneg cols_from mc mget mr]. rewrite V2, T2, HR, Emc'.
        assert (A1 : sum R (base k) (fun c => mget vsp kk c *! X c) = sum R (length (orbs l)) (fun p => conj (mget (m_v m) p kk) *! X (nth p (orbs l) 0))).
        { transitivity (sum R (base k) (fun c => sum R (length (orbs l)) (fun p => if nth p (orbs l) 0 =? c then conj (mget (m_v m) p kk) *! X c else O0))).
          - apply sum_ext. intros c _. rewrite V3, <- sum_mul_r, Ev. apply sum_ext. intros p Hp. rewrite T3 by auto. destruct (nth p (orbs l) 0 =? c); ring.
          - rewrite sum_swap. apply sum_ext. intros p Hp. rewrite (@sum_delta2 (base k) (nth p (orbs l) 0) (fun c => conj (mget (m_v m) p kk) *! X c)); auto.
            pose proof (base_ge k). assert (nth p (orbs l) 0 < n); [apply (@orbs_lt l); auto; apply nth_In; auto|lia]. }
        rewrite A1.
        assert (A2 : sum R (mr (m_u m)) (fun c => ropp R (mget (m_ulinv m) kk (m_nprop m + c)) *! X (base k + c)) =
                     ropp R (sum R (mr (m_u m)) (fun j => mget (m_ulinv m) kk (m_nprop m + j) *! X (base k + j)))).
        { unfold sum. rewrite <- lsum_opp. apply lsum_ext. intros c _. ring. }
        rewrite A2. ring. }
      assert (Dtop : mr top = base k) by lia.
      assert (Dbr : mr bot = mr (m_u m)) by lia. assert (Dtc : mc top = base k + mr (m_u m)) by lia.
      assert (FIN : forall p, part_ok k l p -> inv (S k) (mkLS lhs' (z_indices z ++ [Some (seq (mr (z_lhs z)) (m_nprop m))]) (z_rhs z ++ [p]) (z_info z ++ [IModes (m_nmom m) (m_blocks m)]))).
      { intros part Hpart. split; cbn [z_lhs z_rhs z_indices z_info].
        - lia.
        - lia.
        - intros X r Hr. rewrite Hrv. pose proof (base_ge k). replace (r <? mr top) with true by (symmetry; apply Nat.ltb_lt; lia).
          rewrite Htopv, (combine_S _ Hl), lsum_app, lsum_cons, lsum_nil. cbn [fst snd]. rewrite (i_top Hinv _ Hr). ring.
        - intros num l' m' Hnum Hl' Em' X kk Hkk. rewrite Hrv, Dtop. destruct (Nat.eq_dec num k) as [->|N].
          + assert (l' = l) by congruence. subst l'. assert (m' = m) by congruence. subst m'.
            replace (base k + kk <? base k) with false by (symmetry; apply Nat.ltb_ge; lia). replace (base k + kk - base k) with kk by lia. apply Hbotv. auto.
          + destruct (@base_row num l' k kk ltac:(lia) Hl' ltac:(unfold extra; rewrite Em'; auto)) as [B1 B2].
            replace (base num + kk <? base k) with true by (symmetry; apply Nat.ltb_lt; lia).
            rewrite Htopv, Hfar by auto. assert (Hnk : num < k) by lia. rewrite (@i_bot k z Hinv num l' m' Hnk Hl' Em' X kk Hkk). ring.
        - destruct (i_rhs Hinv) as [L1 L2]. split; [rewrite app_length; cbn; lia|]. intros num l' Hnum Hl'. destruct (Nat.eq_dec num k) as [->|N].
          + exists part. split; [apply nth_error_snoc; auto|]. assert (l' = l) by congruence. subst. auto.
          + destruct (L2 num l' ltac:(lia) Hl') as (p & Hp & Hok). exists p. split; auto. rewrite nth_error_app1; auto. lia.
        - intros HN. rewrite (combine_S _ Hl), map_app, (i_idx Hinv HN), HR. cbn. unfold idx_of. rewrite Em. reflexivity.
        - rewrite (firstn_S_nth _ _ Hl), map_app, (i_inf Hinv). cbn. unfold linf. rewrite Em. reflexivity. }
      assert (Eact : zmem (Z.of_nat k) inn && (0 <? m_nprop m) = active k l) by (unfold active, nprop; rewrite Em; reflexivity).
      rewrite Eact in H. destruct (active k l) eqn:Ea.
      * apply sbind_inl in H. destruct H as (vui & Hvui & H). apply mdot_inl in Hvui. destruct Hvui as (A0 & A1 & A2 & A3).
        apply sbind_inl in H. destruct H as (vdi & Hvdi & H). apply mdot_inl in Hvdi. destruct Hvdi as (B0 & B1 & B2 & B3). injection H as <-.
        apply FIN. unfold part_ok. rewrite Ea. cbn [cols_from cols_to mconjt mtrans mneg mr mc mget] in *.
        exists m, vdi, (cols_to R (m_nprop m) (m_ulinv m)). cbn [cols_to mr mc mget]. split; auto. split; auto. split; [lia|]. split; [lia|]. split; [lia|]. split; [lia|]. split; auto.
        intros r j Hj. rewrite B3, T1. unfold sum. rewrite <- lsum_opp. apply lsum_ext. intros p Hp. apply in_seq in Hp. rewrite T3 by lia. rewrite A3. unfold vu, sum. destruct (nth p (orbs l) 0 =? r); ring.
      * injection H as <-. apply FIN. unfold part_ok. rewrite Ea. reflexivity.
  - (* self-energy *)
    destruct (zmem (Z.of_nat k) inn) eqn:Ez; [discriminate|].
    apply sbind_inl in H. destruct H as (oo & Hoo & H). apply (@iface_orbs_spec _ l) in Hoo; [|auto]. subst oo.
    apply sbind_inl in H. destruct H as (lhs' & Hlhs & [= <-]). unfold add_sigma in Hlhs.
    destruct (Nat.eqb_spec (mr (l_sigma l)) (length (orbs l))) as [S1|]; [|discriminate]. destruct (Nat.eqb_spec (mc (l_sigma l)) (length (orbs l))) as [S2|]; [|discriminate].
    cbn [negb andb] in Hlhs. apply sbind_inl in Hlhs. destruct Hlhs as (ss & Hss & Hadd). rewrite (i_r Hinv) in Hss.
    assert (Hlt : forall x, In x (orbs l) -> x < base k) by (intros x Hx; pose proof (base_ge k); pose proof (@orbs_lt l x Hin Hx); lia).
    apply madd_inl in Hadd. destruct Hadd as (A1 & A2 & A3 & A4 & A5).
    unfold extra in HbS. rewrite Em, Nat.add_0_r in HbS.
    assert (Hrv : forall X r, rv lhs' X r = rv (z_lhs z) X r +! oforce k l X r).
    { intros X r. unfold oforce. rewrite Em. destruct (@rv_sigma (base k) (l_sigma l) ss (orbs l) X r S1 S2 Hlt Hss) as (R1 & R2 & R3).
      rewrite <- R3. unfold rv. rewrite A4, <- A2, <- sum_add. apply sum_ext. intros c _. rewrite A5. ring. }
    assert (Hfar : forall X r, n <= r -> oforce k l X r = O0).
    { intros X r Hr. unfold oforce, force_sigma. rewrite Em. apply sum_zero. intros p Hp. destruct (Nat.eqb_spec (nth p (orbs l) 0) r) as [E|]; auto.
      exfalso. assert (r < n); [|lia]. rewrite <- E. apply (@orbs_lt l); auto. apply nth_In; auto. }
    split; cbn [z_lhs z_rhs z_indices z_info].
    + rewrite HbS, A3. apply (i_r Hinv).
    + rewrite HbS, A4. apply (i_c Hinv).
    + intros X r Hr. rewrite Hrv, (combine_S _ Hl), lsum_app, lsum_cons, lsum_nil. cbn [fst snd]. rewrite (i_top Hinv _ Hr). ring.
    + intros num l' m' Hnum Hl' Em' X kk Hkk. destruct (Nat.eq_dec num k) as [->|N]; [congruence|].
      destruct (@base_row num l' k kk ltac:(lia) Hl' ltac:(unfold extra; rewrite Em'; auto)) as [B1 B2].
      rewrite Hrv, Hfar by auto. assert (Hnk : num < k) by lia. rewrite (@i_bot k z Hinv num l' m' Hnk Hl' Em' X kk Hkk). ring.
    + destruct (i_rhs Hinv) as [L1 L2]. split; [rewrite app_length; cbn; lia|]. intros num l' Hnum Hl'. destruct (Nat.eq_dec num k) as [->|N].
      * exists (RNone R). split; [apply nth_error_snoc; auto|]. unfold part_ok, active. rewrite Ez. reflexivity.
      * destruct (L2 num l' ltac:(lia) Hl') as (p & Hp & Hok). exists p. split; auto. rewrite nth_error_app1; auto. lia.
    + intros HN. rewrite (combine_S _ Hl), map_app, (i_idx Hinv HN). cbn. unfold idx_of. rewrite Em. reflexivity.
    + rewrite (firstn_S_nth _ _ Hl), map_app, (i_inf Hinv). cbn. unfold linf. rewrite Em. reflexivity.
Qed.

Lemma loop_inv offs : offs = offsets 0 (y_norb y) -> forall ls k z z', ls = skipn k leads -> k + length ls = length leads -> inv k z ->
  lead_loop offs inn false k ls z = inl z' -> inv (length leads) z'.
Proof.
  intros Ho. induction ls as [|l ls IH]; intros k z z' Hs Hk Hi H; cbn [lead_loop length] in *.
  - injection H as <-. replace (length leads) with k by lia. auto.
  - apply sbind_inl in H. destruct H as (z1 & H1 & H).
    assert (Hn : nth_error leads k = Some l). { rewrite <- (firstn_skipn k leads), <- Hs. rewrite nth_error_app2; rewrite firstn_length_le by lia; [|lia]. rewrite Nat.sub_diag. reflexivity. }
    apply (IH (S k) z1 z'); [|lia|eapply step_inv; eauto|auto].
    assert (G : forall {A} k (l0 : list A) x t, skipn k l0 = x :: t -> skipn (S k) l0 = t).
    { clear. intros A k. induction k as [|k IH]; intros l0 x t E; [cbn in E; subst; reflexivity|]. destruct l0; [discriminate|]. cbn in E. apply (IH l0 x). exact E. }
    symmetry. eapply G. eauto.
Qed.
End Linear.
Arguments rv {R}.
