(** * Solvers: block layout, transmissions, conductance matrix. *)
From Coq Require Import List Bool Arith ZArith Ring Lia Permutation.
From Verif Require Import StarRing SubmatrixModel SolverModel SolverSpec.
Import ListNotations.
Set Implicit Arguments.

Lemma sbind_inl {A B} (x : sres A) (f : A -> sres B) y : sbind x f = inl y -> exists a, x = inl a /\ f a = inl y.
Proof. destruct x; [eauto|discriminate]. Qed.
Lemma smap_inl {A B} (f : A -> sres B) l r : smap f l = inl r <-> Forall2 (fun x y => f x = inl y) l r.
Proof.
  revert r. induction l as [|x l IH]; intros r; cbn [smap].
  - split; [intros [= <-]; constructor|intros H; inversion H; auto].
  - split.
    + intros H. apply sbind_inl in H. destruct H as (y & Hy & H). apply sbind_inl in H. destruct H as (r' & Hr & [= <-]). constructor; auto. apply IH. auto.
    + intros H. inversion H as [|? y ? r' Hy Hr]; subst. rewrite Hy. cbn. apply IH in Hr. rewrite Hr. reflexivity.
Qed.
Lemma smap_map {A B} (f : A -> sres B) (g : A -> B) l : (forall x, In x l -> f x = inl (g x)) -> smap f l = inl (map g l).
Proof.
  intros H. apply smap_inl. induction l as [|x l IH]; constructor; [apply H; left; auto|apply IH; intros; apply H; right; auto].
Qed.

Lemma pynth_valid {A} (l : list A) z d : valid_lead (length l) z -> pynth l z = Some (nth (Z.to_nat z) l d).
Proof.
  intros [H1 H2]. unfold pynth. rewrite (proj2 (Z.leb_le 0 z) H1), (proj2 (Z.ltb_lt z (Z.of_nat (length l))) H2). cbn. apply nth_error_nth'. lia.
Qed.
Lemma offsets_length sizes : forall s, length (offsets s sizes) = S (length sizes).
Proof. induction sizes as [|x l IH]; intros s; cbn; auto. Qed.
Lemma offsets_nth sizes : forall s k, k <= length sizes -> nth_error (offsets s sizes) k = Some (s + list_sum (firstn k sizes)).
Proof.
  induction sizes as [|x l IH]; intros s k Hk; cbn in Hk.
  - replace k with 0 by lia. cbn. f_equal. lia.
  - destruct k as [|k]; [cbn; f_equal; lia|]. cbn [offsets nth_error firstn]. change (list_sum (x :: ?t)) with (x + list_sum t).
    rewrite IH by lia. f_equal. lia.
Qed.
Lemma index_of_Some x l k : index_of x l = Some k -> nth_error l k = Some x.
Proof.
  revert k. induction l as [|y l IH]; intros k; [discriminate|]. cbn. destruct (Z.eqb_spec x y).
  - intros [= <-]. subst. auto.
  - destruct (index_of x l); [|discriminate]. intros [= <-]. cbn. auto.
Qed.
Lemma index_of_None x l : index_of x l = None <-> ~ In x l.
Proof.
  induction l as [|y l IH]; cbn; [tauto|]. destruct (Z.eqb_spec x y).
  - split; [discriminate|]. intros H. exfalso. apply H. auto.
  - destruct (index_of x l); cbn.
    + split; [discriminate|]. intros H. exfalso. apply H. right. destruct (in_dec Z.eq_dec x l); auto. assert (Some n0 = None) by (apply IH; auto). discriminate.
    + split; auto. intros _ [E|E]; [congruence|]. apply IH in E; auto.
Qed.
Lemma index_of_nth x l k : NoDup l -> nth_error l k = Some x -> index_of x l = Some k.
Proof.
  intros HN Hk. destruct (index_of x l) as [k'|] eqn:E.
  - apply index_of_Some in E. f_equal. eapply (proj1 (NoDup_nth_error l) HN); [apply nth_error_Some; congruence|congruence].
  - apply index_of_None in E. exfalso. apply E. eapply nth_error_In; eauto.
Qed.
Lemma zmem_iff x l : zmem x l = true <-> In x l.
Proof. unfold zmem. rewrite existsb_exists. split; [intros (y & Hy & E); apply Z.eqb_eq in E; congruence|]. intros H. exists x. split; auto. apply Z.eqb_refl. Qed.
Lemma zmem_false x l : zmem x l = false <-> ~ In x l.
Proof. rewrite <- zmem_iff. destruct (zmem x l); split; congruence. Qed.

Section Blocks.
Variable sizes : list nat.
Notation size := (size sizes).
Notation modes_of := (modes_of sizes).
Definition startof (leads : list Z) (k : nat) : nat := list_sum (map size (firstn k leads)).
Lemma startof_S leads k o : nth_error leads k = Some o -> startof leads (S k) = startof leads k + size o.
Proof.
  unfold startof. revert k. induction leads as [|x l IH]; intros k H; [destruct k; discriminate|].
  destruct k as [|k]; cbn [nth_error] in H; [injection H as ->; cbn; lia|]. specialize (IH k H).
  cbn [firstn map] in *. change (list_sum (?y :: ?t)) with (y + list_sum t) in *. cbn [firstn map] in IH. lia.
Qed.
Lemma modes_of_length leads : length (modes_of leads) = list_sum (map size leads).
Proof. induction leads as [|x l IH]; auto. cbn. rewrite app_length, map_length, seq_length. f_equal. auto. Qed.
Lemma modes_of_nth leads k o a : nth_error leads k = Some o -> a < size o -> nth_error (modes_of leads) (startof leads k + a) = Some (o, a).
Proof.
  revert k. induction leads as [|x l IH]; intros k H Ha; [destruct k; discriminate|].
  destruct k as [|k]; cbn in H.
  - injection H as ->. cbn [SolverSpec.modes_of flat_map]. cbn. rewrite nth_error_app1 by (rewrite map_length, seq_length; auto).
    rewrite (map_nth_error (pair o) a (seq 0 (size o)) (d := a)); auto. rewrite (nth_error_nth' _ 0) by (rewrite seq_length; auto). rewrite seq_nth; auto.
  - cbn [SolverSpec.modes_of flat_map]. unfold startof in *. cbn [firstn map]. change (list_sum (size x :: ?l)) with (size x + list_sum l).
    rewrite nth_error_app2; rewrite map_length, seq_length; [|lia]. rewrite <- (IH k H Ha). f_equal. lia.
Qed.
Lemma startof_le leads k o : nth_error leads k = Some o -> startof leads k + size o <= length (modes_of leads).
Proof.
  intros H. rewrite <- (startof_S _ _ H), modes_of_length. unfold startof. rewrite <- (firstn_skipn (S k) leads) at 2. rewrite map_app, list_sum_app. lia.
Qed.
Lemma sizes_map leads : (forall x, In x leads -> valid_lead (length sizes) x) ->
  smap (fun z => stry (pynth sizes z) SIndex) leads = inl (map size leads).
Proof. intros H. apply smap_map. intros x Hx. rewrite (pynth_valid sizes 0 (H x Hx)). reflexivity. Qed.
Lemma offs_nth leads k : k <= length leads -> nth_error (offsets 0 (map size leads)) k = Some (startof leads k).
Proof. intros H. rewrite offsets_nth by (rewrite map_length; auto). unfold startof. rewrite firstn_map. reflexivity. Qed.
End Blocks.

Section Solver.
Variable R : StarRing.
Add Ring RringS : (r_theory R).
Local Open Scope star_scope.
Notation "0" := (r0 R) : star_scope.
Notation "1" := (r1 R) : star_scope.
Notation conj := (rconj R).
Notation mat := (mat R).
Local Open Scope nat_scope.

Section Init.
Variables (data : mat) (info : list (linfo R)) (out inn : list Z) (sizes : list nat) (cons : bool) (blk : list (option (list nat))).
Hypothesis (Hb : length blk = length sizes) (Ho : good_leads (length sizes) out) (Hi : good_leads (length sizes) inn).
Notation blkof := (fun z => nth (Z.to_nat z) blk None).

Lemma block_init_inl : block_init data info out inn sizes cons blk =
  inl (mkBR data info out inn sizes cons (offsets 0 (map (size sizes) out)) (offsets 0 (map (size sizes) inn)) (map blkof out) (map blkof inn)).
Proof.
  destruct Ho as [_ Ho']. destruct Hi as [_ Hi']. unfold block_init. rewrite (@sizes_map sizes _ Hi'), (@sizes_map sizes _ Ho'). cbn [sbind].
  assert (HB : forall l, (forall x, In x l -> valid_lead (length sizes) x) -> smap (fun z => stry (pynth blk z) SIndex) l = inl (map blkof l)).
  { intros l Hl. apply smap_map. intros x Hx. rewrite (@pynth_valid _ blk x None); [reflexivity|]. rewrite Hb. auto. }
  rewrite (HB _ Hi'), (HB _ Ho'). reflexivity.
Qed.
End Init.

(** coordinates *)
Lemma coords_lead sizes leads blks k l : NoDup leads -> nth_error leads k = Some l ->
  block_coords leads (offsets 0 (map (size sizes) leads)) blks (KLead l) = inl (startof sizes leads k, startof sizes leads k + size sizes l).
Proof.
  intros HN Hk. assert (k < length leads) by (apply nth_error_Some; congruence).
  unfold block_coords. rewrite (index_of_nth _ HN Hk). cbn [stry sbind].
  rewrite !offs_nth by lia. cbn [stry sbind]. rewrite (startof_S _ _ _ Hk). reflexivity.
Qed.
Lemma coords_missing leads offs blks l : ~ In l leads -> block_coords leads offs blks (KLead l) = inr SValue.
Proof. intros H. unfold block_coords. apply index_of_None in H. rewrite H. reflexivity. Qed.
Lemma coords_missing_block leads offs blks l b : ~ In l leads -> block_coords leads offs blks (KBlock l b) = inr SValue.
Proof. intros H. unfold block_coords. apply index_of_None in H. rewrite H. reflexivity. Qed.
Lemma coords_block sizes leads blks k l b bs : NoDup leads -> nth_error leads k = Some l -> nth_error blks k = Some (Some (offsets 0 bs)) -> b < length bs ->
  block_coords leads (offsets 0 (map (size sizes) leads)) blks (KBlock l (Z.of_nat b)) =
  inl (startof sizes leads k + list_sum (firstn b bs), startof sizes leads k + list_sum (firstn (S b) bs)).
Proof.
  intros HN Hk Hbs Hb. assert (k < length leads) by (apply nth_error_Some; congruence).
  unfold block_coords. rewrite (index_of_nth _ HN Hk). cbn [stry sbind]. rewrite !offs_nth by lia. cbn [stry sbind]. rewrite Hbs. cbn [stry sbind].
  rewrite (@pynth_valid _ (offsets 0 bs) (Z.of_nat b) 0) by (unfold valid_lead; rewrite offsets_length; lia).
  rewrite (@pynth_valid _ (offsets 0 bs) (Z.of_nat b + 1) 0) by (unfold valid_lead; rewrite offsets_length; lia).
  cbn [stry sbind].
  replace (Z.to_nat (Z.of_nat b + 1)) with (S b) by lia. rewrite Nat2Z.id.
  rewrite (nth_error_nth _ _ _ (offsets_nth bs 0 (k := b) ltac:(lia))). rewrite (nth_error_nth _ _ _ (offsets_nth bs 0 (k := S b) ltac:(lia))).
  reflexivity.
Qed.

Lemma slice_in s l n : s + l <= n -> sl_start (s, s + l) n = s /\ sl_len (s, s + l) n = l.
Proof. intros H. unfold sl_len, sl_start. cbn. lia. Qed.

(** ** Transmissions *)
Section Full.
Variables (sizes : list nat) (full : mode -> mode -> R).
Notation size := (size sizes).
Notation T := (T sizes full).
Notation n := (length sizes).

Lemma lsum_modes (f : mode -> R) leads : lsum R f (modes_of sizes leads) = lsum R (fun l => sum R (size l) (fun a => f (l, a))) leads.
Proof. unfold modes_of. rewrite lsum_flat_map. apply lsum_ext. intros l _. rewrite lsum_map. reflexivity. Qed.
Lemma in_all_leads l : In l (all_leads n) <-> valid_lead n l.
Proof.
  unfold all_leads. rewrite in_map_iff. split.
  - intros (k & <- & Hk). apply in_seq in Hk. unfold valid_lead. lia.
  - intros [H1 H2]. exists (Z.to_nat l). split; [lia|]. apply in_seq. lia.
Qed.
Lemma all_leads_NoDup k : NoDup (all_leads k).
Proof. unfold all_leads. apply FinFun.Injective_map_NoDup; [intros a b; lia|apply seq_NoDup]. Qed.
Lemma all_leads_length k : length (all_leads k) = k.
Proof. unfold all_leads. rewrite map_length, seq_length. auto. Qed.
Lemma in_modes l a : valid_lead n l -> a < size l -> In (l, a) (modes_of sizes (all_leads n)).
Proof. intros H Ha. apply in_flat_map. exists l. split; [apply in_all_leads; auto|]. apply in_map. apply in_seq. lia. Qed.
Lemma rnat_sum k : sum R k (fun _ => r1 R) = rnat R k.
Proof. induction k as [|k IH]; [reflexivity|]. rewrite sum_S, IH. cbn [rnat]. ring. Qed.
Lemma lsum_perm {A} (f : A -> R) l l' : Permutation l l' -> lsum R f l = lsum R f l'.
Proof. induction 1; [reflexivity|rewrite !lsum_cons, IHPermutation; auto|rewrite !lsum_cons; ring|congruence]. Qed.

Lemma T_row o : unitary sizes full -> valid_lead n o -> lsum R (fun i => T o i) (all_leads n) = rnat R (size o).
Proof.
  intros [HU _] Ho. rewrite <- rnat_sum.
  transitivity (sum R (size o) (fun a => lsum R (fun y => rmul R (full (o, a) y) (conj (full (o, a) y))) (modes_of sizes (all_leads n)))).
  - unfold SolverSpec.T. rewrite <- sum_lswap. apply sum_ext. intros a Ha. rewrite lsum_modes. apply lsum_ext. intros i _. apply sum_ext. intros b _. ring.
  - apply sum_ext. intros a Ha. apply (HU (o, a) (o, a)); auto; apply in_modes; auto.
Qed.
Lemma T_col i : unitary sizes full -> valid_lead n i -> lsum R (fun o => T o i) (all_leads n) = rnat R (size i).
Proof.
  intros [_ HU] Hi. rewrite <- rnat_sum.
  transitivity (sum R (size i) (fun b => lsum R (fun x => rmul R (conj (full x (i, b))) (full x (i, b))) (modes_of sizes (all_leads n)))).
  - unfold SolverSpec.T. erewrite lsum_ext; [|intros o _; apply sum_swap]. rewrite <- sum_lswap. apply sum_ext. intros b Hb. rewrite lsum_modes. reflexivity.
  - apply sum_ext. intros b Hb. apply (HU (i, b) (i, b)); auto; apply in_modes; auto.
Qed.
End Full.

Lemma missing_perm k l x : good_leads k l -> S (length l) = k -> valid_lead k x -> ~ In x l -> Permutation (x :: l) (all_leads k).
Proof.
  intros [HN Hv] HL Hx Hni. apply NoDup_Permutation_bis.
  - constructor; auto.
  - rewrite all_leads_length. cbn. lia.
  - intros z [<-|Hz]; unfold all_leads; apply in_map_iff; [destruct Hx|destruct (Hv z Hz)]; [exists (Z.to_nat x)|exists (Z.to_nat z)]; (split; [lia|]; apply in_seq; lia).
Qed.

Lemma slsum_lsum {A} (f : A -> sres R) g l : (forall x, In x l -> f x = inl (g x)) -> slsum f l = inl (lsum R g l).
Proof.
  induction l as [|x l IH]; intros H; [reflexivity|]. cbn [slsum]. rewrite (H x) by (left; auto). cbn [sbind]. rewrite IH by (intros; apply H; right; auto). reflexivity.
Qed.

(** transmission_ for any numbers t obeying the sum rules *)
Lemma transmission_deduced (q : bres R) st np (t : Z -> Z -> R) (nn : Z -> R) a b : let k := length (q_info q) in
  good_leads k (q_out q) -> good_leads k (q_in q) -> q_cons q = true ->
  (forall o i, In o (q_out q) -> In i (q_in q) -> st o i = inl (t o i)) ->
  (forall l, valid_lead k l -> np l = inl (nn l)) ->
  (forall o, valid_lead k o -> lsum R (fun i => t o i) (all_leads k) = nn o) ->
  (forall i, valid_lead k i -> lsum R (fun o => t o i) (all_leads k) = nn i) ->
  valid_lead k a -> valid_lead k b ->
  (In a (q_out q) /\ ~ In b (q_in q) /\ S (length (q_in q)) = k) \/ (~ In a (q_out q) /\ In b (q_in q) /\ S (length (q_out q)) = k) ->
  transmission_ q st np a b = inl (t a b).
Proof.
  intros k Ho Hi Hc Hst Hnp Hrow Hcol Ha Hb [(H1 & H2 & H3)|(H1 & H2 & H3)]; unfold transmission_; fold k.
  - rewrite (proj2 (zmem_iff a (q_out q)) H1), (proj2 (zmem_false b (q_in q)) H2), Hc.
    rewrite (proj2 (Nat.eqb_eq _ _) H3), (Hnp a Ha). cbn [sbind]. rewrite (@slsum_lsum _ _ (fun i => t a i)) by (intros; apply Hst; auto). cbn [sbind].
    f_equal. rewrite <- (Hrow a Ha), <- (lsum_perm (fun i => t a i) (missing_perm Hi H3 Hb H2)), lsum_cons. ring.
  - rewrite (proj2 (zmem_false a (q_out q)) H1), (proj2 (zmem_iff b (q_in q)) H2), Hc.
    rewrite (proj2 (Nat.eqb_eq _ _) H3), (Hnp b Hb). cbn [sbind]. rewrite (@slsum_lsum _ _ (fun o => t o b)) by (intros; apply Hst; auto). cbn [sbind].
    f_equal. rewrite <- (Hcol b Hb), <- (lsum_perm (fun o => t o b) (missing_perm Ho H3 Ha H1)), lsum_cons. ring.
Qed.
Lemma transmission_present (q : bres R) st np a b : In a (q_out q) -> In b (q_in q) -> transmission_ q st np a b = st a b.
Proof. intros H1 H2. unfold transmission_. rewrite (proj2 (zmem_iff _ _) H1), (proj2 (zmem_iff _ _) H2). reflexivity. Qed.
Lemma transmission_insufficient (q : bres R) st np a b : let k := length (q_info q) in
  ~ (In a (q_out q) /\ In b (q_in q)) ->
  q_cons q = false \/ (~ In b (q_in q) /\ S (length (q_in q)) <> k) \/ (~ In a (q_out q) /\ S (length (q_out q)) <> k) ->
  transmission_ q st np a b = inr SValue.
Proof.
  intros k H1 H2. unfold transmission_. fold k.
  destruct (zmem a (q_out q)) eqn:Ea, (zmem b (q_in q)) eqn:Eb;
    repeat match goal with H : zmem _ _ = true |- _ => apply zmem_iff in H | H : zmem _ _ = false |- _ => apply (proj1 (zmem_false _ _)) in H end;
    [tauto|..]; (destruct (q_cons q) eqn:Ec; [|reflexivity]); (destruct H2 as [H2|[[H2 H3]|[H2 H3]]]; [congruence|..]); try tauto;
    try (apply Nat.eqb_neq in H3; unfold k in *; rewrite H3; rewrite ?andb_false_r; reflexivity).
Qed.

(** ** Conductance matrix *)
Lemma F2_nth_error {A B} (P : A -> B -> Prop) l l' k x : Forall2 P l l' -> nth_error l k = Some x -> exists y, nth_error l' k = Some y /\ P x y.
Proof. intros H. revert k. induction H as [|a b l l' Hab _ IH]; intros k Hk; [destruct k; discriminate|]. destruct k as [|k]; cbn in *; [injection Hk as ->; eauto|eauto]. Qed.
Lemma seq_nth_error k i : i < k -> nth_error (seq 0 k) i = Some i.
Proof. intros H. rewrite (nth_error_nth' _ 0) by (rewrite seq_length; auto). rewrite seq_nth; auto. Qed.
Lemma conductance_inl k tr m : conductance_matrix (R := R) k tr = inl m ->
  mr m = k /\ mc m = k /\
  (forall i j, i < k -> j < k -> i <> j -> exists t, tr (Z.of_nat i) (Z.of_nat j) = inl t /\ mget m i j = ropp R t) /\
  (forall j, j < k -> sum R k (fun i => mget m i j) = r0 R).
Proof.
  unfold conductance_matrix. intros H. apply sbind_inl in H. destruct H as (rows & Hrows & [= <-]). cbn [mr mc mget].
  set (res := fun i j => nth j (nth i rows []) (r0 R)).
  assert (Hres : forall i j, i < k -> j < k -> if i =? j then res i j = r0 R else exists t, tr (Z.of_nat i) (Z.of_nat j) = inl t /\ res i j = ropp R t).
  { intros i j Hi Hj. apply smap_inl in Hrows. destruct (@F2_nth_error _ _ _ _ _ _ _ Hrows (@seq_nth_error k i Hi)) as (row & Hrow & Hr).
    apply smap_inl in Hr. destruct (@F2_nth_error _ _ _ _ _ _ _ Hr (@seq_nth_error k j Hj)) as (x & Hx & Hxx). unfold res.
    rewrite (nth_error_nth _ _ _ Hrow), (nth_error_nth _ _ _ Hx). destruct (Nat.eqb_spec i j); [congruence|].
    apply sbind_inl in Hxx. destruct Hxx as (t & Ht & [= <-]). eauto. }
  repeat split; auto.
  - intros i j Hi Hj Hij. specialize (Hres i j Hi Hj). apply Nat.eqb_neq in Hij. rewrite Hij in *. exact Hres.
  - intros j Hj. fold res.
    assert (E : forall i, i < k -> (if i =? j then ropp R (sum R k (fun i0 => res i0 j)) else res i j) = radd R (res i j) (if i =? j then ropp R (sum R k (fun i0 => res i0 j)) else r0 R)).
    { intros i Hi. specialize (Hres i j Hi Hj). destruct (i =? j); [rewrite Hres; ring|ring]. }
    transitivity (sum R k (fun i => radd R (res i j) (if i =? j then ropp R (sum R k (fun i0 => res i0 j)) else r0 R))); [apply sum_ext; auto|].
    rewrite sum_add, sum_delta by auto. ring.
Qed.
Lemma conductance_ok k tr (t : nat -> nat -> R) : (forall i j, i < k -> j < k -> i <> j -> tr (Z.of_nat i) (Z.of_nat j) = inl (t i j)) ->
  exists m, conductance_matrix (R := R) k tr = inl m.
Proof.
  intros H. unfold conductance_matrix.
  rewrite (@smap_map _ _ _ (fun i => map (fun j => if i =? j then r0 R else ropp R (t i j)) (seq 0 k))); [cbn; eauto|].
  intros i Hi. apply in_seq in Hi. apply smap_map. intros j Hj. apply in_seq in Hj. destruct (Nat.eqb_spec i j); auto. rewrite H by lia. reflexivity.
Qed.
Lemma lsum_all_leads k (f : Z -> R) : lsum R f (all_leads k) = sum R k (fun i => f (Z.of_nat i)).
Proof. unfold all_leads. rewrite lsum_map. reflexivity. Qed.
Lemma sum_but k j (f : nat -> R) : j < k -> sum R k (fun i => if i =? j then r0 R else f i) = rsub R (sum R k f) (f j).
Proof.
  intros Hj. transitivity (sum R k (fun i => rsub R (f i) (if i =? j then f i else r0 R))).
  - apply sum_ext. intros i _. destruct (i =? j); ring.
  - rewrite sum_sub, sum_delta; auto.
Qed.
(** with sum rules *)
Lemma conductance_spec k tr (t : Z -> Z -> R) (nn : Z -> R) m : conductance_matrix (R := R) k tr = inl m ->
  (forall i j, i < k -> j < k -> i <> j -> tr (Z.of_nat i) (Z.of_nat j) = inl (t (Z.of_nat i) (Z.of_nat j))) ->
  (forall o, valid_lead k o -> lsum R (fun i => t o i) (all_leads k) = nn o) ->
  (forall i, valid_lead k i -> lsum R (fun o => t o i) (all_leads k) = nn i) ->
  (forall i j, i < k -> j < k -> mget m i j = if i =? j then rsub R (nn (Z.of_nat i)) (t (Z.of_nat i) (Z.of_nat i)) else ropp R (t (Z.of_nat i) (Z.of_nat j))) /\
  (forall i, i < k -> sum R k (fun j => mget m i j) = r0 R).
Proof.
  intros Hm Htr Hrow Hcol. destruct (@conductance_inl _ _ _ Hm) as (_ & _ & Hoff & Hsum).
  assert (Hoff' : forall i j, i < k -> j < k -> i <> j -> mget m i j = ropp R (t (Z.of_nat i) (Z.of_nat j))).
  { intros i j Hi Hj Hij. destruct (Hoff i j Hi Hj Hij) as (x & Hx & ->). rewrite Htr in Hx by auto. congruence. }
  assert (Hent : forall i j, i < k -> j < k -> mget m i j = if i =? j then rsub R (nn (Z.of_nat i)) (t (Z.of_nat i) (Z.of_nat i)) else ropp R (t (Z.of_nat i) (Z.of_nat j))).
  { intros i j Hi Hj. destruct (Nat.eqb_spec i j) as [->|Hij]; auto.
    specialize (Hsum j Hj).
    assert (E : sum R k (fun i => mget m i j) = radd R (mget m j j) (sum R k (fun i => if i =? j then r0 R else mget m i j))) by (rewrite sum_but by auto; ring).
    rewrite E in Hsum.
    assert (E2 : sum R k (fun i => if i =? j then r0 R else mget m i j) = ropp R (rsub R (sum R k (fun i => t (Z.of_nat i) (Z.of_nat j))) (t (Z.of_nat j) (Z.of_nat j)))).
    { rewrite <- (@sum_but k j (fun i => t (Z.of_nat i) (Z.of_nat j))) by auto. unfold sum. rewrite <- lsum_opp. apply lsum_ext. intros i Hin. apply in_seq in Hin.
      destruct (Nat.eqb_spec i j); [ring|]. apply Hoff'; lia. }
    rewrite E2 in Hsum. rewrite <- (Hcol (Z.of_nat j)) by (unfold valid_lead; lia). rewrite lsum_all_leads.
    transitivity (radd R (radd R (mget m j j) (ropp R (rsub R (sum R k (fun i => t (Z.of_nat i) (Z.of_nat j))) (t (Z.of_nat j) (Z.of_nat j)))))
       (rsub R (sum R k (fun i => t (Z.of_nat i) (Z.of_nat j))) (t (Z.of_nat j) (Z.of_nat j)))); [ring|]. rewrite Hsum. ring. }
  split; auto. intros i Hi.
  transitivity (sum R k (fun j => radd R (ropp R (t (Z.of_nat i) (Z.of_nat j))) (if j =? i then nn (Z.of_nat i) else r0 R))).
  - apply sum_ext. intros j Hj. rewrite Hent by auto. rewrite (Nat.eqb_sym i j). destruct (Nat.eqb_spec j i); [subst; ring|ring].
  - rewrite sum_add, sum_delta by auto. unfold sum at 1. rewrite lsum_opp. change (lsum R ?f (seq 0 k)) with (sum R k f).
    rewrite <- (Hrow (Z.of_nat i)) by (unfold valid_lead; lia). rewrite lsum_all_leads. ring.
Qed.
End Solver.
