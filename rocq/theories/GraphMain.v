(** * Queries of compressed graphs: proofs for C16-C19. *)
From Coq Require Import List Bool Arith ZArith Lia Sorting.Sorted Permutation.
From Verif Require Import GraphModel CountingSort GraphProofs GraphSpec.
Import ListNotations.
Set Implicit Arguments.

Lemma greach_WF g : greach g -> WFg g.
Proof.
  induction 1 as [b|g v _ IH|g t h _ IH|g es _ IH].
  - apply WFg_new.
  - apply WFg_set; auto.
  - apply WFg_add; auto.
  - revert g IH. induction es as [|[t h] es IHe]; intros g W; [exact W|].
    cbn [add_edges]. pose proof (WFg_add t h W) as W'. destruct (add_edge g t h) as [g' [z|e]]; cbn in *; auto.
Qed.

(** ** Slices *)
Lemma nth_skipn {A} (l : list A) a i : nth_error (skipn a l) i = nth_error l (a + i).
Proof. revert l. induction a; intros [|x l]; cbn; auto. destruct i; auto. Qed.
Lemma aslice_ok a : forall k lo, lo + k <= length a ->
  aslice a (Z.of_nat lo) k = inl (firstn k (skipn lo a)).
Proof.
  induction k as [|k IH]; intros lo H; [reflexivity|].
  cbn [aslice]. destruct (nth_error a lo) as [v|] eqn:Hv.
  2:{ apply nth_error_None in Hv. lia. }
  rewrite (aget_nth _ _ Hv). cbn [gbind]. replace (Z.of_nat lo + 1)%Z with (Z.of_nat (S lo)) by lia.
  rewrite IH by lia. cbn [gbind]. f_equal.
  destruct (skipn lo a) as [|x r] eqn:Es.
  - pose proof (nth_skipn a lo 0) as Hn. rewrite Es, Nat.add_0_r, Hv in Hn. discriminate.
  - pose proof (nth_skipn a lo 0) as Hn. rewrite Es, Nat.add_0_r, Hv in Hn. injection Hn as ->.
    cbn [firstn]. f_equal. f_equal. clear -Es. revert a Es. induction lo; intros [|y a] Es; cbn in *; try discriminate.
    + congruence.
    + apply IHlo. exact Es.
Qed.

Lemma slice_lay {A B} (key : A -> option nat) (val : A -> B) m E t : t < m ->
  firstn (cnt key t E) (skipn (off key t E) (map val (lay key m E))) = map val (bucket key t E).
Proof.
  intros Ht. rewrite skipn_map, firstn_map. f_equal.
  induction m as [|m IH]; [lia|]. rewrite lay_S, skipn_app, firstn_app, lay_length.
  destruct (Nat.eq_dec t m) as [->|Hne].
  - rewrite skipn_all2 by (rewrite lay_length; lia). rewrite firstn_nil, Nat.sub_diag. cbn [app length].
    rewrite Nat.sub_0_r. cbn [skipn]. unfold cnt. apply firstn_all.
  - assert (Hlt : t < m) by lia. pose proof (@off_mono _ key (S t) m E Hlt) as Hm. cbn [off] in Hm.
    rewrite IH by auto. rewrite skipn_length, lay_length.
    replace (cnt key t E - (off key m E - off key t E)) with 0 by lia.
    rewrite app_nil_r. reflexivity.
Qed.

Lemma range_nat lo k : range (Z.of_nat lo) (Z.of_nat (lo + k)) = map Z.of_nat (seq lo k).
Proof.
  unfold range. replace (Z.to_nat (Z.of_nat (lo + k) - Z.of_nat lo)) with k by lia.
  revert lo. induction k as [|k IH] using nat_ind; intros lo; [reflexivity|].
  rewrite !seq_S, !map_app, IH. cbn. f_equal. f_equal. lia.
Qed.

Lemma combine_in {A} (l : list A) : forall lo i x, In (i, x) (combine (map Z.of_nat (seq lo (length l))) l) <->
  exists j, i = Z.of_nat (lo + j) /\ nth_error l j = Some x.
Proof.
  induction l as [|y l IH]; intros lo i x; cbn.
  - split; [intros []|]. intros (j & _ & H). destruct j; discriminate.
  - rewrite IH. split.
    + intros [[= <- <-]|(j & -> & Hj)].
      * exists 0. split; [lia|reflexivity].
      * exists (S j). split; [lia|exact Hj].
    + intros ([|j] & -> & Hj).
      * left. injection Hj as ->. f_equal. lia.
      * right. exists j. split; [lia|exact Hj].
Qed.
Lemma sorted_combine {A} (f : Z * A -> bool) (l : list A) : forall lo,
  StronglySorted Z.lt (map fst (filter f (combine (map Z.of_nat (seq lo (length l))) l))).
Proof.
  induction l as [|y l IH]; intros lo; cbn; [constructor|].
  destruct (f (Z.of_nat lo, y)); [|apply IH]. cbn. constructor; [apply IH|].
  apply Forall_forall. intros z Hz. apply in_map_iff in Hz. destruct Hz as ([i x] & <- & Hz).
  apply filter_In in Hz. destruct Hz as [Hz _]. apply combine_in in Hz. destruct Hz as (j & -> & _). cbn. lia.
Qed.
Lemma find_hd {A} (f : A -> bool) l : find f l = hd_error (filter f l).
Proof. induction l as [|x l IH]; cbn; auto. destruct (f x); auto. Qed.

Section Queries.
Variable g : graph.
Hypothesis W : WFg g.
Variables tw ent : bool.
Variable c : cgraph.
Hypothesis Hc : csr g tw ent c.
Notation E := (edges g).
Notation n := (Z.to_nat (num_nodes g)).
Notation hk := (hkey g tw).
Notation eid := (eid g tw).
Let HnZ : Z.of_nat n = num_nodes g. Proof. apply Z2Nat.id, (g_n W). Qed.

Definition L : list (Z * Z) := lay hk (S n) E.

Lemma L_len : length L = off hk (S n) E.
Proof. apply lay_length. Qed.
Lemma ne_len : num_edges c = Z.of_nat (length L).
Proof. rewrite (c_ne Hc), L_len. reflexivity. Qed.

Lemma hk_pos a b : (0 <= a)%Z -> hk (a, b) = Some (Z.to_nat a).
Proof. intros H. unfold hkey. cbn [fst]. destruct (Z.leb_spec 0 a); [auto|lia]. Qed.
Lemma hk_neg a b : (a < 0)%Z -> hk (a, b) = if tw then Some n else None.
Proof. intros H. unfold hkey. cbn [fst]. destruct (Z.leb_spec 0 a); [lia|auto]. Qed.
Lemma tk_pos a b : (0 <= b)%Z -> tkey (a, b) = Some (Z.to_nat b).
Proof. intros H. unfold tkey. cbn [snd]. destruct (Z.leb_spec 0 b); [auto|lia]. Qed.

Lemma L_eid k e t : nth_error E k = Some e -> hk e = Some t ->
  edge_at L (eid k e) = Some e /\ (0 <= eid k e)%Z.
Proof.
  intros Hk Ht. unfold GraphProofs.eid. rewrite Ht. unfold edge_at.
  destruct (Z.ltb_spec (Z.of_nat (posn hk E t k)) 0); [lia|]. split; [|lia].
  rewrite Nat2Z.id. apply nth_posn; auto. eapply hkey_lt; eauto using nth_error_In.
Qed.
Lemma edge_at_inv i e : edge_at L i = Some e -> exists k, nth_error E k = Some e /\ hk e <> None /\ i = eid k e.
Proof.
  unfold edge_at. destruct (Z.ltb_spec i 0) as [|Hi]; [discriminate|]. intros H.
  assert (Hlt : Z.to_nat i < off hk (S n) E).
  { rewrite <- L_len. apply nth_error_Some. congruence. }
  destruct (posn_surj _ _ _ Hlt) as (t & k & x & H1 & H2 & H3 & H4).
  assert (Hx : nth_error L (posn hk E t k) = Some x) by (apply nth_posn; auto).
  rewrite H4 in Hx. assert (x = e) by congruence. subst x.
  exists k. split; [auto|]. split; [congruence|]. unfold GraphProofs.eid. rewrite H3. lia.
Qed.
Arguments edge_at_inv {i e}.
Lemma eid_inj j k e f : nth_error E j = Some e -> nth_error E k = Some f -> hk e <> None -> hk f <> None ->
  eid j e = eid k f -> j = k.
Proof.
  intros Hj Hk He Hf. unfold GraphProofs.eid.
  destruct (hk e) as [t|] eqn:H1; [|congruence]. destruct (hk f) as [u|] eqn:H2; [|congruence].
  intros Heq. eapply (@posn_inj _ hk E t u j k e f); eauto. lia.
Qed.
Lemma eid_mono j k e f t : j < k -> nth_error E j = Some e -> nth_error E k = Some f -> hk e = Some t -> hk f = Some t ->
  (eid j e < eid k f)%Z.
Proof.
  intros Hjk Hj Hk He Hf. unfold GraphProofs.eid. rewrite He, Hf.
  pose proof (@posn_mono _ hk E t j k e Hjk Hj He). lia.
Qed.

(** *** id order *)
Lemma filter_bucket t u : filter (keyb hk t) (bucket hk u E) = if t =? u then bucket hk t E else [].
Proof.
  unfold bucket. destruct (Nat.eqb_spec t u) as [->|Hne].
  - induction E as [|x l IH]; auto. cbn. destruct (keyb hk u x) eqn:Hx; auto. cbn. rewrite Hx, IH. reflexivity.
  - induction E as [|x l IH]; auto. cbn. destruct (keyb hk u x) eqn:Hx; auto. cbn.
    replace (keyb hk t x) with false; auto. apply keyb_eq in Hx. unfold keyb. rewrite Hx.
    symmetry. apply Nat.eqb_neq. auto.
Qed.
Lemma filter_lay t m : filter (keyb hk t) (lay hk m E) = if t <? m then bucket hk t E else [].
Proof.
  induction m as [|m IH]; [reflexivity|]. rewrite lay_S, filter_app, IH, filter_bucket.
  destruct (Nat.ltb_spec t m), (Nat.eqb_spec t m), (Nat.ltb_spec t (S m)); try lia; auto.
  rewrite app_nil_r. auto.
Qed.

Lemma filter_ext_in' {A} (f h : A -> bool) l : (forall x, In x l -> f x = h x) -> filter f l = filter h l.
Proof.
  intros H. induction l as [|x l IH]; auto. cbn. rewrite (H x) by (left; auto).
  rewrite IH by (intros; apply H; right; auto). reflexivity.
Qed.

Lemma L_in e : In e L -> In e E /\ hk e <> None.
Proof.
  unfold L, lay. rewrite in_flat_map. intros (t & _ & H). apply filter_In in H. destruct H as [H1 H2].
  apply keyb_eq in H2. split; [auto|congruence].
Qed.

Definition grp (t : Z) : nat := if (0 <=? t)%Z then Z.to_nat t else n.
Lemma grp_same t e : (0 <= t < num_nodes g \/ (t < 0)%Z /\ tw = true)%Z -> In e E -> same_group t (fst e) = keyb hk (grp t) e.
Proof. clear Hc.
  destruct e as [a b]. intros Ht Hi. apply (g_lt W) in Hi. unfold same_group, keyb, grp, hkey. cbn [fst].
  destruct Ht as [Ht|[Ht Etw]].
  - destruct (Z.leb_spec 0 t); [|lia]. destruct (Z.ltb_spec t 0); [lia|]. cbn [andb]. rewrite orb_false_r.
    destruct (Z.leb_spec 0 a).
    + destruct (Z.eqb_spec t a), (Nat.eqb_spec (Z.to_nat a) (Z.to_nat t)); auto; lia.
    + destruct (Z.eqb_spec t a); [lia|]. destruct tw; auto. symmetry. apply Nat.eqb_neq. lia.
  - destruct (Z.leb_spec 0 t); [lia|]. destruct (Z.ltb_spec t 0); [|lia]. cbn [andb].
    destruct (Z.leb_spec 0 a); destruct (Z.ltb_spec a 0); try lia.
    + rewrite orb_false_r. destruct (Z.eqb_spec t a); [lia|]. symmetry. apply Nat.eqb_neq. lia.
    + rewrite orb_true_r, Etw. symmetry. apply Nat.eqb_eq. reflexivity.
Qed.

Lemma perm_lay (A : Type) (key : A -> option nat) l m :
  Permutation (lay key m l) (filter (fun a => match key a with Some t => t <? m | None => false end) l).
Proof.
  induction m as [|m IH].
  - cbn. induction l as [|a l IHl]; cbn; auto. destruct (key a); auto.
  - rewrite lay_S, IH. clear IH. induction l as [|a l IH]; [reflexivity|].
    cbn [filter bucket]. unfold bucket in *. cbn [filter]. unfold keyb at 1. destruct (key a) as [t|]; auto.
    destruct (Nat.ltb_spec t m), (Nat.eqb_spec t m), (Nat.ltb_spec t (S m)); try lia; auto.
    + cbn. apply perm_skip, IH.
    + rewrite <- Permutation_middle. apply perm_skip, IH.
Qed.

Lemma sorted_app {A} (R : A -> A -> Prop) l l' : StronglySorted R l -> StronglySorted R l' ->
  (forall x y, In x l -> In y l' -> R x y) -> StronglySorted R (l ++ l').
Proof.
  intros H1 H2 H. induction H1 as [|x l Hs IH Hf]; cbn; auto. constructor.
  - apply IH. intros; apply H; auto. right; auto.
  - apply Forall_app. split; auto. apply Forall_forall. intros y Hy. apply H; auto. left; auto.
Qed.
Lemma sorted_all {A} (R : A -> A -> Prop) l : (forall x y, In x l -> In y l -> R x y) -> StronglySorted R l.
Proof.
  induction l as [|x l IH]; intros H; constructor.
  - apply IH. intros; apply H; right; auto.
  - apply Forall_forall. intros y Hy. apply H; [left|right]; auto.
Qed.

Lemma key_group e f t u : In e E -> In f E -> hk e = Some t -> hk f = Some u -> t <= u -> group_le e f.
Proof. clear Hc.
  destruct e as [a b], f as [a' b']. intros Hi Hi'. apply (g_lt W) in Hi, Hi'.
  unfold hkey, group_le. cbn [fst]. destruct (Z.leb_spec 0 a), (Z.leb_spec 0 a'); [| |destruct tw; [|discriminate]|]; auto.
  - intros [= <-] [= <-] Hle. right. lia.
  - intros [= <-] [= <-] Hle. lia.
Qed.

Lemma L_order : id_order tw E L.
Proof. clear Hc.
  split.
  - unfold L. rewrite perm_lay. erewrite filter_ext_in'; [reflexivity|].
    intros [a b] Hi. apply (g_lt W) in Hi. unfold kept, hkey. cbn [fst].
    destruct (Z.leb_spec 0 a); [rewrite orb_true_r; apply Nat.ltb_lt; lia|].
    rewrite orb_false_r. destruct tw; [apply Nat.ltb_lt; lia|auto].
  - unfold L. induction (S n) as [|m IH]; [constructor|]. rewrite lay_S. apply sorted_app; auto.
    + apply sorted_all. intros x y Hx Hy. apply filter_In in Hx, Hy. destruct Hx as [Hx1 Hx2], Hy as [Hy1 Hy2].
      apply keyb_eq in Hx2, Hy2. eapply key_group; eauto.
    + intros x y Hx Hy. unfold lay in Hx. apply in_flat_map in Hx. destruct Hx as (t & Ht & Hx).
      apply in_seq in Ht. apply filter_In in Hx, Hy. destruct Hx as [Hx1 Hx2], Hy as [Hy1 Hy2].
      apply keyb_eq in Hx2, Hy2. eapply key_group; eauto. lia.
  - intros t Ht. destruct (Z_lt_ge_dec t (num_nodes g)) as [Hlt|Hge].
    + assert (Ht' : (0 <= t < num_nodes g \/ (t < 0)%Z /\ tw = true)%Z).
      { destruct Ht; [left; lia|]. destruct (Z_lt_ge_dec t 0); [right; auto|left; lia]. }
      rewrite (@filter_ext_in' _ _ (keyb hk (grp t)) L).
      2:{ intros e He. apply grp_same; auto. apply L_in; auto. }
      rewrite (@filter_ext_in' _ (fun e => same_group t (fst e)) (keyb hk (grp t)) E).
      2:{ intros e He. apply grp_same; auto. }
      unfold L. rewrite filter_lay. replace (grp t <? S n) with true; [reflexivity|].
      symmetry. apply Nat.ltb_lt. unfold grp. destruct (0 <=? t)%Z; lia.
    + pose proof (g_n W). assert (Hno : forall e, In e E -> same_group t (fst e) = false).
      { intros [a b] He. apply (g_lt W) in He. unfold same_group. cbn [fst].
        destruct (Z.eqb_spec t a), (Z.ltb_spec t 0); try lia; reflexivity. }
      rewrite (@filter_ext_in' _ (fun e => same_group t (fst e)) (fun _ => false) L).
      2:{ intros e He. apply Hno. apply L_in; auto. }
      rewrite (@filter_ext_in' _ (fun e => same_group t (fst e)) (fun _ => false) E) by auto.
      assert (Hf : forall l : list edge, filter (fun _ => false) l = []) by (induction l; auto).
      rewrite !Hf. reflexivity.
Qed.

(** *** Out-edges *)
Lemma hidx_get t : t <= n -> aget (heads_idxs c) (Z.of_nat t) = inl (Z.of_nat (off hk t E)).
Proof. intros Ht. apply (isarr_get (c_hidx Hc)). lia. Qed.
Lemma hbounds t : t < n -> bounds (heads_idxs c) (Z.of_nat t) =
  inl (Z.of_nat (off hk t E), Z.of_nat (off hk t E + cnt hk t E)).
Proof.
  intros Ht. unfold bounds. rewrite hidx_get by lia. cbn [gbind].
  replace (Z.of_nat t + 1)%Z with (Z.of_nat (S t)) by lia. rewrite hidx_get by lia. reflexivity.
Qed.
Lemma hboundsZ v : (0 <= v < num_nodes g)%Z -> bounds (heads_idxs c) v =
  inl (Z.of_nat (off hk (Z.to_nat v) E), Z.of_nat (off hk (Z.to_nat v) E + cnt hk (Z.to_nat v) E)).
Proof. intros H. rewrite <- hbounds by lia. f_equal. lia. Qed.
Lemma off_le_L t : t < S n -> off hk t E + cnt hk t E <= length L.
Proof. intros Ht. rewrite L_len. apply (@off_mono _ hk (S t) (S n) E). lia. Qed.
Arguments off_le_L {t}.

Lemma hslice t : t < n -> aslice (heads c) (Z.of_nat (off hk t E))
   (Z.to_nat (Z.of_nat (off hk t E + cnt hk t E) - Z.of_nat (off hk t E))) = inl (map snd (bucket hk t E)).
Proof.
  intros Ht. replace (Z.to_nat _) with (cnt hk t E) by lia.
  rewrite aslice_ok.
  - rewrite (c_heads Hc), slice_lay by lia. reflexivity.
  - rewrite (c_heads Hc), map_length. apply off_le_L. lia.
Qed.

Lemma bucket_tail t : (0 <= t < num_nodes g)%Z -> bucket hk (Z.to_nat t) E = filter (fun e => (fst e =? t)%Z) E.
Proof.
  intros Ht. apply filter_ext_in'. intros [a b] Hi. apply (g_lt W) in Hi. unfold keyb, hkey. cbn [fst].
  destruct (Z.leb_spec 0 a).
  - destruct (Z.eqb_spec a t), (Nat.eqb_spec (Z.to_nat a) (Z.to_nat t)); auto; lia.
  - destruct (Z.eqb_spec a t); [lia|]. destruct tw; auto. apply Nat.eqb_neq. lia.
Qed.

Lemma bad_node_spec v : bad_node c v = negb ((0 <=? v)%Z && (v <? num_nodes g)%Z).
Proof. unfold bad_node. rewrite (c_n Hc). destruct (Z.ltb_spec v 0), (Z.leb_spec 0 v), (Z.leb_spec (num_nodes g) v), (Z.ltb_spec v (num_nodes g)); try lia; auto. Qed.

Lemma out_neighbors_spec v : out_neighbors c v =
  if (0 <=? v)%Z && (v <? num_nodes g)%Z then inl (map snd (filter (fun e => (fst e =? v)%Z) E)) else inr GNode.
Proof.
  unfold out_neighbors. rewrite bad_node_spec. destruct ((0 <=? v)%Z && (v <? num_nodes g)%Z) eqn:Hv; [|reflexivity].
  apply andb_prop in Hv. destruct Hv as [H1 H2]. apply Z.leb_le in H1. apply Z.ltb_lt in H2. cbn [negb].
  rewrite <- bucket_tail by lia. rewrite hboundsZ by lia. cbn [gbind]. apply hslice. lia.
Qed.

(** ids of a bucket *)
Lemma bucket_ids t i : t < S n -> (Z.of_nat (off hk t E) <= i < Z.of_nat (off hk t E + cnt hk t E))%Z <->
  exists e, edge_at L i = Some e /\ hk e = Some t.
Proof.
  intros Ht. split.
  - intros Hi. pose proof (off_le_L Ht). unfold edge_at. destruct (Z.ltb_spec i 0); [lia|].
    destruct (nth_error L (Z.to_nat i)) as [e|] eqn:He; [|apply nth_error_None in He; lia].
    exists e. split; [auto|].
    assert (Hb : nth_error (lay hk (S n) E) (off hk t E + (Z.to_nat i - off hk t E)) =
                 nth_error (bucket hk t E) (Z.to_nat i - off hk t E)) by (apply nth_lay; lia).
    replace (off hk t E + (Z.to_nat i - off hk t E)) with (Z.to_nat i) in Hb by lia.
    unfold L in He. rewrite He in Hb. symmetry in Hb. apply nth_error_In, filter_In in Hb. destruct Hb as [_ Hb].
    apply keyb_eq; auto.
  - intros (e & He & Hk). destruct (edge_at_inv He) as (k & H1 & _ & ->).
    unfold GraphProofs.eid. rewrite Hk. unfold posn. pose proof (@cnt_firstn_lt _ hk t E k e H1 Hk). lia.
Qed.
Arguments bucket_ids {t}.
Lemma hk_tail e t : In e E -> (0 <= t < num_nodes g)%Z -> hk e = Some (Z.to_nat t) <-> fst e = t.
Proof.
  destruct e as [a b]. intros Hi Ht. apply (g_lt W) in Hi. unfold hkey. cbn [fst].
  destruct (Z.leb_spec 0 a).
  - split; [intros [= ?]; lia|intros <-; auto].
  - split; [|lia]. destruct tw; [intros [= ?]; lia|discriminate].
Qed.
Lemma edge_at_in i e : edge_at L i = Some e -> In e E.
Proof. intros H. destruct (edge_at_inv H) as (k & H1 & _). eapply nth_error_In; eauto. Qed.
Arguments edge_at_in {i e}.

Lemma sorted_map_seq lo k : StronglySorted Z.lt (map Z.of_nat (seq lo k)).
Proof.
  revert lo. induction k as [|k IH]; intros lo; cbn; constructor; auto.
  apply Forall_forall. intros z Hz. apply in_map_iff in Hz. destruct Hz as (x & <- & Hx). apply in_seq in Hx. lia.
Qed.

Lemma out_edge_ids_spec v : (0 <= v < num_nodes g)%Z -> exists ids, out_edge_ids c v = inl ids /\
  increasing_ids ids (fun i => exists h, edge_at L i = Some (v, h)).
Proof.
  intros Hv. unfold out_edge_ids. rewrite bad_node_spec. destruct (Z.leb_spec 0 v); [|lia]. destruct (Z.ltb_spec v (num_nodes g)); [|lia].
  cbn [negb andb]. rewrite hboundsZ by lia. cbn [gbind].
  eexists. split; [reflexivity|]. rewrite range_nat. split; [apply sorted_map_seq|].
  intros i. transitivity (Z.of_nat (off hk (Z.to_nat v) E) <= i < Z.of_nat (off hk (Z.to_nat v) E + cnt hk (Z.to_nat v) E))%Z.
  - rewrite in_map_iff. split.
    + intros (x & <- & Hx). apply in_seq in Hx. lia.
    + intros Hi. exists (Z.to_nat i). split; [lia|]. apply in_seq. lia.
  - rewrite bucket_ids by lia. split.
    + intros ([a b] & He & Hk). apply hk_tail in Hk; eauto using edge_at_in. cbn in Hk. subst. eauto.
    + intros (b & He). exists (v, b). split; auto. apply hk_tail; eauto using edge_at_in.
Qed.

(** *** In-edges *)
Lemma tidx_get t : tw = true -> t <= n -> aget (tails_idxs c) (Z.of_nat t) = inl (Z.of_nat (off tkey t E)).
Proof. intros Htw Ht. apply (isarr_get (c_tidx Hc Htw)). lia. Qed.
Lemma tbounds t : tw = true -> t < n -> bounds (tails_idxs c) (Z.of_nat t) =
  inl (Z.of_nat (off tkey t E), Z.of_nat (off tkey t E + cnt tkey t E)).
Proof.
  intros Htw Ht. unfold bounds. rewrite tidx_get by (auto; lia). cbn [gbind].
  replace (Z.of_nat t + 1)%Z with (Z.of_nat (S t)) by lia. rewrite tidx_get by (auto; lia). reflexivity.
Qed.
Lemma tboundsZ v : tw = true -> (0 <= v < num_nodes g)%Z -> bounds (tails_idxs c) v =
  inl (Z.of_nat (off tkey (Z.to_nat v) E), Z.of_nat (off tkey (Z.to_nat v) E + cnt tkey (Z.to_nat v) E)).
Proof. intros Ht H. rewrite <- tbounds by (auto; lia). f_equal. lia. Qed.
Lemma toff_le t : t < n -> off tkey t E + cnt tkey t E <= off tkey n E.
Proof. intros Ht. apply (@off_mono _ tkey (S t) n E). lia. Qed.
Arguments toff_le {t}.
Lemma tslice t : tw = true -> t < n -> aslice (tails c) (Z.of_nat (off tkey t E))
   (Z.to_nat (Z.of_nat (off tkey t E + cnt tkey t E) - Z.of_nat (off tkey t E))) = inl (map fst (bucket tkey t E)).
Proof.
  intros Htw Ht. replace (Z.to_nat _) with (cnt tkey t E) by lia.
  rewrite aslice_ok.
  - rewrite (c_tails Hc Htw), slice_lay by lia. reflexivity.
  - rewrite (c_tails Hc Htw), map_length, lay_length. apply toff_le. lia.
Qed.
Lemma bucket_head h : (0 <= h < num_nodes g)%Z -> bucket tkey (Z.to_nat h) E = filter (fun e => (snd e =? h)%Z) E.
Proof.
  intros Ht. apply filter_ext_in'. intros [a b] Hi. apply (g_lt W) in Hi. unfold keyb, tkey. cbn [snd].
  destruct (Z.leb_spec 0 b).
  - destruct (Z.eqb_spec b h), (Nat.eqb_spec (Z.to_nat b) (Z.to_nat h)); auto; lia.
  - destruct (Z.eqb_spec b h); [lia|]. auto.
Qed.
Lemma in_neighbors_spec v : in_neighbors c v =
  if negb tw then inr GDisabled else
  if (0 <=? v)%Z && (v <? num_nodes g)%Z then inl (map fst (filter (fun e => (snd e =? v)%Z) E)) else inr GNode.
Proof.
  unfold in_neighbors. rewrite (c_tw Hc), bad_node_spec. destruct (Bool.bool_dec tw true) as [Etw|Etw].
  2:{ destruct tw; [congruence|reflexivity]. }
  replace (negb tw) with false by (rewrite Etw; reflexivity).
  destruct ((0 <=? v)%Z && (v <? num_nodes g)%Z) eqn:Hv; [|reflexivity].
  apply andb_prop in Hv. destruct Hv as [H1 H2]. apply Z.leb_le in H1. apply Z.ltb_lt in H2. cbn [negb].
  rewrite <- bucket_head by lia. rewrite tboundsZ by (auto; lia). cbn [gbind]. apply tslice; auto. lia.
Qed.

(** the tails and ids stored for a head *)
Lemma tpos_entry t j : tw = true -> t < n -> j < cnt tkey t E ->
  exists k e, nth_error E k = Some e /\ tkey e = Some t /\ cnt tkey t (firstn k E) = j /\
    nth_error (edge_ids c) (off tkey t E + j) = Some (eid k e) /\
    nth_error (bucket tkey t E) j = Some e.
Proof.
  intros Htw Ht Hj. destruct (@bucket_index _ tkey t E j Hj) as (k & e & H1 & H2 & H3).
  exists k, e. split; [auto|]. split; [auto|]. split; [auto|]. split.
  - rewrite <- H3. apply (c_eids Hc Htw); auto.
  - rewrite <- H3. apply bucket_nth; auto.
Qed.
Lemma hk_some e : tw = true -> hk e <> None.
Proof. intros Htw. unfold hkey. rewrite Htw. destruct (0 <=? fst e)%Z; discriminate. Qed.

Lemma in_edge_ids_spec v : tw = true -> (0 <= v < num_nodes g)%Z -> exists nb ids,
  in_neighbors c v = inl nb /\ in_edge_ids c v = inl ids /\
  nb = map fst (filter (fun e => (snd e =? v)%Z) E) /\
  length ids = length nb /\ NoDup ids /\
  (forall p i t, nth_error ids p = Some i -> nth_error nb p = Some t -> edge_at L i = Some (t, v)) /\
  (forall i t, edge_at L i = Some (t, v) -> In i ids).
Proof.
  intros Htw Hv. set (t := Z.to_nat v). assert (Ht : t < n) by (unfold t; lia).
  assert (Hvt : v = Z.of_nat t) by (unfold t; lia).
  exists (map fst (filter (fun e => (snd e =? v)%Z) E)),
         (firstn (cnt tkey t E) (skipn (off tkey t E) (edge_ids c))).
  assert (Hl : length (firstn (cnt tkey t E) (skipn (off tkey t E) (edge_ids c))) = cnt tkey t E).
  { rewrite firstn_length, skipn_length, (c_el Hc Htw). pose proof (toff_le Ht). lia. }
  assert (Hnth : forall p, p < cnt tkey t E ->
            nth_error (firstn (cnt tkey t E) (skipn (off tkey t E) (edge_ids c))) p = nth_error (edge_ids c) (off tkey t E + p)).
  { intros p Hp. rewrite <- nth_skipn. generalize (skipn (off tkey t E) (edge_ids c)). intros l.
    generalize (cnt tkey t E) Hp. clear. intros m. revert p l. induction m as [|m IH]; intros p l Hp; [lia|].
    destruct l as [|x l]; [destruct p; auto|]. destruct p; cbn; auto. apply IH. lia. }
  split; [|split; [|split; [reflexivity|split; [|split; [|split]]]]].
  - rewrite in_neighbors_spec, Htw. cbn [negb]. destruct (Z.leb_spec 0 v); [|lia]. destruct (Z.ltb_spec v (num_nodes g)); [|lia]. reflexivity.
  - unfold in_edge_ids. rewrite (c_tw Hc), Htw, bad_node_spec. cbn [negb]. destruct (Z.leb_spec 0 v); [|lia]. destruct (Z.ltb_spec v (num_nodes g)); [|lia].
    cbn [negb andb]. rewrite Hvt, tbounds by auto. cbn [gbind].
    replace (Z.to_nat (_ - _)) with (cnt tkey t E) by lia. apply aslice_ok.
    rewrite (c_el Hc Htw). apply toff_le; auto.
  - rewrite Hl, map_length, <- bucket_head by lia. reflexivity.
  - apply NoDup_nth_error. intros p q Hp Heq. rewrite Hl in Hp.
    destruct (lt_dec q (cnt tkey t E)) as [Hq|Hq].
    2:{ rewrite (proj2 (nth_error_None _ q)) in Heq by lia. apply nth_error_None in Heq. lia. }
    rewrite !Hnth in Heq by auto.
    destruct (tpos_entry Htw Ht Hp) as (k & e & A1 & A2 & A3 & A4 & _).
    destruct (tpos_entry Htw Ht Hq) as (k' & e' & B1 & B2 & B3 & B4 & _).
    rewrite A4, B4 in Heq. injection Heq as Heq.
    apply eid_inj in Heq; auto using hk_some. subst k'. congruence.
  - intros p i a Hi Hn. assert (Hp : p < cnt tkey t E) by (rewrite <- Hl; apply nth_error_Some; congruence).
    rewrite Hnth in Hi by auto. destruct (tpos_entry Htw Ht Hp) as (k & e & A1 & A2 & A3 & A4 & A5).
    rewrite A4 in Hi. injection Hi as <-. rewrite <- bucket_head in Hn by lia. fold t in Hn.
    rewrite (map_nth_error fst _ _ A5) in Hn. injection Hn as <-.
    destruct (hk e) as [u|] eqn:Hu; [|exfalso; eapply hk_some; eauto].
    rewrite (proj1 (L_eid _ A1 Hu)). destruct e as [x y]. cbn [fst]. f_equal. f_equal.
    unfold tkey in A2. cbn [snd] in A2. destruct (Z.leb_spec 0 y); [|discriminate]. injection A2 as A2. lia.
  - intros i a Hi. destruct (edge_at_inv Hi) as (k & H1 & H2 & ->).
    assert (Hk : tkey (a, v) = Some t) by (apply tk_pos; lia).
    pose proof (@cnt_firstn_lt _ tkey t E k _ H1 Hk) as Hlt.
    apply nth_error_In with (n := cnt tkey t (firstn k E)). rewrite Hnth by auto.
    apply (c_eids Hc Htw); auto.
Qed.

(** *** has_edge, all_edge_ids, first_edge_id *)
Lemma existsb_in (l : list Z) x : existsb (fun h => (h =? x)%Z) l = true <-> In x l.
Proof. rewrite existsb_exists. split; [intros (y & Hy & He); apply Z.eqb_eq in He; congruence|intros H; exists x; split; auto; apply Z.eqb_refl]. Qed.

Lemma edge_of_E e : In e E -> hk e <> None -> exists i, edge_at L i = Some e.
Proof.
  intros Hi Hk. destruct (In_nth_error _ _ Hi) as (k & Hk'). destruct (hk e) as [t|] eqn:Ht; [|congruence].
  exists (eid k e). eapply L_eid; eauto.
Qed.

Lemma all_pos t h : (0 <= t < num_nodes g)%Z -> (h < num_nodes g)%Z -> exists ids, all_edge_ids c t h = inl ids /\
  increasing_ids ids (fun i => edge_at L i = Some (t, h)).
Proof.
  intros Ht Hh. unfold all_edge_ids. rewrite (c_n Hc). destruct (Z.leb_spec (num_nodes g) t); [lia|].
  destruct (Z.leb_spec (num_nodes g) h); [lia|]. cbn [orb]. destruct (Z.leb_spec 0 t); [|lia].
  set (u := Z.to_nat t). assert (Hu : u < n) by (unfold u; lia).
  rewrite hboundsZ by auto. fold u. cbn [gbind]. unfold islice.
  rewrite hslice by auto. cbn [gbind]. rewrite range_nat.
  replace (cnt hk u E) with (length (map snd (bucket hk u E))) by (rewrite map_length; reflexivity).
  eexists. split; [reflexivity|]. split; [apply sorted_combine|].
  intros i. rewrite in_map_iff. split.
  - intros ([i' x] & <- & Hf). apply filter_In in Hf. destruct Hf as [Hf Hx]. cbn in Hx. apply Z.eqb_eq in Hx. subst x.
    apply combine_in in Hf. destruct Hf as (j & -> & Hj). cbn [fst].
    rewrite nth_error_map in Hj. destruct (nth_error (bucket hk u E) j) as [[a b]|] eqn:Hb; [|discriminate].
    cbn in Hj. injection Hj as ->. assert (Hjl : j < cnt hk u E) by (apply nth_error_Some; congruence).
    unfold edge_at. destruct (Z.ltb_spec (Z.of_nat (off hk u E + j)) 0); [lia|]. rewrite Nat2Z.id. unfold L.
    rewrite nth_lay by lia. rewrite Hb. f_equal. f_equal. apply nth_error_In, filter_In in Hb.
    destruct Hb as [Hb1 Hb2]. apply keyb_eq in Hb2. apply hk_tail in Hb2; auto. 
  - intros Hi. assert (Hk : hk (t, h) = Some u) by (apply hk_pos; lia).
    assert (Hr := proj2 (@bucket_ids u i ltac:(lia)) (ex_intro _ _ (conj Hi Hk))).
    exists (i, h). split; [reflexivity|]. apply filter_In. split; [|apply Z.eqb_refl].
    apply combine_in. exists (Z.to_nat i - off hk u E). split; [lia|].
    rewrite nth_error_map. rewrite <- (@nth_lay _ hk (S n)) by lia.
    replace (off hk u E + (Z.to_nat i - off hk u E)) with (Z.to_nat i) by lia.
    unfold edge_at in Hi. destruct (Z.ltb_spec i 0); [lia|]. unfold L in Hi. rewrite Hi. reflexivity.
Qed.

Lemma gmap_ok {A B} (f : A -> gres B) (h : A -> B) l : (forall x, In x l -> f x = inl (h x)) -> gmap f l = inl (map h l).
Proof.
  intros H. induction l as [|x l IH]; auto. cbn. rewrite (H x) by (left; auto). cbn.
  rewrite IH by (intros; apply H; right; auto). reflexivity.
Qed.

(** index [p] of the in-edge arrays *)
Definition eat (p : Z) : Z := nth (Z.to_nat p) (edge_ids c) 0%Z.

Lemma neg_entries t h : tw = true -> (t < 0)%Z -> (0 <= h < num_nodes g)%Z ->
  exists ps, islice (tails c) (Z.of_nat (off tkey (Z.to_nat h) E))
      (Z.of_nat (off tkey (Z.to_nat h) E + cnt tkey (Z.to_nat h) E)) = inl ps /\
  (forall q, In q (filter (fun p => (snd p =? t)%Z) ps) -> aget (edge_ids c) (fst q) = inl (eat (fst q))) /\
  increasing_ids (map (fun p => eat (fst p)) (filter (fun p => (snd p =? t)%Z) ps))
    (fun i => edge_at L i = Some (t, h)).
Proof.
  intros Htw Ht Hh. set (u := Z.to_nat h). assert (Hu : u < n) by (unfold u; lia).
  unfold islice. rewrite tslice by auto. cbn [gbind]. rewrite range_nat.
  replace (cnt tkey u E) with (length (map fst (bucket tkey u E))) by (rewrite map_length; reflexivity).
  eexists. split; [reflexivity|].
  (* entries *)
  assert (Hent : forall j, j < cnt tkey u E -> nth_error (map fst (bucket tkey u E)) j = Some t ->
     exists k, nth_error E k = Some (t, h) /\ cnt tkey u (firstn k E) = j /\
       aget (edge_ids c) (Z.of_nat (off tkey u E + j)) = inl (eat (Z.of_nat (off tkey u E + j))) /\
       eat (Z.of_nat (off tkey u E + j)) = eid k (t, h)).
  { intros j Hj Hn. destruct (tpos_entry Htw Hu Hj) as (k & [a b] & A1 & A2 & A3 & A4 & A5).
    rewrite (map_nth_error fst _ _ A5) in Hn. cbn in Hn. injection Hn as ->.
    assert (b = h).
    { unfold tkey in A2. cbn [snd] in A2. destruct (Z.leb_spec 0 b); [|discriminate]. injection A2 as A2.
      unfold u in A2. lia. }
    subst b. exists k. split; [auto|]. split; [auto|]. rewrite (aget_nth _ _ A4).
    unfold eat. rewrite Nat2Z.id, (nth_error_nth _ _ 0%Z A4). auto. }
  assert (Hlen : length (map fst (bucket tkey u E)) = cnt tkey u E) by (rewrite map_length; reflexivity).
  split; [|split].
  - intros [i x] Hq. apply filter_In in Hq. destruct Hq as [Hq Hx]. cbn in Hx. apply Z.eqb_eq in Hx. subst x.
    apply combine_in in Hq. destruct Hq as (j & -> & Hj). cbn [fst].
    destruct (Hent j) as (k & _ & _ & H1 & _); auto. rewrite <- Hlen. apply nth_error_Some. congruence.
  - (* sorted *)
    assert (Hgen : forall l lo, (forall j x, nth_error l j = Some x -> x = t -> lo + j < off tkey u E + cnt tkey u E /\
                off tkey u E <= lo + j /\ nth_error (map fst (bucket tkey u E)) (lo + j - off tkey u E) = Some t) ->
       StronglySorted Z.lt (map (fun p => eat (fst p)) (filter (fun p => (snd p =? t)%Z) (combine (map Z.of_nat (seq lo (length l))) l)))).
    { induction l as [|y l IH]; intros lo Hl; cbn; [constructor|].
      assert (IH' := IH (S lo)). destruct (Z.eqb_spec y t) as [->|].
      2:{ apply IH'. intros j x Hj Hx. specialize (Hl (S j) x Hj Hx). rewrite Nat.add_succ_r in Hl. exact Hl. }
      cbn. constructor.
      { apply IH'. intros j x Hj Hx. specialize (Hl (S j) x Hj Hx). rewrite Nat.add_succ_r in Hl. exact Hl. }
      apply Forall_forall. intros z Hz. apply in_map_iff in Hz. destruct Hz as ([i x] & <- & Hz).
      apply filter_In in Hz. destruct Hz as [Hz Hx]. cbn in Hx. apply Z.eqb_eq in Hx. subst x.
      apply combine_in in Hz. destruct Hz as (j & -> & Hj). cbn [fst].
      destruct (Hl 0 t eq_refl eq_refl) as (B1 & B2 & B3). rewrite Nat.add_0_r in *.
      destruct (Hl (S j) t Hj eq_refl) as (C1 & C2 & C3). rewrite Nat.add_succ_r in *. change (S (lo + j)) with (S lo + j) in *.
      assert (Hb1 : lo - off tkey u E < cnt tkey u E) by lia. destruct (Hent _ Hb1 B3) as (k & K1 & K2 & _ & K4).
      assert (Hb2 : S lo + j - off tkey u E < cnt tkey u E) by lia. destruct (Hent _ Hb2 C3) as (k' & K1' & K2' & _ & K4').
      replace (off tkey u E + (lo - off tkey u E)) with lo in K4 by lia.
      replace (off tkey u E + (S lo + j - off tkey u E)) with (S lo + j) in K4' by lia.
      rewrite K4, K4'. assert (Hkk : k < k').
      { destruct (le_lt_dec k' k); auto. pose proof (@cnt_firstn_mono _ tkey u E k' k l0). lia. }
      assert (Hg : hk (t, h) = Some n) by (rewrite hk_neg, Htw by auto; auto).
      eapply eid_mono; eauto. }
    apply Hgen. intros j x Hj ->. assert (j < cnt tkey u E) by (rewrite <- Hlen; apply nth_error_Some; congruence).
    split; [lia|]. split; [lia|]. replace (off tkey u E + j - off tkey u E) with j by lia. auto.
  - intros i. rewrite in_map_iff. split.
    + intros ([i' x] & <- & Hf). apply filter_In in Hf. destruct Hf as [Hf Hx]. cbn in Hx. apply Z.eqb_eq in Hx. subst x.
      apply combine_in in Hf. destruct Hf as (j & -> & Hj). cbn [fst].
      destruct (Hent j) as (k & K1 & _ & _ & ->); auto.
      { rewrite <- Hlen. apply nth_error_Some. congruence. }
      assert (Hg : hk (t, h) = Some n) by (rewrite hk_neg, Htw by auto; auto).
      eapply L_eid; eauto.
    + intros Hi. destruct (edge_at_inv Hi) as (k & H1 & H2 & ->).
      assert (Hk : tkey (t, h) = Some u) by (apply tk_pos; lia).
      pose proof (@cnt_firstn_lt _ tkey u E k _ H1 Hk) as Hlt.
      exists (Z.of_nat (posn tkey E u k), t). cbn [fst]. split.
      * unfold eat. rewrite Nat2Z.id. apply nth_error_nth. apply (c_eids Hc Htw); auto.
      * apply filter_In. split; [|apply Z.eqb_refl]. apply combine_in. exists (cnt tkey u (firstn k E)).
        split; [reflexivity|]. erewrite map_nth_error; [|apply bucket_nth; eauto]. reflexivity.
Qed.

Lemma all_neg t h : tw = true -> (t < 0)%Z -> (0 <= h < num_nodes g)%Z -> exists ids, all_edge_ids c t h = inl ids /\
  increasing_ids ids (fun i => edge_at L i = Some (t, h)).
Proof.
  intros Htw Ht Hh. unfold all_edge_ids. rewrite (c_n Hc). destruct (Z.leb_spec (num_nodes g) t); [lia|].
  destruct (Z.leb_spec (num_nodes g) h); [lia|]. cbn [orb]. destruct (Z.leb_spec 0 t); [lia|].
  rewrite (c_tw Hc), Htw. cbn [negb].
  rewrite tboundsZ by (auto; lia). cbn [gbind].
  destruct (@neg_entries t h Htw Ht Hh) as (ps & -> & G1 & G2). cbn [gbind].
  eexists. split; [|exact G2]. apply gmap_ok. exact G1.
Qed.

Lemma first_all t h ids : (0 <= t \/ 0 <= h)%Z -> all_edge_ids c t h = inl ids ->
  first_edge_id c t h = match ids with [] => inr GEdge | i :: _ => inl i end.
Proof.
  intros Hth. unfold all_edge_ids, first_edge_id. destruct ((cnum_nodes c <=? t)%Z || (cnum_nodes c <=? h)%Z) eqn:Hn; [discriminate|].
  destruct (Z.leb_spec 0 t).
  - destruct (bounds (heads_idxs c) t) as [[lo hi]|]; [|discriminate]. cbn [gbind].
    destruct (islice (heads c) lo hi) as [ps|]; [|discriminate]. cbn [gbind]. intros [= <-].
    rewrite find_hd. destruct (filter _ ps); reflexivity.
  - destruct (negb (twoway c)) eqn:Htw; [discriminate|]. destruct Hth as [|Hh]; [lia|].
    destruct (bounds (tails_idxs c) h) as [[lo hi]|]; [|discriminate]. cbn [gbind].
    destruct (islice (tails c) lo hi) as [ps|]; [|discriminate]. cbn [gbind].
    rewrite find_hd. destruct (filter _ ps) as [|p l]; cbn [gmap hd_error]; [intros [= <-]; auto|].
    destruct (aget (edge_ids c) (fst p)) as [v|]; [|discriminate]. cbn [gbind].
    destruct (gmap _ l); [|discriminate]. cbn [gbind]. intros [= <-]. reflexivity.
Qed.

Lemma has_edge_pos t h : (0 <= t < num_nodes g)%Z -> (h < num_nodes g)%Z ->
  exists b, has_edge c t h = inl b /\ (b = true <-> In (t, h) E).
Proof.
  intros Ht Hh. unfold has_edge. rewrite (c_n Hc). destruct (Z.leb_spec (num_nodes g) t); [lia|].
  destruct (Z.leb_spec (num_nodes g) h); [lia|]. cbn [orb]. destruct (Z.leb_spec 0 t); [|lia].
  rewrite hboundsZ by lia. cbn [gbind].
  rewrite hslice by lia. cbn [gbind]. eexists. split; [reflexivity|].
  rewrite existsb_in, bucket_tail, in_map_iff by auto. split.
  - intros ([a b] & <- & Hf). apply filter_In in Hf. destruct Hf as [Hf Ha]. cbn in Ha. apply Z.eqb_eq in Ha. subst. auto.
  - intros Hi. exists (t, h). split; [auto|]. apply filter_In. split; auto. apply Z.eqb_refl.
Qed.
Lemma has_edge_neg t h : tw = true -> (t < 0)%Z -> (0 <= h < num_nodes g)%Z ->
  exists b, has_edge c t h = inl b /\ (b = true <-> In (t, h) E).
Proof.
  intros Htw Ht Hh. unfold has_edge. rewrite (c_n Hc), (c_tw Hc), Htw. destruct (Z.leb_spec (num_nodes g) t); [lia|].
  destruct (Z.leb_spec (num_nodes g) h); [lia|]. cbn [orb negb]. destruct (Z.leb_spec 0 t); [lia|].
  destruct (Z.ltb_spec h 0); [lia|].
  rewrite tboundsZ by (auto; lia). cbn [gbind].
  rewrite tslice by (auto; lia). cbn [gbind]. eexists. split; [reflexivity|].
  rewrite existsb_in, bucket_head, in_map_iff by auto. split.
  - intros ([a b] & <- & Hf). apply filter_In in Hf. destruct Hf as [Hf Ha]. cbn in Ha. apply Z.eqb_eq in Ha. subst. auto.
  - intros Hi. exists (t, h). split; [auto|]. apply filter_In. split; auto. apply Z.eqb_refl.
Qed.

(** *** head, tail *)
Lemma head_spec i : head c i = match edge_at L i with Some e => inl (snd e) | None => inr GEdge end.
Proof.
  unfold head, edge_at. destruct (Z.ltb_spec i 0); [reflexivity|]. cbn [orb]. rewrite ne_len.
  destruct (Z.leb_spec (Z.of_nat (length L)) i).
  - rewrite (proj2 (nth_error_None _ _)) by lia. reflexivity.
  - destruct (nth_error L (Z.to_nat i)) as [e|] eqn:He; [|apply nth_error_None in He; lia].
    rewrite (c_heads Hc). unfold aget. destruct (Z.ltb_spec i 0); [lia|].
    unfold L in He. rewrite (map_nth_error snd _ _ He). reflexivity.
Qed.

Lemma px_tail i e : edge_at L i = Some e -> (num_px_edges c <= i)%Z <-> (fst e < 0)%Z.
Proof.
  intros He. rewrite (c_px Hc). pose proof (edge_at_in He) as Hi. destruct e as [a b].
  pose proof (g_lt W _ _ Hi) as [Ha _]. cbn [fst].
  destruct (edge_at_inv He) as (k & H1 & H2 & ->). unfold GraphProofs.eid.
  destruct (hk (a, b)) as [t|] eqn:Ht; [|congruence].
  destruct (Z_lt_ge_dec a 0) as [Hneg|Hpos].
  - rewrite hk_neg in Ht by auto. destruct tw; [|discriminate]. injection Ht as <-. unfold posn. lia.
  - rewrite hk_pos in Ht by lia. injection Ht as <-.
    pose proof (@posn_lt _ hk n E (Z.to_nat a) k _ ltac:(lia) H1 (@hk_pos a b ltac:(lia))). lia.
Qed.
Arguments px_tail {i e}.

Lemma id_range i a b : (0 <= a)%Z -> edge_at L i = Some (a, b) ->
  (Z.of_nat (off hk (Z.to_nat a) E) <= i < Z.of_nat (off hk (S (Z.to_nat a)) E))%Z.
Proof.
  intros Ha He. assert (Hi := edge_at_in He). apply (g_lt W) in Hi. cbn [off].
  apply (@bucket_ids (Z.to_nat a)); [lia|]. exists (a, b). split; auto. apply hk_pos; auto.
Qed.
Arguments id_range {i a b}.

Definition no_out (v : Z) : Prop := forall h, ~ In (v, h) E.

Lemma off_gap t u : t <= u -> off hk t E = off hk u E -> u <= n ->
  forall v, (Z.of_nat t <= v < Z.of_nat u)%Z -> no_out v.
Proof.
  intros Htu Heq Hu v Hv h Hi. destruct (In_nth_error _ _ Hi) as (k & Hk).
  assert (Hkey : hk (v, h) = Some (Z.to_nat v)) by (apply hk_pos; lia).
  pose proof (@cnt_firstn_lt _ hk _ E k _ Hk Hkey).
  pose proof (@off_mono _ hk t (Z.to_nat v) E ltac:(lia)).
  pose proof (@off_mono _ hk (S (Z.to_nat v)) u E ltac:(lia)). cbn [off] in *. lia.
Qed.

(** the binary search *)
Lemma tail_search_spec i a b : (0 <= a)%Z -> edge_at L i = Some (a, b) ->
  forall fuel lo up, (Z.of_nat lo <= a < Z.of_nat up)%Z -> up <= n -> up - lo <= S fuel ->
  exists t, tail_search fuel c i (Z.of_nat lo) (Z.of_nat up) = inl (Z.of_nat t) /\
    (Z.of_nat t = a \/ (Z.of_nat t < a /\ forall v, Z.of_nat t <= v < a -> no_out v)%Z).
Proof.
  intros Ha He. pose proof (id_range Ha He) as Hr.
  induction fuel as [|fuel IH]; intros lo up Hlu Hup Hf.
  - exists lo. split; [reflexivity|]. left. lia.
  - cbn [tail_search]. destruct (Z.ltb_spec 1 (Z.of_nat up - Z.of_nat lo)) as [Hlt|Hge].
    2:{ exists lo. split; [reflexivity|]. left. lia. }
    set (mid := (lo + up) / 2).
    assert (Hmid : ((Z.of_nat up + Z.of_nat lo) / 2 = Z.of_nat mid)%Z).
    { unfold mid. rewrite Nat2Z.inj_div. f_equal. lia. }
    assert (Hm : lo < mid < up).
    { unfold mid. pose proof (Nat.div_mod (lo + up) 2 ltac:(lia)). pose proof (Nat.mod_upper_bound (lo + up) 2 ltac:(lia)). lia. }
    cbv zeta. rewrite Hmid. rewrite hidx_get by lia. cbn [gbind].
    destruct (Z.eqb_spec i (Z.of_nat (off hk mid E))) as [Heq|Hne].
    + exists mid. split; [reflexivity|].
      destruct (Z.lt_trichotomy (Z.of_nat mid) a) as [Hlt'|[|Hgt]]; auto.
      * right. split; [auto|]. intros v Hv. eapply (@off_gap mid (Z.to_nat a)); try lia.
        pose proof (@off_mono _ hk mid (Z.to_nat a) E ltac:(lia)). lia.
      * pose proof (@off_mono _ hk (S (Z.to_nat a)) mid E ltac:(lia)). lia.
    + destruct (Z.ltb_spec i (Z.of_nat (off hk mid E))).
      * apply IH; try lia. destruct (Z_lt_ge_dec a (Z.of_nat mid)); [lia|].
        pose proof (@off_mono _ hk mid (Z.to_nat a) E ltac:(lia)). lia.
      * apply IH; try lia. destruct (Z_lt_ge_dec a (Z.of_nat mid)); [|lia].
        pose proof (@off_mono _ hk (S (Z.to_nat a)) mid E ltac:(lia)). lia.
Qed.

Lemma tail_spec i : match edge_at L i with
  | None => tail c i = inr GEdge
  | Some (a, b) => if (a <? 0)%Z then tail c i = inl None
      else exists t, tail c i = inl (Some t) /\ (t = a \/ (0 <= t < a /\ forall v, t <= v < a -> no_out v)%Z)
  end.
Proof.
  destruct (edge_at L i) as [[a b]|] eqn:He.
  - assert (Hne : (i <? 0)%Z || (num_edges c <=? i)%Z = false).
    { unfold edge_at in He. destruct (Z.ltb_spec i 0); [discriminate|]. cbn [orb]. rewrite ne_len.
      apply Z.leb_gt. assert (Z.to_nat i < length L) by (apply nth_error_Some; congruence). lia. }
    pose proof (px_tail He) as Hpx. cbn [fst] in Hpx. unfold tail. rewrite Hne.
    destruct (Z.ltb_spec a 0), (Z.leb_spec (num_px_edges c) i); try lia.
    + rewrite (c_tw Hc). destruct tw eqn:Etw; [reflexivity|].
      destruct (edge_at_inv He) as (k & _ & H2 & _). exfalso. apply H2. rewrite hk_neg by auto. rewrite Etw. auto.
    + assert (Hi := edge_at_in He). apply (g_lt W) in Hi. rewrite (c_n Hc).
      destruct (@tail_search_spec i a b ltac:(auto) He (Z.to_nat (num_nodes g)) 0 n) as (t & Ht & Hd); try lia.
      rewrite HnZ in Ht. change (Z.of_nat 0) with 0%Z in Ht. rewrite Ht. cbn [gbind]. exists (Z.of_nat t). split; [reflexivity|].
      destruct Hd as [Hd|Hd]; [left; auto|right]. split; [lia|tauto].
  - unfold tail. unfold edge_at in He. destruct (Z.ltb_spec i 0); [reflexivity|]. cbn [orb].
    apply nth_error_None in He. rewrite ne_len. destruct (Z.leb_spec (Z.of_nat (length L)) i); [reflexivity|lia].
Qed.

(** *** Iteration *)
Lemma advance_ok i a b : (0 <= a)%Z -> edge_at L i = Some (a, b) ->
  forall fuel tl, (Z.of_nat tl <= a)%Z -> Z.to_nat a - tl <= fuel -> advance fuel c i (Z.of_nat tl) = inl a.
Proof.
  intros Ha He. pose proof (id_range Ha He) as Hr. assert (Hi := edge_at_in He). apply (g_lt W) in Hi.
  induction fuel as [|fuel IH]; intros tl Htl Hf.
  - assert (tl = Z.to_nat a) by lia. subst tl. cbn [advance].
    replace (Z.of_nat (Z.to_nat a) + 1)%Z with (Z.of_nat (S (Z.to_nat a))) by lia. rewrite hidx_get by lia. cbn [gbind].
    destruct (Z.ltb_spec i (Z.of_nat (off hk (S (Z.to_nat a)) E))); [|lia]. f_equal. lia.
  - cbn [advance]. replace (Z.of_nat tl + 1)%Z with (Z.of_nat (S tl)) by lia. rewrite hidx_get by lia. cbn [gbind].
    destruct (Z.ltb_spec i (Z.of_nat (off hk (S tl) E))).
    + destruct (Nat.eq_dec tl (Z.to_nat a)); [f_equal; lia|].
      pose proof (@off_mono _ hk (S tl) (Z.to_nat a) E ltac:(lia)). lia.
    + apply IH; [|lia]. destruct (Nat.eq_dec tl (Z.to_nat a)) as [->|]; lia.
Qed.
Lemma advance_oob i : (Z.of_nat (off hk n E) <= i)%Z -> forall fuel tl, tl <= n ->
  advance fuel c i (Z.of_nat tl) = inr GOob.
Proof.
  intros Hi. induction fuel as [|fuel IH]; intros tl Htl; cbn [advance];
    replace (Z.of_nat tl + 1)%Z with (Z.of_nat (S tl)) by lia;
    (destruct (Nat.eq_dec tl n) as [->|Hne0];
     [unfold aget; destruct (Z.ltb_spec (Z.of_nat (S n)) 0); [lia|]; rewrite Nat2Z.id;
      rewrite (proj2 (nth_error_None _ _)); [reflexivity|rewrite (proj1 (c_hidx Hc)); lia]|]);
    rewrite hidx_get by lia; cbn [gbind];
    pose proof (@off_mono _ hk (S tl) n E ltac:(lia));
    destruct (Z.ltb_spec i (Z.of_nat (off hk (S tl) E))); try lia; auto.
  apply IH. lia.
Qed.

Lemma iter_ok : off hk (S n) E = off hk n E -> iter_edges c = inl L.
Proof.
  intros Hnp. unfold iter_edges. rewrite ne_len, Nat2Z.id.
  assert (Hgen : forall R P tl, L = P ++ R -> (forall a b, hd_error R = Some (a, b) -> (Z.of_nat tl <= a)%Z) ->
     iter_from (length R) c (Z.of_nat (length P)) (Z.of_nat tl) = inl R).
  2:{ apply (Hgen L [] 0); auto. intros a b Hh. destruct L as [|x r] eqn:HL; [discriminate|]. injection Hh as ->.
      assert (He : edge_at L 0 = Some (a, b)) by (rewrite HL; reflexivity).
      pose proof (px_tail He) as Hpx. cbn [fst] in Hpx. rewrite (c_px Hc), <- Hnp, <- L_len, HL in Hpx. cbn [length] in Hpx. lia. }
  induction R as [|[a b] R IH]; intros P tl HL Htl; [reflexivity|].
  cbn [length iter_from].
  assert (He : edge_at L (Z.of_nat (length P)) = Some (a, b)).
  { unfold edge_at. destruct (Z.ltb_spec (Z.of_nat (length P)) 0); [lia|].
    rewrite Nat2Z.id, HL, nth_error_app2, Nat.sub_diag by lia. reflexivity. }
  pose proof (px_tail He) as Hpx. cbn [fst] in Hpx. rewrite (c_px Hc), <- Hnp, <- L_len, HL, app_length in Hpx. cbn [length] in Hpx.
  assert (Ha : (0 <= a)%Z) by lia.
  pose proof (edge_at_in He) as Hin. apply (g_lt W) in Hin.
  rewrite (@advance_ok _ a b Ha He (length (heads_idxs c)) tl); [|apply (Htl a b); auto|rewrite (proj1 (c_hidx Hc)); lia].
  cbn [gbind]. pose proof (head_spec (Z.of_nat (length P))) as Hh. rewrite He in Hh. cbn [snd] in Hh. unfold head in Hh.
  destruct (_ || _); [discriminate|]. rewrite Hh. cbn [gbind].
  replace (Z.of_nat (length P) + 1)%Z with (Z.of_nat (length (P ++ [(a, b)]))) by (rewrite app_length; cbn; lia).
  replace a with (Z.of_nat (Z.to_nat a)) at 2 by lia.
  rewrite IH; [reflexivity| |].
  - rewrite <- app_assoc. exact HL.
  - intros a' b' Hh'. destruct R as [|x R]; [discriminate|]. injection Hh' as ->.
    pose proof (io_sorted _ _ _ L_order) as Hs. rewrite HL in Hs.
    assert (Hab : group_le (a, b) (a', b')).
    { clear -Hs. induction P as [|y P IH]; cbn in Hs.
      - inversion Hs; subst. inversion H2; subst. auto.
      - inversion Hs; subst. auto. }
    destruct Hab as [Hneg|Hle]; cbn [fst] in *; [|lia].
    assert (He' : edge_at L (Z.of_nat (S (length P))) = Some (a', b')).
    { unfold edge_at. destruct (Z.ltb_spec (Z.of_nat (S (length P))) 0); [lia|].
      rewrite Nat2Z.id, HL, nth_error_app2 by lia. replace (S (length P) - length P) with 1 by lia. reflexivity. }
    pose proof (px_tail He') as Hpx'. cbn [fst] in Hpx'. rewrite (c_px Hc), <- Hnp, <- L_len, HL, app_length in Hpx'. cbn [length] in Hpx'. lia.
Qed.

Lemma iter_oob : off hk n E < off hk (S n) E -> iter_edges c = inr GOob.
Proof.
  intros Hnp. unfold iter_edges. rewrite ne_len, Nat2Z.id.
  assert (Hgen : forall R P tl, L = P ++ R -> length P <= off hk n E -> tl <= n ->
     (forall a b, hd_error R = Some (a, b) -> (0 <= a)%Z -> (Z.of_nat tl <= a)%Z) ->
     iter_from (length R) c (Z.of_nat (length P)) (Z.of_nat tl) = inr GOob).
  2:{ apply (Hgen L [] 0); auto; cbn; lia. }
  induction R as [|[a b] R IH]; intros P tl HL HP Hn Htl.
  { rewrite app_nil_r in HL. pose proof L_len as Hl. rewrite HL in Hl. lia. }
  cbn [length iter_from]. destruct (le_lt_dec (off hk n E) (length P)) as [Hge|Hl].
  { rewrite advance_oob by (auto; lia). reflexivity. }
  assert (He : edge_at L (Z.of_nat (length P)) = Some (a, b)).
  { unfold edge_at. destruct (Z.ltb_spec (Z.of_nat (length P)) 0); [lia|].
    rewrite Nat2Z.id, HL, nth_error_app2, Nat.sub_diag by lia. reflexivity. }
  pose proof (px_tail He) as Hpx. cbn [fst] in Hpx. rewrite (c_px Hc) in Hpx.
  assert (Ha : (0 <= a)%Z) by lia.
  pose proof (edge_at_in He) as Hin. apply (g_lt W) in Hin.
  rewrite (@advance_ok _ a b Ha He (length (heads_idxs c)) tl); [|apply (Htl a b); auto|rewrite (proj1 (c_hidx Hc)); lia].
  cbn [gbind]. pose proof (head_spec (Z.of_nat (length P))) as Hh. rewrite He in Hh. cbn [snd] in Hh. unfold head in Hh.
  destruct (_ || _); [discriminate|]. rewrite Hh. cbn [gbind].
  replace (Z.of_nat (length P) + 1)%Z with (Z.of_nat (length (P ++ [(a, b)]))) by (rewrite app_length; cbn; lia).
  replace a with (Z.of_nat (Z.to_nat a)) at 2 by lia.
  rewrite IH; [reflexivity| | |lia|].
  - rewrite <- app_assoc. exact HL.
  - rewrite app_length. cbn. lia.
  - intros a' b' Hh' Ha'. destruct R as [|x R]; [discriminate|]. injection Hh' as ->.
    pose proof (io_sorted _ _ _ L_order) as Hs. rewrite HL in Hs.
    assert (Hab : group_le (a, b) (a', b')).
    { clear -Hs. induction P as [|y P IH]; cbn in Hs.
      - inversion Hs; subst. inversion H2; subst. auto.
      - inversion Hs; subst. auto. }
    destruct Hab as [Hneg|Hle]; cbn [fst] in *; lia.
Qed.
End Queries.
