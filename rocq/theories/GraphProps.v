(** * Properties C16-C19: compressed graphs.

    Throughout, [E = edges g] are the added edges (in order of addition), [L] the
    edges ordered by id ([id_order], GraphSpec.v), [junk] the arbitrary contents
    of freshly allocated memory; [inr GOob] is an access outside of an array. *)
From Coq Require Import List Bool Arith ZArith Lia Sorting.Sorted Permutation.
From Verif Require Import GraphModel CountingSort GraphProofs GraphSpec GraphMain.
Import ListNotations.
Set Implicit Arguments.
Local Open Scope Z_scope.

(** ** The specification determines the ids *)
Lemma same_group_refl t : same_group t t = true.
Proof. unfold same_group. rewrite Z.eqb_refl. reflexivity. Qed.
Lemma group_unique (P : Z -> Prop) : forall L1 L2, Permutation L1 L2 ->
  StronglySorted group_le L1 -> StronglySorted group_le L2 ->
  (forall e, In e L1 -> P (fst e)) ->
  (forall t, P t -> filter (fun e => same_group t (fst e)) L1 = filter (fun e => same_group t (fst e)) L2) ->
  L1 = L2.
Proof.
  induction L1 as [|x l1 IH]; intros L2 Hp S1 S2 HP Hf.
  { apply Permutation_nil in Hp. auto. }
  destruct L2 as [|y l2]; [symmetry in Hp; apply Permutation_nil in Hp; discriminate|].
  inversion S1 as [|? ? S1' F1]; subst. inversion S2 as [|? ? S2' F2]; subst.
  rewrite Forall_forall in F1, F2.
  assert (Hxy : same_group (fst x) (fst y) = true).
  { assert (Hx : In x (y :: l2)) by (eapply Permutation_in; [exact Hp|left; auto]).
    assert (Hy : In y (x :: l1)) by (eapply Permutation_in; [symmetry; exact Hp|left; auto]).
    destruct Hx as [->|Hx]; [apply same_group_refl|]. destruct Hy as [->|Hy]; [apply same_group_refl|].
    apply F2 in Hx. apply F1 in Hy. unfold group_le, same_group in *.
    destruct (Z.eqb_spec (fst x) (fst y)); auto. destruct (Z.ltb_spec (fst x) 0), (Z.ltb_spec (fst y) 0); cbn; auto; lia. }
  assert (HPx : P (fst x)) by (apply HP; left; auto).
  assert (Hx := Hf _ HPx). cbn [filter] in Hx. rewrite same_group_refl, Hxy in Hx. injection Hx as <- Hx.
  f_equal. apply IH; auto.
  - eapply Permutation_cons_inv; eauto.
  - intros e He. apply HP. right; auto.
  - intros t Ht. specialize (Hf t Ht). cbn [filter] in Hf. destruct (same_group t (fst x)); [injection Hf; auto|auto].
Qed.
Lemma id_order_unique tw E L1 L2 : id_order tw E L1 -> id_order tw E L2 -> L1 = L2.
Proof.
  intros [P1 S1 F1] [P2 S2 F2]. apply (@group_unique (fun t => 0 <= t \/ tw = true)); auto.
  - rewrite P1, P2. reflexivity.
  - intros e He. eapply Permutation_in in He; [|exact P1]. apply filter_In in He. destruct He as [_ He].
    unfold kept in He. apply orb_prop in He. destruct He as [He|He]; auto. left. apply Z.leb_le; auto.
  - intros t Ht. rewrite F1, F2 by auto. reflexivity.
Qed.

Definition neg_tail (g : graph) : Prop := exists t h, In (t, h) (edges g) /\ t < 0.

Lemma np_zero g : WFg g -> num_np_edges g =? 0 = true <-> ~ neg_tail g.
Proof.
  intros W. rewrite (g_np W), Z.eqb_eq. split.
  - intros H (t & h & Hi & Ht). assert (Hf : In (t, h) (filter (fun e => negb (tpos e)) (edges g))).
    { apply filter_In. split; auto. unfold tpos. cbn. destruct (Z.leb_spec 0 t); [lia|auto]. }
    unfold count in H. destruct (filter _ (edges g)); [destruct Hf|cbn in H; lia].
  - intros H. unfold count. destruct (filter _ (edges g)) as [|[t h] l] eqn:Hf; [reflexivity|]. exfalso.
    assert (Hi : In (t, h) ((t, h) :: l)) by (left; auto). rewrite <- Hf in Hi. apply filter_In in Hi.
    destruct Hi as [Hi Ht]. apply H. exists t, h. split; auto. unfold tpos in Ht. cbn in Ht.
    destruct (Z.leb_spec 0 t); [discriminate|auto].
Qed.
Lemma np_off g tw : WFg g -> (off (hkey g tw) (S (Z.to_nat (num_nodes g))) (edges g) =
   off (hkey g tw) (Z.to_nat (num_nodes g)) (edges g))%nat <-> tw = false \/ ~ neg_tail g.
Proof.
  intros W. pose proof (ne_eq W tw) as H1. pose proof (px_eq W tw) as H2.
  rewrite <- (np_zero W), Z.eqb_eq. pose proof (g_np W). destruct tw; split; intros; intuition (try discriminate; try lia; auto).
Qed.

Section Compressed.
Variable junk : nat -> nat -> Z.
Variables (g : graph) (tw ent al : bool).
Hypothesis R : greach g.
Notation E := (edges g).

(** ** C16: success and failure of compression *)

(** Adding edges: what is accepted, and the edge numbers. *)
Theorem C16_add_edge : forall t h,
  match add_edge g t h with
  | (g', inl nr) => (0 <= t \/ 0 <= h) /\ (allow_negative_nodes g = true \/ (0 <= t /\ 0 <= h)) /\
       edges g' = E ++ [(t, h)] /\ nth_error (edges g') (Z.to_nat nr) = Some (t, h) /\
       num_nodes g' = Z.max (num_nodes g) (Z.max (t + 1) (h + 1))
  | (g', inr e) => e = GValue /\ g' = g /\
       ((t < 0 /\ h < 0) \/ (allow_negative_nodes g = false /\ (t < 0 \/ h < 0)))
  end.
Proof.
  intros t h. unfold add_edge.
  destruct (Z.ltb_spec t 0), (Z.ltb_spec h 0), (allow_negative_nodes g); cbn [orb andb negb];
    try (split; [auto|]; split; [auto|]; auto; lia);
    cbn [edges num_nodes]; repeat (split; [auto; try lia|]);
    rewrite ?Nat2Z.id, ?nth_error_app2, ?Nat.sub_diag by lia; cbn; try split; auto; lia.
Qed.

(** Compression never accesses memory out of bounds and never fails an
    assertion: it raises ValueError exactly if negative tails would be lost. *)
Theorem C16_compress :
  (compressed junk g tw ent al = inr GValue /\ tw = false /\ al = false /\ neg_tail g) \/
  (exists c, compressed junk g tw ent al = inl c /\ (tw = true \/ al = true \/ ~ neg_tail g)).
Proof.
  pose proof (greach_WF R) as W. destruct (tw || al || (num_np_edges g =? 0)) eqn:Hok.
  - right. destruct (@compressed_csr junk g tw ent al W Hok) as (c & Hc & _).
    exists c. split; [auto|]. apply orb_prop in Hok. destruct Hok as [Hok|Hok].
    + apply orb_prop in Hok. tauto.
    + right; right. apply np_zero; auto.
  - left. rewrite (@compressed_fails junk g tw ent al W Hok).
    destruct tw, al; cbn in Hok; try discriminate. repeat split; auto.
    destruct (filter (fun e => negb (tpos e)) (edges g)) as [|[t h] l] eqn:Hf.
    + rewrite (g_np W) in Hok. unfold count in Hok. rewrite Hf in Hok. discriminate.
    + assert (Hi : In (t, h) ((t, h) :: l)) by (left; auto). rewrite <- Hf in Hi. apply filter_In in Hi.
      destruct Hi as [Hi Ht]. exists t, h. split; auto. unfold tpos in Ht. cbn in Ht.
      destruct (Z.leb_spec 0 t); [discriminate|auto].
Qed.

Variable c : cgraph.
Hypothesis Hc : compressed junk g tw ent al = inl c.

Lemma the_csr : csr g tw ent c.
Proof.
  pose proof (greach_WF R) as W. destruct (tw || al || (num_np_edges g =? 0)) eqn:Hok.
  - destruct (@compressed_csr junk g tw ent al W Hok) as (c' & Hc' & H). congruence.
  - rewrite (@compressed_fails junk g tw ent al W Hok) in Hc. discriminate.
Qed.

(** The order of the ids exists, and is unique. *)
Theorem C16_id_order : exists! l, id_order tw E l.
Proof.
  exists (GraphMain.L g tw). split.
  - apply L_order with (1 := greach_WF R).
  - intros l Hl. eapply id_order_unique; eauto. apply L_order with (1 := greach_WF R).
Qed.

Variable L : list (Z * Z).
Hypothesis HL : id_order tw E L.
Lemma L_eq : L = GraphMain.L g tw.
Proof. eapply id_order_unique; [exact HL|]. apply L_order with (1 := greach_WF R). Qed.

Theorem C16_out : num_edges c = Z.of_nat (length L) /\ cnum_nodes c = num_nodes g /\
  (forall v, ~ 0 <= v < num_nodes g -> out_neighbors c v = inr GNode /\ out_edge_ids c v = inr GNode) /\
  (forall v, 0 <= v < num_nodes g ->
     out_neighbors c v = inl (map snd (filter (fun e => fst e =? v) E)) /\
     exists ids, out_edge_ids c v = inl ids /\
       increasing_ids ids (fun i => exists h, edge_at L i = Some (v, h))).
Proof.
  pose proof (greach_WF R) as W. rewrite L_eq.
  split; [apply (ne_len the_csr)|]. split; [apply (c_n the_csr)|]. split.
  - intros v Hv. rewrite (out_neighbors_spec W the_csr). unfold out_edge_ids. rewrite (bad_node_spec (greach_WF R) the_csr).
    destruct (Z.leb_spec 0 v), (Z.ltb_spec v (num_nodes g)); cbn; auto; lia.
  - intros v Hv. rewrite (out_neighbors_spec W the_csr).
    destruct (Z.leb_spec 0 v), (Z.ltb_spec v (num_nodes g)); try lia. split; [reflexivity|].
    apply (out_edge_ids_spec W the_csr). lia.
Qed.

(** Iterating gives the edges in the order of their ids. *)
Theorem C16_iteration : tw = false \/ ~ neg_tail g -> iter_edges c = inl L.
Proof. intros H. rewrite L_eq. apply (iter_ok (greach_WF R) the_csr). apply np_off; [apply greach_WF; auto|auto]. Qed.

(** But iterating a two-way graph with a negative tail always runs over the end
    of an array. *)
Theorem C16_iteration_refuted : tw = true -> neg_tail g -> iter_edges c = inr GOob.
Proof.
  intros Ht Hn. apply (iter_oob (greach_WF R) the_csr).
  pose proof (np_off tw (greach_WF R)) as H.
  destruct (Nat.eq_dec (off (hkey g tw) (S (Z.to_nat (num_nodes g))) E) (off (hkey g tw) (Z.to_nat (num_nodes g)) E)) as [Heq|Hne].
  - apply H in Heq. destruct Heq; [congruence|tauto].
  - pose proof (@off_mono _ (hkey g tw) (Z.to_nat (num_nodes g)) (S (Z.to_nat (num_nodes g))) E ltac:(lia)). lia.
Qed.

(** has_dangling_edges tells whether a visible edge has a negative end. *)
Theorem C16_has_dangling : has_dangling_edges c = true <-> exists t h, In (t, h) L /\ (t < 0 \/ h < 0).
Proof.
  pose proof (greach_WF R) as W. pose proof the_csr as C.
  assert (HE : forall t h, In (t, h) L <-> In (t, h) E /\ kept tw (t, h) = true).
  { intros t h. rewrite <- filter_In. split; intros H; (eapply Permutation_in; [|exact H]); [|symmetry]; apply (io_perm _ _ _ HL). }
  unfold has_dangling_edges. rewrite negb_true_iff, andb_false_iff, !Z.eqb_neq.
  rewrite (c_ne C), (c_px C), (c_xp C), (px_count W tw).
  pose proof (np_off tw W) as Hnp. rewrite (px_count W tw) in Hnp.
  assert (Hmono := @off_mono _ (hkey g tw) (Z.to_nat (num_nodes g)) (S (Z.to_nat (num_nodes g))) E ltac:(lia)).
  rewrite (px_count W tw) in Hmono.
  assert (Hcnt : count tpos E = count (fun e => (tw || tpos e) && hpos e) E -> tw = false \/ ~ neg_tail g ->
            forall t h, In (t, h) E -> kept tw (t, h) = true -> 0 <= h).
  { intros Heq Hn t h Hi Hk. destruct (Z_lt_ge_dec h 0) as [Hh|]; [|lia]. exfalso.
    assert (Hsplit := count_split W tpos hpos E).
    assert (Hsame : count (fun e => tpos e && hpos e) E = count (fun e => (tw || tpos e) && hpos e) E).
    { apply filter_length_ext. intros [a b] Hab. destruct tw; [|reflexivity]. unfold tpos. cbn [fst].
      destruct (Z.leb_spec 0 a); [reflexivity|]. exfalso. destruct Hn as [|Hn]; [discriminate|]. apply Hn. exists a, b. auto. }
    assert (Hz : count (fun e => tpos e && negb (hpos e)) E = 0%nat) by lia.
    pose proof (g_one W _ _ Hi) as Ho.
    assert (Hin : In (t, h) (filter (fun e => tpos e && negb (hpos e)) E)).
    { apply filter_In. split; auto. unfold tpos, hpos. cbn. destruct (Z.leb_spec 0 t), (Z.leb_spec 0 h); try lia; auto. }
    unfold count in Hz. apply length_zero_iff_nil in Hz. rewrite Hz in Hin. destruct Hin. }
  split.
  - intros Hd.
    destruct (filter (fun e => (fst e <? 0) || (snd e <? 0)) L) as [|[t h] l] eqn:Hf.
    2:{ assert (Hi : In (t, h) ((t, h) :: l)) by (left; auto). rewrite <- Hf in Hi. apply filter_In in Hi.
        destruct Hi as [Hi Hb]. exists t, h. split; auto. cbn in Hb. apply orb_prop in Hb.
        destruct Hb as [Hb|Hb]; apply Z.ltb_lt in Hb; auto. }
    exfalso. assert (Hno : forall t h, In (t, h) E -> kept tw (t, h) = true -> 0 <= t /\ 0 <= h).
    { intros t h Hi Hk. assert (HiL : In (t, h) L) by (apply HE; auto).
      assert (Hnf : ~ In (t, h) (filter (fun e => (fst e <? 0) || (snd e <? 0)) L)) by (rewrite Hf; auto).
      rewrite filter_In in Hnf. cbn in Hnf. destruct (Z.ltb_spec t 0), (Z.ltb_spec h 0); cbn in Hnf; try tauto; lia. }
    assert (Hnn : tw = false \/ ~ neg_tail g).
    { destruct tw; [right|auto]. intros (t & h & Hi & Ht). specialize (Hno t h Hi eq_refl). lia. }
    apply Hnp in Hnn. destruct Hd as [Hd|Hd]; [lia|]. apply Hd. f_equal. apply filter_length_ext.
    intros [a b] Hab. specialize (Hno a b Hab). unfold kept in Hno. cbn [fst] in Hno. unfold tpos, hpos in *. cbn [fst snd].
    destruct tw; cbn [orb andb] in *.
    + destruct Hno; auto. destruct (Z.leb_spec 0 a), (Z.leb_spec 0 b); auto; lia.
    + destruct (Z.leb_spec 0 a); [|reflexivity]. destruct Hno; auto. destruct (Z.leb_spec 0 b); auto; lia.
  - intros (t & h & Hi & Hneg). apply HE in Hi. destruct Hi as [Hi Hk].
    destruct (Nat.eq_dec (off (hkey g tw) (S (Z.to_nat (num_nodes g))) E) (count tpos E)) as [Heq|]; [|left; lia].
    destruct (Nat.eq_dec (count tpos E) (count (fun e => (tw || tpos e) && hpos e) E)) as [Heq'|]; [|right; lia].
    exfalso. apply Hnp in Heq. pose proof (Hcnt Heq' Heq t h Hi Hk) as Hh.
    destruct Hneg as [Ht|]; [|lia]. destruct Heq as [Etw|Hn].
    + unfold kept in Hk. rewrite Etw in Hk. cbn in Hk. apply Z.leb_le in Hk. lia.
    + apply Hn. exists t, h. auto.
Qed.

(** Pickling round trip. *)
Theorem C16_pickle : setstate (getstate c) = c.
Proof.
  pose proof the_csr as C. pose proof (greach_WF R) as W.
  pose proof (c_end C) as H1. pose proof (c_px C) as H2. pose proof (c_ne C) as H3. pose proof (c_xp C) as H4.
  rewrite <- (px_eq W tw) in H2. rewrite <- (ne_eq W tw) in H3. rewrite (size_eq W tw) in H1. pose proof (c_tw C) as Htw.
  unfold setstate, getstate. destruct c as [tw' ent' n' ne' px' xp' en' a1 a2 a3 a4 a5 a6]. cbn in *. subst tw'.
  f_equal; destruct tw; lia.
Qed.

(** ** C17: lookups *)
Theorem C17_lookup : forall t h, t < num_nodes g -> h < num_nodes g -> 0 <= t \/ (tw = true /\ 0 <= h) ->
  exists ids, increasing_ids ids (fun i => edge_at L i = Some (t, h)) /\
    all_edge_ids c t h = inl ids /\
    has_edge c t h = inl (match ids with [] => false | _ => true end) /\
    first_edge_id c t h = match ids with [] => inr GEdge | i :: _ => inl i end.
Proof.
  intros t h Ht Hh Hd. pose proof (greach_WF R) as W. pose proof the_csr as C. rewrite L_eq.
  assert (exists ids, all_edge_ids c t h = inl ids /\ increasing_ids ids (fun i => edge_at (GraphMain.L g tw) i = Some (t, h))) as (ids & H1 & H2).
  { destruct (Z_lt_ge_dec t 0); [|apply (all_pos W C); lia].
    destruct Hd as [|[Htw Hh']]; [lia|]. apply (all_neg W C); auto; lia. }
  exists ids. split; [auto|]. split; [auto|]. split.
  - assert (exists b, has_edge c t h = inl b /\ (b = true <-> In (t, h) E)) as (b & -> & Hb).
    { destruct (Z_lt_ge_dec t 0); [|apply (has_edge_pos W C); lia].
      destruct Hd as [|[Htw Hh']]; [lia|]. apply (has_edge_neg W C); auto; lia. }
    f_equal. destruct H2 as [_ H2]. destruct ids as [|i ids].
    + destruct b; auto. exfalso. destruct (@edge_of_E g W tw (t, h)) as (i & Hi); [tauto| |exact (proj2 (H2 i) Hi)].
      unfold hkey. cbn [fst]. destruct (Z.leb_spec 0 t); [discriminate|]. destruct Hd as [|[-> _]]; [lia|discriminate].
    + destruct b; auto. assert (Hi : In i (i :: ids)) by (left; auto). apply H2 in Hi.
      apply (edge_at_in W tw) in Hi. apply Hb in Hi. discriminate.
  - apply (first_all W); auto. destruct Hd as [|[_ ?]]; auto.
Qed.

Theorem C17_errors :
  (forall t h, num_nodes g <= t \/ num_nodes g <= h ->
     has_edge c t h = inr GNode /\ first_edge_id c t h = inr GNode /\ all_edge_ids c t h = inr GNode) /\
  (forall t h, t < 0 -> h < num_nodes g -> tw = false ->
     has_edge c t h = inr GDisabled /\ first_edge_id c t h = inr GDisabled /\ all_edge_ids c t h = inr GDisabled) /\
  (forall t h, t < 0 -> h < 0 -> tw = true -> has_edge c t h = inr GEdge).
Proof.
  pose proof the_csr as C. pose proof (g_n (greach_WF R)) as Hn. split; [|split].
  - intros t h H. unfold has_edge, first_edge_id, all_edge_ids. rewrite (c_n C).
    replace ((num_nodes g <=? t) || (num_nodes g <=? h)) with true; auto.
    symmetry. apply orb_true_iff. rewrite !Z.leb_le. auto.
  - intros t h Ht Hh Etw. unfold has_edge, first_edge_id, all_edge_ids. rewrite (c_n C), (c_tw C), Etw.
    destruct (Z.leb_spec (num_nodes g) t), (Z.leb_spec (num_nodes g) h), (Z.leb_spec 0 t); try lia; auto.
  - intros t h Ht Hh Etw. unfold has_edge. rewrite (c_n C), (c_tw C), Etw.
    destruct (Z.leb_spec (num_nodes g) t), (Z.leb_spec (num_nodes g) h), (Z.leb_spec 0 t), (Z.ltb_spec h 0); try lia; auto.
Qed.

(** Looking up a doubly dangling edge reads in front of an array (has_edge raises). *)
Theorem C17_doubly_dangling_refuted : tw = true -> forall t h, t < 0 -> h < 0 ->
  first_edge_id c t h = inr GOob /\ all_edge_ids c t h = inr GOob.
Proof.
  pose proof the_csr as C. pose proof (g_n (greach_WF R)) as Hn. intros Etw t h Ht Hh.
  unfold first_edge_id, all_edge_ids. rewrite (c_n C), (c_tw C), Etw.
  destruct (Z.leb_spec (num_nodes g) t), (Z.leb_spec (num_nodes g) h), (Z.leb_spec 0 t); try lia. cbn [orb negb].
  unfold bounds, aget. destruct (Z.ltb_spec h 0); [|lia]. auto.
Qed.

Theorem C17_head : forall i,
  head c i = match edge_at L i with Some (_, h) => inl h | None => inr GEdge end.
Proof. intros i. rewrite L_eq, (head_spec (greach_WF R) the_csr). destruct (edge_at _ i) as [[? ?]|]; reflexivity. Qed.

(** tail(edge_id): exact for edges with negative tail and invalid ids.  For other
    edges the binary search may stop early at a node without outgoing edges. *)
Theorem C17_tail_partial : forall i, match edge_at L i with
  | None => tail c i = inr GEdge
  | Some (t, h) => if t <? 0 then tail c i = inl None
      else exists t', tail c i = inl (Some t') /\
           (t' = t \/ (0 <= t' < t /\ forall v h', t' <= v < t -> ~ In (v, h') E))
  end.
Proof.
  intros i. pose proof (tail_spec (greach_WF R) the_csr i) as H. rewrite L_eq.
  destruct (edge_at _ i) as [[t h]|]; [|exact H]. destruct (t <? 0); [exact H|].
  destruct H as (t' & H1 & [H2|[H2 H3]]); exists t'; split; auto. right. split; auto.
  intros v h' Hv. apply H3; auto.
Qed.
(** In particular it is exact if every node has an outgoing edge. *)
Theorem C17_tail : (forall v, 0 <= v < num_nodes g -> exists h, In (v, h) E) ->
  forall i, tail c i = match edge_at L i with
    | None => inr GEdge | Some (t, _) => inl (if t <? 0 then None else Some t) end.
Proof.
  intros Hall i. pose proof (C17_tail_partial i) as H.
  destruct (edge_at L i) as [[t h]|] eqn:He; [|exact H]. destruct (t <? 0); [exact H|].
  destruct H as (t' & H1 & [->|[H2 H3]]); [exact H1|]. exfalso.
  assert (Hi : In (t, h) E).
  { rewrite L_eq in He. eapply edge_at_in; eauto. exact (greach_WF R). }
  apply (g_lt (greach_WF R)) in Hi.
  destruct (Hall t') as (h' & Hh'); [lia|]. apply (H3 t' h'); auto. lia.
Qed.

(** ** C18: in-edges *)
Theorem C18_in_edges : tw = true -> forall v, 0 <= v < num_nodes g -> exists nb ids,
  in_neighbors c v = inl nb /\ in_edge_ids c v = inl ids /\
  nb = map fst (filter (fun e => snd e =? v) E) /\
  length ids = length nb /\ NoDup ids /\
  (forall p i t, nth_error ids p = Some i -> nth_error nb p = Some t -> edge_at L i = Some (t, v)) /\
  (forall i t, edge_at L i = Some (t, v) -> In i ids).
Proof. intros Ht v Hv. rewrite L_eq. apply (in_edge_ids_spec (greach_WF R) the_csr); auto. Qed.

Theorem C18_errors : forall v,
  (tw = false -> in_neighbors c v = inr GDisabled /\ in_edge_ids c v = inr GDisabled) /\
  (tw = true -> ~ 0 <= v < num_nodes g -> in_neighbors c v = inr GNode /\ in_edge_ids c v = inr GNode).
Proof.
  pose proof the_csr as C. intros v. unfold in_neighbors, in_edge_ids. rewrite (c_tw C), (bad_node_spec (greach_WF R) C).
  split; intros ->; [auto|]. cbn [negb]. intros Hv.
  destruct (Z.leb_spec 0 v), (Z.ltb_spec v (num_nodes g)); cbn; auto; lia.
Qed.

(** In and out views describe the same edges; a dangling edge is seen only from
    its non-negative end. *)
Theorem C18_mirror : tw = true -> forall v w i, 0 <= v < num_nodes g -> 0 <= w < num_nodes g ->
  forall io ii no, out_edge_ids c v = inl io -> in_edge_ids c w = inl ii -> out_neighbors c v = inl no ->
  (In i io /\ In i ii <-> edge_at L i = Some (v, w)) /\ (In w no <-> exists nb, in_neighbors c w = inl nb /\ In v nb).
Proof.
  intros Ht v w i Hv Hw io ii no Ho Hi Hn.
  destruct (@C18_in_edges Ht w Hw) as (nb & ids & E1 & E2 & E3 & E4 & E5 & E6 & E7).
  assert (ids = ii) by congruence. subst ids.
  destruct C16_out as (_ & _ & _ & Hout). destruct (Hout v Hv) as (F1 & io' & F2 & _ & F3).
  assert (io' = io) by congruence. subst io'. rewrite F1 in Hn. injection Hn as <-. split.
  - split.
    + intros [G1 G2]. apply F3 in G1. destruct G1 as (h & G1). apply In_nth_error in G2. destruct G2 as (p & G2).
      destruct (nth_error nb p) as [t|] eqn:Hp.
      * pose proof (E6 p i t G2 Hp). congruence.
      * apply nth_error_None in Hp. assert (p < length ii)%nat by (apply nth_error_Some; congruence). lia.
    + intros G. split; [apply F3; eauto|eauto].
  - rewrite in_map_iff. split.
    + intros ([a b] & <- & G). apply filter_In in G. destruct G as [G1 G2]. cbn in *. apply Z.eqb_eq in G2. subst a.
      exists nb. split; auto. subst nb. apply in_map_iff. exists (v, b). split; auto. apply filter_In. split; auto. apply Z.eqb_refl.
    + intros (nb' & G1 & G2). assert (nb' = nb) by congruence. subst nb' nb. apply in_map_iff in G2.
      destruct G2 as ([a b] & <- & G2). apply filter_In in G2. destruct G2 as [G2 G3]. cbn in *. apply Z.eqb_eq in G3. subst b.
      exists (a, w). split; auto. apply filter_In. split; auto. apply Z.eqb_refl.
Qed.

(** ** C19: edge numbers *)
Theorem C19_edge_id : ent = true ->
  (forall k, edge_id c k = match (if k <? 0 then None else nth_error E (Z.to_nat k)) with
      | Some e => if kept tw e then edge_id c k else inr GEdge | None => inr GEdge end) /\
  (forall k e, nth_error E k = Some e -> kept tw e = true ->
     exists i, edge_id c (Z.of_nat k) = inl i /\ edge_at L i = Some e) /\
  (forall j k i, edge_id c j = inl i -> edge_id c k = inl i -> j = k) /\
  (forall j k e f i i', j < k -> edge_id c j = inl i -> edge_id c k = inl i' ->
     nth_error E (Z.to_nat j) = Some e -> nth_error E (Z.to_nat k) = Some f ->
     same_group (fst e) (fst f) = true -> i < i').
Proof.
  intros He. pose proof the_csr as C. pose proof (greach_WF R) as W. rewrite L_eq.
  assert (Hk : forall e, kept tw e = true <-> hkey g tw e <> None).
  { intros [a b]. unfold kept, hkey. cbn [fst]. destruct (Z.leb_spec 0 a).
    - rewrite orb_true_r. split; [discriminate|auto].
    - rewrite orb_false_r. destruct tw; split; congruence. }
  assert (Heid : forall k e, nth_error E k = Some e -> edge_id c (Z.of_nat k) =
            if kept tw e then inl (eid g tw k e) else inr GEdge).
  { intros k e Hn. unfold edge_id. rewrite (c_ent C), He, (c_end C). cbn [negb].
    assert (k < length E)%nat by (apply nth_error_Some; congruence).
    destruct (Z.ltb_spec (Z.of_nat k) 0), (Z.leb_spec (Z.of_nat (length E)) (Z.of_nat k)); try lia. cbn [orb].
    rewrite (aget_nth _ _ (c_bynr C He _ Hn)). cbn [gbind]. unfold eid.
    destruct (kept tw e) eqn:Hke.
    - apply Hk in Hke. destruct (hkey g tw e); [|congruence]. destruct (Z.ltb_spec (Z.of_nat (posn (hkey g tw) E n k)) 0); [lia|auto].
    - destruct (hkey g tw e) eqn:Hh; [|reflexivity]. assert (kept tw e = true) by (apply Hk; congruence). congruence. }
  assert (Hinv : forall k i, edge_id c k = inl i -> exists e, 0 <= k /\ nth_error E (Z.to_nat k) = Some e /\
             kept tw e = true /\ i = eid g tw (Z.to_nat k) e).
  { intros k i Hi. destruct (Z_lt_ge_dec k 0) as [Hneg|Hpos].
    - unfold edge_id in Hi. rewrite (c_ent C), He in Hi. cbn [negb] in Hi. destruct (Z.ltb_spec k 0); [discriminate|lia].
    - destruct (nth_error E (Z.to_nat k)) as [e|] eqn:Hn.
      + pose proof (Heid _ _ Hn) as H. replace (Z.of_nat (Z.to_nat k)) with k in H by lia. rewrite Hi in H.
        destruct (kept tw e) eqn:Hke; [|discriminate]. injection H as ->. exists e. repeat split; auto. lia.
      + apply nth_error_None in Hn. unfold edge_id in Hi. rewrite (c_ent C), He, (c_end C) in Hi. cbn [negb] in Hi.
        destruct (Z.leb_spec (Z.of_nat (length E)) k); [|lia]. rewrite orb_true_r in Hi. discriminate. }
  split; [|split; [|split]].
  - intros k. destruct (Z.ltb_spec k 0).
    + unfold edge_id. rewrite (c_ent C), He. cbn [negb]. destruct (Z.ltb_spec k 0); [reflexivity|lia].
    + destruct (nth_error E (Z.to_nat k)) as [e|] eqn:Hn.
      * pose proof (Heid _ _ Hn) as Hq. replace (Z.of_nat (Z.to_nat k)) with k in Hq by lia. rewrite Hq. destruct (kept tw e); auto.
      * apply nth_error_None in Hn. unfold edge_id. rewrite (c_ent C), He, (c_end C). cbn [negb].
        destruct (Z.leb_spec (Z.of_nat (length E)) k); [|lia]. rewrite orb_true_r. reflexivity.
  - intros k e Hn Hke. exists (eid g tw k e). rewrite (Heid _ _ Hn), Hke. split; [auto|].
    apply Hk in Hke. destruct (hkey g tw e) eqn:Hh; [|congruence]. apply (L_eid W tw _ Hn Hh).
  - intros j k i Hj Hk'. destruct (Hinv _ _ Hj) as (e & H1 & H2 & H3 & ->). destruct (Hinv _ _ Hk') as (f & G1 & G2 & G3 & G4).
    apply Hk in H3, G3. pose proof (@eid_inj g W tw _ _ _ _ H2 G2 H3 G3 G4). lia.
  - intros j k e f i i' Hjk Hj Hk' Hne Hnf Hg. destruct (Hinv _ _ Hj) as (e' & H1 & H2 & H3 & ->). destruct (Hinv _ _ Hk') as (f' & G1 & G2 & G3 & ->).
    assert (e' = e) by congruence. assert (f' = f) by congruence. subst e' f'. apply Hk in H3, G3.
    destruct (hkey g tw e) as [t|] eqn:Ht; [|congruence]. destruct (hkey g tw f) as [u|] eqn:Hu; [|congruence].
    assert (t = u).
    { destruct e as [a b], f as [a' b']. unfold hkey, same_group in *. cbn [fst] in *.
      destruct (Z.leb_spec 0 a), (Z.leb_spec 0 a'), (Z.eqb_spec a a'), (Z.ltb_spec a 0), (Z.ltb_spec a' 0); cbn in Hg; try discriminate; try lia; congruence. }
    subst u. eapply (@eid_mono g W tw); eauto. lia.
Qed.
Theorem C19_disabled : ent = false -> forall k, edge_id c k = inr GDisabled.
Proof. intros He k. unfold edge_id. rewrite (c_ent the_csr), He. reflexivity. Qed.
End Compressed.

(** ** A wrong answer of tail: the only edge is (3, 0), tail(0) returns 2. *)
Definition g30 := fst (add_edge (new_graph false) 3 0).
Theorem C17_tail_refuted : exists junk c, greach g30 /\ compressed junk g30 false false false = inl c /\
  id_order false (edges g30) [(3, 0)] /\ edge_at [(3, 0)] 0 = Some (3, 0) /\ tail c 0 = inl (Some 2).
Proof.
  exists (fun _ _ => 0). eexists. split; [apply gr_add, gr_new|]. split; [reflexivity|]. split; [|split; reflexivity].
  split; cbn; [reflexivity| |reflexivity]. constructor; constructor.
Qed.

(** ** Non-vacuity: a two-way graph with parallel, dangling and loop edges. *)
Definition gx := fst (add_edges (new_graph true) [(2, 0); (0, 1); (-1, 2); (2, 0); (1, -7); (-3, 1); (2, 2)]).
Example gx_reach : greach gx. Proof. apply gr_adds, gr_new. Qed.
Example gx_compressed : exists c, compressed (fun k i => 99) gx true true false = inl c /\
  all_edge_ids c 2 0 = inl [2; 3] /\ first_edge_id c 2 0 = inl 2 /\ in_neighbors c 2 = inl [-1; 2] /\
  in_edge_ids c 2 = inl [5; 4] /\ edge_id c 3 = inl 3 /\ edge_id c 5 = inl 6 /\ tail c 5 = inl None /\
  has_dangling_edges c = true /\ has_edge c (-3) 1 = inl true /\ iter_edges c = inr GOob.
Proof. eexists. split; [vm_compute; reflexivity|]. vm_compute. repeat split. Qed.
Example g_iter : let g := fst (add_edges (new_graph false) [(2, 0); (0, 1); (2, 3); (0, 0)]) in
  exists c, compressed (fun k i => 99) g false false false = inl c /\ iter_edges c = inl [(0, 1); (0, 0); (2, 0); (2, 3)].
Proof. eexists. split; vm_compute; reflexivity. Qed.
