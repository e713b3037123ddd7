(** * The loops found by _find_loops. *)
From Coq Require Import Reals List Bool Arith Lia Lra Permutation.
From Verif Require Import StarRing DiscretizeReal DijkstraModel DijkstraSpec DijkstraProofs DijkstraProps GaugeModel GaugeSpec GaugeProofs GaugeForest.
Import ListNotations.
Set Implicit Arguments.
Local Open Scope R_scope.

(** A sequence of loops such that every link but the last one of each loop is part of
    the subgraph or the last link of an earlier loop; finally all links are found *)
Inductive valid (g : graph) : graph -> list (list nat) -> Prop :=
| valid_nil sub : (forall i j, edge g i j -> links sub i j) -> valid g sub []
| valid_cons sub sub' p loops : p <> [] -> along (links sub) p -> edge g (last p O) (hd O p) -> ~ links sub (last p O) (hd O p) ->
    (forall x y, links sub' x y <-> links sub x y \/ (x = last p O /\ y = hd O p) \/ (x = hd O p /\ y = last p O)) ->
    valid g sub' loops -> valid g sub (p :: loops).

Section Loops.
Variable pick : list nat -> (nat -> R) -> list nat -> nat.
Variable argsort : list R -> list nat.
Hypothesis HP : min_oracle rltb pick.
Hypothesis Hsort : argsort_ok argsort.
Variable g : graph.
Hypothesis Hf : full g.
Notation path_length := (path_length 0 Rplus rltb pick).

(** Invariant *)
Record linv (sub : graph) (todo : list (nat * nat)) : Prop := {
  l_sub : sub_of sub g;
  l_sym : forall x y, links sub x y -> links sub y x;
  l_conn : forall x y, edge g x y -> conn (links sub) x y;
  l_nd : NoDup todo;
  l_lt : forall i j, In (i, j) todo -> (i < j)%nat /\ edge g i j /\ ~ links sub i j;
  l_all : forall i j, edge g i j -> links sub i j \/ In (i, j) todo \/ In (j, i) todo }.

Lemma linv_perm sub todo todo' : Permutation todo todo' -> linv sub todo -> linv sub todo'.
Proof.
  intros Hp I. constructor; try apply I.
  - eapply Permutation_NoDup; [exact Hp|apply (l_nd I)].
  - intros i j H. apply (l_lt I). eapply Permutation_in; [symmetry; exact Hp|auto].
  - intros i j H. destruct (l_all I _ _ H) as [H1|[H1|H1]]; [auto|right; left|right; right]; eapply Permutation_in; eauto.
Qed.
Lemma route_links sub s p t L : (forall x y, links sub x y -> links sub y x) -> route 0 Rplus sub s p t L -> p <> [] /\ hd O p = t /\ last p O = s /\ along (links sub) p.
Proof.
  intros Hs. induction 1 as [|p u L x w R (I1 & I2 & I3 & I4) E]; [cbn; repeat split; auto; discriminate|].
  split; [discriminate|]. split; [auto|]. destruct p as [|u' p]; [congruence|]. cbn in I2. subst u'. split; [rewrite last_cons; auto|]. split; [|auto]. apply Hs. exists w. auto.
Qed.
Lemma route_nonneg sub s p t L : sub_of sub g -> route 0 Rplus sub s p t L -> 0 <= L.
Proof.
  intros Hs. induction 1 as [|p u L x w R IH E]; [lra|]. apply (@sub_row_in _ (row g u)) in E; [|apply sub_row_nth; auto]. destruct (f_some Hf _ _ _ E) as (w' & [= <-] & H0). lra.
Qed.
Lemma found sub todo i j : linv sub todo -> edge g i j -> exists p len, dijkstra 0 Rplus rltb pick sub i j = Found p len /\ path_length sub i j = Some len /\ 0 <= len /\ p <> [] /\ hd O p = j /\ last p O = i /\ along (links sub) p.
Proof.
  intros I He. assert (Hi : (i < length sub)%nat). { rewrite (sub_length (l_sub I)). apply (f_range Hf j). apply (f_sym Hf), He. }
  pose proof (sub_good Hf (l_sub I)) as HG.
  destruct (@C64_shortest_path R 0 Rplus rltb pick rweights HP sub i j HG Hi) as [(p & L & E & Hs)|[_ H]].
  - exists p, L. split; [auto|]. split; [apply (@C64_path_length R 0 Rplus rltb pick rweights HP sub i j HG Hi) with (p := p); auto|].
    destruct Hs as [R _]. split; [eapply route_nonneg; [apply (l_sub I)|eauto]|]. apply route_links in R; [|apply (l_sym I)]. tauto.
  - exfalso. apply H. apply reachable_conn. apply (l_conn I); auto.
Qed.
Lemma sequence_some A (l : list (option A)) : (forall x, In x l -> x <> None) -> exists l', sequence l = Some l' /\ l = map Some l'.
Proof.
  induction l as [|x l IH]; intros H; [exists []; auto|]. destruct IH as (l' & E & ->); [intros y Hy; apply H; right; auto|].
  destruct x as [a|]; [|exfalso; apply (H None); [left; auto|auto]]. exists (a :: l'). cbn [sequence obind]. rewrite E. auto.
Qed.
Definition fresh (sub : graph) (todo : list (nat * nat)) (m : option R) : Prop :=
  match todo with [] => True | (i, j) :: _ => exists x, m = Some x /\ path_length sub i j = Some x end.
Lemma order_ok sub todo : linv sub todo -> exists todo' m, order_links pick argsort sub todo = Some (todo', m) /\ Permutation todo todo' /\ fresh sub todo' m /\ (todo <> [] -> m <> None).
Proof.
  intros I. destruct todo as [|e todo0]; [exists [], None; cbn; repeat split; auto; congruence|]. set (todo := e :: todo0) in *.
  destruct (@sequence_some R (map (fun ft => path_length sub (fst ft) (snd ft)) todo)) as (lens & E & El).
  { intros x Hx. apply in_map_iff in Hx. destruct Hx as ([i j] & <- & Hin). cbn. destruct (l_lt I _ _ Hin) as (_ & He & _). destruct (found _ _ I He) as (p & len & _ & H & _). congruence. }
  assert (Hl : length lens = length todo). { apply (f_equal (@length _)) in El. rewrite !map_length in El. auto. }
  destruct (Hsort lens) as [Hperm _]. rewrite Hl in Hperm.
  assert (Hp : Permutation todo (map (fun k => nth k todo (O, O)) (argsort lens))).
  { rewrite (Permutation_map (fun k => nth k todo (O, O)) Hperm). clear. induction todo as [|a l IH]; [constructor|]. cbn [length seq map nth]. rewrite <- seq_shift, map_map. cbn [nth]. constructor. auto. }
  exists (map (fun k => nth k todo (O, O)) (argsort lens)), (Some (nth (nth 0 (argsort lens) O) lens 0)).
  split; [unfold order_links; fold todo; unfold todo at 1; rewrite E; reflexivity|]. split; [auto|]. split; [|discriminate].
  destruct (argsort lens) as [|k ks] eqn:Ek; [apply Permutation_nil in Hperm; discriminate|]. cbn [map fresh nth].
  destruct (nth k todo (O, O)) as [i j] eqn:En. exists (nth k lens 0). split; [auto|].
  assert (Hk : (k < length todo)%nat). { assert (In k (seq 0 (length todo))) by (eapply Permutation_in; [exact Hperm|left; auto]). apply in_seq in H. lia. }
  assert (H : nth k (map (fun ft => path_length sub (fst ft) (snd ft)) todo) None = nth k (map Some lens) None) by (rewrite El; auto).
  rewrite (nth_indep _ None (path_length sub (fst (O, O)) (snd (O, O)))) in H by (rewrite map_length; auto). rewrite (map_nth (fun ft => path_length sub (fst ft) (snd ft)) todo (O, O)), En in H. cbn [fst snd] in H. rewrite H.
  rewrite (nth_indep _ None (Some 0)) by (rewrite map_length; lia). rewrite map_nth. auto.
Qed.
Lemma find_loop_ok fuel : forall sub todo m, linv sub todo -> (todo <> [] -> m <> None) -> ((2 * length todo <= fuel)%nat \/ (fresh sub todo m /\ (2 * length todo <= S fuel)%nat)) ->
  exists loops, find_loop pick argsort fuel g sub todo m = Some loops /\ valid g sub loops.
Proof.
  induction fuel as [|fuel IH]; intros sub todo m I Hm Hfuel.
  - destruct todo as [|[i j] todo]; [|exfalso; cbn in Hfuel; lia]. exists []. split; [reflexivity|]. constructor. intros i j H. destruct (l_all I _ _ H) as [|[[]|[]]]; auto.
  - destruct todo as [|[i j] todo]; [exists []; split; [reflexivity|]; constructor; intros i j H; destruct (l_all I _ _ H) as [|[[]|[]]]; auto|].
    destruct m as [m|]; [|exfalso; apply Hm; [discriminate|auto]].
    destruct (l_lt I i j (or_introl eq_refl)) as (Hlt & He & Hnl). destruct (found _ _ I He) as (p & len & E1 & E2 & H0 & Hp0 & Hh & Hla & Hal).
    cbn [find_loop]. rewrite E1. unfold rltb. destruct (Rlt_dec (m * (11 / 10)) len) as [Hbig|Hsm].
    + destruct (order_ok I) as (todo' & m' & Eo & Hperm & Hfr & Hne). rewrite Eo. cbn [obind].
      pose proof (Permutation_length Hperm) as Hlen. apply IH; [eapply linv_perm; eauto|intros _; apply Hne; discriminate|]. right. split; [auto|].
      destruct Hfuel as [Hfl|[(x & [= <-] & Ex) _]]; [rewrite <- Hlen; lia|]. exfalso. rewrite E2 in Ex. injection Ex as <-. lra.
    + destruct (assign_both_ok i j Hf (l_sub I) He) as (sub' & Es & S' & L'). rewrite Es. cbn [obind].
      assert (I' : linv sub' todo).
      { constructor.
        - auto.
        - intros x y. rewrite !L'. intros [H|[[-> ->]|[-> ->]]]; auto. left. apply (l_sym I); auto.
        - intros x y H. apply (@conn_mono (links sub)); [intros a b Hab; apply L'; auto|apply (l_conn I); auto].
        - pose proof (l_nd I) as H. inversion H; auto.
        - intros x y Hin. destruct (l_lt I x y (or_intror Hin)) as (H1 & H2 & H3). split; [auto|]. split; [auto|]. rewrite L'. intros [H|[[-> ->]|[-> ->]]]; [auto| |lia].
          pose proof (l_nd I) as H. inversion H; auto.
        - intros x y H. rewrite L'. destruct (l_all I _ _ H) as [H1|[[[= -> ->]|H1]|[[= -> ->]|H1]]]; auto. }
      destruct (IH sub' todo (Some m) I') as (loops & El & V); [discriminate|left; cbn [length] in Hfuel; lia|]. rewrite El. exists (p :: loops). split; [auto|].
      apply valid_cons with (sub' := sub'); rewrite ?Hh, ?Hla; auto.
Qed.
Lemma in_missing sub i j : sub_of sub g -> In (i, j) (links_to_find sub) <-> edge g i j /\ (i <= j)%nat /\ ~ links sub i j.
Proof.
  intros Hs. assert (H : In (i, j) (links_to_find sub) <-> In (j, None) (row sub i) /\ (i <= j)%nat).
  { unfold links_to_find. rewrite in_flat_map. split.
    - intros ([k r] & Hin & Hm). cbn [fst snd] in Hm. unfold missing_row in Hm. apply in_flat_map in Hm. destruct Hm as ([c o] & Hc & Hm). cbn [fst snd] in Hm. destruct o; [destruct Hm|].
      destruct (Nat.leb_spec k c) as [Hle|]; [|destruct Hm]. destruct Hm as [[= -> ->]|[]]. split; [|auto].
      assert (H : forall (l : graph) s, In (i, r) (combine (seq s (length l)) l) -> (s <= i)%nat /\ nth (i - s) l [] = r).
      { induction l as [|x l IH]; intros s; cbn; [intros []|]. intros [[= -> ->]|Hx]; [rewrite Nat.sub_diag; auto|]. apply IH in Hx. destruct Hx as [H1 H2]. split; [lia|]. replace (i - s)%nat with (S (i - S s)) by lia. auto. }
      apply H in Hin. destruct Hin as [_ Hin]. rewrite Nat.sub_0_r in Hin. unfold row. rewrite Hin. auto.
    - intros [Hin Hle]. exists (i, row sub i). split.
      + assert (Hi : (i < length sub)%nat). { unfold row in Hin. destruct (Nat.lt_ge_cases i (length sub)); [auto|]. rewrite nth_overflow in Hin by auto. destruct Hin. }
        assert (H : forall (l : graph) s k, (k < length l)%nat -> In ((s + k)%nat, nth k l []) (combine (seq s (length l)) l)).
        { induction l as [|x l IH]; intros s k Hk; cbn in *; [lia|]. destruct k as [|k]; [left; rewrite Nat.add_0_r; auto|]. right. replace (s + S k)%nat with (S s + k)%nat by lia. apply IH. lia. }
        apply (H sub O i Hi).
      + unfold missing_row. apply in_flat_map. exists (j, None). split; [auto|]. cbn [fst snd]. rewrite (proj2 (Nat.leb_le i j)) by auto. left. auto. }
  rewrite H. pose proof (sub_row_nth i Hs) as Hr. pose proof (f_nd Hf i) as Hn. unfold edge, links. split.
  - intros [H1 H2]. split; [|split; [auto|]].
    + clear - Hr H1. induction Hr as [|x y a b [E _] Hr IH]; [destruct H1|]. destruct H1 as [->|H1]; [left; cbn in *; auto|right; auto].
    + intros [w Hw]. assert (Hn' : NoDup (map fst (row sub i))).
      { clear - Hr Hn. induction Hr as [|x y a b [E _] Hr IH]; [constructor|]. cbn in *. inversion Hn as [|? ? Hn1 Hn2]; subst. constructor; [|auto]. rewrite E. intros Hx. apply Hn1. clear - Hr Hx. induction Hr as [|u v a b [E _] Hr IH]; [destruct Hx|]. cbn in *. destruct Hx as [<-|Hx]; [left; auto|right; auto]. }
      clear - Hw H1 Hn'. induction (row sub i) as [|x l IH]; [destruct Hw|]. cbn in Hn'. inversion Hn' as [|? ? Ha Hb]; subst. destruct Hw as [->|Hw]; destruct H1 as [H1|H1]; auto; [congruence| |subst]; apply Ha; apply in_map_iff; eexists; (split; [|eassumption]); reflexivity.
  - intros (H1 & H2 & H3). split; [|auto]. clear - Hr H1 H3. induction Hr as [|[c o] y a b [E _] Hr IH]; [destruct H1|]. cbn in *. destruct H1 as [H1|H1].
    + rewrite H1 in E. subst c. destruct o as [w|]; [exfalso; apply H3; exists w; left; auto|left; auto].
    + right. apply IH; [auto|]. intros [w Hw]. apply H3. exists w. auto.
Qed.
Lemma missing_nodup sub : sub_of sub g -> NoDup (links_to_find sub).
Proof.
  intros Hs. unfold links_to_find. assert (Hn : forall i, NoDup (map fst (row sub i))).
  { intros i. replace (map fst (row sub i)) with (map fst (row g i)); [apply (f_nd Hf)|]. pose proof (sub_row_nth i Hs) as Hr. clear - Hr. induction Hr as [|x y a b [E _] Hr IH]; [auto|]. cbn. f_equal; auto. }
  unfold row in Hn. clear - Hn. generalize O as s. induction sub as [|r sub IH]; intros s; [constructor|]. cbn [length seq combine flat_map fst snd].
  assert (H : forall a b : list (nat * nat), NoDup a -> NoDup b -> (forall x, In x a -> ~ In x b) -> NoDup (a ++ b)).
  { induction a as [|x a IHa]; intros b Ha Hb Hab; [auto|]. inversion Ha; subst. cbn. constructor; [rewrite in_app_iff; intros [H|H]; [auto|apply (Hab x); [left; auto|auto]]|apply IHa; auto; intros y Hy; apply Hab; right; auto]. }
  apply H.
  - pose proof (Hn O) as Hr. cbn in Hr. clear - Hr. unfold missing_row. induction r as [|[c o] r IH]; [constructor|]. cbn in *. inversion Hr as [|? ? Ha Hb]; subst. destruct o; [cbn; auto|]. destruct (s <=? c)%nat; [|cbn; auto]. cbn. constructor; [|auto].
    intros Hin. apply Ha. apply in_flat_map in Hin. destruct Hin as ([c' o'] & Hin & Hm). cbn in Hm. destruct o'; [destruct Hm|]. destruct (s <=? c')%nat; [|destruct Hm]. destruct Hm as [[= <-]|[]]. apply in_map_iff. eexists. split; [|exact Hin]. reflexivity.
  - apply IH. intros i. apply (Hn (S i)).
  - intros [a b] Ha Hb. assert (Hs : forall k (t : list (nat * option R)) u v, In (u, v) (missing_row k t) -> u = k).
    { intros k t u v Hx. unfold missing_row in Hx. apply in_flat_map in Hx. destruct Hx as ([c o] & _ & Hx). cbn in Hx. destruct o; [destruct Hx|]. destruct (k <=? c)%nat; [|destruct Hx]. destruct Hx as [[= <- <-]|[]]. auto. }
    apply Hs in Ha. subst a. apply in_flat_map in Hb. destruct Hb as ([k t] & Hin & Hb). apply Hs in Hb. cbn in Hb. subst k. apply in_combine_l in Hin. apply in_seq in Hin. lia.
Qed.
(** The loops found from a spanning forest *)
Lemma find_loops_ok sub : sub_of sub g -> (forall x y, links sub x y -> links sub y x) -> (forall x y, edge g x y -> conn (links sub) x y) ->
  exists loops, find_loops pick argsort g sub = Some loops /\ valid g sub loops.
Proof.
  intros Hs Hsym Hc. assert (I : linv sub (links_to_find sub)).
  { constructor; auto.
    - apply missing_nodup; auto.
    - intros i j H. apply in_missing in H; [|auto]. destruct H as (H1 & H2 & H3). split; [|auto]. assert (i <> j) by (intros ->; apply (f_irr Hf j H1)). lia.
    - intros i j H. assert (D : links sub i j \/ ~ links sub i j).
      { unfold links. clear. induction (row sub i) as [|[c o] l IH]; [right; intros [w []]|]. destruct IH as [[w H]|IH]; [left; exists w; right; auto|].
        destruct o as [w|]; [|right; intros [w [H|H]]; [discriminate|apply IH; exists w; auto]]. destruct (Nat.eq_dec c j) as [->|N]; [left; exists w; left; auto|right; intros [w' [[= H _]|H]]; [auto|apply IH; exists w'; auto]]. }
      destruct D as [D|D]; [auto|]. right. destruct (Nat.le_gt_cases i j); [left|right]; apply in_missing; auto. split; [apply (f_sym Hf), H|]. split; [lia|]. intros Hl. apply D, Hsym, Hl. }
  unfold find_loops. destruct (order_ok I) as (todo & m & E & Hp & Hfr & Hne). rewrite E. cbn [obind]. apply find_loop_ok.
  - eapply linv_perm; eauto.
  - intros Ht. apply Hne. intros E0. rewrite E0 in Hp. apply Permutation_nil in Hp. auto.
  - left. rewrite (Permutation_length Hp). lia.
Qed.
End Loops.
