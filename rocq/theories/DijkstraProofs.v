(** * Dijkstra's algorithm. *)
From Coq Require Import List Bool Arith Lia.
From Verif Require Import DijkstraModel DijkstraSpec.
Import ListNotations.
Set Implicit Arguments.

Lemma upd_same A (f : nat -> A) i x : upd f i x i = x.
Proof. unfold upd. rewrite Nat.eqb_refl. reflexivity. Qed.
Lemma upd_other A (f : nat -> A) i x j : j <> i -> upd f i x j = f j.
Proof. unfold upd. intros H. rewrite (proj2 (Nat.eqb_neq j i) H). reflexivity. Qed.

Section Proofs.
Variable W : Type.
Variable w0 : W.
Variable wadd : W -> W -> W.
Variable wltb : W -> W -> bool.
Variable pick : list nat -> (nat -> W) -> list nat -> nat.
Hypothesis HO : ordered_weights wadd wltb.
Hypothesis HP : min_oracle wltb pick.
Variable g : csr W.
Hypothesis HG : good_graph wadd wltb g.
Variable source : nat.
Hypothesis Hsrc : source < length g.
Notation wle := (wle wltb).
Notation route := (route w0 wadd g source).
Notation scan := (scan wadd wltb).
Let le_refl := wle_refl HO.
Let le_trans := wle_trans HO.

(** Invariant: [ex] are the scanned nodes all of whose links were followed. *)
Record inv (s : state W) (ex : nat -> Prop) : Prop := {
  i_src : stat s source <> NOT_IN_HEAP \/ (heap s = [source] /\ trace s = []);
  i_srcval : val s source = w0;
  i_srcpred : pred s source = None;
  i_heap : forall x, In x (heap s) <-> stat s x = IN_HEAP \/ (x = source /\ trace s = []);
  i_nd : NoDup (heap s);
  i_trace : forall x, In x (trace s) <-> stat s x = SCANNED;
  i_tnd : NoDup (trace s);
  i_range : forall x, stat s x <> NOT_IN_HEAP -> x < length g;
  i_ex : forall x, ex x -> stat s x = SCANNED;
  i_pred : forall x, x <> source -> stat s x <> NOT_IN_HEAP -> exists u w, pred s x = Some u /\ stat s u = SCANNED /\ In (x, Some w) (row g u) /\ val s x = wadd (val s u) w;
  i_pred0 : forall x, stat s x = NOT_IN_HEAP -> pred s x = None;
  i_order : forall x l1 l2, trace s = l1 ++ x :: l2 -> x <> source -> exists u, pred s x = Some u /\ In u l2;
  i_close : forall u x w, ex u -> In (x, Some w) (row g u) -> stat s x <> NOT_IN_HEAP /\ wle (val s x) (wadd (val s u) w);
  i_mono : forall u x, stat s u = SCANNED -> In x (heap s) -> wle (val s u) (val s x);
  i_dist : forall x p L, stat s x = SCANNED -> route p x L -> wle (val s x) L;
  i_empty : trace s = [] -> forall x, stat s x = NOT_IN_HEAP }.

Arguments i_pred {s ex} _ x _ _.
Arguments i_order {s ex} _ x l1 l2 _ _.
Arguments i_close {s ex} _ u x w _ _.
Arguments i_ex {s ex} _ x _.

Lemma inv_initial : inv (initial w0 source) (fun _ => False).
Proof.
  constructor; cbn; try easy.
  - auto.
  - intros x. split; [intros [->|[]]; auto|intros [H|[-> _]]; [discriminate|auto]].
  - repeat constructor. intros [].
  - constructor.
  - intros x l1 l2 H. destruct l1; discriminate.
Qed.

Lemma heap_nonempty_pick s : heap s <> [] -> In (pick (trace s) (val s) (heap s)) (heap s) /\ forall x, In x (heap s) -> wle (val s (pick (trace s) (val s) (heap s))) (val s x).
Proof. apply HP. Qed.

(** the removed node has its final value *)
Lemma pick_dist s : inv s (fun x => stat s x = SCANNED) -> heap s <> [] -> forall p L, route p (pick (trace s) (val s) (heap s)) L -> wle (val s (pick (trace s) (val s) (heap s))) L.
Proof.
  intros I Hh. destruct (heap_nonempty_pick s Hh) as [Hin Hmin]. set (v := pick (trace s) (val s) (heap s)) in *.
  (* every route ends in a scanned node or is at least as long as the value of a node in the heap *)
  assert (H : forall p x L, route p x L -> (stat s x = SCANNED /\ wle (val s x) L) \/ wle (val s v) L).
  { induction 1 as [|p u L x w R IH E].
    - destruct (i_src I) as [H|[H1 H2]].
      + destruct (stat s source) eqn:Es; [left|congruence|right].
        * split; [auto|]. rewrite (i_srcval I). apply le_refl.
        * rewrite <- (i_srcval I). apply Hmin. apply (i_heap I). auto.
      + right. rewrite <- (i_srcval I). apply Hmin. rewrite H1. left. auto.
    - destruct IH as [[Hs Hle]|Hle].
      + destruct (i_close I u x w Hs E) as [Hn Hv]. destruct (stat s x) eqn:Ex; [left|congruence|right].
        * split; [auto|]. eapply le_trans; [exact Hv|]. apply (wadd_mono HO). auto.
        * apply (@le_trans _ (val s x)); [apply Hmin; apply (i_heap I); auto|]. eapply le_trans; [exact Hv|]. apply (wadd_mono HO). auto.
      + right. eapply le_trans; [exact Hle|]. apply (HG u x w E). }
  intros p L R. destruct (H p v L R) as [[Hs _]|Hl]; [|auto].
  exfalso. apply (i_heap I) in Hin. destruct Hin as [Hin|[Hv Ht]]; [congruence|]. rewrite (i_empty I Ht) in Hs. discriminate.
Qed.

Lemma pick_not_scanned s ex : inv s ex -> heap s <> [] -> stat s (pick (trace s) (val s) (heap s)) <> SCANNED.
Proof.
  intros I Hh. destruct (heap_nonempty_pick s Hh) as [Hin _]. apply (i_heap I) in Hin. destruct Hin as [->|[_ Ht]]; [discriminate|]. rewrite (i_empty I Ht). discriminate.
Qed.
Lemma remove_in x y (l : list nat) : In x (remove Nat.eq_dec y l) <-> In x l /\ x <> y.
Proof. split; [apply in_remove|intros [H N]; apply in_in_remove; auto]. Qed.
Lemma nodup_remove y (l : list nat) : NoDup l -> NoDup (remove Nat.eq_dec y l).
Proof.
  induction l as [|a l IH]; intros H; cbn; [auto|]. inversion H; subst. destruct (Nat.eq_dec y a); [auto|]. constructor; [|auto]. intros Hi. apply in_remove in Hi. tauto.
Qed.
Lemma inv_remove s v s' : inv s (fun x => stat s x = SCANNED) -> heap s <> [] -> remove_min pick s = (v, s') ->
  stat s v <> SCANNED /\ stat s' v = SCANNED /\ trace s' = v :: trace s /\ inv s' (fun x => stat s x = SCANNED).
Proof.
  intros I Hh. unfold remove_min. pose proof (pick_dist I Hh) as Hd. pose proof (pick_not_scanned I Hh) as Hns. destruct (heap_nonempty_pick s Hh) as [Hin Hmin].
  set (u := pick (trace s) (val s) (heap s)) in *. intros [= <- <-]. split; [auto|]. split; [apply upd_same|]. split; [reflexivity|].
  assert (Hru : stat s u <> NOT_IN_HEAP \/ (u = source /\ trace s = [])). { apply (i_heap I) in Hin. destruct Hin as [E|E]; [left; congruence|auto]. }
  assert (Hst : forall x, x <> u -> upd (stat s) u SCANNED x = stat s x) by (intros; apply upd_other; auto).
  assert (Hsc : forall x, stat s x = SCANNED -> upd (stat s) u SCANNED x = SCANNED). { intros x Hx. destruct (Nat.eq_dec x u) as [->|N]; [apply upd_same|rewrite Hst; auto]. }
  constructor; cbn [stat val pred heap trace].
  - left. destruct (Nat.eq_dec source u) as [->|N]; [rewrite upd_same; discriminate|]. rewrite Hst by auto. destruct (i_src I) as [H|[H1 H2]]; [auto|]. rewrite H1 in Hin. destruct Hin as [E|[]]. congruence.
  - apply (i_srcval I).
  - apply (i_srcpred I).
  - intros x. rewrite remove_in, (i_heap I). split.
    + intros [[H|[H1 H2]] N]; [left; rewrite Hst; auto|]. exfalso. destruct (i_src I) as [H|[H3 _]]; [apply H; apply (i_empty I); auto|]. rewrite H3 in Hin. destruct Hin as [E|[]]. congruence.
    + intros [H|[_ H]]; [|discriminate]. destruct (Nat.eq_dec x u) as [->|N]; [rewrite upd_same in H; discriminate|]. rewrite Hst in H by auto. auto.
  - apply nodup_remove, (i_nd I).
  - intros x. destruct (Nat.eq_dec x u) as [->|N]; [rewrite upd_same; split; [auto|left; auto]|]. rewrite Hst by auto. rewrite <- (i_trace I). split; [intros [E|E]; [congruence|auto]|right; auto].
  - constructor; [|apply (i_tnd I)]. rewrite (i_trace I). auto.
  - intros x. destruct (Nat.eq_dec x u) as [->|N]; [|rewrite Hst by auto; apply (i_range I)]. intros _. destruct Hru as [H|[-> _]]; [apply (i_range I); auto|auto].
  - auto.
  - intros x Hx Hn. assert (Hn' : stat s x <> NOT_IN_HEAP). { destruct (Nat.eq_dec x u) as [->|N]; [|rewrite Hst in Hn by auto; auto]. destruct Hru as [H|[H _]]; [auto|congruence]. }
    destruct (i_pred I _ Hx Hn') as (p & w & H1 & H2 & H3 & H4). exists p, w. repeat split; auto.
  - intros x Hx. destruct (Nat.eq_dec x u) as [->|N]; [rewrite upd_same in Hx; discriminate|]. rewrite Hst in Hx by auto. apply (i_pred0 I). auto.
  - intros x l1 l2 E Hx. destruct l1 as [|a l1]; cbn in E; injection E as E1 E2.
    + subst. destruct Hru as [H|[H _]]; [|congruence]. destruct (i_pred I _ Hx H) as (p & w & H1 & H2 & _). exists p. split; [auto|]. apply (i_trace I). auto.
    + apply (i_order I _ _ _ E2); auto.
  - intros p x w Hp E. destruct (i_close I p x w Hp E) as [H1 H2]. split; [|auto]. destruct (Nat.eq_dec x u) as [->|N]; [rewrite upd_same; discriminate|rewrite Hst; auto].
  - intros p x Hp Hx. apply remove_in in Hx. destruct Hx as [Hx _]. destruct (Nat.eq_dec p u) as [->|N]; [apply Hmin; auto|]. rewrite Hst in Hp by auto. apply (i_mono I); auto.
  - intros x p L Hx R. destruct (Nat.eq_dec x u) as [->|N]; [eapply Hd; eauto|]. rewrite Hst in Hx by auto. eapply (i_dist I); eauto.
  - discriminate.
Qed.

(** following the links of a node *)
Lemma scan_keeps v s ex e : inv s ex -> stat s v = SCANNED -> (forall x, In x (heap s) -> wle (val s v) (val s x)) -> In e (row g v) ->
  (forall u, stat s u = SCANNED -> wle (val s u) (val s v)) ->
  let s' := scan v s e in
  inv s' ex /\ stat s' v = SCANNED /\ (forall x, stat s x = SCANNED <-> stat s' x = SCANNED) /\ (forall x, stat s x = SCANNED -> val s' x = val s x) /\
  trace s' = trace s /\
  (forall x, stat s x <> NOT_IN_HEAP -> stat s' x <> NOT_IN_HEAP /\ wle (val s' x) (val s x)) /\
  (forall w, snd e = Some w -> stat s' (fst e) <> NOT_IN_HEAP /\ wle (val s' (fst e)) (wadd (val s v) w)) /\
  (forall x, In x (heap s') -> wle (val s' v) (val s' x)).
Proof.
  intros I Hv Hm He Hmax s'. assert (Htr : trace s <> []). { intros E. rewrite (i_empty I E) in Hv. discriminate. }
  unfold s', DijkstraModel.scan. destruct e as [j [w|]]; cbn [fst snd].
  2: { split; [exact I|]. repeat split; auto; try discriminate. }
  destruct (HG v j w He) as [Hjr Hw]. destruct (stat s j) eqn:Ej.
  - (* already scanned *)
    assert (Hd : wle (val s j) (wadd (val s v) w)) by (apply (@le_trans _ (val s v)); [apply Hmax; auto|apply Hw]).
    split; [exact I|]. repeat split; auto; try congruence; match goal with H : Some _ = Some _ |- _ => injection H as <- end; auto; congruence.
  - (* insert *)
    assert (Hjv : j <> v) by congruence. assert (Hjs : j <> source). { intros ->. destruct (i_src I) as [H|[_ H]]; congruence. }
    assert (Hjh : ~ In j (heap s)). { rewrite (i_heap I). intros [H|[H _]]; congruence. }
    assert (Hns : forall x, stat s x <> NOT_IN_HEAP -> x <> j) by congruence.
    cbn [stat val pred heap trace]. set (s2 := mkState _ _ _ _ _).
    assert (Hvs : forall x, stat s x = SCANNED -> val s2 x = val s x) by (intros x Hx; cbn; apply upd_other; congruence).
    split; [|split; [cbn; rewrite upd_other; auto|split; [|split; [auto|split; [reflexivity|split; [|split]]]]]].
    + constructor; cbn [s2 stat val pred heap trace].
      * left. rewrite upd_other by auto. destruct (i_src I) as [H|[_ H]]; [auto|congruence].
      * rewrite upd_other by auto. apply (i_srcval I).
      * rewrite upd_other by auto. apply (i_srcpred I).
      * intros x. destruct (Nat.eq_dec x j) as [->|N]; [rewrite upd_same; split; [auto|left; auto]|]. rewrite upd_other by auto. rewrite <- (i_heap I). split; [intros [E|E]; [congruence|auto]|right; auto].
      * constructor; [auto|apply (i_nd I)].
      * intros x. rewrite (i_trace I). destruct (Nat.eq_dec x j) as [->|N]; [rewrite upd_same, Ej; split; discriminate|]. rewrite upd_other by auto. reflexivity.
      * apply (i_tnd I).
      * intros x. destruct (Nat.eq_dec x j) as [->|N]; [auto|]. rewrite upd_other by auto. apply (i_range I).
      * intros x Hx. apply (i_ex I) in Hx. rewrite upd_other by congruence. auto.
      * intros x Hx Hn. destruct (Nat.eq_dec x j) as [->|N].
        -- exists v, w. rewrite !upd_same, !upd_other by auto. repeat split; auto.
        -- rewrite !upd_other in * by auto. destruct (i_pred I _ Hx Hn) as (p & w1 & H1 & H2 & H3 & H4). exists p, w1. rewrite !upd_other by congruence. repeat split; auto.
      * intros x. destruct (Nat.eq_dec x j) as [->|N]; [rewrite upd_same; discriminate|]. rewrite !upd_other by auto. apply (i_pred0 I).
      * intros x l1 l2 E Hx. assert (stat s x = SCANNED). { apply (i_trace I). rewrite E. apply in_or_app. right. left. auto. } rewrite upd_other by congruence. apply (i_order I _ _ _ E); auto.
      * intros p x w1 Hp E. pose proof (i_ex I _ Hp). destruct (i_close I p x w1 Hp E) as [H1 H2]. rewrite !upd_other by congruence. auto.
      * intros p x Hp Hx. assert (Hp' : stat s p = SCANNED). { destruct (Nat.eq_dec p j) as [->|N]; [rewrite upd_same in Hp; discriminate|]. rewrite upd_other in Hp by auto. auto. }
        rewrite (@upd_other W (val s) j _ p) by congruence. destruct Hx as [<-|Hx].
        -- rewrite upd_same. apply (@le_trans _ (val s v)); [apply Hmax; auto|apply Hw].
        -- rewrite upd_other by congruence. apply (i_mono I); auto.
      * intros x p L Hx R. destruct (Nat.eq_dec x j) as [->|N]; [rewrite upd_same in Hx; discriminate|]. rewrite !upd_other in * by auto. eapply (i_dist I); eauto.
      * intros E. congruence.
    + intros x. cbn. destruct (Nat.eq_dec x j) as [->|N]; [rewrite upd_same, Ej; split; discriminate|]. rewrite upd_other by auto. reflexivity.
    + intros x Hx. cbn. rewrite !upd_other by auto. auto.
    + intros w1 [= <-]. cbn. rewrite !upd_same. split; [discriminate|auto].
    + intros x. cbn. intros [<-|Hx]; [rewrite upd_same, upd_other by auto; apply Hw|]. rewrite !upd_other by congruence. auto.
  - (* decrease or keep *)
    assert (Hjv : j <> v) by congruence.
    destruct (wltb (wadd (val s v) w) (val s j)) eqn:Lt.
    2: { split; [exact I|]. repeat split; auto; try congruence; match goal with H : Some _ = Some _ |- _ => injection H as <- end; auto; congruence. }
    assert (Hlt : wle (wadd (val s v) w) (val s j)). { destruct (wle_total HO (wadd (val s v) w) (val s j)) as [H|H]; [auto|]. unfold DijkstraSpec.wle in H. congruence. }
    assert (Hjs : j <> source). { intros ->. rewrite (i_srcval I) in Lt. enough (wle w0 (wadd (val s v) w)) by (unfold DijkstraSpec.wle in *; congruence).
      eapply le_trans; [|apply Hw]. rewrite <- (i_srcval I). destruct (i_src I) as [H|[_ H]]; [|congruence].
      assert (In source (heap s)) by (apply (i_heap I); auto).
      (* the source is removed first *)
      exfalso. assert (Ht : exists l a, trace s = l ++ [a]). { destruct (exists_last Htr) as (l & a & E). eauto. } destruct Ht as (l & a & E).
      destruct (Nat.eq_dec a source) as [->|N].
      - assert (stat s source = SCANNED) by (apply (i_trace I); rewrite E; apply in_or_app; right; left; auto). congruence.
      - destruct (i_order I a l [] E N) as (p & _ & []). }
    cbn [stat val pred heap trace].
    assert (Hvs : forall x, stat s x = SCANNED -> x <> j) by congruence.
    split; [|split; [auto|split; [reflexivity|split; [intros; apply upd_other; auto|split; [reflexivity|split; [|split]]]]]].
    + constructor; cbn [stat val pred heap trace].
      * apply (i_src I).
      * rewrite upd_other by auto. apply (i_srcval I).
      * rewrite upd_other by auto. apply (i_srcpred I).
      * apply (i_heap I).
      * apply (i_nd I).
      * apply (i_trace I).
      * apply (i_tnd I).
      * apply (i_range I).
      * apply (i_ex I).
      * intros x Hx Hn. destruct (Nat.eq_dec x j) as [->|N].
        -- exists v, w. rewrite !upd_same, !upd_other by auto. repeat split; auto.
        -- rewrite !upd_other in * by auto. destruct (i_pred I _ Hx Hn) as (p & w1 & H1 & H2 & H3 & H4). exists p, w1. rewrite !upd_other by auto. repeat split; auto.
      * intros x Hx. rewrite upd_other by congruence. apply (i_pred0 I); auto.
      * intros x l1 l2 E Hx. assert (stat s x = SCANNED). { apply (i_trace I). rewrite E. apply in_or_app. right. left. auto. } rewrite upd_other by congruence. apply (i_order I _ _ _ E); auto.
      * intros p x w1 Hp E. pose proof (i_ex I _ Hp). destruct (i_close I p x w1 Hp E) as [H1 H2]. rewrite (@upd_other W (val s) j _ p) by auto. split; [auto|].
        destruct (Nat.eq_dec x j) as [->|N]; [rewrite upd_same; eapply le_trans; eauto|rewrite upd_other; auto].
      * intros p x Hp Hx. rewrite (@upd_other W (val s) j _ p) by auto. destruct (Nat.eq_dec x j) as [->|N].
        -- rewrite upd_same. apply (@le_trans _ (val s v)); [apply Hmax; auto|apply Hw].
        -- rewrite upd_other by auto. apply (i_mono I); auto.
      * intros x p L Hx R. rewrite upd_other by auto. eapply (i_dist I); eauto.
      * apply (i_empty I).
    + intros x Hx. split; [auto|]. destruct (Nat.eq_dec x j) as [->|N]; [rewrite upd_same; auto|rewrite upd_other by auto; apply le_refl].
    + intros w1 [= <-]. rewrite upd_same, Ej. split; [discriminate|auto].
    + intros x Hx. rewrite (@upd_other W (val s) j _ v) by auto. destruct (Nat.eq_dec x j) as [->|N]; [rewrite upd_same; apply Hw|rewrite upd_other by auto; auto].
Qed.


Lemma scan_all v s ex es : (forall e, In e es -> In e (row g v)) -> inv s ex -> stat s v = SCANNED -> (forall x, In x (heap s) -> wle (val s v) (val s x)) ->
  (forall u, stat s u = SCANNED -> wle (val s u) (val s v)) ->
  let s' := fold_left (scan v) es s in
  inv s' ex /\ stat s' v = SCANNED /\ (forall x, stat s x = SCANNED <-> stat s' x = SCANNED) /\ (forall x, stat s x = SCANNED -> val s' x = val s x) /\
  trace s' = trace s /\
  (forall x, stat s x <> NOT_IN_HEAP -> stat s' x <> NOT_IN_HEAP /\ wle (val s' x) (val s x)) /\
  (forall x w, In (x, Some w) es -> stat s' x <> NOT_IN_HEAP /\ wle (val s' x) (wadd (val s v) w)).
Proof.
  revert s. induction es as [|e es IH]; intros s Hes I Hv Hm Hmax; cbn [fold_left].
  { split; [exact I|]. repeat split; auto; contradiction. }
  destruct (@scan_keeps v s ex e I Hv Hm (Hes e (or_introl eq_refl)) Hmax) as (I1 & V1 & S1 & E1 & T1 & N1 & C1 & M1). set (s1 := scan v s e) in *.
  assert (Hmax1 : forall u, stat s1 u = SCANNED -> wle (val s1 u) (val s1 v)). { intros u Hu. apply S1 in Hu. rewrite !E1 by auto. auto. }
  destruct (IH s1 (fun e' H => Hes e' (or_intror H)) I1 V1 M1 Hmax1) as (I2 & V2 & S2 & E2 & T2 & N2 & C2). set (s2 := fold_left (scan v) es s1) in *.
  split; [exact I2|]. split; [auto|]. split; [intros x; rewrite S1; auto|]. split; [intros x Hx; rewrite E2 by (apply S1; auto); auto|]. split; [congruence|]. split.
  - intros x Hx. destruct (N1 x Hx) as [A B]. destruct (N2 x A) as [A' B']. split; [auto|]. eapply le_trans; eauto.
  - intros x w [->|Hin].
    + destruct (C1 w eq_refl) as [A B]. cbn [fst] in *. destruct (N2 x A) as [A' B']. split; [auto|]. eapply le_trans; eauto.
    + rewrite <- (E1 v) by auto. apply (C2 x w Hin).
Qed.
Lemma inv_weaken s (ex ex' : nat -> Prop) : (forall x, ex' x <-> ex x) -> inv s ex -> inv s ex'.
Proof.
  intros E I. destruct I. constructor; auto.
  - intros x Hx. apply i_ex0, E. auto.
  - intros u x w Hu. apply i_close0, E. auto.
Qed.
Lemma inv_step s v s' : inv s (fun x => stat s x = SCANNED) -> heap s <> [] -> remove_min pick s = (v, s') ->
  let s2 := fold_left (scan v) (row g v) s' in
  inv s2 (fun x => stat s2 x = SCANNED) /\ trace s2 = v :: trace s.
Proof.
  intros I Hh E s2. destruct (inv_remove I Hh E) as (Nv & Sv & Tv & I1).
  assert (Hd : stat s' = upd (stat s) v SCANNED /\ val s' = val s). { unfold remove_min in E. injection E as E1 E2. subst. split; reflexivity. } destruct Hd as [Es Ev].
  assert (Hm : forall x, In x (heap s') -> wle (val s' v) (val s' x)) by (intros x Hx; apply (i_mono I1); auto).
  assert (Hin : In v (heap s)). { unfold remove_min in E. injection E as E1 _. rewrite <- E1. apply (heap_nonempty_pick s Hh). }
  assert (Hmax : forall u, stat s' u = SCANNED -> wle (val s' u) (val s' v)).
  { intros u Hu. rewrite Ev. destruct (Nat.eq_dec u v) as [->|N]; [apply le_refl|]. rewrite Es, upd_other in Hu by auto. apply (i_mono I); auto. }
  destruct (@scan_all v s' _ (row g v) (fun e H => H) I1 Sv Hm Hmax) as (I2 & V2 & S2 & E2 & T2 & N2 & C2). fold s2 in I2, V2, S2, E2, T2, N2, C2.
  split; [|congruence]. destruct I2. constructor; auto.
  intros u x w Hu He. apply S2 in Hu. rewrite (E2 u Hu). rewrite Es in Hu. destruct (Nat.eq_dec u v) as [->|N]; [apply C2; auto|].
  rewrite upd_other in Hu by auto. rewrite <- (E2 u) by (rewrite Es, upd_other; auto). apply i_close0; auto.
Qed.

(** the loop *)
Lemma trace_length s ex : inv s ex -> length (trace s) <= length g.
Proof.
  intros I. rewrite <- (seq_length (length g) 0). apply NoDup_incl_length; [apply (i_tnd I)|]. intros x Hx. apply in_seq. split; [lia|]. cbn. apply (i_range I). apply (i_trace I) in Hx. congruence.
Qed.
Lemma run_ok fuel target s : inv s (fun x => stat s x = SCANNED) -> stat s target <> SCANNED -> length g < fuel + length (trace s) ->
  exists s', (run wadd wltb pick fuel g target s = Some (true, s') /\ (exists ex, inv s' ex) /\ stat s' target = SCANNED) \/
             (run wadd wltb pick fuel g target s = Some (false, s') /\ inv s' (fun x => stat s' x = SCANNED) /\ heap s' = [] /\ stat s' target <> SCANNED).
Proof.
  revert s. induction fuel as [|fuel IH]; intros s I Ht Hl; [pose proof (trace_length I); lia|]. cbn [run]. destruct (heap s) as [|a h] eqn:Eh.
  { exists s. right. split; [auto|]. split; [exact I|]. split; auto. }
  assert (Hh : heap s <> []) by congruence. destruct (remove_min pick s) as [v s1] eqn:Er. destruct (inv_remove I Hh Er) as (Nv & Sv & Tv & I1).
  destruct (Nat.eqb_spec v target) as [->|N]; [exists s1; left; split; [auto|]; split; [eauto|auto]|].
  destruct (inv_step I Hh Er) as [I2 T2]. set (s2 := fold_left (scan v) (row g v) s1) in *. apply IH; auto.
  - intros Hs. apply (i_trace I2) in Hs. rewrite T2 in Hs. destruct Hs as [E|E]; [auto|]. apply (i_trace I) in E. auto.
  - rewrite T2. cbn [length]. lia.
Qed.
Lemma path_ok s ex : inv s ex -> forall fuel x l1 l2, trace s = l1 ++ x :: l2 -> length l2 <= fuel ->
  exists p, calculate_path fuel (pred s) source x = Some p /\ route p x (val s x).
Proof.
  intros I. induction fuel as [|fuel IH]; intros x l1 l2 E Hf; cbn [calculate_path]; (destruct (Nat.eqb_spec x source) as [->|N]; [exists [source]; split; [auto|]; rewrite (i_srcval I); constructor|]);
    destruct (i_order I x l1 l2 E N) as (u & Hu & Hin).
  - destruct l2; [destruct Hin|cbn in Hf; lia].
  - rewrite Hu. apply in_split in Hin. destruct Hin as (m1 & m2 & ->). rewrite app_length in Hf. cbn in Hf.
    destruct (IH u (l1 ++ x :: m1) m2) as (p & Hp & R); [rewrite E, <- app_assoc; reflexivity|lia|]. rewrite Hp. exists (x :: p). split; [reflexivity|].
    assert (Hx : stat s x = SCANNED) by (apply (i_trace I); rewrite E; apply in_or_app; right; left; auto).
    destruct (i_pred I x N ltac:(congruence)) as (u' & w & H1 & H2 & H3 & H4). assert (u' = u) by congruence. subst. rewrite H4. econstructor; eauto.
Qed.
Lemma unreachable s : inv s (fun x => stat s x = SCANNED) -> heap s = [] -> forall p x L, route p x L -> stat s x = SCANNED.
Proof.
  intros I Hh. assert (Hs : forall x, stat s x <> NOT_IN_HEAP -> stat s x = SCANNED). { intros x Hx. destruct (stat s x) eqn:E; [auto|congruence|]. exfalso. assert (In x (heap s)) by (apply (i_heap I); auto). rewrite Hh in H. destruct H. }
  induction 1 as [|p u L x w R IH E].
  - apply Hs. destruct (i_src I) as [H|[H _]]; [auto|congruence].
  - apply Hs. apply (i_close I u x w IH E).
Qed.
End Proofs.
