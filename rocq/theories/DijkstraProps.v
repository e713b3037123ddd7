(** * C64: dijkstra_directed finds shortest paths. *)
From Coq Require Import List Bool Arith Lia.
From Verif Require Import DijkstraModel DijkstraSpec DijkstraProofs.
Import ListNotations.
Set Implicit Arguments.

Section Props.
Variable W : Type.
Variable w0 : W.
Variable wadd : W -> W -> W.
Variable wltb : W -> W -> bool.
Variable pick : list nat -> (nat -> W) -> list nat -> nat.
Hypothesis HO : ordered_weights wadd wltb.
Hypothesis HP : min_oracle wltb pick.

Lemma scanned_initial x : stat (initial w0 x) = fun _ => NOT_IN_HEAP. Proof. reflexivity. Qed.
Lemma inv0 g source : source < length g -> inv w0 wadd wltb g source (initial w0 source) (fun x => stat (initial w0 source) x = SCANNED).
Proof. intros H. apply (inv_weaken (ex := fun _ => False)); [intros x; cbn; split; [discriminate|contradiction]|]. apply inv_initial; auto. Qed.

(** The path is a shortest one, whichever node of smallest value is removed from
    the heap; no path is found iff there is none; the algorithm terminates. *)
Theorem C64_shortest_path g source target : good_graph wadd wltb g -> source < length g ->
  (exists p L, dijkstra w0 wadd wltb pick g source target = Found p L /\ shortest w0 wadd wltb g source target p L) \/
  (dijkstra w0 wadd wltb pick g source target = Unreachable _ /\ ~ reachable w0 wadd g source target).
Proof.
  intros HG Hs. unfold dijkstra. destruct (@run_ok W w0 wadd wltb pick HO HP g HG source Hs (S (length g)) target (initial w0 source)) as [s' [(Er & (ex & I) & Ht)|(Er & I & Hh & Ht)]]; [apply inv0; auto|discriminate|cbn; lia| |].
  - rewrite Er. left. pose proof Ht as Hin. apply (i_trace I) in Hin. apply in_split in Hin. destruct Hin as (l1 & l2 & E).
    destruct (@path_ok _ _ _ _ _ _ Hs _ _ I (length g) _ l1 l2 E) as (p & Hp & R).
    { pose proof (trace_length Hs I) as Hl. rewrite E, app_length in Hl. cbn in Hl. lia. }
    rewrite Hp. exists p, (val s' target). split; [auto|]. split; [auto|]. intros p' L'. apply (i_dist I); auto.
  - rewrite Er. right. split; [auto|]. intros (p & L & R). apply Ht. eapply unreachable; eauto.
Qed.
(** The lengths alone; they are unique.  (For unreachable targets, 0 is
    returned.) *)
Theorem C64_path_length g source target : good_graph wadd wltb g -> source < length g ->
  (forall p L, shortest w0 wadd wltb g source target p L -> path_length w0 wadd wltb pick g source target = Some L) /\
  (~ reachable w0 wadd g source target -> path_length w0 wadd wltb pick g source target = Some w0).
Proof.
  intros HG Hs. unfold path_length. destruct (@run_ok W w0 wadd wltb pick HO HP g HG source Hs (S (length g)) target (initial w0 source)) as [s' [(Er & (ex & I) & Ht)|(Er & I & Hh & Ht)]]; [apply inv0; auto|discriminate|cbn; lia| |]; rewrite Er.
  - pose proof Ht as Hin. apply (i_trace I) in Hin. apply in_split in Hin. destruct Hin as (l1 & l2 & E). destruct (@path_ok _ _ _ _ _ _ Hs _ _ I (length g) _ l1 l2 E) as (p & Hp & R).
    { pose proof (trace_length Hs I) as Hl. rewrite E, app_length in Hl. cbn in Hl. lia. }
    split; [|intros H; destruct H; exists p, (val s' target); auto]. intros p' L [R' Hm]. f_equal. apply (wle_antisym HO); [eapply (i_dist I); eauto|eapply Hm; eauto].
  - split; [|auto]. intros p L [R _]. exfalso. apply Ht. eapply unreachable; eauto.
Qed.
(** The predecessors are a tree of shortest paths to all reachable nodes. *)
Theorem C64_predecessors g root : good_graph wadd wltb g -> root < length g -> exists pred,
  predecessors w0 wadd wltb pick g root = Some pred /\ pred root = None /\
  (forall x, ~ reachable w0 wadd g root x -> pred x = None) /\
  (forall x u, pred x = Some u -> reachable w0 wadd g root x /\ reachable w0 wadd g root u /\ exists w, In (x, Some w) (row g u)) /\
  (forall x, reachable w0 wadd g root x -> exists p L, calculate_path (length g) pred root x = Some p /\ shortest w0 wadd wltb g root x p L).
Proof.
  intros HG Hs. unfold predecessors. destruct (@run_ok W w0 wadd wltb pick HO HP g HG root Hs (S (length g)) (length g + 1) (initial w0 root)) as [s' [(Er & (ex & I) & Ht)|(Er & I & Hh & Ht)]]; [apply inv0; auto|discriminate|cbn; lia| |].
  { exfalso. pose proof (i_range I (length g + 1)). rewrite Ht in H. specialize (H ltac:(discriminate)). lia. }
  rewrite Er. exists (pred s'). split; [auto|]. split; [apply (i_srcpred I)|].
  assert (P : forall x, stat s' x = SCANNED -> exists p, calculate_path (length g) (pred s') root x = Some p /\ route w0 wadd g root p x (val s' x)).
  { intros x Hx. apply (i_trace I) in Hx. apply in_split in Hx. destruct Hx as (l1 & l2 & E). apply (@path_ok _ _ _ _ _ _ Hs _ _ I (length g) _ l1 l2 E). pose proof (trace_length Hs I) as Hl. rewrite E, app_length in Hl. cbn in Hl. lia. }
  split; [|split].
  - intros x Hx. apply (i_pred0 I). destruct (stat s' x) eqn:E; [|auto|].
    + exfalso. apply Hx. destruct (P x E) as (p & _ & R). exists p, (val s' x). auto.
    + exfalso. assert (H : In x (heap s')) by (apply (i_heap I); auto). rewrite Hh in H. destruct H.
  - intros x u Hu. assert (Hx : x <> root) by (intros ->; rewrite (i_srcpred I) in Hu; discriminate).
    assert (Hn : stat s' x <> NOT_IN_HEAP) by (intros H; apply (i_pred0 I) in H; congruence).
    destruct (i_pred I Hx Hn) as (u' & w & Hu' & Hs' & Hin & _). rewrite Hu in Hu'. injection Hu' as <-.
    destruct (P u Hs') as (p & _ & R). split; [|split; [exists p, (val s' u); auto|exists w; auto]].
    exists (x :: p), (wadd (val s' u) w). econstructor; eauto.
  - intros x (p & L & R). assert (Hx : stat s' x = SCANNED) by (eapply unreachable; eauto). destruct (P x Hx) as (p' & Hp' & R'). exists p', (val s' x). split; [auto|]. split; [auto|]. intros p2 L2. apply (i_dist I); auto.
Qed.
End Props.

(** ** Natural numbers as weights, and the first node of smallest value *)
Definition nat_pick (_ : list nat) (val : nat -> nat) (h : list nat) : nat :=
  fold_left (fun b x => if val x <? val b then x else b) (tl h) (hd 0 h).
Lemma nat_ordered : ordered_weights Nat.add Nat.ltb.
Proof.
  constructor; unfold wle; intros *; repeat rewrite Nat.ltb_ge; try lia.
Qed.
Lemma nat_pick_min : min_oracle Nat.ltb nat_pick.
Proof.
  intros tr val h Hh. destruct h as [|a h]; [congruence|]. unfold nat_pick. cbn [tl hd].
  assert (H : forall l b, In (fold_left (fun b x => if val x <? val b then x else b) l b) (b :: l) /\ forall x, In x (b :: l) -> wle Nat.ltb (val (fold_left (fun b x => if val x <? val b then x else b) l b)) (val x)).
  { induction l as [|c l IH]; intros b; cbn [fold_left]; [split; [left; auto|intros x [->|[]]; apply Nat.ltb_irrefl]|].
    destruct (val c <? val b) eqn:E.
    - destruct (IH c) as [H1 H2]. split; [right; auto|]. intros x [->|Hx]; [|apply H2; auto]. apply Nat.ltb_lt in E. pose proof (H2 c (or_introl eq_refl)) as H3. unfold wle in *. rewrite Nat.ltb_ge in *. lia.
    - destruct (IH b) as [H1 H2]. split; [destruct H1; [left; auto|right; right; auto]|]. intros x [->|[->|Hx]]; [apply H2; left; auto| |apply H2; right; auto].
      pose proof (H2 b (or_introl eq_refl)) as H3. unfold wle in *. rewrite Nat.ltb_ge in *. lia. }
  apply H.
Qed.
Definition ex_g : csr nat := [[(1, Some 7); (2, Some 1)]; [(0, Some 7); (3, Some 1)]; [(0, Some 1); (1, Some 3); (3, None)]; [(1, Some 1)]; []].
Lemma ex_good : good_graph Nat.add Nat.ltb ex_g.
Proof.
  intros i j w H. split; [|intros a; unfold wle; apply Nat.ltb_ge; lia]. do 5 (destruct i as [|i]; [cbn in H; repeat (destruct H as [[= <- <-]|H] || destruct H as [[=]|H]); try contradiction; cbn; lia|]). destruct i; contradiction.
Qed.
Example C64_example : dijkstra 0 Nat.add Nat.ltb nat_pick ex_g 0 3 = Found [3; 1; 2; 0] 5 /\ dijkstra 0 Nat.add Nat.ltb nat_pick ex_g 0 4 = Unreachable _.
Proof. split; reflexivity. Qed.
