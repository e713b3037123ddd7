(** * The forest of shortest paths. *)
From Coq Require Import Reals List Bool Arith Lia Lra Permutation.
From Verif Require Import StarRing DiscretizeReal DijkstraModel DijkstraSpec DijkstraProofs DijkstraProps GaugeModel GaugeSpec GaugeProofs.
Import ListNotations.
Set Implicit Arguments.
Local Open Scope R_scope.

(** Connected nodes *)
Inductive conn (S : nat -> nat -> Prop) (i : nat) : nat -> Prop :=
| conn_refl : conn S i i
| conn_step j k : conn S i j -> S j k -> conn S i k.
Lemma conn_trans (S : nat -> nat -> Prop) i j k : conn S i j -> conn S j k -> conn S i k.
Proof. intros H. induction 1; [auto|econstructor; eauto]. Qed.
Lemma conn_sym (S : nat -> nat -> Prop) i j : (forall x y, S x y -> S y x) -> conn S i j -> conn S j i.
Proof. intros Hs. induction 1 as [|j k H IH E]; [constructor|]. eapply conn_trans; [|exact IH]. econstructor; [constructor|auto]. Qed.
Lemma conn_mono (S S' : nat -> nat -> Prop) i j : (forall x y, S x y -> S' x y) -> conn S i j -> conn S' i j.
Proof. intros Hs. induction 1; [constructor|econstructor; eauto]. Qed.
Lemma reachable_conn g i j : reachable 0 Rplus g i j <-> conn (links g) i j.
Proof.
  split.
  - intros (p & L & R). induction R as [|p u L x w R IH E]; [constructor|]. econstructor; [exact IH|]. exists w. auto.
  - induction 1 as [|j k H IH [w E]]; [exists [i], 0; constructor|]. destruct IH as (p & L & R). exists (k :: p), (L + w). econstructor; eauto.
Qed.
Lemma calc_mono pred s fuel fuel' x p : (fuel <= fuel')%nat -> calculate_path fuel pred s x = Some p -> calculate_path fuel' pred s x = Some p.
Proof.
  revert fuel' x p. induction fuel as [|fuel IH]; intros fuel' x p Hf; destruct fuel' as [|fuel']; cbn; try lia; auto.
  - destruct (x =? s)%nat; [auto|discriminate].
  - destruct (x =? s)%nat; [auto|]. destruct (pred x) as [u|]; [|discriminate]. destruct (calculate_path fuel pred s u) as [q|] eqn:E; [|discriminate]. rewrite (IH fuel' u q) by (auto; lia). auto.
Qed.

Section Forest.
Variable pick : list nat -> (nat -> R) -> list nat -> nat.
Variable pop : list nat -> nat.
Hypothesis HP : min_oracle rltb pick.
Hypothesis Hpop : pop_ok pop.
Variable g : graph.
Hypothesis Hf : full g.
Let n := length g.

Lemma visit_ok pred : forall l tree unv, NoDup l -> sub_of tree g -> (forall i p, In i l -> pred i = Some p -> In i unv /\ edge g i p) ->
  exists tree' unv', fold_left (visit g pred) l (Some (tree, unv)) = Some (tree', unv') /\ sub_of tree' g /\
    (forall x y, links tree' x y <-> links tree x y \/ (In x l /\ pred x = Some y) \/ (In y l /\ pred y = Some x)) /\
    (forall x, In x unv' <-> In x unv /\ ~ (In x l /\ pred x <> None)) /\ (length unv' <= length unv)%nat.
Proof.
  induction l as [|i l IH]; intros tree unv Hn Hs Hp; cbn [fold_left].
  - exists tree, unv. split; [auto|]. split; [auto|]. split; [intros; cbn; tauto|]. split; [intros; cbn; tauto|auto].
  - inversion Hn as [|? ? Hi Hn']; subst. cbn [visit obind]. destruct (pred i) as [p|] eqn:Ep.
    + destruct (Hp i p (or_introl eq_refl) Ep) as [Hu He]. rewrite (proj2 (existsb_exists _ _)) by (exists i; split; [auto|apply Nat.eqb_refl]).
      destruct (assign_both_ok i p Hf Hs He) as (t1 & E1 & S1 & L1). rewrite E1. cbn [option_map].
      destruct (IH t1 (remove Nat.eq_dec i unv) Hn' S1) as (t2 & u2 & E2 & S2 & L2 & U2 & N2).
      { intros j q Hj Hq. destruct (Hp j q (or_intror Hj) Hq) as [A B]. split; [|auto]. apply remove_in. split; [auto|]. intros ->. auto. }
      exists t2, u2. split; [auto|]. split; [auto|]. split; [|split].
      * intros x y. rewrite L2, L1. split.
        -- intros [[H|[[-> ->]|[-> ->]]]|[[H1 H2]|[H1 H2]]]; auto; [right; left; split; [left|]; auto|right; right; split; [left|]; auto|right; left; split; [right|]; auto|right; right; split; [right|]; auto].
        -- intros [H|[[[<-|H1] H2]|[[<-|H1] H2]]]; auto; [left; right; left; split; congruence|left; right; right; split; congruence].
      * intros x. rewrite U2, remove_in. split.
        -- intros [[H1 H2] H3]. split; [auto|]. intros [[->|H4] H5]; auto.
        -- intros [H1 H2]. split; [split; [auto|]|]. { intros ->. apply H2. split; [left; auto|congruence]. } intros [H3 H4]. apply H2. split; [right; auto|auto].
      * pose proof (remove_length_le Nat.eq_dec unv i). lia.
    + destruct (IH tree unv Hn' Hs) as (t2 & u2 & E2 & S2 & L2 & U2 & N2). { intros j q Hj. apply Hp. right. auto. }
      exists t2, u2. split; [auto|]. split; [auto|]. split; [|split].
      * intros x y. rewrite L2. split.
        -- intros [H|[[H1 H2]|[H1 H2]]]; auto; [right; left; split; [right|]; auto|right; right; split; [right|]; auto].
        -- intros [H|[[[<-|H1] H2]|[[<-|H1] H2]]]; auto; congruence.
      * intros x. rewrite U2. split; intros [H1 H2]; (split; [auto|]); intros [H3 H4]; apply H2; [destruct H3 as [->|H3]; [congruence|auto]|split; [right; auto|auto]].
      * auto.
Qed.

(** Invariant of the loop *)
Record finv (tree : graph) (unv : list nat) : Prop := {
  v_sub : sub_of tree g;
  v_range : forall x, In x unv -> (x < n)%nat;
  v_sym : forall x y, links tree x y -> links tree y x;
  v_out : forall x y, links tree x y -> ~ In x unv;
  v_closed : forall x y, edge g x y -> In x unv -> In y unv;
  v_conn : forall x y, edge g x y -> ~ In x unv -> conn (links tree) x y;
  v_pot : forall a : nat -> nat -> R, (forall x y, a y x = - a x y) -> exists pot, forall x y, links tree x y -> a x y + pot y - pot x = 0 }.

Fixpoint psum (a : nat -> nat -> R) (q : list nat) : R :=
  match q with x :: ((u :: _) as rest) => psum a rest - a u x | _ => 0 end.
Lemma calc_hd pred s fuel x q : calculate_path fuel pred s x = Some q -> exists l, q = x :: l.
Proof.
  destruct fuel; cbn; destruct (Nat.eqb_spec x s) as [->|]; try (intros [= <-]; eauto; fail); try discriminate.
  destruct (pred x) as [u|]; [|discriminate]. destruct (calculate_path fuel pred s u); [|discriminate]. intros [= <-]. eauto.
Qed.
Lemma calc_conn pred s fuel x q (S : nat -> nat -> Prop) : (forall x u, pred x = Some u -> S u x) -> calculate_path fuel pred s x = Some q -> conn S s x.
Proof.
  intros H. revert x q. induction fuel as [|fuel IH]; intros x q; cbn; destruct (Nat.eqb_spec x s) as [->|]; try (intros; constructor; fail); try discriminate.
  destruct (pred x) as [u|] eqn:E; [|discriminate]. destruct (calculate_path fuel pred s u) as [q'|] eqn:E'; [|discriminate]. intros _. apply (@conn_step S s u x); [eapply IH; eauto|auto].
Qed.
Lemma calc_pred pred s fuel x q : calculate_path fuel pred s x = Some q -> x = s \/ pred x <> None.
Proof.
  destruct fuel; cbn; destruct (Nat.eqb_spec x s) as [->|]; auto; try discriminate. destruct (pred x); [right|]; congruence.
Qed.
Lemma calc_step pred s fuel x u q q' : x <> s -> pred x = Some u -> calculate_path fuel pred s u = Some q -> calculate_path fuel pred s x = Some q' -> q' = x :: q.
Proof.
  intros Hx Hp Hu. destruct fuel as [|fuel]; cbn -[Nat.eqb] in *.
  - destruct (Nat.eqb_spec x s); [congruence|discriminate].
  - rewrite (proj2 (Nat.eqb_neq x s) Hx), Hp. destruct (calculate_path fuel pred s u) as [q2|] eqn:E; [|discriminate].
    apply (@calc_mono _ _ fuel (S fuel)) in E; [|lia]. cbn [calculate_path] in E. rewrite Hu in E. injection E as <-. cbn. congruence.
Qed.

Lemma forest_step tree unv : finv tree unv -> unv <> [] -> exists pred tree' unv',
  predecessors 0 Rplus rltb pick g (pop unv) = Some pred /\
  fold_left (visit g pred) (seq 0 (length g)) (Some (tree, remove Nat.eq_dec (pop unv) unv)) = Some (tree', unv') /\
  finv tree' unv' /\ (length unv' < length unv)%nat.
Proof.
  intros I Hu. set (root := pop unv). assert (Hr : In root unv) by (apply Hpop; auto).
  destruct (@C64_predecessors R 0 Rplus rltb pick rweights HP g root (full_good Hf)) as (pred & E & P0 & P1 & P3 & P2); [apply (v_range I); auto|].
  assert (Hcu : forall x, reachable 0 Rplus g root x -> In x unv).
  { intros x Hx. apply reachable_conn in Hx. induction Hx as [|j k H IH L]; [auto|]. apply (v_closed I j); [|auto]. apply full_links in L; auto. }
  assert (Hed : forall x u, pred x = Some u -> edge g u x).
  { intros x u H. destruct (P3 x u H) as (_ & _ & w & Hw). unfold edge. apply in_map_iff. exists (x, Some w). auto. }
  assert (Hstep : forall x y, edge g x y -> reachable 0 Rplus g root x -> reachable 0 Rplus g root y).
  { intros x y H. rewrite !reachable_conn. intros H1. econstructor; [exact H1|]. apply full_links; auto. }
  assert (Hcalc : forall x, reachable 0 Rplus g root x -> exists q, calculate_path n pred root x = Some q).
  { intros x H. destruct (P2 x H) as (q & L & H1 & _). eauto. }
  assert (Hreach : forall x, reachable 0 Rplus g root x <-> x = root \/ pred x <> None).
  { intros x. split.
    - intros H. destruct (Hcalc x H) as [q Hq]. eapply calc_pred; eauto.
    - intros [->|H]; [apply reachable_conn; constructor|]. destruct (pred x) as [u|] eqn:Ex; [|congruence]. apply (P3 x u Ex). }
  destruct (@visit_ok pred (seq 0 (length g)) tree (remove Nat.eq_dec root unv) (seq_NoDup _ _) (v_sub I)) as (t & u & Ev & St & Lt & Ut & Nt).
  { intros i p _ Hp. split; [|apply (f_sym Hf), Hed, Hp]. apply in_in_remove; [congruence|apply Hcu; apply (P3 i p Hp)]. }
  assert (Hin : forall x p, pred x = Some p -> In x (seq 0 (length g))).
  { intros x p Hp. apply in_seq. split; [lia|]. apply (v_range I), Hcu, (P3 x p Hp). }
  assert (Lt' : forall x y, links t x y <-> links tree x y \/ pred x = Some y \/ pred y = Some x).
  { intros x y. rewrite Lt. split; [tauto|]. intros [H|[H|H]]; eauto. }
  assert (Ut' : forall x, In x u <-> In x unv /\ ~ reachable 0 Rplus g root x).
  { intros x. rewrite Ut, Hreach. split.
    - intros [H1 H2]. apply in_remove in H1. destruct H1 as [H1 H3]. split; [auto|]. intros [H|H]; [auto|]. apply H2. split; [|auto]. destruct (pred x) eqn:Ex; [eauto|congruence].
    - intros [H1 H2]. split; [apply in_in_remove; auto|]. intros [_ H]. apply H2. auto. }
  exists pred, t, u. split; [auto|]. split; [auto|]. split.
  - constructor.
    + auto.
    + intros x Hx. apply (v_range I). apply Ut' in Hx. apply Hx.
    + intros x y. rewrite !Lt'. intros [H|[H|H]]; auto. left. apply (v_sym I); auto.
    + intros x y. rewrite Lt', Ut'. intros [H|[H|H]] [H1 H2]; [apply (v_out I H H1)|apply H2; apply (P3 x y H)|apply H2; apply (P3 y x H)].
    + intros x y He. rewrite !Ut'. intros [H1 H2]. split; [apply (v_closed I x y); auto|]. intros H. apply H2. apply (Hstep y x); [apply (f_sym Hf); auto|auto].
    + intros x y He Hx. destruct (in_dec Nat.eq_dec x unv) as [Hxu|Hxu].
      * assert (Hd : x = root \/ pred x <> None).
        { destruct (Nat.eq_dec x root); [auto|]. destruct (pred x) as [p|] eqn:Ex; [right; congruence|]. exfalso. apply Hx. apply Ut'. split; [auto|]. rewrite Hreach. intros [H|H]; congruence. }
        assert (Rx : reachable 0 Rplus g root x) by (apply Hreach; auto).
        destruct (Hcalc x Rx) as [qx Ex]. destruct (Hcalc y (Hstep x y He Rx)) as [qy Ey].
        assert (Hl : forall a b, pred a = Some b -> links t b a) by (intros a b H; apply Lt'; auto).
        apply (@calc_conn _ _ _ _ _ (links t) Hl) in Ex, Ey. eapply conn_trans; [|exact Ey]. apply conn_sym; [|exact Ex].
        intros a b. rewrite !Lt'. intros [H|[H|H]]; auto. left. apply (v_sym I); auto.
      * apply (@conn_mono (links tree)); [intros a b H; apply Lt'; auto|]. apply (v_conn I); auto.
    + intros a Ha. destruct (v_pot I a Ha) as [pot Hpot].
      exists (fun x => match calculate_path n pred root x with Some q => psum a q | None => pot x end).
      assert (Hnew : forall x p, pred x = Some p -> exists q l, calculate_path n pred root p = Some q /\ q = p :: l /\ calculate_path n pred root x = Some (x :: q)).
      { intros x p Hp. destruct (P3 x p Hp) as (Rx & Rp & _). destruct (Hcalc x Rx) as [qx Ex]. destruct (Hcalc p Rp) as [qp Ep]. destruct (calc_hd _ _ _ _ Ep) as [l ->].
        exists (p :: l), l. split; [auto|]. split; [auto|]. rewrite Ex. f_equal. refine (@calc_step _ _ _ _ _ _ _ _ Hp Ep Ex). intros Hxr. rewrite Hxr in Hp. congruence. }
      assert (Hold : forall x, ~ In x unv -> calculate_path n pred root x = None).
      { intros x Hx. destruct (calculate_path n pred root x) as [q|] eqn:Ex; [|auto]. exfalso. apply Hx, Hcu, Hreach. eapply calc_pred; eauto. }
      intros x y. rewrite Lt'. intros [H|[H|H]].
      * rewrite (Hold x), (Hold y); [apply Hpot; auto|apply (v_out I (v_sym I H))|apply (v_out I H)].
      * destruct (Hnew x y H) as (q & l & E1 & -> & E2). rewrite E1, E2. cbn [psum]. rewrite (Ha x y). cbn [psum]. lra.
      * destruct (Hnew y x H) as (q & l & E1 & -> & E2). rewrite E1, E2. cbn [psum]. lra.
  - pose proof (remove_length_lt Nat.eq_dec unv root Hr). lia.
Qed.
Lemma forest_loop_ok fuel : forall tree unv, finv tree unv -> (length unv <= fuel)%nat -> exists t, forest_loop pick pop fuel g tree unv = Some t /\ finv t [].
Proof.
  induction fuel as [|fuel IH]; intros tree unv I Hl.
  - destruct unv; [|cbn in Hl; lia]. exists tree. split; [reflexivity|auto].
  - destruct unv as [|x unv]; [exists tree; split; [reflexivity|auto]|].
    destruct (forest_step I) as (pred & t & u & E1 & E2 & I' & Hlt); [discriminate|].
    cbn [forest_loop]. rewrite E1. cbn [obind]. rewrite E2. cbn [obind]. apply IH; [auto|]. lia.
Qed.
Lemma forest_ok : exists t, shortest_distance_forest pick pop g = Some t /\ finv t [].
Proof.
  unfold shortest_distance_forest. apply forest_loop_ok; [|rewrite seq_length; auto]. destruct (empty_ok g) as [H1 H2]. constructor; auto.
  - intros x Hx. apply in_seq in Hx. unfold n. lia.
  - intros x y H. destruct (H2 _ _ H).
  - intros x y H. destruct (H2 _ _ H).
  - intros x y He _. apply in_seq. pose proof (f_range Hf _ _ He). lia.
  - intros x y He Hx. exfalso. apply Hx. apply in_seq. pose proof (f_range Hf _ _ (f_sym Hf _ _ He)). lia.
  - intros a Ha. exists (fun _ => 0). intros x y H. destruct (H2 _ _ H).
Qed.
End Forest.
