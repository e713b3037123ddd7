(** * Lexicographic sorting of tags; the n-th neighbors. *)
From Coq Require Import List Bool Arith ZArith Reals Lia Lra Psatz Sorting.Permutation Sorting.Sorted.
From Verif Require Import KpmReal KpmRealProofs CvpModel CvpSpec CvpProofs LllModel LllSpec LatticeModel LatticeSpec LatticeProofs LatticeProps NeighborsModel NeighborsSpec ShellProofs.
Import ListNotations.
Open Scope R_scope.

(** ** sorting *)
Lemma lex_total : forall s t, lex_leb s t = true \/ lex_leb t s = true.
Proof.
  induction s as [|x s IH]; destruct t as [|y t]; cbn; auto.
  destruct (Z.ltb_spec x y); cbn; auto. destruct (Z.ltb_spec y x); cbn; auto.
  assert (x = y) by lia. subst. rewrite Z.eqb_refl. cbn. apply IH.
Qed.
Lemma lex_trans : forall s t u, lex_leb s t = true -> lex_leb t u = true -> lex_leb s u = true.
Proof.
  induction s as [|x s IH]; destruct t as [|y t], u as [|z u]; cbn; auto; try discriminate.
  rewrite !orb_true_iff, !andb_true_iff, !Z.ltb_lt, !Z.eqb_eq. intros [H|[-> H]] [G|[-> G]]; auto; [left; lia|right; split; eauto].
Qed.
Lemma linsert_perm x l : Permutation (linsert x l) (x :: l).
Proof. induction l as [|y l IH]; cbn; auto. destruct (lex_leb x y); auto. rewrite IH. constructor. Qed.
Lemma lexsort_perm l : Permutation (lexsort l) l.
Proof. induction l as [|x l IH]; cbn; auto. rewrite linsert_perm. auto. Qed.
Lemma linsert_sorted x l : StronglySorted (fun s t => lex_leb s t = true) l -> StronglySorted (fun s t => lex_leb s t = true) (linsert x l).
Proof.
  induction 1 as [|y l S IH F]; cbn; [repeat constructor|]. destruct (lex_leb x y) eqn:E.
  - constructor; [constructor; auto|]. constructor; auto. eapply Forall_impl; [|exact F]. cbv beta. intros z Hz. eapply lex_trans; eauto.
  - constructor; auto. assert (Hy : lex_leb y x = true) by (destruct (lex_total x y); congruence).
    rewrite Forall_forall in *. intros z Hz. apply (Permutation_in z (linsert_perm x l)) in Hz. destruct Hz as [<-|Hz]; auto.
Qed.
Lemma lexsort_sorted l : StronglySorted (fun s t => lex_leb s t = true) (lexsort l).
Proof. induction l; cbn; [constructor|]. apply linsert_sorted; auto. Qed.
Lemma sorted_rev {A} (P : A -> A -> Prop) l : StronglySorted P l -> StronglySorted (fun x y => P y x) (rev l).
Proof.
  assert (G : forall l r, StronglySorted (fun x y => P y x) l -> StronglySorted (fun x y => P y x) r -> (forall x y, In x l -> In y r -> P y x) -> StronglySorted (fun x y => P y x) (l ++ r)).
  { intros l0 r H1 H2 H3. induction H1 as [|x l0 S IH F]; cbn; auto. constructor.
    - apply IH. intros; apply H3; cbn; auto.
    - apply Forall_app. split; auto. apply Forall_forall. intros y Hy. apply H3; cbn; auto. }
  induction 1 as [|x l S IH F]; cbn; [constructor|]. apply G; [auto|repeat constructor|]. intros y z Hy [<-|[]]. apply in_rev in Hy. rewrite Forall_forall in F. auto.
Qed.
Lemma rinsert_perm x l : Permutation (rinsert x l) (x :: l).
Proof. induction l as [|y l IH]; cbn; auto. destruct (Rle_dec x y); auto. rewrite IH. constructor. Qed.
Lemma rsort_perm l : Permutation (rsort l) l.
Proof. induction l as [|x l IH]; cbn; auto. rewrite rinsert_perm. auto. Qed.
Lemma rsort_sorted l : StronglySorted Rle (rsort l).
Proof.
  assert (G : forall x l, StronglySorted Rle l -> StronglySorted Rle (rinsert x l)).
  { intros x l0. induction 1 as [|y l0 S IH F]; cbn; [repeat constructor|]. destruct (Rle_dec x y) as [E|E].
    - constructor; [constructor; auto|]. constructor; auto. eapply Forall_impl; [|exact F]. cbv beta. intros; lra.
    - constructor; auto. rewrite Forall_forall in *. intros z Hz. apply (Permutation_in z (rinsert_perm x l0)) in Hz. destruct Hz as [<-|Hz]; [lra|auto]. }
  induction l; cbn; [constructor|]. apply G; auto.
Qed.

(** ** signs *)
Fixpoint posb (t : point) : bool := match t with [] => false | x :: t => (0 <? x)%Z || ((x =? 0)%Z && posb t) end.
Lemma posb_spec t : posb t = true <-> positive t.
Proof.
  induction t as [|x t IH]; cbn.
  - split; [discriminate|]. intros (k & _ & H). destruct k; cbn in H; lia.
  - rewrite orb_true_iff, andb_true_iff, Z.ltb_lt, Z.eqb_eq, IH. split.
    + intros [H|[-> (k & H1 & H2)]]; [exists 0%nat; split; [intros; lia|exact H]|]. exists (S k). split; auto. intros [|i] Hi; cbn; auto. apply H1. lia.
    + intros (k & H1 & H2). destruct k as [|k]; [left; exact H2|]. right. split; [apply (H1 0%nat); lia|]. exists k. split; auto. intros i Hi. apply (H1 (S i)). lia.
Qed.
Lemma posb_opp t : (exists k, nth k t 0%Z <> 0%Z) -> posb (map Z.opp t) = negb (posb t).
Proof.
  induction t as [|x t IH]; intros (k & Hk); [destruct k; cbn in Hk; congruence|]. cbn [map posb].
  destruct (Z.lt_trichotomy x 0) as [H|[->|H]].
  - rewrite (proj2 (Z.ltb_lt 0 (- x))), (proj2 (Z.ltb_ge 0 x)), (proj2 (Z.eqb_neq x 0)) by lia. reflexivity.
  - cbn. apply IH. destruct k as [|k]; [cbn in Hk; congruence|]. exists k. exact Hk.
  - rewrite (proj2 (Z.ltb_lt 0 x)), (proj2 (Z.ltb_ge 0 (- x))), (proj2 (Z.eqb_neq (- x) 0)) by lia. reflexivity.
Qed.
Lemma posb_lex s t : length s = length t -> posb s = true -> posb t = false -> lex_leb s t = false.
Proof.
  revert t. induction s as [|x s IH]; intros t E H1 H2; [discriminate|]. destruct t as [|y t]; [discriminate|]. cbn in *.
  destruct (Z.ltb_spec 0 y); [discriminate|]. destruct (Z.ltb_spec x y); cbn.
  - exfalso. destruct (Z.ltb_spec 0 x); [lia|]. destruct (Z.eqb_spec x 0); [lia|discriminate].
  - destruct (Z.eqb_spec x y) as [->|]; cbn; auto. assert (y = 0%Z) by (destruct (Z.ltb_spec 0 y); [lia|]; destruct (Z.eqb_spec y 0); [auto|discriminate]). subst. cbn in *. apply IH; auto.
Qed.
Lemma lex_larger_spec : forall s t, length s = length t -> lex_leb t s = true -> s <> t -> lex_larger s t.
Proof.
  induction s as [|x s IH]; intros [|y t] E H N; try discriminate; [congruence|]. cbn in H. apply orb_true_iff in H. destruct H as [H|H].
  - apply Z.ltb_lt in H. exists 0%nat. split; [intros; lia|exact H].
  - apply andb_true_iff in H. destruct H as [H1 H2]. apply Z.eqb_eq in H1. subst y.
    destruct (IH t) as (k & K1 & K2); auto; [congruence|]. exists (S k). split; [|exact K2]. intros [|i] Hi; cbn; auto. apply K1. lia.
Qed.
Lemma sorted_filter {A} (P : A -> A -> Prop) f l : StronglySorted P l -> StronglySorted P (filter f l).
Proof. induction 1 as [|x l S IH F]; cbn; [constructor|]. destruct (f x); auto. constructor; auto. apply Forall_forall. intros y Hy. apply filter_In in Hy. rewrite Forall_forall in F. apply F. tauto. Qed.

(** the first half of a symmetric sorted list *)
Lemma first_half m L : StronglySorted (fun s t => lex_leb t s = true) L -> NoDup L -> (forall t, In t L -> length t = m) ->
  (forall t, In t L -> In (map Z.opp t) L) -> (forall t, In t L -> exists k, nth k t 0%Z <> 0%Z) ->
  firstn (length L / 2) L = filter posb L.
Proof.
  intros S ND Ln Cl Nz.
  assert (Split : L = filter posb L ++ filter (fun t => negb (posb t)) L).
  { clear - S Ln. induction S as [|x l S IH F]; [reflexivity|]. cbn. destruct (posb x) eqn:Ex; cbn.
    - rewrite <- IH; auto. intros; apply Ln; cbn; auto.
    - assert (Z : filter posb l = []).
      { rewrite Forall_forall in F. assert (Q : forall y, In y l -> posb y = false).
        { intros y Hy. destruct (posb y) eqn:Ey; auto. specialize (F y Hy). rewrite (posb_lex y x) in F; [discriminate| |auto|auto]. rewrite !Ln; cbn; auto. }
        clear - Q. induction l as [|y l IH]; cbn; auto. rewrite Q by (cbn; auto). apply IH. intros; apply Q; cbn; auto. }
      rewrite Z in IH |- *. cbn in *. rewrite <- IH; auto. }
  assert (Inj : forall l, NoDup l -> NoDup (map (map Z.opp) l)).
  { intros l Hl. apply FinFun.Injective_map_NoDup; auto. intros a b E. rewrite <- (map_id a), <- (map_id b). 
    assert (Q : forall l : point, map (fun z => z) l = map Z.opp (map Z.opp l)) by (intros l0; rewrite map_map; apply map_ext; intros; lia). rewrite !Q, E. reflexivity. }
  assert (Q1 : (length (filter posb L) <= length (filter (fun t => negb (posb t)) L))%nat).
  { rewrite <- (@map_length point point (map Z.opp) (filter posb L)). apply NoDup_incl_length; [apply Inj, NoDup_filter; auto|]. intros t Ht. apply in_map_iff in Ht. destruct Ht as (s & <- & Hs). apply filter_In in Hs. destruct Hs as [Hs Ps].
    apply filter_In. split; auto. rewrite posb_opp, Ps by auto. reflexivity. }
  assert (Q2 : (length (filter (fun t => negb (posb t)) L) <= length (filter posb L))%nat).
  { rewrite <- (@map_length point point (map Z.opp) (filter (fun t => negb (posb t)) L)). apply NoDup_incl_length; [apply Inj, NoDup_filter; auto|]. intros t Ht. apply in_map_iff in Ht. destruct Ht as (s & <- & Hs). apply filter_In in Hs. destruct Hs as [Hs Ps].
    apply filter_In. split; auto. rewrite posb_opp by auto. exact Ps. }
  assert (EL : length L = (length (filter posb L) * 2)%nat) by (rewrite Split at 1; rewrite app_length; lia).
  rewrite EL, Nat.div_mul by lia. rewrite Split at 2. rewrite firstn_app, Nat.sub_diag, firstn_all. cbn. apply app_nil_r.
Qed.
