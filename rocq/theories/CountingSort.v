(** * Buckets, offsets and positions: the mathematics of counting sort. *)
From Coq Require Import List Bool Arith Lia.
Import ListNotations.
Set Implicit Arguments.

Section CS.
Variable A : Type.
Variable key : A -> option nat.

Definition keyb (t : nat) (a : A) : bool :=
  match key a with Some u => u =? t | None => false end.
Definition bucket (t : nat) (E : list A) : list A := filter (keyb t) E.
Definition cnt (t : nat) (E : list A) : nat := length (bucket t E).
Fixpoint off (t : nat) (E : list A) : nat :=
  match t with O => 0 | S t => off t E + cnt t E end.
Definition lay (m : nat) (E : list A) : list A := flat_map (fun t => bucket t E) (seq 0 m).
(** position of the k-th element (when it has key [t]) *)
Definition posn (E : list A) (t k : nat) : nat := off t E + cnt t (firstn k E).

Lemma bucket_app t E E' : bucket t (E ++ E') = bucket t E ++ bucket t E'.
Proof. apply filter_app. Qed.
Lemma cnt_app t E E' : cnt t (E ++ E') = cnt t E + cnt t E'.
Proof. unfold cnt. rewrite bucket_app, app_length. reflexivity. Qed.
Lemma cnt_one t a : cnt t [a] = if keyb t a then 1 else 0.
Proof. unfold cnt, bucket. cbn. destruct (keyb t a); reflexivity. Qed.
Lemma keyb_eq t a : keyb t a = true <-> key a = Some t.
Proof.
  unfold keyb. destruct (key a); [|split; discriminate].
  rewrite Nat.eqb_eq. split; congruence.
Qed.

Lemma off_mono t u E : t <= u -> off t E <= off u E.
Proof. induction 1; cbn; lia. Qed.

Lemma lay_S m E : lay (S m) E = lay m E ++ bucket m E.
Proof. unfold lay. rewrite seq_S, flat_map_app. cbn. rewrite app_nil_r. reflexivity. Qed.
Lemma lay_length m E : length (lay m E) = off m E.
Proof. induction m; [reflexivity|]. rewrite lay_S, app_length, IHm. reflexivity. Qed.

Lemma nth_lay m E t j : t < m -> j < cnt t E -> nth_error (lay m E) (off t E + j) = nth_error (bucket t E) j.
Proof.
  revert t j. induction m as [|m IH]; intros t j Ht Hj; [lia|].
  rewrite lay_S. destruct (Nat.eq_dec t m) as [->|].
  - rewrite nth_error_app2 by (rewrite lay_length; lia). rewrite lay_length. f_equal. lia.
  - assert (t < m) by lia. rewrite nth_error_app1; [apply IH; auto|].
    rewrite lay_length. pose proof (@off_mono (S t) m E ltac:(lia)). cbn in H0. lia.
Qed.

Lemma bucket_nth t E k a : nth_error E k = Some a -> key a = Some t ->
  nth_error (bucket t E) (cnt t (firstn k E)) = Some a.
Proof.
  intros H Hk. destruct (nth_error_split _ _ H) as (l1 & l2 & -> & Hl).
  rewrite <- Hl, firstn_app, Nat.sub_diag, firstn_all, app_nil_r.
  rewrite bucket_app, nth_error_app2 by (unfold cnt; lia).
  unfold cnt. rewrite Nat.sub_diag. cbn. apply keyb_eq in Hk. rewrite Hk. reflexivity.
Qed.

Lemma cnt_firstn_lt t E k a : nth_error E k = Some a -> key a = Some t ->
  cnt t (firstn k E) < cnt t E.
Proof.
  intros H Hk. apply bucket_nth with (t := t) in H; auto. unfold cnt at 2.
  apply nth_error_Some. congruence.
Qed.

Lemma nth_posn m E t k a : t < m -> nth_error E k = Some a -> key a = Some t ->
  nth_error (lay m E) (posn E t k) = Some a.
Proof.
  intros Ht H Hk. unfold posn. rewrite nth_lay; auto.
  - apply bucket_nth; auto.
  - eapply cnt_firstn_lt; eauto.
Qed.

Lemma posn_lt m E t k a : t < m -> nth_error E k = Some a -> key a = Some t ->
  posn E t k < off m E.
Proof.
  intros Ht H Hk. rewrite <- (lay_length m E). apply nth_error_Some.
  rewrite (@nth_posn m E t k a); auto. discriminate.
Qed.

Lemma firstn_S_nth (E : list A) k a : nth_error E k = Some a -> firstn (S k) E = firstn k E ++ [a].
Proof.
  intros H. destruct (nth_error_split _ _ H) as (l1 & l2 & -> & Hl). subst k.
  rewrite firstn_app, firstn_all2 by lia.
  rewrite (firstn_app (length l1)), firstn_all, Nat.sub_diag, app_nil_r.
  replace (S (length l1) - length l1) with 1 by lia. reflexivity.
Qed.

Lemma cnt_firstn_mono t E j k : j <= k -> cnt t (firstn j E) <= cnt t (firstn k E).
Proof.
  induction 1 as [|k Hk IH]; [lia|].
  destruct (nth_error E k) as [a|] eqn:H.
  - rewrite (firstn_S_nth _ _ H), cnt_app. lia.
  - apply nth_error_None in H. rewrite (firstn_all2 (n:=k)) in IH by lia. rewrite (firstn_all2 (n:=S k)) by lia. exact IH.
Qed.

Lemma posn_mono E t j k a : j < k -> nth_error E j = Some a -> key a = Some t ->
  posn E t j < posn E t k.
Proof.
  intros Hj H Hk. unfold posn.
  pose proof (@cnt_firstn_mono t E (S j) k Hj). rewrite (firstn_S_nth _ _ H), cnt_app, cnt_one in H0.
  apply keyb_eq in Hk. rewrite Hk in H0. lia.
Qed.

Lemma posn_inj E t u j k a b : nth_error E j = Some a -> key a = Some t ->
  nth_error E k = Some b -> key b = Some u -> posn E t j = posn E u k -> j = k.
Proof.
  intros Hj Ha Hk Hb He.
  pose proof (cnt_firstn_lt _ _ Hj Ha). pose proof (cnt_firstn_lt _ _ Hk Hb).
  assert (t = u).
  { unfold posn in He. destruct (Nat.lt_trichotomy t u) as [Hlt|[|Hlt]]; auto.
    - pose proof (@off_mono (S t) u E Hlt). cbn in H1. lia.
    - pose proof (@off_mono (S u) t E Hlt). cbn in H1. lia. }
  subst u. destruct (Nat.lt_trichotomy j k) as [Hlt|[|Hlt]]; auto.
  - pose proof (@posn_mono E t j k a Hlt Hj Ha). lia.
  - pose proof (@posn_mono E t k j b Hlt Hk Hb). lia.
Qed.

Lemma bucket_index t E j : j < cnt t E -> exists k a, nth_error E k = Some a /\ key a = Some t /\
  cnt t (firstn k E) = j.
Proof.
  revert j. induction E as [|x E IH] using rev_ind; intros j Hj; [cbn in Hj; lia|].
  rewrite cnt_app, cnt_one in Hj. destruct (lt_dec j (cnt t E)) as [Hlt|Hge].
  - destruct (IH j Hlt) as (k & a & H1 & H2 & H3). exists k, a.
    assert (k < length E) by (apply nth_error_Some; congruence).
    rewrite nth_error_app1 by lia. split; [auto|]. split; [auto|].
    rewrite firstn_app. replace (k - length E) with 0 by lia. rewrite app_nil_r. auto.
  - destruct (keyb t x) eqn:Hx; [|lia]. exists (length E), x.
    rewrite nth_error_app2, Nat.sub_diag by lia. split; [reflexivity|].
    split; [apply keyb_eq; auto|]. rewrite firstn_app, Nat.sub_diag, firstn_all, app_nil_r. lia.
Qed.

Lemma posn_surj m E p : p < off m E -> exists t k a, t < m /\ nth_error E k = Some a /\
  key a = Some t /\ posn E t k = p.
Proof.
  induction m as [|m IH]; cbn; intros Hp; [lia|].
  destruct (lt_dec p (off m E)) as [Hlt|Hge].
  - destruct (IH Hlt) as (t & k & a & H1 & H). exists t, k, a. split; [lia|auto].
  - destruct (@bucket_index m E (p - off m E)) as (k & a & H1 & H2 & H3); [lia|].
    exists m, k, a. split; [lia|]. split; [auto|]. split; [auto|]. unfold posn. lia.
Qed.

(** an array holding the right value at every position is the layout *)
Lemma scatter_ext (B : Type) (val : A -> B) m E (a : list B) : length a = off m E ->
  (forall k x t, nth_error E k = Some x -> key x = Some t -> t < m ->
     nth_error a (posn E t k) = Some (val x)) ->
  a = map val (lay m E).
Proof.
  intros Hl H. assert (Hlm : length (map val (lay m E)) = off m E) by (rewrite map_length, lay_length; auto).
  assert (He : forall p, nth_error a p = nth_error (map val (lay m E)) p).
  { intros p. destruct (lt_dec p (off m E)) as [Hp|Hp].
    - destruct (posn_surj _ _ Hp) as (t & k & x & H1 & H2 & H3 & <-).
      rewrite (H k x t); auto. symmetry. apply map_nth_error. eapply nth_posn; eauto.
    - rewrite !(proj2 (nth_error_None _ _)); auto; lia. }
  clear - He. revert He. generalize (map val (lay m E)). intros b. revert b.
  induction a as [|x a IH]; intros [|y b] He; auto.
  - specialize (He 0). discriminate.
  - specialize (He 0). discriminate.
  - pose proof (He 0) as H0. cbn in H0. injection H0 as ->. f_equal. apply IH.
    intros p. apply (He (S p)).
Qed.

(** elements with keys below m *)
Lemma off_total m E : off m E = length (filter (fun a => match key a with Some t => t <? m | None => false end) E).
Proof.
  induction m as [|m IH].
  - cbn. induction E as [|a E IH]; cbn; auto. destruct (key a); auto.
  - cbn [off]. rewrite IH. clear IH. unfold cnt, bucket, keyb. induction E as [|a E IH]; [reflexivity|]. cbn [filter].
    destruct (key a) as [t|]; auto.
    destruct (Nat.ltb_spec t m), (Nat.eqb_spec t m), (Nat.ltb_spec t (S m)); cbn [length]; lia.
Qed.
End CS.
