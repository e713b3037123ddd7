(** * Proofs about discretize. *)
From Coq Require Import List Bool Arith ZArith Lia Ring Permutation.
From Verif Require Import StarRing DiscretizeModel DiscretizeSpec.
Import ListNotations.
Set Implicit Arguments.

Lemma off_eqb_eq a b : off_eqb a b = true <-> a = b.
Proof.
  revert b. induction a as [|x a IH]; intros [|y b]; cbn; try (split; congruence). rewrite andb_true_iff, Z.eqb_eq, IH. split; [intros [-> ->]; auto|inversion 1; auto].
Qed.
Lemma off_eqb_refl a : off_eqb a a = true. Proof. apply off_eqb_eq; auto. Qed.
Lemma bump_length i s o : length (bump i s o) = length o.
Proof. revert i. induction o as [|x o IH]; intros [|i]; cbn; auto. Qed.
Lemma nth_bump i s o j : i < length o -> nth j (bump i s o) 0%Z = (nth j o 0 + if (i =? j)%nat then s else 0)%Z.
Proof.
  revert i j. induction o as [|x o IH]; intros [|i] [|j]; cbn; intros H; try lia. rewrite IH by lia. reflexivity.
Qed.

(** ** gcd *)
Lemma euclid_div fuel a b d : Z.divide d a -> Z.divide d b -> Z.divide d (euclid fuel a b).
Proof.
  revert a b. induction fuel as [|n IH]; intros a b Ha Hb; cbn; [auto|]. destruct (Z.eqb_spec a 0) as [|Ne]; [auto|]. apply IH; [|auto].
  rewrite Z.mod_eq by auto. apply Z.divide_sub_r; [auto|]. apply Z.divide_mul_l. auto.
Qed.
Lemma euclid_divides fuel a b : Z.abs_nat a < fuel -> Z.divide (euclid fuel a b) a /\ Z.divide (euclid fuel a b) b.
Proof.
  revert a b. induction fuel as [|n IH]; intros a b H; [lia|]. cbn. destruct (Z.eqb_spec a 0) as [->|Ne].
  - split; [apply Z.divide_0_r|apply Z.divide_refl].
  - assert (Hm : (Z.abs (b mod a) < Z.abs a)%Z).
    { destruct (Z.lt_trichotomy a 0) as [L|[L|L]]; [pose proof (Z.mod_neg_bound b a L)|lia|pose proof (Z.mod_pos_bound b a L)]; lia. }
    destruct (IH (b mod a)%Z a) as [H1 H2]; [lia|]. split; [auto|]. rewrite (Z.div_mod b a) at 2 by auto. apply Z.divide_add_r; [|auto]. apply Z.divide_mul_l. auto.
Qed.
Lemma py_gcd_spec l x : 2 <= length l -> In x l -> Z.divide (py_gcd l) x.
Proof.
  intros Hl Hx. unfold py_gcd. apply in_rev in Hx. rewrite <- rev_length in Hl. destruct (rev l) as [|b [|c rest]]; cbn [length] in Hl; try lia.
  apply Z.divide_abs_l. remember (c :: rest) as r. clear Heqr Hl. destruct Hx as [<-|Hx].
  - revert b. induction r as [|a r IH]; intros b; cbn [fold_left]; [apply Z.divide_refl|]. eapply Z.divide_trans; [apply IH|]. apply euclid_divides. lia.
  - revert b Hx. induction r as [|a r IH]; intros b Hx; cbn [fold_left]; [destruct Hx|]. destruct Hx as [<-|Hx]; [|apply IH; auto].
    clear IH. assert (H : forall r b, Z.divide (fold_left (fun b a => euclid (S (Z.abs_nat a)) a b) r b) b).
    { induction r0 as [|a' r0 IH]; intros b0; cbn [fold_left]; [apply Z.divide_refl|]. eapply Z.divide_trans; [apply IH|]. apply euclid_divides. lia. }
    eapply Z.divide_trans; [apply H|]. apply euclid_divides. lia.
Qed.
Lemma py_gcd_greatest l d : (forall x, In x l -> Z.divide d x) -> Z.divide d (py_gcd l).
Proof.
  intros H. unfold py_gcd. assert (H' : forall x, In x (rev l) -> Z.divide d x) by (intros x Hx; apply H, in_rev; auto).
  destruct (rev l) as [|b r]; [apply Z.divide_0_r|]. assert (Hb : Z.divide d b) by (apply H'; left; auto). destruct r as [|c r]; [auto|].
  apply Z.divide_abs_r. assert (Hr : forall x, In x (c :: r) -> Z.divide d x) by (intros x Hx; apply H'; right; auto). remember (c :: r) as q. clear -Hb Hr.
  revert b Hb. induction q as [|a q IH]; intros b Hb; cbn [fold_left]; [auto|]. apply IH; [intros; apply Hr; right; auto|]. apply euclid_div; [apply Hr; left; auto|auto].
Qed.
Lemma py_gcd_nonneg l : 2 <= length l -> (0 <= py_gcd l)%Z.
Proof. intros Hl. unfold py_gcd. rewrite <- rev_length in Hl. destruct (rev l) as [|b [|c rest]]; cbn [length] in Hl; try lia. Qed.

Lemma even_div2 x : Z.even x = true <-> Z.divide 2 x.
Proof. rewrite Z.even_spec. unfold Z.Even, Z.divide. split; intros [z ->]; exists z; lia. Qed.

(** ** The offsets of a summand *)
Section Offsets.
Variable F : Type.
Variable coords : list nat.
Notation D := (length coords).
Notation dsum := (@discretize_summand F coords).
Lemma index_of_pos c l i : index_of c i l = option_map (fun k => i + k) (position c l).
Proof.
  revert i. induction l as [|x l IH]; intros i; cbn; [auto|]. destruct (c =? x); cbn; [f_equal; lia|]. rewrite IH. destruct (position c l); cbn; [f_equal; lia|auto].
Qed.
Lemma index_of_position c : index_of c 0 coords = position c coords.
Proof. rewrite index_of_pos. destruct (position c coords); auto. Qed.
Lemma position_some c l i : position c l = Some i -> i < length l /\ nth i l 0 = c.
Proof.
  revert i. induction l as [|x l IH]; intros i; cbn; [discriminate|]. destruct (Nat.eqb_spec c x) as [->|]; [intros [= <-]; split; [lia|auto]|].
  destruct (position c l) as [k|]; cbn; [|discriminate]. intros [= <-]. destruct (IH _ eq_refl). split; [lia|auto].
Qed.
Lemma position_none c l : position c l = None -> ~ In c l.
Proof.
  induction l as [|x l IH]; cbn; [intros; auto|]. destruct (Nat.eqb_spec c x) as [->|Ne]; [discriminate|]. destruct (position c l); cbn; [discriminate|]. intros _ [->|H]; [auto|apply IH; auto].
Qed.
Lemma apply_mom c e ts : apply_factor coords (Mom F c e) ts = match position c coords with Some i => Nat.iter e (@differentiate F i) ts | None => map (mult coords (Mom F c e)) ts end.
Proof. cbn. rewrite index_of_position. reflexivity. Qed.
Lemma in_differentiate i ts (t : term F) : In t (differentiate i ts) <-> exists t', In t' ts /\ exists b, t = mom_term i b t'.
Proof.
  unfold differentiate. rewrite in_app_iff, !in_map_iff. split.
  - intros [(t' & <- & H)|(t' & <- & H)]; exists t'; split; eauto.
  - intros (t' & H & [] & ->); [right|left]; exists t'; auto.
Qed.
(** a property of all offsets *)
Lemma offs_ind (P : offset -> Prop) : P (zeros coords) -> (forall o i s, P o -> i < D -> (s = 1 \/ s = -1)%Z -> P (bump i s o)) ->
  forall s t, In t (dsum s) -> P (t_off t).
Proof.
  intros H0 Hb s. induction s as [|f s IH]; cbn [discretize_summand fold_right].
  { intros t [<-|[]]. exact H0. }
  fold (dsum s). destruct f as [g|c e].
  - intros t Ht. cbn in Ht. apply in_map_iff in Ht. destruct Ht as (t' & <- & Ht). cbn. auto.
  - rewrite apply_mom. destruct (position c coords) as [i|] eqn:E.
    + apply position_some in E. destruct E as [Hi _]. induction e as [|e IHe]; cbn [Nat.iter]; [auto|]. intros t Ht.
      apply in_differentiate in Ht. destruct Ht as (t' & Ht & b & ->). cbn. destruct b; apply Hb; auto.
    + intros t Ht. apply in_map_iff in Ht. destruct Ht as (t' & <- & Ht). cbn. auto.
Qed.
Lemma zeros_length : length (zeros coords) = D. Proof. apply repeat_length. Qed.
Lemma off_length s t : In t (dsum s) -> length (t_off t) = D.
Proof. apply (offs_ind (fun o => length o = D)); [apply zeros_length|intros; rewrite bump_length; auto]. Qed.
Lemma nth_zeros i : nth i (zeros coords) 0%Z = 0%Z.
Proof. unfold zeros. destruct (nth_in_or_default i (repeat 0%Z D) 0%Z) as [H|H]; [apply repeat_spec in H; auto|auto]. Qed.
Lemma count_cons c f (s : summand F) : count_mom c (f :: s) = (match f with Mom _ c' e => if c =? c' then e else 0 | Fn _ => 0 end) + count_mom c s.
Proof. cbn. destruct f as [|c' e]; [auto|]. destruct (c =? c'); auto. Qed.

Hypothesis Hnd : NoDup coords.
Lemma position_nth i : i < D -> position (nth i coords 0) coords = Some i.
Proof.
  clear -Hnd. revert i. induction coords as [|x l IH]; intros i Hi; cbn in *; [lia|]. inversion Hnd; subst. destruct i as [|i]; [rewrite Nat.eqb_refl; auto|].
  destruct (Nat.eqb_spec (nth i l 0) x) as [E|_]; [exfalso; apply H1; rewrite <- E; apply nth_In; lia|]. rewrite IH by (auto; lia). auto.
Qed.
(** parity of the offsets, and the two largest ones *)
Lemma off_parity s t i : In t (dsum s) -> i < D -> Z.even (nth i (t_off t) 0%Z) = Nat.even (count_mom (nth i coords 0) s).
Proof.
  intros Ht Hi. revert t Ht. induction s as [|f s IH]; intros t Ht.
  { cbn in Ht. destruct Ht as [<-|[]]. cbn. rewrite nth_zeros. auto. }
  rewrite count_cons. cbn [discretize_summand fold_right] in Ht. fold (dsum s) in Ht. destruct f as [g|c e].
  - cbn in Ht. apply in_map_iff in Ht. destruct Ht as (t' & <- & Ht). cbn. auto.
  - rewrite apply_mom in Ht. destruct (position c coords) as [j|] eqn:E.
    + destruct (position_some _ _ E) as [Hj Ec]. assert (Eij : (nth i coords 0 =? c) = (j =? i)).
      { subst c. destruct (Nat.eqb_spec j i) as [->|Ne]; [apply Nat.eqb_refl|]. apply Nat.eqb_neq. intros Eq. apply Ne. apply (proj1 (NoDup_nth coords 0) Hnd); auto. }
      rewrite Eij. revert t Ht. assert (Hlen : forall e t, In t (Nat.iter e (@differentiate F j) (dsum s)) -> length (t_off t) = D).
      { induction e0 as [|e0 IHe]; cbn [Nat.iter]; intros t Ht; [apply off_length in Ht; auto|]. apply in_differentiate in Ht. destruct Ht as (t' & Ht & b & ->). cbn. rewrite bump_length. auto. }
      induction e as [|e IHe]; cbn [Nat.iter]; intros t Ht; [destruct (j =? i); apply IH; auto|]. apply in_differentiate in Ht. destruct Ht as (t' & Ht & b & ->). cbn [mom_term t_off shift_term].
      rewrite nth_bump by (rewrite (Hlen _ _ Ht); auto). specialize (IHe _ Ht). destruct (j =? i).
      * cbn [Nat.add]. rewrite Nat.even_succ, <- Nat.negb_even, <- IHe. rewrite Z.even_add. destruct (Z.even (nth i (t_off t') 0%Z)), b; reflexivity.
      * rewrite Z.add_0_r. exact IHe.
    + apply in_map_iff in Ht. destruct Ht as (t' & <- & Ht). cbn [mult t_off]. rewrite (IH _ Ht). destruct (Nat.eqb_spec (nth i coords 0) c) as [Eq|]; [|auto].
      exfalso. apply (position_none _ _ E). rewrite <- Eq. apply nth_In. auto.
Qed.
Lemma off_max s i : i < D -> (exists t, In t (dsum s) /\ nth i (t_off t) 0%Z = Z.of_nat (count_mom (nth i coords 0) s)) /\
  (0 < count_mom (nth i coords 0) s -> exists t, In t (dsum s) /\ nth i (t_off t) 0%Z = (Z.of_nat (count_mom (nth i coords 0%nat) s) - 2)%Z).
Proof.
  intros Hi. induction s as [|f s [IH1 IH2]].
  { cbn. split; [|lia]. eexists; split; [left; reflexivity|]. cbn. rewrite nth_zeros. auto. }
  rewrite count_cons. cbn [discretize_summand fold_right]. fold (dsum s). destruct f as [g|c e].
  - cbn [apply_factor Nat.add]. split; [destruct IH1 as (t & Ht & E)|intros Hc; destruct (IH2 Hc) as (t & Ht & E)]; exists (mult coords (Fn g) t); (split; [apply in_map; auto|auto]).
  - rewrite apply_mom. destruct (position c coords) as [j|] eqn:E.
    + destruct (position_some _ _ E) as [Hj Ec]. assert (Eij : (nth i coords 0 =? c) = (j =? i)).
      { subst c. destruct (Nat.eqb_spec j i) as [->|Ne]; [apply Nat.eqb_refl|]. apply Nat.eqb_neq. intros Eq. apply Ne. apply (proj1 (NoDup_nth coords 0) Hnd); auto. }
      rewrite Eij. clear Eij. set (m := count_mom (nth i coords 0) s) in *.
      assert (Hlen : forall e t, In t (Nat.iter e (@differentiate F j) (dsum s)) -> length (t_off t) = D).
      { induction e0 as [|e0 IHe]; cbn [Nat.iter]; intros t Ht; [apply off_length in Ht; auto|]. apply in_differentiate in Ht. destruct Ht as (t' & Ht & b & ->). cbn. rewrite bump_length. auto. }
      induction e as [|e IHe]; cbn [Nat.iter]; [destruct (j =? i); cbn [Nat.add]; auto|]. destruct IHe as [(t & Ht & Et) H2].
      assert (Hin : forall b t', In t' (Nat.iter e (@differentiate F j) (dsum s)) -> In (mom_term j b t') (differentiate j (Nat.iter e (@differentiate F j) (dsum s)))) by (intros; apply in_differentiate; eauto).
      assert (Hnth : forall b t', In t' (Nat.iter e (@differentiate F j) (dsum s)) -> nth i (t_off (mom_term j b t')) 0%Z = (nth i (t_off t') 0 + if (j =? i)%nat then if b then -1 else 1 else 0)%Z).
      { intros b t' Ht'. cbn [mom_term t_off shift_term]. rewrite nth_bump by (rewrite (Hlen _ _ Ht'); auto). reflexivity. }
      destruct (j =? i).
      * split; [exists (mom_term j false t)|intros _; exists (mom_term j true t)]; (split; [auto|rewrite Hnth, Et by auto; lia]).
      * split; [exists (mom_term j false t); split; [auto|rewrite Hnth, Et by auto; lia]|]. intros Hc. destruct (H2 Hc) as (t' & Ht' & Et'). exists (mom_term j false t'). split; [auto|rewrite Hnth, Et' by auto; lia].
    + assert (Ez : (nth i coords 0 =? c) = false). { apply Nat.eqb_neq. intros Eq. apply (position_none _ _ E). rewrite <- Eq. apply nth_In. auto. }
      rewrite Ez. cbn [Nat.add]. split; [destruct IH1 as (t & Ht & Et)|intros Hc; destruct (IH2 Hc) as (t & Ht & Et)]; exists (mult coords (Mom F c e) t); (split; [apply in_map; auto|auto]).
Qed.
(** no momenta: one term *)
Lemma off_zero s t i : In t (dsum s) -> i < D -> count_mom (nth i coords 0) s = 0 -> nth i (t_off t) 0%Z = 0%Z.
Proof.
  intros Ht Hi. revert t Ht. induction s as [|f s IH]; intros t Ht Hc.
  { cbn in Ht. destruct Ht as [<-|[]]. apply nth_zeros. }
  rewrite count_cons in Hc. cbn [discretize_summand fold_right] in Ht. fold (dsum s) in Ht. destruct f as [g|c e].
  - cbn in Ht. apply in_map_iff in Ht. destruct Ht as (t' & <- & Ht). cbn. auto.
  - rewrite apply_mom in Ht. destruct (position c coords) as [j|] eqn:E.
    + destruct (position_some _ _ E) as [Hj Ec].
      assert (Hlen : forall e t, In t (Nat.iter e (@differentiate F j) (dsum s)) -> length (t_off t) = D).
      { induction e0 as [|e0 IHe]; cbn [Nat.iter]; intros t0 Ht0; [apply off_length in Ht0; auto|]. apply in_differentiate in Ht0. destruct Ht0 as (t' & Ht0 & b & ->). cbn. rewrite bump_length. auto. }
      assert (Hz : e = 0 \/ j <> i). { destruct (Nat.eq_dec j i) as [->|]; [left|auto]. rewrite <- Ec, Nat.eqb_refl in Hc. lia. }
      assert (Hcs : count_mom (nth i coords 0) s = 0) by lia. clear Hc. revert t Ht. induction e as [|e IHe]; cbn [Nat.iter]; intros t Ht; [auto|].
      apply in_differentiate in Ht. destruct Ht as (t' & Ht & b & ->). cbn [mom_term t_off shift_term]. rewrite nth_bump by (rewrite (Hlen _ _ Ht); auto).
      destruct Hz as [Hz|Hz]; [discriminate|]. apply Nat.eqb_neq in Hz. rewrite Hz, Z.add_0_r. apply IHe; auto. right. apply Nat.eqb_neq. auto.
    + apply in_map_iff in Ht. destruct Ht as (t' & <- & Ht). cbn. apply IH; auto. destruct (nth i coords 0 =? c); lia.
Qed.

(** The rescaling factors *)
Definition half (s : summand F) (c : nat) : Z := if (0 <? count_mom c s) && Nat.even (count_mom c s) then 2%Z else 1%Z.
Lemma scales_half s : scales coords (dsum s) = map (half s) coords.
Proof.
  assert (Em : map (half s) coords = map (fun i => half s (nth i coords 0)) (seq 0 D)).
  { clear Hnd. rewrite <- (map_map (fun i => nth i coords 0) (half s)). f_equal. clear s. induction coords as [|x l IH]; [auto|]. cbn. f_equal. rewrite <- seq_shift, map_map. exact IH. }
  rewrite Em. unfold scales. apply map_ext_in. intros i Hi. apply in_seq in Hi. set (m := count_mom (nth i coords 0) s). set (l := map (fun t => nth i (t_off t) 0%Z) (dsum s)).
  destruct (@off_max s i ltac:(lia)) as [(t1 & I1 & E1) H2]. fold m in E1, H2. unfold half. fold m.
  assert (In1 : In (Z.of_nat m) l) by (rewrite <- E1; apply in_map_iff; exists t1; auto).
  destruct (Nat.ltb_spec 0 m) as [Hm|Hm]; cbn [andb].
  - destruct (H2 Hm) as (t2 & I2 & E2). assert (In2 : In (Z.of_nat m - 2)%Z l) by (rewrite <- E2; apply in_map_iff; exists t2; auto).
    assert (Hl : 2 <= length l). { destruct l as [|a [|b l']]; cbn [In] in In1, In2; cbn [length]; try lia; try (destruct In1; fail). }
    pose proof (@py_gcd_spec l _ Hl In1) as D1. pose proof (@py_gcd_spec l _ Hl In2) as D2. pose proof (@py_gcd_nonneg l Hl) as N.
    assert (D3 : Z.divide (py_gcd l) 2). { replace 2%Z with (Z.of_nat m - (Z.of_nat m - 2))%Z by lia. apply Z.divide_sub_r; auto. }
    assert (Hle : (py_gcd l = 1 \/ py_gcd l = 2)%Z). { pose proof (Z.divide_pos_le _ 2 ltac:(lia) D3). assert (py_gcd l <> 0%Z) by (intros E; rewrite E in D3; destruct D3; lia). lia. }
    destruct (Nat.even m) eqn:Ev.
    + assert (D4 : Z.divide 2 (py_gcd l)). { apply py_gcd_greatest. intros x Hx. apply in_map_iff in Hx. destruct Hx as (t & <- & Ht). apply even_div2. rewrite (@off_parity s t i Ht) by lia. exact Ev. }
      destruct Hle as [E|E]; rewrite E in *; [exfalso; destruct D4; lia|reflexivity].
    + destruct Hle as [->|E]; [reflexivity|]. exfalso. rewrite E, <- E1 in D1. apply even_div2 in D1. rewrite (@off_parity s t1 i I1) in D1 by lia. fold m in D1. congruence.
  - assert (Hz : forall x, In x l -> x = 0%Z). { intros x Hx. apply in_map_iff in Hx. destruct Hx as (t & <- & Ht). apply (@off_zero s t i Ht); [lia|fold m; lia]. }
    assert (E0 : py_gcd l = 0%Z). { assert (H : Z.divide 0 (py_gcd l)) by (apply py_gcd_greatest; intros x Hx; rewrite (Hz x Hx); apply Z.divide_refl). destruct H as [z Hz']. lia. }
    rewrite E0. reflexivity.
Qed.
End Offsets.
