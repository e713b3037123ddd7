(** * Main results about hamiltonian_submatrix. *)
From Coq Require Import List Bool Arith ZArith Lia Permutation.
From Verif Require Import BuilderModel BuilderReach SystemModel SystemProofs SubmatrixModel SubmatrixProofs SubmatrixSpec.
Import ListNotations.
Set Implicit Arguments.

Section Main.
Variable K : Type.
Variable k0 : K.
Variable kadd : K -> K -> K.
Variable kconj : K -> K.
Variable isz : K -> bool.
Variable E : Type.
Hypothesis isz_spec : forall x, isz x = true <-> x = k0.
Hypothesis add_0_l : forall x, kadd k0 x = x.
Hypothesis conj_0 : kconj k0 = k0.
Hypothesis conj_inv : forall x, kconj (kconj x) = x.
Variable n : nat.
Variable nb : nat -> list nat.
Variable ham : nat -> nat -> mat K + E.
Notation mat := (mat K).
Notation write := (nat * nat * mat)%type.
Notation norb := (norb ham).
Notation mz := (mzero k0).
Notation hm t f := (match ham t f with inl m => m | inr _ => mz 0 0 end).

(** ** The list of block writes *)
Section Part.
Variables (tos froms : list nat) (diag tdiag : list mat).
Hypothesis Hdiag : Forall2 (fun f m => ham f f = inl m) froms diag.
Hypothesis Htdiag : Forall2 (fun f m => ham f f = inl m) tos tdiag.
Notation tn := (map (@mr K) tdiag).
Notation fn := (map (@mr K) diag).
Notation dict := (id_table Nat.eq_dec tos).
Hypothesis Hnd : NoDup tos.

Definition col_to (n_fs fs : nat) (w : list write) (ts : nat) : sres E (list write) :=
  match lookup Nat.eq_dec ts dict with
  | None => inl w
  | Some n_ts =>
    sbind (hamS ham ts fs) (fun h =>
    if shape h (nth n_ts tn 0) (nth n_fs fn 0) then inl (w ++ [(n_ts, n_fs, h)]) else inr (SValue E))
  end.
Definition col_from (w : list write) (p : nat * nat) : sres E (list write) :=
  let (n_fs, fs) := p in
  sbind (match lookup Nat.eq_dec fs dict with
         | None => inl w
         | Some n_ts =>
           let h := nth n_fs diag (mz 0 0) in
           if square h (nth n_fs fn 0) then inl (w ++ [(n_ts, n_fs, h)]) else inr (SValue E)
         end) (sfold (col_to n_fs fs) (nb fs)).
Definition enum := combine (seq 0 (length froms)) froms.

Lemma F2_nth {A B} (P : A -> B -> Prop) l l' i x : Forall2 P l l' -> nth_error l i = Some x ->
  exists y, nth_error l' i = Some y /\ P x y.
Proof.
  intros H. revert i. induction H as [|u v l l' Huv H IH]; intros [|i] Hi; cbn in *; try discriminate; eauto.
  injection Hi as <-. eauto.
Qed.
Lemma F2_length {A B} (P : A -> B -> Prop) l l' : Forall2 P l l' -> length l = length l'.
Proof. induction 1; cbn; auto. Qed.
Lemma tn_map : tn = map norb tos.
Proof. clear -Htdiag. induction Htdiag as [|f m l l' H H' IH]; cbn; [auto|]. unfold SubmatrixSpec.norb at 1. rewrite H. f_equal. auto. Qed.
Lemma fn_map : fn = map norb froms.
Proof. clear -Hdiag. induction Hdiag as [|f m l l' H H' IH]; cbn; [auto|]. unfold SubmatrixSpec.norb at 1. rewrite H. f_equal. auto. Qed.
Lemma nth_map_error {A} (g : A -> nat) l i x : nth_error l i = Some x -> nth i (map g l) 0 = g x.
Proof. revert i; induction l; intros [|i]; cbn; intros H; try discriminate; auto. congruence. Qed.
Lemma tn_nth p t : nth_error tos p = Some t -> nth p tn 0 = norb t.
Proof. intros H. rewrite tn_map. apply nth_map_error; auto. Qed.
Lemma fn_nth q f : nth_error froms q = Some f -> nth q fn 0 = norb f.
Proof. intros H. rewrite fn_map. apply nth_map_error; auto. Qed.
Lemma diag_nth q f : nth_error froms q = Some f -> ham f f = inl (nth q diag (mz 0 0)).
Proof.
  intros H. destruct (@F2_nth _ _ _ _ _ _ _ Hdiag H) as (m & Hm & ->). f_equal. symmetry. apply nth_error_nth; auto.
Qed.
Lemma dict_iff t p : lookup Nat.eq_dec t dict = Some p <-> nth_error tos p = Some t.
Proof. apply id_table_spec; auto. Qed.
Lemma dict_none t : lookup Nat.eq_dec t dict = None <-> ~ In t tos.
Proof. apply id_table_None; auto. Qed.

Definition w_to (q f : nat) (t : nat) : list write :=
  match lookup Nat.eq_dec t dict with None => [] | Some p => [(p, q, hm t f)] end.
Definition w_from (x : nat * nat) : list write := w_to (fst x) (snd x) (snd x) ++ flat_map (w_to (fst x) (snd x)) (nb (snd x)).
Definition ok_to (f t : nat) : Prop := In t tos -> good ham t f.

Lemma shape_iff (h : mat) r c : shape h r c = true <-> mr h = r /\ mc h = c.
Proof. unfold shape. rewrite andb_true_iff, !Nat.eqb_eq. tauto. Qed.
Lemma square_iff (h : mat) k : square h k = true <-> mr h = k /\ mc h = k.
Proof. unfold square. rewrite andb_true_iff, !Nat.eqb_eq. split; [intros (-> & ->)|intros (-> & ->)]; auto. Qed.

Lemma col_to_iff q f w t w' : nth_error froms q = Some f ->
  col_to q f w t = inl w' <-> ok_to f t /\ w' = w ++ w_to q f t.
Proof.
  intros Hq. unfold col_to, w_to, ok_to. destruct (lookup Nat.eq_dec t dict) as [p|] eqn:Ed.
  - apply dict_iff in Ed. unfold hamS. rewrite (tn_nth _ Ed), (fn_nth _ Hq). unfold good.
    destruct (ham t f) as [m|e]; cbn [sbind].
    + destruct (shape m (norb t) (norb f)) eqn:Es.
      * apply shape_iff in Es. split; [intros [= <-]; split; auto; intros _; exists m; tauto|intros (_ & ->); auto].
      * split; [discriminate|]. intros (H & ->). exfalso. destruct H as (m' & [= <-] & H); [eapply nth_error_In; eauto|].
        apply shape_iff in H. congruence.
    + split; [discriminate|]. intros (H & _). exfalso. destruct H as (m' & H & _); [eapply nth_error_In; eauto|discriminate].
  - apply dict_none in Ed. rewrite app_nil_r. split; [intros [= <-]; split; auto; tauto|intros (_ & ->); auto].
Qed.

Lemma col_from_iff q f w w' : nth_error froms q = Some f ->
  col_from w (q, f) = inl w' <-> (ok_to f f /\ Forall (ok_to f) (nb f)) /\ w' = w ++ w_from (q, f).
Proof.
  intros Hq. unfold col_from, w_from. cbn [fst snd].
  assert (HD : forall w1, match lookup Nat.eq_dec f dict with
         | None => inl w
         | Some n_ts =>
           let h := nth q diag (mz 0 0) in
           if square h (nth q fn 0) then inl (w ++ [(n_ts, q, h)]) else inr (SValue E)
         end = inl w1 <-> ok_to f f /\ w1 = w ++ w_to q f f).
  { intros w1. unfold ok_to, w_to. destruct (lookup Nat.eq_dec f dict) as [p|] eqn:Ed.
    - apply dict_iff in Ed. cbv zeta. rewrite (fn_nth _ Hq). pose proof (diag_nth _ Hq) as Hf. rewrite Hf. unfold good.
      destruct (square _ _) eqn:Es.
      + apply square_iff in Es. split; [intros [= <-]; split; auto; intros _; exists (nth q diag (mz 0 0)); tauto|intros (_ & ->); auto].
      + split; [discriminate|]. intros (H & ->). exfalso. destruct H as (m' & Hm' & H); [eapply nth_error_In; eauto|].
        rewrite Hf in Hm'. injection Hm' as <-. apply square_iff in H. congruence.
    - apply dict_none in Ed. rewrite app_nil_r. split; [intros [= <-]; split; auto; tauto|intros (_ & ->); auto]. }
  destruct (match lookup Nat.eq_dec f dict with Some _ => _ | None => _ end) as [w1|e] eqn:Em; cbn [sbind].
  - clear Em. destruct (proj1 (HD w1) eq_refl) as (H1 & ->).
    rewrite (@sfold_inl_iff E _ _ (col_to q f) (ok_to f) (w_to q f)) by (intros; apply col_to_iff; auto).
    rewrite app_assoc. tauto.
  - split; [discriminate|]. intros ((H & _) & _). exfalso.
    assert (X : (inr e : sres E (list write)) = inl (w ++ w_to q f f)) by (apply HD; auto). discriminate.
Qed.

Lemma enum_in q f : In (q, f) enum <-> nth_error froms q = Some f.
Proof.
  unfold enum. assert (H : forall l s, In (q, f) (combine (seq s (length l)) l) <-> s <= q /\ nth_error l (q - s) = Some f).
  { induction l as [|x l IH]; intros s; cbn [length seq combine].
    - cbn. split; [tauto|]. intros (_ & H). destruct (q - s); discriminate.
    - cbn [In]. rewrite IH. split.
      + intros [[= <- <-]|(H1 & H2)]; [rewrite Nat.sub_diag; auto|]. split; [lia|]. replace (q - s) with (S (q - S s)) by lia. auto.
      + intros (H1 & H2). destruct (Nat.eq_dec s q) as [->|]; [rewrite Nat.sub_diag in H2; cbn in H2; left; congruence|].
        right. split; [lia|]. replace (q - s) with (S (q - S s)) in H2 by lia. auto. }
  rewrite H, Nat.sub_0_r. split; [tauto|]. split; auto; lia.
Qed.

Definition all_w := flat_map w_from enum.
Definition part_good : Prop := forall t f, In t tos -> In f froms -> t = f \/ In t (nb f) -> good ham t f.

Lemma col_iff w' : sfold col_from enum [] = inl w' <-> part_good /\ w' = all_w.
Proof.
  rewrite (@sfold_inl_iff E _ _ col_from (fun x => ok_to (snd x) (snd x) /\ Forall (ok_to (snd x)) (nb (snd x))) w_from).
  - cbn [app]. unfold all_w. split; intros (H & ->); split; auto.
    + intros t f Ht Hf Htf. apply In_nth_error in Hf. destruct Hf as (q & Hq). apply enum_in in Hq.
      rewrite Forall_forall in H. specialize (H _ Hq). cbn in H. destruct H as (H1 & H2). rewrite Forall_forall in H2.
      destruct Htf as [->|Htf]; [apply H1; auto|apply H2; auto].
    + rewrite Forall_forall. intros [q f] Hq. apply enum_in in Hq. apply nth_error_In in Hq. cbn. split; [intros Ht; apply H; auto|].
      rewrite Forall_forall. intros t Htf Ht. apply H; auto.
  - intros w [q f] w1 Hin. apply enum_in in Hin. apply col_from_iff; auto.
Qed.

Lemma all_w_in p q h : In (p, q, h) all_w <-> exists t f, nth_error tos p = Some t /\ nth_error froms q = Some f /\
   (t = f \/ In t (nb f)) /\ h = hm t f.
Proof.
  unfold all_w. rewrite in_flat_map. unfold w_from, w_to.
  split.
  - intros ([q' f] & Hin & H). apply enum_in in Hin. cbn [fst snd] in H. apply in_app_or in H. destruct H as [H|H].
    + destruct (lookup Nat.eq_dec f dict) as [p'|] eqn:Ed; cbn in H; [|tauto]. destruct H as [[= <- <- <-]|[]].
      apply dict_iff in Ed. exists f, f. auto.
    + apply in_flat_map in H. destruct H as (t & Ht & H). destruct (lookup Nat.eq_dec t dict) as [p'|] eqn:Ed; cbn in H; [|tauto].
      destruct H as [[= <- <- <-]|[]]. apply dict_iff in Ed. exists t, f. auto.
  - intros (t & f & Hp & Hq & Htf & ->). exists (q, f). split; [apply enum_in; auto|]. cbn [fst snd]. apply in_or_app.
    apply dict_iff in Hp. destruct Htf as [->|Htf].
    + left. rewrite Hp. left. auto.
    + right. apply in_flat_map. exists t. split; auto. rewrite Hp. left; auto.
Qed.

Notation fits := (fits tn fn).
Lemma all_w_fits : part_good -> Forall fits all_w.
Proof.
  intros HG. rewrite Forall_forall. intros [[p q] h] Hin. apply all_w_in in Hin. destruct Hin as (t & f & Hp & Hq & Htf & ->).
  destruct (HG t f) as (m & Hm & H1 & H2); try (eapply nth_error_In; eauto); auto.
  assert (p < length tos) by (apply nth_error_Some; congruence).
  assert (q < length froms) by (apply nth_error_Some; congruence).
  unfold SubmatrixProofs.fits. rewrite !map_length. rewrite <- (F2_length Hdiag), <- (F2_length Htdiag).
  rewrite (tn_nth _ Hp), (fn_nth _ Hq). rewrite Hm. auto.
Qed.

Lemma flat_map_NoDup {A B} (g : A -> list B) l : NoDup l -> (forall x, In x l -> NoDup (g x)) ->
  (forall x y b, In x l -> In y l -> In b (g x) -> In b (g y) -> x = y) -> NoDup (flat_map g l).
Proof.
  induction 1 as [|x l Hx Hl IH]; cbn; intros H1 H2; [constructor|].
  apply NoDup_app; [auto|apply IH; [auto|intros; eapply H2; eauto]|]. intros b Hb Hb'. apply in_flat_map in Hb'. destruct Hb' as (y & Hy & Hb').
  assert (x = y) by (eapply H2; eauto). subst. contradiction.
Qed.
Lemma map_flat_map {A B D} (u : B -> D) (g : A -> list B) l : map u (flat_map g l) = flat_map (fun x => map u (g x)) l.
Proof. induction l; cbn; auto. rewrite map_app. f_equal; auto. Qed.
Lemma enum_NoDup : NoDup enum.
Proof.
  unfold enum. generalize (seq_NoDup (length froms) 0). generalize (seq 0 (length froms)). clear. intros s H.
  generalize froms. clear froms. induction H as [|x s Hx H IH]; intros [|f l]; cbn [combine]; try (constructor; fail); constructor; auto.
  intros Hin. apply in_combine_l in Hin. contradiction.
Qed.

Lemma w_to_fst q f t x : In x (map fst (w_to q f t)) -> exists p, nth_error tos p = Some t /\ x = (p, q).
Proof.
  unfold w_to. destruct (lookup Nat.eq_dec t dict) as [p|] eqn:Ed; cbn; [|tauto]. intros [<-|[]]. exists p. split; auto.
  apply dict_iff; auto.
Qed.
Lemma all_w_NoDup : (forall f, In f froms -> NoDup (nb f) /\ ~ In f (nb f)) -> NoDup (map fst all_w).
Proof.
  intros HN. unfold all_w. rewrite map_flat_map. apply flat_map_NoDup.
  - apply enum_NoDup.
  - intros [q f] Hin. apply enum_in in Hin. destruct (HN f) as (Hn1 & Hn2); [eapply nth_error_In; eauto|].
    unfold w_from. cbn [fst snd]. rewrite map_app. apply NoDup_app.
    + unfold w_to. destruct (lookup _ _ _); cbn; repeat constructor; auto.
    + rewrite map_flat_map. apply flat_map_NoDup; auto.
      * intros t _. unfold w_to. destruct (lookup _ _ _); cbn; repeat constructor; auto.
      * intros t t' x _ _ Hx Hx'. apply w_to_fst in Hx, Hx'. destruct Hx as (p & Hp & ->), Hx' as (p' & Hp' & [= <-]). congruence.
    + intros x Hx Hx'. apply w_to_fst in Hx. destruct Hx as (p & Hp & ->).
      apply in_map_iff in Hx'. destruct Hx' as (w & Hw & Hx'). apply in_flat_map in Hx'. destruct Hx' as (t & Ht & Hx').
      apply (in_map fst) in Hx'. rewrite Hw in Hx'. apply w_to_fst in Hx'. destruct Hx' as (p' & Hp' & [= <-]). congruence.
  - intros [q f] [q' f'] x Hi Hi' Hx Hx'. apply enum_in in Hi, Hi'.
    assert (HQ : forall q f x, In x (map fst (w_from (q, f))) -> snd x = q).
    { clear. intros q f x. unfold w_from. cbn [fst snd]. rewrite map_app, map_flat_map. intros Hx.
      apply in_app_or in Hx. destruct Hx as [Hx|Hx].
      - unfold w_to in Hx. destruct (lookup _ _ _); cbn in Hx; [|tauto]. destruct Hx as [<-|[]]; auto.
      - apply in_flat_map in Hx. destruct Hx as (t & _ & Hx). unfold w_to in Hx. destruct (lookup _ _ _); cbn in Hx; [|tauto]. destruct Hx as [<-|[]]; auto. }
    apply HQ in Hx, Hx'. subst. congruence.
Qed.

(** The dense function performs these writes. *)
Lemma dense_sim :
  match make_dense k0 nb ham diag froms dict tn (offsets tn) fn (offsets fn), sfold col_from enum [] with
  | inl m, inl w => m = fold_left (wr tn fn) w (mz (list_sum tn) (list_sum fn))
  | inr e, inr e' => e = e'
  | _, _ => False end.
Proof.
  unfold make_dense. rewrite !off_last. fold enum.
  set (R := fun (m : mat) (w : list write) => m = fold_left (wr tn fn) w (mz (list_sum tn) (list_sum fn))).
  assert (HP : forall q f p t h m w, nth_error froms q = Some f -> nth_error tos p = Some t ->
      mr h = nth p tn 0 -> mc h = nth q fn 0 -> R m w ->
      R (wr tn fn m (p, q, h)) (w ++ [(p, q, h)]) /\
      assign_slice E m (nth p (offsets tn) 0) (nth (p + 1) (offsets tn) 0) (nth q (offsets fn) 0) (nth (q + 1) (offsets fn) 0) h = inl (wr tn fn m (p, q, h))).
  { intros q f p t h m w Hq Hp H1 H2 HR. split.
    - unfold R in *. subst m. rewrite fold_left_app. reflexivity.
    - apply assign_wr. unfold SubmatrixProofs.fits. rewrite !map_length, <- (F2_length Hdiag), <- (F2_length Htdiag).
      assert (p < length tos) by (apply nth_error_Some; congruence).
      assert (q < length froms) by (apply nth_error_Some; congruence). auto. }
  assert (HT : forall q f, nth_error froms q = Some f -> forall m w, R m w ->
     match sfold (dense_to ham dict tn (offsets tn) fn (offsets fn) q f) (nb f) m, sfold (col_to q f) (nb f) w with
     | inl m, inl w => R m w | inr e, inr e' => e = e' | _, _ => False end).
  { intros q f Hq m w HR. apply sfold_sim0; auto. clear m w HR.
    intros m w t _ HR. unfold dense_to, col_to.
    destruct (lookup Nat.eq_dec t dict) as [p|] eqn:Ed; [|exact HR]. apply dict_iff in Ed.
    destruct (hamS ham t f) as [h|e]; cbn [sbind]; auto.
    destruct (shape h _ _) eqn:Es; auto. apply shape_iff in Es. destruct Es as (E1 & E2).
    destruct (HP q f p t h m w) as (HA & ->); eauto. }
  apply sfold_sim0; [|unfold R; reflexivity].
  intros m w [q f] Hin HR. apply enum_in in Hin. unfold dense_from, col_from.
  destruct (lookup Nat.eq_dec f dict) as [p|] eqn:Ed.
  - apply dict_iff in Ed. cbv zeta. destruct (square _ _) eqn:Es; cbn [sbind]; auto.
    apply square_iff in Es. destruct Es as (E1 & E2).
    destruct (HP q f p f (nth q diag (mz 0 0)) m w) as (HA & ->); eauto.
    + rewrite (tn_nth _ Ed). rewrite (fn_nth _ Hin) in E1. auto.
    + cbn [sbind]. apply HT; auto.
  - cbn [sbind]. apply HT; auto.
Qed.

Notation bent := (block_entries isz tn fn).
Lemma sparse_sim :
  match make_sparse k0 isz nb ham diag froms dict tn (offsets tn) fn (offsets fn), sfold col_from enum [] with
  | inl m, inl w => cr m = list_sum tn /\ cc m = list_sum fn /\ centries m = flat_map bent w
  | inr e, inr e' => e = e'
  | _, _ => False end.
Proof.
  unfold make_sparse, finish. rewrite !off_last. fold enum. cbv zeta.
  set (cap := sparse_size nb froms dict tn fn).
  set (R := fun (k : nat) (b : coo K) (w : list write) => b = rev (flat_map bent w) /\ length b <= k).
  assert (HP : forall q f p t h b w k, nth_error froms q = Some f -> nth_error tos p = Some t ->
      k + mr h * mc h <= cap -> R k b w ->
      exists b', push_block isz E cap (nth p (offsets tn) 0) (nth q (offsets fn) 0) h b = inl b' /\ R (k + mr h * mc h) b' (w ++ [(p, q, h)])).
  { intros q f p t h b w k Hq Hp Hk (-> & Hl).
    assert (p < length tos) by (apply nth_error_Some; congruence).
    assert (q < length froms) by (apply nth_error_Some; congruence).
    rewrite !off_nth by (rewrite map_length; rewrite <- ?(F2_length Hdiag), <- ?(F2_length Htdiag); lia).
    destruct (@push_block_ok K isz E tn fn cap p q h (rev (flat_map bent w))) as (HA & HB); [lia|].
    eexists. split; [exact HA|]. split.
    - rewrite flat_map_app. cbn [flat_map]. rewrite app_nil_r, rev_app_distr. reflexivity.
    - rewrite rev_length in *. lia. }
  set (costT := fun (q t : nat) => match lookup Nat.eq_dec t dict with
                       | Some p => nth p tn 0 * nth q fn 0 | None => 0 end).
  assert (HT : forall q f, nth_error froms q = Some f -> forall k b w, R k b w -> k + sum_nat (costT q) (nb f) <= cap ->
     match sfold (sparse_to isz ham cap dict tn (offsets tn) fn (offsets fn) q f) (nb f) b, sfold (col_to q f) (nb f) w with
     | inl m, inl w => R (k + sum_nat (costT q) (nb f)) m w | inr e, inr e' => e = e' | _, _ => False end).
  { intros q f Hq. apply sfold_sim. intros k b w t _ HR Hk. unfold sparse_to, col_to, costT in *.
    destruct (lookup Nat.eq_dec t dict) as [p|] eqn:Ed; [|rewrite Nat.add_0_r; exact HR]. apply dict_iff in Ed.
    destruct (hamS ham t f) as [h|e]; cbn [sbind]; auto.
    destruct (shape h _ _) eqn:Es; auto. apply shape_iff in Es. destruct Es as (E1 & E2). rewrite <- E1, <- E2 in *.
    destruct (HP q f p t h b w k) as (b' & -> & HR'); auto. }
  set (cost := fun x : nat * nat => match lookup Nat.eq_dec (snd x) dict with
     | Some _ => nth (fst x) fn 0 * nth (fst x) fn 0 | None => 0 end + sum_nat (costT (fst x)) (nb (snd x))).
  pose proof (@sfold_sim E (coo K) (list write) (nat * nat) cost cap R
     (sparse_from k0 isz nb ham cap diag dict tn (offsets tn) fn (offsets fn)) col_from enum) as HS.
  assert (HC : cap = sum_nat cost enum) by reflexivity.
  assert (HF : forall k a b x, In x enum -> R k a b -> k + cost x <= cap ->
     match sparse_from k0 isz nb ham cap diag dict tn (offsets tn) fn (offsets fn) a x, col_from b x with
     | inl a', inl b' => R (k + cost x) a' b' | inr e, inr e' => e = e' | _, _ => False end).
  { intros k b w [q f] Hin HR Hk. apply enum_in in Hin. unfold sparse_from, col_from, cost in *. cbn [fst snd] in *.
    destruct (lookup Nat.eq_dec f dict) as [p|] eqn:Ed.
    - apply dict_iff in Ed. cbv zeta. destruct (square _ _) eqn:Es; cbn [sbind]; auto.
      apply square_iff in Es. destruct Es as (E1 & E2).
      destruct (HP q f p f (nth q diag (mz 0 0)) b w k) as (b' & -> & HR'); auto; [rewrite E1, E2; lia|].
      cbn [sbind]. rewrite E1, E2 in HR'. rewrite Nat.add_assoc. apply HT; auto. lia.
    - cbn [sbind]. cbn [Nat.add] in *. apply HT; auto. }
  specialize (HS HF 0 [] []). clear HF. assert (HR0 : R 0 [] []) by (split; auto). specialize (HS HR0). 
  assert (Hle : 0 + sum_nat cost enum <= cap) by lia. specialize (HS Hle).
  destruct (sfold (sparse_from _ _ _ _ _ _ _ _ _ _ _) enum []) as [b|e], (sfold col_from enum []) as [w|e']; cbn [sbind]; auto.
  cbn. destruct HS as (-> & _). rewrite rev_involutive. auto.
Qed.
End Part.

(** ** The full matrix *)
Section Full.
Variable diag : list mat.
Hypothesis Hdiag : Forall2 (fun f m => ham f f = inl m) (seq 0 n) diag.
Notation fn := (map (@mr K) diag).

Definition colf_to (fs : nat) (w : list write) (ts : nat) : sres E (list write) :=
  if ts <? fs then inl w
  else sbind (hamS ham ts fs) (fun h =>
    if shape h (nth ts fn 0) (nth fs fn 0) then inl (w ++ [(ts, fs, h); (fs, ts, mherm kconj h)]) else inr (SValue E)).
Definition colf_from (w : list write) (fs : nat) : sres E (list write) :=
  let h := nth fs diag (mz 0 0) in
  if square h (nth fs fn 0) then sfold (colf_to fs) (nb fs) (w ++ [(fs, fs, h)]) else inr (SValue E).

Hypothesis Hrange : forall f t, f < n -> In t (nb f) -> t < n.

Lemma seq_nth_error k : k < n -> nth_error (seq 0 n) k = Some k.
Proof. intros H. rewrite (@nth_error_nth' _ (seq 0 n) k 0) by (rewrite seq_length; auto). rewrite seq_nth by auto. reflexivity. Qed.
Lemma len_diag : length diag = n.
Proof. rewrite <- (F2_length Hdiag). apply seq_length. Qed.
Lemma nth_fn k : k < n -> nth k fn 0 = norb k.
Proof. intros H. rewrite (fn_map Hdiag). apply nth_map_error. apply seq_nth_error; auto. Qed.
Lemma nth_diag k : k < n -> ham k k = inl (nth k diag (mz 0 0)).
Proof. intros H. apply (diag_nth Hdiag). apply seq_nth_error; auto. Qed.

Definition wf_to (f t : nat) : list write := if t <? f then [] else [(t, f, hm t f); (f, t, mherm kconj (hm t f))].
Definition wf_from (f : nat) : list write := (f, f, hm f f) :: flat_map (wf_to f) (nb f).
Definition all_wf := flat_map wf_from (seq 0 n).
Definition okf (f t : nat) : Prop := f <= t -> good ham t f.

Lemma colf_to_iff f w t w' : f < n -> In t (nb f) -> colf_to f w t = inl w' <-> okf f t /\ w' = w ++ wf_to f t.
Proof.
  intros Hf Ht. assert (Htn : t < n) by eauto. unfold colf_to, wf_to, okf.
  destruct (Nat.ltb_spec t f) as [Hlt|Hge].
  - rewrite app_nil_r. split; [intros [= <-]; split; auto; lia|intros (_ & ->); auto].
  - unfold hamS. rewrite !nth_fn by auto. unfold good. destruct (ham t f) as [m|e]; cbn [sbind].
    + destruct (shape m _ _) eqn:Es.
      * apply shape_iff in Es. split; [intros [= <-]; split; auto; intros _; exists m; tauto|intros (_ & ->); auto].
      * split; [discriminate|]. intros (H & _). exfalso. destruct H as (m' & [= <-] & H); auto. apply shape_iff in H. congruence.
    + split; [discriminate|]. intros (H & _). exfalso. destruct H as (m' & H & _); auto. discriminate.
Qed.
Definition full_good : Prop := forall f, f < n -> good ham f f /\ Forall (okf f) (nb f).
Lemma colf_iff w' : sfold colf_from (seq 0 n) [] = inl w' <-> full_good /\ w' = all_wf.
Proof.
  rewrite (@sfold_inl_iff E _ _ colf_from (fun f => good ham f f /\ Forall (okf f) (nb f)) wf_from).
  - cbn [app]. unfold all_wf, full_good. rewrite Forall_forall.
    split; intros (H & ->); split; auto; intros f Hf; apply H; apply in_seq in Hf || apply in_seq; lia.
  - intros w f w1 Hin. apply in_seq in Hin. assert (Hf : f < n) by lia. unfold colf_from, wf_from. cbv zeta.
    rewrite nth_fn by auto. pose proof (nth_diag Hf) as HD. unfold good at 1. rewrite HD.
    destruct (square _ _) eqn:Es.
    + rewrite (@sfold_inl_iff E _ _ (colf_to f) (okf f) (wf_to f)) by (intros; apply colf_to_iff; auto).
      rewrite <- app_assoc. cbn [app]. apply square_iff in Es.
      split; [intros (H1 & ->)|intros ((_ & H1) & ->)]; auto. split; auto. split; auto. eexists; split; [reflexivity|tauto].
    + split; [discriminate|]. intros (((m & [= <-] & H) & _) & _). apply square_iff in H. congruence.
Qed.

Lemma all_wf_in p q h : In (p, q, h) all_wf <->
  (p < n /\ p = q /\ h = hm p p) \/
  (p < n /\ q < n /\ ((q <= p /\ In p (nb q) /\ h = hm p q) \/ (p <= q /\ In q (nb p) /\ h = mherm kconj (hm q p)))).
Proof.
  unfold all_wf. rewrite in_flat_map. unfold wf_from, wf_to. split.
  - intros (f & Hf & H). apply in_seq in Hf. cbn [In] in H. destruct H as [[= <- <- <-]|H]; [left; repeat split; auto; lia|].
    apply in_flat_map in H. destruct H as (t & Ht & H). assert (t < n) by (apply (@Hrange f t); auto; lia).
    destruct (Nat.ltb_spec t f); cbn in H; [tauto|].
    destruct H as [[= <- <- <-]|[[= <- <- <-]|[]]]; right; repeat split; auto; lia.
  - intros [(H1 & <- & ->)|(H1 & H2 & [(H3 & H4 & ->)|(H3 & H4 & ->)])].
    + exists p. split; [apply in_seq; lia|left; auto].
    + exists q. split; [apply in_seq; lia|right]. apply in_flat_map. exists p. split; auto.
      destruct (Nat.ltb_spec p q); [lia|]. left; auto.
    + exists p. split; [apply in_seq; lia|right]. apply in_flat_map. exists q. split; auto.
      destruct (Nat.ltb_spec q p); [lia|]. right; left; auto.
Qed.
Notation fits := (fits fn fn).
Lemma all_wf_fits : full_good -> Forall fits all_wf.
Proof.
  intros HG. rewrite Forall_forall. intros [[p q] h] Hin. apply all_wf_in in Hin.
  unfold SubmatrixProofs.fits. rewrite !map_length, !len_diag.
  destruct Hin as [(H1 & <- & ->)|(H1 & H2 & [(H3 & H4 & ->)|(H3 & H4 & ->)])]; rewrite !nth_fn by auto.
  - destruct (HG p H1) as ((m & -> & HA & HB) & _). auto.
  - destruct (HG q H2) as (_ & HF). rewrite Forall_forall in HF. destruct (HF p H4 H3) as (m & -> & HA & HB). auto.
  - destruct (HG p H1) as (_ & HF). rewrite Forall_forall in HF. destruct (HF q H4 H3) as (m & -> & HA & HB). cbn. auto.
Qed.
Lemma all_wf_NoDup : (forall f, f < n -> NoDup (nb f) /\ ~ In f (nb f)) -> NoDup (map fst all_wf).
Proof.
  intros HN. unfold all_wf. rewrite map_flat_map.
  assert (HX : forall f x, f < n -> In x (map fst (wf_from f)) -> Nat.min (fst x) (snd x) = f /\
     (x = (f, f) \/ exists t, In t (nb f) /\ f < t /\ (x = (t, f) \/ x = (f, t)))).
  { intros f x Hf Hx. unfold wf_from in Hx. cbn [map fst In] in Hx. destruct Hx as [<-|Hx]; [cbn; rewrite Nat.min_id; auto|].
    rewrite map_flat_map in Hx. apply in_flat_map in Hx. destruct Hx as (t & Ht & Hx). unfold wf_to in Hx.
    destruct (Nat.ltb_spec t f); cbn in Hx; [tauto|].
    assert (t <> f) by (intros ->; apply (proj2 (HN f Hf)); auto).
    destruct Hx as [<-|[<-|[]]]; cbn [fst snd]; (split; [lia|right; exists t; repeat split; auto; lia]). }
  apply flat_map_NoDup; [apply seq_NoDup| |].
  - intros f Hin. apply in_seq in Hin. destruct (HN f) as (Hn1 & Hn2); [lia|]. unfold wf_from. cbn [map fst]. rewrite map_flat_map.
    constructor.
    + intros Hx. apply in_flat_map in Hx. destruct Hx as (t & Ht & Hx). unfold wf_to in Hx.
      destruct (Nat.ltb_spec t f); cbn in Hx; [tauto|]. assert (t = f) by (destruct Hx as [[=]|[[=]|[]]]; auto). subst. contradiction.
    + apply flat_map_NoDup; auto.
      * intros t Ht. unfold wf_to. destruct (Nat.ltb_spec t f); cbn; [constructor|]. constructor; [|repeat constructor; auto].
        cbn. intros [[=]|[]]. subst. contradiction.
      * intros t t' x Ht Ht' Hx Hx'. unfold wf_to in *.
        destruct (Nat.ltb_spec t f), (Nat.ltb_spec t' f); cbn in *; try tauto.
        destruct Hx as [<-|[<-|[]]], Hx' as [[=]|[[=]|[]]]; subst; auto.
  - intros f f' x Hi Hi' Hx Hx'. apply in_seq in Hi, Hi'. apply HX in Hx; [|lia]. apply HX in Hx'; [|lia]. destruct Hx, Hx'. congruence.
Qed.

Lemma dense_full_sim :
  match make_dense_full k0 kconj n nb ham diag fn (offsets fn) fn (offsets fn), sfold colf_from (seq 0 n) [] with
  | inl m, inl w => m = fold_left (wr fn fn) w (mz (list_sum fn) (list_sum fn))
  | inr e, inr e' => e = e'
  | _, _ => False end.
Proof.
  unfold make_dense_full. rewrite !off_last.
  set (R := fun (m : mat) (w : list write) => m = fold_left (wr fn fn) w (mz (list_sum fn) (list_sum fn))).
  assert (HP : forall p q h m w, p < n -> q < n -> mr h = nth p fn 0 -> mc h = nth q fn 0 -> R m w ->
      R (wr fn fn m (p, q, h)) (w ++ [(p, q, h)]) /\
      assign_slice E m (nth p (offsets fn) 0) (nth (p + 1) (offsets fn) 0) (nth q (offsets fn) 0) (nth (q + 1) (offsets fn) 0) h = inl (wr fn fn m (p, q, h))).
  { intros p q h m w Hp Hq H1 H2 HR. split.
    - unfold R in *. subst m. rewrite fold_left_app. reflexivity.
    - apply assign_wr. unfold SubmatrixProofs.fits. rewrite !map_length, len_diag. auto. }
  apply sfold_sim0; [|unfold R; reflexivity].
  intros m w f Hin HR. apply in_seq in Hin. assert (Hf : f < n) by lia. unfold dense_full_from, colf_from. cbv zeta.
  destruct (square _ _) eqn:Es; auto. apply square_iff in Es. destruct Es as (E1 & E2).
  destruct (HP f f (nth f diag (mz 0 0)) m w) as (HA & ->); auto. cbn [sbind].
  apply sfold_sim0; auto. clear m w HR HA. intros m w t Ht HR. unfold dense_full_to, colf_to.
  destruct (Nat.ltb_spec t f); [exact HR|]. destruct (hamS ham t f) as [h|e]; cbn [sbind]; auto.
  destruct (shape h _ _) eqn:Es; auto. apply shape_iff in Es. destruct Es as (E3 & E4).
  assert (t < n) by eauto.
  destruct (HP t f h m w) as (HA & ->); auto. cbn [sbind].
  destruct (HP f t (mherm kconj h) (wr fn fn m (t, f, h)) (w ++ [(t, f, h)])) as (HB & ->); auto.
  rewrite <- app_assoc in HB. exact HB.
Qed.

Notation bent := (block_entries isz fn fn).
Lemma isz_conj x : isz (kconj x) = isz x.
Proof.
  apply eq_true_iff_eq. rewrite !isz_spec. split; intros H; [|rewrite H; auto].
  rewrite <- (conj_inv x), H. apply conj_0.
Qed.
Lemma flat_map_perm {A B} (g : A -> list B) l l' : Permutation l l' -> Permutation (flat_map g l) (flat_map g l').
Proof.
  induction 1; cbn; auto.
  - apply Permutation_app_head; auto.
  - rewrite !app_assoc. apply Permutation_app_tail. apply Permutation_app_comm.
  - etransitivity; eauto.
Qed.
Lemma flat_map_split {A B} (g g' : A -> list B) l : Permutation (flat_map (fun x => g x ++ g' x) l) (flat_map g l ++ flat_map g' l).
Proof.
  induction l as [|x l IH]; cbn; auto. rewrite <- !app_assoc. apply Permutation_app_head.
  rewrite (Permutation_app_comm (flat_map g l) (g' x ++ flat_map g' l)), <- app_assoc. apply Permutation_app_head.
  rewrite IH. apply Permutation_app_comm.
Qed.
Lemma indices_herm (h : mat) : Permutation (indices (mherm kconj h)) (map (fun ij => (snd ij, fst ij)) (indices h)).
Proof.
  apply NoDup_Permutation.
  - apply indices_NoDup.
  - apply FinFun.Injective_map_NoDup; [|apply indices_NoDup]. intros [a b] [a' b'] [=]; congruence.
  - intros [a b]. rewrite indices_in, in_map_iff. cbn. split.
    + intros (H1 & H2). exists (b, a). split; auto. apply indices_in; auto.
    + intros ([a' b'] & [= -> ->] & H). apply indices_in in H. tauto.
Qed.
Lemma flat_map_map {A B D} (g : B -> list D) (u : A -> B) l : flat_map g (map u l) = flat_map (fun x => g (u x)) l.
Proof. induction l; cbn; auto. f_equal; auto. Qed.

Lemma push_herm_ok cap p q h b : length b + 2 * mr h * mc h <= cap ->
  exists b', push_block_herm kconj isz E cap (list_sum (firstn p fn)) (list_sum (firstn q fn)) h b = inl b' /\
    Permutation b' (b ++ bent (p, q, h) ++ bent (q, p, mherm kconj h)) /\ length b' <= length b + 2 * mr h * mc h.
Proof.
  intros H. unfold push_block_herm. set (oP := list_sum (firstn p fn)). set (oQ := list_sum (firstn q fn)).
  set (ent := fun ij : nat * nat => let v := mget h (fst ij) (snd ij) in
       if isz v then [] else [(fst ij + oP, snd ij + oQ, v); (snd ij + oQ, fst ij + oP, kconj v)]).
  destruct (@push_gen K E ent cap (fun b ij => let v := mget h (fst ij) (snd ij) in
           if isz v then inl b
           else sbind (push E cap b (fst ij + oP, snd ij + oQ, v)) (fun b =>
                push E cap b (snd ij + oQ, fst ij + oP, kconj v))) 2 (indices h)) with (b := b) as (HA & HB).
  - intros ij. unfold ent. cbn. destruct (isz _); cbn; lia.
  - intros b' ij Hb'. unfold ent. cbn. destruct (isz _); [reflexivity|]. unfold push at 1. rewrite (proj2 (Nat.ltb_lt _ _)) by lia. cbn [sbind].
    unfold push. cbn [length]. rewrite (proj2 (Nat.ltb_lt _ _)) by lia. reflexivity.
  - rewrite indices_length. lia.
  - rewrite indices_length in HB. eexists. split; [exact HA|]. split; [|lia].
    rewrite <- Permutation_rev, Permutation_app_comm. apply Permutation_app_head.
    unfold ent.
    transitivity (flat_map (fun ij : nat * nat => (let v := mget h (fst ij) (snd ij) in if isz v then [] else [(fst ij + oP, snd ij + oQ, v)]) ++
        (let v := mget h (fst ij) (snd ij) in if isz v then [] else [(snd ij + oQ, fst ij + oP, kconj v)])) (indices h)).
    + apply Permutation_refl'. apply flat_map_ext. intros ij. cbn. destruct (isz _); reflexivity.
    + rewrite flat_map_split. apply Permutation_app; [apply Permutation_refl|].
      unfold block_entries. rewrite (flat_map_perm _ (indices_herm h)), flat_map_map.
      apply Permutation_refl'. apply flat_map_ext. intros [i j]. cbn [mherm mget fst snd]. rewrite isz_conj. reflexivity.
Qed.

Lemma sparse_full_sim : (forall f, f < n -> ~ In f (nb f)) ->
  match make_sparse_full k0 kconj isz n nb ham diag fn (offsets fn) fn (offsets fn), sfold colf_from (seq 0 n) [] with
  | inl m, inl w => cr m = list_sum fn /\ cc m = list_sum fn /\ Permutation (centries m) (flat_map bent w)
  | inr e, inr e' => e = e'
  | _, _ => False end.
Proof.
  intros HL. unfold make_sparse_full, finish. rewrite !off_last. cbv zeta.
  set (cap := sparse_full_size n nb fn fn).
  set (R := fun (k : nat) (b : coo K) (w : list write) => Permutation b (flat_map bent w) /\ length b <= k).
  set (costT := fun (f t : nat) => if f <? t then 2 * nth t fn 0 * nth f fn 0 else 0).
  set (cost := fun f => nth f fn 0 * nth f fn 0 + sum_nat (costT f) (nb f)).
  assert (HC : cap = sum_nat cost (seq 0 n)) by reflexivity.
  pose proof (@sfold_sim E (coo K) (list write) nat cost cap R
     (sparse_full_from k0 kconj isz nb ham cap diag fn (offsets fn) fn (offsets fn)) colf_from (seq 0 n)) as HS.
  assert (HF : forall k a b x, In x (seq 0 n) -> R k a b -> k + cost x <= cap ->
     match sparse_full_from k0 kconj isz nb ham cap diag fn (offsets fn) fn (offsets fn) a x, colf_from b x with
     | inl a', inl b' => R (k + cost x) a' b' | inr e, inr e' => e = e' | _, _ => False end).
  { intros k b w f Hin (HR1 & HR2) Hk. apply in_seq in Hin. assert (Hf : f < n) by lia.
    unfold sparse_full_from, colf_from, cost in *. cbv zeta.
    destruct (square _ _) eqn:Es; auto. apply square_iff in Es. destruct Es as (E1 & E2).
    rewrite !off_nth by (rewrite map_length, len_diag; lia).
    destruct (@push_block_ok K isz E fn fn cap f f (nth f diag (mz 0 0)) b) as (HA & HB); [rewrite E1, E2; lia|].
    rewrite HA. cbn [sbind]. rewrite E1, E2 in HB. rewrite Nat.add_assoc.
    apply sfold_sim with (cap := cap); [|split|lia].
    - clear -HL Hdiag Hrange Hf isz_spec conj_0 conj_inv. intros k b w t Ht (HR1 & HR2) Hk. unfold sparse_full_to, colf_to, costT in *.
      assert (t <> f) by (intros ->; apply (HL f); auto). assert (t < n) by eauto.
      destruct (Nat.ltb_spec t f).
      + destruct (Nat.ltb_spec f t); [lia|]. rewrite Nat.add_0_r. split; auto.
      + destruct (Nat.ltb_spec f t); [|lia]. destruct (hamS ham t f) as [h|e]; cbn [sbind]; auto.
        destruct (shape h _ _) eqn:Es; auto. apply shape_iff in Es. destruct Es as (E3 & E4).
        rewrite !off_nth by (rewrite map_length, len_diag; lia). rewrite <- E3, <- E4 in *.
        destruct (@push_herm_ok cap t f h b) as (b' & -> & HA & HB); [lia|]. split; [|lia].
        rewrite HA, flat_map_app. cbn [flat_map]. rewrite app_nil_r. rewrite HR1. apply Permutation_refl.
    - rewrite flat_map_app. cbn [flat_map]. rewrite app_nil_r, <- Permutation_rev, HR1. apply Permutation_app_comm.
    - lia. }
  specialize (HS HF 0 [] []). clear HF. assert (HR0 : R 0 [] []) by (split; auto). specialize (HS HR0).
  assert (Hle : 0 + sum_nat cost (seq 0 n) <= cap) by lia. specialize (HS Hle).
  destruct (sfold (sparse_full_from _ _ _ _ _ _ _ _ _ _ _) (seq 0 n) []) as [b|e], (sfold colf_from (seq 0 n) []) as [w|e']; cbn [sbind]; auto.
  cbn. destruct HS as (HP & _). rewrite <- Permutation_rev. auto.
Qed.
End Full.
End Main.
