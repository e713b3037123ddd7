(** * Lemmas on the loops and the block storage of operator.pyx. *)
From Coq Require Import List Bool Arith ZArith Ring Lia.
From Verif Require Import StarRing OrbitalsModel OrbitalsProofs SubmatrixModel OperatorModel OperatorSpec.
Import ListNotations.
Set Implicit Arguments.

Lemma loop_S (T : Type) n (body : nat -> T -> T) s : loop (S n) body s = body n (loop n body s).
Proof. unfold loop. rewrite seq_S, fold_left_app. reflexivity. Qed.
Lemma loop_0 (T : Type) (body : nat -> T -> T) s : loop 0 body s = s.
Proof. reflexivity. Qed.

Section Loops.
Variable R : StarRing.
Add Ring Rring2 : (r_theory R).
Local Open Scope star_scope.
Notation "0" := (r0 R) : star_scope.
Notation conj := (rconj R).
Notation sum := (sum R).
Notation upd := (@upd R).

Lemma loop_add n (body : nat -> R -> R) f : (forall i t, (i < n)%nat -> body i t = t + f i) -> forall t, loop n body t = t + sum n f.
Proof.
  induction n as [|n IH]; intros H t.
  - rewrite loop_0. unfold StarRing.sum. cbn [seq]. rewrite lsum_nil. ring.
  - rewrite loop_S, sum_S, H by lia. rewrite IH by (intros; apply H; lia). ring.
Qed.
Lemma loop_add0 n (body : nat -> R -> R) f : (forall i t, (i < n)%nat -> body i t = t + f i) -> loop n body 0 = sum n f.
Proof. intros H. rewrite (loop_add body f H). ring. Qed.
Lemma loop_buf n (body : nat -> buf R -> buf R) g al : (forall i out, (i < n)%nat -> body i out al = out al + g i) ->
  forall out, loop n body out al = out al + sum n g.
Proof.
  induction n as [|n IH]; intros H out.
  - rewrite loop_0. unfold StarRing.sum. cbn [seq]. rewrite lsum_nil. ring.
  - rewrite loop_S, sum_S, H by lia. rewrite IH by (intros; apply H; lia). ring.
Qed.
Lemma upd_add (out : buf R) k v al : upd out k (out k + v) al = out al + (if (al =? k)%nat then v else 0).
Proof. unfold OperatorModel.upd. destruct (Nat.eqb_spec al k) as [->|]; [reflexivity|ring]. Qed.
Lemma upd_sub (out : buf R) k v al : upd out k (out k - v) al = out al - (if (al =? k)%nat then v else 0).
Proof. unfold OperatorModel.upd. destruct (Nat.eqb_spec al k) as [->|]; [reflexivity|ring]. Qed.
Lemma loop_set n (f : nat -> R) (b : buf R) k : loop n (fun w out => upd out w (f w)) b k = if (k <? n)%nat then f k else b k.
Proof.
  induction n as [|n IH].
  - rewrite loop_0. destruct (Nat.ltb_spec k 0); [lia|reflexivity].
  - rewrite loop_S. unfold OperatorModel.upd at 1. rewrite IH.
    destruct (Nat.eqb_spec k n) as [->|]; [rewrite (proj2 (Nat.ltb_lt n (S n))) by lia; reflexivity|].
    destruct (Nat.ltb_spec k n), (Nat.ltb_spec k (S n)); auto; lia.
Qed.

(** ** The local forms *)
Lemma density_el_spec (M : buf R) a_s n bra ket :
  density_el M a_s n bra ket = density_form n a_s (fun i j => M (i * n + j)%nat) bra ket.
Proof.
  unfold density_el, density_form, form. apply loop_add0. intros i t _. apply loop_add. intros; reflexivity.
Qed.
Lemma form_mmul_l r n c bra A B ket :
  form r c bra (mmul n A B) ket = sum r (fun i => sum n (fun k => sum c (fun j => conj (bra i) * A i k * B k j * ket j))).
Proof.
  unfold form, mmul. apply sum_ext. intros i _.
  rewrite (sum_swap R n c). apply sum_ext. intros j _.
  replace (conj (bra i) * StarRing.sum R n (fun k => A i k * B k j) * ket j)
    with (StarRing.sum R n (fun k => A i k * B k j) * (conj (bra i) * ket j)) by ring.
  rewrite <- sum_mul_r. apply sum_ext. intros k _. ring.
Qed.
Lemma current_el_spec (M H : buf R) a_s b_s na nb bra ket :
  current_el M H a_s b_s na nb bra ket =
  current_form na nb a_s b_s (fun i j => M (i * na + j)%nat) (fun i j => H (i * nb + j)%nat) bra ket.
Proof.
  unfold current_el, current_form. f_equal.
  rewrite (loop_add0 _ (fun i => sum na (fun j => sum na (fun k =>
    conj (bra (b_s + i)%nat) * conj (H (j * nb + i)%nat) * M (j * na + k)%nat * ket (a_s + k)%nat
    - conj (bra (a_s + j)%nat) * M (j * na + k)%nat * H (k * nb + i)%nat * ket (b_s + i)%nat)))).
  2:{ intros i t _. apply loop_add. intros j t' _. apply loop_add. intros; reflexivity. }
  rewrite !form_mmul_l. unfold part, mdag.
  rewrite (sum_ext R (fun i => sum na (fun j => sum na (fun k =>
    conj (bra (b_s + i)%nat) * conj (H (j * nb + i)%nat) * M (j * na + k)%nat * ket (a_s + k)%nat
    - conj (bra (a_s + j)%nat) * M (j * na + k)%nat * H (k * nb + i)%nat * ket (b_s + i)%nat)))
   (fun i => sum na (fun j => sum na (fun k => conj (bra (b_s + i)%nat) * conj (H (j * nb + i)%nat) * M (j * na + k)%nat * ket (a_s + k)%nat))
    - sum na (fun j => sum na (fun k => conj (bra (a_s + j)%nat) * M (j * na + k)%nat * H (k * nb + i)%nat * ket (b_s + i)%nat)))).
  2:{ intros i _. rewrite <- sum_sub. apply sum_ext. intros j _. rewrite <- sum_sub. reflexivity. }
  rewrite sum_sub. f_equal.
  rewrite (sum_swap R nb na). apply sum_ext. intros j _. apply sum_swap.
Qed.
Lemma source_tmp_spec (M H : buf R) a_s n ket i :
  source_tmp M H a_s n ket i = sum n (fun j => sum n (fun k =>
    conj (H (j * n + i)%nat) * M (j * n + k)%nat * ket (a_s + k)%nat - M (i * n + j)%nat * H (j * n + k)%nat * ket (a_s + k)%nat)).
Proof. unfold source_tmp. apply loop_add0. intros j t _. apply loop_add. intros; reflexivity. Qed.
Lemma source_el_spec (M H : buf R) a_s n bra ket :
  source_el M H a_s n bra ket = source_form n a_s (fun i j => M (i * n + j)%nat) (fun i j => H (i * n + j)%nat) bra ket.
Proof.
  unfold source_el, source_form. f_equal. rewrite (loop_add0 _ (fun i => conj (bra (a_s + i)%nat) * source_tmp M H a_s n ket i)).
  2:{ intros; reflexivity. }
  rewrite !form_mmul_l, <- sum_sub. apply sum_ext. intros i _. rewrite source_tmp_spec, <- sum_mul_l, <- sum_sub.
  apply sum_ext. intros j _. rewrite <- sum_mul_l, <- sum_sub. apply sum_ext. intros k _. unfold part, mdag. ring.
Qed.

(** ** Actions: every action adds a vector [g] whose scalar product with bra
    is the matrix element. *)
Definition acts (tot : nat) (ket : buf R) (el : buf R -> R) (ac : buf R -> buf R) : Prop :=
  exists g : nat -> R, (forall out al, ac out al = out al + g al) /\
    forall bra, el bra = sum tot (fun al => conj (bra al) * g al).

Lemma delta_sum tot n s (bra : buf R) (v : nat -> R) : (s + n <= tot)%nat ->
  sum tot (fun al => conj (bra al) * sum n (fun i => if (al =? s + i)%nat then v i else 0)) = sum n (fun i => conj (bra (s + i)%nat) * v i).
Proof.
  intros Hn.
  rewrite (sum_ext R _ (fun al => sum n (fun i => if (al =? s + i)%nat then conj (bra al) * v i else 0))).
  2:{ intros al _. rewrite <- sum_mul_l. apply sum_ext. intros i _. destruct (al =? s + i)%nat; ring. }
  rewrite sum_swap. apply sum_ext. intros i Hi. rewrite (sum_delta R (fun al => conj (bra al) * v i)) by lia. reflexivity.
Qed.
Lemma density_acts tot (M : buf R) a_s n ket : (a_s + n <= tot)%nat ->
  acts tot ket (fun bra => density_el M a_s n bra ket) (density_act M a_s n ket).
Proof.
  intros Hn. set (v := fun i => sum n (fun j => M (i * n + j)%nat * ket (a_s + j)%nat)).
  exists (fun al => sum n (fun i => if (al =? a_s + i)%nat then v i else 0)). split.
  - intros out al. unfold density_act. apply loop_buf. intros i out' _. rewrite upd_add.
    rewrite (loop_add0 _ (fun j => M (i * n + j)%nat * ket (a_s + j)%nat)) by (intros; reflexivity). reflexivity.
  - intros bra. rewrite delta_sum by auto. rewrite density_el_spec. unfold density_form, form. apply sum_ext. intros i _.
    unfold v, part. rewrite <- sum_mul_l. apply sum_ext. intros; ring.
Qed.
Lemma source_acts tot (M H : buf R) a_s n ket : (a_s + n <= tot)%nat ->
  acts tot ket (fun bra => source_el M H a_s n bra ket) (source_act M H a_s n ket).
Proof.
  intros Hn. set (v := fun i => ri R * source_tmp M H a_s n ket i).
  exists (fun al => sum n (fun i => if (al =? a_s + i)%nat then v i else 0)). split.
  - intros out al. unfold source_act. apply loop_buf. intros i out' _. rewrite upd_add. reflexivity.
  - intros bra. rewrite delta_sum by auto. unfold source_el.
    rewrite (loop_add0 _ (fun i => conj (bra (a_s + i)%nat) * source_tmp M H a_s n ket i)) by (intros; reflexivity).
    rewrite <- sum_mul_l. apply sum_ext. intros i _. unfold v. ring.
Qed.
Lemma current_acts tot (M H : buf R) a_s b_s na nb ket : (a_s + na <= tot)%nat -> (b_s + nb <= tot)%nat ->
  acts tot ket (fun bra => current_el M H a_s b_s na nb bra ket) (current_act M H a_s b_s na nb ket).
Proof.
  intros Ha Hb.
  set (v := fun i => sum na (fun j => sum na (fun k => ri R * conj (H (j * nb + i)%nat) * M (j * na + k)%nat * ket (a_s + k)%nat))).
  set (u := fun j => sum nb (fun i => sum na (fun k => ri R * M (j * na + k)%nat * H (k * nb + i)%nat * ket (b_s + i)%nat))).
  exists (fun al => sum nb (fun i => if (al =? b_s + i)%nat then v i else 0) - sum na (fun j => if (al =? a_s + j)%nat then u j else 0)).
  split.
  - intros out al. unfold current_act.
    rewrite (loop_buf _ (fun i => sum na (fun j => sum na (fun k =>
      (if (al =? b_s + i)%nat then ri R * conj (H (j * nb + i)%nat) * M (j * na + k)%nat * ket (a_s + k)%nat else 0)
      - (if (al =? a_s + j)%nat then ri R * M (j * na + k)%nat * H (k * nb + i)%nat * ket (b_s + i)%nat else 0))))).
    2:{ intros i out1 _. apply loop_buf. intros j out2 _. apply loop_buf. intros k out3 _. cbv zeta.
        rewrite upd_sub, upd_add. ring. }
    f_equal.
    rewrite (sum_ext R _ (fun i => sum na (fun j => sum na (fun k => if (al =? b_s + i)%nat then ri R * conj (H (j * nb + i)%nat) * M (j * na + k)%nat * ket (a_s + k)%nat else 0))
      - sum na (fun j => sum na (fun k => if (al =? a_s + j)%nat then ri R * M (j * na + k)%nat * H (k * nb + i)%nat * ket (b_s + i)%nat else 0)))).
    2:{ intros i _. rewrite <- sum_sub. apply sum_ext. intros j _. rewrite <- sum_sub. reflexivity. }
    rewrite sum_sub. f_equal.
    + apply sum_ext. intros i _. unfold v. destruct (al =? b_s + i)%nat; auto.
      apply sum_zero. intros. apply sum_0.
    + rewrite sum_swap. apply sum_ext. intros j _. unfold u. destruct (al =? a_s + j)%nat; auto.
      apply sum_zero. intros. apply sum_0.
  - intros bra.
    rewrite (sum_ext R _ (fun al => conj (bra al) * sum nb (fun i => if (al =? b_s + i)%nat then v i else 0)
       - conj (bra al) * sum na (fun j => if (al =? a_s + j)%nat then u j else 0))) by (intros; ring).
    rewrite sum_sub, !delta_sum by auto. rewrite current_el_spec. unfold current_form.
    rewrite !form_mmul_l. unfold part, mdag.
    match goal with |- _ * (?x - ?y) = _ => transitivity (ri R * x - ri R * y); [ring|] end. f_equal.
    + rewrite <- sum_mul_l. apply sum_ext. intros i _. unfold v. rewrite <- !sum_mul_l. apply sum_ext. intros j _.
      rewrite <- !sum_mul_l. apply sum_ext. intros; ring.
    + rewrite <- sum_mul_l. apply sum_ext. intros j _. unfold u. rewrite (sum_swap R na nb).
      rewrite <- !sum_mul_l. apply sum_ext. intros i _. rewrite <- !sum_mul_l. apply sum_ext. intros; ring.
Qed.
End Loops.

(** ** Block storage *)
Section Blocks.
Variable R : StarRing.
Variable E : Type.
Variable junk : nat -> R.
Notation rdm := (rdm junk).
Notation upd := (@upd R).

Lemma rdflat_in (m : mat R) i j : i < mr m -> j < mc m -> rdflat junk m (i * mc m + j) = mget m i j.
Proof.
  intros Hi Hj. unfold rdflat.
  assert (H : i * mc m + j < mr m * mc m) by nia. rewrite (proj2 (Nat.ltb_lt _ _) H).
  rewrite Nat.div_add_l, Nat.div_small, Nat.add_0_r by lia.
  rewrite Nat.add_comm, Nat.mod_add, Nat.mod_small by lia. reflexivity.
Qed.
Lemma rdm_in (m : mat R) i j : i < mr m -> j < mc m -> rdm m i j = mget m i j.
Proof. apply rdflat_in. Qed.

Lemma put_row b c (g : nat -> R) d k :
  loop c (fun j d => upd d (b + j) (g j)) d k = if (b <=? k) && (k <? b + c) then g (k - b) else d k.
Proof.
  induction c as [|c IH].
  - rewrite loop_0. destruct (Nat.leb_spec b k), (Nat.ltb_spec k (b + 0)); auto; lia.
  - rewrite loop_S. unfold OperatorModel.upd at 1. rewrite IH.
    destruct (Nat.eqb_spec k (b + c)) as [->|].
    + replace (b + c - b) with c by lia.
      destruct (Nat.leb_spec b (b + c)), (Nat.ltb_spec (b + c) (b + S c)); auto; lia.
    + destruct (Nat.leb_spec b k), (Nat.ltb_spec k (b + c)), (Nat.ltb_spec k (b + S c)); auto; lia.
Qed.
Lemma put_block_spec off r c (m : mat R) d :
  (forall k, k < off \/ off + r * c <= k -> put_block junk off r c m d k = d k) /\
  forall i j, i < r -> j < c -> put_block junk off r c m d (off + i * c + j) = rdm m i j.
Proof.
  unfold put_block.
  set (body := fun i d0 => loop c (fun j d1 => OperatorModel.upd d1 (off + i * c + j) (rdm m i j)) d0).
  induction r as [|r [IH1 IH2]].
  - split; [reflexivity|intros; lia].
  - split.
    + intros k Hk. rewrite loop_S. unfold body at 1. rewrite put_row.
      destruct (Nat.leb_spec (off + r * c) k), (Nat.ltb_spec k (off + r * c + c)); cbn [andb]; try (apply IH1; nia); nia.
    + intros i j Hi Hj. rewrite loop_S. unfold body at 1. rewrite put_row.
      destruct (Nat.eq_dec i r) as [->|Hne].
      * destruct (Nat.leb_spec (off + r * c) (off + r * c + j)), (Nat.ltb_spec (off + r * c + j) (off + r * c + c)); try lia.
        cbn [andb]. f_equal. lia.
      * destruct (Nat.leb_spec (off + r * c) (off + i * c + j)); [nia|]. cbn [andb]. apply IH2; lia.
Qed.

Lemma data_offs_length shapes : forall size, length (data_offs size shapes) = length shapes.
Proof. induction shapes as [|[r c] l IH]; intros size; cbn; auto. Qed.
Lemma data_offs_nth shapes : forall size w, w < length shapes -> nth w (data_offs size shapes) 0 =
  size + list_sum (map (fun rc => fst rc * snd rc) (firstn w shapes)).
Proof.
  induction shapes as [|[r c] l IH]; intros size w Hw; [cbn in Hw; lia|].
  destruct w as [|w]; cbn [data_offs nth firstn map list_sum fold_right]; [lia|].
  rewrite IH by (cbn in Hw; lia). cbn. fold (list_sum (map (fun rc => fst rc * snd rc) (firstn w l))). lia.
Qed.
Lemma populate_spec (f : nat -> nat -> nat -> nat -> ores E (mat R)) : forall wh shapes size data d,
  length shapes = length wh -> populate junk f wh (data_offs size shapes) shapes data = inl d ->
  (forall k, k < size -> d k = data k) /\
  forall w a b r c, nth_error wh w = Some (a, b) -> nth_error shapes w = Some (r, c) ->
    exists m, f a r b c = inl m /\ forall i j, i < r -> j < c -> d (nth w (data_offs size shapes) 0 + i * c + j) = rdm m i j.
Proof.
  induction wh as [|[a b] wh IH]; intros shapes size data d HL Hp.
  - destruct shapes; [|discriminate]. cbn in Hp. injection Hp as <-. split; auto. intros w; destruct w; discriminate.
  - destruct shapes as [|[r c] shapes]; [discriminate|]. cbn [data_offs populate] in Hp.
    destruct (f a r b c) as [m|e] eqn:Ef; [|discriminate]. cbn [obind] in Hp.
    destruct (put_block_spec size r c m data) as [B1 B2].
    destruct (IH shapes (size + r * c) _ d (eq_add_S _ _ HL) Hp) as [I1 I2]. split.
    + intros k Hk. rewrite I1 by lia. apply B1. lia.
    + intros w a' b' r' c' Hw Hs. destruct w as [|w].
      * cbn in Hw, Hs. injection Hw as <- <-. injection Hs as <- <-. exists m. split; auto. intros i j Hi Hj.
        cbn [nth data_offs]. rewrite I1 by nia. apply B2; auto.
      * cbn in Hw, Hs. cbn [data_offs nth]. eapply I2; eauto.
Qed.
Lemma populate_ok (f : nat -> nat -> nat -> nat -> ores E (mat R)) : forall wh shapes doffs data,
  (forall w a b r c, nth_error wh w = Some (a, b) -> nth_error shapes w = Some (r, c) -> exists m, f a r b c = inl m) ->
  exists d, populate junk f wh doffs shapes data = inl d.
Proof.
  induction wh as [|[a b] wh IH]; intros shapes doffs data H; [eexists; reflexivity|].
  destruct doffs as [|o doffs]; [eexists; reflexivity|]. destruct shapes as [|[r c] shapes]; [eexists; reflexivity|].
  cbn [populate]. destruct (H 0 a b r c eq_refl eq_refl) as [m ->]. cbn [obind]. apply IH.
  intros w a' b' r' c' Hw Hs. exact (H (S w) a' b' r' c' Hw Hs).
Qed.

(** the blocks of a matrix created for [wh] *)
Lemma make_bsm_spec (f : nat -> nat -> nat -> nat -> ores E (mat R)) wh offs shapes b :
  length shapes = length wh -> make_bsm junk wh offs shapes f = inl b ->
  b_offs b = offs /\ b_shapes b = shapes /\
  forall w x y r c, nth_error wh w = Some (x, y) -> nth_error shapes w = Some (r, c) ->
    exists m, f x r y c = inl m /\ forall i j, i < r -> j < c -> bget b w (i * c + j) = rdm m i j.
Proof.
  unfold make_bsm. intros HL H. destruct (populate _ _ _ _ _ _) as [d|e] eqn:Ep; [|discriminate]. cbn in H. injection H as <-.
  cbn. split; [auto|]. split; [auto|]. intros w x y r c Hw Hs.
  destruct (populate_spec _ _ _ _ _ HL Ep) as [_ I2]. destruct (I2 w x y r c Hw Hs) as (m & Hm & Hd). exists m. split; auto.
  intros i j Hi Hj. unfold bget. cbn. rewrite Nat.add_assoc. apply Hd; auto.
Qed.
End Blocks.
