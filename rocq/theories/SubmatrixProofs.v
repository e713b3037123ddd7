(** * Proofs about hamiltonian_submatrix. *)
From Coq Require Import List Bool Arith ZArith Lia Permutation.
From Verif Require Import BuilderModel BuilderReach SystemModel SystemProofs SubmatrixModel.
Import ListNotations.
Set Implicit Arguments.

(** ** Folds with errors *)
Section Folds.
Variable E : Type.
Lemma sfold_inl_iff {W B} (f : list W -> B -> sres E (list W)) (P : B -> Prop) (g : B -> list W) l :
  (forall w x w', In x l -> (f w x = inl w' <-> P x /\ w' = w ++ g x)) ->
  forall w w', sfold f l w = inl w' <-> (Forall P l /\ w' = w ++ flat_map g l).
Proof.
  induction l as [|x l IH]; cbn [sfold flat_map]; intros H w w'.
  - rewrite app_nil_r. split; [intros [= <-]|intros (_ & ->)]; auto.
  - unfold sbind. split.
    + destruct (f w x) as [w1|e] eqn:Ef; [|discriminate].
      apply H in Ef; [|left; auto]. destruct Ef as (Px & ->).
      rewrite IH by (intros; apply H; right; auto). rewrite app_assoc. intros (HF & ->). auto.
    + intros (HF & ->). inversion HF; subst.
      rewrite (proj2 (H w x (w ++ g x) (or_introl eq_refl))) by auto.
      apply IH; [intros; apply H; right; auto|]. rewrite app_assoc. auto.
Qed.

(** Simulation with a resource: [R k a b] with [k] units used. *)
Lemma sfold_sim {A A' B} (cost : B -> nat) (cap : nat) (R : nat -> A -> A' -> Prop)
  (f : A -> B -> sres E A) (g : A' -> B -> sres E A') l :
  (forall k a b x, In x l -> R k a b -> k + cost x <= cap ->
     match f a x, g b x with
     | inl a', inl b' => R (k + cost x) a' b'
     | inr e, inr e' => e = e'
     | _, _ => False end) ->
  forall k a b, R k a b -> k + sum_nat cost l <= cap ->
     match sfold f l a, sfold g l b with
     | inl a', inl b' => R (k + sum_nat cost l) a' b'
     | inr e, inr e' => e = e'
     | _, _ => False end.
Proof.
  induction l as [|x l IH]; intros H k a b HR Hc; cbn [sfold].
  - unfold sum_nat; cbn. rewrite Nat.add_0_r. auto.
  - unfold sum_nat in *. cbn [map list_sum fold_right] in *.
    change (fold_right Nat.add 0 (map cost l)) with (list_sum (map cost l)) in *.
    assert (Hx : k + cost x <= cap) by lia.
    pose proof (H k a b x (or_introl eq_refl) HR Hx) as HH.
    destruct (f a x) as [a'|e], (g b x) as [b'|e']; cbn [sbind]; try contradiction; auto.
    rewrite Nat.add_assoc. apply IH; auto; [|lia]. intros; apply H; auto. right; auto.
Qed.
Lemma sfold_sim0 {A A' B} (R : A -> A' -> Prop) (f : A -> B -> sres E A) (g : A' -> B -> sres E A') l :
  (forall a b x, In x l -> R a b ->
     match f a x, g b x with inl a', inl b' => R a' b' | inr e, inr e' => e = e' | _, _ => False end) ->
  forall a b, R a b ->
     match sfold f l a, sfold g l b with inl a', inl b' => R a' b' | inr e, inr e' => e = e' | _, _ => False end.
Proof.
  induction l as [|x l IH]; intros H a b HR; cbn [sfold]; [auto|].
  pose proof (H a b x (or_introl eq_refl) HR) as HH.
  destruct (f a x) as [a'|e], (g b x) as [b'|e']; cbn [sbind]; try contradiction; auto.
  apply IH; auto. intros; apply H; auto. right; auto.
Qed.
Lemma smap_inl {A B} (f : A -> sres E B) l r : smap f l = inl r <-> Forall2 (fun x y => f x = inl y) l r.
Proof.
  revert r; induction l as [|x l IH]; cbn; intros r; split.
  - intros [= <-]. constructor.
  - intros H; inversion H; auto.
  - destruct (f x) as [y|] eqn:Ef; cbn [sbind]; [|discriminate]. destruct (smap f l) as [r'|] eqn:Em; cbn [sbind]; [|discriminate].
    intros [= <-]. constructor; auto. apply IH; auto.
  - intros H; inversion H as [|? y ? r' Hx HF]; subst. rewrite Hx. cbn [sbind]. rewrite (proj2 (IH r') HF). reflexivity.
Qed.
Lemma smap_total {A B} (f : A -> sres E B) l : (forall x, In x l -> exists y, f x = inl y) -> exists r, smap f l = inl r.
Proof.
  induction l as [|x l IH]; cbn; intros H; [eauto|].
  destruct (H x (or_introl eq_refl)) as (y & Hy). rewrite Hy. cbn [sbind].
  destruct IH as (r & Hr); [intros; apply H; auto|]. rewrite Hr. cbn. eauto.
Qed.
End Folds.

(** ** Offsets *)
Lemma cumsum_nth l : forall s k, k < length l -> nth k (cumsum_from s l) 0 = s + list_sum (firstn (S k) l).
Proof.
  induction l as [|x l IH]; cbn [length]; intros s k H; [lia|].
  destruct k; cbn [cumsum_from nth firstn list_sum fold_right]; [cbn; lia|].
  change (fold_right Nat.add 0) with list_sum.
  rewrite IH by lia. destruct l; [cbn in *; lia|]. cbn [firstn list_sum fold_right]. lia.
Qed.
Lemma cumsum_length l : forall s, length (cumsum_from s l) = length l.
Proof. induction l; cbn; auto. Qed.
Lemma off_nth l k : k <= length l -> nth k (offsets l) 0 = list_sum (firstn k l).
Proof. intros H. unfold offsets. destruct k; [reflexivity|]. cbn [nth]. rewrite cumsum_nth by lia. reflexivity. Qed.
Lemma last_nth {A} (l : list A) d : last l d = nth (length l - 1) l d.
Proof.
  induction l as [|x l IH]; [reflexivity|]. destruct l as [|y l]; [reflexivity|].
  change (last (x :: y :: l) d) with (last (y :: l) d). rewrite IH. cbn [length].
  replace (S (S (length l)) - 1) with (S (S (length l) - 1)) by lia. reflexivity.
Qed.
Lemma off_last l : last (offsets l) 0 = list_sum l.
Proof.
  rewrite last_nth. unfold offsets. cbn [length]. rewrite cumsum_length. replace (S (length l) - 1) with (length l) by lia.
  change (nth (length l) (offsets l) 0 = list_sum l). rewrite off_nth by lia. rewrite firstn_all. auto.
Qed.
Lemma firstn_S_sum l k : k < length l -> list_sum (firstn (S k) l) = list_sum (firstn k l) + nth k l 0.
Proof.
  revert k; induction l as [|x l IH]; cbn [length]; intros k H; [lia|].
  destruct k; [cbn; lia|]. rewrite !firstn_cons. cbn [list_sum fold_right nth]. change (fold_right Nat.add 0) with list_sum.
  rewrite IH by lia. lia.
Qed.
Lemma off_mono l k k' : k <= k' -> list_sum (firstn k l) <= list_sum (firstn k' l).
Proof.
  revert k k'; induction l as [|x l IH]; intros k k' H; [rewrite !firstn_nil; auto|].
  destruct k; [cbn; lia|]. destruct k'; [lia|]. rewrite !firstn_cons. cbn [list_sum fold_right].
  change (fold_right Nat.add 0) with list_sum. specialize (IH k k'). lia.
Qed.
(** The position of a row determines block and row within the block. *)
Lemma off_inj l p p' a a' : p < length l -> p' < length l -> a < nth p l 0 -> a' < nth p' l 0 ->
  list_sum (firstn p l) + a = list_sum (firstn p' l) + a' -> p = p' /\ a = a'.
Proof.
  intros Hp Hp' Ha Ha' He.
  destruct (lt_eq_lt_dec p p') as [[H|H]|H].
  - exfalso. pose proof (@off_mono l (S p) p' H). rewrite firstn_S_sum in * by auto. lia.
  - subst. split; auto. lia.
  - exfalso. pose proof (@off_mono l (S p') p H). rewrite firstn_S_sum in * by auto. lia.
Qed.
Lemma off_in l p a : p < length l -> a < nth p l 0 -> list_sum (firstn p l) + a < list_sum l.
Proof.
  intros Hp Ha. pose proof (@off_mono l (S p) (length l) Hp) as H. rewrite firstn_all, firstn_S_sum in H by auto. lia.
Qed.
(** ... and every row is of this form. *)
Lemma off_cover l i : i < list_sum l -> exists p a, p < length l /\ a < nth p l 0 /\ i = list_sum (firstn p l) + a.
Proof.
  revert i; induction l as [|x l IH]; intros i H; [cbn in H; lia|].
  cbn [list_sum fold_right] in H. change (fold_right Nat.add 0) with list_sum in H.
  destruct (Nat.lt_ge_cases i x) as [Hx|Hx].
  - exists 0, i. cbn. repeat split; auto; lia.
  - destruct (IH (i - x)) as (p & a & H1 & H2 & H3); [lia|]. exists (S p), a.
    rewrite firstn_cons. cbn [length nth list_sum fold_right]. change (fold_right Nat.add 0) with list_sum. repeat split; auto; lia.
Qed.

(** ** Block writes *)
Section Writes.
Variable K : Type.
Variable k0 : K.
Variable kadd : K -> K -> K.
Variable kconj : K -> K.
Variable isz : K -> bool.
Variable E : Type.
Hypothesis isz_spec : forall x, isz x = true <-> x = k0.
Hypothesis add_0_l : forall x, kadd k0 x = x.
Hypothesis conj_0 : kconj k0 = k0.
Notation mat := (mat K).
Notation write := (nat * nat * mat)%type.

Variables (tn fn : list nat).             (* numbers of orbitals of rows and columns *)
Notation oT p := (list_sum (firstn p tn)).
Notation oF q := (list_sum (firstn q fn)).
Definition fits (w : write) : Prop := let '(p, q, h) := w in
  p < length tn /\ q < length fn /\ mr h = nth p tn 0 /\ mc h = nth q fn 0.

Definition wr (m : mat) (w : write) : mat := let '(p, q, h) := w in
  mkMat (mr m) (mc m) (fun i j =>
    if (nth p (offsets tn) 0 <=? i) && (i <? nth (p + 1) (offsets tn) 0) && (nth q (offsets fn) 0 <=? j) && (j <? nth (q + 1) (offsets fn) 0)
    then mget h (i - nth p (offsets tn) 0) (j - nth q (offsets fn) 0) else mget m i j).

Lemma assign_wr m p q h : fits (p, q, h) ->
  assign_slice E m (nth p (offsets tn) 0) (nth (p + 1) (offsets tn) 0) (nth q (offsets fn) 0) (nth (q + 1) (offsets fn) 0) h
  = inl (wr m (p, q, h)).
Proof.
  intros (H1 & H2 & H3 & H4). unfold assign_slice.
  rewrite (Nat.add_1_r p), (Nat.add_1_r q). rewrite !off_nth by lia. rewrite !firstn_S_sum by auto.
  rewrite (proj2 (Nat.eqb_eq _ _)) by lia. rewrite (proj2 (Nat.eqb_eq _ _)) by lia. cbn [andb].
  unfold wr. rewrite (Nat.add_1_r p), (Nat.add_1_r q). rewrite !off_nth by lia. rewrite !firstn_S_sum by auto. reflexivity.
Qed.

Lemma wr_get m p q h p' q' a b : fits (p, q, h) -> p' < length tn -> q' < length fn -> a < nth p' tn 0 -> b < nth q' fn 0 ->
  mget (wr m (p, q, h)) (oT p' + a) (oF q' + b) =
  if (p =? p') && (q =? q') then mget h a b else mget m (oT p' + a) (oF q' + b).
Proof.
  intros (H1 & H2 & H3 & H4) Hp Hq Ha Hb. cbn [wr mget].
  rewrite (Nat.add_1_r p), (Nat.add_1_r q). rewrite !off_nth by lia. rewrite !firstn_S_sum by auto.
  destruct (Nat.eqb_spec p p') as [->|Hne]; cbn [andb].
  - replace (oT p' <=? oT p' + a) with true by (symmetry; apply Nat.leb_le; lia).
    replace (oT p' + a <? oT p' + nth p' tn 0) with true by (symmetry; apply Nat.ltb_lt; lia). cbn [andb].
    destruct (Nat.eqb_spec q q') as [->|Hne].
    + replace (oF q' <=? oF q' + b) with true by (symmetry; apply Nat.leb_le; lia).
      replace (oF q' + b <? oF q' + nth q' fn 0) with true by (symmetry; apply Nat.ltb_lt; lia). cbn [andb].
      f_equal; lia.
    + destruct (Nat.leb_spec (oF q) (oF q' + b)); cbn [andb]; auto.
      destruct (Nat.ltb_spec (oF q' + b) (oF q + nth q fn 0)); cbn [andb]; auto.
      exfalso. apply Hne. eapply off_inj with (a := oF q' + b - oF q) (a' := b); eauto; lia.
  - destruct (Nat.leb_spec (oT p) (oT p' + a)); cbn [andb]; auto.
    destruct (Nat.ltb_spec (oT p' + a) (oT p + nth p tn 0)); cbn [andb]; auto.
    exfalso. apply Hne. eapply off_inj with (a := oT p' + a - oT p) (a' := a); eauto; lia.
Qed.

Lemma wr_shape ws : forall m, mr (fold_left wr ws m) = mr m /\ mc (fold_left wr ws m) = mc m.
Proof. induction ws as [|[[p q] h] ws IH]; intros m; [auto|]. cbn [fold_left]. destruct (IH (wr m (p, q, h))) as (-> & ->). auto. Qed.

(** The content of a block: what was written there (if all writes to the block
    agree), or what was there before. *)
Lemma wrs_get ws p q a b : Forall fits ws -> p < length tn -> q < length fn -> a < nth p tn 0 -> b < nth q fn 0 ->
  forall m v, (forall h, In (p, q, h) ws -> mget h a b = v) ->
  mget (fold_left wr ws m) (oT p + a) (oF q + b) =
  if existsb (fun w : write => (fst (fst w) =? p) && (snd (fst w) =? q)) ws then v else mget m (oT p + a) (oF q + b).
Proof.
  intros HF Hp Hq Ha Hb. induction ws as [|[[p' q'] h] ws IH]; intros m v Hv; [reflexivity|].
  inversion HF as [|? ? Hw HF']; subst. cbn [fold_left existsb fst snd].
  rewrite (IH HF' _ v) by (intros; apply Hv; right; auto).
  rewrite (wr_get m Hw Hp Hq Ha Hb).
  destruct (existsb _ ws) eqn:Ex; [rewrite orb_true_r; auto|]. rewrite orb_false_r.
  destruct (Nat.eqb_spec p' p) as [->|]; cbn [andb]; auto. destruct (Nat.eqb_spec q' q) as [->|]; cbn [andb]; auto.
  apply Hv. left; auto.
Qed.

(** ** Sparse entries *)
Definition block_entries (w : write) : coo K := let '(p, q, h) := w in
  flat_map (fun ij : nat * nat => let v := mget h (fst ij) (snd ij) in
     if isz v then [] else [(fst ij + oT p, snd ij + oF q, v)]) (indices h).

Definition at_ (i j : nat) (e : nat * nat * K) : bool := (fst (fst e) =? i) && (snd (fst e) =? j).

Lemma coo_get_filter m i j : coo_get k0 kadd m i j = fold_left kadd (map snd (filter (at_ i j) (centries m))) k0.
Proof.
  unfold coo_get. generalize k0. induction (centries m) as [|e l IH]; intros s; [reflexivity|].
  cbn [fold_left filter]. fold (at_ i j e). destruct (at_ i j e); cbn [map fold_left]; auto.
Qed.

Lemma filter_none {A} (f : A -> bool) l : (forall x, In x l -> f x = false) -> filter f l = [].
Proof. induction l as [|x l IH]; cbn; intros H; [auto|]. rewrite (H x) by auto. auto. Qed.

Lemma filter_flat_map {A B} (f : B -> bool) (g : A -> list B) l : filter f (flat_map g l) = flat_map (fun x => filter f (g x)) l.
Proof. induction l as [|x l IH]; cbn; [auto|]. rewrite filter_app, IH. auto. Qed.
Lemma flat_map_none {A B} (g : A -> list B) l : (forall x, In x l -> g x = []) -> flat_map g l = [].
Proof. induction l as [|x l IH]; cbn; intros H; [auto|]. rewrite (H x), IH by auto. auto. Qed.
(** a flat_map in which only one (non-repeated) element contributes *)
Lemma flat_map_one {A B} (dec : forall x y : A, {x = y} + {x <> y}) (g : A -> list B) l x : NoDup l -> In x l ->
  (forall y, In y l -> y <> x -> g y = []) -> flat_map g l = g x.
Proof.
  induction l as [|y l IH]; cbn; intros Hnd Hin H; [tauto|]. inversion Hnd; subst.
  destruct (dec y x) as [->|Hne].
  - rewrite flat_map_none, app_nil_r; auto. intros z Hz. apply H; auto. intros ->. contradiction.
  - rewrite (H y) by auto. cbn. apply IH; auto. destruct Hin; [contradiction|auto].
Qed.

Definition pair_dec : forall x y : nat * nat, {x = y} + {x <> y}.
Proof. decide equality; apply Nat.eq_dec. Defined.

Lemma indices_NoDup (h : mat) : NoDup (indices h).
Proof.
  unfold indices. generalize (seq_NoDup (mc h) 0). generalize (seq 0 (mc h)). intros l2 H2.
  generalize (seq_NoDup (mr h) 0). generalize (seq 0 (mr h)). intros l1 H1.
  induction H1 as [|x l1 Hx H1 IH]; cbn; [constructor|].
  apply NoDup_app; auto.
  - apply FinFun.Injective_map_NoDup; auto. intros ? ? [=]; auto.
  - intros [u v] Hin Hin'. apply in_map_iff in Hin. destruct Hin as (? & [= <- <-] & _).
    apply in_prod_iff in Hin'. tauto.
Qed.
Lemma indices_in (h : mat) a b : In (a, b) (indices h) <-> a < mr h /\ b < mc h.
Proof. unfold indices. rewrite in_prod_iff, !in_seq. lia. Qed.

Lemma block_at p q h p' q' a b : fits (p, q, h) -> p' < length tn -> q' < length fn -> a < nth p' tn 0 -> b < nth q' fn 0 ->
  filter (at_ (oT p' + a) (oF q' + b)) (block_entries (p, q, h)) =
  if (p =? p') && (q =? q') then
    (if isz (mget h a b) then [] else [(oT p' + a, oF q' + b, mget h a b)]) else [].
Proof.
  intros (H1 & H2 & H3 & H4) Hp Hq Ha Hb. unfold block_entries. rewrite filter_flat_map.
  destruct ((p =? p') && (q =? q')) eqn:Epq.
  - apply andb_true_iff in Epq. destruct Epq as (Ep%Nat.eqb_eq & Eq%Nat.eqb_eq). subst p' q'.
    rewrite (@flat_map_one _ _ pair_dec _ (indices h) (a, b)).
    + cbn [fst snd]. destruct (isz _); [reflexivity|]. cbn [filter]. unfold at_ at 1. cbn [fst snd].
      rewrite (Nat.add_comm a), (Nat.add_comm b), !Nat.eqb_refl. cbn [andb]. auto.
    + apply indices_NoDup.
    + apply indices_in. lia.
    + intros [i j] Hin Hne. apply indices_in in Hin. cbn [fst snd]. destruct (isz _); [reflexivity|].
      cbn [filter]. unfold at_. cbn [fst snd].
      destruct (Nat.eqb_spec (i + oT p) (oT p + a)), (Nat.eqb_spec (j + oF q) (oF q + b)); cbn [andb]; auto.
      exfalso. apply Hne. f_equal; lia.
  - apply flat_map_none. intros [i j] Hin. apply indices_in in Hin. cbn [fst snd]. destruct (isz _); [reflexivity|].
    cbn [filter]. unfold at_. cbn [fst snd].
    destruct (Nat.eqb_spec (i + oT p) (oT p' + a)) as [e|]; cbn [andb]; auto.
    destruct (Nat.eqb_spec (j + oF q) (oF q' + b)) as [e'|]; cbn [andb]; auto. exfalso.
    destruct (@off_inj tn p p' i a) as (-> & _); auto; try lia.
    destruct (@off_inj fn q q' j b) as (-> & _); auto; try lia. rewrite !Nat.eqb_refl in Epq. discriminate.
Qed.

(** The entry of the sparse matrix made of block writes, each to another block. *)
Lemma coo_blocks ws m p q a b : Forall fits ws -> NoDup (map fst ws) -> Permutation (centries m) (flat_map block_entries ws) ->
  p < length tn -> q < length fn -> a < nth p tn 0 -> b < nth q fn 0 ->
  coo_get k0 kadd m (oT p + a) (oF q + b) = mget (fold_left wr ws (mzero k0 (list_sum tn) (list_sum fn))) (oT p + a) (oF q + b).
Proof.
  intros HF Hnd HP Hp Hq Ha Hb. rewrite coo_get_filter.
  assert (HP' : Permutation (filter (at_ (oT p + a) (oF q + b)) (centries m)) (filter (at_ (oT p + a) (oF q + b)) (flat_map block_entries ws))).
  { clear -HP. induction HP; cbn; auto.
    - destruct (at_ _ _ x); auto.
    - destruct (at_ _ _ x), (at_ _ _ y); auto. constructor.
    - etransitivity; eauto. }
  rewrite filter_flat_map in HP'.
  assert (HU : forall h h', In (p, q, h) ws -> In (p, q, h') ws -> h = h').
  { clear -Hnd. intros h h' H H'. induction ws as [|w ws IH]; cbn in *; [tauto|]. inversion Hnd; subst.
    destruct H as [->|H], H' as [E'|H']; try congruence; auto.
    - exfalso. apply H2. apply in_map_iff. eexists; split; [|eauto]. reflexivity.
    - subst w. exfalso. apply H2. apply in_map_iff. eexists; split; [|eauto]. reflexivity. }
  destruct (existsb (fun w : write => (fst (fst w) =? p) && (snd (fst w) =? q)) ws) eqn:Ex.
  - apply existsb_exists in Ex. destruct Ex as ([[p1 q1] h] & Hin & Hw). cbn in Hw.
    apply andb_true_iff in Hw. destruct Hw as (->%Nat.eqb_eq & ->%Nat.eqb_eq).
    rewrite (@wrs_get ws p q a b HF Hp Hq Ha Hb _ (mget h a b)) by (intros h' H'; rewrite (HU h' h); auto).
    replace (existsb _ ws) with true
      by (symmetry; apply existsb_exists; exists (p, q, h); split; auto; cbn; rewrite !Nat.eqb_refl; auto).
    assert (HS : exists l1 l2, ws = l1 ++ (p, q, h) :: l2) by (apply in_split; auto). destruct HS as (l1 & l2 & ->).
    rewrite map_app in Hnd. cbn [map] in Hnd. pose proof (NoDup_remove_2 _ _ _ Hnd) as Hno.
    rewrite flat_map_app in HP'. cbn [flat_map] in HP'.
    rewrite Forall_app in HF. destruct HF as (HF1 & HF2). inversion HF2 as [|? ? Hh HF3]; subst.
    assert (Hz : forall l, Forall fits l -> (forall w, In w l -> In (fst w) (map fst l1 ++ map fst l2)) ->
      flat_map (fun w => filter (at_ (oT p + a) (oF q + b)) (block_entries w)) l = []).
    { intros l Hl Hi. apply flat_map_none. intros [[p' q'] h'] Hw. rewrite block_at; auto.
      - destruct ((p' =? p) && (q' =? q)) eqn:Epq; auto. exfalso. apply andb_true_iff in Epq.
        destruct Epq as (->%Nat.eqb_eq & ->%Nat.eqb_eq). apply Hno. apply (Hi _ Hw).
      - rewrite Forall_forall in Hl. apply Hl; auto. }
    rewrite (Hz l1 HF1) in HP' by (intros w Hw; apply in_or_app; left; apply in_map; auto).
    rewrite (Hz l2 HF3) in HP' by (intros w Hw; apply in_or_app; right; apply in_map; auto).
    rewrite app_nil_r in HP'. cbn [app] in HP'. rewrite block_at in HP' by auto. rewrite !Nat.eqb_refl in HP'. cbn [andb] in HP'.
    destruct (isz (mget h a b)) eqn:Ez.
    + apply Permutation_sym, Permutation_nil in HP'. rewrite HP'. cbn. symmetry. apply isz_spec; auto.
    + apply Permutation_sym, Permutation_length_1_inv in HP'. rewrite HP'. cbn. apply add_0_l.
  - rewrite (@wrs_get ws p q a b HF Hp Hq Ha Hb _ k0).
    + rewrite Ex. cbn [mget mzero].
      rewrite flat_map_none in HP'.
      * apply Permutation_sym, Permutation_nil in HP'. rewrite HP'. reflexivity.
      * intros [[p' q'] h'] Hw. rewrite block_at; auto; [|rewrite Forall_forall in HF; apply HF; auto].
        destruct ((p' =? p) && (q' =? q)) eqn:Epq; auto. exfalso.
        assert (existsb (fun w : write => (fst (fst w) =? p) && (snd (fst w) =? q)) ws = true)
          by (apply existsb_exists; exists (p', q', h'); auto). congruence.
    + intros h Hin. exfalso.
      assert (existsb (fun w : write => (fst (fst w) =? p) && (snd (fst w) =? q)) ws = true)
        by (apply existsb_exists; exists (p, q, h); split; auto; cbn; rewrite !Nat.eqb_refl; auto). congruence.
Qed.

(** Pushing a block into the buffer. *)
Lemma push_gen (entries : nat * nat -> coo K) cap (f : coo K -> nat * nat -> sres E (coo K)) (per : nat) l :
  (forall ij, length (entries ij) <= per) ->
  (forall b ij, length b + per <= cap -> f b ij = inl (rev (entries ij) ++ b)) ->
  forall b, length b + per * length l <= cap -> sfold f l b = inl (rev (flat_map entries l) ++ b) /\
    length (rev (flat_map entries l) ++ b) <= length b + per * length l.
Proof.
  intros Hl Hf. induction l as [|x l IH]; intros b Hb; cbn [sfold flat_map length] in *; [cbn; split; auto; lia|].
  assert (Hs : per * S (length l) = per + per * length l) by lia.
  rewrite Hf by lia. cbn [sbind].
  pose proof (Hl x). destruct (IH (rev (entries x) ++ b)) as (-> & Hle); [rewrite app_length, rev_length; lia|].
  rewrite rev_app_distr, <- app_assoc. split; [auto|]. rewrite (app_length (rev (entries x)) b), rev_length in Hle. lia.
Qed.
Lemma indices_length (h : mat) : length (indices h) = mr h * mc h.
Proof. unfold indices. rewrite prod_length, !seq_length. auto. Qed.

Lemma push_block_ok cap p q h b : length b + mr h * mc h <= cap ->
  push_block isz E cap (oT p) (oF q) h b = inl (rev (block_entries (p, q, h)) ++ b) /\
  length (rev (block_entries (p, q, h)) ++ b) <= length b + mr h * mc h.
Proof.
  intros H. unfold push_block. rewrite <- indices_length in *.
  destruct (@push_gen (fun ij : nat * nat => let v := mget h (fst ij) (snd ij) in
     if isz v then [] else [(fst ij + oT p, snd ij + oF q, v)]) cap
     (fun b ij => let v := mget h (fst ij) (snd ij) in
           if isz v then inl b else push E cap b (fst ij + oT p, snd ij + oF q, v)) 1 (indices h)) with (b := b) as (HA & HB).
  - intros ij. cbn. destruct (isz _); cbn; lia.
  - intros b' ij Hb'. cbn. destruct (isz _); [reflexivity|]. unfold push. rewrite (proj2 (Nat.ltb_lt _ _)) by lia. reflexivity.
  - lia.
  - cbn [block_entries]. rewrite Nat.mul_1_l in HB. split; [exact HA|exact HB].
Qed.
End Writes.
