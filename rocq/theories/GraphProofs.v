(** * Correctness of graph compression (C16-C19): the CSR arrays. *)
From Coq Require Import List Bool Arith ZArith Lia.
From Verif Require Import GraphModel CountingSort.
Import ListNotations.
Set Implicit Arguments.

(** ** Arrays *)
Definition isarr (a : arr) (m : nat) (f : nat -> Z) : Prop :=
  length a = m /\ forall i, i < m -> nth_error a i = Some (f i).

Lemma upd_length a n v : length (upd a n v) = length a.
Proof. revert n. induction a; intros [|n]; cbn; auto. Qed.
Lemma nth_upd a n v m : n < length a ->
  nth_error (upd a n v) m = if m =? n then Some v else nth_error a m.
Proof.
  revert n m. induction a as [|x a IH]; intros [|n] [|m] H; cbn in *; try lia; auto.
  rewrite IH by lia. reflexivity.
Qed.
Lemma aget_nth a i v : nth_error a i = Some v -> aget a (Z.of_nat i) = inl v.
Proof.
  intros H. unfold aget. destruct (Z.ltb_spec (Z.of_nat i) 0); [lia|].
  rewrite Nat2Z.id, H. reflexivity.
Qed.
Lemma aset_ok a i v : i < length a -> aset a (Z.of_nat i) v = inl (upd a i v).
Proof.
  intros H. unfold aset. destruct (Z.leb_spec 0 (Z.of_nat i)); [|lia].
  destruct (Z.ltb_spec (Z.of_nat i) (Z.of_nat (length a))); [|lia].
  cbn. rewrite Nat2Z.id. reflexivity.
Qed.
Lemma isarr_get a m f i : isarr a m f -> i < m -> aget a (Z.of_nat i) = inl (f i).
Proof. intros [_ H] Hi. apply aget_nth. auto. Qed.
Lemma isarr_set a m f i v : isarr a m f -> i < m ->
  exists a', aset a (Z.of_nat i) v = inl a' /\ isarr a' m (fun j => if j =? i then v else f j).
Proof.
  intros [Hl H] Hi. exists (upd a i v). rewrite aset_ok by lia. split; [auto|]. split.
  - rewrite upd_length. auto.
  - intros j Hj. rewrite nth_upd by lia. destruct (j =? i); auto.
Qed.
Lemma isarr_ext a m f f' : isarr a m f -> (forall i, i < m -> f i = f' i) -> isarr a m f'.
Proof. intros [Hl H] He. split; auto. intros i Hi. rewrite H, He by auto. reflexivity. Qed.
Lemma isarr_repeat m : isarr (repeat 0%Z m) m (fun _ => 0%Z).
Proof.
  split; [apply repeat_length|]. intros i Hi; cbv beta. rewrite nth_error_repeat by auto. reflexivity.
Qed.

Notation edge := (Z * Z)%type.

(** ** Well-formed graphs *)
Definition count (p : edge -> bool) (l : list edge) : nat := length (filter p l).
Definition tpos (e : edge) : bool := (0 <=? fst e)%Z.
Definition hpos (e : edge) : bool := (0 <=? snd e)%Z.

Record WFg (g : graph) : Prop := mkWFg {
  g_n   : (0 <= num_nodes g)%Z;
  g_lt  : forall t h, In (t, h) (edges g) -> (t < num_nodes g /\ h < num_nodes g)%Z;
  g_one : forall t h, In (t, h) (edges g) -> (0 <= t \/ 0 <= h)%Z;
  g_pp  : num_pp_edges g = Z.of_nat (count (fun e => tpos e && hpos e) (edges g));
  g_pn  : num_pn_edges g = Z.of_nat (count (fun e => tpos e && negb (hpos e)) (edges g));
  g_np  : num_np_edges g = Z.of_nat (count (fun e => negb (tpos e)) (edges g)) }.

Lemma count_app p l l' : count p (l ++ l') = count p l + count p l'.
Proof. unfold count. rewrite filter_app, app_length. reflexivity. Qed.

Lemma WFg_new b : WFg (new_graph b).
Proof. split; cbn; try reflexivity; try lia; intros ? ? []. Qed.

Lemma WFg_set g v : WFg g -> WFg (fst (set_num_nodes g v)).
Proof.
  intros W. unfold set_num_nodes. destruct (Z.ltb_spec v (num_nodes g)); [exact W|].
  destruct W. split; cbn; auto; try lia. intros t h Hi. apply g_lt0 in Hi. lia.
Qed.

Lemma WFg_add g t h : WFg g -> WFg (fst (add_edge g t h)).
Proof.
  intros W. unfold add_edge.
  destruct (_ && negb (allow_negative_nodes g)) eqn:E1; [exact W|].
  destruct ((t <? 0)%Z && (h <? 0)%Z) eqn:E2; [exact W|].
  assert (Ht : tpos (t, h) = negb (t <? 0)%Z).
  { unfold tpos; cbn. destruct (Z.leb_spec 0 t), (Z.ltb_spec t 0); auto; lia. }
  assert (Hh : hpos (t, h) = negb (h <? 0)%Z).
  { unfold hpos; cbn. destruct (Z.leb_spec 0 h), (Z.ltb_spec h 0); auto; lia. }
  destruct W. split; cbn [fst num_nodes edges num_pp_edges num_pn_edges num_np_edges].
  - lia.
  - intros a b Hi. apply in_app_or in Hi. destruct Hi as [Hi|[[= <- <-]|[]]]; [apply g_lt0 in Hi; lia|lia].
  - intros a b Hi. apply in_app_or in Hi. destruct Hi as [Hi|[[= <- <-]|[]]]; [eauto|].
    destruct (Z.ltb_spec t 0), (Z.ltb_spec h 0); cbn in E2; try discriminate; lia.
  - rewrite count_app, g_pp0. unfold count at 3. cbn [filter]. rewrite Ht, Hh.
    destruct (t <? 0)%Z, (h <? 0)%Z; cbn [andb orb negb length] in *; try discriminate; lia.
  - rewrite count_app, g_pn0. unfold count at 3. cbn [filter]. rewrite Ht, Hh.
    destruct (t <? 0)%Z, (h <? 0)%Z; cbn [andb orb negb length] in *; try discriminate; lia.
  - rewrite count_app, g_np0. unfold count at 3. cbn [filter]. rewrite Ht.
    destruct (t <? 0)%Z, (h <? 0)%Z; cbn [andb orb negb length] in *; try discriminate; lia.
Qed.

Section Compress.
Variable g : graph.
Hypothesis W : WFg g.
Variable tw ent : bool.
Variable junk : nat -> nat -> Z.
Notation E := (edges g).
Notation n := (Z.to_nat (num_nodes g)).
Let HnZ : Z.of_nat n = num_nodes g. Proof. apply Z2Nat.id, (g_n W). Qed.

Definition hkey (e : edge) : option nat :=
  if (0 <=? fst e)%Z then Some (Z.to_nat (fst e)) else if tw then Some n else None.
Definition tkey (e : edge) : option nat :=
  if (0 <=? snd e)%Z then Some (Z.to_nat (snd e)) else None.
Definition eid (k : nat) (e : edge) : Z :=
  match hkey e with Some t => Z.of_nat (posn hkey E t k) | None => (-1)%Z end.

Notation hoff t := (off hkey t E).
Notation toff t := (off tkey t E).

Lemma hkey_lt e t : In e E -> hkey e = Some t -> t < S n.
Proof.
  destruct e as [a b]. intros Hi. apply (g_lt W) in Hi. unfold hkey. cbn [fst].
  destruct (Z.leb_spec 0 a); [intros [= <-]; lia|]. destruct tw; [intros [= <-]; lia|discriminate].
Qed.
Lemma tkey_lt e t : In e E -> tkey e = Some t -> t < n.
Proof.
  destruct e as [a b]. intros Hi. apply (g_lt W) in Hi. unfold tkey. cbn [snd].
  destruct (Z.leb_spec 0 b); [intros [= <-]; lia|discriminate].
Qed.

Lemma filter_length_ext {X} (p q : X -> bool) l : (forall x, In x l -> p x = q x) ->
  length (filter p l) = length (filter q l).
Proof.
  intros H. induction l as [|x l IH]; auto. cbn. rewrite (H x) by (left; auto).
  destruct (q x); cbn; rewrite IH by (intros; apply H; right; auto); auto.
Qed.
Lemma count_split p q l : count p l = count (fun e => p e && q e) l + count (fun e => p e && negb (q e)) l.
Proof.
  unfold count. induction l as [|x l IH]; auto. cbn. destruct (p x), (q x); cbn; lia.
Qed.
Lemma count_neg p l : count p l + count (fun e => negb (p e)) l = length l.
Proof. unfold count. induction l as [|x l IH]; auto. cbn. destruct (p x); cbn; lia. Qed.

Lemma px_eq : (num_pp_edges g + num_pn_edges g)%Z = Z.of_nat (hoff n).
Proof.
  rewrite (g_pp W), (g_pn W), <- Nat2Z.inj_add. f_equal.
  rewrite <- (count_split tpos hpos). rewrite off_total. apply filter_length_ext.
  intros [a b] Hi. apply (g_lt W) in Hi. unfold tpos, hkey. cbn [fst snd].
  destruct (Z.leb_spec 0 a).
  - symmetry. apply Nat.ltb_lt. lia.
  - destruct tw; [symmetry; apply Nat.ltb_ge; lia|reflexivity].
Qed.
Lemma px_count : hoff n = count tpos E.
Proof.
  rewrite off_total. apply filter_length_ext.
  intros [a b] Hi. apply (g_lt W) in Hi. unfold tpos, hkey. cbn [fst snd].
  destruct (Z.leb_spec 0 a).
  - apply Nat.ltb_lt. lia.
  - destruct tw; [apply Nat.ltb_ge; lia|reflexivity].
Qed.
Lemma size_eq : Z.of_nat (length E) = (num_pp_edges g + num_pn_edges g + num_np_edges g)%Z.
Proof.
  rewrite px_eq, px_count, (g_np W). rewrite <- (count_neg tpos E). lia.
Qed.
Lemma ne_eq : (if tw then num_pp_edges g + num_pn_edges g + num_np_edges g else num_pp_edges g + num_pn_edges g)%Z
  = Z.of_nat (hoff (S n)).
Proof.
  destruct tw eqn:Etw.
  - rewrite <- size_eq. f_equal. rewrite off_total.
    rewrite <- (filter_length_ext (fun _ => true)).
    + clear. induction E; cbn; auto.
    + intros [a b] Hi. apply (g_lt W) in Hi. unfold hkey. rewrite Etw. cbn [fst].
      destruct (Z.leb_spec 0 a); symmetry; apply Nat.ltb_lt; lia.
  - rewrite px_eq. f_equal. cbn [off]. rewrite <- (Nat.add_0_r (off hkey n E)) at 1. f_equal.
    unfold cnt, bucket. symmetry. apply length_zero_iff_nil.
    assert (H : forall e, In e E -> keyb hkey n e = false).
    { intros [a b] Hi. apply (g_lt W) in Hi. unfold keyb, hkey. rewrite Etw. cbn [fst].
      destruct (Z.leb_spec 0 a); [|reflexivity]. apply Nat.eqb_neq. lia. }
    induction E as [|e l IH]; auto. cbn. rewrite (H e) by (left; auto). apply IH.
    intros; apply H; right; auto.
Qed.
Lemma xp_eq : tw = true -> (num_pp_edges g + num_np_edges g)%Z = Z.of_nat (toff n).
Proof.
  intros _. rewrite (g_pp W), (g_np W), <- Nat2Z.inj_add. f_equal.
  rewrite off_total.
  transitivity (count hpos E).
  - rewrite (count_split hpos tpos). f_equal.
    + apply filter_length_ext. intros; apply andb_comm.
    + apply filter_length_ext. intros [a b] Hi. apply (g_one W) in Hi. unfold tpos, hpos. cbn [fst snd].
      destruct (Z.leb_spec 0 a), (Z.leb_spec 0 b); auto; lia.
  - apply filter_length_ext. intros [a b] Hi. apply (g_lt W) in Hi. unfold hpos, tkey. cbn [snd].
    destruct (Z.leb_spec 0 b); [symmetry; apply Nat.ltb_lt; lia|reflexivity].
Qed.

(** *** Histograms *)
Definition hist (key : edge -> option nat) (P : list edge) (i : nat) : Z :=
  match i with O => 0%Z | S t => Z.of_nat (cnt key t P) end.

Lemma incr_spec a m f i : isarr a m f -> i < m ->
  exists a', incr a (Z.of_nat i) = inl a' /\ isarr a' m (fun j => if j =? i then (f i + 1)%Z else f j).
Proof. intros H Hi. unfold incr. rewrite (isarr_get H Hi). cbn. apply isarr_set; auto. Qed.

Lemma hist_other key P e i : (forall t, i = S t -> keyb key t e = false) ->
  hist key (P ++ [e]) i = hist key P i.
Proof. destruct i as [|t]; intros H; auto. cbn. rewrite cnt_app, cnt_one, (H t eq_refl). f_equal. lia. Qed.

Lemma hist_incr key P e x a m : isarr a (S m) (hist key P) -> (0 <= x < Z.of_nat m)%Z ->
  key e = Some (Z.to_nat x) ->
  exists a', incr a (x + 1) = inl a' /\ isarr a' (S m) (hist key (P ++ [e])).
Proof.
  intros H Hx Hk. destruct (@incr_spec a (S m) _ (S (Z.to_nat x)) H) as (a' & E1 & H1); [lia|].
  exists a'. replace (x + 1)%Z with (Z.of_nat (S (Z.to_nat x))) by lia. split; [auto|].
  eapply isarr_ext; [exact H1|]. intros i Hi; cbv beta. destruct (Nat.eqb_spec i (S (Z.to_nat x))) as [->|Hne].
  - cbn [hist]. rewrite cnt_app, cnt_one. apply keyb_eq in Hk. rewrite Hk. lia.
  - symmetry. apply hist_other. intros t ->. unfold keyb. rewrite Hk. apply Nat.eqb_neq. lia.
Qed.

Lemma hist_keep key P e a m : isarr a (S m) (hist key P) ->
  (forall t, t < m -> key e <> Some t) -> isarr a (S m) (hist key (P ++ [e])).
Proof.
  intros H Hk. eapply isarr_ext; [exact H|]. intros i Hi; cbv beta. symmetry. apply hist_other.
  intros t ->. destruct (keyb key t e) eqn:Eb; auto. apply keyb_eq in Eb. exfalso. apply (Hk t); [lia|auto].
Qed.

Lemma hist_fold : forall R P hi ti, E = P ++ R ->
  isarr hi (S n) (hist hkey P) -> (tw = true -> isarr ti (S n) (hist tkey P)) ->
  exists hi' ti', fold_left (hist_step tw) R (inl (hi, ti)) = inl (hi', ti') /\
    isarr hi' (S n) (hist hkey E) /\ (tw = true -> isarr ti' (S n) (hist tkey E)) /\
    (tw = false -> ti' = ti).
Proof.
  induction R as [|e R IH]; intros P hi ti HE Hh Ht.
  - rewrite app_nil_r in HE. exists hi, ti. rewrite HE in *. auto.
  - cbn [fold_left]. destruct e as [a b].
    assert (Hin : In (a, b) E) by (rewrite HE; apply in_or_app; right; left; auto).
    pose proof (g_lt W _ _ Hin) as [Ha Hb].
    assert (HE' : E = (P ++ [(a, b)]) ++ R) by (rewrite <- app_assoc; exact HE).
    assert (exists hi', (if (0 <=? a)%Z then incr hi (a + 1) else inl hi) = inl hi' /\
              isarr hi' (S n) (hist hkey (P ++ [(a, b)]))) as (hi' & E1 & H1).
    { destruct (Z.leb_spec 0 a).
      - apply hist_incr; auto; [lia|]. unfold hkey. cbn [fst]. destruct (Z.leb_spec 0 a); [auto|lia].
      - exists hi. split; [auto|]. apply hist_keep; auto. intros t Ht'. unfold hkey. cbn [fst].
        destruct (Z.leb_spec 0 a); [lia|]. destruct tw; [|discriminate]. intros [= ?]. lia. }
    assert (exists ti', (if tw && (0 <=? b)%Z then incr ti (b + 1) else inl ti) = inl ti' /\
              (tw = true -> isarr ti' (S n) (hist tkey (P ++ [(a, b)]))) /\ (tw = false -> ti' = ti)) as (ti' & E2 & H2 & H2').
    { destruct tw; cbn [andb]; [|exists ti; split; [auto|]; split; [discriminate|auto]].
      destruct (Z.leb_spec 0 b).
      - destruct (@hist_incr tkey P (a, b) b ti n) as (ti' & E2 & H2); auto; [lia| |].
        + unfold tkey. cbn [snd]. destruct (Z.leb_spec 0 b); [auto|lia].
        + exists ti'. split; [auto|]. split; [auto|discriminate].
      - exists ti. split; [auto|]. split; [|discriminate]. intros _. apply hist_keep; auto.
        intros t Ht'. unfold tkey. cbn [snd]. destruct (Z.leb_spec 0 b); [lia|discriminate]. }
    unfold hist_step at 2. cbn [gbind fst snd]. rewrite E1. cbn [gbind]. rewrite E2. cbn [gbind].
    destruct (IH _ _ _ HE' H1 H2) as (h3 & t3 & F1 & F2 & F3 & F4).
    exists h3, t3. split; [auto|]. split; [auto|]. split; [auto|]. intros Htw. rewrite F4; auto.
Qed.

Definition offs (key : edge -> option nat) (i : nat) : Z :=
  match i with O => 0%Z | S t => Z.of_nat (off key t E) end.

Lemma antideriv_spec key : forall k i a, i + k = n ->
  isarr a (S n) (fun j => if j <=? i then offs key j else hist key E j) ->
  exists a', antideriv k (Z.of_nat i) (Z.of_nat (off key i E)) a = inl a' /\ isarr a' (S n) (offs key).
Proof.
  induction k as [|k IH]; intros i a Hk Ha.
  - exists a. split; [auto|]. eapply isarr_ext; [exact Ha|]. intros j Hj; cbv beta. destruct (Nat.leb_spec j i); [auto|lia].
  - cbn [antideriv]. replace (Z.of_nat i + 1)%Z with (Z.of_nat (S i)) by lia.
    rewrite (isarr_get Ha) by lia. cbn [gbind].
    destruct (Nat.leb_spec (S i) i); [lia|]. cbn [hist].
    destruct (@isarr_set _ _ _ (S i) (Z.of_nat (off key i E) + Z.of_nat (cnt key i E) - Z.of_nat (cnt key i E))%Z Ha) as (a' & E1 & H1); [lia|].
    rewrite E1. cbn [gbind]. rewrite <- Nat2Z.inj_add.
    change (off key i E + cnt key i E) with (off key (S i) E). apply IH; [lia|].
    eapply isarr_ext; [exact H1|]. intros j Hj; cbv beta. destruct (Nat.eqb_spec j (S i)) as [->|].
    + rewrite Nat.leb_refl. cbn [offs]. lia.
    + destruct (Nat.leb_spec j i), (Nat.leb_spec j (S i)); auto; lia.
Qed.

(** *** Main loop *)
Definition cur (key : edge -> option nat) (P : list edge) (i : nat) : Z :=
  match i with O => 0%Z | S t => (Z.of_nat (off key t E) + Z.of_nat (cnt key t P))%Z end.

Record Inv (P : list edge) (s : cstate) : Prop := mkInv {
  i_hidx : isarr (s_hidx s) (S n) (cur hkey P);
  i_next : s_next_np s = (Z.of_nat (off hkey n E) + Z.of_nat (cnt hkey n P))%Z;
  i_hl : length (s_heads s) = off hkey (S n) E;
  i_heads : forall j e t, j < length P -> nth_error E j = Some e -> hkey e = Some t ->
      nth_error (s_heads s) (posn hkey E t j) = Some (snd e);
  i_tidx : tw = true -> isarr (s_tidx s) (S n) (cur tkey P);
  i_tl : tw = true -> length (s_tails s) = off tkey n E;
  i_el : tw = true -> length (s_eids s) = off tkey n E;
  i_tails : tw = true -> forall j e t, j < length P -> nth_error E j = Some e -> tkey e = Some t ->
      nth_error (s_tails s) (posn tkey E t j) = Some (fst e);
  i_eids : tw = true -> forall j e t, j < length P -> nth_error E j = Some e -> tkey e = Some t ->
      nth_error (s_eids s) (posn tkey E t j) = Some (eid j e);
  i_nr : s_nr s = if ent then Z.of_nat (length P) else 0%Z;
  i_bl : ent = true -> length (s_bynr s) = length E;
  i_bynr : ent = true -> forall j e, j < length P -> nth_error E j = Some e ->
      nth_error (s_bynr s) j = Some (eid j e) }.

Lemma cur_other key P e i : (forall t, i = S t -> keyb key t e = false) ->
  cur key (P ++ [e]) i = cur key P i.
Proof. destruct i as [|t]; intros H; auto. cbn. rewrite cnt_app, cnt_one, (H t eq_refl). f_equal. lia. Qed.

Lemma cur_incr key P e t a m : isarr a (S m) (cur key P) -> t < m -> key e = Some t ->
  exists a', aset a (Z.of_nat (S t)) (cur key P (S t) + 1) = inl a' /\ isarr a' (S m) (cur key (P ++ [e])).
Proof.
  intros H Ht Hk. destruct (@isarr_set a (S m) _ (S t) (cur key P (S t) + 1)%Z H) as (a' & E1 & H1); [lia|].
  exists a'. split; [auto|]. eapply isarr_ext; [exact H1|]. intros i Hi; cbv beta.
  cbv beta. destruct (Nat.eqb_spec i (S t)) as [->|Hne].
  - cbn [cur]. rewrite cnt_app, cnt_one. apply keyb_eq in Hk. rewrite Hk. lia.
  - symmetry. apply cur_other. intros u ->. unfold keyb. rewrite Hk. apply Nat.eqb_neq. lia.
Qed.
Lemma cur_keep key P e a m : isarr a (S m) (cur key P) ->
  (forall t, t < m -> key e <> Some t) -> isarr a (S m) (cur key (P ++ [e])).
Proof.
  intros H Hk. eapply isarr_ext; [exact H|]. intros i Hi; cbv beta. symmetry. apply cur_other.
  intros t ->. destruct (keyb key t e) eqn:Eb; auto. apply keyb_eq in Eb. exfalso. apply (Hk t); [lia|auto].
Qed.

(** writing the value of element [length P] keeps the earlier ones *)
Lemma scatter_step key (val : nat -> edge -> Z) m P e R a t : E = P ++ e :: R ->
  key e = Some t -> t < m -> length a = off key m E ->
  (forall j x u, j < length P -> nth_error E j = Some x -> key x = Some u ->
     nth_error a (posn key E u j) = Some (val j x)) ->
  exists a', aset a (Z.of_nat (off key t E) + Z.of_nat (cnt key t P)) (val (length P) e) = inl a' /\
    length a' = off key m E /\
    (forall j x u, j < length (P ++ [e]) -> nth_error E j = Some x -> key x = Some u ->
     nth_error a' (posn key E u j) = Some (val j x)).
Proof.
  intros HE Hk Ht Hl H.
  assert (He : nth_error E (length P) = Some e).
  { rewrite HE, nth_error_app2, Nat.sub_diag by lia. reflexivity. }
  assert (Hp : posn key E t (length P) = off key t E + cnt key t P).
  { unfold posn. rewrite HE at 2. rewrite firstn_app, Nat.sub_diag, firstn_all, app_nil_r. reflexivity. }
  pose proof (@posn_lt _ key m E t _ _ Ht He Hk) as Hlt. rewrite Hp in Hlt.
  exists (upd a (off key t E + cnt key t P) (val (length P) e)). rewrite <- Nat2Z.inj_add, aset_ok by lia.
  split; [auto|]. rewrite upd_length. split; [auto|].
  intros j x u Hj Hx Hu. rewrite nth_upd by lia. rewrite app_length in Hj. cbn in Hj.
  destruct (Nat.eqb_spec (posn key E u j) (off key t E + cnt key t P)) as [Heq|Hne].
  - rewrite <- Hp in Heq. pose proof (@posn_inj _ key E u t j _ x e Hx Hu He Hk Heq) as ->. congruence.
  - apply H; auto. destruct (Nat.eq_dec j (length P)) as [->|]; [|lia]. exfalso. apply Hne. rewrite <- Hp. congruence.
Qed.
Lemma scatter_skip key (val : nat -> edge -> Z) P e R a : E = P ++ e :: R ->
  key e = None ->
  (forall j x u, j < length P -> nth_error E j = Some x -> key x = Some u ->
     nth_error a (posn key E u j) = Some (val j x)) ->
  forall j x u, j < length (P ++ [e]) -> nth_error E j = Some x -> key x = Some u ->
     nth_error a (posn key E u j) = Some (val j x).
Proof.
  intros HE Hk H j x u Hj Hx Hu. rewrite app_length in Hj. cbn in Hj. apply H; auto.
  destruct (Nat.eq_dec j (length P)) as [->|]; [|lia].
  rewrite HE, nth_error_app2, Nat.sub_diag in Hx by lia. injection Hx as <-. congruence.
Qed.

Lemma step_inv P e R s : E = P ++ e :: R -> Inv P s ->
  exists s', edge_step tw ent (inl s) e = inl s' /\ Inv (P ++ [e]) s'.
Proof.
  intros HE I. destruct e as [a b].
  assert (Hin : In (a, b) E) by (rewrite HE; apply in_or_app; right; left; auto).
  pose proof (g_lt W _ _ Hin) as [Ha Hb]. pose proof (g_one W _ _ Hin) as Hone.
  assert (He : nth_error E (length P) = Some (a, b)).
  { rewrite HE, nth_error_app2, Nat.sub_diag by lia. reflexivity. }
  assert (Hpos : forall key t, posn key E t (length P) = off key t E + cnt key t P).
  { intros key t. unfold posn. rewrite HE at 2. rewrite firstn_app, Nat.sub_diag, firstn_all, app_nil_r. reflexivity. }
  (* the edge id, the head index and the counter of np edges *)
  assert (exists hidx next,
     (if (0 <=? a)%Z then
        do v <- aget (s_hidx s) (a + 1);
        do a0 <- aset (s_hidx s) (a + 1) (v + 1);
        inl (v, a0, s_next_np s)
      else if tw then
        if (0 <=? b)%Z then inl (s_next_np s, s_hidx s, (s_next_np s + 1)%Z) else inr GAssert
      else inl ((-1)%Z, s_hidx s, s_next_np s)) = inl (eid (length P) (a, b), hidx, next) /\
     isarr hidx (S n) (cur hkey (P ++ [(a, b)])) /\
     next = (Z.of_nat (off hkey n E) + Z.of_nat (cnt hkey n (P ++ [(a, b)])))%Z) as (hidx & next & X1 & X2 & X3).
  { rewrite cnt_app, cnt_one. unfold eid. destruct (Z.leb_spec 0 a) as [H0|H0].
    - assert (Hk : hkey (a, b) = Some (Z.to_nat a)).
      { unfold hkey. cbn [fst]. destruct (Z.leb_spec 0 a); [auto|lia]. }
      replace (a + 1)%Z with (Z.of_nat (S (Z.to_nat a))) by lia.
      rewrite (isarr_get (i_hidx I)) by lia. cbn [gbind].
      destruct (@cur_incr hkey P (a, b) (Z.to_nat a) (s_hidx s) n (i_hidx I)) as (a' & E1 & H1); [lia|auto|].
      rewrite E1. cbn [gbind]. exists a', (s_next_np s). rewrite Hk, Hpos. split.
      { cbn [cur]. rewrite Nat2Z.inj_add. reflexivity. }
      split; [auto|]. rewrite (i_next I). unfold keyb. rewrite Hk.
      destruct (Nat.eqb_spec (Z.to_nat a) n); [lia|]. lia.
    - destruct tw eqn:Etw.
      + destruct (Z.leb_spec 0 b); [|lia]. exists (s_hidx s), (s_next_np s + 1)%Z.
        assert (Hk : hkey (a, b) = Some n).
        { unfold hkey. cbn [fst]. destruct (Z.leb_spec 0 a); [lia|]. rewrite Etw. auto. }
        rewrite Hk, Hpos. split; [rewrite (i_next I), Nat2Z.inj_add; reflexivity|]. split.
        * apply cur_keep; [exact (i_hidx I)|]. rewrite Hk. intros t Ht [= ?]. lia.
        * rewrite (i_next I). apply keyb_eq in Hk. rewrite Hk. lia.
      + assert (Hk : hkey (a, b) = None).
        { unfold hkey. cbn [fst]. destruct (Z.leb_spec 0 a); [lia|]. rewrite Etw. auto. }
        exists (s_hidx s), (s_next_np s). rewrite Hk. split; [auto|]. split.
        * apply cur_keep; [exact (i_hidx I)|]. rewrite Hk. discriminate.
        * rewrite (i_next I). unfold keyb. rewrite Hk. lia. }
  (* heads *)
  assert (exists hds, (if (0 <=? eid (length P) (a, b))%Z then aset (s_heads s) (eid (length P) (a, b)) b
                       else inl (s_heads s)) = inl hds /\
     length hds = off hkey (S n) E /\
     forall j e t, j < length (P ++ [(a, b)]) -> nth_error E j = Some e -> hkey e = Some t ->
      nth_error hds (posn hkey E t j) = Some (snd e)) as (hds & Y1 & Y2 & Y3).
  { unfold eid. destruct (hkey (a, b)) as [t|] eqn:Hk.
    - destruct (Z.leb_spec 0 (Z.of_nat (posn hkey E t (length P)))); [|lia].
      destruct (@scatter_step hkey (fun _ e => snd e) (S n) P (a, b) R (s_heads s) t HE Hk) as (h & F1 & F2 & F3).
      + eapply hkey_lt; eauto.
      + apply (i_hl I).
      + apply (i_heads I).
      + exists h. rewrite Hpos, Nat2Z.inj_add. auto.
    - cbn. exists (s_heads s). split; [auto|]. split; [apply (i_hl I)|].
      apply (@scatter_skip hkey (fun _ e => snd e) P (a, b) R (s_heads s) HE Hk). apply (i_heads I). }
  (* tails *)
  assert (exists tidx tls eids,
     (if tw && (0 <=? b)%Z then
        do p <- aget (s_tidx s) (b + 1);
        do tls <- aset (s_tails s) p a;
        do eids <- aset (s_eids s) p (eid (length P) (a, b));
        do tidx <- aset (s_tidx s) (b + 1) (p + 1);
        inl (tidx, tls, eids)
      else inl (s_tidx s, s_tails s, s_eids s)) = inl (tidx, tls, eids) /\
     (tw = true -> isarr tidx (S n) (cur tkey (P ++ [(a, b)]))) /\
     (tw = true -> length tls = off tkey n E) /\
     (tw = true -> length eids = off tkey n E) /\
     (tw = true -> forall j e t, j < length (P ++ [(a, b)]) -> nth_error E j = Some e -> tkey e = Some t ->
      nth_error tls (posn tkey E t j) = Some (fst e)) /\
     (tw = true -> forall j e t, j < length (P ++ [(a, b)]) -> nth_error E j = Some e -> tkey e = Some t ->
      nth_error eids (posn tkey E t j) = Some (eid j e))) as (tidx & tls & eids & Z1 & Z2 & Z3 & Z4 & Z5 & Z6).
  { destruct (Bool.bool_dec tw true) as [Etw|Etw].
    2:{ exists (s_tidx s), (s_tails s), (s_eids s). split.
        - destruct tw; [congruence|reflexivity].
        - repeat split; intros; congruence. }
    replace (tw && (0 <=? b)%Z) with (0 <=? b)%Z by (rewrite Etw; reflexivity).
    destruct (Z.leb_spec 0 b) as [H0|H0].
    - assert (Hk : tkey (a, b) = Some (Z.to_nat b)).
      { unfold tkey. cbn [snd]. destruct (Z.leb_spec 0 b); [auto|lia]. }
      replace (b + 1)%Z with (Z.of_nat (S (Z.to_nat b))) by lia.
      rewrite (isarr_get (i_tidx I Etw)) by lia. cbn [gbind].
      destruct (@scatter_step tkey (fun _ e => fst e) n P (a, b) R (s_tails s) (Z.to_nat b) HE Hk) as (h & F1 & F2 & F3);
        [lia|apply (i_tl I Etw)|apply (i_tails I Etw)|].
      destruct (@scatter_step tkey (fun k e => eid k e) n P (a, b) R (s_eids s) (Z.to_nat b) HE Hk) as (h' & F1' & F2' & F3');
        [lia|apply (i_el I Etw)|apply (i_eids I Etw)|].
      destruct (@cur_incr tkey P (a, b) (Z.to_nat b) (s_tidx s) n (i_tidx I Etw)) as (a' & E1 & H1); [lia|auto|].
      change (cur tkey P (S (Z.to_nat b))) with (Z.of_nat (off tkey (Z.to_nat b) E) + Z.of_nat (cnt tkey (Z.to_nat b) P))%Z in *.
      cbn [fst snd] in F1. rewrite F1. cbn [gbind]. rewrite F1'. cbn [gbind]. rewrite E1. cbn [gbind].
      exists a', h, h'. auto 10.
    - assert (Hk : tkey (a, b) = None).
      { unfold tkey. cbn [snd]. destruct (Z.leb_spec 0 b); [lia|auto]. }
      exists (s_tidx s), (s_tails s), (s_eids s). split; [auto|]. split.
      { intros _. apply cur_keep; [exact (i_tidx I Etw)|]. rewrite Hk. discriminate. }
      split; [exact (i_tl I)|]. split; [exact (i_el I)|]. split; intros _.
      + apply (@scatter_skip tkey (fun _ e => fst e) P (a, b) R _ HE Hk). apply (i_tails I Etw).
      + apply (@scatter_skip tkey (fun k e => eid k e) P (a, b) R _ HE Hk). apply (i_eids I Etw). }
  (* edge numbers *)
  assert (exists bynr, (if ent then aset (s_bynr s) (s_nr s) (eid (length P) (a, b)) else inl (s_bynr s)) = inl bynr /\
     (ent = true -> length bynr = length E) /\
     (ent = true -> forall j e, j < length (P ++ [(a, b)]) -> nth_error E j = Some e ->
      nth_error bynr j = Some (eid j e))) as (bynr & V1 & V2 & V3).
  { pose proof (i_nr I) as Hnr. pose proof (i_bl I) as Hbl. pose proof (i_bynr I) as Hb'.
    destruct ent; [|exists (s_bynr s); repeat split; auto; discriminate].
    assert (length P < length E) by (apply nth_error_Some; congruence).
    rewrite Hnr, aset_ok by (rewrite Hbl; auto).
    eexists. split; [reflexivity|]. split; intros _; [rewrite upd_length; auto|].
    intros j e Hj Hje. rewrite nth_upd by (rewrite Hbl; auto). rewrite app_length in Hj. cbn in Hj.
    destruct (Nat.eqb_spec j (length P)) as [->|]; [congruence|]. apply Hb'; auto. lia. }
  unfold edge_step. cbn [gbind]. rewrite X1. cbn [gbind]. rewrite Y1. cbn [gbind]. rewrite Z1. cbn [gbind].
  rewrite V1. cbn [gbind]. eexists. split; [reflexivity|].
  split; cbn; auto. rewrite (i_nr I). destruct ent; auto. rewrite app_length. cbn. lia.
Qed.

Lemma fold_inv : forall R P s, E = P ++ R -> Inv P s ->
  exists s', fold_left (edge_step tw ent) R (inl s) = inl s' /\ Inv E s'.
Proof.
  induction R as [|e R IH]; intros P s HE I.
  - rewrite app_nil_r in HE. exists s. rewrite HE. auto.
  - destruct (@step_inv P e R s HE I) as (s' & E1 & I').
    cbn [fold_left]. rewrite E1. apply (IH (P ++ [e])); auto. rewrite <- app_assoc. exact HE.
Qed.

Lemma fresh_length k z : length (fresh junk k z) = Z.to_nat z.
Proof. unfold fresh. rewrite map_length, seq_length. reflexivity. Qed.
End Compress.
(** ** The compressed graph *)
Lemma isarr_nth a m f i : isarr a m f -> i < m -> nth_error a i = Some (f i).
Proof. intros [_ H]; auto. Qed.

Section CSR.
Variable g : graph.
Variable tw : bool.
Notation E := (edges g).
Notation n := (Z.to_nat (num_nodes g)).
Notation hkey := (hkey g tw).
Notation eid := (eid g tw).

Record csr (ent : bool) (c : cgraph) : Prop := mkCsr {
  c_tw : twoway c = tw;
  c_ent : edge_nr_translation c = ent;
  c_n : cnum_nodes c = num_nodes g;
  c_ne : num_edges c = Z.of_nat (off hkey (S n) E);
  c_px : num_px_edges c = Z.of_nat (off hkey n E);
  c_xp : num_xp_edges c = Z.of_nat (count (fun e => (tw || tpos e) && hpos e) E);
  c_end : edge_nr_end c = Z.of_nat (length E);
  c_hidx : isarr (heads_idxs c) (S n) (fun t => Z.of_nat (off hkey t E));
  c_heads : heads c = map snd (lay hkey (S n) E);
  c_tidx : tw = true -> isarr (tails_idxs c) (S n) (fun t => Z.of_nat (off tkey t E));
  c_tails : tw = true -> tails c = map fst (lay tkey n E);
  c_el : tw = true -> length (edge_ids c) = off tkey n E;
  c_eids : tw = true -> forall k e t, nth_error E k = Some e -> tkey e = Some t ->
     nth_error (edge_ids c) (posn tkey E t k) = Some (eid k e);
  c_bl : ent = true -> length (edge_ids_by_edge_nr c) = length E;
  c_bynr : ent = true -> forall k e, nth_error E k = Some e ->
     nth_error (edge_ids_by_edge_nr c) k = Some (eid k e) }.
End CSR.

Lemma compressed_csr junk g tw ent al : WFg g ->
  tw || al || (num_np_edges g =? 0)%Z = true ->
  exists c, compressed junk g tw ent al = inl c /\ csr g tw ent c.
Proof.
  intros W Hok. unfold compressed. cbv zeta.
  rewrite (size_eq W tw), Z.eqb_refl. cbn [negb].
  rewrite Hok. cbn [negb].
  set (n := Z.to_nat (num_nodes g)).
  assert (HnZ : Z.of_nat n = num_nodes g) by (apply Z2Nat.id, (g_n W)).
  assert (Hz : Z.to_nat (num_nodes g + 1) = S n) by (unfold n; pose proof (g_n W); lia).
  rewrite Hz.
  assert (H0 : forall key, isarr (repeat 0%Z (S n)) (S n) (hist key [])).
  { intros key. eapply isarr_ext; [apply isarr_repeat|]. intros [|t] _; reflexivity. }
  destruct (@hist_fold g W tw (edges g) [] (repeat 0%Z (S n)) (if tw then repeat 0%Z (S n) else [])
              eq_refl (H0 _)) as (hi & ti & E1 & H1 & H2 & H2').
  { intros ->. apply H0. }
  match type of E1 with ?x = _ => match goal with |- context [fold_left (hist_step tw) ?l ?y] =>
    change (fold_left (hist_step tw) l y) with x end end.
  rewrite E1. cbn [gbind].
  assert (Hanti : forall key a, isarr a (S n) (hist key (edges g)) ->
            exists a', antideriv n 0 0 a = inl a' /\ isarr a' (S n) (offs g key)).
  { intros key a Ha. apply (@antideriv_spec g W key n 0 a); [reflexivity|].
    eapply isarr_ext; [exact Ha|]. intros [|j] Hj; cbv beta; [reflexivity|].
    destruct (Nat.leb_spec (S j) 0); [lia|reflexivity]. }
  destruct (Hanti _ _ H1) as (hi' & E2 & H3). fold n. rewrite E2. cbn [gbind].
  assert (exists ti', (if tw then antideriv n 0 0 ti else inl ti) = inl ti' /\
            (tw = true -> isarr ti' (S n) (offs g tkey))) as (ti' & E3 & H4).
  { destruct tw; [|exists ti; split; [auto|discriminate]].
    destruct (Hanti _ _ (H2 eq_refl)) as (t' & ? & ?). exists t'. auto. }
  rewrite E3. cbn [gbind].
  assert (Hcur : forall key a, isarr a (S n) (offs g key) -> isarr a (S n) (cur g key [])).
  { intros key a Ha. eapply isarr_ext; [exact Ha|]. intros [|j] _; cbn; lia. }
  match goal with |- context [fold_left _ _ (inl ?s)] => set (s0 := s) end.
  assert (I0 : Inv g tw ent [] s0).
  { assert (Hl : forall k z, length (fresh junk k z) = Z.to_nat z) by (intros; apply fresh_length).
    split; cbn [s0 s_hidx s_heads s_tidx s_tails s_eids s_bynr s_next_np s_nr].
    - apply Hcur. exact H3.
    - rewrite (px_eq W tw). cbn. lia.
    - rewrite Hl, (ne_eq W tw), Nat2Z.id. reflexivity.
    - cbn. lia.
    - intros Ht. apply Hcur. auto.
    - intros Ht. pose proof (@xp_eq g W tw Ht) as Hxp. rewrite Ht, Hl, Hxp, Nat2Z.id. reflexivity.
    - intros Ht. pose proof (@xp_eq g W tw Ht) as Hxp. rewrite Ht, Hl, Hxp, Nat2Z.id. reflexivity.
    - cbn. lia.
    - cbn. lia.
    - destruct ent; reflexivity.
    - intros ->. rewrite Hl, <- (size_eq W tw), Nat2Z.id. reflexivity.
    - cbn. lia. }
  destruct (@fold_inv g W tw ent (edges g) [] s0 eq_refl I0) as (s & E4 & I).
  rewrite E4. cbn [gbind].
  rewrite (ne_eq W tw), (i_next I), <- Nat2Z.inj_add.
  change (off (hkey g tw) (Z.to_nat (num_nodes g)) (edges g) + cnt (hkey g tw) (Z.to_nat (num_nodes g)) (edges g))
    with (off (hkey g tw) (S (Z.to_nat (num_nodes g))) (edges g)).
  rewrite Z.eqb_refl. cbn [negb]. eexists. split; [reflexivity|].
  assert (Hlen : forall k (e : edge), nth_error (edges g) k = Some e -> k < length (edges g)).
  { intros k e Hk. apply nth_error_Some. congruence. }
  split; cbn [twoway edge_nr_translation cnum_nodes num_edges num_px_edges num_xp_edges edge_nr_end
              heads_idxs heads tails_idxs tails edge_ids edge_ids_by_edge_nr]; auto.
  - apply (px_eq W tw).
  - destruct tw; cbn [orb].
    + rewrite (@xp_eq g W true eq_refl). rewrite off_total. f_equal. apply filter_length_ext.
      intros [a b] Hi. apply (g_lt W) in Hi. unfold hpos, tkey. cbn [snd andb].
      destruct (Z.leb_spec 0 b); [apply Nat.ltb_lt; lia|reflexivity].
    + apply (g_pp W).
  - rewrite <- (size_eq W tw). reflexivity.
  - eapply isarr_ext; [apply (i_hidx I)|]. intros [|t] Ht; cbn [cur off]; lia.
  - apply scatter_ext with (key := hkey g tw); [apply (i_hl I)|]. intros k x t Hk Hx Ht.
    apply (i_heads I); eauto.
  - intros Ht. eapply isarr_ext; [apply (i_tidx I Ht)|]. intros [|t] Ht'; cbn [cur off]; lia.
  - intros Ht. apply scatter_ext with (key := tkey); [apply (i_tl I Ht)|]. intros k x t Hk Hx Hlt.
    apply (i_tails I Ht); eauto.
  - apply (i_el I).
  - intros Ht k e t Hk He. apply (i_eids I Ht); eauto.
  - apply (i_bl I).
  - intros Ht k e Hk. apply (i_bynr I Ht); eauto.
Qed.

Lemma compressed_fails junk g tw ent al : WFg g ->
  tw || al || (num_np_edges g =? 0)%Z = false -> compressed junk g tw ent al = inr GValue.
Proof.
  intros W Hok. unfold compressed. cbv zeta. rewrite (size_eq W tw), Z.eqb_refl. cbn [negb].
  rewrite Hok. reflexivity.
Qed.
