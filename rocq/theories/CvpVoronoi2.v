From Coq Require Import List Bool Arith ZArith Reals Lia Lra Psatz Sorting.Permutation Sorting.Sorted.
From Verif Require Import KpmReal KpmRealProofs CvpModel CvpSpec CvpProofs CvpMain CvpVoronoi.
Import ListNotations.
Open Scope R_scope.

(** ** the sequences of 0 and 1 *)
Lemma in_bits n t : In t (bits n) <-> length t = n /\ Forall (fun z => z = 0 \/ z = 1)%Z t.
Proof.
  revert t. induction n as [|n IH]; intros t; cbn [bits].
  - split; [intros [<-|[]]; auto|]. intros [H _]. destruct t; [cbn; auto|discriminate].
  - cbn [flat_map]. rewrite app_nil_r, in_app_iff, !in_map_iff. split.
    + intros [(s & <- & Hs)|(s & <- & Hs)]; apply IH in Hs; destruct Hs as [Hs Hf]; split; cbn; auto.
    + intros [H Hf]. destruct t as [|z t]; [discriminate|]. inversion Hf as [|? ? Hz Ht]; subst.
      assert (In t (bits n)) by (apply IH; split; auto). destruct Hz as [->| ->]; [left|right]; exists t; auto.
Qed.
Lemma bits_len n : length (bits n) = (2 ^ n)%nat.
Proof. induction n as [|n IH]; auto. cbn [bits flat_map]. rewrite app_nil_r, app_length, !map_length, IH. cbn. lia. Qed.
Lemma bits_hd n : exists l, bits n = repeat 0%Z n :: l.
Proof. induction n as [|n (l & IH)]; [exists []; auto|]. cbn [bits flat_map]. rewrite IH. cbn. eexists. reflexivity. Qed.
Lemma bits_NoDup n : NoDup (bits n).
Proof.
  induction n as [|n IH]; [repeat constructor; auto|]. cbn [bits]. apply flatmap_NoDup.
  - repeat constructor; cbn; intuition discriminate.
  - intros z _. apply FinFun.Injective_map_NoDup; auto. intros x y E; congruence.
  - intros x y z _ _ Hx Hy. apply in_map_iff in Hx, Hy. destruct Hx as (? & <- & _), Hy as (? & E & _). congruence.
Qed.
Lemma in_tl_bits n t : In t (tl (bits n)) <-> In t (bits n) /\ t <> repeat 0%Z n.
Proof.
  pose proof (bits_NoDup n) as ND. destruct (bits_hd n) as (l & E). rewrite E in *. cbn [tl]. inversion ND as [|? ? N1 N2]; subst. split.
  - intros H. split; [cbn; auto|]. intros ->. auto.
  - intros [[H|H] N]; auto. congruence.
Qed.

Lemma nodup_app {A} (l1 l2 : list A) : NoDup l1 -> NoDup l2 -> (forall x, In x l1 -> In x l2 -> False) -> NoDup (l1 ++ l2).
Proof.
  intros H1 H2. induction H1 as [|a l Ha Hl IH]; intros D; cbn; auto. constructor.
  - rewrite in_app_iff. intros [H|H]; auto. apply (D a); cbn; auto.
  - apply IH. intros x Hx. apply D; cbn; auto.
Qed.
Lemma F2_len {A B} (P : A -> B -> Prop) l l' : Forall2 P l l' -> length l = length l'.
Proof. induction 1; cbn; auto. Qed.
(** ** the flags *)
Section Keep.
Variable ok : nat -> nat -> bool.   (* ok i k: i may stay although k is there *)
Variable n : nat.
Definition kstep (keep : list bool) (i : nat) : list bool :=
  if forallb (fun k => if (k =? i)%nat then true else if nth k keep false then ok i k else true) (seq 0 n) then keep
  else firstn i keep ++ false :: skipn (S i) keep.
Lemma set_len keep i : length keep = n -> (i < n)%nat -> length (firstn i keep ++ false :: skipn (S i) keep) = n.
Proof. intros L H. rewrite app_length, firstn_length. cbn [length]. rewrite skipn_length. lia. Qed.
Lemma set_nth keep i j : length keep = n -> (i < n)%nat -> nth j (firstn i keep ++ false :: skipn (S i) keep) false = if (j =? i)%nat then false else nth j keep false.
Proof.
  intros L H. destruct (Nat.eqb_spec j i) as [->|N].
  - rewrite app_nth2; rewrite firstn_length; [|lia]. replace (i - Nat.min i (length keep))%nat with 0%nat by lia. auto.
  - destruct (le_lt_dec i j).
    + rewrite app_nth2; rewrite firstn_length; [|lia]. replace (j - Nat.min i (length keep))%nat with (S (j - S i)) by lia. cbn [nth].
      rewrite <- (firstn_skipn (S i) keep) at 2. rewrite app_nth2; rewrite firstn_length; [|lia]. f_equal. lia.
    + rewrite app_nth1 by (rewrite firstn_length; lia). rewrite <- (firstn_skipn i keep) at 2. rewrite app_nth1; auto. rewrite firstn_length. lia.
Qed.
Definition kinv (k : nat) (keep : list bool) : Prop :=
  length keep = n
  /\ (forall j, (k <= j < n)%nat -> nth j keep false = true)
  /\ (forall j, (j < k)%nat -> nth j keep false = true -> forall l, (l < n)%nat -> l <> j -> nth l keep false = true -> ok j l = true)
  /\ (forall j, (j < k)%nat -> nth j keep false = false -> exists l, (l < n)%nat /\ l <> j /\ ok j l = false).
Lemma kstep_inv i keep : (i < n)%nat -> kinv i keep -> kinv (S i) (kstep keep i).
Proof.
  intros Hi (L & A & B & C). unfold kstep. destruct (forallb _ _) eqn:F.
  - rewrite forallb_forall in F. split; auto. split; [intros; apply A; lia|]. split.
    + intros j Hj Kj l Hl Nl Kl. destruct (Nat.eq_dec j i) as [->|]; [|apply B; auto; lia].
      specialize (F l ltac:(apply in_seq; lia)). cbv beta in F. destruct (Nat.eqb_spec l i); [contradiction|]. rewrite Kl in F. auto.
    + intros j Hj Kj. destruct (Nat.eq_dec j i) as [->|]; [rewrite A in Kj by lia; discriminate|]. apply C; auto; lia.
  - assert (Ex : exists k, In k (seq 0 n) /\ (if (k =? i)%nat then true else if nth k keep false then ok i k else true) = false).
    { clear - F. induction (seq 0 n) as [|a l IH]; [discriminate|]. cbn in F. apply andb_false_iff in F. destruct F as [F|F]; [exists a; cbn; auto|]. destruct (IH F) as (k & Hk & E). exists k; cbn; auto. }
    destruct Ex as (k & Hk & E). apply in_seq in Hk. destruct (Nat.eqb_spec k i) as [|Nk]; [discriminate|]. destruct (nth k keep false) eqn:Kk; [|discriminate].
    split; [apply set_len; auto|]. split; [|split].
    + intros j Hj. rewrite set_nth by auto. destruct (Nat.eqb_spec j i); [lia|]. apply A; lia.
    + intros j Hj. rewrite set_nth by auto. destruct (Nat.eqb_spec j i); [discriminate|]. intros Kj l Hl Nl. rewrite set_nth by auto. destruct (Nat.eqb_spec l i); [discriminate|]. intros Kl. apply B; auto; lia.
    + intros j Hj. rewrite set_nth by auto. destruct (Nat.eqb_spec j i) as [->|]; intros Kj; [exists k; split; auto; lia|]. apply C; auto; lia.
Qed.
Lemma kfold : kinv n (fold_left kstep (seq 0 n) (repeat true n)).
Proof.
  assert (G : forall k i keep, (i + k = n)%nat -> kinv i keep -> kinv n (fold_left kstep (seq i k) keep)).
  { induction k as [|k IH]; intros i keep E H; cbn; [replace n with i by lia; auto|]. apply IH; [lia|]. apply kstep_inv; auto. lia. }
  apply G; [lia|]. split; [apply repeat_length|]. split; [|split; intros; lia].
  intros j Hj. clear - Hj. destruct Hj as [_ Hj]. revert j Hj. induction n as [|n' IH]; intros j Hj; [lia|]. destruct j; cbn; auto. apply IH. lia.
Qed.
End Keep.
Lemma in_filter_combine {A} (vs : list A) (keep : list bool) a : length vs = length keep ->
  forall v, In v (map fst (filter snd (combine vs keep))) <-> exists j, (j < length vs)%nat /\ nth j keep false = true /\ nth j vs a = v.
Proof.
  revert keep. induction vs as [|x vs IH]; intros [|k keep] L v; try discriminate; cbn.
  - split; [intros []|]. intros (j & H & _). lia.
  - cbn in L. destruct k; cbn; rewrite IH by lia.
    + split.
      * intros [<-|(j & H1 & H2)]; [exists 0%nat; cbn; repeat split; auto; lia|exists (S j); cbn; split; auto; lia].
      * intros ([|j] & H1 & H2 & H3); cbn in *; auto. right. exists j. repeat split; auto. lia.
    + split; [intros (j & H1 & H2); exists (S j); cbn; split; auto; lia|].
      intros ([|j] & H1 & H2 & H3); cbn in *; [discriminate|]. exists j. repeat split; auto. lia.
Qed.
Lemma filter_combine_NoDup {A} (vs : list A) (keep : list bool) : NoDup vs -> NoDup (map fst (filter snd (combine vs keep))).
Proof.
  intros H. revert keep. induction H as [|x vs Hx Hv IH]; intros [|k keep]; cbn; try constructor. destruct k; cbn; auto. constructor; auto.
  intros Hi. apply Hx. apply in_map_iff in Hi. destruct Hi as ((y, q) & <- & Hy). apply filter_In in Hy. destruct Hy as [Hy _]. apply in_combine_l in Hy. auto.
Qed.

Section Top.
Variables m d : nat.
Variable b : nat -> nat -> R.
Variable lstsq : (nat -> R) -> nat -> R.
Variable inv : (nat -> nat -> R) -> nat -> nat -> R.
Variable round : R -> Z.
Variable argsort : (point -> R) -> list point -> list point.
Hypothesis Hlstsq : lstsq_ok m d b lstsq.
Hypothesis Hinv : inv_ok m d b inv.
Hypothesis Hround : round_ok round.
Hypothesis Hsort : argsort_ok argsort.
Hypothesis Hm : (0 < m)%nat.
Notation "u · v" := (dot d u v) (at level 40).
Notation lv := (lv m b).
Notation sq := (sq m d b).
Notation side := (side m d b).
Notation zero := (zero m).
Notation vertex := (vertex m d b lstsq inv round argsort).
Notation vertices_of := (vertices_of m d b lstsq inv round argsort).
Notation voronoi := (voronoi m d b lstsq inv round argsort).

(** a shortest vector of its class modulo 2 *)
Definition shortest (t r : point) : Prop :=
  length r = m /\ (forall i, (i < m)%nat -> Z.odd (cf r i) = Z.odd (cf t i))
  /\ forall f, (forall i, (i < m)%nat -> Z.odd (f i) = Z.odd (cf t i)) -> sq (cf r) <= sq f.
Lemma vertex_spec fuel t r : length t = m -> vertex fuel t = Some r -> shortest t r.
Proof.
  intros Lt. unfold vertex. set (vec := fun k => Rsum m (fun i => IZR (nth i t 0%Z) / 2 * b i k)).
  destruct (cvp _ _ _ _ _ _ _ _ _ _ _ _) as [ps| |] eqn:E; try discriminate. destruct ps as [|p ps]; [discriminate|].
  pose proof (main_closest m d b lstsq inv round argsort Hlstsq Hinv Hround Hsort Hm vec fuel 1 (1 / 10 ^ 9) (p :: ps) E) as (L1 & _ & F & _ & Cl).
  destruct ps as [|? ?]; [|discriminate]. clear L1 E. inversion F as [|? ? Lp _]; subst. unfold lattice_point in Lp.
  intros H. assert (Er : r = mk m (fun i => 2 * cf p i - cf t i)%Z) by (unfold cf, mk; congruence). clear H.
  assert (Nr : forall i, (i < m)%nat -> cf r i = (2 * cf p i - cf t i)%Z) by (intros i Hi; subst r; unfold cf at 1; rewrite mk_nth; auto).
  split; [subst r; apply mk_len|]. split.
  { intros i Hi. rewrite Nr by auto. rewrite Z.odd_sub, Z.odd_mul. cbn. destruct (Z.odd (cf t i)); reflexivity. }
  intros f Hf.
  assert (Q : forall q, length q = m -> 4 * (dist d (vector b q) vec * dist d (vector b q) vec) = sq (fun i => 2 * cf q i - cf t i)%Z).
  { intros q Lq. unfold dist. rewrite sqrt_sqrt by apply dot_pos. unfold sq.
    rewrite (dot_ext d (lv _) (lv _) (fun k => 2 * (vector b q k - vec k)) (fun k => 2 * (vector b q k - vec k))).
    - rewrite dot_scal_l, dot_scal_r. ring.
    - intros k _. rewrite lv_sub, lv_scal, vector_lv with (m := m) by auto. unfold vec. rewrite Rmult_minus_distr_l. f_equal.
      rewrite <- Rsum_mult_l. apply Rsum_ext. intros. unfold cf. field.
    - intros k _. rewrite lv_sub, lv_scal, vector_lv with (m := m) by auto. unfold vec. rewrite Rmult_minus_distr_l. f_equal.
      rewrite <- Rsum_mult_l. apply Rsum_ext. intros. unfold cf. field. }
  set (w := mk m (fun i => (f i + cf t i) / 2)%Z).
  assert (Lw : length w = m) by apply mk_len.
  assert (Nw : forall i, (i < m)%nat -> f i = (2 * cf w i - cf t i)%Z).
  { intros i Hi. unfold w, cf at 1. rewrite mk_nth by auto. destruct (half_exists (f i) (cf t i) (Hf i Hi)) as ((h & Eh) & _). replace ((f i + cf t i) / 2)%Z with h; [lia|]. rewrite Eh, Z.mul_comm, Z.div_mul; lia. }
  assert (D : dist d (vector b p) vec <= dist d (vector b w) vec).
  { destruct (list_eq_dec Z.eq_dec w p) as [->|N]; [lra|]. apply Cl; cbn; auto. intros [Hp|[]]. congruence. }
  rewrite (sq_ext m d b (cf r) _ Nr), <- Q by auto. rewrite (sq_ext m d b f _ Nw), <- Q by auto.
  assert (0 <= dist d (vector b p) vec) by apply sqrt_pos. nra.
Qed.

Lemma vertices_spec fuel ts vs : vertices_of fuel ts = Some vs -> Forall2 (fun t v => vertex fuel t = Some v) ts vs.
Proof.
  revert vs. induction ts as [|t ts IH]; intros vs; cbn; intros H.
  - assert (vs = []) by congruence. subst; constructor.
  - destruct (vertex fuel t) eqn:E; [|discriminate]. destruct (vertices_of fuel ts) as [vs'|] eqn:E2; [|discriminate].
    assert (vs = p :: vs') by congruence. subst. constructor; auto.
Qed.

Definition halves_ok (h : list point) : Prop := Forall2 shortest (tl (bits m)) h.
Lemma halves_of fuel h : vertices_of fuel (tl (bits m)) = Some h -> halves_ok h.
Proof.
  intros H. apply vertices_spec in H. unfold halves_ok.
  assert (B : forall t, In t (tl (bits m)) -> length t = m) by (intros t Ht; apply in_tl_bits in Ht; destruct Ht as [Ht _]; apply in_bits in Ht; tauto).
  induction H; constructor; [eapply vertex_spec; eauto; apply B; cbn; auto|]. apply IHForall2. intros; apply B; cbn; auto.
Qed.

Section Halves.
Variable h : list point.
Hypothesis Hh : halves_ok h.
Lemma h_len : length h = (2 ^ m - 1)%nat.
Proof.
  pose proof (F2_len _ _ _ Hh) as E. rewrite <- E. destruct (bits_hd m) as (l & Eb). pose proof (bits_len m) as Lb. rewrite Eb in *. cbn [tl length] in *. rewrite <- Lb, E. cbn. rewrite Nat.sub_0_r. auto.
Qed.
Lemma h_nth j : (j < length h)%nat -> exists t, t = nth j (tl (bits m)) [] /\ In t (tl (bits m)) /\ shortest t (nth j h []).
Proof.
  intros Hj. assert (G : forall ts hs j, Forall2 shortest ts hs -> (j < length hs)%nat -> In (nth j ts []) ts /\ shortest (nth j ts []) (nth j hs [])).
  { intros ts hs j0 F. revert j0. induction F; intros j0 H1; [cbn in H1; lia|]. destruct j0; cbn; auto. cbn in H1. destruct (IHF j0); auto; lia. }
  destruct (G _ _ j Hh Hj) as [A B]. eexists. split; [reflexivity|]. auto.
Qed.
Lemma bit_odd t : In t (bits m) -> forall i, (i < m)%nat -> cf t i = if Z.odd (cf t i) then 1%Z else 0%Z.
Proof.
  intros H i Hi. apply in_bits in H. destruct H as [L F]. rewrite Forall_forall in F. destruct (F (cf t i)) as [-> | ->]; auto. apply nth_In. lia.
Qed.
Lemma list_ext (p q : point) : length p = m -> length q = m -> (forall i, (i < m)%nat -> cf p i = cf q i) -> p = q.
Proof. intros L1 L2 H. apply nth_ext with (d := 0%Z) (d' := 0%Z); [lia|]. intros i Hi. apply H. lia. Qed.
Lemma h_odd j : (j < length h)%nat -> exists i, (i < m)%nat /\ Z.odd (cf (nth j h []) i) = true.
Proof.
  intros Hj. destruct (h_nth j Hj) as (t & _ & Ht & (L & Par & _)). apply in_tl_bits in Ht. destruct Ht as [Ht Nt].
  destruct (dec_all (fun i => Z.odd (cf t i) = false) m) as [Ev|(i & Hi & N)]; [intros; apply Bool.bool_dec| |].
  - exfalso. apply Nt. apply list_ext; [apply in_bits in Ht; tauto|apply repeat_length|]. intros i Hi. rewrite (bit_odd t Ht i Hi), Ev by auto. unfold cf. rewrite nth_repeat. auto.
  - exists i. split; auto. rewrite Par by auto. apply not_false_is_true; auto.
Qed.
Lemma h_class j l : (j < length h)%nat -> (l < length h)%nat -> (forall i, (i < m)%nat -> Z.odd (cf (nth j h []) i) = Z.odd (cf (nth l h []) i)) -> j = l.
Proof.
  intros Hj Hl H. destruct (h_nth j Hj) as (t & Et & Ht & (L & Par & _)), (h_nth l Hl) as (s & Es & Hs & (L' & Par' & _)).
  assert (t = s).
  { apply in_tl_bits in Ht, Hs. destruct Ht as [Ht _], Hs as [Hs _]. apply list_ext; [apply in_bits in Ht; tauto|apply in_bits in Hs; tauto|].
    intros i Hi. rewrite (bit_odd t Ht i Hi), (bit_odd s Hs i Hi), <- Par, <- Par', H; auto. }
  assert (ND : NoDup (tl (bits m))) by (pose proof (bits_NoDup m) as ND; destruct (bits (m)); cbn; [constructor|inversion ND; auto]).
  pose proof (F2_len _ _ _ Hh) as Lh. apply (proj1 (NoDup_nth (tl (bits m)) []) ND); [exact (eq_ind_r (fun n => (j < n)%nat) Hj Lh)|exact (eq_ind_r (fun n => (l < n)%nat) Hl Lh)|congruence].
Qed.
Lemma h_len_nth j : (j < length h)%nat -> length (nth j h []) = m.
Proof. intros Hj. destruct (h_nth j Hj) as (t & _ & _ & (L & _)). auto. Qed.
Lemma h_NoDup : NoDup h.
Proof. apply NoDup_nth with (d := []). intros i j Hi Hj E. apply h_class; auto. intros. rewrite E. auto. Qed.
Lemma neg_cf p i : cf (negate p) i = (- cf p i)%Z.
Proof. unfold cf, negate. change 0%Z with (- 0)%Z at 1. apply map_nth. Qed.
Lemma all_NoDup g : incl g h -> NoDup g -> NoDup (g ++ map negate g).
Proof.
  intros I ND.
  assert (Ni : forall p q, In p g -> In q g -> p = negate q -> False).
  { intros p q Hp Hq E. apply I, In_nth with (d := []) in Hp. apply I, In_nth with (d := []) in Hq. destruct Hp as (j & Hj & Ep), Hq as (l & Hl & Eq).
    assert (j = l). { apply h_class; auto. intros i Hi. transitivity (Z.odd (cf p i)); [rewrite <- Ep; auto|]. transitivity (Z.odd (cf q i)); [rewrite E, neg_cf; apply Z.odd_opp|rewrite <- Eq; auto]. }
    subst l. assert (p = q) by congruence. subst q. destruct (h_odd j Hj) as (i & Hi & O). rewrite Ep in O.
    assert (E2 : cf p i = cf (negate p) i) by (apply (f_equal (fun z => cf z i)) in E; rewrite Ep in E; exact E). rewrite neg_cf in E2. assert (Z0 : cf p i = 0%Z) by lia. rewrite Z0 in O. discriminate. }
  assert (NN : NoDup (map negate g)).
  { apply FinFun.Injective_map_NoDup; auto. intros p q E. apply (f_equal negate) in E. unfold negate in E. rewrite !map_map in E.
    assert (Id : forall x : point, map (fun x => (- - x)%Z) x = x) by (induction x as [|z x IH]; cbn; [auto|rewrite IH, Z.opp_involutive; auto]). rewrite !Id in E. auto. }
  apply nodup_app; auto. intros p Hp Hn. apply in_map_iff in Hn. destruct Hn as (q & E & Hq). apply (Ni p q); auto.
Qed.

(** the class of every vector that is not twice another one occurs *)
Lemma h_rep f : (exists i, (i < m)%nat /\ Z.odd (f i) = true) ->
  exists j, (j < length h)%nat /\ (forall i, (i < m)%nat -> Z.odd (cf (nth j h []) i) = Z.odd (f i)) /\ sq (cf (nth j h [])) <= sq f.
Proof.
  intros (i0 & Hi0 & O0). set (t := mk m (fun i => if Z.odd (f i) then 1 else 0)%Z).
  assert (Nt : forall i, (i < m)%nat -> Z.odd (cf t i) = Z.odd (f i)) by (intros i Hi; unfold t, cf; rewrite mk_nth by auto; destruct (Z.odd (f i)); auto).
  assert (Ht : In t (tl (bits m))).
  { apply in_tl_bits. split.
    - apply in_bits. split; [apply mk_len|]. apply Forall_forall. intros z Hz. unfold t, mk in Hz. apply in_map_iff in Hz. destruct Hz as (i & <- & _). destruct (Z.odd (f i)); auto.
    - intros E. specialize (Nt i0 Hi0). rewrite E, O0 in Nt. unfold cf in Nt. rewrite nth_repeat in Nt. discriminate. }
  apply In_nth with (d := []) in Ht. destruct Ht as (j & Hj & Ej). rewrite (F2_len _ _ _ Hh) in Hj.
  exists j. split; auto. destruct (h_nth j Hj) as (t' & Et & _ & (L & Par & Sh)). assert (Et2 : t' = t) by exact (eq_trans Et Ej).
  split; [intros i Hi; rewrite Par, Et2, Nt; auto|]. apply Sh. intros i Hi. rewrite Et2, Nt; auto.
Qed.
Lemma h_pos j : (j < length h)%nat -> 0 < sq (cf (nth j h [])).
Proof. intros Hj. destruct (h_odd j Hj) as (i & Hi & O). apply (sq_nonzero_pos m d b inv Hinv Hm _ i Hi). intros E. rewrite E in O. discriminate. Qed.
Lemma side_neg y p : side y (cf (negate p)) <-> side y (fun i => - cf p i)%Z.
Proof. split; apply side_ext; intros; rewrite neg_cf; auto. Qed.

(** the intersection of the half-spaces of the unreduced list is the cell *)
Lemma full_cell y : (forall p, In p (h ++ map negate h) -> on_side d b y p) -> in_cell m d b y.
Proof.
  intros H p Lp. change (on_side d b y p). apply (on_side_iff m); auto. apply (descent m d b inv Hinv Hm y). intros f Hf.
  destruct (h_rep f Hf) as (j & Hj & Par & Sh). exists (cf (nth j h [])). split; auto. split; auto. left.
  assert (Lj := h_len_nth j Hj). split.
  - apply (on_side_iff m); auto. apply H, in_app_iff. left. apply nth_In; auto.
  - apply side_neg. apply (on_side_iff m); [unfold negate; rewrite map_length; auto|]. apply H, in_app_iff. right. apply in_map, nth_In; auto.
Qed.

Lemma product_dot p q : length p = m -> length q = m -> product m d b p q = lv (cf p) · lv (cf q).
Proof.
  intros _ _. unfold product, lv, comb. rewrite dot_sum_l. apply Rsum_ext. intros i _. rewrite dot_sum_r, <- Rsum_mult_l. apply Rsum_ext. intros j _. unfold bbt, cf, dot. ring.
Qed.
Definition okb (rtol : R) (i k : nat) : bool :=
  Rltb (Rabs ((1 / 2) * product m d b (nth i h []) (nth k h []) / product m d b (nth k h []) (nth k h []))) (1 / 2 - rtol).
Lemma ok_true rtol i k : 0 <= rtol -> (i < length h)%nat -> (k < length h)%nat -> okb rtol i k = true -> Rabs (lv (cf (nth i h [])) · lv (cf (nth k h []))) < sq (cf (nth k h [])).
Proof.
  intros Hr Hi Hk H. unfold okb in H. apply Rltb_spec in H. rewrite !product_dot in H by (apply h_len_nth; auto). change (lv (cf (nth k h [])) · lv (cf (nth k h []))) with (sq (cf (nth k h []))) in H.
  pose proof (h_pos k Hk) as P. set (a := lv (cf (nth i h [])) · lv (cf (nth k h []))) in *. set (q := sq (cf (nth k h []))) in *.
  replace (1 / 2 * a / q) with (a * (/ (2 * q))) in H by (field; lra). rewrite Rabs_mult, (Rabs_right (/ (2 * q))) in H by (apply Rle_ge; left; apply Rinv_0_lt_compat; lra).
  apply Rmult_lt_compat_r with (r := 2 * q) in H; [|lra]. rewrite Rmult_assoc, Rinv_l, Rmult_1_r in H by lra. nra.
Qed.
Lemma ok_false i k : (i < length h)%nat -> (k < length h)%nat -> okb 0 i k = false -> sq (cf (nth k h [])) <= Rabs (lv (cf (nth i h [])) · lv (cf (nth k h []))).
Proof.
  intros Hi Hk H. unfold okb in H. apply Rltb_false in H. rewrite !product_dot in H by (apply h_len_nth; auto). change (lv (cf (nth k h [])) · lv (cf (nth k h []))) with (sq (cf (nth k h []))) in H.
  pose proof (h_pos k Hk) as P. set (a := lv (cf (nth i h [])) · lv (cf (nth k h []))) in *. set (q := sq (cf (nth k h []))) in *.
  replace (1 / 2 * a / q) with (a * (/ (2 * q))) in H by (field; lra). rewrite Rabs_mult, (Rabs_right (/ (2 * q))) in H by (apply Rle_ge; left; apply Rinv_0_lt_compat; lra).
  apply Rmult_le_compat_r with (r := 2 * q) in H; [|lra]. rewrite Rmult_assoc, Rinv_l, Rmult_1_r in H by lra. nra.
Qed.
Definition flags (rtol : R) : list bool := fold_left (kstep (okb rtol) (length h)) (seq 0 (length h)) (repeat true (length h)).
Lemma reduce_flags rtol : reduce m d b rtol h = map fst (filter snd (combine h (flags rtol))).
Proof. reflexivity. Qed.
Lemma in_reduce rtol p : In p (reduce m d b rtol h) <-> exists j, (j < length h)%nat /\ nth j (flags rtol) false = true /\ nth j h [] = p.
Proof. rewrite reduce_flags. apply in_filter_combine. destruct (kfold (okb rtol) (length h)) as [L _]. symmetry. exact L. Qed.
Lemma reduce_incl rtol : incl (reduce m d b rtol h) h.
Proof. intros p Hp. apply in_reduce in Hp. destruct Hp as (j & Hj & _ & <-). apply nth_In; auto. Qed.

Lemma reduced_cell y : (forall p, In p (reduce m d b 0 h ++ map negate (reduce m d b 0 h)) -> on_side d b y p) -> in_cell m d b y.
Proof.
  intros H p Lp. change (on_side d b y p). apply (on_side_iff m); auto. apply (descent m d b inv Hinv Hm y). intros f Hf.
  destruct (h_rep f Hf) as (j & Hj & Par & Sh). exists (cf (nth j h [])). split; auto. split; auto.
  assert (Lj := h_len_nth j Hj). destruct (kfold (okb 0) (length h)) as (LK & _ & _ & K). fold (flags 0) in K.
  destruct (nth j (flags 0) false) eqn:Ej.
  - left. assert (Hr : In (nth j h []) (reduce m d b 0 h)) by (apply in_reduce; exists j; auto). split.
    + apply (on_side_iff m); auto. apply H, in_app_iff. auto.
    + apply side_neg. apply (on_side_iff m); [unfold negate; rewrite map_length; auto|]. apply H, in_app_iff. right. apply in_map; auto.
  - right. destruct (K j Hj Ej) as (l & Hl & Nl & O). apply ok_false in O; auto.
    set (r := cf (nth j h [])) in *. set (s0 := cf (nth l h [])) in *.
    destruct (h_odd l Hl) as (i0 & Hi0 & O0). fold s0 in O0.
    assert (Nz : forall s, (forall i, (i < m)%nat -> Z.odd (s i) = Z.odd (s0 i)) -> ~ zero s /\ ~ zero (fun i => r i - s i)%Z).
    { intros s Hs. split.
      - intros Z. specialize (Hs i0 Hi0). rewrite (Z i0 Hi0), O0 in Hs. discriminate.
      - intros Z. apply Nl. symmetry. apply h_class; auto. intros i Hi. fold r s0. rewrite <- Hs by auto. f_equal. specialize (Z i Hi). cbv beta in Z. lia. }
    assert (Sub : forall s, 0 <= lv s · lv r - sq s -> 0 <= lv s · lv (fun i => r i - s i)%Z).
    { intros s Hs. rewrite (dot_ext d (lv s) _ (lv s) (fun k => lv r k - lv s k)) by (auto; intros; apply lv_sub). rewrite dot_minus_r. exact Hs. }
    unfold Rabs in O. destruct (Rcase_abs _) in O.
    + exists (fun i => - s0 i)%Z. destruct (Nz (fun i => - s0 i)%Z) as [N1 N2]; [intros; apply Z.odd_opp|]. split; auto. split; auto. apply Sub.
      rewrite dot_opp_l, sq_opp, (dot_comm d (lv s0)). lra.
    + exists s0. destruct (Nz s0) as [N1 N2]; auto. split; auto. split; auto. apply Sub. rewrite (dot_comm d (lv s0)). lra.
Qed.

(** every vector of the reduced list is needed *)
Lemma slack (l : list (R * R)) : (forall cq, In cq l -> fst cq < snd cq) -> (forall cq, In cq l -> 0 <= snd cq) -> exists e, 0 < e /\ forall cq, In cq l -> (1 + e) * fst cq <= snd cq.
Proof.
  induction l as [|(c, q) l IH]; intros H1 H2; [exists 1; split; [lra|intros ? []]|].
  destruct IH as (e & He & H); [intros; apply H1; cbn; auto|intros; apply H2; cbn; auto|].
  pose proof (H1 (c, q) (or_introl eq_refl)) as Hc. cbn in Hc.
  set (e' := Rmin e ((q - c) / (Rabs c + 1))). assert (Pa := Rabs_pos c).
  assert (0 < (q - c) / (Rabs c + 1)) by (apply Rdiv_lt_0_compat; lra).
  exists e'. assert (0 < e') by (apply Rmin_pos; auto). split; auto. intros cq [<-|Hi]; cbn.
  - assert (E1 : e' <= (q - c) / (Rabs c + 1)) by apply Rmin_r.
    assert (E2 : e' * (Rabs c + 1) <= q - c). { apply Rmult_le_compat_r with (r := Rabs c + 1) in E1; [|lra]. unfold Rdiv in E1. rewrite Rmult_assoc, Rinv_l, Rmult_1_r in E1 by lra. auto. }
    pose proof (Rle_abs c). nra.
  - specialize (H cq Hi). assert (E1 : e' <= e) by apply Rmin_l. pose proof (H1 cq (or_intror Hi)). pose proof (H2 cq (or_intror Hi)).
    destruct (Rle_dec 0 (fst cq)); nra.
Qed.
Lemma reduced_minimal rtol p : 0 <= rtol -> In p (reduce m d b rtol h ++ map negate (reduce m d b rtol h)) ->
  exists y, ~ on_side d b y p /\ forall q, In q (reduce m d b rtol h ++ map negate (reduce m d b rtol h)) -> q <> p -> on_side d b y q.
Proof.
  intros Hr. destruct (kfold (okb rtol) (length h)) as (LK & _ & K & _). fold (flags rtol) in K, LK.
  (* a kept vector and a sign *)
  assert (G : forall j (sg : R), (sg = 1 \/ sg = - 1) -> (j < length h)%nat -> nth j (flags rtol) false = true ->
     exists e, 0 < e /\ forall l, (l < length h)%nat -> nth l (flags rtol) false = true -> l <> j ->
        let y := fun k => (1 + e) / 2 * (sg * lv (cf (nth j h [])) k) in side y (cf (nth l h [])) /\ side y (fun i => - cf (nth l h []) i)%Z).
  { intros j sg Hsg Hj Kj.
    destruct (slack (map (fun l => (Rabs (lv (cf (nth j h [])) · lv (cf (nth l h []))), sq (cf (nth l h [])))) (filter (fun l => nth l (flags rtol) false && negb (l =? j)%nat) (seq 0 (length h))))) as (e & He & H).
    - intros cq Hc. apply in_map_iff in Hc. destruct Hc as (l & <- & Hl). apply filter_In in Hl. destruct Hl as [Hl Kl]. apply in_seq in Hl. apply andb_true_iff in Kl. destruct Kl as [Kl Nl].
      cbn. apply ok_true with (rtol := rtol); auto; [lia|]. apply K; auto; [lia|]. apply negb_true_iff, Nat.eqb_neq in Nl. auto.
    - intros cq Hc. apply in_map_iff in Hc. destruct Hc as (l & <- & _). cbn. apply dot_pos.
    - exists e. split; auto. intros l Hl Kl Nl y.
      assert (Hi : (1 + e) * Rabs (lv (cf (nth j h [])) · lv (cf (nth l h []))) <= sq (cf (nth l h []))).
      { apply (H (_, _)). apply in_map_iff. exists l. split; auto. apply filter_In. split; [apply in_seq; lia|]. rewrite Kl. cbn. apply negb_true_iff, Nat.eqb_neq; auto. }
      assert (Ey : forall u, y · u = (1 + e) / 2 * (sg * (lv (cf (nth j h [])) · u))).
      { intros u. unfold y. rewrite (dot_scal_l d ((1 + e) / 2) (fun k => sg * lv (cf (nth j h [])) k)), dot_scal_l. auto. }
      set (a := lv (cf (nth j h [])) · lv (cf (nth l h []))) in *. pose proof (Rle_abs a) as A1. pose proof (Rle_abs (- a)) as A2. rewrite Rabs_Ropp in A2.
      split; unfold CvpVoronoi.side; [|rewrite sq_opp, (dot_comm d y), dot_opp_l, (dot_comm d _ y)]; rewrite Ey; fold a; destruct Hsg as [-> | ->]; nra. }
  intros Hp. assert (Hp2 : exists j (sg : R), (sg = 1 \/ sg = -1) /\ (j < length h)%nat /\ nth j (flags rtol) false = true /\ p = (if Req_EM_T sg 1 then nth j h [] else negate (nth j h []))).
  { apply in_app_iff in Hp. destruct Hp as [Hp|Hp].
    - apply in_reduce in Hp. destruct Hp as (j & Hj & Kj & <-). exists j, 1. destruct (Req_EM_T 1 1); [|lra]. auto.
    - apply in_map_iff in Hp. destruct Hp as (p' & <- & Hp). apply in_reduce in Hp. destruct Hp as (j & Hj & Kj & <-). exists j, (-1). destruct (Req_EM_T (-1) 1); [lra|]. auto. }
  clear Hp. destruct Hp2 as (j & sg & Hsg & Hj & Kj & Ep). destruct (G j sg Hsg Hj Kj) as (e & He & Hy).
  set (y := fun k => (1 + e) / 2 * (sg * lv (cf (nth j h [])) k)) in *. cbv zeta in Hy. exists y.
  assert (Ey : forall u, y · u = (1 + e) / 2 * (sg * (lv (cf (nth j h [])) · u))).
  { intros u. unfold y. rewrite (dot_scal_l d ((1 + e) / 2) (fun k => sg * lv (cf (nth j h [])) k)), dot_scal_l. auto. }
  assert (Lj := h_len_nth j Hj). assert (Ln : length (negate (nth j h [])) = m) by (unfold negate; rewrite map_length; auto).
  pose proof (h_pos j Hj) as Pj.
  assert (Sj : side y (cf (nth j h [])) <-> (1 + e) * sg * sq (cf (nth j h [])) <= sq (cf (nth j h []))).
  { unfold CvpVoronoi.side. rewrite Ey. fold (sq (cf (nth j h []))). split; lra. }
  assert (Sn : side y (cf (negate (nth j h []))) <-> - (1 + e) * sg * sq (cf (nth j h [])) <= sq (cf (nth j h []))).
  { rewrite side_neg. unfold CvpVoronoi.side. rewrite sq_opp, (dot_comm d y), dot_opp_l, (dot_comm d _ y), Ey. fold (sq (cf (nth j h []))). split; lra. }
  split.
  - intros Ho. subst p. destruct (Req_EM_T sg 1) as [E|N].
    + apply (on_side_iff m) in Ho; auto. apply Sj in Ho. subst sg. nra.
    + apply (on_side_iff m) in Ho; auto. apply Sn in Ho. destruct Hsg as [|E]; [contradiction|]. subst sg. nra.
  - intros q Hq Nq.
    assert (Hq2 : exists l, (l < length h)%nat /\ nth l (flags rtol) false = true /\ (q = nth l h [] \/ q = negate (nth l h []))).
    { apply in_app_iff in Hq. destruct Hq as [Hq|Hq].
      - apply in_reduce in Hq. destruct Hq as (l & Hl & Kl & <-). exists l. auto.
      - apply in_map_iff in Hq. destruct Hq as (q' & <- & Hq). apply in_reduce in Hq. destruct Hq as (l & Hl & Kl & <-). exists l. auto. }
    destruct Hq2 as (l & Hl & Kl & Eq). assert (Ll := h_len_nth l Hl).
    destruct (Nat.eq_dec l j) as [->|Nl].
    + destruct (Req_EM_T sg 1) as [E|N].
      * destruct Eq as [-> | ->]; [congruence|]. apply (on_side_iff m); auto. apply Sn. subst sg. nra.
      * destruct Hsg as [|E]; [contradiction|]. destruct Eq as [-> | ->]; [|congruence]. apply (on_side_iff m); auto. apply Sj. subst sg. nra.
    + destruct (Hy l Hl Kl Nl) as [H1 H2]. destruct Eq as [-> | ->].
      * apply (on_side_iff m); auto.
      * apply (on_side_iff m); [unfold negate; rewrite map_length; auto|]. apply side_neg. auto.
Qed.
End Halves.

Lemma cell_side p y : in_cell m d b y -> length p = m -> on_side d b y p.
Proof. intros H L. apply H. exact L. Qed.
Theorem main_voronoi fuel rtol vs : voronoi fuel false rtol = Some vs ->
  (exists h, vs = h ++ map (map Z.opp) h /\ length h = (2 ^ m - 1)%nat) /\ NoDup vs /\ Forall (lattice_point m) vs
  /\ forall y, in_cell m d b y <-> forall p, In p vs -> on_side d b y p.
Proof.
  unfold voronoi. destruct (vertices_of fuel (tl (bits m))) as [h|] eqn:E; [|discriminate]. intros H. assert (vs = h ++ map negate h) by congruence. subst vs. clear H.
  apply halves_of in E. assert (F : Forall (lattice_point m) (h ++ map negate h)).
  { apply Forall_forall. intros p Hp. apply in_app_iff in Hp. destruct Hp as [Hp|Hp]; [|apply in_map_iff in Hp; destruct Hp as (p' & <- & Hp); unfold lattice_point, negate; rewrite map_length];
      apply In_nth with (d := []) in Hp; destruct Hp as (j & Hj & <-); apply (h_len_nth h E j Hj). }
  split; [exists h; split; [reflexivity|apply h_len; auto]|]. split; [apply (all_NoDup h E); [intros ?; auto|apply h_NoDup; auto]|]. split; auto.
  intros y. split; [|apply full_cell; auto]. intros Hy p Hp. apply cell_side; auto. rewrite Forall_forall in F. apply F; auto.
Qed.
Theorem main_reduced fuel rtol vs : voronoi fuel true rtol = Some vs ->
  (exists h, vs = h ++ map (map Z.opp) h) /\ NoDup vs /\ Forall (lattice_point m) vs
  /\ (rtol = 0 -> forall y, in_cell m d b y <-> forall p, In p vs -> on_side d b y p)
  /\ (0 <= rtol -> forall p, In p vs -> exists y, ~ on_side d b y p /\ forall q, In q vs -> q <> p -> on_side d b y q).
Proof.
  unfold voronoi. destruct (vertices_of fuel (tl (bits m))) as [h|] eqn:E; [|discriminate]. intros H. assert (vs = reduce m d b rtol h ++ map negate (reduce m d b rtol h)) by congruence. subst vs. clear H.
  apply halves_of in E. assert (F : Forall (lattice_point m) (reduce m d b rtol h ++ map negate (reduce m d b rtol h))).
  { apply Forall_forall. intros p Hp. apply in_app_iff in Hp. destruct Hp as [Hp|Hp]; [|apply in_map_iff in Hp; destruct Hp as (p' & <- & Hp); unfold lattice_point, negate; rewrite map_length];
      apply reduce_incl in Hp; apply In_nth with (d := []) in Hp; destruct Hp as (j & Hj & <-); apply (h_len_nth h E j Hj). }
  split; [eexists; reflexivity|]. split; [apply (all_NoDup h E); [apply reduce_incl|rewrite reduce_flags; apply filter_combine_NoDup, h_NoDup; auto]|]. split; auto. split.
  - intros ->. intros y. split; [|apply reduced_cell; auto]. intros Hy p Hp. apply cell_side; auto. rewrite Forall_forall in F. apply F; auto.
  - intros Hr p Hp. apply reduced_minimal; auto.
Qed.
Theorem main_voronoi_terminates reduced rtol : exists F, forall fuel, (F <= fuel)%nat -> exists vs, voronoi fuel reduced rtol = Some vs.
Proof.
  assert (G : forall ts, exists F, forall fuel, (F <= fuel)%nat -> exists vs, vertices_of fuel ts = Some vs).
  { induction ts as [|t ts (F & H)]; [exists O; intros; exists []; auto|].
    destruct (main_terminates m d b lstsq inv round argsort Hlstsq Hinv Hsort Hm (fun k => Rsum m (fun i => IZR (nth i t 0%Z) / 2 * b i k)) 1 (1 / 10 ^ 9) ltac:(lia)) as (F2 & H2).
    exists (Nat.max F F2). intros fuel Hf. destruct (H fuel ltac:(lia)) as (vs & Ev). destruct (H2 fuel ltac:(lia)) as (ps & Ec).
    pose proof (main_closest m d b lstsq inv round argsort Hlstsq Hinv Hround Hsort Hm _ fuel 1 _ ps Ec) as (L1 & _). destruct ps as [|p ps]; [discriminate|].
    cbn [CvpModel.vertices_of]. unfold CvpModel.vertex. rewrite Ec, Ev. eauto. }
  destruct (G (tl (bits m))) as (F & H). exists F. intros fuel Hf. destruct (H fuel Hf) as (vs & E). unfold voronoi. rewrite E. eauto.
Qed.
End Top.
