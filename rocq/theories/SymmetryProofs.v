(** * TranslationalSymmetry satisfies the symmetry laws. *)
From Coq Require Import List Bool ZArith Lia Eqdep_dec.
From Verif Require Import BuilderModel BuilderProofs SymmetryModel.
Import ListNotations.
Set Implicit Arguments.
Open Scope Z_scope.

Lemma NoSymmetry_laws site : SymLaws (NoSymmetry site).
Proof. split; intros; simpl in *; try reflexivity; try (destruct x; reflexivity). destruct x; split; reflexivity. Qed.

Lemma sig_eq A (P : A -> bool) (x y : { a : A | P a = true }) :
  proj1_sig x = proj1_sig y -> x = y.
Proof.
  destruct x as [x Hx], y as [y Hy]; simpl. intros ->.
  f_equal. apply UIP_dec. apply bool_dec.
Qed.

Lemma vadd_length u v : length u = length v -> length (vadd u v) = length u.
Proof.
  revert v; induction u as [|x u IH]; intros [|y v]; simpl; auto; try discriminate.
Qed.
Lemma vadd_assoc u v w : vadd u (vadd v w) = vadd (vadd u v) w.
Proof.
  revert v w; induction u as [|x u IH]; intros [|y v] [|z w]; simpl; auto.
  f_equal; [lia|apply IH].
Qed.
Lemma vadd_0l u : vadd (repeat 0 (length u)) u = u.
Proof. induction u as [|x u IH]; simpl; [reflexivity|]. f_equal; auto. Qed.
Lemma vadd_0r u k : (length u <= k)%nat -> vadd u (repeat 0 k) = u.
Proof.
  revert k; induction u as [|x u IH]; intros [|k] H; simpl in *; auto; [lia|].
  f_equal; [lia|apply IH; lia].
Qed.
Lemma vneg_length u : length (vneg u) = length u.
Proof. apply map_length. Qed.
Lemma vadd_negl u : vadd (vneg u) u = repeat 0 (length u).
Proof. induction u as [|x u IH]; simpl; [reflexivity|]. f_equal; [lia|apply IH]. Qed.
Lemma vadd_comm u v : vadd u v = vadd v u.
Proof. revert v; induction u as [|x u IH]; intros [|y v]; simpl; auto. f_equal; auto; lia. Qed.
Lemma vneg_vadd u v : vneg (vadd u v) = vadd (vneg u) (vneg v).
Proof. revert v; induction u as [|x u IH]; intros [|y v]; simpl; auto. f_equal; [lia|apply IH]. Qed.
Lemma vneg_vneg u : vneg (vneg u) = u.
Proof. unfold vneg. induction u as [|x u IH]; simpl; [reflexivity|]. f_equal; auto; lia. Qed.
Lemma vneg_repeat0 k : vneg (repeat 0 k) = repeat 0 k.
Proof. induction k; simpl; [reflexivity|]. f_equal; auto. Qed.

Lemma dot_vadd r u v : length u = length v -> dot r (vadd u v) = dot r u + dot r v.
Proof.
  revert u v; induction r as [|x r IH]; intros [|y u] [|z v] H; simpl in *; try lia; try discriminate.
  rewrite IH by congruence. lia.
Qed.
Lemma dot_vadd_l u v r : length u = length v -> dot (vadd u v) r = dot u r + dot v r.
Proof.
  revert r v; induction u as [|x u IH]; intros [|y r] [|z v] H; simpl in *; try lia; try discriminate.
  rewrite IH by congruence. lia.
Qed.
Lemma dot_scale x u r : dot (map (Z.mul x) u) r = x * dot u r.
Proof. revert r; induction u as [|y u IH]; intros [|z r]; simpl; try lia. rewrite IH. lia. Qed.
Lemma dot_neg r u : dot r (vneg u) = - dot r u.
Proof. revert u; induction r as [|y r IH]; intros [|z u]; simpl; try lia. unfold vneg in IH. rewrite IH. lia. Qed.
Lemma dot_0l k r : dot (repeat 0 k) r = 0.
Proof. revert r; induction k; intros [|x r]; simpl; auto. Qed.
Lemma dot_0r k r : dot r (repeat 0 k) = 0.
Proof. revert k; induction r as [|x r IH]; intros [|k]; simpl; auto. rewrite IH. lia. Qed.

Lemma vecmat_length n r M : (forall w, In w M -> length w = n) -> length (vecmat n r M) = n.
Proof.
  revert M; induction r as [|x r IH]; intros [|w M] H; simpl; try apply repeat_length.
  rewrite vadd_length; rewrite map_length.
  - apply H. left; reflexivity.
  - rewrite IH; [apply H; left; reflexivity|]. intros; apply H; right; auto.
Qed.

Lemma dot_vecmat n r M g : (forall w, In w M -> length w = n) ->
  dot (vecmat n r M) g = dot r (matvec M g).
Proof.
  revert M; induction r as [|x r IH]; intros [|w M] H; simpl; try apply dot_0l.
  rewrite dot_vadd_l.
  - rewrite dot_scale, IH; [lia|]. intros; apply H; right; auto.
  - rewrite map_length, vecmat_length; [apply H; left; reflexivity|].
    intros; apply H; right; auto.
Qed.

Lemma dot_unit d g : forall k i, (i < length g)%nat ->
  dot (map (fun j => if Nat.eqb (k + i) j then d else 0) (seq k (length g))) g
  = d * nth i g 0.
Proof.
  induction g as [|x g IH]; intros k i Hi; simpl in *; [lia|].
  destruct i as [|i].
  - rewrite Nat.add_0_r, Nat.eqb_refl.
    assert (E : dot (map (fun j => if Nat.eqb k j then d else 0) (seq (S k) (length g))) g = 0).
    { assert (G : forall m, (k < m)%nat ->
        dot (map (fun j => if Nat.eqb k j then d else 0) (seq m (length g))) g = 0).
      { clear. induction g as [|x g IH]; intros m Hm; simpl; [reflexivity|].
        destruct (Nat.eqb_spec k m); [lia|]. rewrite IH by lia. lia. }
      apply G. lia. }
    rewrite E. lia.
  - destruct (Nat.eqb_spec (k + S i) k); [lia|].
    replace (k + S i)%nat with (S k + i)%nat by lia.
    rewrite IH by lia. lia.
Qed.

Lemma scalarI_matvec n d g : length g = n -> matvec (scalarI n d) g = map (Z.mul d) g.
Proof.
  intros <-. unfold matvec, scalarI. rewrite map_map.
  apply nth_ext with (d := 0) (d' := d * 0).
  - rewrite !map_length, seq_length. reflexivity.
  - intros i Hi. rewrite map_length, seq_length in Hi.
    rewrite (map_nth (Z.mul d)).
    rewrite nth_indep with (d' := dot (map (fun j => if Nat.eqb 0 j then d else 0) (seq 0 (length g))) g)
      by (rewrite map_length, seq_length; auto).
    rewrite (map_nth (fun x => dot (map (fun j => if Nat.eqb x j then d else 0) (seq 0 (length g))) g)).
    rewrite seq_nth by auto. apply (@dot_unit d g 0 i Hi).
Qed.

Lemma matvec_vadd M u v : length u = length v ->
  matvec M (vadd u v) = vadd (matvec M u) (matvec M v).
Proof.
  intros H. induction M as [|r M IH]; simpl; [reflexivity|].
  f_equal; [apply dot_vadd; auto|apply IH].
Qed.
Lemma matvec_vneg M u : matvec M (vneg u) = vneg (matvec M u).
Proof.
  induction M as [|r M IH]; simpl; [reflexivity|].
  f_equal; [apply dot_neg|apply IH].
Qed.
Lemma matvec_0 M k : matvec M (repeat 0 k) = repeat 0 (length M).
Proof. induction M as [|r M IH]; simpl; [reflexivity|]. rewrite dot_0r. f_equal; auto. Qed.
Lemma matvec_length M v : length (matvec M v) = length M.
Proof. apply map_length. Qed.

(** det_x_inv_m_part * (m_part * g) = det_m * g *)
Lemma fam_ok_mul n d g : fam_ok n d -> length g = n ->
  matvec (det_x_inv_m_part d) (matvec (m_part d) g) = map (Z.mul (det_m d)) g.
Proof.
  intros (_ & Hm & _ & _ & E) Hg. rewrite <- (@scalarI_matvec n) by auto. rewrite <- E.
  unfold matvec at 1 3. rewrite map_map. apply map_ext_in. intros r _.
  symmetry. apply dot_vecmat. exact Hm.
Qed.

Lemma div_shift d (u g : vec) : d <> 0 -> length u = length g ->
  map (fun x => x / d) (vadd u (map (Z.mul d) g)) = vadd g (map (fun x => x / d) u).
Proof.
  intros Hd. revert g; induction u as [|x u IH]; intros [|y g] H; simpl; auto; try discriminate.
  f_equal.
  - rewrite (Z.mul_comm d y), Z.div_add by auto. lia.
  - apply IH. simpl in H. congruence.
Qed.

Lemma firstn_vadd k u v : firstn k (vadd u v) = vadd (firstn k u) (firstn k v).
Proof. revert u v; induction k; intros [|x u] [|y v]; simpl; auto. f_equal; auto. Qed.

Lemma firstn_repeat A (x : A) n k : (n <= k)%nat -> firstn n (repeat x k) = repeat x n.
Proof. revert k; induction n; intros [|k] H; simpl; auto; [lia|]. f_equal. apply IHn. lia. Qed.

Lemma vecmat_firstn n k r M : (n <= k)%nat ->
  vecmat n r (map (firstn n) M) = firstn n (vecmat k r M).
Proof.
  intros H. revert M; induction r as [|x r IH]; intros [|w M]; simpl; try (symmetry; apply firstn_repeat; auto).
  rewrite firstn_vadd, firstn_map, <- IH. reflexivity.
Qed.

Lemma scalarI_firstn n k d : (n <= k)%nat ->
  map (firstn n) (firstn n (scalarI k d)) = scalarI n d.
Proof.
  intros H. unfold scalarI. rewrite firstn_map, map_map.
  assert (F : forall s, firstn n (seq s k) = seq s n).
  { revert k H. induction n as [|n IH]; intros [|k] H s; simpl; auto; [lia|]. f_equal. apply IH. lia. }
  rewrite F. apply map_ext. intros i. rewrite firstn_map, F. reflexivity.
Qed.

Lemma family_data_ok n k m a det : (n <= k)%nat -> exact_inverse k m a det ->
  fam_ok n (family_data n m a det).
Proof.
  intros H (Hd & Lm & La & Rm & Ra & E). unfold family_data, fam_ok; simpl.
  assert (Hin : forall A (l : list A) x, In x (firstn n l) -> In x l).
  { intros A l x Hx. rewrite <- (firstn_skipn n l). apply in_or_app. auto. }
  split; [exact Hd|]. split.
  { intros r Hr. apply in_map_iff in Hr. destruct Hr as (r0 & <- & Hr).
    rewrite firstn_length, (Rm _ Hr). lia. }
  split; [rewrite firstn_length; lia|]. split.
  { intros r Hr. rewrite map_length. etransitivity; [apply Ra, Hin, Hr|symmetry; exact Lm]. }
  rewrite <- (@scalarI_firstn n k det H), <- E, firstn_map, map_map.
  apply map_ext. intros r. apply vecmat_firstn. exact H.
Qed.

Section Laws.
Variable n : nat.
Variable data : Z -> option famdata.
Variable reversed : bool.
Hypothesis OK : data_ok n data.

Lemma ts_act_length d g tag : length tag = length (m_part d) ->
  length (ts_act d reversed g tag) = length tag.
Proof.
  intros H. unfold ts_act. apply vadd_length.
  destruct reversed; rewrite ?vneg_length, matvec_length; auto.
Qed.

Lemma ts_which_length d tag : fam_ok n d -> length (ts_which d reversed tag) = n.
Proof.
  intros (_ & _ & H & _). unfold ts_which.
  destruct reversed; rewrite ?vneg_length, map_length, matvec_length; auto.
Qed.

Lemma ts_which_act d g tag : fam_ok n d -> length tag = length (m_part d) -> length g = n ->
  ts_which d reversed (ts_act d reversed g tag) = vadd g (ts_which d reversed tag).
Proof.
  intros Hok Ht Hg. unfold ts_which, ts_act.
  destruct Hok as (Hd & Hrest). assert (Hok : fam_ok n d) by (split; auto).
  assert (Len : length (matvec (det_x_inv_m_part d) tag) = n)
    by (rewrite matvec_length; apply Hrest).
  destruct reversed.
  - rewrite matvec_vadd by (rewrite vneg_length, matvec_length; auto).
    rewrite matvec_vneg, (@fam_ok_mul n) by auto.
    replace (vneg (map (Z.mul (det_m d)) g)) with (map (Z.mul (det_m d)) (vneg g)).
    2:{ unfold vneg. rewrite !map_map. apply map_ext. intros; lia. }
    rewrite div_shift by (auto; rewrite vneg_length; congruence).
    rewrite vneg_vadd, vneg_vneg. reflexivity.
  - rewrite matvec_vadd by (rewrite matvec_length; auto).
    rewrite (@fam_ok_mul n) by auto. apply div_shift; auto. congruence.
Qed.

Lemma ts_act_add d g h tag : length g = length h -> length tag = length (m_part d) ->
  ts_act d reversed (vadd g h) tag = ts_act d reversed g (ts_act d reversed h tag).
Proof.
  intros H Ht. unfold ts_act. rewrite matvec_vadd by auto.
  destruct reversed.
  - rewrite vneg_vadd, <- vadd_assoc. f_equal. apply vadd_comm.
  - rewrite <- vadd_assoc. f_equal. apply vadd_comm.
Qed.

Lemma ts_act_0 d k tag : length tag = length (m_part d) ->
  ts_act d reversed (repeat 0 k) tag = tag.
Proof.
  intros H. unfold ts_act. rewrite matvec_0.
  destruct reversed; rewrite ?vneg_repeat0; apply vadd_0r; lia.
Qed.

Notation ts_site := (ts_site data).
Notation ts_elt := (ts_elt n).

Lemma elt_len (g : ts_elt) : length (proj1_sig g) = n.
Proof. destruct g as [g H]; simpl. apply Nat.eqb_eq. exact H. Qed.

Lemma valid_data s : ts_valid data s = true ->
  exists d, data (fst s) = Some d /\ length (snd s) = length (m_part d).
Proof.
  unfold ts_valid. destruct (data (fst s)) as [d|]; [|discriminate].
  intros H. exists d. split; [reflexivity|]. apply Nat.eqb_eq. exact H.
Qed.

Definition mk_elt (g : vec) (H : length g = n) : ts_elt :=
  exist _ g (proj2 (Nat.eqb_eq _ _) H).

Definition ts_data (s : ts_site) : famdata :=
  match data (fst (proj1_sig s)) with Some d => d | None => mkFam [] [] 0 end.

Lemma ts_data_spec s : data (fst (proj1_sig s)) = Some (ts_data s) /\
  length (snd (proj1_sig s)) = length (m_part (ts_data s)) /\ fam_ok n (ts_data s).
Proof.
  destruct s as [s H]. unfold ts_data. simpl. destruct (valid_data s H) as (d & E & Hl).
  rewrite E. split; [reflexivity|]. split; [exact Hl|]. eapply OK; exact E.
Qed.

Lemma ts_which_ok s : length (ts_which (ts_data s) reversed (snd (proj1_sig s))) = n.
Proof. apply ts_which_length. apply ts_data_spec. Qed.

Lemma ts_act_ok (g : ts_elt) (s : ts_site) :
  ts_valid data (fst (proj1_sig s), ts_act (ts_data s) reversed (proj1_sig g) (snd (proj1_sig s))) = true.
Proof.
  destruct (ts_data_spec s) as (E & Hl & _). unfold ts_valid. cbv beta. simpl fst.
  revert E Hl. generalize (ts_data s). destruct s as [[f tg] H]. simpl. intros d E Hl.
  rewrite E. apply Nat.eqb_eq. rewrite ts_act_length; auto.
Qed.

Lemma neg_ok (g : ts_elt) : length (vneg (proj1_sig g)) = n.
Proof. rewrite vneg_length. apply elt_len. Qed.
Lemma add_ok (g h : ts_elt) : length (vadd (proj1_sig g) (proj1_sig h)) = n.
Proof. rewrite vadd_length; rewrite !elt_len; auto. Qed.

(** lattice.py:509-735 TranslationalSymmetry as a [Symmetry]; [in_fd]'s zero
    test is builder.py:302-307. *)
Definition TransSymm : Symmetry ts_site :=
  @mkSym ts_site ts_elt
    (mk_elt (repeat 0 n) (repeat_length 0 n))
    (fun g => mk_elt (vneg (proj1_sig g)) (neg_ok g))
    (fun g h => mk_elt (vadd (proj1_sig g) (proj1_sig h)) (add_ok g h))
    (fun g => forallb (fun d => d =? 0) (proj1_sig g))
    (fun s => mk_elt (ts_which (ts_data s) reversed (snd (proj1_sig s))) (ts_which_ok s))
    (fun g s => exist _ (fst (proj1_sig s),
                         ts_act (ts_data s) reversed (proj1_sig g) (snd (proj1_sig s)))
                      (ts_act_ok g s)).

Lemma ts_data_act g s : ts_data (act TransSymm g s) = ts_data s.
Proof. reflexivity. Qed.

Lemma forallb0_iff (l : vec) : forallb (fun d => d =? 0) l = true <-> l = repeat 0 (length l).
Proof.
  induction l as [|x l IH]; simpl; [tauto|].
  rewrite andb_true_iff, Z.eqb_eq, IH. split.
  - intros [-> E]. f_equal. exact E.
  - intros [= -> E]. split; [reflexivity|exact E].
Qed.

Lemma vtors m (l : vec) : length l = m -> vadd l l = repeat 0 m -> l = repeat 0 m.
Proof.
  intros <-. induction l as [|a l IH]; simpl; [reflexivity|].
  intros [= Ha Hl]. f_equal; [lia|auto].
Qed.

Theorem TransSymm_laws : SymLaws TransSymm.
Proof.
  split.
  - intros x y z. apply sig_eq. simpl. apply vadd_assoc.
  - intros x. apply sig_eq. simpl. assert (H := elt_len x). rewrite <- H at 1. apply vadd_0l.
  - intros x. apply sig_eq. simpl. rewrite vadd_negl, elt_len. reflexivity.
  - intros x. simpl. rewrite forallb0_iff, elt_len. split.
    + intros H. apply sig_eq. exact H.
    + intros ->. reflexivity.
  - intros x H. apply sig_eq. simpl. apply (f_equal (@proj1_sig _ _)) in H. simpl in H.
    assert (Lx := elt_len x). apply vtors; [exact Lx|exact H].
  - intros s. apply sig_eq. simpl. rewrite ts_act_0; [destruct (proj1_sig s); reflexivity|].
    exact (proj1 (proj2 (ts_data_spec s))).
  - intros x y s. apply sig_eq. simpl. f_equal.
    change (ts_data (act TransSymm y s)) with (ts_data s).
    rewrite ts_act_add; [reflexivity| |exact (proj1 (proj2 (ts_data_spec s)))]. rewrite !elt_len. reflexivity.
  - intros x s. apply sig_eq. simpl.
    change (ts_data (act TransSymm x s)) with (ts_data s).
    destruct (ts_data_spec s) as (_ & H1 & H2). apply ts_which_act; auto using elt_len.
Qed.

End Laws.

(** The reversed symmetry (lattice.py:723-733): same data, flag flipped. *)
Section Reversed.
Variable n : nat.
Variable data : Z -> option famdata.
Hypothesis OK : data_ok n data.
Notation TS r := (TransSymm r OK).

Lemma reversed_which r s : proj1_sig (which (TS (negb r)) s) = vneg (proj1_sig (which (TS r) s)).
Proof. simpl. unfold ts_which. destruct r; simpl; [rewrite vneg_vneg|]; reflexivity. Qed.

Lemma reversed_act r g s : act (TS (negb r)) g s = act (TS r) (eneg (TS r) g) s.
Proof.
  apply sig_eq. simpl. unfold ts_act. f_equal. f_equal.
  destruct r; simpl; rewrite matvec_vneg; [rewrite vneg_vneg|]; reflexivity.
Qed.

Lemma reversed_in_fd r s : in_fd (TS (negb r)) s = in_fd (TS r) s.
Proof.
  unfold in_fd. change (eis0 (TS (negb r))) with (eis0 (TS r)).
  cbn [eis0 TransSymm]. rewrite reversed_which. generalize (proj1_sig (which (TS r) s)).
  intros l. unfold vneg. induction l as [|x l IH]; simpl; [reflexivity|].
  rewrite IH. f_equal. destruct (Z.eqb_spec x 0), (Z.eqb_spec (- x) 0); lia.
Qed.

Lemma reversed_to_fd r s : to_fd (TS (negb r)) s = to_fd (TS r) s.
Proof.
  unfold to_fd. rewrite reversed_act. f_equal. apply sig_eq.
  change (vneg (vneg (proj1_sig (which (TS (negb r)) s))) = vneg (proj1_sig (which (TS r) s))).
  rewrite reversed_which, vneg_vneg. reflexivity.
Qed.
End Reversed.
