(** * wraparound of a TranslationalSymmetry: the translations split. *)
From Coq Require Import List Bool ZArith Lia.
From Verif Require Import BuilderModel BuilderProofs SymmetryModel SymmetryProofs WrapSpec.
Import ListNotations.
Set Implicit Arguments.
Open Scope Z_scope.

(** The symmetry with data [data'] acting on the sites of the families known to
    [data]. *)
Section On.
Variables (data data' : Z -> option famdata) (n : nat).
Hypothesis OK' : data_ok n data'.
Hypothesis EM : forall f d, data f = Some d -> exists d', data' f = Some d' /\ length (m_part d') = length (m_part d).
Notation TS := (TransSymm false OK').

Lemma emb_ok (s : Z * vec) : ts_valid data s = true -> ts_valid data' s = true.
Proof.
  unfold ts_valid. destruct (data (fst s)) as [d|] eqn:E; [|discriminate]. destruct (EM E) as (d' & -> & ->). auto.
Qed.
Definition emb (s : ts_site data) : ts_site data' := exist _ (proj1_sig s) (emb_ok _ (proj2_sig s)).
Lemma back_ok (g : elt TS) (s : ts_site data) : ts_valid data (proj1_sig (act TS g (emb s))) = true.
Proof.
  destruct s as [[f t] H]. pose proof H as H'. unfold ts_valid in H'. cbn [fst snd] in H'. unfold ts_valid. cbn [fst snd proj1_sig act TransSymm emb].
  destruct (data f) as [d|] eqn:E; [|discriminate]. destruct (EM E) as (d' & E' & L'). apply Nat.eqb_eq in H'. apply Nat.eqb_eq.
  rewrite ts_act_length; auto. unfold ts_data. cbn. rewrite E'. congruence.
Qed.
Definition TransOn : Symmetry (ts_site data) :=
  @mkSym (ts_site data) (elt TS) (e0 TS) (eneg TS) (eadd TS) (eis0 TS) (fun s => which TS (emb s))
    (fun g s => exist _ (proj1_sig (act TS g (emb s))) (back_ok g s)).
Lemma emb_act g s : emb (act TransOn g s) = act TS g (emb s).
Proof. apply sig_eq. reflexivity. Qed.
Lemma TransOn_laws : SymLaws TransOn.
Proof.
  pose proof (TransSymm_laws false OK') as L. constructor; try apply L.
  - intros s. apply sig_eq. change (proj1_sig (act TS (e0 TS) (emb s)) = proj1_sig s). rewrite (law_act0 L). reflexivity.
  - intros x y s. apply sig_eq. change (proj1_sig (act TS (eadd TS x y) (emb s)) = proj1_sig (act TS x (emb (act TransOn y s)))). rewrite emb_act, (law_act L). reflexivity.
  - intros x s. change (which TS (emb (act TransOn x s)) = eadd TS x (which TS (emb s))). rewrite emb_act. apply (law_which L).
Qed.
End On.

(** *** Removing and inserting one component *)
Definition del {A} (k : nat) (l : list A) : list A := firstn k l ++ skipn (S k) l.
Definition ins {A} (k : nat) (x : A) (l : list A) : list A := firstn k l ++ x :: skipn k l.
Lemma del_length A k (l : list A) n : (k <= n)%nat -> length l = S n -> length (del k l) = n.
Proof. intros H E. unfold del. rewrite app_length, firstn_length, skipn_length. lia. Qed.
Lemma ins_length A k (x : A) l n : (k <= n)%nat -> length l = n -> length (ins k x l) = S n.
Proof. intros H E. unfold ins. rewrite app_length, firstn_length. cbn [length]. rewrite skipn_length. lia. Qed.
Lemma del_ins A k (x : A) l : (k <= length l)%nat -> del k (ins k x l) = l.
Proof. revert l; induction k as [|k IH]; intros l H; [reflexivity|]. destruct l as [|a l]; [cbn in H; lia|]. cbn. f_equal. apply (IH l). cbn in H; lia. Qed.
Lemma nth_ins A k (x y : A) l : (k <= length l)%nat -> nth k (ins k x l) y = x.
Proof. revert l; induction k as [|k IH]; intros l H; [reflexivity|]. destruct l as [|a l]; [cbn in H; lia|]. cbn. apply (IH l). cbn in H; lia. Qed.
Lemma del_vadd k u v : del k (vadd u v) = vadd (del k u) (del k v) \/ length u <> length v.
Proof.
  destruct (Nat.eq_dec (length u) (length v)) as [E|]; [left|auto]. revert u v E. induction k as [|k IH]; intros [|x u] [|y v] E; try discriminate; try reflexivity.
  cbn. f_equal. apply (IH u v). cbn in E; lia.
Qed.
Lemma dot_del k r x : length r = length x -> dot r x = nth k r 0 * nth k x 0 + dot (del k r) (del k x).
Proof.
  revert r x; induction k as [|k IH]; intros [|a r] [|b x] E; try discriminate; cbn [dot nth]; try reflexivity.
  change (del (S k) (a :: r)) with (a :: del k r). change (del (S k) (b :: x)) with (b :: del k x). cbn [dot]. rewrite (IH r x) by (cbn in E; lia). lia.
Qed.
Lemma dot_repeat0 r k : dot r (repeat 0 k) = 0.
Proof. revert k; induction r as [|a r IH]; intros [|k]; cbn; auto. rewrite IH. lia. Qed.

(** *** wraparound(builder, keep=k): wraparound.py:204-207.
    The period number [k] of the builder's symmetry (data [dS]) gives the new
    symmetry (data [dR]); the others are wrapped (data [dW]).  The columns of the
    matrices of a family are the periods (lattice.py:635); for a reversed symmetry,
    self.periods are the reversed periods. *)
Section Keep.
Variable n k : nat.
Hypothesis Hk : (k <= n)%nat.
Variables dS dR dW : Z -> option famdata.
Variable rev : bool.
Definition period_matrix (d : famdata) : mat := if rev then map vneg (m_part d) else m_part d.
Definition keeps : Prop := forall f d, dS f = Some d ->
  (exists r, dR f = Some r /\ m_part r = map (fun row => [nth k row 0]) (period_matrix d)) /\
  (exists w, dW f = Some w /\ m_part w = map (del k) (period_matrix d)).
Hypothesis OS : data_ok (S n) dS.
Hypothesis OR : data_ok 1 dR.
Hypothesis OW : data_ok n dW.
Hypothesis K : keeps.
Notation TS := (TransSymm rev OS).

Lemma pm_len d : length (period_matrix d) = length (m_part d).
Proof. unfold period_matrix. destruct rev; [apply map_length|reflexivity]. Qed.
Lemma keeps_R f d : dS f = Some d -> exists d', dR f = Some d' /\ length (m_part d') = length (m_part d).
Proof. intros E. destruct (K E) as [(r & H & M) _]. exists r. split; auto. rewrite M, map_length. apply pm_len. Qed.
Lemma keeps_W f d : dS f = Some d -> exists d', dW f = Some d' /\ length (m_part d') = length (m_part d).
Proof. intros E. destruct (K E) as [_ (r & H & M)]. exists r. split; auto. rewrite M, map_length. apply pm_len. Qed.
Definition kept : Symmetry (ts_site dS) := @TransOn dS dR 1 OR keeps_R.
Definition wrapped : Symmetry (ts_site dS) := @TransOn dS dW n OW keeps_W.
(** wraparound.py:245 *)
Definition drop_kept (x : elt TS) : elt wrapped := mk_elt (del k (proj1_sig x)) (del_length (proj1_sig x) Hk (elt_len x)).

Lemma pm_act d g tag : fam_ok (S n) d -> ts_act d rev g tag = vadd tag (matvec (period_matrix d) g).
Proof.
  intros _. unfold ts_act, period_matrix. destruct rev; auto. f_equal. unfold matvec, vneg. rewrite !map_map. apply map_ext.
  intros r. clear. revert g. induction r as [|a r IH]; intros [|b g]; cbn; auto. unfold vneg in IH. rewrite <- IH. lia.
Qed.
Lemma pm_rows d r : fam_ok (S n) d -> In r (period_matrix d) -> length r = S n.
Proof.
  intros (_ & H & _) Hin. unfold period_matrix in Hin. destruct rev; [|auto]. apply in_map_iff in Hin. destruct Hin as (r' & <- & Hin). rewrite vneg_length. auto.
Qed.

Lemma act_kept (r : elt kept) (s : ts_site dS) x : nth k (proj1_sig x) 0 = nth 0 (proj1_sig r) 0 -> del k (proj1_sig x) = repeat 0 n -> act kept r s = act TS x s.
Proof.
  intros Ex Dx. apply sig_eq. cbn. f_equal. destruct (ts_data_spec OS s) as (E & L & F). rewrite pm_act by auto. unfold ts_act. f_equal.
  unfold ts_data at 1. cbn. destruct (K E) as [(d' & E' & M) _]. rewrite E', M. unfold matvec. rewrite map_map. apply map_ext_in. intros row Hrow.
  etransitivity; [|symmetry; apply (dot_del k row (proj1_sig x)); exact (eq_trans (pm_rows row F Hrow) (eq_sym (elt_len x)))]. rewrite Dx, dot_repeat0, Ex. pose proof (elt_len r) as Lr. destruct (proj1_sig r) as [|a [|b l]]; try discriminate Lr. cbn. lia.
Qed.
Lemma act_wrapped (g : elt wrapped) (s : ts_site dS) x : nth k (proj1_sig x) 0 = 0 -> del k (proj1_sig x) = proj1_sig g -> act wrapped g s = act TS x s.
Proof.
  intros Ex Dx. apply sig_eq. cbn. f_equal. destruct (ts_data_spec OS s) as (E & L & F). rewrite pm_act by auto. unfold ts_act. f_equal.
  unfold ts_data at 1. cbn. destruct (K E) as [_ (d' & E' & M)]. rewrite E', M. unfold matvec. rewrite map_map. apply map_ext_in. intros row Hrow.
  etransitivity; [|symmetry; apply (dot_del k row (proj1_sig x)); exact (eq_trans (pm_rows row F Hrow) (eq_sym (elt_len x)))]. rewrite Dx, Ex. lia.
Qed.

Theorem keep_splits : SymLaws TS /\ SymLaws kept /\ SymLaws wrapped /\ splits TS kept wrapped drop_kept.
Proof.
  split; [apply TransSymm_laws|]. split; [apply TransOn_laws|]. split; [apply TransOn_laws|]. constructor.
  - intros x y. apply sig_eq. cbn. apply vadd_comm.
  - intros x y. apply sig_eq. cbn. destruct (del_vadd k (proj1_sig x) (proj1_sig y)) as [H|H]; auto. exfalso. apply H. rewrite !elt_len. reflexivity.
  - intros r. assert (L0 : length (repeat 0 n) = n) by apply repeat_length.
    exists (mk_elt (ins k (nth 0 (proj1_sig r) 0) (repeat 0 n)) (ins_length (nth 0 (proj1_sig r) 0) (repeat 0 n) Hk L0)). split.
    + apply sig_eq. cbn. apply del_ins. lia.
    + intros s. apply act_kept; cbn; [apply nth_ins; lia|apply del_ins; lia].
  - intros g. exists (mk_elt (ins k 0 (proj1_sig g)) (ins_length 0 (proj1_sig g) Hk (elt_len g))). split.
    + apply sig_eq. cbn. apply del_ins. rewrite (elt_len g). exact Hk.
    + intros s. apply act_wrapped; cbn; [apply nth_ins; rewrite (elt_len g); exact Hk|apply del_ins; rewrite (elt_len g); exact Hk].
  - intros x Hx. apply (f_equal (@proj1_sig _ _)) in Hx. cbn in Hx. exists (mk_elt [nth k (proj1_sig x) 0] eq_refl). intros s. symmetry. apply act_kept; cbn; auto.
Qed.
End Keep.
