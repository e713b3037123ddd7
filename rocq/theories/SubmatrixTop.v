(** * Top-level results about hamiltonian_submatrix. *)
From Coq Require Import List Bool Arith ZArith Lia Permutation.
From Verif Require Import BuilderModel BuilderReach SystemModel SystemProofs SubmatrixModel SubmatrixProofs SubmatrixSpec SubmatrixMain.
Import ListNotations.
Set Implicit Arguments.

Section Top.
Variable K : Type.
Variable k0 : K.
Variable kadd : K -> K -> K.
Variable kconj : K -> K.
Variable isz : K -> bool.
Variable E : Type.
Hypothesis isz_spec : forall x, isz x = true <-> x = k0.
Hypothesis add_0_l : forall x, kadd k0 x = x.
Hypothesis conj_0 : kconj k0 = k0.
Hypothesis conj_inv : forall x, kconj (kconj x) = x.
Variable n : nat.
Variable nb : nat -> list nat.
Variable ham : nat -> nat -> mat K + E.
Notation mat := (mat K).
Notation write := (nat * nat * mat)%type.
Notation norb := (norb ham).
Notation mz := (mzero k0).
Notation hm t f := (match ham t f with inl m => m | inr _ => mz 0 0 end).
Notation block := (block k0 nb ham).

Definition in_range (sites : option (list Z)) : Prop :=
  match sites with None => True | Some l => Forall (fun s => 0 <= s < Z.of_nat n)%Z l end.

Lemma onsite_iff sites diag : onsite_blocks n ham sites = inl diag <->
  in_range sites /\ Forall2 (fun f m => ham f f = inl m) (site_list n sites) diag.
Proof.
  assert (HS : forall f m, hamS ham f f = inl m <-> ham f f = inl m).
  { intros f m. unfold hamS. destruct (ham f f); split; intros H; try discriminate; congruence. }
  unfold onsite_blocks, in_range, site_list. destruct sites as [l|].
  - rewrite smap_inl. split.
    + intros H. induction H as [|s m l diag Hs H IH]; cbn; [split; constructor|]. destruct IH as (IH1 & IH2).
      destruct (Z.ltb_spec s 0); cbn [orb] in Hs; [discriminate|].
      destruct (Z.leb_spec (Z.of_nat n) s); [discriminate|]. apply HS in Hs. split; constructor; auto; lia.
    + intros (H1 & H2). revert diag H2. induction H1 as [|s l Hs H1 IH]; cbn; intros diag H2; inversion H2; subst; constructor; auto.
      destruct (Z.ltb_spec s 0); [lia|]. destruct (Z.leb_spec (Z.of_nat n) s); [lia|]. cbn [orb]. apply HS; auto.
  - rewrite smap_inl. split; [intros H|intros (_ & H)]; [split; auto|]; induction H; constructor; auto; apply HS; auto.
Qed.
Lemma site_list_range sites : in_range sites -> forall s, In s (site_list n sites) -> s < n.
Proof.
  destruct sites as [l|]; cbn; intros H s Hs; [|apply in_seq in Hs; lia].
  apply in_map_iff in Hs. destruct Hs as (z & <- & Hz). rewrite Forall_forall in H. apply H in Hz. lia.
Qed.

Lemma existsb_In t l : existsb (Nat.eqb t) l = true <-> In t l.
Proof. rewrite existsb_exists. split; [intros (x & H & ->%Nat.eqb_eq); auto|intros H; exists t; rewrite Nat.eqb_refl; auto]. Qed.
Lemma block_cond t f : (t =? f) || existsb (Nat.eqb t) (nb f) = true <-> t = f \/ In t (nb f).
Proof. rewrite orb_true_iff, Nat.eqb_eq, existsb_In. tauto. Qed.

Lemma exists_write (ws : list write) p q : existsb (fun w : write => (fst (fst w) =? p) && (snd (fst w) =? q)) ws = true <-> exists h, In (p, q, h) ws.
Proof.
  rewrite existsb_exists. split.
  - intros ([[p' q'] h] & Hin & H). cbn in H. apply andb_true_iff in H. destruct H as (->%Nat.eqb_eq & ->%Nat.eqb_eq). eauto.
  - intros (h & H). exists (p, q, h). split; auto. cbn. rewrite !Nat.eqb_refl. auto.
Qed.

Section Part.
Variables (tos froms : list nat) (diag tdiag : list mat).
Hypothesis Hdiag : Forall2 (fun f m => ham f f = inl m) froms diag.
Hypothesis Htdiag : Forall2 (fun f m => ham f f = inl m) tos tdiag.
Hypothesis Hnd : NoDup tos.
Notation tn := (map (@mr K) tdiag).
Notation fn := (map (@mr K) diag).

Lemma firstn_norb (l : list nat) p : firstn p (map norb l) = map norb (firstn p l).
Proof. apply firstn_map. Qed.

Lemma part_blocks : part_good nb ham tos froms ->
  is_block_matrix k0 nb ham (mget (fold_left (wr tn fn) (all_w k0 nb ham tos froms) (mz (list_sum tn) (list_sum fn)))) tos froms.
Proof.
  intros HG p q t f a b Hp Hq Ha Hb.
  rewrite <- !firstn_norb, <- (tn_map ham Htdiag), <- (fn_map ham Hdiag).
  assert (p < length tos) by (apply nth_error_Some; congruence).
  assert (q < length froms) by (apply nth_error_Some; congruence).
  rewrite (@wrs_get K tn fn (all_w k0 nb ham tos froms) p q a b) with (v := mget (hm t f) a b).
  - cbn [mget mzero]. unfold SubmatrixSpec.block.
    destruct (existsb _ (all_w _ _ _ _ _)) eqn:Ex.
    + apply exists_write in Ex. destruct Ex as (h & Hin). apply (all_w_in k0 n nb ham froms Hnd) in Hin.
      destruct Hin as (t' & f' & Hp' & Hq' & Htf & _). assert (t' = t) by congruence. assert (f' = f) by congruence. subst.
      apply block_cond in Htf. rewrite Htf. 
      assert (HH : t = f \/ In t (nb f)) by (apply block_cond; auto).
      destruct (HG t f) as (m & -> & _); auto; eapply nth_error_In; eauto.
    + destruct ((t =? f) || existsb (Nat.eqb t) (nb f)) eqn:Ec; auto. exfalso. apply block_cond in Ec.
      enough (existsb (fun w : write => (fst (fst w) =? p) && (snd (fst w) =? q)) (all_w k0 nb ham tos froms) = true) by congruence.
      apply exists_write. exists (hm t f). apply (all_w_in k0 n nb ham froms Hnd). eauto 10.
  - apply (all_w_fits k0 n Hdiag Htdiag Hnd); auto.
  - rewrite map_length, <- (F2_length Htdiag). auto.
  - rewrite map_length, <- (F2_length Hdiag). auto.
  - rewrite (tn_nth ham Htdiag _ Hp). auto.
  - rewrite (fn_nth ham Hdiag _ Hq). auto.
  - intros h Hin. apply (all_w_in k0 n nb ham froms Hnd) in Hin. destruct Hin as (t' & f' & Hp' & Hq' & _ & ->).
    assert (t' = t) by congruence. assert (f' = f) by congruence. subst. auto.
Qed.
End Part.

Section Full.
Variable diag : list mat.
Hypothesis Hdiag : Forall2 (fun f m => ham f f = inl m) (seq 0 n) diag.
Notation fn := (map (@mr K) diag).
Hypothesis Hrange : forall f t, f < n -> In t (nb f) -> t < n.
Hypothesis Hsym : forall f t, f < n -> In t (nb f) -> In f (nb t).
Hypothesis Hloop : forall f, ~ In f (nb f).
Hypothesis Hherm : forall f t, f < n -> In t (nb f) -> hermitian_at kconj ham t f.

Lemma full_part_good : full_good n nb ham <-> part_good nb ham (seq 0 n) (seq 0 n).
Proof.
  split.
  - intros HG t f Ht Hf Htf. apply in_seq in Ht, Hf. destruct (HG f) as (H1 & H2); [lia|].
    destruct (Nat.le_gt_cases f t) as [Hle|Hgt].
    + destruct Htf as [->|Htf]; auto. rewrite Forall_forall in H2. apply H2; auto.
    + destruct Htf as [->|Htf]; [lia|].
      assert (In f (nb t)) by (apply Hsym; auto; lia). destruct (HG t) as (_ & H3); [lia|]. rewrite Forall_forall in H3.
      destruct (H3 f) as (m & Hm & E1 & E2); auto; [lia|]. assert (HH : hermitian_at kconj ham f t) by (apply Hherm; auto; lia).
      unfold hermitian_at in HH. rewrite Hm in HH. unfold good. destruct (ham t f) as [m'|]; [|contradiction].
      exists m'. split; auto. destruct HH as (HA & HB & _). lia.
  - intros HG f Hf. split; [apply HG; auto; apply in_seq; lia|]. rewrite Forall_forall. intros t Ht _.
    apply HG; auto; apply in_seq; split; try lia. cbn. eauto.
Qed.

Lemma full_blocks : full_good n nb ham ->
  is_block_matrix k0 nb ham (mget (fold_left (wr fn fn) (all_wf k0 kconj n nb ham) (mz (list_sum fn) (list_sum fn)))) (seq 0 n) (seq 0 n).
Proof.
  intros HG p q t f a b Hp Hq Ha Hb.
  rewrite <- !firstn_norb, <- (fn_map ham Hdiag).
  assert (Hpn : p < n) by ((assert (p < length (seq 0 n)) by (apply nth_error_Some; congruence); rewrite seq_length in *; auto)).
  assert (Hqn : q < n) by (assert (q < length (seq 0 n)) by (apply nth_error_Some; congruence); rewrite seq_length in *; auto).
  rewrite (seq_nth_error Hpn) in Hp. injection Hp as <-. rewrite (seq_nth_error Hqn) in Hq. injection Hq as <-.
  pose proof (proj1 full_part_good HG) as HPG.
  rewrite (@wrs_get K fn fn (all_wf k0 kconj n nb ham) p q a b) with (v := mget (hm p q) a b).
  - cbn [mget mzero]. unfold SubmatrixSpec.block.
    destruct (existsb _ (all_wf _ _ _ _ _)) eqn:Ex.
    + apply exists_write in Ex. destruct Ex as (h & Hin).
      apply (all_wf_in k0 kconj nb ham Hrange) in Hin.
      assert (Hc : p = q \/ In p (nb q)).
      { destruct Hin as [(_ & -> & _)|(_ & _ & [(_ & H & _)|(_ & H & _)])]; auto. }
      destruct (HPG p q) as (m & -> & _); auto; try (apply in_seq; lia).
      apply block_cond in Hc. rewrite Hc. auto.
    + destruct ((p =? q) || existsb (Nat.eqb p) (nb q)) eqn:Ec; auto. exfalso. apply block_cond in Ec.
      enough (existsb (fun w : write => (fst (fst w) =? p) && (snd (fst w) =? q)) (all_wf k0 kconj n nb ham) = true) by congruence.
      apply exists_write. destruct Ec as [->|Ec].
      * exists (hm q q). apply (all_wf_in k0 kconj nb ham Hrange). auto.
      * destruct (Nat.le_gt_cases q p).
        -- exists (hm p q). apply (all_wf_in k0 kconj nb ham Hrange). right. auto 10.
        -- exists (mherm kconj (hm q p)). apply (all_wf_in k0 kconj nb ham Hrange). right. repeat split; auto. right.
           repeat split; auto; lia.
  - apply (all_wf_fits k0 kconj Hdiag Hrange); auto.
  - rewrite map_length, (len_diag n ham Hdiag). auto.
  - rewrite map_length, (len_diag n ham Hdiag). auto.
  - rewrite (nth_fn ham Hdiag) by auto. auto.
  - rewrite (nth_fn ham Hdiag) by auto. auto.
  - intros h Hin. apply (all_wf_in k0 kconj nb ham Hrange) in Hin.
    destruct Hin as [(_ & <- & ->)|(_ & _ & [(_ & _ & ->)|(Hle & H & ->)])]; auto.
    cbn [mherm mget].
    assert (Hpq : In p (nb q)) by auto.
    destruct (HPG p q) as (m & Hm & E1 & E2); auto; try (apply in_seq; lia).
    pose proof (@Hherm p q Hpn H) as HH. unfold hermitian_at in HH. rewrite Hm in HH.
    destruct (HPG q p) as (m' & Hm' & E3 & E4); auto; try (apply in_seq; lia). rewrite Hm' in HH. rewrite Hm, Hm'.
    destruct HH as (HA & HB & HC). rewrite HC by lia. reflexivity.
Qed.
End Full.

Lemma is_block_cover (g g' : nat -> nat -> K) tos froms : is_block_matrix k0 nb ham g tos froms -> is_block_matrix k0 nb ham g' tos froms ->
  forall i j, i < list_sum (map norb tos) -> j < list_sum (map norb froms) -> g i j = g' i j.
Proof.
  intros H H' i j Hi Hj. apply off_cover in Hi, Hj. destruct Hi as (p & a & Hp & Ha & ->), Hj as (q & b & Hq & Hb & ->).
  rewrite map_length in *.
  destruct (nth_error tos p) as [t|] eqn:Et; [|apply nth_error_None in Et; lia].
  destruct (nth_error froms q) as [f|] eqn:Ef; [|apply nth_error_None in Ef; lia].
  rewrite (nth_map_error _ _ _ Et) in Ha. rewrite (nth_map_error _ _ _ Ef) in Hb.
  rewrite !firstn_norb. rewrite (H p q t f a b), (H' p q t f a b); auto.
Qed.

(** hypotheses needed only when the full matrix is requested *)
Definition full_ok (to from : option (list Z)) : Prop :=
  to = None -> from = None -> simple_graph nb n /\ forall f t, f < n -> In t (nb f) -> hermitian_at kconj ham t f.

Notation dense := (submatrix_dense k0 kconj n nb ham).
Notation sparse := (submatrix_sparse k0 kconj isz n nb ham).
Notation sl := (site_list n).

Lemma all_good_iff tos froms : all_good nb ham tos froms <->
  (forall s, In s tos \/ In s froms -> exists m, ham s s = inl m) /\ part_good nb ham tos froms.
Proof. unfold all_good, part_good. tauto. Qed.

Lemma F2_exists (l : list nat) : (forall s, In s l -> exists m, ham s s = inl m) <-> exists diag, Forall2 (fun f m => ham f f = inl m) l diag.
Proof.
  split.
  - induction l as [|x l IH]; intros H; [eauto|]. destruct (H x) as (m & Hm); [left; auto|].
    destruct IH as (d & Hd); [intros; apply H; right; auto|]. exists (m :: d). constructor; auto.
  - intros (d & H) s Hs. induction H as [|x m l d Hx H IH]; [destruct Hs|]. destruct Hs as [<-|Hs]; eauto.
Qed.

(** [to = from = None] or not *)
Lemma none_dec (to from : option (list Z)) : (to = None /\ from = None) \/ (to <> None \/ from <> None).
Proof. destruct to, from; auto; right; [left|left|right]; discriminate. Qed.

Lemma dense_part to from d td : (to <> None \/ from <> None) ->
  onsite_blocks n ham from = inl d -> onsite_blocks n ham to = inl td ->
  dense to from = sbind (make_dense k0 nb ham d (sl from) (id_table Nat.eq_dec (sl to)) (map (@mr K) td) (offsets (map (@mr K) td))
     (map (@mr K) d) (offsets (map (@mr K) d))) (fun m => inl (m, map (@mr K) td, map (@mr K) d)).
Proof. intros H Hd Htd. unfold submatrix_dense, submatrix_with. rewrite Hd, Htd. cbn [sbind]. destruct to, from; auto; destruct H; congruence. Qed.
Lemma sparse_part to from d td : (to <> None \/ from <> None) ->
  onsite_blocks n ham from = inl d -> onsite_blocks n ham to = inl td ->
  sparse to from = sbind (make_sparse k0 isz nb ham d (sl from) (id_table Nat.eq_dec (sl to)) (map (@mr K) td) (offsets (map (@mr K) td))
     (map (@mr K) d) (offsets (map (@mr K) d))) (fun m => inl (m, map (@mr K) td, map (@mr K) d)).
Proof. intros H Hd Htd. unfold submatrix_sparse, submatrix_with. rewrite Hd, Htd. cbn [sbind]. destruct to, from; auto; destruct H; congruence. Qed.

Lemma main_dense_iff to from : NoDup (sl to) -> full_ok to from ->
  ((exists r, dense to from = inl r) <-> in_range to /\ in_range from /\ all_good nb ham (sl to) (sl from)) /\
  (forall M tn fn, dense to from = inl (M, tn, fn) ->
     tn = map norb (sl to) /\ fn = map norb (sl from) /\
     mr M = list_sum tn /\ mc M = list_sum fn /\ is_block_matrix k0 nb ham (mget M) (sl to) (sl from)).
Proof.
  intros Hnd Hfull.
  assert (HX : forall r, dense to from = inl r -> in_range to /\ in_range from /\ all_good nb ham (sl to) (sl from) /\
      let '(M, tn, fn) := r in tn = map norb (sl to) /\ fn = map norb (sl from) /\
     mr M = list_sum tn /\ mc M = list_sum fn /\ is_block_matrix k0 nb ham (mget M) (sl to) (sl from)).
  { intros r Hr.
    destruct (onsite_blocks n ham from) as [d|e] eqn:Ed; [|unfold submatrix_dense, submatrix_with in Hr; rewrite Ed in Hr; discriminate].
    destruct (onsite_blocks n ham to) as [td|e] eqn:Etd; [|unfold submatrix_dense, submatrix_with in Hr; rewrite Ed, Etd in Hr; discriminate].
    pose proof (proj1 (onsite_iff _ _) Ed) as (HRf & HDf). pose proof (proj1 (onsite_iff _ _) Etd) as (HRt & HDt).
    do 2 (split; [assumption|]). rewrite all_good_iff.
    assert (HE : forall s, In s (sl to) \/ In s (sl from) -> exists m, ham s s = inl m).
    { intros s [Hs|Hs]; [apply (proj2 (F2_exists (sl to)))|apply (proj2 (F2_exists (sl from)))]; eauto. }
    destruct (none_dec to from) as [(-> & ->)|Hnn].
    - unfold submatrix_dense, submatrix_with in Hr. rewrite Ed in Hr. cbn [sbind] in Hr.
      destruct (Hfull eq_refl eq_refl) as (SG & HH). destruct SG as [S1 S2 S3 S4].
      cbn [site_list] in *.
      pose proof (@dense_full_sim K k0 kconj E n nb ham d HDf S1) as HS.
      destruct (make_dense_full k0 kconj n nb ham d _ _ _ _) as [M|e]; [|discriminate]. cbn [sbind] in Hr. injection Hr as <-.
      destruct (sfold (colf_from k0 kconj nb ham d) (seq 0 n) []) as [w|e] eqn:Ew; [|contradiction].
      apply (colf_iff k0 kconj nb ham HDf S1) in Ew. destruct Ew as (HG & ->). subst M.
      split; [split; auto; apply full_part_good; auto|].
      rewrite (fn_map ham HDf). do 2 (split; [reflexivity|]). rewrite <- (fn_map ham HDf).
      pose proof (@wr_shape K (map (@mr K) d) (map (@mr K) d) (all_wf k0 kconj n nb ham) (mz (list_sum (map (@mr K) d)) (list_sum (map (@mr K) d)))) as (W1 & W2).
      split; [exact W1|]. split; [exact W2|]. apply full_blocks; auto.
    - rewrite (dense_part Hnn Ed Etd) in Hr.
      pose proof (@dense_sim K k0 E n nb ham (sl to) (sl from) d td HDf HDt Hnd) as HS.
      destruct (make_dense k0 nb ham d _ _ _ _ _ _) as [M|e]; [|discriminate]. cbn [sbind] in Hr. injection Hr as <-.
      destruct (sfold (col_from k0 nb ham (sl to) d td) (enum (sl from)) []) as [w|e] eqn:Ew; [|contradiction].
      apply (col_iff k0 n nb ham HDf HDt Hnd) in Ew. destruct Ew as (HG & ->). subst M.
      split; [split; auto|].
      rewrite <- (fn_map ham HDf), <- (tn_map ham HDt). do 2 (split; [reflexivity|]).
      pose proof (@wr_shape K (map (@mr K) td) (map (@mr K) d) (all_w k0 nb ham (sl to) (sl from)) (mz (list_sum (map (@mr K) td)) (list_sum (map (@mr K) d)))) as (W1 & W2).
      split; [exact W1|]. split; [exact W2|]. apply part_blocks; auto. }
  split; [split|].
  - intros (r & Hr). destruct (HX r Hr) as (H1 & H2 & H3 & _). auto.
  - intros (HRt & HRf & HG). apply all_good_iff in HG. destruct HG as (HE & HG).
    destruct (proj1 (F2_exists (sl to))) as (td & HDt); [auto|]. destruct (proj1 (F2_exists (sl from))) as (d & HDf); [auto|].
    assert (Ed : onsite_blocks n ham from = inl d) by (apply onsite_iff; auto).
    assert (Etd : onsite_blocks n ham to = inl td) by (apply onsite_iff; auto).
    destruct (none_dec to from) as [(-> & ->)|Hnn].
    + unfold submatrix_dense, submatrix_with. rewrite Ed. cbn [sbind]. cbn [site_list] in *.
      destruct (Hfull eq_refl eq_refl) as (SG & HH). destruct SG as [S1 S2 S3 S4].
      pose proof (@dense_full_sim K k0 kconj E n nb ham d HDf S1) as HS.
      assert (Ew : sfold (colf_from k0 kconj nb ham d) (seq 0 n) [] = inl (all_wf k0 kconj n nb ham)).
      { apply (colf_iff k0 kconj nb ham HDf S1). split; auto. apply full_part_good; auto. }
      rewrite Ew in HS. destruct (make_dense_full k0 kconj n nb ham d _ _ _ _) as [M|e]; [|contradiction]. cbn. eauto.
    + rewrite (dense_part Hnn Ed Etd).
      pose proof (@dense_sim K k0 E n nb ham (sl to) (sl from) d td HDf HDt Hnd) as HS.
      assert (Ew : sfold (col_from k0 nb ham (sl to) d td) (enum (sl from)) [] = inl (all_w k0 nb ham (sl to) (sl from)))
        by (apply (col_iff k0 n nb ham HDf HDt Hnd); auto).
      rewrite Ew in HS. destruct (make_dense k0 nb ham d _ _ _ _ _ _) as [M|e]; [|contradiction]. cbn. eauto.
  - intros M tn fn Hr. destruct (HX _ Hr) as (_ & _ & _ & H). exact H.
Qed.

Lemma coo_cover (ws : list write) tn fn S :
  Forall (fits tn fn) ws -> NoDup (map fst ws) -> Permutation (centries S) (flat_map (block_entries isz tn fn) ws) ->
  forall i j, i < list_sum tn -> j < list_sum fn ->
  coo_get k0 kadd S i j = mget (fold_left (wr tn fn) ws (mz (list_sum tn) (list_sum fn))) i j.
Proof.
  intros H1 H2 H3 i j Hi Hj. apply off_cover in Hi, Hj. destruct Hi as (p & a & Hp & Ha & ->), Hj as (q & b & Hq & Hb & ->).
  apply (@coo_blocks K k0 kadd isz isz_spec add_0_l tn fn); auto.
Qed.

(** Sparse and dense give the same result, also if they raise. *)
Lemma main_same to from : NoDup (sl to) ->
  (forall f, NoDup (nb f) /\ ~ In f (nb f)) -> (forall f t, f < n -> In t (nb f) -> t < n) ->
  match dense to from, sparse to from with
  | inl (M, tn, fn), inl (Sp, tn', fn') => tn' = tn /\ fn' = fn /\ cr Sp = mr M /\ cc Sp = mc M /\
       forall i j, i < mr M -> j < mc M -> coo_get k0 kadd Sp i j = mget M i j
  | inr e, inr e' => e = e'
  | _, _ => False end.
Proof.
  intros Hnd HN HR.
  destruct (onsite_blocks n ham from) as [d|e] eqn:Ed; [|unfold submatrix_dense, submatrix_sparse, submatrix_with; rewrite Ed; reflexivity].
  destruct (onsite_blocks n ham to) as [td|e] eqn:Etd; [|unfold submatrix_dense, submatrix_sparse, submatrix_with; rewrite Ed, Etd; reflexivity].
  pose proof (proj1 (onsite_iff _ _) Ed) as (HRf & HDf). pose proof (proj1 (onsite_iff _ _) Etd) as (HRt & HDt).
  destruct (none_dec to from) as [(-> & ->)|Hnn].
  - unfold submatrix_dense, submatrix_sparse, submatrix_with. rewrite Ed. cbn [sbind]. cbn [site_list] in *.
    pose proof (@dense_full_sim K k0 kconj E n nb ham d HDf HR) as HS.
    assert (HL : forall f, f < n -> ~ In f (nb f)) by (intros; apply HN).
    pose proof (@sparse_full_sim K k0 kconj isz E isz_spec conj_0 conj_inv n nb ham d HDf HR HL) as HS'.
    destruct (make_dense_full k0 kconj n nb ham d _ _ _ _) as [M|e], (make_sparse_full k0 kconj isz n nb ham d _ _ _ _) as [Sp|e'];
      destruct (sfold (colf_from k0 kconj nb ham d) (seq 0 n) []) as [w|e''] eqn:Ew; cbn [sbind]; try contradiction; try congruence.
    apply (colf_iff k0 kconj nb ham HDf HR) in Ew. destruct Ew as (HG & ->). subst M.
    set (fn := map (@mr K) d) in *.
    pose proof (@wr_shape K fn fn (all_wf k0 kconj n nb ham) (mz (list_sum fn) (list_sum fn))) as (-> & ->). cbn [mr mc mzero].
    destruct HS' as (-> & -> & HP). do 4 (split; [reflexivity|]).
    apply coo_cover; auto. { apply (all_wf_fits k0 kconj HDf HR); auto. } { apply all_wf_NoDup; auto. }
  - rewrite (dense_part Hnn Ed Etd), (sparse_part Hnn Ed Etd).
    pose proof (@dense_sim K k0 E n nb ham (sl to) (sl from) d td HDf HDt Hnd) as HS.
    pose proof (@sparse_sim K k0 isz E n nb ham (sl to) (sl from) d td HDf HDt Hnd) as HS'.
    destruct (make_dense k0 nb ham d _ _ _ _ _ _) as [M|e], (make_sparse k0 isz nb ham d _ _ _ _ _ _) as [Sp|e'];
      destruct (sfold (col_from k0 nb ham (sl to) d td) (enum (sl from)) []) as [w|e''] eqn:Ew; cbn [sbind]; try contradiction; try congruence.
    apply (col_iff k0 n nb ham HDf HDt Hnd) in Ew. destruct Ew as (HG & ->). subst M.
    set (fn := map (@mr K) d) in *. set (tn := map (@mr K) td) in *.
    pose proof (@wr_shape K tn fn (all_w k0 nb ham (sl to) (sl from)) (mz (list_sum tn) (list_sum fn))) as (-> & ->). cbn [mr mc mzero].
    destruct HS' as (-> & -> & HP). do 4 (split; [reflexivity|]).
    apply coo_cover; auto. { apply (all_w_fits k0 n HDf HDt Hnd); auto. } { apply (all_w_NoDup k0 n nb ham (tos := sl to) (sl from)); auto. } { rewrite HP. apply Permutation_refl. }
Qed.

(** The full matrix is Hermitian if the onsite blocks are. *)
Lemma main_hermitian M tn fn : simple_graph nb n -> (forall f t, f < n -> t = f \/ In t (nb f) -> hermitian_at kconj ham t f) ->
  dense None None = inl (M, tn, fn) -> mr M = mc M /\ forall i j, i < mr M -> j < mr M -> mget M i j = kconj (mget M j i).
Proof.
  intros SG HH Hr.
  assert (Hnd : NoDup (sl None)) by apply seq_NoDup.
  assert (Hf : full_ok None None) by (intros _ _; split; auto).
  destruct (main_dense_iff Hnd Hf) as (H1 & H2).
  destruct (proj1 H1) as (_ & _ & HG); [eauto|]. apply all_good_iff in HG. destruct HG as (HE & HG).
  destruct (H2 _ _ _ Hr) as (-> & -> & W1 & W2 & HB). cbn [site_list] in *.
  split; [congruence|]. intros i j Hi Hj. rewrite W1 in Hi, Hj.
  apply off_cover in Hi, Hj. destruct Hi as (p & a & Hp & Ha & ->), Hj as (q & b & Hq & Hb & ->).
  rewrite map_length, seq_length in *.
  rewrite (nth_map_error norb (seq 0 n) p (seq_nth_error Hp)) in Ha. rewrite (nth_map_error norb (seq 0 n) q (seq_nth_error Hq)) in Hb.
  rewrite !firstn_norb.
  rewrite (HB p q p q a b), (HB q p q p b a); auto using seq_nth_error.
  unfold SubmatrixSpec.block.
  destruct ((p =? q) || existsb (Nat.eqb p) (nb q)) eqn:Ec.
  - apply block_cond in Ec.
    assert (Ec' : q = p \/ In q (nb p)) by (destruct Ec as [->|Ec]; auto; right; apply SG; auto).
    rewrite (proj2 (block_cond q p) Ec').
    pose proof (HH p q Hp Ec') as Hh. unfold hermitian_at in Hh.
    destruct (HG p q) as (m & Hm & E1 & E2); auto; try (apply in_seq; lia).
    destruct (HG q p) as (m' & Hm' & E3 & E4); auto; try (apply in_seq; lia). rewrite Hm, Hm' in *.
    destruct Hh as (_ & _ & ->); auto; lia.
  - destruct ((q =? p) || existsb (Nat.eqb q) (nb p)) eqn:Ec'; [|auto]. exfalso.
    apply block_cond in Ec'. enough ((p =? q) || existsb (Nat.eqb p) (nb q) = true) by congruence. apply block_cond.
    destruct Ec' as [->|Ec']; auto. right. apply SG; auto.
Qed.

(** A submatrix is the restriction of the full matrix. *)
Lemma main_restriction to from M0 M tn0 fn0 tn fn : simple_graph nb n ->
  (forall f t, f < n -> In t (nb f) -> hermitian_at kconj ham t f) -> NoDup (sl to) ->
  dense None None = inl (M0, tn0, fn0) -> dense to from = inl (M, tn, fn) ->
  forall p q t f a b, nth_error (sl to) p = Some t -> nth_error (sl from) q = Some f -> a < nth p tn 0 -> b < nth q fn 0 ->
  mget M (list_sum (firstn p tn) + a) (list_sum (firstn q fn) + b) =
  mget M0 (list_sum (firstn t tn0) + a) (list_sum (firstn f fn0) + b).
Proof.
  intros SG HH Hnd Hr0 Hr p q t f a b Hp Hq Ha Hb.
  assert (Hf : forall to from, full_ok to from) by (intros ? ? _ _; split; auto).
  destruct (main_dense_iff (to := None) (seq_NoDup n 0) (Hf None None)) as (_ & H0).
  destruct (main_dense_iff Hnd (Hf to from)) as (H1 & H2).
  destruct (proj1 H1) as (HRt & HRf & _); [eauto|].
  destruct (H0 _ _ _ Hr0) as (-> & -> & _ & _ & HB0). destruct (H2 _ _ _ Hr) as (-> & -> & _ & _ & HB).
  rewrite (nth_map_error _ _ _ Hp) in Ha. rewrite (nth_map_error _ _ _ Hq) in Hb. cbn [site_list] in *.
  rewrite !firstn_norb.
  rewrite (HB p q t f a b), (HB0 t f t f a b); auto; apply seq_nth_error.
  - apply (site_list_range _ HRt). eapply nth_error_In; eauto.
  - apply (site_list_range _ HRf). eapply nth_error_In; eauto.
Qed.
End Top.
