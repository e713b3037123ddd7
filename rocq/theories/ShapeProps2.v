(** * C56: shapes of lattices in space: wires, discs. *)
From Coq Require Import List Bool Arith ZArith Reals Lia Lra Psatz.
From Verif Require Import BuilderModel SymmetryModel SymmetryProofs ShapeModel ShapeProps.
From Verif Require Import KpmReal KpmRealProofs CvpModel CvpSpec CvpProofs CvpProps LllModel LllSpec LllProofs LllProps LatticeModel LatticeSpec LatticeProofs LatticeProps LatticeExample.
Import ListNotations.
Local Open Scope R_scope.

Lemma vadd_nth : forall u v i, length u = length v -> nth i (vadd u v) 0%Z = (nth i u 0 + nth i v 0)%Z.
Proof. induction u as [|a u IH]; destruct v as [|b v]; cbn; intros i E; try discriminate; destruct i; auto. Qed.
Lemma vneg_nth : forall u i, nth i (vneg u) 0%Z = (- nth i u 0)%Z.
Proof. induction u as [|a u IH]; destruct i; cbn; auto. Qed.

(** wire(center, radius): the points whose distance from the axis through
    [center] in the direction of the period is at most [radius]. *)
Theorem C56_wire : forall d center period radius x, dot d period period <> 0 ->
  (wire_shape d center period radius x = true <-> exists s, dist d x (fun k => center k + s * period k) <= Rabs radius).
Proof.
  intros d center period radius x Hp. unfold wire_shape. change (wdot d) with (dot d). set (n := sqrt (dot d period period)). set (dir := fun k => period k / n). set (rel := fun k => x k - center k).
  assert (Pp : 0 < dot d period period) by (pose proof (dot_pos d period); lra). assert (Pn : 0 < n) by (apply sqrt_lt_R0; auto). assert (En : n * n = dot d period period) by (apply sqrt_sqrt; lra).
  set (q := dot d dir rel).
  assert (Ed : forall u, dot d dir u = / n * dot d period u) by (intros u; rewrite <- dot_scal_l; apply dot_ext; auto; intros; unfold dir; field; lra).
  assert (Edd : dot d dir dir = 1) by (rewrite Ed, dot_comm, Ed, <- En; field; lra).
  assert (Epr : dot d period rel = n * q) by (unfold q; rewrite Ed; field; lra).
  assert (Pr : dot d (fun k => rel k - dir k * q) (fun k => rel k - dir k * q) = dot d rel rel - q * q).
  { rewrite (dot_ext d _ _ (fun k => rel k - q * dir k) (fun k => rel k - q * dir k)) by (intros; ring). rewrite dot_minus_l, !dot_minus_r, !dot_scal_l, !dot_scal_r, Edd, (dot_comm d rel dir). fold q. ring. }
  assert (Ds : forall s, dot d (fun k => x k - (center k + s * period k)) (fun k => x k - (center k + s * period k)) = dot d rel rel - q * q + (q - s * n) * (q - s * n)).
  { intros s. rewrite (dot_ext d _ _ (fun k => rel k - s * period k) (fun k => rel k - s * period k)) by (intros; unfold rel; ring).
    rewrite dot_minus_l, !dot_minus_r, !dot_scal_l, !dot_scal_r, (dot_comm d rel period), Epr, <- En. ring. }
  fold rel. fold q. destruct (Rle_dec _ _) as [Hle|Hn]; split; auto; try discriminate.
  - intros _. change (dot d (fun k => rel k - dir k * q) (fun k => rel k - dir k * q) <= radius ^ 2) in Hle. rewrite Pr in Hle. exists (q / n). unfold dist. rewrite Ds. apply Rsqr_incr_0_var; [|apply Rabs_pos]. 
    rewrite Rsqr_sqrt by (replace (q - q / n * n) with 0 by (field; lra); rewrite <- Pr; pose proof (dot_pos d (fun k => rel k - dir k * q)); lra).
    rewrite <- Rsqr_abs. unfold Rsqr. replace (q - q / n * n) with 0 by (field; lra). lra.
  - intros (s & Hs). exfalso. apply Hn. change (dot d (fun k => rel k - dir k * q) (fun k => rel k - dir k * q) <= radius ^ 2). rewrite Pr.
    unfold dist in Hs. rewrite Ds in Hs. pose proof (sqrt_pos (dot d rel rel - q * q + (q - s * n) * (q - s * n))) as P0.
    assert (Q : Rsqr (sqrt (dot d rel rel - q * q + (q - s * n) * (q - s * n))) <= Rsqr (Rabs radius)) by (apply Rsqr_incr_1; auto; apply Rabs_pos).
    rewrite Rsqr_sqrt, <- Rsqr_abs in Q by (rewrite <- Ds; apply dot_pos). unfold Rsqr in Q. assert (0 <= (q - s * n) * (q - s * n)) by apply Rle_0_sqr. lra.
Qed.
Print Assumptions C56_wire.
Example C56_wire_example : wire_shape 2 (fun _ => 1) (fun k => match k with O => 3 | _ => 4 end) 2 (fun k => match k with O => 7 | _ => 9 end) = true.
Proof. apply C56_wire; [unfold dot; cbn; lra|]. exists 2. unfold dist. replace (dot 2 _ _) with 0 by (unfold dot; cbn; ring). rewrite sqrt_0. rewrite Rabs_right; lra. Qed.

Section Disc.
Variables m d : nat.
Variable prim : nat -> nat -> R.
Variable offset : nat -> R.
Variable round : R -> Z.
Variable lstsq_mat : (nat -> nat -> R) -> (nat -> nat -> R) -> nat -> nat -> R.
Variable lstsq : (nat -> nat -> R) -> (nat -> R) -> nat -> R.
Variable inv : (nat -> nat -> R) -> nat -> nat -> R.
Variable argsort : (point -> R) -> list point -> list point.
Hypothesis Hm : (0 < m)%nat.
Hypothesis L : good_libraries m d round lstsq_mat lstsq inv argsort.
Hypothesis Hi : independent m d prim.
Notation spos := (site_position prim offset).
Notation tag := (ts_elt m).
Definition tdec (a b : tag) : {a = b} + {a <> b}.
Proof. destruct (list_eq_dec Z.eq_dec (proj1_sig a) (proj1_sig b)) as [E|E]; [left; apply sig_eq; auto|right; congruence]. Defined.

(** the sites within a given distance are finitely many *)
Lemma ball_finite c r : exists l : list tag, forall t : tag, dist d (spos (proj1_sig t)) c <= r -> In t l.
Proof.
  destruct L as (_ & _ & _ & L4). destruct (L4 prim Hi) as [_ Linv].
  set (rad := rad m d prim inv). assert (Pr : 0 < rad) by (apply rad_pos; auto).
  (* distance from the site 0 *)
  set (o := fun k => c k - offset k). set (B := r + dist d o (fun _ => 0)).
  assert (Tri : forall u w, dist d u (fun _ => 0) <= dist d u w + dist d w (fun _ => 0)).
  { intros u w. unfold dist. set (a := fun k => u k - w k). set (b := fun k => w k - 0).
    assert (E : dot d (fun k => u k - 0) (fun k => u k - 0) = dot d a a + 2 * dot d a b + dot d b b).
    { rewrite (dot_ext d _ _ (fun k => a k + b k) (fun k => a k + b k)) by (intros; unfold a, b; ring). rewrite dot_plus_l, !dot_plus_r, (dot_comm d b a). ring. }
    change (dot d (fun k => u k - w k) (fun k => u k - w k)) with (dot d a a). change (dot d (fun k => w k - 0) (fun k => w k - 0)) with (dot d b b). rewrite E.
    pose proof (dot_pos d a) as Pa. pose proof (dot_pos d b) as Pb. pose proof (cauchy d a b) as C. pose proof (sqrt_pos (dot d a a)) as Sa. pose proof (sqrt_pos (dot d b b)) as Sb.
    assert (Ea : sqrt (dot d a a) * sqrt (dot d a a) = dot d a a) by (apply sqrt_sqrt; auto). assert (Eb : sqrt (dot d b b) * sqrt (dot d b b) = dot d b b) by (apply sqrt_sqrt; auto).
    assert (Ab : dot d a b <= sqrt (dot d a a) * sqrt (dot d b b)).
    { destruct (Rle_dec (dot d a b) 0); [nra|]. apply Rsqr_incr_0_var; [|nra]. unfold Rsqr. nra. }
    apply Rsqr_incr_0_var; [|nra]. rewrite Rsqr_sqrt by (rewrite <- E; apply dot_pos). unfold Rsqr. nra. }
  assert (Pb : 0 < / (2 * rad)) by (apply Rinv_0_lt_compat; lra).
  destruct (CvpVoronoi.nat_bound (Rabs B) (2 * rad) ltac:(lra)) as (N & HN).
  set (pts := box (repeat 0%Z m) N).
  assert (Lp : forall p, In p pts -> length p = m) by (intros p Hp; apply in_box in Hp; rewrite repeat_length in Hp; tauto).
  assert (Mk : exists l : list tag, forall t : tag, In (proj1_sig t) pts -> In t l).
  { revert Lp. generalize pts. induction pts0 as [|p ps IH]; intros Lp; [exists []; auto|]. destruct IH as (l & Hl); [intros; apply Lp; cbn; auto|].
    exists (@mk_elt m p (Lp p (or_introl eq_refl)) :: l). intros t [E|Ht]; [left; apply sig_eq; auto|right; auto]. }
  destruct Mk as (l & Hl). exists l. intros t Ht. apply Hl. apply in_box. rewrite repeat_length. split; [apply elt_len|]. intros i Hi'.
  replace (nth i (repeat 0%Z m) 0%Z) with 0%Z by (clear; revert i; induction m; intros [|i]; cbn; auto). rewrite Z.sub_0_r.
  pose proof (norm_bound m d prim inv Linv Hm i (fun i => IZR (nth i (proj1_sig t) 0%Z)) (Rabs (IZR (nth i (proj1_sig t) 0%Z))) Hi' (Rabs_pos _) (Rle_refl _)) as NB. fold rad in NB.
  assert (Ed : sqrt (dot d (comb m prim (fun i => IZR (nth i (proj1_sig t) 0%Z))) (comb m prim (fun i => IZR (nth i (proj1_sig t) 0%Z)))) = dist d (vector prim (proj1_sig t)) (fun _ => 0)).
  { unfold dist. f_equal. apply dot_ext; intros k Hk; unfold comb, vector; rewrite elt_len; ring. }
  rewrite Ed in NB. pose proof (Tri (vector prim (proj1_sig t)) o) as T.
  assert (Eo : dist d (vector prim (proj1_sig t)) o = dist d (spos (proj1_sig t)) c) by (apply dist_ext; intros k Hk; unfold o, site_position; ring). rewrite Eo in T.
  assert (Bd : 2 * Rabs (IZR (nth i (proj1_sig t) 0%Z)) * rad <= INR N * (2 * rad)) by (pose proof (Rle_abs B); unfold B in *; lra).
  assert (Rabs (IZR (nth i (proj1_sig t) 0%Z)) <= INR N) by nra. rewrite <- abs_IZR in H. rewrite INR_IZR_INZ in H. apply le_IZR in H. auto.
Qed.

(** A disc is filled completely (if the transformation matrix of the lattice is
    symmetric): a shape that contains all sites closer to the starting point c than some
    site in it, whose sites are within a distance r from c, if one site is closest to c. *)
Theorem C56_disc : forall lfuel cfuel lfuel' cfuel' v t ds deltas (inside : unit -> tag -> bool) fdl set_tags set_sites c r t0,
  reduced m d prim round lstsq_mat lfuel = Some (v, t) -> (forall i j, (i < m)%nat -> (j < m)%nat -> t i j = t j i) ->
  voronoi_tags m d prim round lstsq_mat lstsq inv argsort lfuel cfuel = Some ds -> map (@proj1_sig _ _) deltas = ds ->
  set_order set_tags -> set_order set_sites -> (forall lat x, fdl lat x = x) ->
  closest m d prim offset round lstsq_mat lstsq inv argsort lfuel' cfuel' c = Some (proj1_sig t0) ->
  (forall s : tag, s <> t0 -> dist d (spos (proj1_sig s)) c <> dist d (spos (proj1_sig t0)) c) ->
  inside tt t0 = true ->
  (forall s s', inside tt s = true -> dist d (spos (proj1_sig s')) c < dist d (spos (proj1_sig s)) c -> inside tt s' = true) ->
  (forall s, inside tt s = true -> dist d (spos (proj1_sig s)) c <= r) ->
  exists F, forall fuel, (F <= fuel)%nat -> exists out,
    shape_sites tdec (tag_add m) [tt] deltas fdl inside set_tags set_sites fuel [t0] = Some (out, true) /\
    NoDup out /\ forall s, In (tt, s) out <-> inside tt s = true.
Proof.
  intros lfuel cfuel lfuel' cfuel' v t ds deltas inside fdl set_tags set_sites c r t0 R Sy Ev Eds S1 S2 Efd Ec Un' I0 Mono Bd.
  assert (Un : forall s : tag, s <> t0 -> dist d (spos (proj1_sig t0)) c < dist d (spos (proj1_sig s)) c).
  { intros s Ns. specialize (Un' s Ns). destruct (C55_closest m d prim offset round lstsq_mat lstsq inv argsort Hm L Hi _ _ _ _ Ec) as (_ & Cl). specialize (Cl (proj1_sig s) (elt_len s)).
    assert (Q : forall p : tag, dist d (pos m prim offset (proj1_sig p)) c = dist d (spos (proj1_sig p)) c) by (intros p; apply dist_ext; intros k Hk; rewrite pos_spec; auto; apply elt_len). rewrite !Q in Cl. destruct Cl as [Cl|Cl]; [exact Cl|]. exfalso. apply Un'. auto. }
  clear Un'.
  destruct (C55_deltas m d prim offset round lstsq_mat lstsq inv argsort Hm L Hi _ _ _ _ _ R Sy Ev) as (_ & Fa & Ng & Cell & _).
  assert (Set_ : shape_setting tag unit (tag_add m) [tt] deltas fdl (fun t => t) set_tags set_sites).
  { apply C56_no_symmetry; auto. intros s Hs. assert (X : In (map Z.opp (proj1_sig s)) ds) by (apply Ng; rewrite <- Eds; apply in_map; auto).
    rewrite <- Eds in X. apply in_map_iff in X. destruct X as (u & Eu & Hu). replace (tag_neg m s) with u; auto. apply sig_eq. exact Eu. }
  destruct (ball_finite c r) as (l & Hl).
  (* a neighbour that is closer to c *)
  assert (Step : forall s, s <> t0 -> exists delta, In delta deltas /\ dist d (spos (proj1_sig (tag_add m s delta))) c < dist d (spos (proj1_sig s)) c).
  { intros s Ns. set (y := fun k => c k - spos (proj1_sig s) k).
    assert (Nc : ~ in_cell m d prim y).
    { intros H. specialize (Un s Ns).
      assert (Lt : lattice_point m (vadd (proj1_sig t0) (vneg (proj1_sig s)))) by (unfold lattice_point; rewrite vadd_length; rewrite ?vneg_length, !elt_len; auto). specialize (H _ Lt).
      assert (E1 : dist d y (fun _ => 0) = dist d (spos (proj1_sig s)) c) by (unfold dist; f_equal; unfold dot; apply Rsum_ext; intros k Hk; unfold y; ring).
      assert (E2 : dist d y (vector prim (vadd (proj1_sig t0) (vneg (proj1_sig s)))) = dist d (spos (proj1_sig t0)) c).
      { assert (Ex : forall k, vector prim (vadd (proj1_sig t0) (vneg (proj1_sig s))) k = vector prim (proj1_sig t0) k - vector prim (proj1_sig s) k).
        { intros k. unfold vector. rewrite Lt, !elt_len. rewrite <- Rsum_minus. apply Rsum_ext. intros i Hi'. rewrite vadd_nth, vneg_nth, plus_IZR, opp_IZR by (rewrite ?vneg_length, ?elt_len; auto). ring. }
        unfold dist. f_equal. unfold dot. apply Rsum_ext. intros k Hk. rewrite Ex. unfold y, site_position. ring. }
      rewrite E1, E2 in H. exact (Rlt_not_le _ _ Un H). }
    destruct (Exists_dec (fun p => ~ on_side d prim y p) ds) as [Hx|Hx].
    - intros p. unfold on_side. destruct (Rle_dec (dist d y (fun _ => 0)) (dist d y (vector prim p))); [right; auto|left; auto].
    - apply Exists_exists in Hx. destruct Hx as (p & Hp & Hx). rewrite <- Eds in Hp. apply in_map_iff in Hp. destruct Hp as (delta & <- & Hd). exists delta. split; auto. unfold on_side in Hx. apply Rnot_le_lt in Hx.
      assert (E1 : dist d y (fun _ => 0) = dist d (spos (proj1_sig s)) c) by (unfold dist; f_equal; unfold dot; apply Rsum_ext; intros k Hk; unfold y; ring).
      assert (E2 : dist d y (vector prim (proj1_sig delta)) = dist d (spos (proj1_sig (tag_add m s delta))) c).
      { assert (Ex : forall k, vector prim (proj1_sig (tag_add m s delta)) k = vector prim (proj1_sig s) k + vector prim (proj1_sig delta) k).
        { intros k. cbn [tag_add mk_elt proj1_sig]. unfold vector. rewrite (tadd_len m s delta), !elt_len. rewrite <- Rsum_plus. apply Rsum_ext. intros i Hi'. rewrite vadd_nth, plus_IZR by (rewrite !elt_len; auto). apply Rmult_plus_distr_r. }
        unfold dist. f_equal. unfold dot. apply Rsum_ext. intros k Hk. unfold y, site_position. rewrite Ex. ring. }
      rewrite E1, E2 in Hx. auto.
    - exfalso. apply Nc, Cell. intros p Hp. destruct (Rle_dec (dist d y (fun _ => 0)) (dist d y (vector prim p))) as [X|X]; [exact X|]. exfalso. apply Hx. apply Exists_exists. exists p. auto. }
  (* induction over the sites sorted by distance *)
  set (D := fun s : tag => dist d (spos (proj1_sig s)) c).
  set (nl := fun s : tag => length (filter (fun u => if Rlt_dec (D u) (D s) then true else false) l)).
  assert (Less : forall s u, inside tt u = true -> D u < D s -> (nl u < nl s)%nat).
  { intros s u Iu Hu. unfold nl. assert (Hin : In u l) by (apply Hl, Bd; auto). clear -Hu Hin.
    assert (Mon : forall l, (length (filter (fun x => if Rlt_dec (D x) (D u) then true else false) l) <= length (filter (fun x => if Rlt_dec (D x) (D s) then true else false) l))%nat).
    { induction l0 as [|x l0 IH]; cbn; auto. destruct (Rlt_dec (D x) (D u)), (Rlt_dec (D x) (D s)); cbn; lia || lra || auto. }
    induction l as [|x l IH]; [destruct Hin|]. cbn. destruct Hin as [->|Hin].
    - destruct (Rlt_dec (D u) (D u)); [lra|]. destruct (Rlt_dec (D u) (D s)); [|contradiction]. cbn. specialize (Mon l). lia.
    - specialize (IH Hin). destruct (Rlt_dec (D x) (D u)), (Rlt_dec (D x) (D s)); cbn; lia || lra. }
  assert (Reach : forall n s, (nl s < n)%nat -> inside tt s = true -> reach tag unit (tag_add m) [tt] deltas (fun t => t) inside [t0] s).
  { induction n as [|n IH]; intros s Hn Is; [lia|]. destruct (tdec s t0) as [->|Ns].
    - apply (reach_start _ _ (tag_add m) [tt] deltas (fun t => t) inside [t0] t0); [cbn; auto|]. exists tt. cbn. auto.
    - destruct (Step s Ns) as (delta & Hd & Lt). set (u := tag_add m s delta) in *. assert (Iu : inside tt u = true) by (eapply Mono; eauto).
      specialize (IH u ltac:(pose proof (Less s u Iu Lt); lia) Iu).
      assert (Nd : In (tag_neg m delta) deltas).
      { assert (X : In (map Z.opp (proj1_sig delta)) ds) by (apply Ng; rewrite <- Eds; apply in_map; auto).
        rewrite <- Eds in X. apply in_map_iff in X. destruct X as (w & Ew & Hw). replace (tag_neg m delta) with w; auto. apply sig_eq. exact Ew. }
      assert (E : s = tag_add m u (tag_neg m delta)).
      { apply sig_eq. cbn. rewrite <- vadd_assoc, (vadd_comm (proj1_sig delta)), vadd_negl, vadd_0r; auto. rewrite !elt_len. lia. }
      rewrite E. apply (reach_step _ _ (tag_add m) [tt] deltas (fun t => t) inside [t0] u); auto. rewrite <- E. exists tt. cbn. auto. }
  exists (length l). intros fuel Hf.
  destruct (C56_finite tag unit tdec (tag_add m) [tt] deltas fdl (fun t => t) inside set_tags set_sites Set_ [t0] l) with (fuel := fuel) as [E|(out & E)]; auto.
  - intros s Rs. apply Hl, Bd. destruct Rs as [x _ ([] & _ & Hx)|x delta _ _ ([] & _ & Hx)]; auto.
  - exfalso. pose proof (proj1 (C56_error tag unit tdec (tag_add m) [tt] deltas fdl (fun t => t) inside set_tags set_sites Set_ fuel [t0]) E t0 tt) as X. cbn in X. rewrite X in I0 by auto. discriminate.
  - exists out. split; auto. split.
    + eapply C56_once; eauto; [repeat constructor; cbn; tauto|]. rewrite map_id. apply S1.
    + intros s. split.
      * intros Hs. eapply C56_sound in Hs; eauto. tauto.
      * intros Is. eapply C56_complete; eauto. cbn; auto.
Qed.
End Disc.
Print Assumptions C56_disc.
