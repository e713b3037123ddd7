(** * Solvers: submatrices and transmissions of SMatrix objects. *)
From Coq Require Import List Bool Arith ZArith Ring Lia Permutation.
From Verif Require Import StarRing SubmatrixModel SolverModel SolverSpec SolverProofs.
Import ListNotations.
Set Implicit Arguments.

Section Blocks.
Variable R : StarRing.
Add Ring RringB : (r_theory R).
Notation mat := (mat R).
Notation conj := (rconj R).
Variables (data : mat) (info : list (linfo R)) (out inn : list Z) (cons : bool).
Notation sizes := (mode_sizes info).
Notation n := (length info).
Hypothesis (Ho : good_leads n out) (Hi : good_leads n inn).

Lemma sizes_length : length sizes = n.
Proof. unfold mode_sizes. apply map_length. Qed.

Definition blkof (z : Z) : option (list nat) :=
  nth (Z.to_nat z) (map (fun i => match i with IModes _ (Some b) => Some (offsets 0 b) | _ => None end) info) None.
Lemma sm_init q : smatrix_init data info out inn cons = inl q ->
  q = mkBR data info out inn sizes cons (offsets 0 (map (size sizes) out)) (offsets 0 (map (size sizes) inn)) (map blkof out) (map blkof inn).
Proof.
  unfold smatrix_init. destruct (existsb _ _); [discriminate|]. fold (mode_sizes info). rewrite block_init_inl.
  - intros [= <-]. reflexivity.
  - rewrite map_length, sizes_length. reflexivity.
  - rewrite sizes_length. auto.
  - rewrite sizes_length. auto.
Qed.

Lemma firstn_le k (l : list nat) : list_sum (firstn k l) <= list_sum l.
Proof. rewrite <- (firstn_skipn k l) at 2. rewrite list_sum_app. lia. Qed.
Lemma firstn_nth_sum k (l : list nat) : k < length l -> list_sum (firstn (S k) l) = list_sum (firstn k l) + nth k l 0.
Proof.
  revert k. induction l as [|x l IH]; intros k H; [cbn in H; lia|]. destruct k as [|k]; [cbn; lia|].
  cbn [firstn nth]. change (list_sum (x :: ?t)) with (x + list_sum t). cbn in H. rewrite <- Nat.add_assoc. f_equal. apply IH. lia.
Qed.

(** the coordinates of a key *)
Lemma coords_key leads : good_leads n leads -> blocks_complete info ->
  forall k l s len, key_modes info k = Some (l, s, len) -> forall pos, nth_error leads pos = Some l ->
  block_coords leads (offsets 0 (map (size sizes) leads)) (map blkof leads) k = inl (startof sizes leads pos + s, startof sizes leads pos + s + len) /\
  s + len <= size sizes l.
Proof.
  intros [HN Hv] HB k l s len Hk pos Hp. destruct k as [l'|l' b]; cbn [key_modes] in Hk.
  - injection Hk as -> <- <-. rewrite Nat.add_0_r. split; [apply coords_lead; auto|lia].
  - destruct (nth_error info (Z.to_nat l')) as [[nm [bs|]|]|] eqn:En; try discriminate.
    destruct ((0 <=? b)%Z && (b <? Z.of_nat (length bs))%Z) eqn:Eb; [|discriminate]. injection Hk as -> <- <-.
    apply andb_true_iff in Eb. destruct Eb as [E1 E2]. apply Z.leb_le in E1. apply Z.ltb_lt in E2.
    assert (Hb : Z.to_nat b < length bs) by lia.
    assert (Hsz : list_sum bs = size sizes l).
    { rewrite (HB nm bs) by (eapply nth_error_In; eauto). unfold size, mode_sizes. symmetry. exact (nth_error_nth _ _ 0 (map_nth_error _ _ _ En)). }
    split.
    + pose proof (@coords_block sizes leads (map blkof leads) pos l (Z.to_nat b) bs HN Hp) as HC.
      rewrite Z2Nat.id in HC by auto. rewrite HC; auto.
      * rewrite (firstn_nth_sum _ Hb). f_equal. f_equal. lia.
      * rewrite (map_nth_error _ _ _ Hp). f_equal. unfold blkof. exact (nth_error_nth _ _ None (map_nth_error _ _ _ En)).
    + rewrite <- (firstn_nth_sum _ Hb), <- Hsz. apply firstn_le.
Qed.

Variable full : mode -> mode -> R.
Hypothesis Hd : data_for sizes full out inn data.
Hypothesis HB : blocks_complete info.
Variable q : bres R.
Hypothesis Hq : smatrix_init data info out inn cons = inl q.

Lemma sub_key ko ki lo so no li si ni : key_modes info ko = Some (lo, so, no) -> key_modes info ki = Some (li, si, ni) -> In lo out -> In li inn ->
  exists m, submatrix q ko ki = inl m /\ mr m = no /\ mc m = ni /\
    forall a b, a < no -> b < ni -> mget m a b = full (lo, so + a) (li, si + b).
Proof.
  intros Hko Hki Hlo Hli. pose proof (sm_init Hq) as ->.
  apply In_nth_error in Hlo, Hli. destruct Hlo as (po & Hpo). destruct Hli as (pi & Hpi).
  destruct (@coords_key out Ho HB ko lo so no Hko po Hpo) as [Co Lo]. destruct (@coords_key inn Hi HB ki li si ni Hki pi Hpi) as [Ci Li].
  unfold submatrix, out_block_coords, in_block_coords. cbn [q_out q_in q_ooff q_ioff q_oblk q_iblk q_data]. rewrite Co, Ci. cbn [sbind].
  eexists. split; [reflexivity|]. destruct Hd as (D1 & D2 & D3).
  pose proof (startof_le sizes out po Hpo) as Bo. pose proof (startof_le sizes inn pi Hpi) as Bi.
  unfold mslice. cbn [mr mc mget]. rewrite D1, D2.
  destruct (@slice_in (startof sizes out po + so) no (length (modes_of sizes out)) ltac:(lia)) as [S1 S2].
  destruct (@slice_in (startof sizes inn pi + si) ni (length (modes_of sizes inn)) ltac:(lia)) as [S3 S4].
  rewrite S1, S2, S3, S4. split; auto. split; auto. intros a b Ha Hb. apply D3; rewrite <- Nat.add_assoc; apply modes_of_nth; auto; lia.
Qed.

Lemma st_key ko ki lo so no li si ni : key_modes info ko = Some (lo, so, no) -> key_modes info ki = Some (li, si, ni) -> In lo out -> In li inn ->
  sm_st q ko ki = inl (TK full (lo, so, no) (li, si, ni)).
Proof.
  intros Hko Hki Hlo Hli. destruct (sub_key _ _ Hko Hki Hlo Hli) as (m & Hm & H1 & H2 & H3). unfold sm_st. rewrite Hm. cbn [sbind]. f_equal.
  unfold norm2, TK. rewrite H1, H2. apply sum_ext. intros a Ha. apply sum_ext. intros b Hb. rewrite H3; auto.
Qed.
Lemma st_lead o i : In o out -> In i inn -> sm_st q (KLead o) (KLead i) = inl (T sizes full o i).
Proof. intros H1 H2. rewrite (@st_key (KLead o) (KLead i) o 0 (size sizes o) i 0 (size sizes i)); auto. Qed.

(** sums over blocks *)
Lemma sum_blocks (bs : list nat) (f : nat -> R) :
  sum R (list_sum bs) f = sum R (length bs) (fun b => sum R (nth b bs 0) (fun a => f (list_sum (firstn b bs) + a))).
Proof.
  revert f. induction bs as [|x bs IH]; intros f; [reflexivity|].
  change (list_sum (x :: bs)) with (x + list_sum bs). rewrite sum_split, IH.
  change (length (x :: bs)) with (1 + length bs). rewrite sum_split. f_equal.
  - rewrite sum_S. change (sum R 0 ?f) with (r0 R). cbn [nth firstn]. change (list_sum []) with 0.
    match goal with |- ?a = _ => transitivity (radd R (r0 R) a); [ring|] end. reflexivity.
  - apply sum_ext. intros b Hb. cbn [Nat.add nth firstn]. apply sum_ext. intros a Ha. f_equal.
    change (list_sum (x :: ?t)) with (x + list_sum t). lia.
Qed.
End Blocks.
Arguments sm_init {R data info out inn cons} Ho Hi {q}.
Arguments st_key {R data info out inn cons} Ho Hi {full} Hd HB {q} Hq ko ki {lo so no li si ni}.
Arguments st_lead {R data info out inn cons} Ho Hi {full} Hd HB {q} Hq {o i}.
