(** * C28-C30, C43: scattering matrices.

    Read with SolverSpec: [data_for] (the stored data are elements of a complete
    matrix), [T], [TK] (sums of |S|^2), [unitary], [tiles], [noise]. *)
From Coq Require Import List Bool Arith ZArith Ring Lia Permutation.
From Verif Require Import StarRing SubmatrixModel SolverModel SolverSpec SolverProofs SolverBlocks SolverNoise.
Import ListNotations.
Set Implicit Arguments.

Lemma consec_startof sizes leads : forall a,
  consecutive a (map (fun k => (a + startof sizes leads k, a + startof sizes leads (S k))) (seq 0 (length leads))) (a + list_sum (map (size sizes) leads)).
Proof.
  induction leads as [|z l IH]; intros a; [cbn; lia|]. cbn [length seq map].
  change (list_sum (size sizes z :: ?t)) with (size sizes z + list_sum t).
  cbn [consecutive]. split; [cbn; lia|]. split; [unfold startof; cbn [firstn map]; change (list_sum (size sizes z :: ?t)) with (size sizes z + list_sum t); cbn; lia|].
  specialize (IH (a + size sizes z)). rewrite <- seq_shift, map_map.
  replace (a + startof sizes (z :: l) 1) with (a + size sizes z) by (unfold startof; cbn; lia).
  rewrite Nat.add_assoc. erewrite map_ext; [exact IH|]. intros k. cbv beta. unfold startof. cbn [firstn map].
  change (list_sum (size sizes z :: ?t)) with (size sizes z + list_sum t). f_equal; cbn [firstn]; lia.
Qed.
Lemma F2_seq {A} (P : A -> nat -> Prop) l : (forall k x, nth_error l k = Some x -> P x k) -> Forall2 P l (seq 0 (length l)).
Proof.
  assert (G : forall l s, (forall k x, nth_error l k = Some x -> P x (s + k)) -> Forall2 P l (seq s (length l))).
  { clear l. induction l as [|x l IH]; intros s H; cbn; constructor.
    - specialize (H 0 x eq_refl). rewrite Nat.add_0_r in H. auto.
    - apply IH. intros k y Hk. specialize (H (S k) y Hk). rewrite Nat.add_succ_comm. auto. }
  intros H. apply G. exact H.
Qed.
Lemma F2_map_r {A B C} (P : A -> C -> Prop) (f : B -> C) l l' : Forall2 (fun x y => P x (f y)) l l' -> Forall2 P l (map f l').
Proof. induction 1; constructor; auto. Qed.
Lemma tiles_lead sizes leads blks n : NoDup leads -> n = length (modes_of sizes leads) ->
  tiles leads sizes (fun z => block_coords leads (offsets 0 (map (size sizes) leads)) blks (KLead z)) n.
Proof.
  intros HN ->. exists (map (fun k => (startof sizes leads k, startof sizes leads (S k))) (seq 0 (length leads))). split.
  - apply F2_map_r, F2_seq. intros k z Hk. rewrite (@coords_lead sizes leads blks k z HN Hk), (startof_S _ _ _ Hk). cbn [fst snd]. split; [auto|lia].
  - rewrite modes_of_length. exact (consec_startof sizes leads 0).
Qed.

Section Props.
Variable R : StarRing.
Add Ring RringSP : (r_theory R).
Notation mat := (mat R).

Section SMatrix.
Variables (data : mat) (info : list (linfo R)) (out inn : list Z) (cons : bool).
Notation sizes := (mode_sizes info).
Notation n := (length info).
Hypothesis (Ho : good_leads n out) (Hi : good_leads n inn).
Variable full : mode -> mode -> R.
Hypothesis Hd : data_for sizes full out inn data.
Variable q : bres R.
Hypothesis Hq : smatrix_init data info out inn cons = inl q.

(** The slices of the out (in) leads tile the rows (columns). *)
Theorem C28_layout :
  tiles out sizes (fun l => out_block_coords q (KLead l)) (mr data) /\
  tiles inn sizes (fun l => in_block_coords q (KLead l)) (mc data).
Proof.
  pose proof (sm_init Ho Hi Hq) as ->. destruct Hd as (D1 & D2 & _). split; apply tiles_lead; auto; [apply Ho|apply Hi].
Qed.
(** submatrix: leads, or blocks with a conserved quantity *)
Theorem C28_submatrix : blocks_complete info ->
  forall ko ki lo so no li si ni, key_modes info ko = Some (lo, so, no) -> key_modes info ki = Some (li, si, ni) -> In lo out -> In li inn ->
  exists m, submatrix q ko ki = inl m /\ mr m = no /\ mc m = ni /\
    forall a b, a < no -> b < ni -> mget m a b = full (lo, so + a) (li, si + b).
Proof. intros HB ko ki lo so no li si ni. exact (@sub_key R data info out inn cons Ho Hi full Hd HB q Hq ko ki lo so no li si ni). Qed.
(** leads that were not computed raise ValueError *)
Theorem C28_missing : forall ko ki,
  (match ko with KLead l | KBlock l _ => ~ In l out end -> submatrix q ko ki = inr SValue /\ out_block_coords q ko = inr SValue) /\
  (match ki with KLead l | KBlock l _ => ~ In l inn end -> (exists e, submatrix q ko ki = inr e) /\ in_block_coords q ki = inr SValue).
Proof.
  intros ko ki. pose proof (sm_init Ho Hi Hq) as Eq. unfold submatrix. split; intros H.
  - assert (E : out_block_coords q ko = inr SValue).
    { unfold out_block_coords. rewrite Eq. cbn [q_out q_ooff q_oblk]. destruct ko; [apply coords_missing|apply coords_missing_block]; auto. }
    rewrite E. auto.
  - assert (E : in_block_coords q ki = inr SValue).
    { unfold in_block_coords. rewrite Eq. cbn [q_in q_ioff q_iblk]. destruct ki; [apply coords_missing|apply coords_missing_block]; auto. }
    rewrite E. split; auto. destruct (out_block_coords q ko); cbn; eauto.
Qed.
(** Blocks: the transmissions between the blocks of two leads add up to the
    transmission between the leads. *)
Theorem C28_blocks_sum : blocks_complete info ->
  forall o i no ni bo bi, In o out -> In i inn -> nth_error info (Z.to_nat o) = Some (IModes no (Some bo)) -> nth_error info (Z.to_nat i) = Some (IModes ni (Some bi)) ->
  exists t, sm_transmission q (KLead o) (KLead i) = inl t /\
  exists u : nat -> nat -> R, (forall b c, b < length bo -> c < length bi -> sm_transmission q (KBlock o (Z.of_nat b)) (KBlock i (Z.of_nat c)) = inl (u b c)) /\
    t = sum R (length bo) (fun b => sum R (length bi) (fun c => u b c)).
Proof.
  intros HB o i no ni bo bi Hino Hini Eo Ei.
  assert (Q : q = mkBR data info out inn sizes cons (offsets 0 (map (size sizes) out)) (offsets 0 (map (size sizes) inn)) (map (blkof info) out) (map (blkof info) inn)) by (apply sm_init; auto).
  exists (T sizes full o i). split.
  { unfold sm_transmission. rewrite transmission_present by (rewrite Q; auto). apply (st_lead Ho Hi Hd HB Hq); auto. }
  exists (fun b c => TK full (o, list_sum (firstn b bo), nth b bo 0) (i, list_sum (firstn c bi), nth c bi 0)). split.
  { intros b c Hb Hc. unfold sm_transmission. apply (st_key Ho Hi Hd HB Hq); auto; cbn [key_modes]; rewrite ?Eo, ?Ei.
    - rewrite (proj2 (Z.leb_le 0 (Z.of_nat b)) ltac:(lia)), (proj2 (Z.ltb_lt (Z.of_nat b) (Z.of_nat (length bo))) ltac:(lia)), Nat2Z.id. reflexivity.
    - rewrite (proj2 (Z.leb_le 0 (Z.of_nat c)) ltac:(lia)), (proj2 (Z.ltb_lt (Z.of_nat c) (Z.of_nat (length bi))) ltac:(lia)), Nat2Z.id. reflexivity. }
  assert (So : size sizes o = list_sum bo). { rewrite (HB no bo) by (eapply nth_error_In; eauto). unfold size, mode_sizes. exact (nth_error_nth _ _ 0 (map_nth_error _ _ _ Eo)). }
  assert (Si : size sizes i = list_sum bi). { rewrite (HB ni bi) by (eapply nth_error_In; eauto). unfold size, mode_sizes. exact (nth_error_nth _ _ 0 (map_nth_error _ _ _ Ei)). }
  unfold T, TK. rewrite So, Si, sum_blocks. apply sum_ext. intros b Hb. rewrite sum_swap, sum_blocks. 
  transitivity (sum R (length bi) (fun c => sum R (nth c bi 0) (fun a => sum R (nth b bo 0) (fun j => 
      rmul R (rconj R (full (o, list_sum (firstn b bo) + j) (i, list_sum (firstn c bi) + a))) (full (o, list_sum (firstn b bo) + j) (i, list_sum (firstn c bi) + a)))))); [reflexivity|].
  apply sum_ext. intros c Hc. apply sum_swap.
Qed.

(** ** Transmission *)
(** the elements were computed *)
Theorem C29_computed : forall a b, In a out -> In b inn -> sm_transmission q (KLead a) (KLead b) = inl (T sizes full a b).
Proof.
  intros a b Ha Hb. pose proof (sm_init Ho Hi Hq) as Q. unfold sm_transmission. rewrite transmission_present by (rewrite Q; auto).
  rewrite Q. unfold sm_st, submatrix, out_block_coords, in_block_coords. cbn [q_out q_in q_ooff q_ioff q_oblk q_iblk q_data].
  apply In_nth_error in Ha, Hb. destruct Ha as (po & Hpo). destruct Hb as (pi & Hpi).
  rewrite (fun b => @coords_lead sizes out b po _ (proj1 Ho) Hpo), (fun b => @coords_lead sizes inn b pi _ (proj1 Hi) Hpi). cbn [sbind]. f_equal.
  destruct Hd as (D1 & D2 & D3). pose proof (startof_le sizes out po Hpo) as Bo. pose proof (startof_le sizes inn pi Hpi) as Bi.
  unfold norm2, mslice. cbn [mr mc mget]. rewrite D1, D2.
  destruct (@slice_in (startof sizes out po) (size sizes a) (length (modes_of sizes out)) Bo) as [S1 S2].
  destruct (@slice_in (startof sizes inn pi) (size sizes b) (length (modes_of sizes inn)) Bi) as [S3 S4].
  rewrite S1, S2, S3, S4. unfold T. apply sum_ext. intros x Hx. apply sum_ext. intros y Hy.
  rewrite (D3 _ _ (a, x) (b, y)); auto; apply modes_of_nth; auto.
Qed.
(** exactly one lead missing on the side of the missing lead: deduced *)
Theorem C29_deduced : cons = true -> unitary sizes full -> forall a b, valid_lead n a -> valid_lead n b ->
  (In a out /\ ~ In b inn /\ S (length inn) = n) \/ (~ In a out /\ In b inn /\ S (length out) = n) ->
  sm_transmission q (KLead a) (KLead b) = inl (T sizes full a b).
Proof.
  intros Hc HU a b Ha Hb H. pose proof (sm_init Ho Hi Hq) as Q. unfold sm_transmission.
  apply (@transmission_deduced R q _ _ (T sizes full) (fun l => rnat R (size sizes l))); rewrite Q; cbn [q_info q_out q_in q_cons]; auto.
  - intros o i Hino Hini. rewrite <- (@C29_computed o i Hino Hini). unfold sm_transmission. rewrite transmission_present by (rewrite Q; auto). rewrite Q. reflexivity.
  - intros l Hl. unfold sm_np. cbn [q_sizes]. rewrite (@pynth_valid _ sizes l 0) by (rewrite sizes_length; auto). reflexivity.
  - intros o Ho'. rewrite <- (sizes_length info) at 1. apply T_row; auto. rewrite sizes_length. auto.
  - intros i Hi'. rewrite <- (sizes_length info) at 1. apply T_col; auto. rewrite sizes_length. auto.
Qed.
(** otherwise ValueError *)
Theorem C29_insufficient : forall a b, ~ (In a out /\ In b inn) ->
  cons = false \/ (~ In b inn /\ S (length inn) <> n) \/ (~ In a out /\ S (length out) <> n) ->
  sm_transmission q (KLead a) (KLead b) = inr SValue.
Proof.
  intros a b H1 H2. pose proof (sm_init Ho Hi Hq) as Q. unfold sm_transmission. apply transmission_insufficient; rewrite Q; auto.
Qed.

(** ** Conductance matrix *)
Theorem C30_columns : forall g, sm_conductance q = inl g ->
  mr g = n /\ mc g = n /\
  (forall i j, i < n -> j < n -> i <> j -> exists t, sm_transmission q (KLead (Z.of_nat i)) (KLead (Z.of_nat j)) = inl t /\ mget g i j = ropp R t) /\
  (forall j, j < n -> sum R n (fun i => mget g i j) = r0 R).
Proof.
  intros g Hg. pose proof (sm_init Ho Hi Hq) as Q. unfold sm_conductance in Hg. assert (E : length (q_info q) = n) by (rewrite Q; auto). rewrite E in Hg.
  exact (@conductance_inl R _ _ _ Hg).
Qed.
(** Unitary, and every off-diagonal element computed or deducible from one
    missing lead: the matrix exists, its diagonal is N_i - R_i and its rows
    sum to zero, too. *)
Theorem C30_unitary : cons = true -> unitary sizes full ->
  (forall i j, i < n -> j < n -> i <> j -> let a := Z.of_nat i in let b := Z.of_nat j in
     (In a out /\ In b inn) \/ (In a out /\ ~ In b inn /\ S (length inn) = n) \/ (~ In a out /\ In b inn /\ S (length out) = n)) ->
  exists g, sm_conductance q = inl g /\
    (forall i j, i < n -> j < n -> mget g i j =
       if i =? j then rsub R (rnat R (size sizes (Z.of_nat i))) (T sizes full (Z.of_nat i) (Z.of_nat i)) else ropp R (T sizes full (Z.of_nat i) (Z.of_nat j))) /\
    (forall i, i < n -> sum R n (fun j => mget g i j) = r0 R) /\ (forall j, j < n -> sum R n (fun i => mget g i j) = r0 R).
Proof.
  intros Hc HU HP. pose proof (sm_init Ho Hi Hq) as Q. assert (E : length (q_info q) = n) by (rewrite Q; auto).
  assert (HT : forall i j, i < n -> j < n -> i <> j -> sm_transmission q (KLead (Z.of_nat i)) (KLead (Z.of_nat j)) = inl (T sizes full (Z.of_nat i) (Z.of_nat j))).
  { intros i j Hin Hjn Hij. destruct (HP i j Hin Hjn Hij) as [[P1 P2]|P]; [apply C29_computed; auto|]. apply C29_deduced; auto; unfold valid_lead; lia. }
  destruct (@conductance_ok R n (fun i j => sm_transmission q (KLead i) (KLead j)) (fun i j => T sizes full (Z.of_nat i) (Z.of_nat j)) HT) as (g & Hg).
  exists g. assert (Hg' : sm_conductance q = inl g) by (unfold sm_conductance; rewrite E; exact Hg). split; auto.
  destruct (@conductance_spec R n _ (T sizes full) (fun l => rnat R (size sizes l)) g Hg HT) as [H1 H2].
  - intros o Ho'. rewrite <- (sizes_length info) at 1. apply T_row; auto. rewrite sizes_length. auto.
  - intros i Hi'. rewrite <- (sizes_length info) at 1. apply T_col; auto. rewrite sizes_length. auto.
  - split; auto. split; auto. apply (@C30_columns g Hg').
Qed.

(** ** Shot noise *)
(** value, for any scattering matrix *)
Theorem C43_value : n = 2 -> forall o os i is, out = o :: os -> inn = i :: is ->
  shotnoise q = inl (noise sizes full o i).
Proof.
  intros Hn o os i is Eo Ei. pose proof (sm_init Ho Hi Hq) as Q. unfold shotnoise.
  assert (E : length (q_info q) = 2) by (rewrite Q; auto). rewrite E. cbn [Nat.eqb negb].
  assert (Eqo : q_out q = o :: os) by (rewrite Q; auto). assert (Eqi : q_in q = i :: is) by (rewrite Q; auto). rewrite Eqo, Eqi.
  assert (Ino : In o out) by (rewrite Eo; left; auto). assert (Ini : In i inn) by (rewrite Ei; left; auto).
  assert (SUB : exists m, submatrix q (KLead o) (KLead i) = inl m /\ mr m = size sizes o /\ mc m = size sizes i /\
    forall a b, a < size sizes o -> b < size sizes i -> mget m a b = full (o, a) (i, b)).
  { rewrite Q. unfold submatrix, out_block_coords, in_block_coords. cbn [q_out q_in q_ooff q_ioff q_oblk q_iblk q_data].
    apply In_nth_error in Ino, Ini. destruct Ino as (po & Hpo). destruct Ini as (pi & Hpi).
    rewrite (fun b => @coords_lead sizes out b po _ (proj1 Ho) Hpo), (fun b => @coords_lead sizes inn b pi _ (proj1 Hi) Hpi). cbn [sbind].
    destruct Hd as (D1 & D2 & D3). pose proof (startof_le sizes out po Hpo) as Bo. pose proof (startof_le sizes inn pi Hpi) as Bi.
    eexists. split; [reflexivity|]. unfold mslice. cbn [mr mc mget]. rewrite D1, D2.
    destruct (@slice_in (startof sizes out po) (size sizes o) (length (modes_of sizes out)) Bo) as [S1 S2].
    destruct (@slice_in (startof sizes inn pi) (size sizes i) (length (modes_of sizes inn)) Bi) as [S3 S4].
    rewrite S1, S2, S3, S4. split; auto. split; auto. intros a b Ha Hb. apply D3; apply modes_of_nth; auto. }
  destruct SUB as (m & -> & M1 & M2 & M3). cbn [sbind].
  unfold mdot at 1. cbn [mconjt mr mc mget]. rewrite Nat.eqb_refl. cbn [sbind].
  unfold mdot at 1. cbn [mr mc mget]. rewrite Nat.eqb_refl. cbn [sbind mr mc mget]. f_equal.
  unfold mtrace. cbn [mr mc mget]. rewrite Nat.min_id, M1, M2.
  transitivity (rre R (noise sizes full o i)); [f_equal|apply rre_self, noise_real].
  assert (P : forall a a', a < size sizes o -> a' < size sizes o ->
    sum R (size sizes i) (fun k => rmul R (mget m a k) (rconj R (mget m a' k))) = tt_dagger sizes full o i a a').
  { intros a a' Ha Ha'. unfold tt_dagger. apply sum_ext. intros b Hb. rewrite !M3 by auto. reflexivity. }
  unfold noise. apply sum_ext. intros a Ha. rewrite P by auto. f_equal. apply sum_ext. intros a' Ha'. rewrite !P by auto. reflexivity.
Qed.
(** unitary: the same number whichever block was computed, and real *)
Theorem C43_block_independent : n = 2 -> unitary sizes full -> out <> [] -> inn <> [] ->
  shotnoise q = inl (noise sizes full 1 0) /\ rconj R (noise sizes full 1 0) = noise sizes full 1 0.
Proof.
  intros Hn HU Hno Hni. split; [|apply noise_real].
  assert (NE : forall l : list Z, l <> [] -> exists z l', l = z :: l') by (intros [|z l'] H; [congruence|eauto]).
  destruct (NE out Hno) as (o & os & Eo). destruct (NE inn Hni) as (i & is & Ei).
  rewrite (@C43_value Hn o os i is Eo Ei). f_equal. apply noise_all; auto; try (rewrite sizes_length; auto); try (unfold valid_lead; lia).
  - rewrite <- Hn. apply Ho. rewrite Eo. left; auto.
  - rewrite <- Hn. apply Hi. rewrite Ei. left; auto.
Qed.
Theorem C43_not_two : n <> 2 -> shotnoise q = inr SValue.
Proof.
  intros Hn. pose proof (sm_init Ho Hi Hq) as Q. unfold shotnoise. assert (E : length (q_info q) = n) by (rewrite Q; auto). rewrite E.
  apply Nat.eqb_neq in Hn. rewrite Hn. reflexivity.
Qed.
End SMatrix.
End Props.

(** ** A concrete case: three leads with 1, 2 and 1 modes, lead 1 with two blocks *)
Definition gz (a b : Z) : GaussZ := (a, b).
Definition sx_info : list (linfo GaussZ) := [IModes 2 None; IModes 4 (Some [1; 1]); IModes 2 None].
Definition sx_full (x y : mode) : GaussZ :=
  match x, y with
  | (0%Z, O), (1%Z, S O) => gz 0 1
  | (1%Z, O), (0%Z, O) => gz 1 0
  | (1%Z, S O), (1%Z, O) => gz (-1) 0
  | (2%Z, O), (2%Z, O) => gz 0 (-1)
  | _, _ => gz 0 0
  end.
Definition sx_data (info : list (linfo GaussZ)) (full : mode -> mode -> GaussZ) (out inn : list Z) : mat GaussZ :=
  let mo := modes_of (mode_sizes info) out in let mi := modes_of (mode_sizes info) inn in
  mkMat (length mo) (length mi) (fun r c => full (nth r mo (0%Z, O)) (nth c mi (0%Z, O))).
Lemma sx_data_for info full out inn : data_for (mode_sizes info) full out inn (sx_data info full out inn).
Proof.
  split; [reflexivity|]. split; [reflexivity|]. intros r c x y Hx Hy. unfold sx_data. cbn [mget].
  rewrite (nth_error_nth _ _ _ Hx), (nth_error_nth _ _ _ Hy). reflexivity.
Qed.
Ltac unitary_tac :=
  split; intros x x' Hx Hx'; cbv in Hx, Hx';
  repeat match goal with H : _ \/ _ |- _ => destruct H as [<-|H] | H : False |- _ => destruct H end;
  split; intros E; try (vm_compute; reflexivity); try (exfalso; congruence).
Example sx_unitary : unitary (mode_sizes sx_info) sx_full.
Proof. unitary_tac. Qed.
Example sx_good : good_leads 3 [0; 2]%Z /\ good_leads 3 [0; 1; 2]%Z /\ good_leads 3 [1]%Z /\ blocks_complete sx_info.
Proof.
  unfold good_leads, valid_lead. repeat split; try (repeat constructor; cbn; intuition discriminate); try (cbn in *; lia).
  intros n bs H. cbn in H. repeat destruct H as [[= <- <-]|H]; try discriminate; try reflexivity. destruct H.
Qed.
Definition run {A B} (x : sres A) (f : A -> sres B) : option B := match sbind x f with inl b => Some b | inr _ => None end.
Definition sx_q out inn := smatrix_init (sx_data sx_info sx_full out inn) sx_info out inn true.
Definition entries (m : mat GaussZ) := map (fun i => map (fun j => mget m i j) (seq 0 (mc m))) (seq 0 (mr m)).
Example sx_run :
  run (sx_q [0; 1; 2]%Z [0; 2]%Z) (fun q => out_block_coords q (KLead 1)) = Some (1, 3) /\
  run (sx_q [0; 1; 2]%Z [0; 2]%Z) (fun q => sbind (submatrix q (KBlock 1 0) (KLead 0)) (fun m => inl (entries m))) = Some [[gz 1 0]] /\
  (* deduced: in lead 1 is missing; two from lead 1 to leads 0 and 1 *)
  run (sx_q [0; 1; 2]%Z [0; 2]%Z) (fun q => sm_transmission q (KLead 0) (KLead 1)) = Some (gz 1 0) /\
  run (sx_q [0; 1; 2]%Z [0; 2]%Z) (fun q => sm_transmission q (KLead 1) (KLead 1)) = Some (gz 1 0) /\
  run (sx_q [0; 1; 2]%Z [0; 2]%Z) (fun q => sbind (sm_conductance q) (fun m => inl (entries m))) =
    Some [[gz 1 0; gz (-1) 0; gz 0 0]; [gz (-1) 0; gz 1 0; gz 0 0]; [gz 0 0; gz 0 0; gz 0 0]] /\
  sbind (sx_q [0; 2]%Z [1]%Z) (fun q => sm_transmission q (KLead 0) (KLead 0)) = inr SValue.
Proof. repeat split; vm_compute; reflexivity. Qed.

(** two leads *)
Definition sy_info : list (linfo GaussZ) := [IModes 4 None; IModes 2 None].
Definition sy_full (x y : mode) : GaussZ :=
  match x, y with
  | (0%Z, O), (1%Z, O) => gz 0 1
  | (1%Z, O), (0%Z, S O) => gz 1 0
  | (0%Z, S O), (0%Z, O) => gz (-1) 0
  | _, _ => gz 0 0
  end.
Example sy_unitary : unitary (mode_sizes sy_info) sy_full.
Proof. unitary_tac. Qed.
Definition sy_q out inn := smatrix_init (sx_data sy_info sy_full out inn) sy_info out inn true.
Example sy_noise : run (sy_q [1]%Z [0]%Z) (@shotnoise _) = Some (gz 0 0) /\ run (sy_q [0; 1]%Z [1]%Z) (@shotnoise _) = Some (gz 0 0).
Proof. repeat split; vm_compute; reflexivity. Qed.

(** ** What the code gets wrong *)
(** Both leads missing, all others computed: the docstring promises the
    deduced value, but the result is wrong (the conditional expression in
    line 736 covers the whole difference): the transmission from lead 1 to
    itself is 0, the code says -1 (a negative number). *)
Example C29_both_missing_refuted :
  T (mode_sizes sy_info) sy_full 1 1 = gz 0 0 /\
  run (sy_q [0]%Z [0]%Z) (fun q => sm_transmission q (KLead 1) (KLead 1)) = Some (gz (-1) 0).
Proof. repeat split; vm_compute; reflexivity. Qed.
(** The conductance matrix uses the same branch: out leads 0, 1 and in leads
    0, 2 computed; the element (2, 1) should be 0 and rows should sum to 0. *)
Example C30_both_missing_refuted :
  T (mode_sizes sx_info) sx_full 2 1 = gz 0 0 /\
  run (sx_q [0; 1]%Z [0; 2]%Z) (fun q => sbind (sm_conductance q) (fun m => inl (entries m))) =
    Some [[gz 1 0; gz (-1) 0; gz 0 0]; [gz (-1) 0; gz 0 0; gz 0 0]; [gz 0 0; gz 1 0; gz 0 0]].
Proof. repeat split; vm_compute; reflexivity. Qed.
(** A negative block number -1 gives an empty slice instead of the last block
    or an error. *)
Example C28_negative_block_refuted :
  run (sx_q [0; 1; 2]%Z [0; 2]%Z) (fun q => out_block_coords q (KBlock 1 (-1))) = Some (3, 1) /\
  run (sx_q [0; 1; 2]%Z [0; 2]%Z) (fun q => sbind (submatrix q (KBlock 1 (-1)) (KLead 0)) (fun m => inl (mr m))) = Some 0.
Proof. repeat split; vm_compute; reflexivity. Qed.
