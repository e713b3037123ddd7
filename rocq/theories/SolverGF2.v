(** * GreensFunction objects, and greens_function. *)
From Coq Require Import List Bool Arith ZArith Ring Lia Permutation.
From Verif Require Import StarRing SubmatrixModel SolverModel SolverSpec SolverProofs SolverLinear SolverLinear2 SolverMain SolverGF.
Import ListNotations.
Set Implicit Arguments.

Section GF.
Variable R : StarRing.
Add Ring RringG2 : (r_theory R).
Notation mat := (mat R).
Notation conj := (rconj R).
Notation "x +! y" := (radd R x y) (at level 50, left associativity).
Notation "x -! y" := (rsub R x y) (at level 50, left associativity).
Notation "x *! y" := (rmul R x y) (at level 40, left associativity).
Notation O0 := (r0 R).
Variables (n : nat) (coords : list (list nat)) (sigmas : list mat) (G : nat -> nat -> R).
Hypothesis Hgood : good_sigmas n coords sigmas.
Notation nl := (length sigmas).
Notation orb := (orb coords).
Notation len := (len coords).
Notation gam := (gam sigmas).
Notation tr4 := (tr4 coords sigmas G).
Notation tr2 := (tr2 coords sigmas G).
Notation sizes := (map (@mr R) sigmas).
Variables (data : mat) (out inn : list Z) (cons : bool) (q : bres R).
Hypothesis (Ho : good_leads nl out) (Hi : good_leads nl inn).
Hypothesis Hd : data_for sizes (gf_full coords G) out inn data.
Hypothesis Hq : gf_init data sigmas out inn cons = inl q.

Lemma gf_q : q = mkBR data (map ISigma sigmas) out inn sizes cons (offsets 0 (map (size sizes) out)) (offsets 0 (map (size sizes) inn))
  (map (fun z => nth (Z.to_nat z) (map (fun _ => None) sigmas) None) out) (map (fun z => nth (Z.to_nat z) (map (fun _ => None) sigmas) None) inn).
Proof.
  unfold gf_init in Hq. rewrite block_init_inl in Hq; [congruence|rewrite !map_length; auto|..]; rewrite map_length; auto.
Qed.
Lemma size_len l : valid_lead nl l -> size sizes l = len l.
Proof.
  intros Hl. destruct (good_at Hgood Hl) as (E & _ & _). rewrite <- E. unfold size, sig.
  change O with (@mr R (mkMat 0 0 (fun _ _ => O0))) at 1. apply map_nth.
Qed.
Lemma sigma_at l : valid_lead nl l -> sigma_of q l = inl (sig sigmas l).
Proof.
  intros Hl. unfold sigma_of. rewrite gf_q. cbn [q_info].
  rewrite (@pynth_valid _ (map ISigma sigmas) l (ISigma (mkMat 0 0 (fun _ _ => O0)))) by (rewrite map_length; auto). cbn [stry sbind].
  rewrite map_nth. reflexivity.
Qed.
Lemma gamma_at l : valid_lead nl l -> gamma R (sig sigmas l) = inl (mkMat (len l) (len l) (gam l)).
Proof.
  intros Hl. destruct (good_at Hgood Hl) as (E1 & E2 & _). unfold gamma. rewrite E1, E2, Nat.eqb_refl. reflexivity.
Qed.
Lemma gsub o i : In o out -> In i inn -> exists m, submatrix q (KLead o) (KLead i) = inl m /\ mr m = len o /\ mc m = len i /\
  forall p p', p < len o -> p' < len i -> mget m p p' = G (orb o p) (orb i p').
Proof.
  intros Ino Ini. rewrite gf_q. unfold submatrix, out_block_coords, in_block_coords. cbn [q_out q_in q_ooff q_ioff q_oblk q_iblk q_data].
  assert (Eo : size sizes o = len o) by (apply size_len, Ho; auto). assert (Ei : size sizes i = len i) by (apply size_len, Hi; auto).
  apply In_nth_error in Ino, Ini. destruct Ino as (po & Hpo). destruct Ini as (pi & Hpi).
  rewrite (fun b => @coords_lead sizes out b po _ (proj1 Ho) Hpo), (fun b => @coords_lead sizes inn b pi _ (proj1 Hi) Hpi). cbn [sbind].
  destruct Hd as (D1 & D2 & D3). pose proof (startof_le sizes out po Hpo) as Bo. pose proof (startof_le sizes inn pi Hpi) as Bi.
  eexists. split; [reflexivity|]. unfold mslice. cbn [mr mc mget]. rewrite D1, D2.
  destruct (@slice_in (startof sizes out po) (size sizes o) (length (modes_of sizes out)) Bo) as [S1 S2].
  destruct (@slice_in (startof sizes inn pi) (size sizes i) (length (modes_of sizes inn)) Bi) as [S3 S4].
  rewrite S1, S2, S3, S4. split; auto. split; auto. intros a b Ha Hb. rewrite (D3 _ _ (o, a) (i, b)); [reflexivity| |]; apply modes_of_nth; auto; lia.
Qed.

Lemma tr4_real o i : conj (tr4 o i) = tr4 o i.
Proof.
  unfold SolverSpec.tr4. rewrite sum_conj.
  transitivity (sum R (len o) (fun p => sum R (len o) (fun p' => sum R (len i) (fun q => sum R (len i) (fun q' => gam o p' p *! G (orb o p) (orb i q') *! gam i q' q *! conj (G (orb o p') (orb i q))))))).
  - apply sum_ext. intros p _. rewrite sum_conj. apply sum_ext. intros p' _. rewrite sum_conj. apply sum_ext. intros q0 _. rewrite sum_conj. apply sum_ext. intros q' _.
    rewrite !rconj_mul, rconj_conj, !gam_herm. ring.
  - rewrite sum_swap. apply sum_ext. intros p _. apply sum_ext. intros p' _. apply sum_swap.
Qed.

Variables nchan nchan_refl : mat -> nat.
Lemma gf_st_value o i : In o out -> In i inn -> gf_st nchan_refl q o i = inl (gfT coords sigmas G nchan_refl o i).
Proof.
  intros Ino Ini. assert (Vo : valid_lead nl o) by (apply Ho; auto). assert (Vi : valid_lead nl i) by (apply Hi; auto).
  destruct (gsub _ _ Ino Ini) as (m & Hm & M1 & M2 & M3).
  unfold gf_st, a_ttdagger. rewrite Hm. cbn [sbind]. rewrite !sigma_at by auto. cbn [sbind]. rewrite !gamma_at by auto. cbn [sbind].
  unfold mdot at 1. cbn [mr mc mget mconjt]. rewrite M1, Nat.eqb_refl. cbn [sbind].
  unfold mdot at 1. cbn [mr mc mget mconjt]. rewrite M2, Nat.eqb_refl. cbn [sbind].
  unfold mdot at 1. cbn [mr mc mget mconjt]. rewrite M2, Nat.eqb_refl. cbn [sbind].
  assert (Etr : mtrace R (mkMat (len o) (mr m) (fun i0 j => sum R (len i) (fun k => sum R (len i) (fun k0 => sum R (len o) (fun k1 => gam o i0 k1 *! mget m k1 k0) *! gam i k0 k) *! conj (mget m j k)))) = tr4 o i).
  { unfold mtrace. cbn [mr mc mget]. rewrite M1, Nat.min_id. unfold SolverSpec.tr4. apply sum_ext. intros p Hp.
    transitivity (sum R (len i) (fun q' => sum R (len o) (fun p' => sum R (len i) (fun q0 => gam o p p' *! G (orb o p') (orb i q0) *! gam i q0 q' *! conj (G (orb o p) (orb i q')))))).
    - apply sum_ext. intros q' Hq'. rewrite sum_swap. rewrite <- sum_mul_r. apply sum_ext. intros q0 Hq0. rewrite <- !sum_mul_r. apply sum_ext. intros p' Hp'. rewrite !M3 by auto. reflexivity.
    - rewrite sum_swap. apply sum_ext. intros p' _. apply sum_swap. }
  rewrite Etr. rewrite (@rre_self R _ (tr4_real o i)). unfold gfT.
  destruct (Z.eqb_spec o i) as [->|N]; [|reflexivity].
  unfold mdot at 1. cbn [mr mc mget]. rewrite M1, Nat.eqb_refl. cbn [sbind]. f_equal. f_equal. f_equal. unfold two_im, mtrace. cbn [mr mc mget]. rewrite M2, Nat.min_id.
  assert (E2 : sum R (len i) (fun i0 => sum R (len i) (fun k => gam i i0 k *! mget m k i0)) = tr2 i).
  { unfold SolverSpec.tr2. apply sum_ext. intros p Hp. apply sum_ext. intros p' Hp'. rewrite M3 by auto. reflexivity. }
  rewrite E2. reflexivity.
Qed.
Lemma gf_np_value l : valid_lead nl l -> gf_np nchan q l = inl (rnat R (nchan (sig sigmas l))).
Proof. intros Hl. unfold gf_np. rewrite sigma_at by auto. reflexivity. Qed.

Variables (h : nat -> nat -> R) (en : R).
Hypothesis Hherm : forall u v, u < n -> v < n -> conj (h v u) = h u v.
Hypothesis Hreal : conj en = en.
Hypothesis HG : inverses n (inverse_gf h en coords sigmas) G.
Hypothesis Hch : forall s, In s sigmas -> nchan s = nchan_refl s.

Lemma sig_in l : valid_lead nl l -> In (sig sigmas l) sigmas.
Proof. intros [H1 H2]. unfold sig. apply nth_In. lia. Qed.
Theorem gf_deduced a b : cons = true -> valid_lead nl a -> valid_lead nl b ->
  (In a out /\ ~ In b inn /\ S (length inn) = nl) \/ (~ In a out /\ In b inn /\ S (length out) = nl) ->
  gf_transmission nchan nchan_refl q a b = inl (gfT coords sigmas G nchan_refl a b).
Proof.
  intros Hc Ha Hb H. unfold gf_transmission.
  assert (EL : length (q_info q) = nl) by (rewrite gf_q; cbn; apply map_length).
  apply (@transmission_deduced R q _ _ (gfT coords sigmas G nchan_refl) (fun l => rnat R (nchan (sig sigmas l)))); rewrite ?EL; auto; try (rewrite gf_q; auto; fail).
  - intros o i Hoo Hii. rewrite gf_q in Hoo, Hii. apply gf_st_value; auto.
  - intros l Hl. apply gf_np_value; auto.
  - intros o Ho'. rewrite (gfT_row Hgood Hherm Hreal HG) by auto. rewrite (Hch _ (sig_in Ho')). reflexivity.
  - intros i Hi'. rewrite (gfT_col Hgood Hherm Hreal HG) by auto. rewrite (Hch _ (sig_in Hi')). reflexivity.
Qed.
Theorem gf_cond : cons = true ->
  (forall i j, i < nl -> j < nl -> i <> j -> let a := Z.of_nat i in let b := Z.of_nat j in
     (In a out /\ In b inn) \/ (In a out /\ ~ In b inn /\ S (length inn) = nl) \/ (~ In a out /\ In b inn /\ S (length out) = nl)) ->
  exists g, gf_conductance nchan nchan_refl q = inl g /\
    (forall i j, i < nl -> j < nl -> mget g i j =
       if i =? j then rsub R (rnat R (nchan_refl (sig sigmas (Z.of_nat i)))) (gfT coords sigmas G nchan_refl (Z.of_nat i) (Z.of_nat i)) else ropp R (gfT coords sigmas G nchan_refl (Z.of_nat i) (Z.of_nat j))) /\
    (forall i, i < nl -> sum R nl (fun j => mget g i j) = r0 R) /\ (forall j, j < nl -> sum R nl (fun i => mget g i j) = r0 R).
Proof.
  intros Hc HP. assert (EL : length (q_info q) = nl) by (rewrite gf_q; cbn; apply map_length).
  assert (HT : forall i j, i < nl -> j < nl -> i <> j -> gf_transmission nchan nchan_refl q (Z.of_nat i) (Z.of_nat j) = inl (gfT coords sigmas G nchan_refl (Z.of_nat i) (Z.of_nat j))).
  { intros i j Hin Hjn Hij. destruct (HP i j Hin Hjn Hij) as [[P1 P2]|P].
    - unfold gf_transmission. rewrite transmission_present by (rewrite gf_q; auto). apply gf_st_value; auto.
    - apply gf_deduced; auto; unfold valid_lead; lia. }
  destruct (@conductance_ok R nl (gf_transmission nchan nchan_refl q) (fun i j => gfT coords sigmas G nchan_refl (Z.of_nat i) (Z.of_nat j)) HT) as (g & Hg).
  exists g. unfold gf_conductance. rewrite EL. split; auto.
  destruct (@conductance_spec R nl _ (gfT coords sigmas G nchan_refl) (fun l => rnat R (nchan_refl (sig sigmas l))) g Hg HT) as [H1 H2].
  - intros o Ho'. apply (gfT_row Hgood Hherm Hreal HG); auto.
  - intros i Hi'. apply (gfT_col Hgood Hherm Hreal HG); auto.
  - split; auto. split; auto. apply (@conductance_inl R _ _ _ Hg).
Qed.
End GF.
