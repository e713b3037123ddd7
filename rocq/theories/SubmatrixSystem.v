(** * The graph of a finalized finite system, and its Hamiltonian matrix. *)
From Coq Require Import List Bool Arith ZArith Lia Permutation.
From Verif Require Import BuilderModel BuilderProofs BuilderInv BuilderReach BuilderSpec BuilderMain GraphModel GraphSpec GraphProps
  SystemModel SystemSpec SystemProofs SystemFinite SystemMain SubmatrixModel SubmatrixProofs SubmatrixSpec SubmatrixMain SubmatrixTop.
Import ListNotations.
Set Implicit Arguments.

Section Sys.
Variable site : Type.
Variable dec : forall a b : site, {a = b} + {a <> b}.
Variable leb : site -> site -> bool.
Hypothesis TO : total_order leb.
Variable Sy : Symmetry site.
Hypothesis L : SymLaws Sy.
Hypothesis triv : forall g s, act Sy g s = s.
Variable C : Type.
Variable conj : C -> C.
Variable F : Type.
Variable call1 : val C F -> site -> option C.
Variable call2 : F -> site -> site -> option C.
Variable junk : nat -> nat -> Z.
Notation reachable := (@reachable site dec Sy C F).
Notation read_site := (@read_site site dec Sy C conj F).
Notation read_hop := (@read_hop site dec Sy C conj F).
Notation finalize := (@finalize_finite site dec leb C F junk).
Notation ham := (@ham site Sy C conj F call1 call2).
Notation eval_hop := (@eval_hop site Sy C conj F call2).
Notation eval_site := (@eval_site site Sy C F call1).

(** syst.graph.out_neighbors(i) *)
Definition nbs (s : system site C F) (i : nat) : list nat :=
  match out_neighbors (s_graph s) (Z.of_nat i) with inl l => map Z.to_nat l | inr _ => [] end.

Lemma NoDup_flat {A B D} (g : A -> list B) (u : B -> D) (l : list A) :
  NoDup (map u (flat_map g l)) -> NoDup (flat_map g l).
Proof. apply NoDup_map_inv. Qed.

Lemma finite_neighbors h ifaces pads s : reachable h -> finalize h ifaces pads = inl s ->
  cnum_nodes (s_graph s) = Z.of_nat (length (s_sites s)) /\
  (forall i, i < length (s_sites s) -> exists l, out_neighbors (s_graph s) (Z.of_nat i) = inl l) /\
  (forall i, NoDup (nbs s i)) /\
  (forall i j, i < length (s_sites s) -> In j (nbs s i) <->
     exists a b, nth_error (s_sites s) i = Some a /\ nth_error (s_sites s) j = Some b /\ a <> b /\ read_hop h a b <> None).
Proof.
  intros R E. pose proof (reach_WF L R) as W.
  destruct (@finite_main site dec leb Sy triv C F junk h ifaces pads W) as [(s' & E' & Hs & _)|(E' & _)]; [|congruence].
  assert (s' = s) by congruence. subst s'. clear E'.
  pose proof (@finite_graph site dec leb Sy triv C F h W) as (g & Hg & B). cbv zeta in Hg, B. rewrite <- Hs in Hg, B.
  assert (Hs' : s_sites s = sort leb (map fst h)) by exact Hs.
  set (sites := s_sites s) in *. set (ids := id_table dec sites) in *.
  assert (Hc : compressed junk g false false false = inl (s_graph s)).
  { unfold finalize_finite in E. cbv zeta in E. rewrite <- Hs in E. fold sites in E. fold ids in E. rewrite Hg in E. cbn [fbind] in E.
    destruct (compressed junk g false false false) as [c|e]; cbn [of_g fbind] in E; [|discriminate].
    repeat match type of E with fbind ?x _ = _ => destruct x; cbn [fbind] in E; [|discriminate] end.
    injection E as Es. rewrite <- Es. reflexivity. }
  destruct B as (RG & _ & Hn & He & Hb).
  destruct (@C16_id_order g false RG) as (Lo & HL & _).
  destruct (@C16_out junk g false false false RG _ Hc Lo HL) as (_ & H1 & H2 & H3).
  rewrite Hn in *.
  assert (Hnd : NoDup sites) by (rewrite Hs; apply NoDup_sort; apply W).
  assert (Hin : forall x, In x (map fst h) -> nth_error sites (idx dec ids x) = Some x /\ idx dec ids x < length sites).
  { intros x Hx. assert (Hx' : In x sites) by (rewrite Hs; eapply Permutation_in; [symmetry; apply sort_perm|auto]).
    apply In_nth_error in Hx'. destruct Hx' as (k & Hk). unfold idx, ids.
    rewrite (proj2 (id_table_spec dec x k Hnd) Hk). split; auto. apply nth_error_Some. congruence. }
  assert (Hmx : forall t nd x v, In (t, nd) h -> In (x, v) (outs nd) -> In t (map fst h) /\ In x (map fst h) /\ t <> x).
  { intros t nd x v Ht Hx. assert (Hlk : lookup dec t h = Some nd) by (apply lookup_In_node; auto; apply W).
    destruct (In_lookup_out dec _ _ _ Hx) as (v' & Hv').
    assert (Hed : edge dec h t x = Some v') by (unfold BuilderInv.edge; rewrite Hlk; auto).
    split; [apply in_map_iff; exists (t, nd); auto|]. split.
    - rewrite <- (mem_true dec). destruct (wf_pair W _ _ Hed) as (v0 & H0 & _).
      rewrite (@Eg_edge site dec Sy triv) in H0. eapply edge_mem; eauto.
    - intros ->. pose proof (wf_irr W x). congruence. }
  assert (HND : NoDup (flat_map (node_edges dec ids) h)).
  { apply flat_map_NoDup.
    - eapply NoDup_map_inv; apply W.
    - intros [t nd] Ht. unfold node_edges. cbn [fst snd].
      assert (Hh : NoDup (map fst (outs nd))) by (apply (wf_heads W t); apply lookup_In_node; auto; apply W).
      apply flat_map_NoDup.
      + eapply NoDup_map_inv; exact Hh.
      + intros [x v] Hx. repeat constructor; auto.
      + intros [x v] [x' v'] p Hx Hx' [Ep|[]] [Ep'|[]]. cbn [fst] in *. rewrite <- Ep in Ep'. injection Ep' as Ep'.
        destruct (Hmx t nd x v Ht Hx) as (_ & M1 & _). destruct (Hmx t nd x' v' Ht Hx') as (_ & M2 & _).
        apply Hin in M1, M2. assert (x' = x) by (destruct M1, M2; congruence). subst x'.
        f_equal. clear -Hx Hx' Hh. revert Hx Hx' Hh. generalize (outs nd). intros l. induction l as [|[y w] l IH]; cbn; [tauto|].
        intros Hx Hx' Hh. inversion Hh as [|? ? Hy Hl]; subst.
        destruct Hx as [Hx|Hx], Hx' as [Hx'|Hx'].
        * congruence.
        * injection Hx as -> ->. exfalso. apply Hy. apply in_map_iff. exists (x, v'). auto.
        * injection Hx' as -> ->. exfalso. apply Hy. apply in_map_iff. exists (x, v). auto.
        * auto.
    - intros [t nd] [t' nd'] p Ht Ht' Hp Hp'. unfold node_edges in *. cbn [fst snd] in *.
      apply in_flat_map in Hp, Hp'. destruct Hp as ([x v] & Hx & [<-|[]]), Hp' as ([x' v'] & Hx' & [Ep|[]]). cbn [fst] in Ep.
      injection Ep as Ep _. destruct (Hmx t nd x v Ht Hx) as (M1 & _). destruct (Hmx t' nd' x' v' Ht' Hx') as (M2 & _).
      apply Hin in M1, M2. assert (t' = t) by (destruct M1, M2; congruence). subst t'.
      assert (lookup dec t h = Some nd) by (apply lookup_In_node; auto; apply W).
      assert (lookup dec t h = Some nd') by (apply lookup_In_node; auto; apply W). congruence. }
  assert (HX : forall i, i < length sites -> exists l, out_neighbors (s_graph s) (Z.of_nat i) = inl l /\
     map Z.to_nat l = map snd (filter (fun p => fst p =? i) (flat_map (node_edges dec ids) h))).
  { intros i Hi. destruct (H3 (Z.of_nat i)) as (Ho & _); [lia|]. eexists. split; [exact Ho|].
    rewrite He. clear -Hi. induction (flat_map (node_edges dec ids) h) as [|[p q] l IH]; [reflexivity|].
    cbn [map filter zpair fst snd]. unfold zpair at 1. cbn [fst snd]. 
    destruct (Z.eqb_spec (Z.of_nat p) (Z.of_nat i)), (Nat.eqb_spec p i); try lia; cbn [map]; auto.
    unfold zpair at 1. cbn [snd]. rewrite Nat2Z.id. f_equal. auto. }
  split; [exact H1|]. split; [intros i Hi; destruct (HX i Hi) as (l & Hl & _); eauto|]. split.
  - intros i. unfold nbs. destruct (Nat.lt_ge_cases i (length sites)) as [Hi|Hi].
    + destruct (HX i Hi) as (l & -> & ->).
      assert (Hf : NoDup (filter (fun p => fst p =? i) (flat_map (node_edges dec ids) h))) by (apply NoDup_filter; auto).
      revert Hf. assert (Hall : forall p, In p (filter (fun p => fst p =? i) (flat_map (node_edges dec ids) h)) -> fst p = i)
        by (intros p Hp; apply filter_In in Hp; apply Nat.eqb_eq; tauto).
      revert Hall. generalize (filter (fun p => fst p =? i) (flat_map (node_edges dec ids) h)). clear. intros l Hall Hf.
      induction Hf as [|[p q] l Hp Hf IH]; cbn; constructor.
      * intros Hq. apply in_map_iff in Hq. destruct Hq as ([p' q'] & <- & Hq). cbn in *. apply Hp.
        assert (p = i) by (apply (Hall (p, q')); left; auto). assert (p' = i) by (apply (Hall (p', q')); right; auto). subst. auto.
      * apply IH. intros; apply Hall; right; auto.
    + destruct (H2 (Z.of_nat i)) as (-> & _); [lia|]. constructor.
  - intros i j Hi. unfold nbs. destruct (HX i Hi) as (l & -> & ->).
    assert (Hex : In j (map snd (filter (fun p => fst p =? i) (flat_map (node_edges dec ids) h))) <-> In (i, j) (flat_map (node_edges dec ids) h)).
    { rewrite in_map_iff. split.
      - intros ([p q] & <- & Hp). apply filter_In in Hp. cbn in *. destruct Hp as (Hp & ->%Nat.eqb_eq). auto.
      - intros H. exists (i, j). split; auto. apply filter_In. split; auto. cbn. apply Nat.eqb_refl. }
    rewrite Hex. clear Hex.
    assert (HG : forall a b, read_hop h a b <> None <-> edge dec h a b <> None).
    { intros a b. rewrite read_hop_vhop by auto. rewrite vhop_some_iff by auto. rewrite (@Eg_edge site dec Sy triv) by auto. reflexivity. }
    split.
    + intros H. pose proof (Hb _ H) as (Hb1 & Hb2). cbn [fst snd] in *.
      destruct (nth_error sites i) as [a|] eqn:Ea; [|apply nth_error_None in Ea; lia].
      destruct (nth_error sites j) as [b|] eqn:Eb; [|apply nth_error_None in Eb; lia].
      assert (Hed : edge dec h a b <> None).
      { rewrite Hs in Ea, Eb. apply (@node_edges_iff site dec leb Sy triv C F h i j a b W Ea Eb).
        rewrite <- Hs. exact H. }
      exists a, b. split; [auto|]. split; [auto|]. split; [|apply HG; auto].
      intros ->. pose proof (wf_irr W b). congruence.
    + intros (a & b & Ea & Eb & _ & Hr). apply HG in Hr.
      rewrite Hs in Ea, Eb. pose proof (proj2 (@node_edges_iff site dec leb Sy triv C F h i j a b W Ea Eb) Hr) as HH.
      rewrite <- Hs in HH. exact HH.
Qed.

(** ** The matrix.  [to_mat] is ta.matrix(value, complex). *)
Variable K : Type.
Variable k0 : K.
Variable kconj : K -> K.
Variable to_mat : C -> mat K.
Definition mham (s : system site C F) (i j : nat) : mat K + ferr site :=
  match ham s i j with inl c => inl (to_mat c) | inr e => inr e end.
Hypothesis conj_inv : forall c, conj (conj c) = c.
Hypothesis to_mat_conj : forall c, mr (to_mat (conj c)) = mc (to_mat c) /\ mc (to_mat (conj c)) = mr (to_mat c) /\
  forall a b, a < mc (to_mat c) -> b < mr (to_mat c) -> mget (to_mat (conj c)) a b = kconj (mget (to_mat c) b a).

Lemma finite_simple h ifaces pads s : reachable h -> finalize h ifaces pads = inl s ->
  simple_graph (nbs s) (length (s_sites s)).
Proof.
  intros R E. destruct (finite_neighbors ifaces pads R E) as (_ & _ & HN & HI).
  destruct (@main_C20 site dec leb TO Sy L triv C conj F call1 call2 junk h ifaces pads s R E) as (_ & Hnd & _).
  assert (Hz : forall i j, In j (nbs s i) -> i < length (s_sites s)).
  { intros i j H. destruct (Nat.lt_ge_cases i (length (s_sites s))); auto. exfalso.
    pose proof (reach_WF L R) as W. unfold nbs in H.
    destruct (finite_neighbors ifaces pads R E) as (Hn & _). unfold out_neighbors, bad_node in H. rewrite Hn in H.
    replace ((Z.of_nat i <? 0)%Z || (Z.of_nat (length (s_sites s)) <=? Z.of_nat i)%Z) with true in H; [destruct H|].
    symmetry. apply orb_true_iff. right. apply Z.leb_le. lia. }
  constructor; auto.
  - intros f t Hf Ht. apply HI in Ht; auto. destruct Ht as (a & b & Ha & Hb & _). apply nth_error_Some. congruence.
  - intros f t Hf Ht. apply HI in Ht; auto. destruct Ht as (a & b & Ha & Hb & Hab & Hr).
    assert (t < length (s_sites s)) by (apply nth_error_Some; congruence). apply HI; auto. exists b, a. repeat split; auto.
    rewrite (@main_C01 site dec Sy L C conj F h conj_inv R a b). destruct (read_hop h a b); cbn; congruence.
  - intros f H. pose proof (Hz _ _ H) as Hf. apply HI in H; auto. destruct H as (a & b & Ha & Hb & Hab & _). congruence.
Qed.

Lemma finite_hermitian h ifaces pads s : reachable h -> finalize h ifaces pads = inl s ->
  forall f t, f < length (s_sites s) -> In t (nbs s f) -> hermitian_at kconj (mham s) t f.
Proof.
  intros R E f t Hf Ht. destruct (finite_neighbors ifaces pads R E) as (_ & _ & HN & HI).
  apply HI in Ht; auto. destruct Ht as (a & b & Ha & Hb & Hab & Hr).
  assert (Htl : t < length (s_sites s)) by (apply nth_error_Some; congruence).
  unfold hermitian_at, mham. assert (Hne : t <> f) by congruence.
  rewrite (@main_C20_herm site dec leb TO Sy L triv C conj F call1 call2 junk h ifaces pads s t f conj_inv R E Htl Hf Hne).
  destruct (ham s t f) as [c|e]; auto. destruct (to_mat_conj c) as (H1 & H2 & H3).
  split; [exact H1|]. split; [exact H2|]. intros x y Hx Hy. rewrite H1 in Hx. rewrite H2 in Hy. apply H3; auto.
Qed.

(** The matrix elements of the full Hamiltonian in terms of what was stored in
    the builder. *)
Definition value_block (h : store site C F) (a b : site) (x y : nat) : K :=
  match (if dec a b then match read_site h a with Some v => eval_site v a | None => None end
         else match read_hop h a b with Some v => eval_hop v a b | None => None end) with
  | Some c => mget (to_mat c) x y
  | None => k0
  end.

Lemma finite_block h ifaces pads s i j a b x y : reachable h -> finalize h ifaces pads = inl s ->
  nth_error (s_sites s) i = Some a -> nth_error (s_sites s) j = Some b ->
  block k0 (nbs s) (mham s) i j x y = value_block h a b x y.
Proof.
  intros R E Ha Hb. destruct (finite_neighbors ifaces pads R E) as (_ & _ & HN & HI).
  destruct (@main_C20 site dec leb TO Sy L triv C conj F call1 call2 junk h ifaces pads s R E) as (_ & Hnd & _ & _ & Hons & Hhop & _).
  unfold block, value_block, mham.
  assert (Hil : i < length (s_sites s)) by (apply nth_error_Some; congruence).
  assert (Hjl : j < length (s_sites s)) by (apply nth_error_Some; congruence).
  destruct (Nat.eqb_spec i j) as [->|Hne]; cbn [orb].
  - assert (a = b) by congruence. subst b. destruct (dec a a); [|congruence].
    destruct (Hons j a Ha) as (v & -> & ->). destruct (eval_site v a); reflexivity.
  - destruct (dec a b) as [->|Hab].
    { exfalso. apply Hne. eapply (proj1 (NoDup_nth_error (s_sites s)) Hnd); auto. congruence. }
    rewrite (Hhop i j a b Hne Ha Hb).
    destruct (existsb (Nat.eqb i) (nbs s j)) eqn:Ex.
    + destruct (read_hop h a b) as [v|]; [|reflexivity]. destruct (eval_hop v a b); reflexivity.
    + destruct (read_hop h a b) as [v|] eqn:Er; [|reflexivity]. exfalso.
      assert (In i (nbs s j)).
      { apply HI; auto. exists b, a. repeat split; auto.
        rewrite (@main_C01 site dec Sy L C conj F h conj_inv R a b), Er. discriminate. }
      apply existsb_In in H. congruence.
Qed.
End Sys.
