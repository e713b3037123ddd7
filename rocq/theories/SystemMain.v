(** * Finalization: the property theorems (C20, C21), proved. *)
From Coq Require Import List Bool Arith ZArith Lia Sorting.Sorted Permutation.
From Verif Require Import BuilderModel BuilderProofs BuilderInv BuilderReach BuilderSpec BuilderMain
  GraphModel GraphSpec SystemModel SystemSpec SystemProofs SystemFinite SystemInfinite.
Import ListNotations.
Set Implicit Arguments.

Section Eval.
Variable site : Type.
Variable dec : forall a b : site, {a = b} + {a <> b}.
Variable Sy : Symmetry site.
Hypothesis L : SymLaws Sy.
Variable C : Type.
Variable conj : C -> C.
Variable F : Type.
Variable call1 : val C F -> site -> option C.
Variable call2 : F -> site -> site -> option C.
Notation eval_hop := (@eval_hop site Sy C conj F call2).
Notation eval_site := (@eval_site site Sy C F call1).

Lemma eval_hop_conj v a b : (forall c, conj (conj c) = c) ->
  eval_hop (hconj conj v) b a = option_map conj (eval_hop v a b).
Proof.
  intros I. destruct v as [c|f|f]; cbn; auto. destruct (call2 f _ _); cbn; auto. rewrite I. auto.
Qed.
Lemma eval_site_act v g s : eval_site v (act Sy g s) = eval_site v s.
Proof.
  unfold SystemSpec.eval_site. pose proof (to_fd_act L g s) as H. unfold to_fd in H. rewrite H. reflexivity.
Qed.
Lemma ham_site h s i a : nth_error (s_sites s) i = Some a ->
  forall l, fmap (onsite_of dec h) l = inl (s_onsites s) -> nth_error l i = Some a -> in_fd Sy a = true ->
  exists v, read_site dec Sy conj h a = Some v /\ ham Sy conj call1 call2 s i i = user site (eval_site v a).
Proof.
  intros Hs l E Hl Hfd. apply fmap_inv in E. destruct (Forall2_nth _ E Hl) as (v & Hv & Ho).
  exists v. split.
  - rewrite read_site_ons by auto. rewrite (to_fd_id L) by auto. unfold ons. unfold onsite_of in Ho.
    destruct (lookup dec a h); [|discriminate]. cbn. congruence.
  - unfold ham. rewrite Nat.eqb_refl, Hv, Hs. destruct v; reflexivity.
Qed.
End Eval.

Section Fin.
Variable site : Type.
Variable dec : forall a b : site, {a = b} + {a <> b}.
Variable leb : site -> site -> bool.
Hypothesis TO : total_order leb.
Variable Sy : Symmetry site.
Hypothesis L : SymLaws Sy.
Hypothesis triv : forall g s, act Sy g s = s.
Variable C : Type.
Variable conj : C -> C.
Variable F : Type.
Variable call1 : val C F -> site -> option C.
Variable call2 : F -> site -> site -> option C.
Variable junk : nat -> nat -> Z.
Notation store := (store site C F).
Notation read_site := (@read_site site dec Sy C conj F).
Notation read_hop := (@read_hop site dec Sy C conj F).
Notation reachable := (@reachable site dec Sy C F).
Notation ham := (@ham site Sy C conj F call1 call2).
Notation eval_hop := (@eval_hop site Sy C conj F call2).
Notation eval_site := (@eval_site site Sy C F call1).
Notation finalize := (@finalize_finite site dec leb C F junk).

Lemma triv_fd h s : WF dec Sy h -> (In s (map fst h) <-> read_site h s <> None).
Proof.
  intros W. rewrite <- (mem_true dec). rewrite <- (mem_read dec Sy conj). unfold to_fd. rewrite triv. reflexivity.
Qed.

Lemma main_C20 h ifaces pads s : reachable h -> finalize h ifaces pads = inl s ->
  StronglySorted (fun x y => leb x y = true) (s_sites s) /\ NoDup (s_sites s) /\
  (forall x, In x (s_sites s) <-> read_site h x <> None) /\
  (forall x k, lookup dec x (s_ids s) = Some k <-> nth_error (s_sites s) k = Some x) /\
  (forall i a, nth_error (s_sites s) i = Some a ->
     exists v, read_site h a = Some v /\ ham s i i = user site (eval_site v a)) /\
  (forall i j a b, i <> j -> nth_error (s_sites s) i = Some a -> nth_error (s_sites s) j = Some b ->
     ham s i j = match read_hop h a b with
                 | Some v => user site (eval_hop v a b)
                 | None => inr (FGraph site GEdge)
                 end) /\
  Forall2 (Forall2 (fun x k => nth_error (s_sites s) k = Some x)) ifaces (s_ifaces s) /\
  Forall2 (fun l ks => Forall2 (fun x k => nth_error (s_sites s) k = Some x)
         (filter (fun x => if in_dec dec x (s_sites s) then true else false) l) ks) pads (s_paddings s).
Proof.
  intros R E. pose proof (reach_WF L R) as W.
  destruct (@finite_main site dec leb Sy triv C F junk h ifaces pads W)
    as [(s' & E' & Hs & Hi & Ho & Hr & HI & HP)|(E' & _)]; [|congruence].
  assert (s' = s) by congruence. subst s'.
  assert (Hnd : NoDup (s_sites s)) by (rewrite Hs; apply NoDup_sort; apply W).
  split; [rewrite Hs; apply sort_sorted; auto|]. split; [auto|].
  split.
  { intros x. rewrite <- (triv_fd x W). rewrite Hs. split; intros H; (eapply Permutation_in; [|exact H]); [|symmetry]; apply sort_perm. }
  split; [intros x k; rewrite Hi; apply id_table_spec; auto|].
  split.
  { intros i a Ha. eapply ham_site; eauto. apply (wf_fd W). apply mem_true. apply nth_error_In in Ha.
    rewrite Hs in Ha. eapply Permutation_in; [apply sort_perm|exact Ha]. }
  split; [|split; auto].
  intros i j a b Hij Ha Hb. destruct (@ham_hop site dec Sy L C conj F call1 call2 h s _ i j a b W Hr Hij Ha Hb) as [H1 H2].
  rewrite Ha, Hb in H1, H2.
  assert (HG : read_hop h a b <> None <-> edge dec h a b <> None).
  { rewrite read_hop_vhop by auto. rewrite vhop_some_iff by auto. rewrite Eg_edge by auto. reflexivity. }
  destruct (read_hop h a b) as [v|] eqn:Er.
  - destruct H1 as (v' & Hv & Hh); [apply (proj1 HG); discriminate| |congruence].
    intros HN. assert (Hn2 : Eg dec Sy h a b = None) by (apply WF_Eg_None; auto; rewrite Eg_edge; auto).
    rewrite Eg_edge in Hn2 by auto. apply (proj1 HG); [discriminate|auto].
  - apply H2. rewrite <- HG. congruence.
Qed.

Lemma main_C20_total h ifaces pads : reachable h ->
  (forall l x, In l ifaces -> In x l -> read_site h x <> None) -> exists s, finalize h ifaces pads = inl s.
Proof.
  intros R H. pose proof (reach_WF L R) as W.
  destruct (@finite_main site dec leb Sy triv C F junk h ifaces pads W) as [(s' & E' & _)|(E' & l & x & H1 & H2 & H3)]; [eauto|].
  exfalso. apply (H l x H1 H2). destruct (read_site h x) eqn:E; auto.
  assert (HX : read_site h x <> None) by congruence. apply (triv_fd x W) in HX. rewrite <- (mem_true dec) in HX. congruence.
Qed.
Lemma main_C20_missing h ifaces pads l x : reachable h ->
  In l ifaces -> In x l -> read_site h x = None -> finalize h ifaces pads = inr (FValue site).
Proof.
  intros R H1 H2 H3. pose proof (reach_WF L R) as W.
  destruct (@finite_main site dec leb Sy triv C F junk h ifaces pads W) as [(s' & E' & Hs & _ & _ & _ & HI & _)|(E' & _)]; [|auto].
  exfalso. apply In_nth_error in H1. destruct H1 as (k & Hk). destruct (Forall2_nth _ HI Hk) as (ks & _ & HF).
  apply In_nth_error in H2. destruct H2 as (m & Hm). destruct (Forall2_nth _ HF Hm) as (n & _ & Hn).
  apply nth_error_In in Hn. rewrite Hs in Hn. assert (In x (map fst h)) by (eapply Permutation_in; [apply sort_perm|exact Hn]).
  apply (triv_fd x W) in H. auto.
Qed.
Lemma main_C20_herm h ifaces pads s i j : (forall c, conj (conj c) = c) -> reachable h ->
  finalize h ifaces pads = inl s -> i < length (s_sites s) -> j < length (s_sites s) -> i <> j ->
  ham s j i = match ham s i j with inl c => inl (conj c) | inr e => inr e end.
Proof.
  intros Hc R E Hi Hj Hij. destruct (@main_C20 h ifaces pads s R E) as (_ & _ & _ & _ & _ & H & _).
  destruct (nth_error (s_sites s) i) as [a|] eqn:Ea; [|apply nth_error_None in Ea; lia].
  destruct (nth_error (s_sites s) j) as [b|] eqn:Eb; [|apply nth_error_None in Eb; lia].
  rewrite (H i j a b), (H j i b a) by auto.
  pose proof (@main_C01 site dec Sy L C conj F h Hc R a b) as HC. rewrite HC.
  destruct (read_hop h a b) as [v|]; cbn [option_map]; auto.
  rewrite eval_hop_conj by auto. destruct (eval_hop v a b); reflexivity.
Qed.
End Fin.

Section Inf.
Variable site : Type.
Variable dec : forall a b : site, {a = b} + {a <> b}.
Variable leb : site -> site -> bool.
Hypothesis TO : total_order leb.
Variable Sy : Symmetry site.
Hypothesis L : SymLaws Sy.
Variable dom : site -> Z.
Variable tr : Z -> elt Sy.
Hypothesis OD : one_dim Sy dom tr.
Hypothesis inv : forall k a b, leb (act Sy (tr k) a) (act Sy (tr k) b) = leb a b.
Variable C : Type.
Variable conj : C -> C.
Variable F : Type.
Variable call1 : val C F -> site -> option C.
Variable call2 : F -> site -> site -> option C.
Variable junk : nat -> nat -> Z.
Notation store := (store site C F).
Notation read_site := (@read_site site dec Sy C conj F).
Notation read_hop := (@read_hop site dec Sy C conj F).
Notation reachable := (@reachable site dec Sy C F).
Notation WF := (@WF site dec Sy C F).
Notation ham_inf := (@ham_inf site Sy C conj F call1 call2).
Notation eval_hop := (@eval_hop site Sy C conj F call2).
Notation eval_site := (@eval_site site Sy C F call1).
Notation finalize := (@finalize_infinite site dec leb Sy C F junk dom tr).
Notation sh k := (act Sy (tr k)).
Notation connected := (@connected site dec Sy C conj F dom).
Notation nearest_cells := (@nearest_cells site dec Sy C conj F dom).
Notation correct_order := (@correct_order site dec Sy C conj F dom tr leb).

Lemma read_hop_Eg h a b : WF h -> (read_hop h a b <> None <-> Eg dec Sy h a b <> None).
Proof. intros W. rewrite read_hop_vhop by auto. apply vhop_some_iff; auto. Qed.
Lemma lw_connected h t : WF h -> (In t (lw dom h) <-> connected h t).
Proof.
  intros W. rewrite (in_lw dom t W). unfold SystemSpec.connected. split.
  - intros (x & He & Hd).
    assert (Ht : dom t = 0%Z).
    { apply (in_fd_dom L OD). apply (wf_fd W). destruct (edge dec h t x) eqn:E; [|congruence]. eapply edge_mem; eauto. }
    split; auto. exists x. split; auto. apply read_hop_Eg; auto. unfold Eg.
    rewrite (to_fd_dom L OD) by auto. auto.
  - intros (Ht & x & Hr & Hd). exists x. split; auto. apply read_hop_Eg in Hr; auto. unfold Eg in Hr.
    rewrite (to_fd_dom L OD) in Hr by auto. auto.
Qed.
Lemma near_iff h : WF h -> (near dec dom h <-> nearest_cells h).
Proof.
  intros W. split.
  - intros N a b Hr. apply read_hop_Eg in Hr; auto.
    rewrite <- (Eg_sh dec L tr h (- dom a) a b) in Hr. unfold Eg in Hr.
    rewrite (to_fd_dom L OD) in Hr by (rewrite (dom_sh L OD); lia). cbn in Hr.
    specialize (N _ _ Hr). rewrite (dom_sh L OD) in N. lia.
  - intros N t x He.
    assert (Ht : dom t = 0%Z).
    { apply (in_fd_dom L OD). apply (wf_fd W). destruct (edge dec h t x) eqn:E; [|congruence]. eapply edge_mem; eauto. }
    specialize (N t x). rewrite Ht in N. cut (Z.abs (0 - dom x) <= 1)%Z; [lia|]. apply N. apply read_hop_Eg; auto.
    unfold Eg. rewrite (to_fd_dom L OD) by auto. auto.
Qed.
Lemma sorted_map k l : StronglySorted (fun x y => leb x y = true) l -> StronglySorted (fun x y => leb x y = true) (map (sh k) l).
Proof.
  induction 1 as [|x l Hs IH Hf]; cbn; constructor; auto. rewrite Forall_forall in *. intros y Hy.
  apply in_map_iff in Hy. destruct Hy as (z & <- & Hz). rewrite inv. auto.
Qed.
Lemma NoDup_A h : WF h -> NoDup (lw (C:=C) (F:=F) dom h).
Proof.
  intros W. apply NoDup_appl with (lwo dom h). eapply Permutation_NoDup; [symmetry; apply part_perm|apply W].
Qed.
Lemma order_iff h o : WF h -> (order_valid leb Sy tr (lw dom h) (Some o) <-> correct_order h o).
Proof.
  intros W. unfold SystemSpec.correct_order. cbn [order_valid]. split.
  - intros (k & ->). split; [apply sorted_map, sort_sorted; auto|]. split.
    + apply FinFun.Injective_map_NoDup; [intros x y; apply (sh_inj L OD)|]. apply NoDup_sort, NoDup_A; auto.
    + exists k. intros t. rewrite <- (lw_connected _ W). rewrite in_map_iff. split.
      * intros (x & <- & H). rewrite (sh_add L OD). replace (-k + k)%Z with 0%Z by lia. rewrite (sh_0 L OD).
        eapply Permutation_in; [apply sort_perm|exact H].
      * intros H. exists (sh (-k) t). split; [rewrite (sh_add L OD); replace (k + -k)%Z with 0%Z by lia; apply (sh_0 L OD)|].
        eapply Permutation_in; [symmetry; apply sort_perm|exact H].
  - intros (Hs & Hn & k & Hk). exists k. apply (sorted_unique TO); auto.
    + apply NoDup_Permutation; auto.
      * apply FinFun.Injective_map_NoDup; [intros x y; apply (sh_inj L OD)|]. apply NoDup_sort, NoDup_A; auto.
      * intros t. rewrite Hk, <- (lw_connected _ W), in_map_iff. split.
        -- intros H. exists (sh (-k) t). split; [rewrite (sh_add L OD); replace (k + -k)%Z with 0%Z by lia; apply (sh_0 L OD)|].
           eapply Permutation_in; [symmetry; apply sort_perm|exact H].
        -- intros (x & <- & H). rewrite (sh_add L OD). replace (-k + k)%Z with 0%Z by lia. rewrite (sh_0 L OD).
           eapply Permutation_in; [apply sort_perm|exact H].
    + apply sorted_map, sort_sorted; auto.
Qed.

Lemma main_C21_accept h order : reachable h ->
  ((nearest_cells h /\ (forall o, order = Some o -> correct_order h o)) /\ exists s, finalize h order = inl s) \/
  (~ (nearest_cells h /\ (forall o, order = Some o -> correct_order h o)) /\ finalize h order = inr (FValue site)).
Proof.
  intros R. pose proof (reach_WF L R) as W.
  assert (HO : order_valid leb Sy tr (lw dom h) order <-> (forall o, order = Some o -> correct_order h o)).
  { destruct order as [o|]; [|split; [discriminate|intros; exact I]]. rewrite order_iff by auto. split.
    - intros H o' [= <-]. auto.
    - auto. }
  destruct (@infinite_main site dec leb TO Sy L dom tr OD inv C F junk h W order) as [(N & O & s & E & _)|(N & E)];
    rewrite (near_iff W), HO in N || rewrite (near_iff W) in N.
  - left. rewrite HO in O. split; auto. eauto.
  - right. auto.
Qed.

Lemma main_C21 h order s : reachable h -> finalize h order = inl s ->
  exists A B, s_sites s = A ++ B ++ map (sh (-1)) A /\ s_cell s = length A + length B /\
    NoDup (s_sites s) /\
    StronglySorted (fun x y => leb x y = true) A /\ StronglySorted (fun x y => leb x y = true) B /\
    (forall t, In t A <-> connected h t) /\
    (forall t, In t B <-> dom t = 0%Z /\ read_site h t <> None /\ ~ connected h t) /\
    (forall x k, lookup dec x (s_ids s) = Some k <-> nth_error (s_sites s) k = Some x) /\
    (forall i a, nth_error (s_sites s) i = Some a ->
       exists v, read_site h a = Some v /\ ham_inf s i i = user site (eval_site v a)) /\
    (forall i j a b, i <> j -> nth_error (s_sites s) i = Some a -> nth_error (s_sites s) j = Some b ->
       ham_inf s i j =
         if (s_cell s <=? i) && (s_cell s <=? j) then inr (FGraph site GEdge) else
         match read_hop h a b with
         | Some v => user site (eval_hop v a b)
         | None => inr (FGraph site GEdge)
         end).
Proof.
  intros R E. pose proof (reach_WF L R) as W.
  destruct (@infinite_main site dec leb TO Sy L dom tr OD inv C F junk h W order) as [(N & O & s' & E' & Hs & Hc & Hi & Ho & Hr)|(N & E')]; [|congruence].
  assert (s' = s) by congruence. subst s'. exists (A leb dom h), (B leb dom h).
  rewrite Hs, Hc. unfold ham_inf. rewrite Hc.
  split; [reflexivity|]. split; [rewrite <- app_length; apply cell_AB|]. split; [apply (NoDup_sites leb L OD W)|].
  split; [apply sort_sorted; auto|]. split; [apply sort_sorted; auto|].
  split; [intros t; rewrite (in_A leb dom); apply lw_connected; auto|].
  split.
  { intros t. rewrite <- (lw_connected _ W).
    assert (HB : In t (B leb dom h) <-> In t (lwo dom h)).
    { split; intros H; (eapply Permutation_in; [|exact H]); [|symmetry]; apply sort_perm. }
    rewrite HB. 
    assert (HM : In t (map fst h) <-> dom t = 0%Z /\ read_site h t <> None).
    { rewrite <- (mem_true dec). rewrite <- (mem_read dec Sy conj). split.
      - intros H. pose proof (wf_fd W _ H) as Hf. rewrite (to_fd_id L) by auto. split; auto. apply (in_fd_dom L OD). auto.
      - intros [Hd H]. rewrite (to_fd_id L) in H; auto. apply (in_fd_dom L OD). auto. }
    pose proof (part_perm dom h) as P.
    assert (Hnd : NoDup (lw dom h ++ lwo dom h)) by (eapply Permutation_NoDup; [symmetry; apply P|apply W]).
    split.
    - intros H. rewrite <- and_assoc, <- HM. split; [eapply Permutation_in; [apply P|]; apply in_or_app; auto|].
      intros H2. revert H H2 Hnd. clear. induction (lw dom h) as [|x l IH]; intros H [] Hn; cbn in Hn; inversion Hn; subst.
      + apply H3. apply in_or_app. auto.
      + auto.
    - rewrite <- and_assoc, <- HM. intros [H1 H2]. symmetry in P. apply (Permutation_in _ P) in H1. apply in_app_or in H1. tauto. }
  split; [intros x k; rewrite Hi; apply id_table_spec; apply (NoDup_sites leb L OD W)|].
  assert (Hlow : forall i a, i < cell dom h -> nth_error (ssites leb Sy dom tr h) i = Some a ->
     exists v, read_site h a = Some v /\ ham Sy conj call1 call2 s i i = user site (eval_site v a)).
  { intros i a Hlt Ha. eapply ham_site; eauto.
    - rewrite Hs. auto.
    - rewrite <- (firstn_cell leb Sy dom tr h). rewrite nth_error_firstn_lt; auto.
    - apply (in_fd_dom L OD). pose proof (nth_dom leb L OD W i Ha) as Hd. destruct (Nat.ltb_spec i (cell dom h)); [auto|lia]. }
  split.
  { intros i a Ha. rewrite Nat.eqb_refl. cbn [andb]. destruct (Nat.leb_spec (cell dom h) i) as [Hge|Hlt].
    - destruct (nth_ge leb Sy dom tr h Hge Ha) as (s0 & H0 & ->).
      assert (H0' : nth_error (ssites leb Sy dom tr h) (i - cell dom h) = Some s0).
      { unfold ssites. rewrite nth_error_app1; auto. apply nth_error_Some. congruence. }
      assert (Hlt : i - cell dom h < cell dom h).
      { pose proof (cell_AB leb dom h) as Hcell. rewrite app_length in Hcell.
        assert (i - cell dom h < length (A leb dom h)) by (apply nth_error_Some; congruence). lia. }
      destruct (Hlow _ _ Hlt H0') as (v & Hv & Hh). exists v. rewrite eval_site_act by auto. split; auto.
      rewrite <- Hv. unfold BuilderSpec.read_site. f_equal. apply main_C03_site. auto.
    - apply Hlow; auto. }
  intros i j a b Hij Ha Hb. destruct (Nat.eqb_spec i j); [contradiction|]. cbn [andb].
  rewrite <- Hs in Ha, Hb.
  destruct (@ham_hop site dec Sy L C conj F call1 call2 h s _ i j a b W Hr Hij Ha Hb) as [H1 H2].
  rewrite Hs in Ha, Hb. rewrite Ha, Hb in H1, H2.
  destruct (Nat.leb_spec (cell dom h) i); destruct (Nat.leb_spec (cell dom h) j); cbn [andb]; [apply H2; lia| | |].
  all: pose proof (@read_hop_Eg h a b W) as HG; destruct (read_hop h a b) as [v|] eqn:Er;
    [|apply H2; rewrite <- HG; tauto].
  all: destruct H1 as (v' & Hv & Hh); [split; [apply (proj1 HG); discriminate|lia]| |congruence].
  all: split; [|lia]; intros HN; apply (WF_Eg_None L _ _ W) in HN; apply (proj1 HG); [discriminate|auto].
Qed.
End Inf.
