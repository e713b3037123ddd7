(** * Proofs for finalization (C20, C21). *)
From Coq Require Import List Bool Arith ZArith Lia Sorting.Sorted Permutation.
From Verif Require Import BuilderModel BuilderProofs BuilderInv BuilderSpec BuilderMain
  GraphModel CountingSort GraphProofs GraphSpec GraphMain GraphProps SystemModel SystemSpec.
Import ListNotations.
Set Implicit Arguments.

(** ** Sorting *)
Section Sort.
Variable A : Type.
Variable leb : A -> A -> bool.
Hypothesis TO : total_order leb.
Notation le x y := (leb x y = true).

Lemma insert_perm x l : Permutation (insert leb x l) (x :: l).
Proof.
  induction l as [|y l IH]; cbn; auto. destruct (leb x y); auto.
  rewrite IH. apply perm_swap.
Qed.
Lemma sort_perm l : Permutation (sort leb l) l.
Proof. induction l as [|x l IH]; cbn; auto. rewrite insert_perm, IH. reflexivity. Qed.
Lemma insert_sorted x l : StronglySorted (fun x y => le x y) l -> StronglySorted (fun x y => le x y) (insert leb x l).
Proof.
  induction 1 as [|y l Hs IH Hf]; cbn.
  - constructor; constructor.
  - destruct (leb x y) eqn:E.
    + constructor; [constructor; auto|]. constructor; auto.
      eapply Forall_impl; [|exact Hf]. intros z Hz. eapply to_trans; eauto.
    + constructor; auto. eapply Permutation_Forall; [symmetry; apply insert_perm|]. constructor; auto.
      destruct (to_total TO x y); congruence.
Qed.
Lemma sort_sorted l : StronglySorted (fun x y => le x y) (sort leb l).
Proof. induction l; cbn; [constructor|apply insert_sorted; auto]. Qed.

Lemma sorted_unique l l' : Permutation l l' -> StronglySorted (fun x y => le x y) l ->
  StronglySorted (fun x y => le x y) l' -> l = l'.
Proof.
  intros Hp Hs. revert l' Hp. induction Hs as [|x l Hs IH Hf]; intros l' Hp Hs'.
  - apply Permutation_nil in Hp. auto.
  - destruct l' as [|y l']; [symmetry in Hp; apply Permutation_nil in Hp; discriminate|].
    inversion Hs' as [|? ? Hs1 Hf1]; subst. rewrite Forall_forall in Hf, Hf1.
    assert (x = y).
    { assert (Hx : In x (y :: l')) by (eapply Permutation_in; [exact Hp|left; auto]).
      assert (Hy : In y (x :: l)) by (eapply Permutation_in; [symmetry; exact Hp|left; auto]).
      destruct Hx as [|Hx]; auto. destruct Hy as [|Hy]; auto. apply (to_anti TO); auto. }
    subst y. f_equal. apply IH; auto. eapply Permutation_cons_inv; eauto.
Qed.
Lemma sort_map (f : A -> A) l : (forall x y, leb (f x) (f y) = leb x y) ->
  sort leb (map f l) = map f (sort leb l).
Proof.
  intros Hf. induction l as [|x l IH]; cbn; auto. rewrite IH. clear IH.
  generalize (sort leb l). intros m. induction m as [|y m IHm]; cbn; auto.
  rewrite Hf. destruct (leb x y); cbn; auto. rewrite IHm. reflexivity.
Qed.
End Sort.

(** ** id_by_site *)
Section Ids.
Variable site : Type.
Variable dec : forall a b : site, {a = b} + {a <> b}.

Lemma id_fold_notin l : forall a d s, ~ In s l ->
  lookup dec s (fold_left (fun d p => assign dec (fst p) (snd p) d) (combine l (seq a (length l))) d) = lookup dec s d.
Proof.
  induction l as [|x l IH]; intros a d s Hs; [reflexivity|].
  cbn [length seq combine fold_left fst snd]. rewrite IH by (intros H; apply Hs; right; auto).
  rewrite lookup_assign, eqb_neq; [reflexivity|]. intros ->. apply Hs. left; auto.
Qed.
Lemma id_fold_in l : forall a d k s, NoDup l -> nth_error l k = Some s ->
  lookup dec s (fold_left (fun d p => assign dec (fst p) (snd p) d) (combine l (seq a (length l))) d) = Some (a + k).
Proof.
  induction l as [|x l IH]; intros a d k s Hn Hk; [destruct k; discriminate|].
  inversion Hn; subst. cbn [length seq combine fold_left fst snd]. destruct k as [|k]; cbn in Hk.
  - injection Hk as ->. rewrite id_fold_notin by auto. rewrite lookup_assign, eqb_refl. f_equal. lia.
  - rewrite (IH _ _ k) by auto. f_equal. lia.
Qed.
Lemma id_table_spec l s k : NoDup l -> lookup dec s (id_table dec l) = Some k <-> nth_error l k = Some s.
Proof.
  intros Hn. unfold id_table. split.
  - intros H. destruct (in_dec dec s l) as [Hi|Hi].
    + destruct (In_nth_error _ _ Hi) as (j & Hj). rewrite (@id_fold_in l 0 [] j s Hn Hj) in H. injection H as <-. auto.
    + rewrite id_fold_notin in H by auto. discriminate.
  - intros H. rewrite (@id_fold_in l 0 [] k s Hn H). reflexivity.
Qed.
Lemma id_table_None l s : NoDup l -> lookup dec s (id_table dec l) = None <-> ~ In s l.
Proof.
  intros Hn. split.
  - intros H Hi. destruct (In_nth_error _ _ Hi) as (k & Hk). apply (@id_table_spec l s k) in Hk; auto. congruence.
  - intros H. unfold id_table. rewrite id_fold_notin; auto.
Qed.
End Ids.

Lemma fmap_ok {S A B} (f : A -> fres S B) (h : A -> B) l : (forall x, In x l -> f x = inl (h x)) -> fmap f l = inl (map h l).
Proof.
  intros H. induction l as [|x l IH]; auto. cbn. rewrite (H x) by (left; auto). cbn.
  rewrite IH by (intros; apply H; right; auto). reflexivity.
Qed.

(** ** Building the graph *)
Definition zpair (p : nat * nat) : Z * Z := (Z.of_nat (fst p), Z.of_nat (snd p)).
Definition built (N : nat) (es : list (nat * nat)) (g : graph) : Prop :=
  greach g /\ allow_negative_nodes g = false /\ num_nodes g = Z.of_nat N /\ edges g = map zpair es /\
  forall p, In p es -> fst p < N /\ snd p < N.

Lemma built_start (S : Type) N : exists g, start_graph S N = inl g /\ built N [] g.
Proof.
  unfold start_graph. pose proof (gr_set _ (Z.of_nat N) (gr_new false)) as R.
  unfold set_num_nodes in *. cbn [new_graph num_nodes] in *. destruct (Z.ltb_spec (Z.of_nat N) 0); [lia|].
  eexists. split; [reflexivity|]. split; [exact R|]. do 3 (split; [solve [auto]|]). intros p [].  
Qed.
Lemma built_add (S : Type) N es g t h : built N es g -> t < N -> h < N ->
  exists g', add_edge_f (inl g : fres S graph) t h = inl g' /\ built N (es ++ [(t, h)]) g'.
Proof.
  intros (R & Ha & Hn & He & Hb) Ht Hh. unfold add_edge_f. cbn [fbind].
  pose proof (gr_add _ (Z.of_nat t) (Z.of_nat h) R) as R'. unfold add_edge in *.
  destruct (Z.ltb_spec (Z.of_nat t) 0); [lia|]. destruct (Z.ltb_spec (Z.of_nat h) 0); [lia|]. cbn [orb andb] in *.
  eexists. split; [reflexivity|]. split; [exact R'|]. cbn [allow_negative_nodes num_nodes edges].
  split; [auto|]. split; [lia|]. split; [rewrite He, map_app; reflexivity|].
  intros p Hp. apply in_app_or in Hp. destruct Hp as [Hp|[<-|[]]]; auto.
Qed.

(** lookup of edge values in the compressed graph *)
Lemma edge_at_nth L id e : edge_at L id = Some e -> (id <? 0)%Z = false /\ nth_error L (Z.to_nat id) = Some e.
Proof. unfold edge_at. destruct (id <? 0)%Z; [discriminate|auto]. Qed.
Lemma built_values junk N es g (S B : Type) (f : Z * Z -> fres S B) (val : Z * Z -> B) :
  built N es g -> (forall p, In p es -> f (zpair p) = inl (val (zpair p))) ->
  exists c L, compressed junk g false false false = inl c /\ iter_edges c = inl L /\
    fmap f L = inl (map val L) /\
    (forall i j, i < N -> j < N ->
       (In (i, j) es -> exists id, first_edge_id c (Z.of_nat i) (Z.of_nat j) = inl id /\
          (id <? 0)%Z = false /\ nth_error (map val L) (Z.to_nat id) = Some (val (Z.of_nat i, Z.of_nat j))) /\
       (~ In (i, j) es -> first_edge_id c (Z.of_nat i) (Z.of_nat j) = inr GEdge)).
Proof.
  intros (R & Ha & Hn & He & Hb) Hf.
  assert (Hnn : ~ neg_tail g).
  { intros (t & h & Hi & Ht). rewrite He in Hi. apply in_map_iff in Hi. destruct Hi as (p & Hp & _).
    unfold zpair in Hp. injection Hp as <- <-. lia. }
  destruct (@C16_compress junk g false false false R) as [(_ & _ & _ & H)|(c & Hc & _)]; [contradiction|].
  destruct (@C16_id_order g false R) as (L & HL & _).
  exists c, L. split; [auto|]. split; [apply (@C16_iteration junk g false false false R c Hc L HL); auto|].
  assert (HLE : forall e, In e L <-> In e (edges g)).
  { intros e. transitivity (In e (filter (kept false) (edges g))).
    - split; intros H; (eapply Permutation_in; [|exact H]); [|symmetry]; apply (io_perm _ _ _ HL).
    - rewrite filter_In. split; [tauto|]. intros H. split; auto. rewrite He in H. apply in_map_iff in H.
      destruct H as (p & <- & _). unfold kept, zpair. cbn. apply Z.leb_le. lia. }
  split.
  { apply fmap_ok. intros e Hi. apply HLE in Hi. rewrite He in Hi. apply in_map_iff in Hi. destruct Hi as (p & <- & Hp). auto. }
  intros i j Hi Hj.
  destruct (@C17_lookup junk g false false false R c Hc L HL (Z.of_nat i) (Z.of_nat j)) as (ids & [_ H1] & _ & _ & ->); try lia.
  assert (Hin : In (i, j) es <-> exists id, edge_at L id = Some (Z.of_nat i, Z.of_nat j)).
  { transitivity (In (Z.of_nat i, Z.of_nat j) L).
    - rewrite HLE, He, in_map_iff. split.
      + intros H. exists (i, j). auto.
      + intros ([a b] & Hp & H). unfold zpair in Hp. cbn in Hp. injection Hp as Hp1 Hp2.
        apply Nat2Z.inj in Hp1, Hp2. congruence.
    - split.
      + intros H. apply In_nth_error in H. destruct H as (k & Hk). exists (Z.of_nat k). unfold edge_at.
        destruct (Z.ltb_spec (Z.of_nat k) 0); [lia|]. rewrite Nat2Z.id. auto.
      + intros (id & H). apply edge_at_nth in H. destruct H as [_ H]. eapply nth_error_In; eauto. }
  split.
  - intros H. apply Hin in H. destruct H as (id & H). apply H1 in H. destruct ids as [|id0 ids]; [destruct H|].
    exists id0. split; auto. assert (H0 : In id0 (id0 :: ids)) by (left; auto). apply H1 in H0.
    apply edge_at_nth in H0. destruct H0 as [H0 H2]. split; auto. apply map_nth_error. auto.
  - intros H. destruct ids as [|id0 ids]; auto. exfalso. apply H. apply Hin. exists id0. apply H1. left; auto.
Qed.

(** ** hamiltonian(i, j) from the stored entries *)
Section Ham.
Variable site : Type.
Variable dec : forall a b : site, {a = b} + {a <> b}.
Variable leb : site -> site -> bool.
Hypothesis TO : total_order leb.
Variable Sy : Symmetry site.
Hypothesis L : SymLaws Sy.
Variable C : Type.
Variable conj : C -> C.
Variable F : Type.
Variable call1 : val C F -> site -> option C.
Variable call2 : F -> site -> site -> option C.
Variable junk : nat -> nat -> Z.
Notation store := (store site C F).
Notation read_site := (@read_site site dec Sy C conj F).
Notation read_hop := (@read_hop site dec Sy C conj F).
Notation reachable := (@reachable site dec Sy C F).
Notation Eg := (@Eg site dec Sy C F).
Notation edge := (@BuilderInv.edge site dec C F).
Notation WF := (@WF site dec Sy C F).
Notation ham := (@ham site Sy C conj F call1 call2).
Notation eval_hop := (@eval_hop site Sy C conj F call2).
Notation eval_site := (@eval_site site Sy C F call1).

Lemma nth_site_ok l i (s : site) : nth_error l i = Some s -> nth_site l (Z.of_nat i) = inl s.
Proof. intros H. unfold nth_site. destruct (Z.ltb_spec (Z.of_nat i) 0); [lia|]. rewrite Nat2Z.id, H. reflexivity. Qed.

(** [G i j]: the graph has edge (i, j), with value the builder's entry *)
Definition rep (h : store) (s : system site C F) (G : nat -> nat -> Prop) : Prop :=
  forall i j a b, i <> j -> nth_error (s_sites s) i = Some a -> nth_error (s_sites s) j = Some b ->
  (G i j -> exists id v, first_edge_id (s_graph s) (Z.of_nat i) (Z.of_nat j) = inl id /\
      nth_hop site (s_hoppings s) id = inl v /\ Eg h a b = Some v) /\
  (~ G i j -> first_edge_id (s_graph s) (Z.of_nat i) (Z.of_nat j) = inr GEdge).

Lemma ham_hop h s G i j a b : WF h -> rep h s G -> i <> j ->
  nth_error (s_sites s) i = Some a -> nth_error (s_sites s) j = Some b ->
  (G i j -> G j i -> exists v, read_hop h a b = Some v /\ ham s i j = user site (eval_hop v a b)) /\
  (~ G i j -> ham s i j = inr (FGraph site GEdge)).
Proof.
  intros W R Hij Ha Hb. unfold SystemModel.ham. destruct (Nat.eqb_spec i j); [contradiction|].
  destruct (R i j a b Hij Ha Hb) as [R1 R2]. destruct (R j i b a (not_eq_sym Hij) Hb Ha) as [R3 _].
  split.
  - intros G1 G2. destruct (R1 G1) as (id & v & E1 & E2 & E3). destruct (R3 G2) as (id' & v' & F1 & F2 & F3).
    rewrite E1. cbn [of_g fbind]. rewrite E2. cbn [fbind].
    assert (Hv : exists v0, Eg h b a = Some v0 /\ compl v v0).
    { unfold BuilderInv.Eg in E3. destruct (wf_pair W _ _ E3) as (v0 & H1 & H2). exists v0. split; auto.
      rewrite <- H1. unfold BuilderInv.Eg. f_equal; f_equal; unfold to_fd2; cbn [fst snd];
        rewrite <- (to_fd2_act L (eneg Sy (which Sy a)) b a) || idtac.
      all: pose proof (to_fd2_act L (eneg Sy (which Sy a)) b a) as Hq; unfold to_fd2 in Hq; cbn [fst snd] in Hq; congruence. }
    destruct Hv as (v0 & Hv0 & Hc). assert (v0 = v') by congruence. subst v0.
    rewrite read_hop_vhop by auto. unfold vhop. rewrite E3, F3.
    destruct Hc as [[-> (w & -> & Hw)]|[-> (w & -> & Hw)]].
    + rewrite F1. cbn [of_g fbind]. rewrite F2. cbn [fbind].
      rewrite (nth_site_ok _ _ Hb), (nth_site_ok _ _ Ha). cbn [fbind].
      unfold to_fd2. destruct w as [c|f|f]; cbn in Hw; [| |contradiction]; cbn [call_hop user fbind].
      * exists (VConst _ (conj c)). split; reflexivity.
      * exists (VHC _ f). split; [reflexivity|]. cbn [SystemSpec.eval_hop].
        destruct (call2 f _ _); reflexivity.
    + rewrite (nth_site_ok _ _ Hb), (nth_site_ok _ _ Ha). cbn [fbind]. unfold to_fd2.
      exists w. split; [reflexivity|]. destruct w as [c|f|f]; cbn in Hw; [| |contradiction]; reflexivity.
  - intros G1. rewrite (R2 G1). reflexivity.
Qed.
End Ham.
