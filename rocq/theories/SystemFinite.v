(** * Finalization of finite systems (C20). *)
From Coq Require Import List Bool Arith ZArith Lia Sorting.Sorted Permutation.
From Verif Require Import BuilderModel BuilderProofs BuilderInv BuilderReach BuilderSpec BuilderMain
  GraphModel CountingSort GraphProofs GraphSpec GraphMain GraphProps SystemModel SystemSpec SystemProofs.
Import ListNotations.
Set Implicit Arguments.

Lemma fold_built (S X : Type) N (step : fres S graph -> X -> fres S graph) (c : X -> list (nat * nat)) l :
  (forall x g es, In x l -> built N es g -> exists g', step (inl g) x = inl g' /\ built N (es ++ c x) g') ->
  forall g es, built N es g -> exists g', fold_left step l (inl g) = inl g' /\ built N (es ++ flat_map c l) g'.
Proof.
  induction l as [|x l IH]; intros H g es B.
  - exists g. cbn. rewrite app_nil_r. auto.
  - destruct (H x g es) as (g1 & E1 & B1); [left; auto|auto|].
    destruct (IH (fun y g es Hy => H y g es (or_intror Hy)) g1 _ B1) as (g2 & E2 & B2).
    exists g2. cbn [fold_left flat_map]. rewrite E1, app_assoc. auto.
Qed.

Lemma fmap_ex (S A B : Type) (f : A -> fres S B) l : (forall x, In x l -> exists y, f x = inl y) ->
  exists ys, fmap f l = inl ys /\ Forall2 (fun x y => f x = inl y) l ys.
Proof.
  induction l as [|x l IH]; intros H; [exists []; cbn; auto|].
  destruct (H x (or_introl eq_refl)) as (y & Hy). destruct IH as (ys & E & HF); [intros; apply H; right; auto|].
  exists (y :: ys). cbn. rewrite Hy. cbn. rewrite E. cbn. auto.
Qed.
Lemma fmap_inv (S A B : Type) (f : A -> fres S B) l ys : fmap f l = inl ys -> Forall2 (fun x y => f x = inl y) l ys.
Proof.
  revert ys. induction l as [|x l IH]; intros ys; cbn; [intros [= <-]; constructor|].
  destruct (f x) eqn:E; cbn; [|discriminate]. destruct (fmap f l); cbn; [|discriminate]. intros [= <-]. constructor; auto.
Qed.
Lemma Forall2_nth (A B : Type) (R : A -> B -> Prop) l l' k x : Forall2 R l l' -> nth_error l k = Some x ->
  exists y, nth_error l' k = Some y /\ R x y.
Proof.
  intros H. revert k. induction H as [|a b l l' Hab H IH]; intros k Hk; [destruct k; discriminate|].
  destruct k as [|k]; cbn in Hk |- *; [injection Hk as <-; eauto|auto].
Qed.

Section Finite.
Variable site : Type.
Variable dec : forall a b : site, {a = b} + {a <> b}.
Variable leb : site -> site -> bool.
Hypothesis TO : total_order leb.
Variable Sy : Symmetry site.
Hypothesis L : SymLaws Sy.
Hypothesis triv : forall g s, act Sy g s = s.
Variable C : Type.
Variable conj : C -> C.
Variable F : Type.
Variable call1 : val C F -> site -> option C.
Variable call2 : F -> site -> site -> option C.
Variable junk : nat -> nat -> Z.
Notation store := (store site C F).
Notation read_site := (@read_site site dec Sy C conj F).
Notation read_hop := (@read_hop site dec Sy C conj F).
Notation Eg := (@Eg site dec Sy C F).
Notation edge := (@BuilderInv.edge site dec C F).
Notation WF := (@WF site dec Sy C F).
Notation ham := (@ham site Sy C conj F call1 call2).
Notation eval_hop := (@eval_hop site Sy C conj F call2).
Notation eval_site := (@eval_site site Sy C F call1).
Notation finalize := (@finalize_finite site dec leb C F junk).

Lemma NoDup_sort l : NoDup l -> NoDup (sort leb l).
Proof. intros H. eapply Permutation_NoDup; [symmetry; apply sort_perm|auto]. Qed.

Definition idx (ids : list (site * nat)) (s : site) : nat :=
  match lookup dec s ids with Some k => k | None => 0 end.

Lemma lookup_In_node (h : store) t nd : NoDup (map fst h) -> In (t, nd) h -> lookup dec t h = Some nd.
Proof.
  induction h as [|[t' nd'] h IH]; intros Hn Hi; [destruct Hi|]. cbn in Hn. inversion Hn; subst.
  cbn [lookup]. destruct Hi as [E|Hi].
  - injection E as -> ->. rewrite eqb_refl. reflexivity.
  - rewrite eqb_neq; auto. intros ->. apply H1. apply in_map_iff. exists (t', nd); auto.
Qed.
Lemma lookup_node_In (h : store) t nd : lookup dec t h = Some nd -> In (t, nd) h.
Proof.
  induction h as [|[t' nd'] h IH]; cbn [lookup]; [discriminate|].
  unfold eqb. destruct (dec t t'); intros H; [injection H as ->; subst; left; auto|right; auto].
Qed.
Lemma lookup_out_In A (l : list (site * A)) x v : lookup dec x l = Some v -> In (x, v) l.
Proof.
  induction l as [|[t' nd'] l IH]; cbn [lookup]; [discriminate|].
  unfold eqb. destruct (dec x t'); intros H; [injection H as ->; subst; left; auto|right; auto].
Qed.
Lemma In_lookup_out A (l : list (site * A)) x v : In (x, v) l -> exists v', lookup dec x l = Some v'.
Proof.
  induction l as [|[t' nd'] l IH]; cbn [lookup]; intros H; [destruct H|].
  unfold eqb. destruct (dec x t'); [eauto|]. destruct H as [E|H]; [congruence|auto].
Qed.

Lemma Eg_edge h a b : Eg h a b = edge h a b.
Proof. unfold BuilderInv.Eg, to_fd2. cbn [fst snd]. rewrite !triv. reflexivity. Qed.

Definition node_edges (ids : list (site * nat)) (p : site * node site C F) : list (nat * nat) :=
  flat_map (fun hv => [(idx ids (fst p), idx ids (fst hv))]) (outs (snd p)).

Lemma finite_graph h : WF h -> let sites := sort leb (map fst h) in let ids := id_table dec sites in
  exists g, fold_left (finite_node dec ids) h (start_graph site (length sites)) = inl g /\
    built (length sites) (flat_map (node_edges ids) h) g.
Proof.
  intros W sites ids. destruct (built_start site (length sites)) as (g0 & -> & B0).
  assert (Hnd : NoDup sites) by (apply NoDup_sort; apply W).
  assert (Hin : forall s, In s (map fst h) -> exists k, lookup dec s ids = Some k /\ k < length sites).
  { intros s Hs. assert (Hs' : In s sites) by (eapply Permutation_in; [symmetry; apply sort_perm|auto]).
    apply In_nth_error in Hs'. destruct Hs' as (k & Hk). exists k. split; [apply id_table_spec; auto|].
    apply nth_error_Some. congruence. }
  change (flat_map (node_edges ids) h) with ([] ++ flat_map (node_edges ids) h).
  apply fold_built; auto. intros [t nd] g es Hi B. unfold finite_node, node_edges. cbn [fst snd].
  apply fold_built; auto. intros [x v] g1 es1 Hx B1. cbn [fst].
  assert (Ht : lookup dec t h = Some nd) by (apply lookup_In_node; auto; apply W).
  destruct (In_lookup_out _ _ _ Hx) as (v' & Hv').
  assert (He : edge h t x = Some v') by (unfold BuilderInv.edge; rewrite Ht; auto).
  destruct (dec t x) as [->|Hne].
  { pose proof (wf_irr W x). congruence. }
  assert (Hmx : In x (map fst h)).
  { rewrite <- (mem_true dec). destruct (wf_pair W _ _ He) as (v0 & H0 & _). rewrite Eg_edge in H0. eapply edge_mem; eauto. }
  destruct (Hin t) as (kt & Hkt & Hlt); [apply in_map_iff; exists (t, nd); auto|].
  destruct (Hin x Hmx) as (kx & Hkx & Hlx).
  unfold find_id. cbn [fbind]. rewrite Hkt, Hkx. cbn [fbind]. unfold idx. rewrite Hkt, Hkx.
  apply built_add; auto.
Qed.

Lemma node_edges_iff h i j a b : WF h -> let sites := sort leb (map fst h) in let ids := id_table dec sites in
  nth_error sites i = Some a -> nth_error sites j = Some b ->
  In (i, j) (flat_map (node_edges ids) h) <-> edge h a b <> None.
Proof.
  intros W sites ids Ha Hb.
  assert (Hnd : NoDup sites) by (apply NoDup_sort; apply W).
  assert (Hin : forall s, In s (map fst h) -> nth_error sites (idx ids s) = Some s).
  { intros s Hs. assert (Hs' : In s sites) by (eapply Permutation_in; [symmetry; apply sort_perm|auto]).
    apply In_nth_error in Hs'. destruct Hs' as (k & Hk). unfold idx, ids.
    rewrite (proj2 (id_table_spec dec s k Hnd) Hk). auto. }
  assert (Hx : forall k s, nth_error sites k = Some s -> idx ids s = k).
  { intros k s Hk. unfold idx, ids. rewrite (proj2 (id_table_spec dec s k Hnd) Hk). auto. }
  rewrite in_flat_map. split.
  - intros ([t nd] & Hi & H). unfold node_edges in H. cbn [fst snd] in H. apply in_flat_map in H.
    destruct H as ([x v] & Hxv & [E|[]]). cbn [fst] in E. injection E as <- <-.
    assert (Ht : lookup dec t h = Some nd) by (apply lookup_In_node; auto; apply W).
    destruct (In_lookup_out _ _ _ Hxv) as (v' & Hv').
    assert (He : edge h t x = Some v') by (unfold BuilderInv.edge; rewrite Ht; auto).
    assert (Hmt : In t (map fst h)) by (apply in_map_iff; exists (t, nd); auto).
    assert (Hmx : In x (map fst h)).
    { rewrite <- (mem_true dec). destruct (wf_pair W _ _ He) as (v0 & H0 & _). rewrite Eg_edge in H0. eapply edge_mem; eauto. }
    apply Hin in Hmt, Hmx. congruence.
  - intros He. unfold BuilderInv.edge in He. destruct (lookup dec a h) as [nd|] eqn:Ht; [|congruence].
    destruct (lookup dec b (outs nd)) as [v|] eqn:Hv; [|congruence].
    exists (a, nd). split; [apply lookup_node_In; auto|]. unfold node_edges. cbn [fst snd]. apply in_flat_map.
    exists (b, v). split; [apply lookup_out_In; auto|]. left. cbn [fst]. rewrite (Hx _ _ Ha), (Hx _ _ Hb). auto.
Qed.

Lemma fmap_find (sites l : list site) ids : ids = id_table dec sites -> NoDup sites ->
  (forall s, In s l -> In s sites) ->
  exists ks, fmap (find_id dec ids) l = inl ks /\ Forall2 (fun s k => nth_error sites k = Some s) l ks.
Proof.
  intros -> Hn. induction l as [|s l IH]; intros H.
  - exists []. cbn. auto.
  - destruct IH as (ks & E & HF); [intros; apply H; right; auto|].
    destruct (In_nth_error _ _ (H s (or_introl eq_refl))) as (k & Hk).
    exists (k :: ks). cbn [fmap]. unfold find_id at 1. rewrite (proj2 (id_table_spec dec s k Hn) Hk). cbn [fbind].
    rewrite E. cbn. auto.
Qed.
Lemma fmap_find_None (sites l : list site) s : NoDup sites -> In s l -> ~ In s sites ->
  fmap (find_id dec (id_table dec sites)) l = inr (FKey site).
Proof.
  intros Hn Hs Hns. induction l as [|x l IH]; [destruct Hs|]. cbn [fmap]. unfold find_id at 1.
  destruct (lookup dec x (id_table dec sites)) eqn:E; [|reflexivity]. cbn [fbind].
  rewrite IH; [reflexivity|]. destruct Hs as [->|]; auto. exfalso.
  apply (id_table_spec dec s n Hn) in E. apply Hns. eapply nth_error_In; eauto.
Qed.
Lemma fmap_find_cases (sites l : list site) : NoDup sites ->
  (exists s, In s l /\ ~ In s sites) \/ (forall s, In s l -> In s sites).
Proof.
  intros Hn. induction l as [|x l IH]; [right; intros s []|].
  destruct IH as [(s & H1 & H2)|IH]; [left; exists s; split; [right|]; auto|].
  destruct (in_dec dec x sites); [right; intros s [<-|]; auto|left; exists x; split; [left|]; auto].
Qed.

Lemma fmap_ifaces (sites : list site) ifaces : NoDup sites ->
  let r := fmap (fun l => match fmap (find_id dec (id_table dec sites)) l with
                        | inr (FKey _) => inr (FValue site) | r => r end) ifaces in
  (exists ifs, r = inl ifs /\ Forall2 (Forall2 (fun s k => nth_error sites k = Some s)) ifaces ifs) \/
  (r = inr (FValue site) /\ exists l s, In l ifaces /\ In s l /\ ~ In s sites).
Proof.
  intros Hn. induction ifaces as [|l ifaces IH]; cbn [fmap].
  - left. exists []. auto.
  - destruct (@fmap_find_cases sites l Hn) as [(s & H1 & H2)|H].
    + right. rewrite (@fmap_find_None sites l s) by auto. split; [reflexivity|]. exists l, s. split; [left|]; auto.
    + destruct (@fmap_find sites l _ eq_refl Hn H) as (ks & E & HF). rewrite E. cbn [fbind].
      destruct IH as [(ifs & -> & HF2)|(-> & l' & s & H1 & H2)].
      * left. exists (ks :: ifs). cbn. auto.
      * right. split; [reflexivity|]. exists l', s. split; [right|]; auto.
Qed.
Lemma pads_ok (sites : list site) l : NoDup sites ->
  Forall2 (fun s k => nth_error sites k = Some s) (filter (fun s => if in_dec dec s sites then true else false) l)
    (flat_map (fun s => match lookup dec s (id_table dec sites) with Some k => [k] | None => [] end) l).
Proof.
  intros Hn. induction l as [|s l IH]; cbn [filter flat_map]; [constructor|].
  destruct (in_dec dec s sites) as [Hi|Hi].
  - destruct (In_nth_error _ _ Hi) as (k & Hk). rewrite (proj2 (id_table_spec dec s k Hn) Hk). cbn. constructor; auto.
  - rewrite (proj2 (id_table_None dec s Hn) Hi). auto.
Qed.

Lemma finite_main h ifaces pads : WF h ->
  let r := finalize h ifaces pads in
  (exists s, r = inl s /\ s_sites s = sort leb (map fst h) /\
    s_ids s = id_table dec (s_sites s) /\
    fmap (onsite_of dec h) (s_sites s) = inl (s_onsites s) /\
    rep dec Sy h s (fun i j => match nth_error (s_sites s) i, nth_error (s_sites s) j with
                        | Some a, Some b => edge h a b <> None | _, _ => False end) /\
    Forall2 (Forall2 (fun x k => nth_error (s_sites s) k = Some x)) ifaces (s_ifaces s) /\
    Forall2 (fun l ks => Forall2 (fun x k => nth_error (s_sites s) k = Some x)
         (filter (fun x => if in_dec dec x (s_sites s) then true else false) l) ks) pads (s_paddings s)) \/
  (r = inr (FValue site) /\ exists l s, In l ifaces /\ In s l /\ mem dec s h = false).
Proof.
  intros W r. subst r. unfold finalize_finite.
  set (sites := sort leb (map fst h)). set (ids := id_table dec sites).
  assert (Hnd : NoDup sites) by (apply NoDup_sort; apply W).
  assert (Hmem : forall s, In s sites <-> In s (map fst h)).
  { intros s. split; intros H; (eapply Permutation_in; [|exact H]); [|symmetry]; apply sort_perm. }
  destruct (finite_graph W) as (g & Hg & B). fold sites in Hg, B. fold ids in Hg, B. rewrite Hg. cbn [fbind].
  set (es := flat_map (node_edges ids) h) in *.
  set (vl := fun e : Z * Z => match nth_error sites (Z.to_nat (fst e)), nth_error sites (Z.to_nat (snd e)) with
                        | Some a, Some b => match edge h a b with Some v => v | None => SOther C F end
                        | _, _ => SOther C F end).
  destruct (@built_values junk _ _ _ site _ (fun e => fbind (nth_site sites (fst e)) (fun a =>
                        fbind (nth_site sites (snd e)) (fun b => of_b (get_edge dec h a b)))) vl B) as (c & Ls & Ec & El & Ev & Hf).
  { intros [i j] Hp. destruct B as (_ & _ & _ & _ & Hb). destruct (Hb _ Hp) as [Hi Hj]. cbn [fst snd] in Hi, Hj.
    destruct (nth_error sites i) as [a|] eqn:Ea; [|apply nth_error_None in Ea; lia].
    destruct (nth_error sites j) as [b|] eqn:Eb; [|apply nth_error_None in Eb; lia].
    unfold zpair, vl. cbn [fst snd]. rewrite (nth_site_ok _ _ Ea), (nth_site_ok _ _ Eb). cbn [fbind].
    rewrite !Nat2Z.id, Ea, Eb. apply (node_edges_iff i j W Ea Eb) in Hp.
    destruct (edge h a b) as [v|] eqn:Ee; [|congruence]. rewrite (@get_edge_some _ dec _ _ h a b v) by auto. reflexivity. }
  rewrite Ec. cbn [of_g fbind].
  destruct (@fmap_ifaces sites ifaces Hnd) as [(ifs & Ei & HF)|(Ei & l & s & H1 & H2 & H3)]; fold ids in Ei; rewrite Ei; cbn [fbind].
  2:{ right. split; [reflexivity|]. exists l, s. split; [auto|]. split; [auto|].
      destruct (mem dec s h) eqn:E; auto. apply mem_true in E. exfalso. apply H3, Hmem. auto. }
  left. destruct (@fmap_ex site site _ (onsite_of dec h) sites) as (ons & Eo & _).
  { intros x Hx. apply Hmem in Hx. unfold onsite_of. rewrite <- (mem_true dec) in Hx.
    destruct (proj1 (mem_lookup dec h x) Hx) as (nd & ->). eauto. }
  rewrite Eo. cbn [fbind]. rewrite El. cbn [of_g fbind].
  match goal with |- context [fmap ?f Ls] => change (fmap f Ls) with (fmap (fun e : Z * Z => fbind (nth_site sites (fst e)) (fun a =>
                        fbind (nth_site sites (snd e)) (fun b => of_b (get_edge dec h a b)))) Ls) end.
  rewrite Ev. cbn [fbind].
  eexists. split; [reflexivity|]. cbn [s_sites s_ids s_onsites s_ifaces s_paddings].
  split; [reflexivity|]. split; [reflexivity|]. split; [exact Eo|]. split; [|split; [exact HF|]].
  - intros i j a b Hij Ha Hb. cbn [s_sites s_graph s_hoppings] in *. rewrite Ha, Hb.
    assert (Hi : i < length sites) by (apply nth_error_Some; congruence).
    assert (Hj : j < length sites) by (apply nth_error_Some; congruence).
    destruct (Hf i j Hi Hj) as [H1 H2]. rewrite <- (node_edges_iff i j W Ha Hb). split; auto.
    intros Hin. destruct (H1 Hin) as (id & E1 & E2 & E3). exists id.
    apply (node_edges_iff i j W Ha Hb) in Hin.
    destruct (edge h a b) as [v|] eqn:Ee; [|congruence]. exists v. split; [auto|]. split; [|rewrite Eg_edge; auto].
    unfold nth_hop. rewrite E2. match goal with |- context [nth_error ?l _] => change l with (map vl Ls) end.
    rewrite E3. unfold vl. cbn [fst snd]. rewrite !Nat2Z.id, Ha, Hb, Ee. reflexivity.
  - induction pads; cbn [map]; constructor; auto. apply pads_ok. auto.
Qed.
End Finite.
