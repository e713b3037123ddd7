(** * Proofs about attach_lead *)
From Coq Require Import List Bool Arith ZArith Lia Permutation.
From Verif Require Import BuilderModel BuilderProofs BuilderSpec BuilderMain BuilderProps FillModel FillSpec FillProps
  SymmetryModel SymmetryProofs AttachModel AttachSpec.
Import ListNotations.
Set Implicit Arguments.
Local Open Scope Z_scope.

Lemma fold_max : forall l x, (In (fold_left Z.max l x) (x :: l)) /\ forall y, In y (x :: l) -> y <= fold_left Z.max l x.
Proof.
  induction l as [|a l IH]; intros x; cbn [fold_left]; [cbn; split; auto; intros y [<-|[]]; lia|].
  destruct (IH (Z.max x a)) as [H1 H2]. split.
  - destruct H1 as [H1|H1]; [|cbn; auto]. rewrite <- H1. destruct (Z.max_spec x a) as [[_ ->]|[_ ->]]; cbn; auto.
  - intros y [<-|[<-|Hy]]; [| |apply H2; cbn; auto]; specialize (H2 (Z.max x a) (or_introl eq_refl)); lia.
Qed.
Lemma fold_min : forall l x, (In (fold_left Z.min l x) (x :: l)) /\ forall y, In y (x :: l) -> fold_left Z.min l x <= y.
Proof.
  induction l as [|a l IH]; intros x; cbn [fold_left]; [cbn; split; auto; intros y [<-|[]]; lia|].
  destruct (IH (Z.min x a)) as [H1 H2]. split.
  - destruct H1 as [H1|H1]; [|cbn; auto]. rewrite <- H1. destruct (Z.min_spec x a) as [[_ ->]|[_ ->]]; cbn; auto.
  - intros y [<-|[<-|Hy]]; [| |apply H2; cbn; auto]; specialize (H2 (Z.min x a) (or_introl eq_refl)); lia.
Qed.

Section Line.
Variable site : Type.
Variable L : line site.
Hypothesis LL : LineLaws L.
Notation dom := (dom L).
Lemma line0 : toZ L (e0 (lsym L)) = 0.
Proof. pose proof (line_add LL (e0 (lsym L)) (e0 (lsym L))) as H. rewrite (law_0l (line_laws LL)) in H. lia. Qed.
Lemma line_neg e : toZ L (eneg (lsym L) e) = - toZ L e.
Proof. pose proof (line_add LL (eneg (lsym L) e) e) as H. rewrite (law_negl (line_laws LL)), line0 in H. lia. Qed.
Lemma dom_act z s : dom (act (lsym L) (ofZ L z) s) = z + dom s.
Proof. unfold AttachModel.dom. rewrite (law_which (line_laws LL)), (line_add LL), (line_to LL). auto. Qed.
Lemma act_act x y s : act (lsym L) (ofZ L x) (act (lsym L) (ofZ L y) s) = act (lsym L) (ofZ L (x + y)) s.
Proof.
  rewrite <- (law_act (line_laws LL)). f_equal. rewrite <- (line_of LL (eadd (lsym L) (ofZ L x) (ofZ L y))). rewrite (line_add LL), !(line_to LL). auto.
Qed.
Lemma act_zero s : act (lsym L) (ofZ L 0) s = s.
Proof. rewrite <- line0, (line_of LL). apply (law_act0 (line_laws LL)). Qed.
Lemma to_fd_dom s : to_fd (lsym L) s = act (lsym L) (ofZ L (- dom s)) s.
Proof. unfold to_fd. f_equal. rewrite <- (line_of LL (eneg (lsym L) (which (lsym L) s))). rewrite line_neg. auto. Qed.
Lemma act_dom s : act (lsym L) (ofZ L (dom s)) (to_fd (lsym L) s) = s.
Proof. rewrite to_fd_dom, act_act. replace (dom s + - dom s) with 0 by lia. apply act_zero. Qed.
Lemma dom_fd s : dom (to_fd (lsym L) s) = 0.
Proof. rewrite to_fd_dom, dom_act. lia. Qed.
End Line.

Section Del.
Variable site : Type.
Variable dec : forall a b : site, {a = b} + {a <> b}.
Variables C F : Type.
Variable conj : C -> C.
Notation NS := (NoSymmetry site).
Notation store := (store site C F).
Let LN : SymLaws NS := NoSymmetry_laws site.
Notation rs h s := (@read_site site dec NS C conj F h s).
Notation rh h a b := (@read_hop site dec NS C conj F h a b).
Notation reachable := (@reachable site dec NS C F).
Lemma delete_list : forall l (h : store), reachable h -> NoDup l -> (forall s, In s l -> rs h s <> None) ->
  exists h', delitem dec NS h (Iter (map (fun s => Simple C F (KSite s)) l)) = (h', None) /\ reachable h' /\
    (forall s, In s l -> rs h' s = None) /\ (forall s, ~ In s l -> rs h' s = rs h s) /\
    (forall a b, In a l \/ In b l -> rh h' a b = None) /\ (forall a b, ~ In a l -> ~ In b l -> rh h' a b = rh h a b).
Proof.
  intros l h Rh ND Hin. rewrite (@C11_flat_del site dec NS C F h (Iter (map (fun s => Simple C F (KSite s)) l)) (map (@KSite site) l)).
  2: { clear. cbn. induction l as [|s l IH]; [reflexivity|]. cbn. cbn in IH. rewrite IH. reflexivity. }
  2: { exists true. intros k Hk. apply in_map_iff in Hk. destruct Hk as (s & <- & _). reflexivity. }
  revert h Rh ND Hin. induction l as [|s l IH]; intros h Rh ND Hin; cbn [map delete_all].
  - exists h. repeat split; auto; try (intros s []). intros a b [[]|[]].
  - inversion ND; subst. destruct (proj2 (@C05_delete_site site dec NS LN C conj F h s Rh) (Hin s (or_introl eq_refl))) as (h1 & E1 & A1 & A2 & A3 & A4).
    assert (SS : forall x y : site, same_site NS x y <-> x = y) by (intros x y; split; [intros (g & ->); reflexivity|intros ->; exists tt; reflexivity]).
    rewrite E1. assert (R1 : reachable h1) by (change h1 with (fst (h1, @None (err site))); rewrite <- E1; apply r_del; auto).
    destruct (IH h1 R1 H2) as (h' & E' & R' & B1 & B2 & B3 & B4).
    { intros t Ht. rewrite A2; [apply Hin; cbn; auto|]. rewrite SS. intros ->. contradiction. }
    exists h'. split; auto. split; auto. split; [|split; [|split]].
    + intros t [->|Ht]; auto. destruct (in_dec dec t l); auto. rewrite B2 by auto. apply A1. apply SS; auto.
    + intros t Ht. rewrite B2 by (intros X; apply Ht; cbn; auto). apply A2. rewrite SS. intros ->. apply Ht. cbn; auto.
    + intros a b Hab. destruct (in_dec dec a l) as [i|Na]; [apply B3; auto|]. destruct (in_dec dec b l) as [i|Nb]; [apply B3; auto|].
      rewrite B4 by auto. apply A3. rewrite !SS. destruct Hab as [[->|X]|[->|X]]; auto; contradiction.
    + intros a b Ha Hb. rewrite B4 by (intros X; first [apply Ha; cbn; now auto|apply Hb; cbn; now auto]). apply A4; rewrite SS; intros ->; [apply Ha|apply Hb]; cbn; auto.
Qed.
End Del.

Section Core.
Variable site : Type.
Variable dec : forall a b : site, {a = b} + {a <> b}.
Variables C F : Type.
Variable conj : C -> C.
Variable VNone : val C F.
Variable family : site -> Z.
Variable order : nat -> list site -> list site.
Variable sord : list site -> list site.
Hypothesis Hord : forall k l, Permutation (order k l) l.
Hypothesis Hsord : forall l, Permutation (sord l) l.
Notation NS := (NoSymmetry site).
Notation store := (store site C F).
Let LN : SymLaws NS := NoSymmetry_laws site.
Variable L : line site.
Hypothesis LL : LineLaws L.
Hypothesis Hfam : forall g s, family (act (lsym L) g s) = family s.
Variables T h : store.
Hypothesis RT : reachable dec (lsym L) T.
Hypothesis Rh : reachable dec NS h.
Notation dom := (dom L).
Notation lead_site := (lead_site dec L T).
Notation lead_hop := (lead_hop dec L T).
Notation present := (present dec h).
Notation reach := (reach dec L T h).
Notation rs h s := (@read_site site dec NS C conj F h s).
Notation rh h a b := (@read_hop site dec NS C conj F h a b).
Notation rsT s := (@read_site site dec (lsym L) C conj F T s).
Notation rhT a b := (@read_hop site dec (lsym L) C conj F T a b).

Lemma in_sites_iff (Sy : Symmetry site) (LS : SymLaws Sy) (X : store) s : mem dec s X = true <-> In s (sites X).
Proof.
  unfold mem, sites. induction X as [|[k v] X IH]; cbn; [split; [discriminate|intros []]|]. unfold eqb. destruct (dec s k) as [->|N]; [split; auto|].
  rewrite IH. split; auto. intros [E|E]; auto. congruence.
Qed.
Lemma present_iff s : present s <-> In s (sites h).
Proof. unfold AttachSpec.present, contains. cbn. rewrite <- (@in_sites_iff NS LN h s). unfold to_fd, NoSymmetry, mem. cbn. destruct (lookup dec s h); split; intros; auto; discriminate. Qed.
Lemma present_dec s : present s \/ ~ present s.
Proof. rewrite present_iff. destruct (in_dec dec s (sites h)); auto. Qed.
Lemma absent_iff s : contains dec NS h (KSite s) = inl false <-> ~ present s.
Proof. unfold AttachSpec.present, contains. cbn. destruct (mem dec s h); split; intros H; try discriminate; auto; exfalso; apply H; reflexivity. Qed.
Lemma lead_site_iff s : lead_site s <-> In (to_fd (lsym L) s) (sites T).
Proof. unfold AttachSpec.lead_site, contains. cbn. rewrite <- (@in_sites_iff _ (line_laws LL) T). destruct (mem dec (to_fd (lsym L) s) T); split; intros; auto; discriminate. Qed.
Lemma sites_fd s : In s (sites T) -> dom s = 0 /\ to_fd (lsym L) s = s.
Proof.
  intros H. destruct (@C08_sites site dec (lsym L) (line_laws LL) C F T RT) as (_ & H1 & H2). pose proof (H1 s H) as H3.
  destruct (H2 s H3) as (r & _ & _ & U). pose proof (proj1 (lead_site_iff s) H3) as H4.
  assert (E : to_fd (lsym L) s = s). { transitivity r; [apply U; auto|symmetry; apply U; auto]; [|exists (e0 (lsym L)); symmetry; apply (law_act0 (line_laws LL))]. exists (ofZ L (- dom s)). apply to_fd_dom; auto. }
  split; auto. rewrite <- E. apply dom_fd; auto.
Qed.
Lemma start_iff z s : In s (map (act (lsym L) (ofZ L z)) (sites T)) <-> lead_site s /\ dom s = z.
Proof.
  rewrite in_map_iff. split.
  - intros (t & <- & Ht). destruct (sites_fd t Ht) as [D E]. rewrite dom_act, D by auto. split; [|lia]. apply lead_site_iff. rewrite to_fd_dom, dom_act, D, act_act by auto.
    replace (- (z + 0) + z) with 0 by lia. rewrite act_zero; auto.
  - intros [H D]. exists (to_fd (lsym L) s). split; [|apply lead_site_iff; auto]. rewrite <- D. apply act_dom; auto.
Qed.
Lemma start_NoDup z : NoDup (map (act (lsym L) (ofZ L z)) (sites T)).
Proof.
  apply FinFun.Injective_map_NoDup; [|apply (@C08_sites site dec (lsym L) (line_laws LL) C F T RT)].
  intros a b E. apply (f_equal (act (lsym L) (ofZ L (- z)))) in E. rewrite !act_act in E by auto. replace (- z + z) with 0 in E by lia. rewrite !act_zero in E by auto. auto.
Qed.
Lemma lead_hop_ends s t : lead_hop s t -> lead_site s /\ lead_site t.
Proof. apply (@C07_hopping_has_sites site dec (lsym L) (line_laws LL) C F T s t RT). Qed.

(** all_doms *)
Definition doms (origin : option site) : list Z :=
  match origin with Some o => filter (fun z => Z.leb z (dom o)) (all_doms dec family L T h) | None => all_doms dec family L T h end.
Lemma doms_iff origin z : In z (doms origin) <-> meets dec L T h origin z.
Proof.
  assert (A : In z (all_doms dec family L T h) <-> exists s, present s /\ lead_site s /\ dom s = z).
  { unfold all_doms. rewrite in_map_iff. split.
    - intros (s & <- & Hs). apply filter_In in Hs. destruct Hs as [H1 H2]. apply andb_true_iff in H2. destruct H2 as [_ H2]. exists s. split; [apply present_iff; auto|]. split; auto.
      apply lead_site_iff. apply (@in_sites_iff _ (line_laws LL) T). exact H2.
    - intros (s & H1 & H2 & H3). exists s. split; auto. apply filter_In. split; [apply present_iff; auto|]. apply lead_site_iff in H2. apply andb_true_iff. split.
      + apply existsb_exists. exists (to_fd (lsym L) s). split; auto. apply Z.eqb_eq. apply Hfam.
      + apply (@in_sites_iff _ (line_laws LL) T). exact H2. }
  unfold meets, doms. destruct origin as [o|].
  - rewrite filter_In, A, Z.leb_le. split.
    + intros ((s & H1 & H2 & H3) & H4). exists s. repeat split; auto. intros o' E. assert (o = o') by congruence. subst. auto.
    + intros (s & H1 & H2 & H3 & H4). split; eauto.
  - rewrite A. split; intros (s & H1 & H2 & H3); exists s; [repeat split; auto; discriminate|]. destruct H3. auto.
Qed.

Section Fill.
Variables mn mx : Z.
Hypothesis Hmm : mn <= mx + 1.
Notation start := (map (act (lsym L) (ofZ L (mx + 1))) (sites T)).
Notation shape := (lead_shape L mn mx).
Notation filled := (@filled site dec NS (lsym L) C F shape T h (sord start)).
Lemma sord_in s l : In s (sord l) <-> In s l.
Proof. split; apply Permutation_in; [|symmetry]; apply Hsord. Qed.
Lemma shape_true s : shape s = Some true <-> mn <= dom s <= mx + 1.
Proof.
  unfold lead_shape. destruct (Z.ltb_spec (dom s) mn); split; intros X; try discriminate; try lia.
  - assert (Y : (dom s <=? mx + 1) = true) by congruence. apply Z.leb_le in Y. lia.
  - f_equal. apply Z.leb_le. lia.
Qed.
Lemma shape_none s : shape s = None <-> dom s < mn.
Proof. unfold lead_shape. destruct (Z.ltb_spec (dom s) mn); split; intros X; auto; try discriminate; lia. Qed.
Lemma filled_reach s : filled s -> reach mx s /\ mn <= dom s.
Proof.
  induction 1 as [s H1 H2 H3 H4|s t H1 [IH IH'] H2 H3 H4].
  - change (to_fd NS s) with s in *. rewrite sord_in, start_iff in H1. apply shape_true in H4. split; [|lia]. apply re_start; try tauto. apply absent_iff; auto.
  - change (to_fd NS t) with t in *. apply shape_true in H4. split; [|lia]. apply re_step with s; auto; [apply absent_iff; auto|lia].
Qed.
Definition raises : Prop := shape_raises dec NS (lsym L) shape T h (sord start).
Lemma raises_iff : raises <-> exists s t, filled s /\ lead_hop s t /\ ~ present t /\ dom t < mn.
Proof.
  split.
  - intros (t & H1 & H2 & H3). change (to_fd NS t) with t in H2. apply shape_none in H2. destruct H3 as [[H3 H4]|(s & H3 & H4)].
    + rewrite sord_in, start_iff in H3. lia.
    + exists s, t. rewrite <- absent_iff. auto.
  - intros (s & t & H1 & H2 & H3 & H4). exists t. rewrite absent_iff. split; auto. split; [apply shape_none; auto|]. right. eauto.
Qed.
Lemma reach_filled : ~ raises -> forall s, reach mx s -> filled s.
Proof.
  intros N s. induction 1 as [s H1 H2 H3|s t H1 IH H2 H3 H4].
  - change s with (to_fd NS s). apply f_start; auto; [rewrite sord_in, start_iff; auto|apply absent_iff; auto|]. change (to_fd NS s) with s. apply shape_true. lia.
  - change t with (to_fd NS t). apply f_step with s; auto; [apply absent_iff; auto|]. change (to_fd NS t) with t. apply shape_true.
    destruct (Z_lt_le_dec (dom t) mn); [|lia]. exfalso. apply N. apply raises_iff. eauto 6.
Qed.
Lemma noraise_interrupted : ~ raises -> interrupted dec L T h mn mx.
Proof.
  intros N s t H1 H2 H3. destruct (Z_lt_le_dec (dom t) mn) as [X|]; auto. exfalso. apply N. apply raises_iff. exists s, t. repeat split; auto. apply reach_filled; auto.
Qed.
Lemma raises_not_interrupted : raises -> ~ interrupted dec L T h mn mx.
Proof. intros R I. apply raises_iff in R. destruct R as (s & t & H1 & H2 & H3 & H4). specialize (I s t (proj1 (filled_reach H1)) H2 H3). lia. Qed.
Lemma reach_lead s : reach mx s -> lead_site s /\ ~ present s /\ dom s <= mx + 1.
Proof. induction 1 as [s H1 H2 H3|s t H1 IH H2 H3 H4]; [repeat split; auto; lia|]. destruct (lead_hop_ends H2). auto. Qed.
Lemma finite_filled : forall l, NoDup l -> (forall t, In t l -> filled t) -> (length l <= length (sites T) * Z.to_nat (mx + 2 - mn))%nat.
Proof.
  intros l ND H. set (cells := map (fun k => mn + Z.of_nat k) (seq 0 (Z.to_nat (mx + 2 - mn)))).
  set (all := flat_map (fun s => map (fun z => act (lsym L) (ofZ L z) s) cells) (sites T)).
  assert (E : length all = (length (sites T) * Z.to_nat (mx + 2 - mn))%nat).
  { unfold all. generalize (sites T). induction l0 as [|s l0 IH]; [reflexivity|]. cbn [flat_map length Nat.mul]. rewrite app_length, IH, map_length. unfold cells. rewrite map_length, seq_length. reflexivity. }
  rewrite <- E. apply NoDup_incl_length; auto. intros s Hs. destruct (filled_reach (H s Hs)) as [R B]. destruct (reach_lead R) as (A & _ & D).
  unfold all. apply in_flat_map. exists (to_fd (lsym L) s). split; [apply lead_site_iff; auto|]. apply in_map_iff. exists (dom s). split; [apply act_dom; auto|].
  unfold cells. apply in_map_iff. exists (Z.to_nat (dom s - mn)). split; [lia|]. apply in_seq. lia.
Qed.
End Fill.
End Core.

Section Main.
Variable site : Type.
Variable dec : forall a b : site, {a = b} + {a <> b}.
Variables C F : Type.
Variable conj : C -> C.
Variable VNone : val C F.
Variable family : site -> Z.
Variable order : nat -> list site -> list site.
Variable sord : list site -> list site.
Hypothesis Hord : forall k l, Permutation (order k l) l.
Hypothesis Hsord : forall l, Permutation (sord l) l.
Notation NS := (NoSymmetry site).
Notation store := (store site C F).
Let LN : SymLaws NS := NoSymmetry_laws site.
Variable L : line site.
Hypothesis LL : LineLaws L.
Hypothesis Hfam : forall g s, family (act (lsym L) g s) = family s.
Variables T h : store.
Hypothesis RT : reachable dec (lsym L) T.
Hypothesis Rh : reachable dec NS h.
Notation dom := (dom L).
Notation lead_site := (lead_site dec L T).
Notation lead_hop := (lead_hop dec L T).
Notation present := (present dec h).
Notation reach := (reach dec L T h).
Notation rs h s := (@read_site site dec NS C conj F h s).
Notation rh h a b := (@read_hop site dec NS C conj F h a b).
Notation rsT s := (@read_site site dec (lsym L) C conj F T s).
Notation rhT a b := (@read_hop site dec (lsym L) C conj F T a b).
Notation attach_core := (attach_core dec VNone family order sord).
Let phi (_ : elt NS) : elt (lsym L) := e0 (lsym L).
Let Hphi : forall (g : elt NS) s, act NS g s = act (lsym L) (phi g) s.
Proof. intros g s. symmetry. apply (law_act0 (line_laws LL)). Qed.

Lemma pres_read s : present s <-> rs h s <> None.
Proof. apply (@C07_contains_site site dec NS C conj F h s). Qed.
Lemma lead_read s : lead_site s <-> rsT s <> None.
Proof. apply (@C07_contains_site site dec (lsym L) C conj F T s). Qed.
Lemma SS (x y : site) : same_site NS x y <-> x = y.
Proof. split; [intros (g & ->); reflexivity|intros ->; exists tt; reflexivity]. Qed.

Lemma interface_iff mx t : In t (interface_of dec L T mx) <-> dom t = mx /\ exists s, dom s = mx + 1 /\ lead_hop s t.
Proof.
  unfold interface_of. rewrite nodup_In, in_flat_map. split.
  - intros (s & Hs & Ht). assert (Ls : lead_site s) by (apply (@C08_sites site dec (lsym L) (line_laws LL) C F T RT); auto).
    destruct (proj1 (@C09_neighbors site dec (lsym L) (line_laws LL) C F T s RT) Ls) as (l & E & _ & _ & N). rewrite E in Ht. apply filter_In in Ht. destruct Ht as [Ht D].
    apply Z.eqb_eq in D. split; auto. apply in_map_iff in Ht. destruct Ht as (t' & <- & Ht'). exists (act (lsym L) (ofZ L (mx + 1)) s).
    destruct (sites_fd LL RT s Hs) as [D0 _]. split; [rewrite dom_act by auto; lia|]. unfold AttachSpec.lead_hop.
    rewrite (proj1 (proj2 (proj2 (proj2 (@C03_invariant site dec (lsym L) (line_laws LL) C conj F T (ofZ L (mx + 1)) s s t'))))). apply N; auto.
  - intros (D & s & Ds & H). destruct (@lead_hop_ends site dec C F L LL T RT s t H) as [Ls Lt].
    exists (to_fd (lsym L) s). split; [apply (@lead_site_iff site dec C F L LL T s); auto|].
    assert (Lf : lead_site (to_fd (lsym L) s)).
    { apply (@lead_site_iff site dec C F L LL T). apply (@lead_site_iff site dec C F L LL T) in Ls. rewrite (proj2 (sites_fd LL RT _ Ls)). auto. }
    destruct (proj1 (@C09_neighbors site dec (lsym L) (line_laws LL) C F T (to_fd (lsym L) s) RT) Lf) as (l & E & _ & _ & N). rewrite E. apply filter_In. split; [|apply Z.eqb_eq; auto].
    apply in_map_iff. exists (act (lsym L) (ofZ L (- (mx + 1))) t). split; [rewrite act_act by auto; replace (mx + 1 + - (mx + 1)) with 0 by lia; apply act_zero; auto|].
    apply N. rewrite to_fd_dom, Ds by auto. rewrite (proj1 (proj2 (proj2 (proj2 (@C03_invariant site dec (lsym L) (line_laws LL) C conj F T (ofZ L (- (mx + 1))) s s t))))). exact H.
Qed.

Lemma core_shape fuel origin add :
  let R := attach_core fuel L T h origin add in
  (exists d0 ds mx mn, doms dec family L T h origin = d0 :: ds /\ mx = fold_left Z.max ds d0 + add /\ mn = fold_left Z.min ds d0 /\
     (T <> [] /\ lead_only_family family T h = false) /\
     let start := map (act (lsym L) (ofZ L (mx + 1))) (sites T) in
     R = match fill dec NS (lsym L) VNone (lead_shape L mn mx) order fuel T h (sord start) None with
        | (h1, inr (EFuel _)) => (h1, inr (EFuel _))
        | (h1, inr _) => (h1, inr (ERuntime _))
        | (h1, inl done) =>
          let added := filter (fun s => negb (inb dec s start)) done in
          match delitem dec NS h1 (Iter (map (fun s => Simple C F (KSite s)) (sord start))) with
          | (h2, Some e) => (h2, inr e)
          | (h2, None) => (h2, inl (mkAttached L T (interface_of dec L T mx) added))
          end
        end)
  \/ (R = (h, inr (EValue _)) /\ (T = [] \/ lead_only_family family T h = true \/ doms dec family L T h origin = [])).
Proof.
  cbv zeta. unfold AttachModel.attach_core. destruct T as [|p T'] eqn:ET; [right; split; auto|]. rewrite <- ET.
  destruct (lead_only_family family T h) eqn:EF; [right; split; auto|]. unfold doms.
  destruct (match origin with Some o => _ | None => _ end) as [|d0 ds] eqn:ED; [right; split; auto|].
  left. exists d0, ds, (fold_left Z.max ds d0 + add), (fold_left Z.min ds d0). split; [reflexivity|]. split; [reflexivity|]. split; [reflexivity|]. split; [split; [rewrite ET; discriminate|reflexivity]|reflexivity].
Qed.

Lemma doms_max_min origin d0 ds : doms dec family L T h origin = d0 :: ds ->
  is_max (meets dec L T h origin) (fold_left Z.max ds d0) /\ is_min (meets dec L T h origin) (fold_left Z.min ds d0).
Proof.
  intros E. assert (I : forall z, In z (d0 :: ds) <-> meets dec L T h origin z) by (intros z; rewrite <- E; apply (doms_iff dec family LL Hfam T h)).
  destruct (fold_max ds d0) as [A1 A2]. destruct (fold_min ds d0) as [B1 B2]. split; split; try (apply I; auto); intros y Hy; apply I in Hy; auto.
Qed.

Lemma core_ok fuel origin add h' at_ : 0 <= add -> attach_core fuel L T h origin add = (h', inl at_) ->
  a_line at_ = L /\ a_lead at_ = T /\ reachable dec NS h' /\
  exists mx mn, is_max (meets dec L T h origin) (mx - add) /\ is_min (meets dec L T h origin) mn /\ interrupted dec L T h mn mx /\
  (NoDup (a_padding at_) /\ forall s, In s (a_padding at_) <-> reach mx s /\ dom s <= mx) /\
  (forall s, In s (a_padding at_) -> lead_site s /\ mn <= dom s <= mx /\ rs h s = None /\ rs h' s = rsT s) /\
  (forall s, lead_site s -> dom s = mx + 1 -> rs h' s = None) /\
  (forall s, ~ In s (a_padding at_) -> ~ (lead_site s /\ dom s = mx + 1) -> rs h' s = rs h s) /\
  (forall a b, rs h' a <> None -> rs h' b <> None -> ~ In a (a_padding at_) -> ~ In b (a_padding at_) -> rh h' a b = rh h a b) /\
  (forall a b, rs h' a <> None -> rs h' b <> None -> In a (a_padding at_) \/ In b (a_padding at_) -> rh h' a b = rhT a b) /\
  (NoDup (a_interface at_) /\ forall t, In t (a_interface at_) <-> dom t = mx /\ exists s, dom s = mx + 1 /\ lead_hop s t) /\
  ((forall s, lead_site s -> dom s = mx + 1 -> ~ present s) ->
     (forall s, present s -> rs h' s = rs h s) /\ (forall s, In s (a_interface at_) -> rs h' s <> None)).
Proof.
  intros Hadd H. destruct (core_shape fuel origin add) as [(d0 & ds & mx & mn & ED & Emx & Emn & _ & ER)|(ER & _)]; [|cbv zeta in ER; rewrite ER in H; discriminate].
  cbv zeta in ER. rewrite H in ER. clear H. set (start := map (act (lsym L) (ofZ L (mx + 1))) (sites T)) in *.
  destruct (doms_max_min origin ED) as [Mx Mn]. rewrite <- Emn in Mn.
  assert (Hmm : mn <= mx + 1). { pose proof (proj2 Mx mn (proj1 Mn)). lia. }
  destruct (fill dec NS (lsym L) VNone (lead_shape L mn mx) order fuel T h (sord start) None) as [h1 [done|e]] eqn:Ef; [|destruct e; discriminate].
  destruct (@C13_fill site dec NS (lsym L) LN (line_laws LL) C F conj VNone (lead_shape L mn mx) order phi Hphi Hord T h RT Rh (sord start) fuel None h1 done Ef)
    as (F1 & F2 & _ & F4 & F5 & F6 & F7 & F8).
  assert (NR : ~ raises dec sord L T h mn mx) by exact (@C13_success_no_raise site dec NS (lsym L) LN (line_laws LL) C F VNone (lead_shape L mn mx) order phi Hphi Hord T h RT Rh (sord start) fuel None h1 done Ef).
  assert (R1 : reachable dec NS h1). { pose proof (@C13_reachable site dec NS (lsym L) (line_laws LL) C F VNone (lead_shape L mn mx) order phi Hphi Hord T h RT Rh (sord start) fuel None) as R1. rewrite Ef in R1. exact R1. }
  assert (Fr : forall s, In s done <-> reach mx s).
  { intros s. rewrite F2. split; [intros X; apply (@filled_reach site dec C F sord Hsord L LL T h RT mn mx) in X; tauto|apply (@reach_filled site dec C F sord Hsord L LL T h RT mn mx Hmm NR)]. }
  assert (St : forall s, In s start <-> lead_site s /\ dom s = mx + 1) by (intros s; apply (@start_iff site dec C F L LL T RT (mx + 1) s)).
  assert (Sin : forall s, In s (sord start) <-> In s start) by (intros s; apply sord_in; auto).
  assert (P1 : forall s, rs h1 s <> None <-> present s \/ reach mx s).
  { intros s. split.
    - intros X. destruct (present_dec dec h s) as [|N]; auto. right. destruct (in_dec dec s done) as [i|n]; [apply Fr; auto|]. exfalso. apply X. apply F6.
      + destruct (rs h s) eqn:E; auto. exfalso. apply N. apply pres_read. rewrite E. discriminate.
      + intros t Ht X2. apply SS in X2. subst t. apply n. apply F2. auto.
    - intros [X|X]; [apply pres_read in X; rewrite F4; auto|]. apply Fr, F2 in X. apply (F5 s s X). apply SS; auto. }
  destruct (@delete_list site dec C F conj (sord start) h1 R1) as (h2 & Ed & R2 & D1 & D2 & D3 & D4).
  { eapply Permutation_NoDup; [symmetry; apply Hsord|]. apply (@start_NoDup site dec C F L LL T RT). }
  { intros s Hs. apply Sin, St in Hs. apply P1. destruct (present_dec dec h s); auto. right. apply re_start; tauto. }
  rewrite Ed in ER. assert (h' = h2) by congruence. subst h2. assert (Ea : at_ = mkAttached L T (interface_of dec L T mx) (filter (fun s => negb (inb dec s start)) done)) by congruence. subst at_. cbn [a_line a_lead a_interface a_padding].
  clear ER Ed. split; auto. split; auto. split; auto. exists mx, mn.
  assert (Ib : forall s, inb dec s start = true <-> In s start).
  { intros s. unfold inb. rewrite existsb_exists. split; [intros (x & Hx & E); unfold eqb in E; destruct (dec s x); [subst; auto|discriminate]|intros X; exists s; split; auto; unfold eqb; destruct (dec s s); auto]. }
  assert (Pd : forall s, In s (filter (fun s => negb (inb dec s start)) done) <-> reach mx s /\ dom s <= mx).
  { intros s. rewrite filter_In, Fr, negb_true_iff, <- not_true_iff_false, Ib, St. split.
    - intros [X Y]. split; auto. destruct (reach_lead LL RT X) as (A & _ & B). destruct (Z.eq_dec (dom s) (mx + 1)); [tauto|lia].
    - intros [X Y]. split; auto. intros [_ Z]. lia. }
  assert (Hn : forall s, rs h s = None <-> ~ present s) by (intros s; rewrite pres_read; destruct (rs h s); split; intros X; auto; try discriminate; try (exfalso; apply X; discriminate); try (intros Y; apply Y; now auto)).
  split; [replace (mx - add) with (fold_left Z.max ds d0) by lia; auto|]. split; auto.
  split; [apply (@noraise_interrupted site dec C F sord Hsord L LL T h RT mn mx Hmm NR)|].
  split; [split; [apply NoDup_filter; auto|exact Pd]|].
  assert (Pf : forall s, In s (filter (fun s => negb (inb dec s start)) done) -> lead_site s /\ mn <= dom s <= mx /\ rs h s = None /\ rs h' s = rsT s).
  { intros s Hs. pose proof Hs as Hs'. apply Pd in Hs. destruct Hs as [X Y]. destruct (reach_lead LL RT X) as (A & A' & B). apply filter_In in Hs'. destruct Hs' as [Hd _].
    apply F2 in Hd. destruct (F5 s s Hd (proj2 (SS s s) eq_refl)) as (E1 & E2 & _). split; auto. split; [destruct (filled_reach sord Hsord LL RT Hd); lia|]. split; auto.
    rewrite D2; auto. rewrite Sin, St. intros [_ Z]. lia. }
  split; auto.
  split; [intros s X Y; apply D1; apply Sin, St; auto|].
  assert (Ot : forall s, ~ In s (filter (fun s => negb (inb dec s start)) done) -> ~ (lead_site s /\ dom s = mx + 1) -> rs h' s = rs h s).
  { intros s X Y. rewrite D2 by (rewrite Sin, St; auto). destruct (present_dec dec h s) as [P|N].
    - apply F4. apply pres_read; auto.
    - rewrite (proj2 (Hn s) N). apply F6; [apply Hn; auto|]. intros t Ht E. apply SS in E. subst t. apply X. apply F2, Fr in Ht. apply Pd. split; auto. destruct (reach_lead LL RT Ht) as (A & _ & B).
      destruct (Z.eq_dec (dom s) (mx + 1)); [tauto|lia]. }
  assert (Pn : forall s, rs h' s <> None -> ~ In s start /\ rs h1 s <> None).
  { intros s X. assert (Y : ~ In s start) by (intros Y; apply X; apply D1; apply Sin; auto). split; auto. rewrite <- D2; auto; rewrite Sin; auto. }
  split; auto. split; [|split].
  - intros a b Ha Hb Na Nb. destruct (Pn a Ha) as [Sa Ha1]. destruct (Pn b Hb) as [Sb Hb1]. rewrite D4 by (rewrite Sin; auto).
    assert (Q : forall s, rs h' s <> None -> ~ In s start -> ~ In s (filter (fun s => negb (inb dec s start)) done) -> rs h s <> None) by (intros s X Y Z; rewrite Ot in X; auto; rewrite <- St; auto).
    apply F7; apply Q; auto.
  - intros a b Ha Hb Hab. destruct (Pn a Ha) as [Sa Ha1]. destruct (Pn b Hb) as [Sb Hb1]. rewrite D4 by (rewrite Sin; auto). apply F8; auto.
    destruct Hab as [X|X]; apply Pf in X; tauto.
  - split; [split; [apply NoDup_nodup|apply interface_iff]|].
    intros Free. split.
    + intros s P. apply Ot; [|intros [X Y]; apply (Free s); auto]. intros X. apply Pd in X. destruct (reach_lead LL RT (proj1 X)) as (_ & A & _). auto.
    + intros s Hs. apply interface_iff in Hs. destruct Hs as (D & t & Dt & Ht). rewrite D2 by (rewrite Sin, St; lia). apply P1. destruct (present_dec dec h s); auto. right.
      destruct (@lead_hop_ends site dec C F L LL T RT t s Ht). apply re_step with t; auto; [|lia]. apply re_start; auto.
Qed.

Lemma core_err fuel origin add h' e : 0 <= add -> attach_core fuel L T h origin add = (h', inr e) ->
  (e = EValue _ /\ h' = h /\ ((forall s, ~ lead_site s) \/ (exists s, lead_site s /\ forall t, present t -> family t <> family s) \/ (forall z, ~ meets dec L T h origin z)))
  \/ (e = ERuntime _ /\ h' = [] /\ exists mx mn, is_max (meets dec L T h origin) (mx - add) /\ is_min (meets dec L T h origin) mn /\ ~ interrupted dec L T h mn mx)
  \/ (e = EFuel _ /\ exists mx mn, is_max (meets dec L T h origin) (mx - add) /\ is_min (meets dec L T h origin) mn /\ (fuel <= length (sites T) * Z.to_nat (mx + 2 - mn))%nat).
Proof.
  intros Hadd H. destruct (core_shape fuel origin add) as [(d0 & ds & mx & mn & ED & Emx & Emn & _ & ER)|(ER & K)]; cbv zeta in ER; rewrite H in ER; clear H.
  - right. set (start := map (act (lsym L) (ofZ L (mx + 1))) (sites T)) in *.
    destruct (doms_max_min origin ED) as [Mx Mn]. rewrite <- Emn in Mn.
    assert (Hmm : mn <= mx + 1). { pose proof (proj2 Mx mn (proj1 Mn)). lia. }
    replace (fold_left Z.max ds d0) with (mx - add) in Mx by lia.
    destruct (fill dec NS (lsym L) VNone (lead_shape L mn mx) order fuel T h (sord start) None) as [h1 [done|e1]] eqn:Ef.
    + exfalso. destruct (@C13_fill site dec NS (lsym L) LN (line_laws LL) C F conj VNone (lead_shape L mn mx) order phi Hphi Hord T h RT Rh (sord start) fuel None h1 done Ef)
        as (F1 & F2 & _ & F4 & F5 & F6 & F7 & F8).
      assert (R1 : reachable dec NS h1). { pose proof (@C13_reachable site dec NS (lsym L) (line_laws LL) C F VNone (lead_shape L mn mx) order phi Hphi Hord T h RT Rh (sord start) fuel None) as R1. rewrite Ef in R1. exact R1. }
      destruct (@delete_list site dec C F conj (sord start) h1 R1) as (h2 & Ed & _).
      { eapply Permutation_NoDup; [symmetry; apply Hsord|]. apply (@start_NoDup site dec C F L LL T RT). }
      { intros s Hs. apply (proj1 (sord_in sord Hsord s start)) in Hs. pose proof Hs as Hs0. apply (@start_iff site dec C F L LL T RT (mx + 1) s) in Hs. destruct (present_dec dec h s) as [P|N].
        - apply pres_read in P. rewrite F4; auto.
        - assert (X : @filled site dec NS (lsym L) C F (lead_shape L mn mx) T h (sord start) s).
          { change s with (to_fd NS s). apply f_start; [apply (proj2 (sord_in sord Hsord s start)); auto|exact (proj1 Hs)|apply absent_iff; auto|]. change (to_fd NS s) with s. apply shape_true. lia. }
          apply (F5 s s X). apply SS; auto. }
      rewrite Ed in ER. discriminate.
    + destruct (@C13_errors site dec NS (lsym L) LN (line_laws LL) C F VNone (lead_shape L mn mx) order phi Hphi Hord T h RT Rh (sord start) fuel None h1 e1 Ef)
        as [(X & _)|(Eh & [(X & m & X2 & _)|[(X & Rs)|(X & Y & _)]])]; [discriminate|discriminate| |]; subst e1.
      * left. assert (e = ERuntime _) by congruence. assert (h' = h1) by congruence. subst. split; auto. split; auto. exists (fold_left Z.max ds d0 + add), (fold_left Z.min ds d0). split; auto. split; auto.
        apply (@raises_not_interrupted site dec C F sord Hsord L LL T h RT _ _ Hmm). exact Rs.
      * right. assert (e = EFuel _) by congruence. split; auto. exists mx, mn. split; auto. split; auto. destruct Y as (l & ND & Fl & Len).
        pose proof (@finite_filled site dec C F sord Hsord L LL T h RT mn mx Hmm l ND Fl). lia.
  - left. assert (e = EValue _) by congruence. assert (h' = h) by congruence. subst. split; auto. split; auto. destruct K as [K|[K|K]].
    + left. intros s X. apply (@lead_site_iff site dec C F L LL T s) in X. rewrite K in X. destruct X.
    + right. left. unfold lead_only_family in K. apply existsb_exists in K. destruct K as (s & Hs & K). exists s. split; [apply (@C08_sites site dec (lsym L) (line_laws LL) C F T RT); auto|].
      intros t Pt E. apply negb_true_iff in K. apply not_true_iff_false in K. apply K. apply existsb_exists. exists t. split; [apply (present_iff dec h t); auto|apply Z.eqb_eq; auto].
    + right. right. intros z X. apply (doms_iff dec family LL Hfam T h) in X. rewrite K in X. destruct X.
Qed.
End Main.

Lemma hop_tail (site C F : Type) (X : store site C F) x y : In (x, y) (hoppings X) -> In x (sites X).
Proof.
  unfold hoppings, sites. intros H. apply in_flat_map in H. destruct H as ([k nd] & Hk & H). apply in_flat_map in H. destruct H as (p & _ & Hp).
  destruct (snd p); cbn in Hp; [|destruct Hp]. destruct Hp as [Hp|[]]. apply in_map_iff. exists (k, nd). split; auto. cbn. congruence.
Qed.
(** ** The enlarged lead *)
Section Enlarged.
Variable site : Type.
Variable dec : forall a b : site, {a = b} + {a <> b}.
Variables C F : Type.
Variable conj : C -> C.
Variable VNone : val C F.
Variable order : nat -> list site -> list site.
Hypothesis Hord : forall k l, Permutation (order k l) l.
Notation store := (store site C F).
Variables L L' : line site.
Hypothesis LL : LineLaws L.
Hypothesis LL' : LineLaws L'.
Variable phi : elt (lsym L') -> elt (lsym L).
Hypothesis Hphi : forall g s, act (lsym L') g s = act (lsym L) (phi g) s.
Variable T : store.
Hypothesis RT : reachable dec (lsym L) T.
Notation lead_hop := (lead_hop dec L T).
Notation conn := (conn dec L T L' (sites T)).
Notation filled := (@filled site dec (lsym L') (lsym L) C F (fun _ => Some true) T [] (sites T)).
Let laws := line_laws LL.
Let laws' := line_laws LL'.
Lemma conn_filled s : conn s <-> exists t, filled t /\ same_site (lsym L') t s.
Proof.
  assert (Fd : forall s, same_site (lsym L') (to_fd (lsym L') s) s).
  { intros x. exists (ofZ L' (AttachModel.dom L' x)). symmetry. apply act_dom; auto. }
  split.
  - induction 1 as [s H|s t H (x & Fx & g & E) Hh|g s H (x & Fx & k & E)].
    + exists (to_fd (lsym L') s). split; auto. apply f_start; auto. apply (@C08_sites site dec (lsym L) laws C F T RT); auto.
    + subst s. exists (to_fd (lsym L') (act (lsym L') (eneg (lsym L') g) t)). split.
      * apply f_step with x; auto. rewrite <- (proj1 (proj2 (proj2 (proj2 (@C03_invariant site dec (lsym L) laws C conj F T (phi g) x x (act (lsym L') (eneg (lsym L') g) t)))))).
        rewrite <- !Hphi. replace (act (lsym L') g (act (lsym L') (eneg (lsym L') g) t)) with t; [exact Hh|].
        rewrite <- (line_of LL' g) at 1. rewrite <- (line_of LL' (eneg (lsym L') g)). rewrite act_act, line_neg by auto. replace (toZ L' g + - toZ L' g) with 0 by lia. rewrite act_zero; auto.
      * destruct (Fd (act (lsym L') (eneg (lsym L') g) t)) as (k & Ek). exists (eadd (lsym L') g k). rewrite (law_act laws'), <- Ek.
        rewrite <- (line_of LL' g) at 1. rewrite <- (line_of LL' (eneg (lsym L') g)). rewrite act_act, line_neg by auto. replace (toZ L' g + - toZ L' g) with 0 by lia. rewrite act_zero; auto.
    + exists x. split; auto. exists (eadd (lsym L') g k). rewrite (law_act laws'), <- E. auto.
  - intros (t & Ft & g & ->). apply co_image. clear g. induction Ft as [s H1 H2 _ _|s t H1 IH H2 _ _].
    + rewrite to_fd_dom by auto. apply co_image. apply co_start. auto.
    + rewrite to_fd_dom by auto. apply co_image. apply co_step with s; auto.
Qed.
Lemma enlarged_ok fuel T' done : enlarged dec VNone order fuel L L' T = (T', inl done) ->
  reachable dec (lsym L') T' /\
  (forall s, read_site dec (lsym L') conj T' s <> None <-> conn s) /\
  (forall s, conn s -> read_site dec (lsym L') conj T' s = read_site dec (lsym L) conj T s) /\
  (forall a b, conn a -> conn b -> read_hop dec (lsym L') conj T' a b = read_hop dec (lsym L) conj T a b).
Proof.
  intros E. unfold enlarged in E. assert (Re : reachable dec (lsym L') (@nil (site * node site C F))) by apply r_empty.
  pose proof (@C13_reachable site dec (lsym L') (lsym L) laws C F VNone (fun _ => Some true) order phi Hphi Hord T [] RT Re (sites T) fuel None) as R'. rewrite E in R'.
  destruct (@C13_fill site dec (lsym L') (lsym L) laws' laws C F conj VNone (fun _ => Some true) order phi Hphi Hord T [] RT Re (sites T) fuel None T' done E)
    as (F1 & F2 & _ & F4 & F5 & F6 & F7 & F8).
  assert (Cn : forall s, conn s -> read_site dec (lsym L') conj T' s = read_site dec (lsym L) conj T s /\ read_site dec (lsym L') conj T' s <> None).
  { intros s Hs. apply conn_filled in Hs. destruct Hs as (t & Ht & Hst). destruct (F5 s t Ht Hst) as (_ & A & B). auto. }
  split; auto. split; [|split].
  - intros s. split; [|intros Hs; apply Cn; auto]. intros X. apply conn_filled.
    assert (D : (exists t, In t done /\ to_fd (lsym L') t = to_fd (lsym L') s) \/ ~ exists t, In t done /\ to_fd (lsym L') t = to_fd (lsym L') s).
    { destruct (in_dec dec (to_fd (lsym L') s) (map (to_fd (lsym L')) done)) as [i|n]; [left; apply in_map_iff in i; destruct i as (t & A & B); eauto|right; intros (t & A & B); apply n; apply in_map_iff; eauto]. }
    destruct D as [(t & A & B)|N].
    + exists t. apply F2 in A. split; auto. exists (ofZ L' (AttachModel.dom L' s + - AttachModel.dom L' t)). rewrite <- act_act by auto. rewrite <- (to_fd_dom LL' t), B. symmetry. apply act_dom; auto.
    + exfalso. apply X. apply F6; [reflexivity|]. intros t Ht (g & ->). apply N. exists t. split; [apply F2; auto|]. rewrite !to_fd_dom by auto. rewrite <- (line_of LL' g). rewrite dom_act, act_act by auto. f_equal. f_equal. lia.
  - intros s Hs. apply Cn; auto.
  - intros a b Ha Hb. apply F8; [apply Cn; auto|apply Cn; auto|]. left. reflexivity.
Qed.
(** with the subgroup of index n, the cells of the new lead are n cells of the old one *)
Lemma enlarged_range fuel T' done n : enlarged dec VNone order fuel L L' T = (T', inl done) -> 0 < n ->
  (forall s, AttachModel.dom L' s = AttachModel.dom L s / n) -> hop_range L T <= n -> hop_range L' T' <= 1.
Proof.
  intros E Hn Hd Hr. destruct (enlarged_ok fuel E) as (R' & A1 & A2 & A3).
  assert (Range : forall a b, lead_hop a b -> Z.abs (AttachModel.dom L b - AttachModel.dom L a) <= n).
  { intros a b H. destruct (proj2 (proj2 (proj2 (@C08_hoppings site dec (lsym L) laws C conj F T RT))) a b H) as (x & y & Hxy & Sxy & _).
    assert (Dx : AttachModel.dom L x = 0).
    { apply (sites_fd LL RT). eapply hop_tail; eauto. }
    assert (Dy : Z.abs (AttachModel.dom L y) <= n).
    { etransitivity; [|exact Hr]. unfold hop_range. revert Hxy. generalize (hoppings T). induction l as [|p l IH]; intros Hin; [destruct Hin|]. cbn [map fold_right]. destruct Hin as [->|Hin]; [cbn; lia|]. specialize (IH Hin). lia. }
    assert (Da : forall g s, AttachModel.dom L (act (lsym L) g s) = toZ L g + AttachModel.dom L s).
    { intros g s. rewrite <- (line_of LL g) at 1. apply dom_act; auto. }
    destruct Sxy as [(g & E1 & E2)|(g & E1 & E2)]; subst x y; rewrite !Da in *; lia. }
  unfold hop_range.
  assert (Each : forall x y, In (x, y) (hoppings T') -> Z.abs (AttachModel.dom L' y) <= 1).
  { intros x y Hxy. pose proof (proj1 (proj2 (@C08_hoppings site dec (lsym L') laws' C conj F T' R'))) as Ehv.
    assert (Hc : contains dec (lsym L') T' (KHop x y) = inl true).
    { apply (@C07_contains_hopping site dec (lsym L') laws' C conj F T' x y R'). rewrite Ehv in Hxy. apply in_map_iff in Hxy. destruct Hxy as ([[x' y'] v] & E1 & Hin).
      rewrite (proj1 (proj2 (proj2 (@C08_hoppings site dec (lsym L') laws' C conj F T' R'))) x y v); [discriminate|]. cbn in E1. rewrite <- E1. exact Hin. }
    destruct (@C07_hopping_has_sites site dec (lsym L') laws' C F T' x y R' Hc) as [Sx Sy].
    assert (Cx : conn x) by (apply A1; apply (@C07_contains_site site dec (lsym L') C conj F T' x); auto).
    assert (Cy : conn y) by (apply A1; apply (@C07_contains_site site dec (lsym L') C conj F T' y); auto).
    assert (Hl : lead_hop x y).
    { apply (@C07_contains_hopping site dec (lsym L) laws C conj F T x y RT). rewrite <- A3 by auto. apply (@C07_contains_hopping site dec (lsym L') laws' C conj F T' x y R'). auto. }
    apply Range in Hl. assert (Dx : AttachModel.dom L' x = 0).
    { apply (sites_fd LL' R'). eapply hop_tail; eauto. }
    rewrite Hd in Dx |- *. set (p := AttachModel.dom L x) in *. set (q := AttachModel.dom L y) in *.
    assert (0 <= p < n) by (pose proof (Z.div_mod p n); pose proof (Z.mod_pos_bound p n); lia).
    assert (-1 <= q / n <= 1); [|lia]. split; [apply Z.div_le_lower_bound; lia|]. assert (q / n < 2); [|lia]. apply Z.div_lt_upper_bound; lia. }
  revert Each. generalize (hoppings T'). induction l as [|p l IH]; intros Each; cbn [map fold_right]; [lia|]. destruct p as [x y]. pose proof (Each x y (or_introl eq_refl)). cbn [snd].
  specialize (IH ltac:(intros; eapply Each; cbn; eauto)). lia.
Qed.
End Enlarged.
