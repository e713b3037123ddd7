(** * C56: lattice shapes. *)
From Coq Require Import List Bool Arith ZArith Lia.
From Verif Require Import ShapeModel.
Import ListNotations.
Local Open Scope nat_scope.

(** Iterating over a set: every element once, in some order. *)
Definition set_order {A} (f : list A -> list A) : Prop := forall l, NoDup (f l) /\ forall x, In x (f l) <-> In x l.

Section Spec.
Variables tag fam : Type.
Variable tadd : tag -> tag -> tag.
Variable lats : list fam.
Variable deltas : list tag.
Variable fd : tag -> tag.
Variable inside : fam -> tag -> bool.
(** some site with this tag is in the shape *)
Definition occupied (t : tag) : Prop := exists lat, In lat lats /\ inside lat t = true.
(** tags that can be reached from the closest ones in steps of [deltas] through
    occupied tags of the fundamental domain *)
Inductive reach (starts : list tag) : tag -> Prop :=
  | reach_start t : In t starts -> occupied (fd t) -> reach starts (fd t)
  | reach_step t delta : reach starts t -> In delta deltas -> occupied (fd (tadd t delta)) -> reach starts (fd (tadd t delta)).
End Spec.

Section C56.
Variables tag fam : Type.
Variable tdec : forall a b : tag, {a = b} + {a <> b}.
Variable tadd : tag -> tag -> tag.
Variable lats : list fam.
Variable deltas : list tag.
Variable fdl : fam -> tag -> tag.
Variable fd : tag -> tag.
Variable inside : fam -> tag -> bool.
Variable set_tags : list tag -> list tag.
Variable set_sites : list (fam * tag) -> list (fam * tag).
(** All sublattices have the same fundamental domain of tags; translating
    commutes with moving to it; the opposite of each direction is one. *)
Definition shape_setting : Prop :=
  set_order set_tags /\ set_order set_sites /\ (forall lat t, In lat lats -> fdl lat t = fd t) /\
  (forall t, fd (fd t) = fd t) /\ (forall t delta, fd (tadd (fd t) delta) = fd (tadd t delta)) /\
  (forall delta, In delta deltas -> exists delta', In delta' deltas /\ forall t, tadd (tadd t delta) delta' = t).
Hypothesis H : shape_setting.
Notation next := (next tdec tadd lats deltas fdl inside set_tags set_sites).
Notation fill := (fill tdec tadd lats deltas fdl inside set_tags set_sites).
Notation first_sites := (first_sites lats fdl inside set_tags).
Notation shape_sites := (shape_sites tdec tadd lats deltas fdl inside set_tags set_sites).
Notation occ := (occupied tag fam lats inside).
Notation reach := (reach tag fam tadd lats deltas fd inside).

Lemma mem_iff t l : mem tdec t l = true <-> In t l.
Proof. unfold mem. destruct (in_dec tdec t l); split; auto; discriminate. Qed.
Lemma mem_false t l : negb (mem tdec t l) = true <-> ~ In t l.
Proof. rewrite negb_true_iff. unfold mem. destruct (in_dec tdec t l); split; auto; intros; try discriminate; contradiction. Qed.

Lemma next_tags tags sites t : In t (fst (next tags sites)) <-> exists lat, In (lat, t) sites.
Proof.
  destruct H as (S1 & _). cbn. rewrite (proj2 (S1 _)). rewrite in_map_iff. split; [intros ((l, u) & <- & Hu); eauto|intros (l & Hl); exists (l, t); auto].
Qed.
(** the sites of the next generation; those of the present one and of the last have tags in the fundamental domain *)
Lemma next_sites tags sites lat t : (forall u, In u tags -> fd u = u) -> (forall l u, In (l, u) sites -> fd u = u) ->
  In (lat, t) (snd (next tags sites)) <->
    In lat lats /\ inside lat t = true /\ ~ In t tags /\ (forall l, ~ In (l, t) sites) /\
    exists l u delta, In (l, u) sites /\ In delta deltas /\ t = fd (tadd u delta).
Proof.
  intros F1 F2. destruct H as (S1 & S2 & E & I & T & Sy).
  assert (C : forall u, In u (set_tags (map snd sites)) <-> exists l, In (l, u) sites) by (intros u; apply (next_tags tags sites)).
  unfold ShapeModel.next. cbn [snd]. rewrite (proj2 (S2 _)), in_flat_map. split.
  - intros (w & Hw & Hin). apply S1, filter_In in Hw. destruct Hw as [Hw Hold]. apply in_flat_map in Hw. destruct Hw as (u & Hu & Hw). apply in_map_iff in Hw. destruct Hw as (delta & <- & Hd).
    apply in_flat_map in Hin. destruct Hin as (l & Hl & Hin). cbv zeta in Hin. rewrite E in Hin by auto. destruct (negb _ && _) eqn:B; [|destruct Hin]. destruct Hin as [Eq|[]]. injection Eq as <- <-.
    apply andb_true_iff in B. destruct B as [B1 B2]. apply mem_false in B1. rewrite in_app_iff, C in B1. apply C in Hu. destruct Hu as (l' & Hu).
    split; auto. split; auto. split; [tauto|]. split; [intros l0 H0; apply B1; eauto|]. exists l', u, delta. auto.
  - intros (Hl & Hi & N1 & N2 & l & u & delta & Hu & Hd & ->). exists (tadd u delta).
    assert (Nold : forall x, fd x = fd (tadd u delta) -> ~ In x (tags ++ set_tags (map snd sites))).
    { intros x Ex Hx. apply in_app_iff in Hx. destruct Hx as [Hx|Hx].
      - apply N1. rewrite <- Ex, F1; auto.
      - apply C in Hx. destruct Hx as (l0 & Hx). apply (N2 l0). rewrite <- Ex, (F2 _ _ Hx). auto. }
    split.
    + apply S1, filter_In. split; [|apply mem_false, Nold; auto]. apply in_flat_map. exists u. split; [apply C; eauto|apply in_map; auto].
    + apply in_flat_map. exists lat. split; auto. cbv zeta. rewrite E by auto. replace (negb _ && _) with true; [cbn; auto|]. symmetry. apply andb_true_iff. split; auto. apply mem_false. apply Nold. apply I.
Qed.

Lemma NoDup_app_intro {B} (l1 l2 : list B) : NoDup l1 -> NoDup l2 -> (forall x, In x l1 -> In x l2 -> False) -> NoDup (l1 ++ l2).
Proof.
  intros N1 N2. induction N1 as [|a l Ha Hl IH]; intros D; cbn; auto. constructor.
  - rewrite in_app_iff. intros [X|X]; auto. apply (D a); cbn; auto.
  - apply IH. intros x Hx. apply D; cbn; auto.
Qed.
(** generation k: the tags of the last one, the sites *)
Section Gen.
Variable starts : list tag.
Fixpoint gen (k : nat) : list tag * list (fam * tag) :=
  match k with
  | O => (set_tags (map snd (first_sites starts)), first_sites starts)
  | S k => next (fst (gen k)) (snd (gen k))
  end.
Definition A (k : nat) (t : tag) : Prop := exists lat, In (lat, t) (snd (gen k)).

Lemma first_iff lat t : In (lat, t) (first_sites starts) <-> In lat lats /\ inside lat t = true /\ exists u, In u starts /\ t = fd u.
Proof.
  destruct H as (S1 & _ & E & _). unfold ShapeModel.first_sites. rewrite in_flat_map. split.
  - intros (u & Hu & Hin). apply (proj1 (proj2 (S1 _) _)) in Hu. apply in_flat_map in Hin. destruct Hin as (l & Hl & Hin). rewrite E in Hin by auto. destruct (inside l (fd u)) eqn:B; [|destruct Hin]. destruct Hin as [Eq|[]]. injection Eq as <- <-. eauto.
  - intros (Hl & Hi & u & Hu & ->). exists u. split; [apply S1; auto|]. apply in_flat_map. exists lat. split; auto. rewrite E by auto. rewrite Hi. cbn; auto.
Qed.
Lemma gen_tags k t : In t (fst (gen (S k))) <-> A k t.
Proof. cbn [gen]. apply next_tags. Qed.
Lemma gen0_tags t : In t (fst (gen 0)) <-> A 0 t.
Proof.
  destruct H as (S1 & _). cbn [gen fst]. rewrite (proj2 (S1 _)), in_map_iff. unfold A. cbn. split; [intros ((l, u) & <- & Hu); eauto|intros (l & Hl); exists (l, t); auto].
Qed.
Lemma gen_fd k : (forall u, In u (fst (gen k)) -> fd u = u) /\ (forall l u, In (l, u) (snd (gen k)) -> fd u = u).
Proof.
  assert (I : forall t, fd (fd t) = fd t) by apply H. induction k as [|k [I1 I2]].
  - split; [|intros l u Hu; apply first_iff in Hu; destruct Hu as (_ & _ & v & _ & ->); auto].
    intros u Hu. apply gen0_tags in Hu. destruct Hu as (l & Hu). apply first_iff in Hu. destruct Hu as (_ & _ & v & _ & ->). auto.
  - split; [intros u Hu; apply gen_tags in Hu; destruct Hu as (l & Hu); eauto|].
    intros l u Hu. cbn [gen] in Hu. apply next_sites in Hu; auto. destruct Hu as (_ & _ & _ & _ & l' & v & delta & _ & _ & ->). auto.
Qed.
(** the tags before generation k that are remembered *)
Definition prev (k : nat) (t : tag) : Prop := match k with O => A 0 t | S k => A k t end.
Lemma prev_iff k t : In t (fst (gen k)) <-> prev k t.
Proof. destruct k; [apply gen0_tags|apply gen_tags]. Qed.
Lemma A_succ k t lat : In (lat, t) (snd (gen (S k))) <-> In lat lats /\ inside lat t = true /\ ~ prev k t /\ ~ A k t /\ exists u delta, A k u /\ In delta deltas /\ t = fd (tadd u delta).
Proof.
  cbn [gen]. rewrite next_sites by apply gen_fd. rewrite prev_iff. unfold A. split.
  - intros (H1 & H2 & H3 & H4 & l & u & delta & Hu & Hd & E). repeat split; auto; [intros (l0 & H0); eapply H4; eauto|]. exists u, delta. eauto.
  - intros (H1 & H2 & H3 & H4 & u & delta & (l & Hu) & Hd & E). repeat split; auto; [intros l0 H0; eauto|]. exists l, u, delta. auto.
Qed.
Lemma A_all k t lat : A k t -> In lat lats -> inside lat t = true -> In (lat, t) (snd (gen k)).
Proof.
  intros (l & Ht) Hl Hi. destruct k as [|k].
  - cbn [gen snd] in *. apply first_iff in Ht. apply first_iff. tauto.
  - apply A_succ in Ht. apply A_succ. tauto.
Qed.
Lemma A_sound k t lat : In (lat, t) (snd (gen k)) -> In lat lats /\ inside lat t = true /\ fd t = t /\ reach starts t.
Proof.
  assert (I : forall t, fd (fd t) = fd t) by apply H. revert t lat. induction k as [|k IH]; intros t lat Ht.
  - apply first_iff in Ht. destruct Ht as (Hl & Hi & u & Hu & ->). repeat split; auto. constructor; auto. exists lat. auto.
  - apply A_succ in Ht. destruct Ht as (Hl & Hi & _ & _ & u & delta & (l & Hu) & Hd & ->). repeat split; auto. apply IH in Hu. apply reach_step; auto; [tauto|]. exists lat; auto.
Qed.
Lemma A_occ k t : A k t -> occ t /\ fd t = t.
Proof. intros (l & Ht). apply A_sound in Ht. split; [exists l; tauto|tauto]. Qed.
Lemma neighbour k t delta : A k t -> In delta deltas -> occ (fd (tadd t delta)) -> A (S k) (fd (tadd t delta)) \/ A k (fd (tadd t delta)) \/ prev k (fd (tadd t delta)).
Proof.
  intros Ht Hd (l & Hl & Hi). set (w := fd (tadd t delta)) in *.
  destruct (in_dec tdec w (map snd (snd (gen k)))) as [Hin|Hn].
  { right; left. apply in_map_iff in Hin. destruct Hin as ((l0, w0) & E & Hin). cbn in E. subst w0. exists l0. auto. }
  destruct (in_dec tdec w (fst (gen k))) as [Hin|Hn2]; [right; right; apply prev_iff; auto|]. left. exists l. apply A_succ. repeat split; auto.
  - rewrite <- prev_iff. auto.
  - intros (l0 & H0). apply Hn. apply in_map_iff. exists (l0, w). auto.
  - exists t, delta. auto.
Qed.
Lemma back k t : A (S k) t -> exists u delta, A k u /\ In delta deltas /\ u = fd (tadd t delta).
Proof.
  intros (l & Ht). apply A_succ in Ht. destruct Ht as (_ & _ & _ & _ & u & delta & Hu & Hd & ->). destruct H as (_ & _ & _ & I & T & Sy). destruct (Sy delta Hd) as (delta' & Hd' & E).
  exists u, delta'. split; auto. split; auto. rewrite T, E. symmetry. apply (A_occ k); auto.
Qed.
(** the generations are disjoint *)
Lemma disjoint k : forall j t, j < k -> A j t -> A k t -> False.
Proof.
  induction k as [k IH] using lt_wf_ind. intros j t Hj Aj Ak. destruct k as [|k]; [lia|]. destruct Ak as (l & Ht). pose proof Ht as Ht'. apply A_succ in Ht. destruct Ht as (_ & _ & Np & Nk & _).
  destruct (Nat.eq_dec j k) as [->|N1]; [auto|]. destruct k as [|k]; [lia|]. destruct (Nat.eq_dec j k) as [->|N2]; [auto|]. clear Np Nk.
  destruct (back (S k) t (ex_intro _ l Ht')) as (u & delta & Au & Hd & E).
  assert (Ou : occ u) by (eapply A_occ; eauto). destruct (neighbour j t delta Aj Hd) as [X|[X|X]]; rewrite <- ?E in *; auto.
  - apply (IH (S k) ltac:(lia) (S j) u); auto; lia.
  - apply (IH (S k) ltac:(lia) j u); auto; lia.
  - destruct j; cbn in X; [apply (IH (S k) ltac:(lia) 0 u); auto; lia|apply (IH (S k) ltac:(lia) j u); auto; lia].
Qed.
Lemma reach_gen t : reach starts t -> exists k, A k t.
Proof.
  induction 1 as [t Ht (l & Hl & Hi)|t delta _ (k & Hk) Hd Ho].
  - exists 0, l. apply first_iff. eauto.
  - destruct (neighbour k t delta Hk Hd Ho) as [X|[X|X]]; eauto. destruct k; eauto.
Qed.
Lemma fill_gen fuel : forall k, fst (fill fuel (fst (gen k)) (snd (gen k))) = flat_map (fun j => snd (gen j)) (seq k fuel) /\
  (snd (fill fuel (fst (gen k)) (snd (gen k))) = true <-> exists j, k <= j <= k + fuel /\ snd (gen j) = []).
Proof.
  assert (Emp : forall k, snd (gen k) = [] -> snd (gen (S k)) = []).
  { intros k Ek. destruct (snd (gen (S k))) as [|[l t] r] eqn:E; auto. exfalso. assert (X : In (l, t) (snd (gen (S k)))) by (rewrite E; cbn; auto). apply A_succ in X. destruct X as (_ & _ & _ & _ & u & _ & (l0 & Hu) & _). rewrite Ek in Hu. destruct Hu. }
  assert (Emp2 : forall k j, snd (gen k) = [] -> k <= j -> snd (gen j) = []) by (intros k j E Hj; induction Hj; auto).
  assert (Fl : forall n k, snd (gen k) = [] -> flat_map (fun j => snd (gen j)) (seq k n) = []).
  { induction n as [|n IHn]; intros k E; cbn [seq flat_map]; auto. rewrite E, (IHn (S k) (Emp k E)). reflexivity. }
  induction fuel as [|fuel IH]; intros k.
  - cbn [ShapeModel.fill seq flat_map]. destruct (snd (gen k)) as [|s l] eqn:E; cbn.
    + split; auto. split; auto. intros _. exists k. split; [lia|auto].
    + split; auto. split; [discriminate|]. intros (j & Hj & Ej). assert (j = k) by lia. subst. congruence.
  - cbn [ShapeModel.fill]. destruct (snd (gen k)) as [|s l] eqn:E.
    + split; [|split; auto; intros _; exists k; split; [lia|auto]]. symmetry. apply (Fl (S fuel) k E).
    + pose proof (IH (S k)) as [I1 I2]. rewrite <- E. change (next (fst (gen k)) (snd (gen k))) with (gen (S k)). destruct (gen (S k)) as [tags' sites'] eqn:Eg. cbn [fst snd] in I1, I2.
      destruct (fill fuel tags' sites') as [r b]. cbn [fst snd] in *. split.
      * rewrite I1. cbn. rewrite E. reflexivity.
      * rewrite I2. split; intros (j & Hj & Ej).
        -- exists j. split; [lia|auto].
        -- destruct (Nat.eq_dec j k) as [->|]; [congruence|]. exists j. split; [lia|auto].
Qed.
End Gen.

Lemma shape_unfold fuel starts out fin : shape_sites fuel starts = Some (out, fin) ->
  out = flat_map (fun j => snd (gen starts j)) (seq 0 fuel) /\ (fin = true <-> exists j, j <= fuel /\ snd (gen starts j) = []).
Proof.
  unfold ShapeModel.shape_sites. intros E. assert (E' : fill fuel (fst (gen starts 0)) (snd (gen starts 0)) = (out, fin)) by (cbn [gen fst snd]; destruct (first_sites starts); [discriminate|injection E; auto]).
  destruct (fill_gen starts fuel 0) as [X Y]. rewrite E' in X, Y. cbn [fst snd] in *. split; auto. rewrite Y. split; intros (j & Hj & Ej); exists j; split; auto; lia.
Qed.

(** Only sites of the shape with a reachable tag in the fundamental domain are yielded, ... *)
Theorem C56_sound : forall fuel starts out fin lat t, shape_sites fuel starts = Some (out, fin) -> In (lat, t) out ->
  In lat lats /\ inside lat t = true /\ fd t = t /\ reach starts t.
Proof.
  intros fuel starts out fin lat t E Hin. apply shape_unfold in E. destruct E as [-> _]. apply in_flat_map in Hin. destruct Hin as (k & _ & Hin). eapply A_sound; eauto.
Qed.
(** ... each of them is yielded eventually, and has been when the generator is exhausted; ... *)
Theorem C56_complete : forall starts lat t, reach starts t -> In lat lats -> inside lat t = true ->
  (exists F, forall fuel, F <= fuel -> exists out fin, shape_sites fuel starts = Some (out, fin) /\ In (lat, t) out) /\
  (forall fuel out, shape_sites fuel starts = Some (out, true) -> In (lat, t) out).
Proof.
  intros starts lat t R Hl Hi. destruct (reach_gen starts t R) as (k & Hk). pose proof (A_all starts k t lat Hk Hl Hi) as Hin.
  assert (Ne : first_sites starts <> []).
  { intros E. assert (G : forall j, snd (gen starts j) = []); [|rewrite G in Hin; destruct Hin]. induction j as [|j IHj]; [exact E|].
    destruct (snd (gen starts (S j))) as [|[l0 t0] r0] eqn:E0; auto. exfalso. assert (X : In (l0, t0) (snd (gen starts (S j)))) by (rewrite E0; cbn; auto). apply A_succ in X. destruct X as (_ & _ & _ & _ & u & _ & (l1 & Hu) & _). rewrite IHj in Hu. destruct Hu. }
  split.
  - exists (S k). intros fuel Hf. assert (E : exists out fin, shape_sites fuel starts = Some (out, fin)).
    { unfold ShapeModel.shape_sites. destruct (first_sites starts) as [|s l] eqn:E; [congruence|]. destruct (fill _ _ _) as [o f]. eauto. }
    destruct E as (out & fin & E). exists out, fin. split; auto. apply shape_unfold in E. destruct E as [-> _]. apply in_flat_map. exists k. split; auto. apply in_seq. lia.
  - intros fuel out E. apply shape_unfold in E. destruct E as [-> X]. destruct (proj1 X eq_refl) as (j & Hj & Ej). apply in_flat_map. exists k. split; auto. apply in_seq. split; [lia|].
    assert (k < j); [|lia]. destruct (Nat.lt_ge_cases k j); auto. exfalso.
    assert (G : forall i, j <= i -> snd (gen starts i) = []).
    { induction 1 as [|i Hji IHi]; auto. destruct (snd (gen starts (S i))) as [|[l0 t0] r0] eqn:E0; auto. exfalso. assert (Y : In (l0, t0) (snd (gen starts (S i)))) by (rewrite E0; cbn; auto). apply A_succ in Y. destruct Y as (_ & _ & _ & _ & u & _ & (l1 & Hu) & _). rewrite IHi in Hu. destruct Hu. }
    rewrite G in Hin by auto. destruct Hin.
Qed.
(** ... each only once, provided that the closest tags are not equivalent. *)
Theorem C56_once : forall fuel starts out fin, NoDup lats -> NoDup (map fd (set_tags starts)) -> shape_sites fuel starts = Some (out, fin) -> NoDup out.
Proof.
  intros fuel starts out fin Nl Ns E. apply shape_unfold in E. destruct E as [-> _].
  assert (One : forall k, NoDup (snd (gen starts k))).
  { destruct k as [|k]; [|cbn [gen]; unfold ShapeModel.next; cbn [snd]; apply H]. cbn [gen snd]. unfold ShapeModel.first_sites.
    assert (E : forall lat t, In lat lats -> fdl lat t = fd t) by apply H. revert Ns. generalize (set_tags starts). induction l as [|t l IH]; cbn [map flat_map]; intros Ns; [constructor|]. inversion Ns as [|? ? N1 N2]; subst.
    set (row := fun t => flat_map (fun lat => if inside lat (fdl lat t) then [(lat, fdl lat t)] else []) lats).
    assert (Row : forall t s, In s (row t) -> snd s = fd t).
    { intros t0 s Hs. apply in_flat_map in Hs. destruct Hs as (l0 & Hl0 & Hs). rewrite E in Hs by auto. destruct (inside _ _); [|destruct Hs]. destruct Hs as [<-|[]]. reflexivity. }
    apply NoDup_app_intro; auto.
    - fold (row t). unfold row. clear -Nl. induction Nl as [|x lats N1 N2 IH]; cbn; [constructor|]. destruct (inside x (fdl x t)); cbn; auto. constructor; auto. intros X. apply in_flat_map in X. destruct X as (y & Hy & X). destruct (inside y (fdl y t)); [|destruct X]. destruct X as [X|[]]. injection X as -> _. auto.
    - intros s Hs1 Hs2. apply in_flat_map in Hs2. destruct Hs2 as (t' & Ht' & Hs2). apply N1. rewrite <- (Row t s Hs1), (Row t' s Hs2). apply in_map. auto. }
  assert (G : forall n k, NoDup (flat_map (fun j => snd (gen starts j)) (seq k n))).
  { induction n as [|n IH]; intros k; cbn; [constructor|]. apply NoDup_app_intro; auto. intros [l t] H1 H2. apply in_flat_map in H2. destruct H2 as (j & Hj & H2). apply in_seq in Hj. apply (disjoint starts j k t); [lia| |]; exists l; auto. }
  apply G.
Qed.

(** The generator ends if finitely many tags can be reached, ... *)
Lemma levels starts n : (exists j, j <= n /\ snd (gen starts j) = []) \/
  exists l, NoDup l /\ length l = S n /\ forall t, In t l -> exists j, j <= n /\ A starts j t.
Proof.
  induction n as [|n [(j & Hj & E)|(l & N & Ll & Al)]].
  - destruct (snd (gen starts 0)) as [|[lat t] r] eqn:E; [left; exists 0; auto|]. right. exists [t]. split; [repeat constructor; cbn; tauto|]. split; auto.
    intros u [<-|[]]. exists 0. split; auto. exists lat. rewrite E. cbn; auto.
  - left. exists j. split; [lia|auto].
  - destruct (snd (gen starts (S n))) as [|[lat t] r] eqn:E; [left; exists (S n); auto|]. assert (At : A starts (S n) t) by (exists lat; rewrite E; cbn; auto).
    right. exists (t :: l). split; [constructor; auto|split; [cbn; lia|]].
    + intros Hin. destruct (Al t Hin) as (j & Hj & Aj). apply (disjoint starts (S n) j t); auto. lia.
    + intros u [<-|Hu]; [exists (S n); auto|]. destruct (Al u Hu) as (j & Hj & Aj). exists j. split; [lia|auto].
Qed.
Theorem C56_finite : forall starts l, (forall t, reach starts t -> In t l) ->
  forall fuel, length l <= fuel -> shape_sites fuel starts = None \/ exists out, shape_sites fuel starts = Some (out, true).
Proof.
  intros starts l Hl fuel Hf. destruct (shape_sites fuel starts) as [[out fin]|] eqn:E; auto. right. exists out. f_equal. f_equal. apply shape_unfold in E. destruct E as [_ E]. apply E.
  destruct (levels starts (length l)) as [(j & Hj & Ej)|(l' & N & Ll & Al)]; [exists j; split; auto; lia|]. exfalso.
  assert (X : length l' <= length l); [|lia]. apply NoDup_incl_length; auto. intros t Ht. destruct (Al t Ht) as (j & _ & lat & Hin). apply Hl. eapply A_sound; eauto.
Qed.
(** ... and only then. *)
Theorem C56_exhausted : forall fuel starts out t, shape_sites fuel starts = Some (out, true) -> reach starts t -> In t (map snd out).
Proof.
  intros fuel starts out t E R. assert (O : occ t) by (destruct R; auto). destruct O as (lat & Hl & Hi). apply in_map_iff. exists (lat, t). split; auto. eapply C56_complete; eauto.
Qed.
(** ValueError: none of the sites with the closest tags is in the shape. *)
Theorem C56_error : forall fuel starts, shape_sites fuel starts = None <-> forall t lat, In t starts -> In lat lats -> inside lat (fd t) = false.
Proof.
  intros fuel starts. unfold ShapeModel.shape_sites. split.
  - intros E t lat Ht Hl. destruct (inside lat (fd t)) eqn:B; auto. exfalso. assert (X : In (lat, fd t) (first_sites starts)) by (apply first_iff; eauto). destruct (first_sites starts); [destruct X|discriminate].
  - intros X. destruct (first_sites starts) as [|[lat t] r] eqn:E; auto. exfalso. assert (Y : In (lat, t) (first_sites starts)) by (rewrite E; cbn; auto).
    apply first_iff in Y. destruct Y as (Hl & Hi & u & Hu & ->). rewrite X in Hi by auto. discriminate.
Qed.
End C56.
Print Assumptions C56_sound.
Print Assumptions C56_complete.
Print Assumptions C56_once.
Print Assumptions C56_finite.
Print Assumptions C56_error.

(** ** The setting *)
From Verif Require Import BuilderModel SymmetryModel SymmetryProofs.
Local Open Scope nat_scope.

(** Tags of a lattice of dimension [dim]; translations.  The sublattices have
    the same periods and thus the same data (see C14, C54 for the latter). *)
Section Trans.
Variables (dim n : nat) (d : famdata) (rv : bool).
Hypothesis OK : fam_ok n d.
Hypothesis Ld : length (m_part d) = dim.
Notation tag := (ts_elt dim).
Definition lfd (t : vec) : vec := ts_act d rv (vneg (ts_which d rv t)) t.   (* to_fd *)
Lemma lfd_len t : length t = dim -> length (lfd t) = dim.
Proof. intros H. unfold lfd. rewrite ts_act_length; congruence. Qed.
Definition tag_fd (t : tag) : tag := @mk_elt dim (lfd (proj1_sig t)) (lfd_len _ (elt_len t)).
Lemma tadd_len (t u : tag) : length (vadd (proj1_sig t) (proj1_sig u)) = dim.
Proof. rewrite vadd_length; rewrite !elt_len; auto. Qed.
Definition tag_add (t u : tag) : tag := @mk_elt dim (vadd (proj1_sig t) (proj1_sig u)) (tadd_len t u).
Lemma tneg_len (t : tag) : length (vneg (proj1_sig t)) = dim.
Proof. rewrite vneg_length. apply elt_len. Qed.
Definition tag_neg (t : tag) : tag := @mk_elt dim (vneg (proj1_sig t)) (tneg_len t).

Lemma lfd_act g t : length g = n -> length t = dim -> lfd (ts_act d rv g t) = lfd t.
Proof.
  intros Hg Ht. unfold lfd at 1. rewrite (@ts_which_act n) by (auto; congruence). unfold lfd. 
  assert (Lw : length (ts_which d rv t) = n) by (apply ts_which_length; auto).
  rewrite <- ts_act_add; [|rewrite vneg_length, vadd_length; congruence|congruence]. f_equal. rewrite vneg_vadd, <- vadd_assoc, (vadd_comm _ g), vadd_assoc, vadd_negl, (vadd_comm _ (vneg _)). apply vadd_0r. rewrite vneg_length. lia.
Qed.
Lemma vadd_act g t u : ts_act d rv g (vadd t u) = vadd (ts_act d rv g t) u.
Proof. unfold ts_act. rewrite <- !vadd_assoc. f_equal. apply vadd_comm. Qed.
Theorem C56_translations : forall (fam : Type) (lats : list fam) deltas fdl set_tags set_sites,
  set_order set_tags -> set_order set_sites -> (forall lat t, In lat lats -> fdl lat t = tag_fd t) -> (forall t, In t deltas -> In (tag_neg t) deltas) ->
  shape_setting tag fam tag_add lats deltas fdl tag_fd set_tags set_sites.
Proof.
  intros fam lats deltas fdl set_tags set_sites S1 S2 E Ng. split; auto. split; auto. split; auto.
  assert (Lw : forall t, length (ts_which d rv t) = n) by (intros t; apply ts_which_length; auto). split; [|split].
  - intros t. apply sig_eq. change (lfd (lfd (proj1_sig t)) = lfd (proj1_sig t)). unfold lfd at 2. apply lfd_act; [rewrite vneg_length; auto|apply elt_len].
  - intros t u. apply sig_eq. change (lfd (vadd (lfd (proj1_sig t)) (proj1_sig u)) = lfd (vadd (proj1_sig t) (proj1_sig u))). unfold lfd at 2. rewrite <- vadd_act. apply lfd_act; [rewrite vneg_length; auto|apply (tadd_len t u)].
  - intros u Hu. exists (tag_neg u). split; auto. intros t. apply sig_eq. cbn. rewrite <- vadd_assoc, (vadd_comm (proj1_sig u)), vadd_negl. apply vadd_0r. rewrite !elt_len. lia.
Qed.
End Trans.

(** Without a symmetry. *)
Theorem C56_no_symmetry : forall dim (fam : Type) (lats : list fam) deltas fdl set_tags set_sites,
  set_order set_tags -> set_order set_sites -> (forall lat t, In lat lats -> fdl lat t = t) -> (forall t, In t deltas -> In (tag_neg dim t) deltas) ->
  shape_setting (ts_elt dim) fam (tag_add dim) lats deltas fdl (fun t => t) set_tags set_sites.
Proof.
  intros dim fam lats deltas fdl set_tags set_sites S1 S2 E Ng. repeat split; auto; try apply S1; try apply S2.
  intros u Hu. exists (tag_neg dim u). split; auto. intros t. apply sig_eq. cbn. rewrite <- vadd_assoc, (vadd_comm (proj1_sig u)), vadd_negl. apply vadd_0r. rewrite !elt_len. lia.
Qed.
Print Assumptions C56_translations.
Print Assumptions C56_no_symmetry.

(** ** Examples: a chain with two sublattices in a period of three unit cells *)
Definition zset (l : list Z) : list Z := nodup Z.eq_dec l.
Definition sdec : forall a b : bool * Z, {a = b} + {a <> b}.
Proof. decide equality; [apply Z.eq_dec|apply bool_dec]. Defined.
Definition sset (l : list (bool * Z)) : list (bool * Z) := nodup sdec l.
Lemma nodup_order {A} dec : @set_order A (nodup dec).
Proof. intros l. split; [apply NoDup_nodup|]. intros x. apply nodup_In. Qed.
Lemma chain_setting : shape_setting Z bool Z.add [false; true] [1; -1]%Z (fun _ t => t mod 3)%Z (fun t => t mod 3)%Z zset sset.
Proof.
  split; [apply nodup_order|]. split; [apply nodup_order|]. split; [reflexivity|]. split; [intros; apply Z.mod_mod; lia|]. split; [intros; apply Zplus_mod_idemp_l|].
  intros x [<-|[<-|[]]]; [exists (-1)%Z|exists 1%Z]; cbn; split; auto; intros; lia.
Qed.
(** sublattice false everywhere, true only at tag 2 *)
Example C56_chain : shape_sites Z.eq_dec Z.add [false; true] [1; -1]%Z (fun _ t => t mod 3)%Z (fun b t => negb b || (t =? 2)%Z) zset sset 3 [4; 4]%Z
  = Some ([(false, 1%Z); (false, 2%Z); (true, 2%Z); (false, 0%Z)], true).
Proof. vm_compute. reflexivity. Qed.
(** A site can be yielded twice: the sublattices have different closest tags
    that are equivalent. *)
Example C56_twice_refuted : shape_sites Z.eq_dec Z.add [false; true] [1; -1]%Z (fun _ t => t mod 3)%Z (fun b t => negb b || (t =? 2)%Z) zset sset 3 [4; 1]%Z
  = Some ([(false, 1%Z); (false, 1%Z); (false, 2%Z); (true, 2%Z); (false, 0%Z)], true).
Proof. vm_compute. reflexivity. Qed.
