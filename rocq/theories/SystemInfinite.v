(** * Finalization of infinite systems (C21). *)
From Coq Require Import List Bool Arith ZArith Lia Sorting.Sorted Permutation.
From Verif Require Import BuilderModel BuilderProofs BuilderInv BuilderReach BuilderSpec BuilderMain
  GraphModel CountingSort GraphProofs GraphSpec GraphMain GraphProps SystemModel SystemSpec SystemProofs SystemFinite.
Import ListNotations.
Set Implicit Arguments.

Lemma NoDup_appl T (l l' : list T) : NoDup (l ++ l') -> NoDup l.
Proof.
  induction l as [|x l IH]; intros H; [constructor|]. cbn in H. inversion H; subst. constructor; auto.
  intros Hx. apply H2. apply in_or_app. auto.
Qed.

Section Infinite.
Variable site : Type.
Variable dec : forall a b : site, {a = b} + {a <> b}.
Variable leb : site -> site -> bool.
Hypothesis TO : total_order leb.
Variable Sy : Symmetry site.
Hypothesis L : SymLaws Sy.
Variable dom : site -> Z.
Variable tr : Z -> elt Sy.
Hypothesis OD : one_dim Sy dom tr.
Hypothesis inv : forall k a b, leb (act Sy (tr k) a) (act Sy (tr k) b) = leb a b.
Variable C : Type.
Variable conj : C -> C.
Variable F : Type.
Variable call1 : val C F -> site -> option C.
Variable call2 : F -> site -> site -> option C.
Variable junk : nat -> nat -> Z.
Notation store := (store site C F).
Notation read_site := (@read_site site dec Sy C conj F).
Notation read_hop := (@read_hop site dec Sy C conj F).
Notation Eg := (@Eg site dec Sy C F).
Notation edge := (@BuilderInv.edge site dec C F).
Notation WF := (@WF site dec Sy C F).
Notation ham := (@ham site Sy C conj F call1 call2).
Notation eval_hop := (@eval_hop site Sy C conj F call2).
Notation eval_site := (@eval_site site Sy C F call1).
Notation finalize := (@finalize_infinite site dec leb Sy C F junk dom tr).
Notation sh k := (act Sy (tr k)).

Lemma sh_0 s : sh 0 s = s.
Proof. rewrite (od_zero OD). apply (law_act0 L). Qed.
Lemma sh_add x y s : sh x (sh y s) = sh (x + y) s.
Proof. rewrite (od_add OD), (law_act L). reflexivity. Qed.
Lemma dom_sh k s : dom (sh k s) = (k + dom s)%Z.
Proof. apply (od_inj OD). rewrite <- (od_which OD), (law_which L), (od_add OD), (od_which OD). reflexivity. Qed.
Lemma sh_inj k a b : sh k a = sh k b -> a = b.
Proof.
  intros H. apply (f_equal (sh (-k))) in H. rewrite !sh_add in H.
  replace (-k + k)%Z with 0%Z in H by lia. rewrite !sh_0 in H. auto.
Qed.
Lemma in_fd_dom s : in_fd Sy s = true <-> dom s = 0%Z.
Proof.
  unfold in_fd. rewrite (law_is0 L), (od_which OD), <- (od_zero OD). split; [apply (od_inj OD)|congruence].
Qed.

(** *** the interface *)
Lemma take_site_perm x l l' : take_site dec x l = Some l' -> Permutation l (x :: l').
Proof.
  revert l'. induction l as [|y l IH]; intros l'; cbn; [discriminate|].
  destruct (dec x y) as [->|]; [intros [= <-]; reflexivity|].
  destruct (take_site dec x l) as [r|]; cbn; [|discriminate]. intros [= <-].
  rewrite (IH r eq_refl). apply perm_swap.
Qed.
Lemma take_site_In x l : In x l -> exists l', take_site dec x l = Some l'.
Proof.
  induction l as [|y l IH]; intros H; [destruct H|]. cbn. destruct (dec x y); [eauto|].
  destruct H as [|H]; [congruence|]. destruct (IH H) as (l' & ->). cbn. eauto.
Qed.
Lemma order_loop_ok shift o : forall lset ifs ls, order_loop dec Sy tr shift lset o = Some (ifs, ls) ->
  Permutation lset ls /\ ifs = map (sh shift) o /\ ls = map (sh 1) ifs.
Proof.
  induction o as [|s o IH]; intros lset ifs ls; cbn [order_loop].
  - destruct lset; [|discriminate]. intros [= <- <-]. auto.
  - destruct (take_site dec (sh 1 (sh shift s)) lset) as [l'|] eqn:E; [|discriminate].
    destruct (order_loop dec Sy tr shift l' o) as [[i2 l2]|] eqn:E2; [|discriminate]. intros [= <- <-].
    destruct (IH _ _ _ E2) as (P & -> & ->). split; [|auto].
    rewrite (take_site_perm _ _ E). constructor. auto.
Qed.
Lemma order_loop_total shift o : forall lset, Permutation lset (map (fun s => sh 1 (sh shift s)) o) ->
  exists r, order_loop dec Sy tr shift lset o = Some r.
Proof.
  induction o as [|s o IH]; intros lset P; cbn [order_loop map] in *.
  - symmetry in P. apply Permutation_nil in P. subst. eauto.
  - destruct (@take_site_In (sh 1 (sh shift s)) lset) as (l' & E).
    { eapply Permutation_in; [symmetry; exact P|left; auto]. }
    rewrite E. destruct (IH l') as ([i2 l2] & E2).
    { eapply Permutation_cons_inv. rewrite <- (take_site_perm _ _ E). exact P. }
    rewrite E2. eauto.
Qed.
Lemma sorted_eq l : StronglySorted (fun x y => leb x y = true) l -> sort leb l = l.
Proof. intros H. apply (sorted_unique TO); auto. apply sort_perm. apply sort_sorted; auto. Qed.
Lemma sort_perm_eq l l' : Permutation l l' -> sort leb l = sort leb l'.
Proof.
  intros P. apply (sorted_unique TO); try apply (sort_sorted TO). rewrite !sort_perm. auto.
Qed.
Lemma sort_sh k l : sort leb (map (sh k) l) = map (sh k) (sort leb l).
Proof. apply sort_map. intros; apply inv. Qed.
Lemma map_sh_inv k l : map (sh (-k)) (map (sh k) l) = l.
Proof. rewrite map_map. rewrite <- map_id. apply map_ext. intros a. rewrite sh_add. replace (-k+k)%Z with 0%Z by lia. apply sh_0. Qed.

Lemma interface_ok lwith order ls ifs : interface_of dec leb Sy dom tr lwith order = inl (ls, ifs) ->
  sort leb ls = sort leb lwith /\ ifs = map (sh (-1)) (sort leb lwith) /\ length ls = length lwith.
Proof.
  unfold interface_of. destruct order as [o|].
  - destruct (order_loop dec Sy tr _ lwith o) as [[i2 l2]|] eqn:E; [|discriminate].
    unfold list_eqb. destruct (list_eq_dec dec i2 (sort leb i2)) as [Hs|]; [|discriminate]. intros [= <- <-].
    destruct (order_loop_ok _ _ _ E) as (P & H1 & H2). split; [symmetry; apply sort_perm_eq; auto|].
    split; [|symmetry; apply Permutation_length; auto].
    rewrite <- sort_sh. rewrite (@sort_perm_eq _ (map (sh (-1)) l2)) by (apply Permutation_map; auto).
    rewrite H2, (map_sh_inv 1). auto.
  - intros [= <- <-]. split; [auto|]. split; [apply sort_sh|auto].
Qed.
(** which interface orders are accepted *)
Definition order_valid (lwith : list site) (order : option (list site)) : Prop :=
  match order with None => True | Some o => exists k, o = map (sh k) (sort leb lwith) end.
Lemma interface_valid lwith order : (forall s, In s lwith -> dom s = 0%Z) ->
  (order_valid lwith order /\ exists r, interface_of dec leb Sy dom tr lwith order = inl r) \/
  (~ order_valid lwith order /\ interface_of dec leb Sy dom tr lwith order = inr (FValue site)).
Proof.
  intros Hd. destruct order as [o|]; [|left; split; [exact I|eexists; reflexivity]].
  unfold interface_of.
  set (shift := match o with [] => 0%Z | s :: _ => (- dom s - 1)%Z end).
  destruct (order_loop dec Sy tr shift lwith o) as [[i2 l2]|] eqn:E.
  - destruct (order_loop_ok _ _ _ E) as (P & H1 & H2). unfold list_eqb.
    destruct (list_eq_dec dec i2 (sort leb i2)) as [Hs|Hs].
    + left. split; [|eauto]. exists (- shift - 1)%Z.
      rewrite (@sort_perm_eq _ _ P). rewrite H2, sort_sh, <- Hs, H1, !map_map.
      rewrite <- (map_id o) at 1. apply map_ext. intros a. rewrite !sh_add.
      replace (- shift - 1 + 1 + shift)%Z with 0%Z by lia. symmetry. apply sh_0.
    + right. split; [|reflexivity]. intros (k & Hk). apply Hs. rewrite H1, Hk, sort_sh. f_equal.
      rewrite sort_sh. f_equal. symmetry. apply sorted_eq. apply sort_sorted; auto.
  - right. split; [|reflexivity]. intros (k & Hk).
    destruct (@order_loop_total shift o lwith) as (r & Er); [|congruence].
    assert (Hsh : o <> [] -> shift = (- k - 1)%Z).
    { intros Ho. unfold shift. destruct o as [|s o]; [congruence|].
      assert (Hs : In s (map (sh k) (sort leb lwith))) by (rewrite <- Hk; left; auto).
      apply in_map_iff in Hs. destruct Hs as (x & <- & Hx). rewrite dom_sh.
      rewrite (Hd x); [lia|]. eapply Permutation_in; [apply sort_perm|exact Hx]. }
    destruct o as [|s o'].
    + symmetry in Hk. apply map_eq_nil in Hk. cbn. pose proof (sort_perm leb lwith) as P. rewrite Hk in P.
      symmetry. auto.
    + rewrite Hk, map_map. rewrite (Hsh ltac:(discriminate)).
      rewrite <- (sort_perm leb lwith) at 1. rewrite <- (map_id (sort leb lwith)) at 1.
      apply Permutation_refl'. apply map_ext. intros a. rewrite !sh_add.
      match goal with |- context [sh ?z a] => replace z with 0%Z by lia end. symmetry. apply sh_0.
Qed.

(** *** the partition of the fundamental domain *)
Definition fdsites (h : store) := map fst h.
Definition lw (h : store) : list site := map fst (filter (has_next dom (C:=C) (F:=F)) h).
Definition lwo (h : store) : list site := map fst (filter (fun p => negb (has_next dom p)) h).

Lemma part_perm h : Permutation (lw h ++ lwo h) (map fst h).
Proof.
  unfold lw, lwo. induction h as [|p h IH]; cbn; auto. destruct (has_next dom p); cbn.
  - constructor. auto.
  - rewrite <- Permutation_middle. constructor. auto.
Qed.
Lemma in_lw h t : WF h -> In t (lw h) <-> exists x, edge h t x <> None /\ dom x = 1%Z.
Proof.
  intros W. unfold lw. rewrite in_map_iff. split.
  - intros ([t' nd] & <- & H). apply filter_In in H. destruct H as [H1 H2]. unfold has_next in H2.
    apply existsb_exists in H2. destruct H2 as ([x v] & H2 & H3). cbn in H2, H3. apply Z.eqb_eq in H3.
    exists x. split; auto. cbn [fst]. unfold BuilderInv.edge.
    rewrite (@lookup_In_node _ dec _ _ h t' nd) by (auto; apply W).
    destruct (In_lookup_out dec _ _ _ H2) as (v' & ->). discriminate.
  - intros (x & He & Hd). unfold BuilderInv.edge in He. destruct (lookup dec t h) as [nd|] eqn:E; [|congruence].
    exists (t, nd). split; auto. apply filter_In. split; [apply lookup_node_In with dec; auto|].
    unfold has_next. cbn [snd]. apply existsb_exists.
    destruct (lookup dec x (outs nd)) as [v|] eqn:E2; [|congruence].
    exists (x, v). split; [apply lookup_out_In with dec; auto|]. cbn. apply Z.eqb_eq. auto.
Qed.
Lemma fd_dom h t : WF h -> In t (map fst h) -> dom t = 0%Z.
Proof. intros W H. apply in_fd_dom. apply (wf_fd W). apply mem_true. auto. Qed.
Lemma to_fd_dom s : dom s = 0%Z -> forall x, to_fd2 Sy s x = (s, x).
Proof. intros H x. apply (to_fd2_id L). apply in_fd_dom. auto. Qed.
Lemma Eg_sh h k a b : Eg h (sh k a) (sh k b) = Eg h a b.
Proof. apply Eg_act. exact L. Qed.

Section Sys.
Variable h : store.
Hypothesis W : WF h.
Definition A := sort leb (lw h).
Definition B := sort leb (lwo h).
Definition ssites := A ++ B ++ map (sh (-1)) A.
Definition cell := length (lw h) + length (lwo h).

Lemma cell_AB : cell = length (A ++ B).
Proof.
  unfold cell, A, B. rewrite app_length. f_equal; symmetry; apply Permutation_length, sort_perm.
Qed.
Lemma firstn_cell : firstn cell ssites = A ++ B.
Proof. unfold ssites. rewrite app_assoc, cell_AB, firstn_app, Nat.sub_diag, firstn_all. cbn. apply app_nil_r. Qed.
Lemma AB_perm : Permutation (A ++ B) (map fst h).
Proof. unfold A, B. rewrite !sort_perm. apply part_perm. Qed.
Lemma in_AB s : In s (A ++ B) <-> In s (map fst h).
Proof. split; intros H; (eapply Permutation_in; [|exact H]); [|symmetry]; apply AB_perm. Qed.
Lemma in_A s : In s A <-> In s (lw h).
Proof. split; intros H; (eapply Permutation_in; [|exact H]); [|symmetry]; apply sort_perm. Qed.
Lemma A_dom s : In s A -> dom s = 0%Z.
Proof. intros H. apply (fd_dom s W). apply in_AB. apply in_or_app. auto. Qed.
Lemma AB_dom s : In s (A ++ B) -> dom s = 0%Z.
Proof. intros H. apply (fd_dom s W). apply in_AB. auto. Qed.
Lemma I_dom s : In s (map (sh (-1)) A) -> dom s = (-1)%Z.
Proof. intros H. apply in_map_iff in H. destruct H as (x & <- & H). rewrite dom_sh, (A_dom _ H). lia. Qed.
Lemma NoDup_sites : NoDup ssites.
Proof.
  unfold ssites. rewrite app_assoc.
  assert (HAB : NoDup (A ++ B)) by (eapply Permutation_NoDup; [symmetry; apply AB_perm|apply W]).
  apply NoDup_app; auto.
  - apply FinFun.Injective_map_NoDup; [intros x y; apply sh_inj|]. apply NoDup_appl with B. auto.
  - intros x H1 H2. apply AB_dom in H1. apply I_dom in H2. congruence.
Qed.
Lemma nth_lt i s : i < cell -> nth_error ssites i = Some s -> In s (A ++ B).
Proof.
  intros Hi Hn. unfold ssites in Hn. rewrite app_assoc in Hn. rewrite nth_error_app1 in Hn by (rewrite <- cell_AB; auto).
  eapply nth_error_In; eauto.
Qed.
Lemma nth_ge i s : cell <= i -> nth_error ssites i = Some s -> exists s0, nth_error A (i - cell) = Some s0 /\ s = sh (-1) s0.
Proof.
  intros Hi Hn. unfold ssites in Hn. rewrite app_assoc in Hn. rewrite nth_error_app2 in Hn by (rewrite <- cell_AB; auto).
  rewrite <- cell_AB in Hn. rewrite nth_error_map in Hn. destruct (nth_error A (i - cell)) as [x|]; [|discriminate].
  injection Hn as <-. eauto.
Qed.
Lemma nth_dom i s : nth_error ssites i = Some s -> dom s = if i <? cell then 0%Z else (-1)%Z.
Proof.
  intros H. destruct (Nat.ltb_spec i cell).
  - apply AB_dom. eapply nth_lt; eauto.
  - destruct (nth_ge H0 H) as (s0 & H1 & ->). rewrite dom_sh, A_dom; [lia|]. eapply nth_error_In; eauto.
Qed.

Definition ids := id_table dec ssites.
Lemma head_cases t x : edge h t x <> None ->
  dom t = 0%Z /\ In t (A ++ B) /\
  ((dom x = 0%Z /\ In x (A ++ B)) \/ (dom x = (-1)%Z /\ In x (map (sh (-1)) A)) \/
   (dom x = 1%Z /\ ~ In x ssites) \/ (dom x <> 0%Z /\ dom x <> 1%Z /\ dom x <> (-1)%Z /\ ~ In x ssites)).
Proof.
  intros He. destruct (edge h t x) as [v|] eqn:E; [|congruence].
  assert (Ht : In t (map fst h)) by (rewrite <- (mem_true dec); eapply edge_mem; eauto).
  pose proof (fd_dom t W Ht) as Hd. split; [auto|]. split; [apply in_AB; auto|].
  assert (Hns : ~ (dom x = 0%Z \/ dom x = (-1)%Z) -> ~ In x ssites).
  { intros Hn H. apply In_nth_error in H. destruct H as (k & Hk). apply nth_dom in Hk. destruct (k <? cell); tauto. }
  destruct (wf_pair W _ _ E) as (v' & E' & _).
  destruct (Z.eq_dec (dom x) 0) as [H0|H0].
  { left. split; auto. unfold BuilderInv.Eg in E'. rewrite to_fd_dom in E' by auto. cbn in E'. apply in_AB. rewrite <- (mem_true dec). eapply edge_mem; eauto. }
  right. destruct (Z.eq_dec (dom x) (-1)) as [H1|H1].
  { left. split; auto. apply in_map_iff. exists (sh 1 x). split; [rewrite sh_add; apply sh_0|].
    apply in_A, in_lw; auto. exists (sh 1 t). split; [|rewrite dom_sh; lia].
    assert (E2 : Eg h (sh 1 x) (sh 1 t) = Some v') by (rewrite Eg_sh; auto).
    unfold BuilderInv.Eg in E2. rewrite to_fd_dom in E2 by (rewrite dom_sh; lia). cbn in E2. congruence. }
  right. destruct (Z.eq_dec (dom x) 1) as [H2|H2]; [left|right]; repeat split; auto; apply Hns; lia.
Qed.

Definition contrib (tid : nat) (x : site) : list (nat * nat) :=
  match lookup dec x ids with
  | None => []
  | Some hid => (if cell <=? hid then [(hid, tid)] else []) ++ [(tid, hid)]
  end.
Definition outs_of (t : site) : list site :=
  match lookup dec t h with Some nd => map fst (outs nd) | None => [] end.
Definition iedges : list (nat * nat) :=
  flat_map (fun p => flat_map (contrib (fst p)) (outs_of (snd p))) (combine (seq 0 cell) (A ++ B)).

Lemma lookup_lt x k : lookup dec x ids = Some k -> nth_error ssites k = Some x /\ k < length ssites.
Proof.
  intros H. apply (@id_table_spec _ dec ssites x k NoDup_sites) in H. split; auto. apply nth_error_Some. congruence.
Qed.
Lemma ids_idx k x : nth_error ssites k = Some x -> lookup dec x ids = Some k.
Proof. intros H. apply (@id_table_spec _ dec ssites x k NoDup_sites). auto. Qed.
Lemma in_outs t x : In x (outs_of t) <-> edge h t x <> None.
Proof.
  unfold outs_of, BuilderInv.edge. destruct (lookup dec t h) as [nd|]; [|split; [intros []|congruence]].
  rewrite in_map_iff. split.
  - intros ([y v] & <- & H). destruct (In_lookup_out dec _ _ _ H) as (v' & Hv). cbn [fst]. congruence.
  - destruct (lookup dec x (outs nd)) as [v|] eqn:E; [|congruence]. intros _.
    exists (x, v). split; auto. apply lookup_out_In with dec; auto.
Qed.
Lemma in_enum k t : In (k, t) (combine (seq 0 cell) (A ++ B)) <-> k < cell /\ nth_error ssites k = Some t.
Proof.
  assert (G : forall (l : list site) a, In (k, t) (combine (seq a (length l)) l) <-> a <= k /\ k < a + length l /\ nth_error l (k - a) = Some t).
  { induction l as [|y l IH]; intros a; cbn [length seq combine In].
    - split; [intros []|lia].
    - rewrite IH. split.
      + intros [[= <- <-]|(H1 & H2 & H3)].
        * rewrite Nat.sub_diag. cbn. repeat split; auto; lia.
        * split; [lia|]. split; [lia|]. replace (k - a) with (S (k - S a)) by lia. auto.
      + intros (H1 & H2 & H3). destruct (Nat.eq_dec a k) as [<-|].
        * left. rewrite Nat.sub_diag in H3. cbn in H3. congruence.
        * right. replace (k - a) with (S (k - S a)) in H3 by lia. cbn in H3. repeat split; auto; lia. }
  rewrite cell_AB at 1. rewrite G. rewrite <- cell_AB, Nat.sub_0_r. cbn [Nat.add].
  unfold ssites. rewrite app_assoc. split.
  - intros (_ & H1 & H2). split; auto. rewrite nth_error_app1; auto. rewrite <- cell_AB; auto.
  - intros (H1 & H2). rewrite nth_error_app1 in H2 by (rewrite <- cell_AB; auto). repeat split; auto; lia.
Qed.

Lemma iedges_iff i j a b : nth_error ssites i = Some a -> nth_error ssites j = Some b ->
  In (i, j) iedges <-> Eg h a b <> None /\ (i < cell \/ j < cell).
Proof.
  intros Ha Hb. unfold iedges. rewrite in_flat_map. split.
  - intros ([k t] & Hk & H). apply in_enum in Hk. destruct Hk as [Hk Ht]. cbn [fst snd] in H.
    apply in_flat_map in H. destruct H as (x & Hx & H). apply in_outs in Hx.
    destruct (head_cases _ _ Hx) as (Hdt & _ & _). unfold contrib in H.
    destruct (lookup dec x ids) as [hid|] eqn:E; [|destruct H]. apply lookup_lt in E. destruct E as [E _].
    assert (HEg : Eg h t x <> None) by (unfold BuilderInv.Eg; rewrite to_fd_dom by auto; auto).
    apply in_app_or in H. destruct H as [H|[H|[]]].
    + destruct (cell <=? hid); [|destruct H]. destruct H as [H|[]]. injection H as -> ->.
      assert (a = x) by congruence. assert (b = t) by congruence. subst. split; auto.
      intros HN. apply (WF_Eg_None L _ _ W) in HN. auto.
    + injection H as -> ->. assert (a = t) by congruence. assert (b = x) by congruence. subst. auto.
  - intros [He Hc]. destruct (Nat.lt_ge_cases i cell) as [Hi|Hi].
    + exists (i, a). split; [apply in_enum; auto|]. cbn [fst snd]. apply in_flat_map. exists b.
      split.
      * apply in_outs. pose proof (nth_dom _ Ha) as Hd. destruct (Nat.ltb_spec i cell); [|lia].
        unfold BuilderInv.Eg in He. rewrite to_fd_dom in He by auto. auto.
      * unfold contrib. rewrite (ids_idx _ Hb). apply in_or_app. right. left. auto.
    + destruct Hc as [|Hj]; [lia|]. exists (j, b). split; [apply in_enum; auto|]. cbn [fst snd]. apply in_flat_map. exists a.
      split.
      * apply in_outs. pose proof (nth_dom _ Hb) as Hd. destruct (Nat.ltb_spec j cell); [|lia].
        intros HN. apply He. apply (WF_Eg_None L _ _ W). unfold BuilderInv.Eg. rewrite to_fd_dom by auto. auto.
      * unfold contrib. rewrite (ids_idx _ Ha). destruct (Nat.leb_spec cell i); [|lia]. left. auto.
Qed.

Definition near := forall t x, edge h t x <> None -> (-1 <= dom x <= 1)%Z.
Notation inode := (@infinite_node site dec C F dom h ids cell).

Lemma inode_err p e : (exists nd, lookup dec (snd p) h = Some nd) -> inode (inr e) p = inr e.
Proof.
  intros (nd & Hn). unfold infinite_node. rewrite Hn. induction (outs nd); auto.
Qed.
Lemma infinite_graph : near -> exists g,
  fold_left inode (combine (seq 0 cell) (A ++ B)) (start_graph site (length ssites)) = inl g /\
  built (length ssites) iedges g.
Proof.
  intros N. destruct (built_start site (length ssites)) as (g0 & -> & B0).
  change iedges with ([] ++ iedges). unfold iedges. apply fold_built; auto.
  intros [k t] g es Hk Bg. apply in_enum in Hk. destruct Hk as [Hk Ht]. cbn [fst snd].
  unfold infinite_node. cbn [fst snd].
  assert (Hm : In t (map fst h)) by (apply in_AB; eapply nth_lt; eauto).
  rewrite <- (mem_true dec) in Hm. destruct (proj1 (mem_lookup dec h t) Hm) as (nd & Hn). rewrite Hn.
  replace (flat_map (contrib k) (outs_of t)) with (flat_map (fun hv => contrib k (fst hv)) (outs nd)).
  2:{ unfold outs_of. rewrite Hn. clear. induction (outs nd) as [|p l IH]; cbn; auto. rewrite IH. auto. }
  assert (Hkl : k < length ssites) by (apply nth_error_Some; congruence).
  apply fold_built; auto. intros [x v] g1 es1 Hx B1. cbn [fst fbind].
  assert (He : edge h t x <> None).
  { apply in_outs. unfold outs_of. rewrite Hn. apply in_map_iff. exists (x, v). auto. }
  unfold contrib. destruct (lookup dec x ids) as [hid|] eqn:E.
  - apply lookup_lt in E. destruct E as [_ El]. destruct (cell <=? hid).
    + destruct (@built_add site _ _ _ hid k B1 El Hkl) as (g2 & -> & B2).
      destruct (@built_add site _ _ _ k hid B2 Hkl El) as (g3 & -> & B3). exists g3. split; auto.
      rewrite <- app_assoc in B3. auto.
    + apply built_add; auto.
  - rewrite app_nil_r. destruct (head_cases _ _ He) as (_ & _ & [[_ H]|[[_ H]|[[H _]|(H0 & H1 & H2 & _)]]]).
    + exfalso. apply (proj1 (id_table_None dec x NoDup_sites) E). unfold ssites. rewrite app_assoc. apply in_or_app; auto.
    + exfalso. apply (proj1 (id_table_None dec x NoDup_sites) E). unfold ssites. rewrite app_assoc. apply in_or_app; auto.
    + rewrite H. cbn. eauto.
    + specialize (N _ _ He). lia.
Qed.

Lemma fold_gen_err (X S : Type) (step : fres S graph -> X -> fres S graph) l e :
  (forall x, In x l -> step (inr e) x = inr e) -> fold_left step l (inr e) = inr e.
Proof. induction l as [|x l IH]; intros H; cbn; auto. rewrite H by (left; auto). apply IH. intros; apply H; right; auto. Qed.
Lemma fold_fail (X S : Type) (step : fres S graph -> X -> fres S graph) N e l :
  (forall x, In x l -> step (inr e) x = inr e) ->
  (forall x g es, In x l -> built N es g -> step (inl g) x = inr e \/ exists g' es', step (inl g) x = inl g' /\ built N es' g') ->
  (exists x, In x l /\ forall g es, built N es g -> step (inl g) x = inr e) ->
  forall g es, built N es g -> fold_left step l (inl g) = inr e.
Proof.
  induction l as [|x l IH]; intros H1 H2 (y & Hy & Hf) g es Bg; [destruct Hy|]. cbn [fold_left].
  destruct (H2 x g es (or_introl eq_refl) Bg) as [->|(g' & es' & E & B')].
  - apply fold_gen_err. intros; apply H1; right; auto.
  - rewrite E. apply IH with es'; auto.
    + intros; apply H1; right; auto.
    + intros; eapply H2; eauto. right; auto.
    + destruct Hy as [->|Hy]; [rewrite (Hf _ _ Bg) in E; discriminate|eauto].
Qed.

Lemma infinite_far : (exists t x, edge h t x <> None /\ ~ (-1 <= dom x <= 1)%Z) ->
  fold_left inode (combine (seq 0 cell) (A ++ B)) (start_graph site (length ssites)) = inr (FValue site).
Proof.
  intros (t0 & x0 & He0 & Hd0). destruct (built_start site (length ssites)) as (g0 & -> & B0).
  assert (Hnd : forall k t, In (k, t) (combine (seq 0 cell) (A ++ B)) -> k < length ssites /\ exists nd, lookup dec t h = Some nd).
  { intros k t Hk. apply in_enum in Hk. destruct Hk as [Hk Ht]. split; [apply nth_error_Some; congruence|].
    apply mem_lookup. apply mem_true. apply in_AB; eapply nth_lt; eauto. }
  assert (Hin : forall k t nd g1 es1, In (k, t) (combine (seq 0 cell) (A ++ B)) -> lookup dec t h = Some nd ->
    built (length ssites) es1 g1 -> forall x v, In (x, v) (outs nd) ->
    (fbind (inl g1 : fres site graph) (fun _ =>
      match lookup dec x ids with
      | None => if Z.eqb (dom x) 1 then inl g1 else inr (FValue site)
      | Some hid => add_edge_f (if cell <=? hid then add_edge_f (inl g1) hid k else inl g1) k hid
      end)) = inr (FValue site) \/ exists g' es', fbind (inl g1 : fres site graph) (fun _ =>
      match lookup dec x ids with
      | None => if Z.eqb (dom x) 1 then inl g1 else inr (FValue site)
      | Some hid => add_edge_f (if cell <=? hid then add_edge_f (inl g1) hid k else inl g1) k hid
      end) = inl g' /\ built (length ssites) es' g').
  { intros k t nd g1 es1 Hk Hn B1 x v Hx. cbn [fbind]. destruct (Hnd _ _ Hk) as [Hkl _].
    destruct (lookup dec x ids) as [hid|] eqn:E.
    - apply lookup_lt in E. destruct E as [_ El]. right. destruct (cell <=? hid).
      + destruct (@built_add site _ _ _ hid k B1 El Hkl) as (g2 & -> & B2).
        destruct (@built_add site _ _ _ k hid B2 Hkl El) as (g3 & -> & B3). eauto.
      + destruct (@built_add site _ _ _ k hid B1 Hkl El) as (g3 & -> & B3). eauto.
    - destruct (Z.eqb (dom x) 1); [right; eauto|left; auto]. }
  assert (Hany : forall l k t nd, In (k, t) (combine (seq 0 cell) (A ++ B)) -> lookup dec t h = Some nd ->
    (forall y, In y l -> In y (outs nd)) -> forall g es, built (length ssites) es g ->
    fold_left (fun r hv => fbind r (fun _ =>
      match lookup dec (fst hv) ids with
      | None => if Z.eqb (dom (fst hv)) 1 then r else inr (FValue site)
      | Some hid => add_edge_f (if cell <=? hid then add_edge_f r hid k else r) k hid
      end)) l (inl g) = inr (FValue site) \/
    exists g' es', fold_left (fun r hv => fbind r (fun _ =>
      match lookup dec (fst hv) ids with
      | None => if Z.eqb (dom (fst hv)) 1 then r else inr (FValue site)
      | Some hid => add_edge_f (if cell <=? hid then add_edge_f r hid k else r) k hid
      end)) l (inl g) = inl g' /\ built (length ssites) es' g').
  { induction l as [|[x v] l IH]; intros k t nd Hk Hn Hl g es Bg; cbn [fold_left]; [right; eauto|]. cbn [fst].
    destruct (Hin k t nd g es Hk Hn Bg x v (Hl _ (or_introl eq_refl))) as [->|(g' & es' & -> & B')].
    - left. apply fold_gen_err. auto.
    - eapply IH; eauto. intros; apply Hl; right; auto. }
  apply fold_fail with (N := length ssites) (es := []); auto.
  - intros [k t] Hk. apply inode_err. apply (Hnd _ _ Hk).
  - intros [k t] g es Hk Bg. destruct (Hnd _ _ Hk) as (_ & nd & Hn). unfold infinite_node. cbn [fst snd]. rewrite Hn.
    eapply Hany; eauto.
  - destruct (head_cases _ _ He0) as (_ & Ht & Hc). apply in_AB in Ht.
    assert (Hx0 : ~ In x0 ssites) by (destruct Hc as [[H _]|[[H _]|[[H _]|(_ & _ & _ & H)]]]; auto; lia).
    assert (Hk : exists k, In (k, t0) (combine (seq 0 cell) (A ++ B))).
    { apply in_AB in Ht. apply In_nth_error in Ht. destruct Ht as (k & Hk). exists k. apply in_enum.
      assert (k < cell) by (rewrite cell_AB; apply nth_error_Some; congruence). split; auto.
      unfold ssites. rewrite app_assoc, nth_error_app1; auto. rewrite <- cell_AB; auto. }
    destruct Hk as (k & Hk). exists (k, t0). split; auto. intros g es Bg.
    destruct (Hnd _ _ Hk) as (_ & nd & Hn). unfold infinite_node. cbn [fst snd]. rewrite Hn.
    unfold BuilderInv.edge in He0. rewrite Hn in He0. destruct (lookup dec x0 (outs nd)) as [v0|] eqn:Ev; [|congruence].
    apply lookup_out_In in Ev.
    apply fold_fail with (N := length ssites) (es := es); auto.
    + intros [x v] g1 es1 Hx B1. cbn [fst]. apply (Hin k t0 nd g1 es1 Hk Hn B1 x v Hx).
    + exists (x0, v0). split; auto. intros g1 es1 B1. cbn [fst fbind].
      unfold ids; rewrite (proj2 (id_table_None dec x0 NoDup_sites) Hx0). destruct (Z.eqb_spec (dom x0) 1); [lia|auto].
Qed.

Lemma near_dec : near \/ exists t x, edge h t x <> None /\ ~ (-1 <= dom x <= 1)%Z.
Proof.
  assert (G : forall l, (forall t x, In t l -> edge h t x <> None -> (-1 <= dom x <= 1)%Z) \/ exists t x, edge h t x <> None /\ ~ (-1 <= dom x <= 1)%Z).
  { induction l as [|t l IH]; [left; intros t x []|]. destruct IH as [IH|]; auto.
    assert (G2 : forall m, (forall x, In x m -> In x (outs_of t)) -> (forall x, In x m -> (-1 <= dom x <= 1)%Z) \/ exists t x, edge h t x <> None /\ ~ (-1 <= dom x <= 1)%Z).
    { induction m as [|x m IHm]; intros Hm; [left; intros x []|].
      destruct IHm as [IHm|]; [intros; apply Hm; right; auto| |auto].
      destruct (Z_le_dec (-1) (dom x)); [destruct (Z_le_dec (dom x) 1)|].
      - left. intros y [<-|Hy]; auto.
      - right. exists t, x. split; [apply in_outs, Hm; left; auto|lia].
      - right. exists t, x. split; [apply in_outs, Hm; left; auto|lia]. }
    destruct (G2 (outs_of t)) as [H|H]; auto. left. intros t' x [<-|Ht'] He; [apply H, in_outs; auto|eapply IH; eauto]. }
  destruct (G (map fst h)) as [H|H]; auto. left. intros t x He. apply (H t); auto.
  rewrite <- (mem_true dec). destruct (edge h t x) eqn:E; [|congruence]. eapply edge_mem; eauto.
Qed.

Lemma infinite_main order :
  let r := finalize h order in
  (near /\ order_valid (lw h) order /\ exists s, r = inl s /\ s_sites s = ssites /\ s_cell s = cell /\
     s_ids s = ids /\ fmap (onsite_of dec h) (A ++ B) = inl (s_onsites s) /\
     rep dec Sy h s (fun i j => match nth_error ssites i, nth_error ssites j with
        | Some a, Some b => Eg h a b <> None /\ (i < cell \/ j < cell) | _, _ => False end)) \/
  (~ (near /\ order_valid (lw h) order) /\ r = inr (FValue site)).
Proof.
  unfold finalize_infinite. fold (lw h). fold (lwo h). fold cell.
  destruct (@interface_valid (lw h) order) as [(Hv & [ls ifs] & E)|(Hv & E)].
  { intros s Hs. apply (fd_dom s W). apply in_AB. apply in_or_app. left. apply in_A. auto. }
  2:{ right. rewrite E. split; [tauto|reflexivity]. }
  rewrite E. cbn [fbind]. apply interface_ok in E. destruct E as (E1 & E2 & _). rewrite E1, E2.
  fold A. fold B. fold ssites. fold ids. rewrite firstn_cell.
  destruct (@fmap_ex site site _ (onsite_of dec h) (A ++ B)) as (ons & Eo & _).
  { intros x Hx. apply in_AB in Hx. unfold onsite_of. rewrite <- (mem_true dec) in Hx.
    destruct (proj1 (mem_lookup dec h x) Hx) as (nd & ->). eauto. }
  rewrite Eo. cbn [fbind].
  destruct near_dec as [N|Fa].
  2:{ right. split; [intros [N _]; destruct Fa as (t & x & H1 & H2); apply H2; eapply N; eauto|].
      rewrite (infinite_far Fa). reflexivity. }
  left. split; auto. split; auto. destruct (infinite_graph N) as (g & Eg' & Bg). rewrite Eg'. cbn [fbind].
  set (vl := fun e : Z * Z => match nth_error ssites (Z.to_nat (fst e)), nth_error ssites (Z.to_nat (snd e)) with
                        | Some a, Some b => match Eg h a b with Some v => v | None => SOther C F end
                        | _, _ => SOther C F end).
  destruct (@built_values junk _ _ _ site _ (@infinite_hop site dec Sy C F h ssites cell) vl Bg) as (c & Ls & Ec & El & Ev & Hf).
  { intros [i j] Hp. destruct Bg as (_ & _ & _ & _ & Hb). destruct (Hb _ Hp) as [Hi Hj]. cbn [fst snd] in Hi, Hj.
    destruct (nth_error ssites i) as [a|] eqn:Ea; [|apply nth_error_None in Ea; lia].
    destruct (nth_error ssites j) as [b|] eqn:Eb; [|apply nth_error_None in Eb; lia].
    unfold infinite_hop, zpair, vl. cbn [fst snd]. rewrite (nth_site_ok _ _ Ea), (nth_site_ok _ _ Eb). cbn [fbind].
    rewrite !Nat2Z.id, Ea, Eb. apply (iedges_iff i j Ea Eb) in Hp. destruct Hp as [Hp _].
    assert (Ep : (if (Z.of_nat cell <=? Z.of_nat i)%Z then to_fd2 Sy a b else (a, b)) = to_fd2 Sy a b).
    { destruct (Z.leb_spec (Z.of_nat cell) (Z.of_nat i)); auto. symmetry. apply to_fd_dom.
      pose proof (nth_dom _ Ea) as Hd. destruct (Nat.ltb_spec i cell); [auto|lia]. }
    rewrite Ep. destruct (Eg h a b) as [v|] eqn:Ee; [|congruence].
    unfold BuilderInv.Eg in Ee. destruct (to_fd2 Sy a b) as [a' b']. cbn [fst snd] in Ee.
    rewrite (@get_edge_some _ dec _ _ h a' b' v) by auto. reflexivity. }
  rewrite Ec. cbn [of_g fbind]. rewrite El. cbn [of_g fbind].
  match goal with |- context [fmap ?f ?l] => change (fmap f l) with (fmap (@infinite_hop site dec Sy C F h ssites cell) Ls) end.
  rewrite Ev. cbn [fbind].
  eexists. split; [reflexivity|]. cbn [s_sites s_ids s_onsites s_cell].
  do 4 (split; [reflexivity|]).
  intros i j a b Hij Ha Hb. cbn [s_sites s_graph s_hoppings] in *. rewrite Ha, Hb.
  assert (Hi : i < length ssites) by (apply nth_error_Some; congruence).
  assert (Hj : j < length ssites) by (apply nth_error_Some; congruence).
  destruct (Hf i j Hi Hj) as [H1 H2]. rewrite <- (iedges_iff i j Ha Hb). split; auto.
  intros Hin. destruct (H1 Hin) as (id & F1 & F2 & F3). exists id.
  apply (iedges_iff i j Ha Hb) in Hin. destruct Hin as [Hin _].
  destruct (Eg h a b) as [v|] eqn:Ee; [|congruence]. exists v. split; [auto|]. split; [|auto].
  unfold nth_hop. rewrite F2. match goal with |- context [nth_error ?l _] => change l with (map vl Ls) end.
  rewrite F3. unfold vl. cbn [fst snd]. rewrite !Nat2Z.id, Ha, Hb, Ee. reflexivity.
Qed.
End Sys.
End Infinite.
