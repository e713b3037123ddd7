(** * Operators: from the constructors to the defining forms. *)
From Coq Require Import List Bool Arith ZArith Ring Lia.
From Verif Require Import StarRing OrbitalsModel OrbitalsProofs SubmatrixModel OperatorModel OperatorSpec OperatorProofs.
Import ListNotations.
Set Implicit Arguments.

Lemma obind_inl (E A B : Type) (x : ores E A) (f : A -> ores E B) y : obind x f = inl y -> exists a, x = inl a /\ f a = inl y.
Proof. destruct x as [a|e]; [eauto|discriminate]. Qed.

(** ** site_ranges *)
Section Ranges.
Variable Fam : Type.
Variable fdec : forall a b : Fam, {a = b} + {a <> b}.
Variable norbs : Fam -> nat.

Lemma loop_from fams0 : forall idx tot cur acc acc' tot', ranges_loop fdec norbs fams0 idx tot cur acc = Some (acc', tot') ->
  match cur with Some (f, k) => k = norbs f | None => True end ->
  forall r, In r acc' -> In r acc \/ exists f, In f fams0 /\ norbs f = rnorbs r.
Proof.
  induction fams0 as [|f fams0 IH]; intros idx tot cur acc acc' tot' H Hc r Hr; cbn [ranges_loop] in H.
  - injection H as <- <-. auto.
  - destruct (norbs f =? 0); [discriminate|].
    set (new := match cur with Some (g, _) => if fdec f g then false else true | None => true end) in *.
    destruct new eqn:En.
    + apply IH with (r := r) in H; auto. destruct H as [[<-|H]|(g & Hg & Hn)]; auto.
      * right. exists f. split; [left; auto|reflexivity].
      * right. exists g. split; [right; auto|auto].
    + apply IH with (r := r) in H; auto. destruct H as [H|(g & Hg & Hn)]; auto. right. exists g. split; [right; auto|auto].
Qed.
Lemma ranges_from fams ranges : site_ranges fdec norbs fams = Some ranges ->
  exists rs tot, ranges = rs ++ [(length fams, 0, tot)] /\ forall r, In r rs -> exists f, In f fams /\ norbs f = rnorbs r.
Proof.
  unfold site_ranges. destruct (ranges_loop fdec norbs fams 0 0 None []) as [[acc tot]|] eqn:H; [|discriminate].
  intros [= <-]. exists (rev acc), tot. split; auto. intros r Hr. apply in_rev in Hr.
  destruct (loop_from _ _ _ _ _ H I r Hr) as [[]|?]. auto.
Qed.
Lemma norb_pos fams ranges a : site_ranges fdec norbs fams = Some ranges -> a < length fams -> 0 < norb norbs fams a.
Proof.
  intros H Ha. unfold norb. destruct (nth_error fams a) as [f|] eqn:Ef; [|apply nth_error_None in Ef; lia].
  destruct (Nat.eq_dec (norbs f) 0) as [E|]; [|lia].
  assert (site_ranges fdec norbs fams = None) by (apply ranges_None; exists f; split; auto; eapply nth_error_In; eauto). congruence.
Qed.
(** the range of a site carries its number of orbitals *)
Lemma range_of fams ranges a : site_ranges fdec norbs fams = Some ranges -> a < length fams ->
  exists r, In r (removelast ranges) /\ rnorbs r = norb norbs fams a.
Proof.
  intros H Ha. pose proof (norb_pos _ H Ha) as Hp.
  pose proof (@get_orbs_spec _ fdec norbs fams ranges a H (Nat.lt_le_incl _ _ Ha)) as Hg.
  destruct (ranges_from _ H) as (rs & tot & -> & _). rewrite removelast_last.
  unfold get_orbs in Hg.
  destruct (nth (bisect (map (fun r => fst (fst r)) (rs ++ [(length fams, 0, tot)])) a - 1) (rs ++ [(length fams, 0, tot)]) (0, 0, 0)) as [[p n] o] eqn:En.
  injection Hg as _ Hn. fold (norb norbs fams a) in Hn.
  assert (Hin : In (p, n, o) (rs ++ [(length fams, 0, tot)])).
  { rewrite <- En. destruct (Nat.lt_ge_cases (bisect (map (fun r => fst (fst r)) (rs ++ [(length fams, 0, tot)])) a - 1) (length (rs ++ [(length fams, 0, tot)]))) as [L|L].
    - apply nth_In. auto.
    - rewrite nth_overflow in En by auto. injection En as <- <- <-. lia. }
  apply in_app_or in Hin. destruct Hin as [Hin|[Hin|[]]].
  - exists (p, n, o). split; auto.
  - injection Hin as <- <- <-. lia.
Qed.
Lemma max_norbs fams ranges a : site_ranges fdec norbs fams = Some ranges -> a < length fams ->
  (forall b, b < length fams -> norb norbs fams b <= norb norbs fams a) ->
  list_max (map rnorbs ranges) = norb norbs fams a.
Proof.
  intros H Ha Hmax. apply Nat.le_antisymm.
  - apply list_max_le. apply Forall_map, Forall_forall. intros r Hr.
    destruct (ranges_from _ H) as (rs & tot & -> & Hrs). apply in_app_or in Hr. destruct Hr as [Hr|[<-|[]]].
    + destruct (Hrs r Hr) as (f & Hf & <-). apply In_nth_error in Hf. destruct Hf as (b & Hb).
      specialize (Hmax b). unfold norb in Hmax at 1. rewrite Hb in Hmax. apply Hmax. apply nth_error_Some. congruence.
    + cbn. lia.
  - destruct (range_of _ H Ha) as (r & Hr & <-).
    assert (HF : Forall (fun k => k <= list_max (map rnorbs ranges)) (map rnorbs ranges)) by (apply list_max_le; auto).
    rewrite Forall_forall in HF. apply HF. apply in_map. 
    destruct (ranges_from _ H) as (rs & tot & -> & _). rewrite removelast_last in Hr. apply in_or_app. auto.
Qed.
Lemma uniform_norbs fams ranges x a : site_ranges fdec norbs fams = Some ranges -> a < length fams ->
  nodup Nat.eq_dec (map rnorbs (removelast ranges)) = [x] -> rnorbs (nth 0 ranges (0, 0, 0)) = norb norbs fams a.
Proof.
  intros H Ha Hx. destruct (range_of _ H Ha) as (r & Hr & <-).
  assert (Hall : forall r, In r (removelast ranges) -> rnorbs r = x).
  { intros r' Hr'. assert (Hi : In (rnorbs r') (nodup Nat.eq_dec (map rnorbs (removelast ranges)))) by (apply nodup_In, in_map; auto).
    rewrite Hx in Hi. destruct Hi as [<-|[]]. auto. }
  rewrite (Hall r Hr). apply Hall. destruct ranges as [|r0 [|r1 l]]; [destruct Hr|destruct Hr|]. left. auto.
Qed.
Lemma start_S fams a : start norbs fams (S a) = start norbs fams a + norb norbs fams a.
Proof.
  unfold norb. destruct (nth_error fams a) as [f|] eqn:Ef.
  - exact (pre_S norbs _ _ Ef).
  - apply nth_error_None in Ef. unfold start. rewrite !firstn_all2 by lia. lia.
Qed.
Lemma start_mono fams a b : a <= b -> start norbs fams a <= start norbs fams b.
Proof. induction 1; auto. rewrite start_S. lia. Qed.
Lemma start_range fams a n : a < n -> start norbs fams a + norb norbs fams a <= start norbs fams n.
Proof. intros H. rewrite <- start_S. apply start_mono. lia. Qed.
Lemma orbs_spec fams ranges a : site_ranges fdec norbs fams = Some ranges -> a <= length fams ->
  get_orbs ranges a = (start norbs fams a, norb norbs fams a).
Proof. intros H Ha. exact (@get_orbs_spec _ fdec norbs fams ranges a H Ha). Qed.
End Ranges.

(** ** where *)
Section Where.
Variable R : StarRing.
Variables P E Fam : Type.
Implicit Type s : osyst R P E Fam.

Lemma ids_iff (A : Type) (l : list (option A)) r : @ids E A l = inl r <-> map Some r = l.
Proof.
  revert r. induction l as [|[x|] l IH]; intros r; cbn.
  - split; [intros [= <-]; auto|]. destruct r; [auto|discriminate].
  - split.
    + intros H. apply obind_inl in H. destruct H as (r' & Hr & [= <-]). cbn. f_equal. apply IH. auto.
    + destruct r as [|y r]; [discriminate|]. cbn. intros [= -> H]. apply IH in H. rewrite H. reflexivity.
  - split; [discriminate|destruct r; discriminate].
Qed.
Lemma map_Z_inj l l' : map Z.of_nat l = map Z.of_nat l' -> l = l'.
Proof.
  revert l'. induction l as [|x l IH]; intros [|y l']; try discriminate; auto. cbn. intros [= H1 H2].
  f_equal; [lia|apply IH; auto].
Qed.
Lemma map_ZN l : map Z.to_nat (map Z.of_nat l) = l.
Proof. rewrite map_map. erewrite map_ext; [apply map_id|]. intros; apply Nat2Z.id. Qed.
Lemma map_zz l : map (fun e => (Z.to_nat (fst e), Z.to_nat (snd e))) (map zz l) = l.
Proof. rewrite map_map. erewrite map_ext; [apply map_id|]. intros [a b]. unfold zz. cbn. rewrite !Nat2Z.id. auto. Qed.

Lemma site_where_iff s w l : (forall c, o_cell s = Some c -> c <= o_n s) ->
  normalize_site_where s w = inl l <->
  selected_sites s w l /\ (forall a, In a l -> a < nsites s) /\
  match w with WInts _ => l <> [] | WSites _ => l <> [] /\ o_fams s <> None | _ => True end.
Proof.
  intros Hc. unfold normalize_site_where.
  set (chk := check_sites s).
  assert (Hchk : forall z, chk z = inl l <-> map Z.of_nat l = z /\ forall a, In a l -> a < nsites s).
  { intros z. unfold chk, check_sites, nsites. split.
    - intros H. assert (Hb : forall x, In x z -> (0 <= x < Z.of_nat (match o_cell s with Some c => c | None => o_n s end))%Z).
      { intros x Hx. destruct (o_cell s) as [c|].
        - destruct (existsb (fun z => (Z.of_nat c <=? z)%Z) z) eqn:E1; [discriminate|].
          destruct (existsb _ z) eqn:E2 in H; [discriminate|].
          destruct (Z.leb_spec (Z.of_nat c) x) as [L|L].
          + assert (existsb (fun z => (Z.of_nat c <=? z)%Z) z = true) by (apply existsb_exists; exists x; split; auto; apply Z.leb_le; auto). congruence.
          + destruct (Z.ltb_spec x 0) as [L'|L']; [|lia].
            assert (existsb (fun z => (z <? 0)%Z || (Z.of_nat (o_n s) <=? z)%Z) z = true) by (apply existsb_exists; exists x; split; auto; apply orb_true_iff; left; apply Z.ltb_lt; auto). congruence.
        - destruct (existsb _ z) eqn:E2 in H; [discriminate|].
          destruct ((x <? 0)%Z || (Z.of_nat (o_n s) <=? x)%Z) eqn:E3.
          + assert (existsb (fun z => (z <? 0)%Z || (Z.of_nat (o_n s) <=? z)%Z) z = true) by (apply existsb_exists; exists x; auto). congruence.
          + apply orb_false_iff in E3. rewrite Z.ltb_ge, Z.leb_gt in E3. lia. }
      assert (Hl : l = map Z.to_nat z).
      { destruct (o_cell s); [destruct (existsb _ z) in H; [discriminate|]|]; destruct (existsb _ z) in H; try discriminate; congruence. }
      split.
      + subst l. rewrite map_map. clear -Hb. induction z as [|x z IH]; auto. cbn. f_equal.
        * rewrite Z2Nat.id; auto. apply Hb. left; auto.
        * apply IH. intros; apply Hb; right; auto.
      + subst l. intros a Ha. apply in_map_iff in Ha. destruct Ha as (x & <- & Hx). specialize (Hb x Hx). lia.
    - intros [<- Hr].
      assert (E1 : match o_cell s with Some c => existsb (fun z => (Z.of_nat c <=? z)%Z) (map Z.of_nat l) | None => false end = false).
      { destruct (o_cell s) as [c|]; auto. apply not_true_is_false. intros H. apply existsb_exists in H. destruct H as (x & Hx & H).
        apply in_map_iff in Hx. destruct Hx as (a & <- & Ha). specialize (Hr a Ha). apply Z.leb_le in H. lia. }
      rewrite E1.
      assert (E2 : existsb (fun z => (z <? 0)%Z || (Z.of_nat (o_n s) <=? z)%Z) (map Z.of_nat l) = false).
      { apply not_true_is_false. intros H. apply existsb_exists in H. destruct H as (x & Hx & H).
        apply in_map_iff in Hx. destruct Hx as (a & <- & Ha). specialize (Hr a Ha). apply orb_true_iff in H.
        rewrite Z.ltb_lt, Z.leb_le in H. destruct (o_cell s) as [c|]; [specialize (Hc c eq_refl)|]; lia. }
      rewrite E2, map_ZN. reflexivity. }
  destruct w as [|f|z|z]; cbn [obind selected_sites].
  - rewrite Hchk. split.
    + intros [H1 H2]. apply map_Z_inj in H1. auto.
    + intros (-> & H2 & _). auto.
  - rewrite Hchk. split.
    + intros [H1 H2]. apply map_Z_inj in H1. auto.
    + intros (-> & H2 & _). auto.
  - destruct z as [|z0 z]; cbn [obind]; [split; [discriminate|]|rewrite Hchk].
    + intros (H & _ & Hn). destruct l; [congruence|discriminate].
    + split; [intros [H1 H2]; split; auto; split; auto; intros ->; discriminate|intros (H1 & H2 & _); auto].
  - destruct z as [|z0 z]; cbn [obind]; [split; [discriminate|]|].
    + intros (H & _ & Hn & _). destruct l; [congruence|discriminate].
    + destruct (o_fams s) as [fs|]; cbn [obind].
      * split.
        -- intros H. apply obind_inl in H. destruct H as (zz0 & Hz & H). apply obind_inl in Hz. destruct Hz as (r & Hr & [= <-]).
           apply Hchk in H. destruct H as [H1 H2]. apply map_Z_inj in H1. subst r. apply ids_iff in Hr.
           split; auto. split; auto. split; [intros ->; discriminate|discriminate].
        -- intros (H1 & H2 & _). apply ids_iff in H1. rewrite H1. cbn [obind]. apply Hchk. auto.
      * split; [discriminate|]. intros (_ & _ & _ & H). congruence.
Qed.

Lemma has_edge_iff s e : has_edge s e = true <-> exists h, In h (o_edges s) /\ zz h = e.
Proof.
  unfold has_edge. rewrite existsb_exists. split.
  - intros (h & Hh & H). apply andb_true_iff in H. rewrite !Z.eqb_eq in H. exists h. split; auto. destruct e, h; unfold zz; cbn in *. f_equal; lia.
  - intros (h & Hh & <-). exists h. split; auto. unfold zz. cbn. rewrite !Z.eqb_refl. auto.
Qed.
Lemma hop_where_spec s w l : normalize_hopping_where s w = inl l ->
  selected_hoppings s w l /\ (forall h, In h l -> In h (o_edges s)) /\
  (forall c, o_cell s = Some c -> forall a b, In (a, b) l -> a <= c /\ b <= c) /\ (w = HNone -> o_cell s = None).
Proof.
  unfold normalize_hopping_where.
  set (given := given_hoppings s).
  assert (Hgiven : forall z z', given z = inl z' -> z' = z /\ exists r, z = map zz r /\ forall h, In h r -> In h (o_edges s)).
  { intros z z' H. unfold given, given_hoppings in H. destruct (existsb _ z) eqn:Ex; [discriminate|]. injection H as <-. split; auto.
    clear -Ex. induction z as [|e z IH]; [exists []; split; auto; intros ? []|]. cbn in Ex. apply orb_false_iff in Ex. destruct Ex as [E1 E2].
    apply negb_false_iff, has_edge_iff in E1. destruct E1 as (h & Hh & <-). destruct (IH E2) as (r & -> & Hr).
    exists (h :: r). split; auto. intros h' [<-|Hh']; auto. }
  set (chk := check_hoppings s).
  assert (Hchk : forall r, chk (map zz r) = inl l -> r = l /\ forall c, o_cell s = Some c -> forall a b, In (a, b) l -> a <= c /\ b <= c).
  { intros r H. unfold chk, check_hoppings in H. rewrite map_zz in H.
    destruct (match o_cell s with Some c => existsb (fun e => (Z.of_nat c <? fst e)%Z || (Z.of_nat c <? snd e)%Z) (map zz r) | None => false end) eqn:Ec; [discriminate|].
    injection H as ->. split; auto. intros c Hc a b Hab. rewrite Hc in Ec.
    destruct ((Z.of_nat c <? fst (zz (a, b)))%Z || (Z.of_nat c <? snd (zz (a, b)))%Z) eqn:E3.
    - assert (existsb (fun e => (Z.of_nat c <? fst e)%Z || (Z.of_nat c <? snd e)%Z) (map zz l) = true); [|congruence].
      apply existsb_exists. exists (zz (a, b)). split; auto. apply in_map. auto.
    - apply orb_false_iff in E3. unfold zz in E3. cbn in E3. rewrite !Z.ltb_ge in E3. lia. }
  intros H. apply obind_inl in H. destruct H as (z & Hz & H).  destruct w as [|f|y|y]; cbn [selected_hoppings].
  - destruct (o_cell s) eqn:Ec; [discriminate|]. injection Hz as <-. destruct (Hchk _ H) as [<- _].
    split; auto. split; [auto|]. split; [|auto]. congruence.
  - injection Hz as <-. destruct (Hchk _ H) as [<- H2]. split; auto. split; [|split; [auto|discriminate]].
    intros h Hh. apply filter_In in Hh. tauto.
  - destruct y as [|y0 y]; [discriminate|]. destruct (Hgiven _ _ Hz) as (-> & r & Hr & He). rewrite Hr in H.
    destruct (Hchk _ H) as [<- H2]. split; auto. split; [auto|]. split; [auto|discriminate].
  - destruct y as [|y0 y]; [discriminate|]. destruct (o_fams s); [|discriminate]. apply obind_inl in Hz. destruct Hz as (r & Hr & Hz).
    apply ids_iff in Hr. destruct (Hgiven _ _ Hz) as (-> & r' & Hr' & He). rewrite Hr' in H. destruct (Hchk _ H) as [-> H2].
    assert (r = l). { rewrite <- (map_zz r), Hr'. apply map_zz. } subst r.
    split; auto. split; [auto|]. split; [auto|discriminate].
Qed.
End Where.
