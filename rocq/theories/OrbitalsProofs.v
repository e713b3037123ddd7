(** * Proofs for site_ranges / bisect (C22). *)
From Coq Require Import List Bool Arith Lia Sorting.Sorted.
From Verif Require Import OrbitalsModel.
Import ListNotations.
Set Implicit Arguments.

(** Number of orbitals on the first [i] sites. *)
Definition orbs_before {fam} (norbs : fam -> nat) (fams : list fam) (i : nat) : nat :=
  list_sum (map norbs (firstn i fams)).

Lemma nth_sorted (a : list nat) : StronglySorted le a -> forall i j, i <= j -> j < length a -> nth i a 0 <= nth j a 0.
Proof.
  induction 1 as [|x a Hs IH Hf]; intros i j Hij Hj; cbn [length] in *; [lia|].
  destruct j as [|j]; [replace i with 0 by lia; auto|]. destruct i as [|i]; cbn.
  - rewrite Forall_forall in Hf. apply Hf. apply nth_In. lia.
  - apply IH; lia.
Qed.
Lemma bisect_loop_spec (a : list nat) x : StronglySorted le a -> forall fuel lo hi, hi - lo <= fuel -> lo <= hi -> hi <= length a ->
  (forall i, i < lo -> nth i a 0 <= x) -> (forall i, hi <= i -> i < length a -> x < nth i a 0) ->
  let r := bisect_loop fuel a x lo hi in
  r <= length a /\ (forall i, i < r -> nth i a 0 <= x) /\ (forall i, r <= i -> i < length a -> x < nth i a 0).
Proof.
  intros Hs. induction fuel as [|fuel IH]; intros lo hi Hf Hle Hhi H1 H2; cbn [bisect_loop].
  - assert (lo = hi) by lia. subst. auto.
  - destruct (Nat.ltb_spec lo hi) as [Hlt|Hge].
    + assert (Hm : lo <= (lo + hi) / 2 < hi).
      { split; [apply Nat.div_le_lower_bound; lia|apply Nat.div_lt_upper_bound; lia]. }
      set (mid := (lo + hi) / 2) in *. destruct (Nat.ltb_spec x (nth mid a 0)) as [Hx|Hx].
      * apply IH; try lia; auto. intros i Hi Hl. pose proof (nth_sorted Hs Hi Hl). lia.
      * apply IH; try lia; auto. intros i Hi. assert (i <= mid) by lia. pose proof (@nth_sorted a Hs i mid ltac:(lia) ltac:(lia)). lia.
    + assert (lo = hi) by lia. subst. auto.
Qed.
Lemma bisect_spec a x : StronglySorted le a ->
  bisect a x <= length a /\ (forall i, i < bisect a x -> nth i a 0 <= x) /\ (forall i, bisect a x <= i -> i < length a -> x < nth i a 0).
Proof. intros Hs. apply bisect_loop_spec; auto; try lia. Qed.

Section R.
Variable fam : Type.
Variable fdec : forall a b : fam, {a = b} + {a <> b}.
Variable norbs : fam -> nat.
Notation pre := (orbs_before norbs).

Lemma pre_S fams i f : nth_error fams i = Some f -> pre fams (S i) = pre fams i + norbs f.
Proof.
  unfold orbs_before. revert i. induction fams as [|g fams IH]; intros i Hi; [destruct i; discriminate|].
  destruct i as [|i]; cbn [nth_error] in Hi.
  - injection Hi as ->. unfold list_sum. cbn. lia.
  - specialize (IH i Hi). change (firstn (S (S i)) (g :: fams)) with (g :: firstn (S i) fams).
    change (firstn (S i) (g :: fams)) with (g :: firstn i fams). unfold list_sum in *. cbn [map fold_right]. rewrite IH. lia.
Qed.

(** [acc] (reversed) describes the first [idx] sites; its last range is that of
    [cur] and starts at [first]. *)
Definition good (fams : list fam) (acc : list (nat * nat * nat)) (idx : nat) (cur : option (fam * nat)) : Prop :=
  match acc with
  | [] => idx = 0 /\ cur = None
  | (p, n, o) :: _ => exists f, cur = Some (f, n) /\ n = norbs f /\ p < idx
  end /\
  StronglySorted (fun r r' => fst (fst r') < fst (fst r)) acc /\
  (forall k r, nth_error acc k = Some r ->
     let hi := match k with 0 => idx | S k => match nth_error acc k with Some r' => fst (fst r') | None => 0 end end in
     snd r = pre fams (fst (fst r)) /\ fst (fst r) < hi /\
     forall i, fst (fst r) <= i < hi -> exists f, nth_error fams i = Some f /\ norbs f = snd (fst r)) /\
  (forall r, nth_error acc (length acc - 1) = Some r -> fst (fst r) = 0).

Lemma loop_good all fams0 : forall idx cur acc acc' tot,
  idx = length all -> good (all ++ fams0) acc idx cur ->
  ranges_loop fdec norbs fams0 idx (pre (all ++ fams0) idx) cur acc = Some (acc', tot) ->
  exists cur', good (all ++ fams0) acc' (length (all ++ fams0)) cur' /\ tot = pre (all ++ fams0) (length (all ++ fams0)).
Proof.
  revert all. induction fams0 as [|f fams0 IH]; intros all idx cur acc acc' tot Hidx G E; cbn [ranges_loop] in E.
  - injection E as <- <-. rewrite app_nil_r in *. subst idx. eauto.
  - destruct (Nat.eqb_spec (norbs f) 0); [discriminate|].
    assert (Hnth : nth_error (all ++ f :: fams0) idx = Some f).
    { rewrite nth_error_app2 by lia. subst idx. rewrite Nat.sub_diag. reflexivity. }
    set (new := match cur with Some (g, _) => if fdec f g then false else true | None => true end) in *.
    set (cur2 := if new then Some (f, norbs f) else cur) in *.
    set (acc2 := if new then (idx, match cur2 with Some (_, k) => k | None => 0 end, pre (all ++ f :: fams0) idx) :: acc else acc) in *.
    assert (Hcn : match cur2 with Some (_, k) => k | None => 0 end = norbs f).
    { unfold cur2. destruct new eqn:Hnew; auto. unfold new in Hnew. destruct cur as [[g k]|]; [|discriminate].
      destruct (fdec f g) as [->|]; [|discriminate]. destruct G as [G0 _]. destruct acc as [|[[p q] o] acc0]; [destruct G0; discriminate|].
      destruct G0 as (f' & [= <- <-] & -> & _). auto. }
    rewrite Hcn in *. rewrite <- (pre_S _ _ Hnth) in E.
    assert (Happ : (all ++ [f]) ++ fams0 = all ++ f :: fams0) by (rewrite <- app_assoc; reflexivity).
    rewrite <- Happ in E |- *. eapply IH; [|rewrite Happ|exact E]; [rewrite app_length; cbn; lia|].
    destruct G as (G0 & G1 & G2 & G3). unfold acc2. destruct new eqn:Hnew.
    + split; [exists f; unfold cur2; auto|]. split; [|split].
      * constructor; auto. apply Forall_forall. intros r Hr. apply In_nth_error in Hr. destruct Hr as (k & Hk).
        cbn [fst]. clear - G2 G1 Hk. 
        assert (Hlt : fst (fst r) < idx).
        { destruct (G2 k r Hk) as (_ & H & _). destruct k as [|k]; auto.
          assert (Hacc : exists r0, nth_error acc 0 = Some r0) by (destruct acc; [destruct k; discriminate|eexists; reflexivity]).
          destruct Hacc as (r0 & H0). destruct (G2 0 r0 H0) as (_ & H' & _).
          destruct acc as [|r1 acc]; [discriminate|]. cbn in H0. injection H0 as ->.
          inversion G1 as [|? ? _ HF]; subst. rewrite Forall_forall in HF. cbn in Hk. apply nth_error_In in Hk.
          specialize (HF _ Hk). lia. }
        exact Hlt.
      * intros k r Hk. destruct k as [|k]; cbn in Hk.
        -- injection Hk as <-. cbn [fst snd]. split; auto. split; [lia|]. intros i Hi. assert (i = idx) by lia. subst i. eauto.
        -- destruct k as [|k].
           ++ destruct (G2 0 r Hk) as (A1 & A2 & A3). cbn [nth_error fst]. auto.
           ++ destruct (G2 (S k) r Hk) as (A1 & A2 & A3). cbn [nth_error] in *. auto.
      * intros r Hr. cbn [length] in Hr. destruct acc as [|r0 acc0].
        -- cbn in Hr. injection Hr as <-. cbn. destruct G0 as [G0 _]. lia.
        -- apply G3. cbn [length] in *. replace (S (S (length acc0)) - 1) with (S (S (length acc0) - 1)) in Hr by lia. exact Hr.
    + unfold new in Hnew. unfold cur2. destruct cur as [[g k0]|]; [|discriminate].
      destruct (fdec f g) as [<-|]; [|discriminate]. destruct acc as [|[[p q] o] acc0]; [destruct G0; discriminate|].
      destruct G0 as (f' & [= <- <-] & Hq & Hp).
      split; [exists f; repeat split; auto; lia|]. split; [auto|]. split; [|auto].
      intros k r Hk. destruct k as [|k].
      * destruct (G2 0 r Hk) as (A1 & A2 & A3). split; auto. split; [lia|]. intros i Hi.
        destruct (Nat.eq_dec i idx) as [->|]; [|apply A3; lia]. exists f. split; auto. cbn in Hk. injection Hk as <-. auto.
      * apply (G2 (S k) r Hk).
Qed.

Lemma loop_None fams0 : forall idx tot cur acc,
  ranges_loop fdec norbs fams0 idx tot cur acc = None <-> exists f, In f fams0 /\ norbs f = 0.
Proof.
  induction fams0 as [|f fams0 IH]; intros idx tot cur acc; cbn [ranges_loop].
  - split; [discriminate|intros (f & [] & _)].
  - destruct (Nat.eqb_spec (norbs f) 0) as [H|H].
    + split; auto. intros _. exists f. split; [left|]; auto.
    + rewrite IH. split; intros (g & Hg & Hn); exists g; split; auto; [right; auto|]. destruct Hg as [->|]; [contradiction|auto].
Qed.

Lemma ranges_None fams : site_ranges fdec norbs fams = None <-> exists f, In f fams /\ norbs f = 0.
Proof.
  unfold site_ranges. rewrite <- (loop_None fams 0 0 None []). destruct (ranges_loop _ _ _ _ _ _ _) as [[? ?]|]; split; congruence.
Qed.

Lemma ss_snoc (T : Type) (R : T -> T -> Prop) l x : StronglySorted R l -> Forall (fun y => R y x) l -> StronglySorted R (l ++ [x]).
Proof.
  induction 1 as [|y l Hs IH Hf]; intros H; cbn; [constructor; constructor|]. inversion H; subst. constructor; auto.
  apply Forall_app. auto.
Qed.
Lemma ss_rev (T : Type) (R : T -> T -> Prop) l : StronglySorted R l -> StronglySorted (fun a b => R b a) (rev l).
Proof.
  induction 1 as [|x l Hs IH Hf]; cbn; [constructor|]. apply ss_snoc; auto.
  apply Forall_rev. auto.
Qed.

Lemma get_orbs_spec fams ranges i : site_ranges fdec norbs fams = Some ranges -> i <= length fams ->
  get_orbs ranges i = (pre fams i, match nth_error fams i with Some f => norbs f | None => 0 end).
Proof.
  unfold site_ranges. intros E Hi.
  destruct (ranges_loop fdec norbs fams 0 0 None []) as [[acc tot]|] eqn:EL; [|discriminate]. injection E as <-.
  destruct (@loop_good [] fams 0 None [] acc tot eq_refl) as (cur & G & ->).
  { split; [auto|]. split; [constructor|]. split; intros k; [intros r Hk; destruct k; discriminate|discriminate]. }
  { exact EL. }
  cbn [app] in *. set (N := length fams) in *.
  set (all := rev acc ++ [(N, 0, pre fams N)]).
  destruct G as (G0 & G1 & G2 & G3).
  (* the complete list, last range first *)
  set (facc := (N, 0, pre fams N) :: acc).
  assert (Hall : all = rev facc) by reflexivity.
  assert (Hlt : forall r, In r acc -> fst (fst r) < N).
  { intros r Hr. destruct acc as [|r0 acc0]; [destruct Hr|].
    destruct (G2 0 r0 eq_refl) as (_ & H0 & _). destruct Hr as [->|Hr]; auto.
    inversion G1 as [|? ? _ HF]; subst. rewrite Forall_forall in HF. specialize (HF _ Hr). lia. }
  assert (Hss : StronglySorted le (map (fun r => fst (fst r)) all)).
  { assert (S1 : StronglySorted (fun r r' : nat * nat * nat => fst (fst r) < fst (fst r')) all).
    { rewrite Hall. apply (@ss_rev _ (fun r r' : nat * nat * nat => fst (fst r') < fst (fst r))).
      constructor; auto. apply Forall_forall. intros r Hr. apply Hlt; auto. }
    clear - S1. induction S1 as [|r l Hs IH Hf]; cbn; constructor; auto.
    apply Forall_map. eapply Forall_impl; [|exact Hf]. cbn. intros; lia. }
  unfold get_orbs. fold all. set (a := map (fun r => fst (fst r)) all) in *.
  assert (Hla : length a = S (length acc)).
  { unfold a, all. rewrite map_length, app_length, rev_length. cbn. lia. }
  destruct (@bisect_spec a i Hss) as (B1 & B2 & B3). set (r := bisect a i) in *.
  (* position k of the forward list = length acc - k of facc *)
  assert (Hnth : forall k, k <= length acc -> nth_error all k = nth_error facc (length acc - k)).
  { intros k Hk. rewrite Hall.
    assert (GEN : forall (l : list (nat * nat * nat)) k, k < length l -> nth_error (rev l) k = nth_error l (length l - S k)).
    { clear. intros l k Hk. destruct (nth_error l (length l - S k)) as [x|] eqn:E.
      - rewrite (nth_error_nth' (rev l) x) by (rewrite rev_length; auto). rewrite rev_nth by auto. f_equal.
        apply nth_error_nth. auto.
      - apply nth_error_None in E. lia. }
    rewrite GEN by (cbn; lia). cbn [length facc]. f_equal. }
  assert (Ha : forall k x, nth_error all k = Some x -> nth k a 0 = fst (fst x)).
  { intros k x Hk. unfold a. apply nth_error_nth. apply (map_nth_error (fun r => fst (fst r))) in Hk. exact Hk. }
  assert (Hr1 : 1 <= r).
  { destruct (Nat.eq_dec r 0) as [H0|]; [|lia]. exfalso.
    assert (H : i < nth 0 a 0) by (apply B3; lia).
    destruct (nth_error facc (length acc)) as [x|] eqn:Ex; [|apply nth_error_None in Ex; cbn in Ex; lia].
    rewrite (Ha 0 x) in H by (rewrite Hnth by lia; rewrite Nat.sub_0_r; auto).
    destruct acc as [|r0 acc0].
    - cbn in Ex. injection Ex as <-. cbn in H. destruct G0 as [G0 _]. lia.
    - unfold facc in Ex. cbn [length nth_error] in Ex. rewrite (G3 x) in H; [lia|]. cbn [length].
      replace (S (length acc0) - 1) with (length acc0) by lia. auto. }
  destruct (nth_error facc (length acc - (r - 1))) as [[[p n] o]|] eqn:Ex; [|apply nth_error_None in Ex; cbn in Ex; lia].
  assert (Hx : nth_error all (r - 1) = Some (p, n, o)) by (rewrite Hnth by lia; auto).
  rewrite (nth_error_nth _ _ _ Hx).
  assert (Hp : p <= i) by (change p with (fst (fst (p, n, o))); rewrite <- (Ha _ _ Hx); apply B2; lia).
  destruct (Nat.eq_dec r (S (length acc))) as [Hr|Hr].
  - replace (length acc - (r - 1)) with 0 in Ex by lia. cbn in Ex. injection Ex as <- <- <-.
    assert (i = N) by lia. subst i. rewrite Nat.sub_diag. cbn. rewrite Nat.add_0_r.
    assert (HN : nth_error fams N = None) by (apply nth_error_None; unfold N; lia). rewrite HN. reflexivity.
  - replace (length acc - (r - 1)) with (S (length acc - r)) in Ex by lia. cbn [facc nth_error] in Ex.
    destruct (G2 _ _ Ex) as (A1 & A2 & A3). cbn [fst snd] in A1, A2, A3.
    set (hi := match length acc - r with 0 => N | S k => match nth_error acc k with Some r' => fst (fst r') | None => 0 end end) in *.
    assert (Hi2 : i < hi).
    { assert (Hb : i < nth r a 0) by (apply B3; lia).
      destruct (nth_error facc (length acc - r)) as [x|] eqn:Ey; [|apply nth_error_None in Ey; cbn in Ey; lia].
      rewrite (Ha r x) in Hb by (rewrite Hnth by lia; auto). unfold hi. destruct (length acc - r) as [|k]; cbn in Ey.
      - injection Ey as <-. exact Hb.
      - rewrite Ey. exact Hb. }
    destruct (A3 i) as (f & Hf & Hn); [lia|]. rewrite Hf, Hn. f_equal. rewrite A1.
    assert (GEN : forall d, p + d < hi -> pre fams (p + d) = pre fams p + d * n).
    { induction d as [|d IHd]; intros Hd; [rewrite Nat.add_0_r; cbn; lia|].
      destruct (A3 (p + d)) as (f' & Hf' & Hn'); [lia|]. rewrite Nat.add_succ_r. rewrite (pre_S _ _ Hf'), IHd, Hn' by lia. cbn. lia. }
    specialize (GEN (i - p)). replace (p + (i - p)) with i in GEN by lia. rewrite GEN; auto.
Qed.
End R.
