(** * Shells: the smallest of a set of well separated numbers. *)
From Coq Require Import List Bool Arith ZArith Reals Lia Lra Sorting.Permutation Sorting.Sorted.
From Verif Require Import KpmReal CvpModel CvpSpec CvpProofs LatticeSpec NeighborsSpec.
Import ListNotations.
Open Scope R_scope.

(** boundaries, recursively *)
Fixpoint bnd (tol : R) (i : nat) (ds : list R) : list nat :=
  match ds with
  | x :: (y :: _) as t => if Rltb tol (y - x) then i :: bnd tol (S i) t else bnd tol (S i) t
  | _ => []
  end.
Lemma boundaries_bnd tol ds : boundaries tol ds = bnd tol 0 ds.
Proof.
  unfold boundaries.
  assert (G : forall l i, filter (fun j => Rltb tol (nth (S j - i) l 0 - nth (j - i) l 0)) (seq i (length l - 1)) = bnd tol i l).
  { induction l as [|x l IH]; intros i; [reflexivity|]. destruct l as [|y l]; [reflexivity|]. cbn [length]. replace (S (S (length l)) - 1)%nat with (S (length (y :: l) - 1)) by (cbn; lia).
    cbn [seq]. set (f := fun j => Rltb tol (nth (S j - i) (x :: y :: l) 0 - nth (j - i) (x :: y :: l) 0)).
    assert (E0 : f i = Rltb tol (y - x)) by (unfold f; replace (S i - i)%nat with 1%nat by lia; rewrite Nat.sub_diag; reflexivity).
    cbn [filter]. rewrite E0. clear E0.
    assert (E : filter f (seq (S i) (length (y :: l) - 1)) = bnd tol (S i) (y :: l)).
    { rewrite <- IH. apply filter_ext_in. intros j Hj. apply in_seq in Hj. unfold f. replace (S j - i)%nat with (S (S j - S i)) by lia. replace (j - i)%nat with (S (j - S i)) by lia. reflexivity. }
    rewrite E. reflexivity. }
  rewrite <- G. apply filter_ext. intros j. rewrite !Nat.sub_0_r. reflexivity.
Qed.
Lemma last_cons {A} (x : A) l z : l <> [] -> last (x :: l) z = last l z.
Proof. destruct l; [congruence|reflexivity]. Qed.
Lemma last_In {A} (l : list A) z : l <> [] -> In (last l z) l.
Proof. induction l as [|x l IH]; [congruence|]. intros _. destruct l as [|y l]; [left; reflexivity|right]. apply IH. discriminate. Qed.
Lemma sorted_last tol D : 0 <= tol -> StronglySorted (fun x y => x + tol < y) D -> forall x, In x D -> x <= last D 0.
Proof.
  intros Ht S. induction S as [|a l S IH F]; intros x Hx; [destruct Hx|]. destruct l as [|b l]; [destruct Hx as [->|[]]; cbn; lra|].
  rewrite last_cons by discriminate. destruct Hx as [->|Hx]; [|apply IH; auto]. inversion F; subst. specialize (IH b (or_introl eq_refl)). lra.
Qed.
Lemma sorted_sep tol D x y : 0 <= tol -> StronglySorted (fun x y => x + tol < y) D -> In x D -> In y D -> Rabs (x - y) <= tol -> x = y.
Proof.
  intros Ht S. induction S as [|a l S IH F]; intros Hx Hy H; [destruct Hx|]. rewrite Forall_forall in F.
  destruct Hx as [->|Hx], Hy as [->|Hy]; auto.
  - specialize (F y Hy). rewrite Rabs_left in H by lra. lra.
  - specialize (F x Hx). rewrite Rabs_right in H by lra. lra.
Qed.

Lemma shells_boundaries tol : 0 <= tol -> forall ds i D, StronglySorted Rle ds -> shells (fun x => In x ds) tol D ->
  let gb := bnd tol i ds in
  (length gb = (length D - 1)%nat /\ last ds 0 = last D 0) \/
  exists g, nth_error gb (length D - 1) = Some g /\ (i <= g < i + length ds)%nat /\ nth (g - i) ds 0 = last D 0.
Proof.
  intros Ht. induction ds as [|x ds IH]; intros i D S (Ne & SD & AD & Cov) gb.
  - destruct D as [|a D]; [congruence|]. inversion AD; subst. contradiction.
  - inversion S as [|? ? S' F]; subst. rewrite Forall_forall in F.
    (* the first one *)
    destruct D as [|a D]; [congruence|]. inversion SD as [|? ? SD' FD]; subst. rewrite Forall_forall in FD. rewrite Forall_forall in AD.
    assert (Ea : a = x).
    { assert (H1 : x <= a) by (destruct (AD a (or_introl eq_refl)) as [->|H]; [lra|apply F; auto]).
      destruct (Cov x (or_introl eq_refl)) as [[E|H]|H]; auto.
      - specialize (FD x H). lra.
      - pose proof (sorted_last tol (a :: D) Ht SD a (or_introl eq_refl)). lra. }
    subst a. destruct ds as [|y ds].
    + assert (D = []) by (destruct D as [|b D]; auto; exfalso; pose proof (FD b (or_introl eq_refl)); destruct (AD b) as [->|[]]; [right; left; auto|lra]).
      subst D. left. subst gb. cbn. auto.
    + pose proof (F y (or_introl eq_refl)) as Hxy. destruct (Req_dec y x) as [->|Nxy].
      * (* a repeated one *)
        assert (Sh : shells (fun z => In z (x :: ds)) tol (x :: D)).
        { split; [discriminate|]. split; auto. split.
          - apply Forall_forall. intros z Hz. destruct (AD z Hz) as [->|H]; [left; auto|exact H].
          - intros z Hz. apply Cov. right. exact Hz. }
        assert (Eg : gb = bnd tol (Datatypes.S i) (x :: ds)) by (subst gb; cbn [bnd]; replace (Rltb tol (x - x)) with false by (symmetry; apply Rltb_false; lra); reflexivity).
        destruct (IH (Datatypes.S i) (x :: D) S' Sh) as [(E1 & E2)|(g & E1 & E2 & E3)]; [left|right]; rewrite Eg.
        -- split; auto. 
        -- exists g. split; auto. split; [cbn in E2 |- *; lia|]. rewrite <- E3. replace (g - i)%nat with (Datatypes.S (g - Datatypes.S i)) by lia. reflexivity.
      * assert (x < y) by lra. destruct (Cov y (or_intror (or_introl eq_refl))) as [[E|Hy]|Hy]; [congruence| |].
        -- (* the next shell *)
           destruct D as [|b D]; [destruct Hy|].
           assert (Sh : shells (fun z => In z (y :: ds)) tol (b :: D)).
           { split; [discriminate|]. split; auto. split.
             - apply Forall_forall. intros z Hz. destruct (AD z (or_intror Hz)) as [->|H0]; [|exact H0]. specialize (FD z Hz). lra.
             - intros z Hz. destruct (Cov z (or_intror Hz)) as [[E|H0]|H0]; [|left; auto|right; exact H0]. exfalso. subst z.
               inversion S' as [|? ? _ F']; subst. destruct Hz as [->|Hz]; [lra|]. rewrite Forall_forall in F'. specialize (F' x Hz). lra. }
           assert (Eg : gb = i :: bnd tol (Datatypes.S i) (y :: ds)).
           { subst gb. cbn [bnd]. pose proof (FD y Hy). replace (Rltb tol (y - x)) with true by (symmetry; apply Rltb_spec; lra). reflexivity. }
           destruct (IH (Datatypes.S i) (b :: D) S' Sh) as [(E1 & E2)|(g & E1 & E2 & E3)]; [left|right]; rewrite Eg.
           ++ split; [cbn in E1 |- *; rewrite Nat.sub_0_r in E1; lia|]. rewrite !(last_cons x) by discriminate. exact E2.
           ++ exists g. split; [cbn in E1 |- *; rewrite Nat.sub_0_r in E1; auto|]. split; [cbn in E2 |- *; lia|].
              rewrite (last_cons x) by discriminate. rewrite <- E3. replace (g - i)%nat with (Datatypes.S (g - Datatypes.S i)) by lia. reflexivity.
        -- (* all others are beyond the shells *)
           assert (ED : D = []).
           { destruct D as [|b D]; auto. exfalso. pose proof (FD b (or_introl eq_refl)). pose proof (sorted_last tol (x :: b :: D) Ht SD b (or_intror (or_introl eq_refl))).
             destruct (AD b (or_intror (or_introl eq_refl))) as [->|[->|Hb]]; [lra|lra|]. inversion S' as [|? ? _ F']; subst. rewrite Forall_forall in F'. specialize (F' b Hb). lra. }
           subst D. cbn [last] in Hy. right. exists i.
           assert (Eg : gb = i :: bnd tol (Datatypes.S i) (y :: ds)) by (subst gb; cbn [bnd]; replace (Rltb tol (y - x)) with true by (symmetry; apply Rltb_spec; lra); reflexivity).
           rewrite Eg. cbn. rewrite Nat.sub_diag. repeat split; auto; lia.
Qed.

(** the number of gaps of a sorted list is less than the number of its values *)
Lemma gaps_values tol : 0 <= tol -> forall l E, StronglySorted Rle l -> l <> [] -> (forall x, In x l -> In x E) -> (gaps tol l + 1 <= length E)%nat.
Proof.
  intros Ht. induction l as [|x l IH]; intros E S Ne Inc; [congruence|]. destruct l as [|y l].
  - cbn. destruct E as [|e E]; [destruct (Inc x); left; auto|cbn; lia].
  - inversion S as [|? ? S' F]; subst. change (gaps tol (x :: y :: l)) with ((if Rlt_dec tol (y - x) then 1 else 0) + gaps tol (y :: l))%nat. destruct (Rlt_dec tol (y - x)) as [H|H].
    + destruct (in_split x E (Inc x (or_introl eq_refl))) as (E1 & E2 & ->).
      assert (X : (gaps tol (y :: l) + 1 <= length (E1 ++ E2))%nat).
      { apply IH; auto; [discriminate|]. intros z Hz. specialize (Inc z (or_intror Hz)). apply in_app_iff in Inc. apply in_app_iff. destruct Inc as [|[<-|]]; auto. exfalso.
        inversion S' as [|? ? _ F']; subst. destruct Hz as [->|Hz]; [lra|]. rewrite Forall_forall in F'. specialize (F' x Hz). lra. }
      rewrite app_length in *. cbn [length]. lia.
    + apply IH; auto; [discriminate|]. intros z Hz. apply Inc. right. auto.
Qed.
