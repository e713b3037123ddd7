(** * The dictionary of hoppings. *)
From Coq Require Import List Bool Arith ZArith Lia Ring Permutation Sorted.
From Verif Require Import StarRing DiscretizeModel DiscretizeSpec DiscretizeProofs DiscretizeEval.
Import ListNotations.
Set Implicit Arguments.

Section Dict.
Variable V : Type.
Lemma keys_dict_add k (v : list V) d : map fst (dict_add k v d) = if existsb (off_eqb k) (map fst d) then map fst d else map fst d ++ [k].
Proof.
  induction d as [|[k' v'] d IH]; [reflexivity|]. cbn [dict_add]. destruct (off_eqb k' k) eqn:E.
  - apply off_eqb_eq in E. subst. cbn. rewrite off_eqb_refl. reflexivity.
  - cbn [map fst existsb]. rewrite IH. replace (off_eqb k k') with false; [cbn; destruct (existsb (off_eqb k) (map fst d)); reflexivity|].
    symmetry. apply not_true_iff_false. intros H. apply off_eqb_eq in H. subst. rewrite off_eqb_refl in E. discriminate.
Qed.
Lemma in_keys_dict_add k (v : list V) d x : In x (map fst (dict_add k v d)) <-> In x (map fst d) \/ x = k.
Proof.
  rewrite keys_dict_add. destruct (existsb (off_eqb k) (map fst d)) eqn:E.
  - apply existsb_exists in E. destruct E as (y & Hy & Ey). apply off_eqb_eq in Ey. subst. split; [auto|intros [H|H]; subst; auto].
  - rewrite in_app_iff. cbn. intuition.
Qed.
Lemma nodup_dict_add k (v : list V) d : NoDup (map fst d) -> NoDup (map fst (dict_add k v d)).
Proof.
  intros H. rewrite keys_dict_add. destruct (existsb (off_eqb k) (map fst d)) eqn:E; [auto|]. apply NoDup_rev in H. rewrite <- (rev_involutive (_ ++ _)). apply NoDup_rev. rewrite rev_app_distr. cbn.
  constructor; [|auto]. rewrite <- in_rev. intros Hk. enough (existsb (off_eqb k) (map fst d) = true) by congruence. apply existsb_exists. exists k. split; [auto|apply off_eqb_refl].
Qed.
Variable K : StarRing.
Add Ring KringM : (r_theory K).
Definition dtotal (G : offset -> V -> K) (d : list (offset * list V)) : K := lsum K (fun kv => lsum K (G (fst kv)) (snd kv)) d.
Lemma dtotal_add G k v d : dtotal G (dict_add k v d) = radd K (dtotal G d) (lsum K (G k) v).
Proof.
  unfold dtotal. induction d as [|[k' v'] d IH]; [cbn [dict_add]; rewrite lsum_cons, !lsum_nil; cbn [fst snd]; ring|]. cbn [dict_add]. destruct (off_eqb k' k) eqn:E.
  - apply off_eqb_eq in E. subst. rewrite !lsum_cons. cbn [fst snd]. rewrite lsum_app. ring.
  - rewrite !lsum_cons, IH. ring.
Qed.
Lemma dtotal_lookup d k (G : V -> K) : NoDup (map fst d) ->
  dtotal (fun k' v => if off_eqb k' k then G v else r0 K) d = match lookup k d with Some v => lsum K G v | None => r0 K end.
Proof.
  unfold dtotal. induction d as [|[k' v'] d IH]; [reflexivity|]. cbn [map fst]. inversion 1 as [|? ? Hn Hd]; subst. rewrite lsum_cons. cbn [lookup fst snd]. destruct (off_eqb k' k) eqn:E.
  - rewrite (lsum_zero K _ d); [change (fun v : V => G v) with G; ring|]. intros [k2 v2] Hin. apply lsum_zero. intros v _. cbn [fst]. destruct (off_eqb k2 k) eqn:E2; [|auto].
    exfalso. apply Hn. apply off_eqb_eq in E. apply off_eqb_eq in E2. subst. apply in_map_iff. exists (k, v2). auto.
  - rewrite (lsum_zero K _ v') by auto. rewrite IH by auto. ring.
Qed.
End Dict.

Section Sums.
Variable F : Type.
Variable coords : list nat.
Hypothesis Hnd : NoDup coords.
Notation D := (length coords).
Notation dsum := (@discretize_summand F coords).
Notation gs s := (map (half s) coords).
Variable K : StarRing.
Add Ring KringS : (r_theory K).

Lemma extract_total (G : offset -> coef F -> K) s : dtotal K G (extract_hoppings coords (dsum s)) = lsum K (fun t => G (div_off (t_off t) (gs s)) (mkCoef t (gs s))) (dsum s).
Proof.
  unfold extract_hoppings. rewrite scales_half by auto.
  assert (H : forall ts out, dtotal K G (fold_left (fun out t => dict_add (div_off (t_off t) (gs s)) [mkCoef t (gs s)] out) ts out) = radd K (dtotal K G out) (lsum K (fun t => G (div_off (t_off t) (gs s)) (mkCoef t (gs s))) ts)).
  { induction ts as [|t ts IH]; intros out; cbn [fold_left]; [rewrite lsum_nil; ring|]. rewrite IH, dtotal_add, !lsum_cons, lsum_nil. ring. }
  rewrite H. unfold dtotal at 1. rewrite lsum_nil. ring.
Qed.
Lemma no_mom s : existsb (@is_mom F) s = false -> dsum s = [mkTerm false 0 [] (map (fun f => (f, zeros coords)) s) (zeros coords)] /\ gs s = repeat 1%Z D.
Proof.
  intros H. split.
  - induction s as [|f s IH]; [reflexivity|]. cbn in H. apply orb_false_iff in H. destruct H as [H1 H2]. destruct f; [|discriminate]. cbn [discretize_summand fold_right]. fold (dsum s). rewrite IH by auto. reflexivity.
  - assert (E : forall c, count_mom c s = 0). { intros c. induction s as [|f s IH]; [reflexivity|]. cbn in H. apply orb_false_iff in H. destruct H as [H1 H2]. destruct f; [|discriminate]. cbn. auto. }
    clear Hnd H. induction coords as [|c l IH]; [reflexivity|]. cbn. f_equal; [|auto]. unfold half. rewrite E. reflexivity.
Qed.
Lemma div_zeros_ones : div_off (zeros coords) (repeat 1%Z D) = zeros coords.
Proof. unfold div_off, zeros. clear. induction D as [|m IH]; [reflexivity|]. cbn. f_equal. auto. Qed.
Lemma expression_total (G : offset -> coef F -> K) e :
  dtotal K G (discretize_expression coords e) = lsum K (fun s => lsum K (fun t => G (div_off (t_off t) (gs s)) (mkCoef t (gs s))) (dsum s)) e.
Proof.
  unfold discretize_expression. destruct (existsb (existsb (@is_mom F)) e) eqn:E; cbn [negb].
  - assert (H1 : forall kvs out, dtotal K G (fold_left (fun out kv => dict_add (fst kv) (snd kv) out) kvs out) = radd K (dtotal K G out) (dtotal K G kvs)).
    { induction kvs as [|[k v] kvs IH]; intros out; cbn [fold_left]; [unfold dtotal at 3; rewrite lsum_nil; ring|]. rewrite IH, dtotal_add. unfold dtotal at 4. rewrite lsum_cons. unfold dtotal. cbn [fst snd]. ring. }
    assert (H2 : forall e out, dtotal K G (fold_left (fun out s => fold_left (fun out kv => dict_add (fst kv) (snd kv) out) (extract_hoppings coords (dsum s)) out) e out) =
      radd K (dtotal K G out) (lsum K (fun s => lsum K (fun t => G (div_off (t_off t) (gs s)) (mkCoef t (gs s))) (dsum s)) e)).
    { induction e0 as [|s e0 IH]; intros out; cbn [fold_left]; [rewrite lsum_nil; ring|]. rewrite IH, H1, extract_total, lsum_cons. ring. }
    rewrite H2. unfold dtotal at 1. rewrite lsum_nil. ring.
  - unfold dtotal. rewrite lsum_cons, lsum_nil. cbn [fst snd]. rewrite lsum_map. assert (A : forall x : K, radd K x (r0 K) = x) by (intros; ring). rewrite A. apply lsum_ext. intros s Hs.
    assert (Es : existsb (@is_mom F) s = false). { apply not_true_iff_false. intros H. enough (existsb (existsb (@is_mom F)) e = true) by congruence. apply existsb_exists. exists s. auto. }
    destruct (no_mom s Es) as [-> ->]. rewrite lsum_cons, lsum_nil, A. cbn [t_off]. rewrite div_zeros_ones. reflexivity.
Qed.
Variable n : nat.
Lemma tb_total (G : offset -> nat * nat * coef F -> K) h :
  dtotal K G (tb_full coords n h) = sum K n (fun i => sum K n (fun j => lsum K (fun s => lsum K (fun t => G (div_off (t_off t) (gs s)) (i, j, mkCoef t (gs s))) (dsum s)) (h i j))).
Proof.
  unfold tb_full.
  assert (H1 : forall ij kvs out, dtotal K G (fold_left (fun tb kv => dict_add (fst kv) (map (pair ij) (snd kv)) tb) kvs out) = radd K (dtotal K G out) (dtotal K (fun k c => G k (ij, c)) kvs)).
  { intros ij. induction kvs as [|[k v] kvs IH]; intros out; cbn [fold_left]; [unfold dtotal at 3; rewrite lsum_nil; ring|]. rewrite IH, dtotal_add. unfold dtotal at 4. rewrite lsum_cons. unfold dtotal. cbn [fst snd]. rewrite lsum_map. ring. }
  assert (H2 : forall es out, dtotal K G (fold_left (fun tb ij => fold_left (fun tb kv => dict_add (fst kv) (map (pair ij) (snd kv)) tb) (discretize_expression coords (h (fst ij) (snd ij))) tb) es out) =
    radd K (dtotal K G out) (lsum K (fun ij => lsum K (fun s => lsum K (fun t => G (div_off (t_off t) (gs s)) (ij, mkCoef t (gs s))) (dsum s)) (h (fst ij) (snd ij))) es)).
  { induction es as [|ij es IH]; intros out; cbn [fold_left]; [rewrite lsum_nil; ring|]. rewrite IH, H1, lsum_cons. rewrite expression_total. ring. }
  rewrite H2. unfold dtotal at 1. rewrite !lsum_cons, !lsum_nil. cbn [fst snd].
  unfold entries. rewrite lsum_flat_map. unfold sum.
  transitivity (lsum K (fun x => lsum K (fun ij => lsum K (fun s => lsum K (fun t => G (div_off (t_off t) (gs s)) (ij, mkCoef t (gs s))) (dsum s)) (h (fst ij) (snd ij))) (map (pair x) (seq 0 n))) (seq 0 n)); [ring|].
  apply lsum_ext. intros i _. rewrite lsum_map. reflexivity.
Qed.
End Sums.

(** ** Keys *)
Section Keys.
Variable F : Type.
Variable coords : list nat.
Hypothesis Hnd : NoDup coords.
Notation D := (length coords).
Notation dsum := (@discretize_summand F coords).
Notation gs s := (map (half s) coords).
Variable n : nat.
Lemma keys_fold A (k : A -> offset) V (v : A -> list V) l out : forall x, In x (map fst (fold_left (fun out a => dict_add (k a) (v a) out) l out)) <-> In x (map fst out) \/ exists a, In a l /\ x = k a.
Proof.
  revert out. induction l as [|a l IH]; intros out x; cbn [fold_left]; [split; [auto|intros [H|(a & [] & _)]; auto]|]. rewrite IH, in_keys_dict_add. cbn [In].
  split; [intros [[H|H]|(b & Hb & E)]; eauto|intros [H|(b & [<-|Hb] & E)]; eauto].
Qed.
Lemma nodup_fold A (k : A -> offset) V (v : A -> list V) l out : NoDup (map fst out) -> NoDup (map fst (fold_left (fun out a => dict_add (k a) (v a) out) l out)).
Proof. revert out. induction l as [|a l IH]; intros out H; cbn [fold_left]; [auto|]. apply IH, nodup_dict_add, H. Qed.
Definition is_key (e : expression F) (x : offset) : Prop := exists s, In s e /\ exists t, In t (dsum s) /\ x = div_off (t_off t) (gs s).
Lemma expression_keys e x : In x (map fst (discretize_expression coords e)) <-> is_key e x \/ (existsb (existsb (@is_mom F)) e = false /\ x = zeros coords).
Proof.
  unfold discretize_expression, is_key. destruct (existsb (existsb (@is_mom F)) e) eqn:E; cbn [negb].
  - assert (H : forall e out, In x (map fst (fold_left (fun out s => fold_left (fun out kv => dict_add (fst kv) (snd kv) out) (extract_hoppings coords (dsum s)) out) e out)) <->
      In x (map fst out) \/ exists s, In s e /\ exists t, In t (dsum s) /\ x = div_off (t_off t) (gs s)).
    { induction e0 as [|s e0 IH]; intros out; cbn [fold_left]; [split; [auto|intros [H|(s & [] & _)]; auto]|]. rewrite IH, keys_fold.
      assert (Hx : (exists a, In a (extract_hoppings coords (dsum s)) /\ x = fst a) <-> exists t, In t (dsum s) /\ x = div_off (t_off t) (gs s)).
      { transitivity (In x (map fst (extract_hoppings coords (dsum s)))).
        - rewrite in_map_iff. split; intros (a & H1 & H2); exists a; auto.
        - unfold extract_hoppings. rewrite scales_half by auto. rewrite keys_fold. cbn. split; [intros [[]|H]; auto|auto]. }
      rewrite Hx. cbn [In]. split; [intros [[H|H]|(b & Hb & E')]; [auto|right; exists s; auto|right; exists b; auto]|intros [H|(b & [<-|Hb] & E')]; eauto]. }
    rewrite H. cbn. split; [intros [[]|H']; auto|intros [H'|[H' _]]; [auto|discriminate]].
  - cbn. split; [intros [<-|[]]; auto|]. intros [(s & Hs & t & Ht & ->)|[_ ->]]; [|auto]. left.
    assert (Es : existsb (@is_mom F) s = false). { apply not_true_iff_false. intros H. enough (existsb (existsb (@is_mom F)) e = true) by congruence. apply existsb_exists. exists s. auto. }
    destruct (no_mom coords s Es) as [E1 E2]. rewrite E1 in Ht. destruct Ht as [<-|[]]. rewrite E2. cbn [t_off]. rewrite div_zeros_ones. reflexivity.
Qed.
Lemma tb_keys h x : In x (map fst (tb_full coords n h)) <-> x = zeros coords \/ exists i j, i < n /\ j < n /\ is_key (h i j) x.
Proof.
  unfold tb_full.
  assert (H : forall es out, In x (map fst (fold_left (fun tb ij => fold_left (fun tb kv => dict_add (fst kv) (map (pair ij) (snd kv)) tb) (discretize_expression coords (h (fst ij) (snd ij))) tb) es out)) <->
    In x (map fst out) \/ exists ij, In ij es /\ In x (map fst (discretize_expression coords (h (fst ij) (snd ij))))).
  { induction es as [|ij es IH]; intros out; cbn [fold_left]; [split; [auto|intros [H|(s & [] & _)]; auto]|]. rewrite IH.
    pose proof (keys_fold (fun kv : offset * list (coef F) => fst kv) (fun kv => map (pair ij) (snd kv)) (discretize_expression coords (h (fst ij) (snd ij))) out x) as Hk. cbn beta in Hk. rewrite Hk.
    assert (Hx : (exists a, In a (discretize_expression coords (h (fst ij) (snd ij))) /\ x = fst a) <-> In x (map fst (discretize_expression coords (h (fst ij) (snd ij))))) by (rewrite in_map_iff; split; intros (a & H1 & H2); exists a; auto).
    rewrite Hx. cbn [In]. split; [intros [[H|H]|(b & Hb & E')]; [auto|right; exists ij; auto|right; exists b; auto]|intros [H|(b & [<-|Hb] & E')]; eauto]. }
  rewrite H. cbn [map fst In]. split.
  - intros [[<-|[]]|((i, j) & Hij & Hx)]; [auto|]. apply expression_keys in Hx. cbn [fst snd] in Hx. destruct Hx as [Hx|[_ ->]]; [|auto]. right. exists i, j. unfold entries in Hij.
    apply in_flat_map in Hij. destruct Hij as (i' & Hi & Hij). apply in_map_iff in Hij. destruct Hij as (j' & [= <- <-] & Hj). apply in_seq in Hi. apply in_seq in Hj. repeat split; auto; lia.
  - intros [->|(i & j & Hi & Hj & Hx)]; [auto|]. right. exists (i, j). split; [|apply expression_keys; auto]. unfold entries. apply in_flat_map. exists i. split; [apply in_seq; lia|]. apply in_map, in_seq. lia.
Qed.
Lemma tb_nodup (h : nat -> nat -> expression F) : NoDup (map fst (tb_full coords n h)).
Proof.
  unfold tb_full. assert (H : forall es out, NoDup (map fst out) -> NoDup (map fst (fold_left (fun tb ij => fold_left (fun tb kv => dict_add (fst kv) (map (pair ij) (snd kv)) tb) (discretize_expression coords (h (fst ij) (snd ij))) tb) es out))).
  { induction es as [|ij es IH]; intros out Ho; cbn [fold_left]; [auto|]. apply IH. apply (nodup_fold (fun kv : offset * list (coef F) => fst kv) (fun kv => map (pair ij) (snd kv))). auto. }
  apply H. repeat constructor; auto.
Qed.
(** divisibility of the offsets *)
Lemma nth_div o g i : i < length o -> length o = length g -> nth i (div_off o g) 0%Z = (nth i o 0 / nth i g 1)%Z.
Proof. unfold div_off. revert g i. induction o as [|x o IH]; intros [|z g] [|i] H1 H2; cbn in *; try lia; auto. apply IH; lia. Qed.
(** multiplication by the factors *)
Definition mul_off (g : list Z) (o : offset) : offset := map (fun p => (fst p * snd p)%Z) (combine g o).
Lemma nth_mul o g i : i < length o -> length o = length g -> nth i (mul_off g o) 0%Z = (nth i g 1 * nth i o 0)%Z.
Proof. unfold mul_off. revert g i. induction o as [|x o IH]; intros [|z g] [|i] H1 H2; cbn in *; try lia; auto. apply IH; lia. Qed.
Lemma nth_gs (s : summand F) i : i < D -> nth i (gs s) 1%Z = half s (nth i coords 0).
Proof. clear. revert i. induction coords as [|c l IH]; intros [|i] H; cbn in *; try lia; auto. apply IH. lia. Qed.
Lemma div_off_nth s t i : In t (dsum s) -> i < D -> nth i (t_off t) 0%Z = (nth i (gs s) 1 * nth i (div_off (t_off t) (gs s)) 0)%Z.
Proof.
  intros Ht Hi. pose proof (off_length _ _ _ Ht) as Hl. rewrite nth_div by (rewrite ?map_length; lia). rewrite nth_gs by auto.
  unfold half. destruct ((0 <? count_mom (nth i coords 0) s) && Nat.even (count_mom (nth i coords 0) s)) eqn:E; [|rewrite Z.div_1_r; lia].
  apply andb_true_iff in E. destruct E as [_ E]. rewrite <- (off_parity Hnd _ _ Ht Hi) in E. apply even_div2 in E. destruct E as [z ->]. rewrite Z.div_mul by lia. lia.
Qed.
Lemma div_off_length s t : In t (dsum s) -> length (div_off (t_off t) (gs s)) = D.
Proof. intros Ht. unfold div_off. rewrite map_length, combine_length, map_length, (off_length _ _ _ Ht). lia. Qed.
Lemma mul_div s t : In t (dsum s) -> mul_off (gs s) (div_off (t_off t) (gs s)) = t_off t.
Proof.
  intros Ht. apply (nth_ext _ _ 0%Z 0%Z). { unfold mul_off. rewrite map_length, combine_length, map_length, div_off_length, (off_length _ _ _ Ht) by auto. lia. }
  intros i Hi. unfold mul_off in Hi. rewrite map_length, combine_length, map_length, div_off_length in Hi by auto. rewrite (div_off_nth s t Ht) by lia. apply nth_mul; rewrite div_off_length by auto; rewrite ?map_length; lia.
Qed.
Lemma mul_inj g o o' : (forall z, In z g -> z <> 0%Z) -> length o = length g -> length o' = length g -> mul_off g o = mul_off g o' -> o = o'.
Proof.
  revert o o'. induction g as [|z g IH]; intros [|x o] [|y o'] Hg H1 H2; cbn in H1, H2; try discriminate; [auto|]. unfold mul_off in *. cbn. intros [= E1 E2]. f_equal; [|apply IH; auto; intros; apply Hg; right; auto].
  apply (Z.mul_reg_l _ _ z); [apply Hg; left; auto|auto].
Qed.
Lemma gs_pos (s : summand F) z : In z (gs s) -> z = 1%Z \/ z = 2%Z.
Proof. intros H. apply in_map_iff in H. destruct H as (c & <- & _). unfold half. destruct (_ && _); auto. Qed.
Lemma div_off_iff s t d : In t (dsum s) -> length d = D -> (div_off (t_off t) (gs s) = d <-> t_off t = mul_off (gs s) d).
Proof.
  intros Ht Hd. rewrite <- (mul_div s t Ht) at 2. split; [intros ->; auto|]. apply mul_inj; rewrite ?map_length, ?div_off_length; auto. intros z Hz. apply gs_pos in Hz. lia.
Qed.
Lemma neg_mul g o : neg (mul_off g o) = mul_off g (neg o).
Proof. unfold neg, mul_off. revert o. induction g as [|z g IH]; intros [|x o]; cbn; auto. f_equal; [lia|apply IH]. Qed.
(** offsets are symmetric *)
Lemma off_sym s t : In t (dsum s) -> exists t', In t' (dsum s) /\ t_off t' = neg (t_off t).
Proof.
  revert t. induction s as [|f s IH]; intros t Ht.
  { cbn in Ht. destruct Ht as [<-|[]]. eexists. split; [left; reflexivity|]. cbn. unfold neg, zeros. clear. induction D as [|m IHm]; cbn; [auto|f_equal; auto]. }
  cbn [discretize_summand fold_right] in *. fold (dsum s) in *. assert (Hm : forall f, In t (map (mult coords f) (dsum s)) -> exists t', In t' (map (mult coords f) (dsum s)) /\ t_off t' = neg (t_off t)).
  { intros g H. apply in_map_iff in H. destruct H as (t' & <- & H). destruct (IH _ H) as (t2 & H2 & E2). exists (mult coords g t2). split; [apply in_map; auto|exact E2]. }
  destruct f as [g|c e]; [apply Hm; auto|]. rewrite apply_mom in *. destruct (position c coords) as [i|]; [|apply Hm; auto]. clear Hm. revert t Ht. induction e as [|e IHe]; intros t Ht; [apply IH; auto|].
  rewrite iter_S in *. apply in_differentiate in Ht. destruct Ht as (t' & Ht & b & ->). destruct (IHe _ Ht) as (t2 & H2 & E2). exists (mom_term i (negb b) t2). split; [apply in_differentiate; eauto|].
  cbn. rewrite E2, neg_bump. f_equal. destruct b; reflexivity.
Qed.
Lemma is_key_sym e x : is_key e x -> is_key e (neg x).
Proof.
  intros (s & Hs & t & Ht & ->). destruct (off_sym s t Ht) as (t' & Ht' & E). exists s. split; [auto|]. exists t'. split; [auto|]. symmetry.
  apply div_off_iff; [auto|unfold neg; rewrite map_length; apply div_off_length; auto|]. rewrite E, <- neg_mul, mul_div; auto.
Qed.
Lemma neg_zeros : neg (zeros coords) = zeros coords.
Proof. unfold neg, zeros. clear. induction D as [|m IHm]; cbn; [auto|f_equal; auto]. Qed.
Lemma keys_sym (h : nat -> nat -> expression F) x : In x (map fst (tb_full coords n h)) -> In (neg x) (map fst (tb_full coords n h)).
Proof. rewrite !tb_keys. intros [->|(i & j & Hi & Hj & Hx)]; [left; apply neg_zeros|]. right. exists i, j. repeat split; auto. apply is_key_sym; auto. Qed.
Lemma keys_length (h : nat -> nat -> expression F) x : In x (map fst (tb_full coords n h)) -> length x = D.
Proof. rewrite tb_keys. intros [->|(i & j & _ & _ & s & _ & t & Ht & ->)]; [apply zeros_length|apply div_off_length; auto]. Qed.
End Keys.

(** ** The wanted half *)
Section Half.
Lemma insert_perm x l : Permutation (x :: l) (insert_off x l).
Proof. induction l as [|y l IH]; cbn; [auto|]. destruct (lex_leb x y); [auto|]. eapply perm_trans; [apply perm_swap|]. constructor. exact IH. Qed.
Lemma sort_perm l : Permutation l (sort_off l).
Proof. induction l as [|x l IH]; cbn; [auto|]. eapply perm_trans; [|apply insert_perm]. constructor. exact IH. Qed.
Lemma lex_total a b : length a = length b -> lex_leb a b = true \/ lex_leb b a = true.
Proof.
  revert b. induction a as [|x a IH]; intros [|y b] H; cbn in *; auto; try discriminate. injection H as H. destruct (Z.lt_trichotomy x y) as [L|[->|L]].
  - left. apply Z.ltb_lt in L. rewrite L. auto.
  - rewrite Z.ltb_irrefl, Z.eqb_refl. cbn. auto.
  - right. apply Z.ltb_lt in L. rewrite L. auto.
Qed.
Lemma lex_trans a b c : length a = length b -> length b = length c -> lex_leb a b = true -> lex_leb b c = true -> lex_leb a c = true.
Proof.
  revert b c. induction a as [|x a IH]; intros [|y b] [|z c] H1 H2; cbn in *; auto; try discriminate. injection H1 as H1. injection H2 as H2.
  rewrite !orb_true_iff, !andb_true_iff, !Z.ltb_lt, !Z.eqb_eq. intros [L1|[-> L1]] [L2|[-> L2]]; try (left; lia). right. split; [auto|]. eapply IH; eauto.
Qed.
Lemma lex_antisym a b : length a = length b -> lex_leb a b = true -> lex_leb b a = true -> a = b.
Proof.
  revert b. induction a as [|x a IH]; intros [|y b] H1; cbn in *; auto; try discriminate. injection H1 as H1.
  rewrite !orb_true_iff, !andb_true_iff, !Z.ltb_lt, !Z.eqb_eq. intros [L1|[-> L1]] [L2|[L3 L2]]; try lia. f_equal. apply IH; auto.
Qed.
Lemma lex_neg a b : length a = length b -> lex_leb (neg a) (neg b) = lex_leb b a.
Proof.
  revert b. induction a as [|x a IH]; intros [|y b] H1; cbn in *; auto; try discriminate. injection H1 as H1. rewrite IH by auto. f_equal.
  - apply eq_true_iff_eq. rewrite !Z.ltb_lt. lia.
  - f_equal. apply eq_true_iff_eq. rewrite !Z.eqb_eq. lia.
Qed.
Definition le_off (a b : offset) : Prop := lex_leb a b = true.
Lemma insert_sorted d x l : length x = d -> (forall y, In y l -> length y = d) -> StronglySorted le_off l -> StronglySorted le_off (insert_off x l).
Proof.
  intros Hx Hl Hs. induction Hs as [|y l Hs IH Hf]; cbn; [repeat constructor|]. destruct (lex_leb x y) eqn:E.
  - constructor; [constructor; auto|]. constructor; [exact E|]. rewrite Forall_forall in *. intros z Hz. apply (lex_trans x y z); [rewrite (Hl y (or_introl eq_refl)); auto|rewrite (Hl z (or_intror Hz)); apply Hl; left; auto|exact E|apply Hf; auto].
  - constructor; [apply IH; intros; apply Hl; right; auto|]. rewrite Forall_forall in *. intros z Hz. apply (Permutation_in _ (Permutation_sym (insert_perm x l))) in Hz. destruct Hz as [<-|Hz]; [|auto].
    destruct (lex_total y x) as [H|H]; [rewrite Hx; apply Hl; left; auto|exact H|congruence].
Qed.
Lemma sort_sorted d l : (forall y, In y l -> length y = d) -> StronglySorted le_off (sort_off l).
Proof.
  induction l as [|x l IH]; intros H; cbn; [constructor|]. apply (@insert_sorted d); [apply H; left; auto| |apply IH; intros; apply H; right; auto].
  intros y Hy. apply H. right. apply (Permutation_in _ (Permutation_sym (sort_perm l))). auto.
Qed.
Lemma nodup_l A (l l' : list A) : NoDup (l ++ l') -> NoDup l.
Proof. induction l as [|x l IH]; cbn; intros H; [constructor|]. inversion H; subst. constructor; [intros H1; apply H2; apply in_or_app; auto|auto]. Qed.
Lemma nodup_r A (l l' : list A) : NoDup (l ++ l') -> NoDup l'.
Proof. induction l as [|x l IH]; cbn; intros H; [auto|]. inversion H; auto. Qed.
(** a symmetric set with the zero: the second half are the nonnegative offsets *)
Lemma wanted_half d l z : NoDup l -> (forall y, In y l -> length y = d) -> (forall y, In y l -> In (neg y) l) -> In z l -> neg z = z ->
  forall x, In x (skipn (length l / 2) (sort_off l)) <-> In x l /\ lex_leb z x = true.
Proof.
  intros Hn Hl Hs Hz Hzz. set (S := sort_off l). assert (P : Permutation l S) by apply sort_perm.
  assert (SS : StronglySorted le_off S) by (apply (@sort_sorted d); auto).
  assert (Hlz : length z = d) by auto.
  destruct (in_split z S) as (A & B & E); [apply (Permutation_in _ P); auto|].
  assert (HinS : forall y, In y S <-> In y l) by (intros y; split; [apply (Permutation_in _ (Permutation_sym P))|apply (Permutation_in _ P)]).
  assert (HnS : NoDup S) by (apply (Permutation_NoDup P); auto).
  assert (HA : forall y, In y A -> lex_leb y z = true /\ y <> z).
  { intros y Hy. split.
    - rewrite E in SS. clear -SS Hy. induction A as [|a A IH]; [destruct Hy|]. cbn in SS. inversion SS as [|? ? S1 F1]; subst. destruct Hy as [<-|Hy]; [|apply IH; auto]. rewrite Forall_forall in F1. apply F1. apply in_or_app. right. left. auto.
    - intros ->. rewrite E in HnS. apply NoDup_remove_2 in HnS. apply HnS. apply in_or_app. auto. }
  assert (HB : forall y, In y B -> lex_leb z y = true /\ y <> z).
  { intros y Hy. split.
    - rewrite E in SS. clear -SS Hy. induction A as [|a A IH]; cbn in SS; inversion SS as [|? ? S1 F1]; subst; [|apply IH; auto]. rewrite Forall_forall in F1. apply F1. auto.
    - intros ->. rewrite E in HnS. apply NoDup_remove_2 in HnS. apply HnS. apply in_or_app. auto. }
  assert (HlS : forall y, In y S -> length y = d) by (intros; apply Hl, HinS; auto).
  assert (HinA : forall y, In y A -> In y S) by (intros; rewrite E; apply in_or_app; auto).
  assert (HinB : forall y, In y B -> In y S) by (intros; rewrite E; apply in_or_app; right; right; auto).
  assert (HAB : forall y, In y A -> In (neg y) B).
  { intros y Hy. assert (Hyz : length y = length z) by (rewrite Hlz; apply HlS, HinA; auto). destruct (HA y Hy) as [L N]. assert (Hin : In (neg y) S) by (apply HinS, Hs, HinS, HinA; auto). rewrite E in Hin. apply in_app_or in Hin. destruct Hin as [Hin|[Hin|Hin]]; [| |auto]; exfalso; apply N.
    - destruct (HA _ Hin) as [L2 _]. rewrite <- Hzz, lex_neg in L2 by auto. apply lex_antisym; auto.
    - rewrite <- (neg_neg y), <- Hin. auto. }
  assert (HBA : forall y, In y B -> In (neg y) A).
  { intros y Hy. assert (Hyz : length y = length z) by (rewrite Hlz; apply HlS, HinB; auto). destruct (HB y Hy) as [L N]. assert (Hin : In (neg y) S) by (apply HinS, Hs, HinS, HinB; auto). rewrite E in Hin. apply in_app_or in Hin. destruct Hin as [Hin|[Hin|Hin]]; [auto| |]; exfalso; apply N.
    - rewrite <- (neg_neg y), <- Hin. auto.
    - destruct (HB _ Hin) as [L2 _]. rewrite <- Hzz, lex_neg in L2 by auto. apply lex_antisym; auto. }
  assert (HnA : NoDup A /\ NoDup B). { rewrite E in HnS. apply NoDup_remove_1 in HnS. split; [apply (nodup_l _ _ HnS)|apply (nodup_r _ _ HnS)]. }
  assert (Hinj : forall a b, neg a = neg b -> a = b) by (intros a b H; rewrite <- (neg_neg a), H; apply neg_neg).
  assert (Len : length A = length B).
  { destruct HnA as [NA NB]. apply Nat.le_antisymm.
    - apply Nat.le_trans with (length (map neg A)); [rewrite map_length; apply le_n|]. apply NoDup_incl_length; [apply FinFun.Injective_map_NoDup; [exact Hinj|auto]|]. intros y Hy. apply in_map_iff in Hy. destruct Hy as (a & <- & Ha). auto.
    - apply Nat.le_trans with (length (map neg B)); [rewrite map_length; apply le_n|]. apply NoDup_incl_length; [apply FinFun.Injective_map_NoDup; [exact Hinj|auto]|]. intros y Hy. apply in_map_iff in Hy. destruct Hy as (a & <- & Ha). auto. }
  assert (Hlen : length l / 2 = length A).
  { rewrite (Permutation_length P), E, app_length. cbn [length]. rewrite Len. replace (length B + Datatypes.S (length B)) with (1 + length B * 2) by lia. rewrite Nat.div_add by lia. reflexivity. }
  rewrite Hlen, E, skipn_app, skipn_all, Nat.sub_diag. cbn [app skipn]. intros x. rewrite <- HinS, E, in_app_iff. split.
  - intros [<-|H]; [split; [right; left; auto|]|split; [right; right; auto|apply HB; auto]]. destruct (lex_total z z eq_refl); auto.
  - intros [[H|H] L]; [|auto]. exfalso. destruct (HA x H) as [L2 N]. apply N. apply lex_antisym; auto. rewrite (HlS x); [auto|apply HinA; auto].
Qed.
End Half.
