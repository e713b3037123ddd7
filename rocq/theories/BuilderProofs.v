(** * Proofs about the builder model: dictionary lemmas, invariant, effects of
    the elementary operations. *)
From Coq Require Import List Bool Arith Lia.
From Verif Require Import BuilderModel.
Import ListNotations.
Set Implicit Arguments.

Section Dict.
Variable site : Type.
Variable dec : forall a b : site, {a = b} + {a <> b}.
Notation lookup := (lookup dec).
Notation mem := (mem dec).
Notation assign := (assign dec).
Notation remove1 := (remove1 dec).
Notation eqb := (eqb dec).

Lemma eqb_refl a : eqb a a = true.
Proof. unfold BuilderModel.eqb. destruct (dec a a); congruence. Qed.
Lemma eqb_neq a b : a <> b -> eqb a b = false.
Proof. unfold BuilderModel.eqb. destruct (dec a b); congruence. Qed.
Lemma eqb_true a b : eqb a b = true -> a = b.
Proof. unfold BuilderModel.eqb. destruct (dec a b); congruence. Qed.
Lemma eqb_sym a b : eqb a b = eqb b a.
Proof. unfold BuilderModel.eqb. destruct (dec a b), (dec b a); congruence. Qed.

Context {A : Type}.
Implicit Types (h : list (site * A)) (k x : site) (v : A).

Lemma lookup_None h k : lookup k h = None <-> ~ In k (map fst h).
Proof.
  induction h as [|[k' v'] t IH]; simpl; [intuition|].
  unfold BuilderModel.eqb; destruct (dec k k') as [->|n].
  - split; [discriminate|]. intros H; exfalso; apply H; left; reflexivity.
  - rewrite IH. intuition.
Qed.

Lemma lookup_In h k v : lookup k h = Some v -> In (k, v) h.
Proof.
  induction h as [|[k' v'] t IH]; simpl; [discriminate|].
  unfold BuilderModel.eqb; destruct (dec k k') as [->|n].
  - intros [= ->]. left; reflexivity.
  - intros H; right; auto.
Qed.

Lemma In_lookup h k v : NoDup (map fst h) -> In (k, v) h -> lookup k h = Some v.
Proof.
  induction h as [|[k' v'] t IH]; simpl; [contradiction|].
  intros ND [E|H]; inversion ND; subst.
  - injection E as -> ->. rewrite eqb_refl; reflexivity.
  - rewrite eqb_neq; [auto|]. intros ->. apply H2.
    apply in_map_iff. exists (k', v); auto.
Qed.

Lemma mem_true h k : mem k h = true <-> In k (map fst h).
Proof.
  unfold BuilderModel.mem. destruct (lookup k h) eqn:E.
  - split; [|reflexivity]. intros _. apply lookup_In in E.
    apply in_map_iff. exists (k, a); auto.
  - apply lookup_None in E. split; [discriminate|contradiction].
Qed.

Lemma mem_false h k : mem k h = false <-> lookup k h = None.
Proof. unfold BuilderModel.mem. destruct (lookup k h); intuition discriminate. Qed.

Lemma mem_lookup h k : mem k h = true <-> exists v, lookup k h = Some v.
Proof.
  unfold BuilderModel.mem. destruct (lookup k h) eqn:E; split; eauto.
  - discriminate.
  - intros [v H]; discriminate.
Qed.

Lemma lookup_assign h k v x :
  lookup x (assign k v h) = if eqb x k then Some v else lookup x h.
Proof.
  induction h as [|[k' v'] t IH]; simpl.
  - reflexivity.
  - unfold BuilderModel.eqb in *. destruct (dec k k') as [->|n]; simpl;
      unfold BuilderModel.eqb.
    + destruct (dec x k'); reflexivity.
    + destruct (dec x k') as [->|n']; [destruct (dec k' k); congruence|].
      rewrite IH. reflexivity.
Qed.

Lemma keys_assign_mem h k v : mem k h = true -> map fst (assign k v h) = map fst h.
Proof.
  rewrite mem_true.
  induction h as [|[k' v'] t IH]; simpl; [contradiction|].
  unfold BuilderModel.eqb. destruct (dec k k') as [->|n]; simpl; [reflexivity|].
  intros [E|H]; [congruence|]. f_equal; auto.
Qed.

Lemma keys_assign_new h k v :
  mem k h = false -> assign k v h = h ++ [(k, v)].
Proof.
  rewrite mem_false, lookup_None.
  induction h as [|[k' v'] t IH]; simpl; [reflexivity|].
  unfold BuilderModel.eqb. destruct (dec k k') as [->|n]; simpl; [tauto|].
  intros H. f_equal; auto.
Qed.

Lemma NoDup_assign h k v : NoDup (map fst h) -> NoDup (map fst (assign k v h)).
Proof.
  intros ND. destruct (mem k h) eqn:M.
  - rewrite keys_assign_mem; auto.
  - rewrite keys_assign_new; auto. rewrite map_app. simpl.
    apply mem_false, lookup_None in M.
    apply (NoDup_Add (a:=k) (l:=map fst h)); [|auto].
    replace (map fst h) with (map fst h ++ []) at 1 by apply app_nil_r.
    apply Add_app.
Qed.

Lemma in_remove1 h k p : In p (remove1 k h) -> In p h.
Proof.
  induction h as [|[k' v'] t IH]; simpl; [auto|].
  unfold BuilderModel.eqb. destruct (dec k k'); simpl; intuition.
Qed.

Lemma NoDup_remove1 h k : NoDup (map fst h) -> NoDup (map fst (remove1 k h)).
Proof.
  induction h as [|[k' v'] t IH]; simpl; [auto|].
  intros ND; inversion ND; subst.
  unfold BuilderModel.eqb. destruct (dec k k'); simpl; [auto|].
  constructor; auto. intros H. apply H1.
  apply in_map_iff in H as [[a b] [E H]]. apply in_remove1 in H.
  apply in_map_iff. exists (a, b); auto.
Qed.

Lemma lookup_remove1 h k x :
  NoDup (map fst h) ->
  lookup x (remove1 k h) = if eqb x k then None else lookup x h.
Proof.
  intros ND. induction h as [|[k' v'] t IH]; simpl.
  - destruct (eqb x k); reflexivity.
  - inversion ND; subst. unfold BuilderModel.eqb in *.
    destruct (dec k k') as [->|n]; simpl; unfold BuilderModel.eqb.
    + destruct (dec x k') as [->|]; [apply lookup_None; auto|reflexivity].
    + destruct (dec x k') as [->|n']; [destruct (dec k' k); congruence|].
      apply IH; auto.
Qed.

Lemma length_remove1 h k :
  mem k h = true -> length h = S (length (remove1 k h)).
Proof.
  rewrite mem_true.
  induction h as [|[k' v'] t IH]; simpl; [contradiction|].
  unfold BuilderModel.eqb. destruct (dec k k') as [->|n]; simpl; [reflexivity|].
  intros [E|H]; [congruence|]. f_equal; auto.
Qed.

Lemma length_assign_mem h k v : mem k h = true -> length (assign k v h) = length h.
Proof.
  intros M. rewrite <- (map_length fst), keys_assign_mem, map_length; auto.
Qed.

Lemma mem_assign h k v x : mem x (assign k v h) = (eqb x k || mem x h)%bool.
Proof. unfold BuilderModel.mem. rewrite lookup_assign. destruct (eqb x k); reflexivity. Qed.

Lemma mem_remove1 h k x :
  NoDup (map fst h) -> mem x (remove1 k h) = (negb (eqb x k) && mem x h)%bool.
Proof. intros ND. unfold BuilderModel.mem. rewrite lookup_remove1; auto. destruct (eqb x k); reflexivity. Qed.

End Dict.

Section Sym.
Variable site : Type.
Variable S : Symmetry site.
Hypothesis L : SymLaws S.
Notation "x + y" := (eadd S x y).
Notation "- x" := (eneg S x).
Notation act := (act S).
Notation which := (which S).
Notation to_fd := (to_fd S).
Notation to_fd2 := (to_fd2 S).
Notation in_fd := (in_fd S).

Lemma e_cancel_l x y z : x + y = x + z -> y = z.
Proof.
  intros H. rewrite <- (law_0l L y), <- (law_0l L z), <- (law_negl L x).
  rewrite <- !(law_assoc L). rewrite H. reflexivity.
Qed.

Lemma e_0r x : x + e0 S = x.
Proof.
  apply (e_cancel_l (- x)). rewrite (law_assoc L), (law_negl L), (law_0l L).
  reflexivity.
Qed.

Lemma e_negr x : x + - x = e0 S.
Proof.
  apply (e_cancel_l (- x)). rewrite (law_assoc L), (law_negl L), (law_0l L), e_0r.
  reflexivity.
Qed.

Lemma e_neg_unique x y : x + y = e0 S -> x = - y.
Proof.
  intros H. rewrite <- (e_0r x), <- (e_negr y), (law_assoc L), H, (law_0l L).
  reflexivity.
Qed.

Lemma e_neg_add x y : - (x + y) = - y + - x.
Proof.
  symmetry. apply e_neg_unique.
  rewrite <- (law_assoc L), (law_assoc L (- x) x y), (law_negl L), (law_0l L).
  apply (law_negl L).
Qed.

Lemma e_neg_neg x : - - x = x.
Proof. symmetry. apply e_neg_unique. apply e_negr. Qed.

Lemma e_neg0 : - e0 S = e0 S.
Proof. symmetry. apply e_neg_unique. apply (law_0l L). Qed.

Lemma act_inv_l g s : act (- g) (act g s) = s.
Proof. rewrite <- (law_act L), (law_negl L), (law_act0 L). reflexivity. Qed.
Lemma act_inv_r g s : act g (act (- g) s) = s.
Proof. rewrite <- (law_act L), e_negr, (law_act0 L). reflexivity. Qed.
Lemma act_inj g s t : act g s = act g t -> s = t.
Proof. intros H. rewrite <- (act_inv_l g s), H. apply act_inv_l. Qed.

Lemma act_free g s : act g s = s -> g = e0 S.
Proof.
  intros H. assert (W := law_which L g s). rewrite H in W.
  rewrite <- (e_0r g), <- (e_negr (which s)), (law_assoc L), <- W. reflexivity.
Qed.

Lemma in_fd_iff s : in_fd s = true <-> which s = e0 S.
Proof. apply (law_is0 L). Qed.

Lemma which_to_fd s : which (to_fd s) = e0 S.
Proof. unfold BuilderModel.to_fd. rewrite (law_which L). apply (law_negl L). Qed.
Lemma in_fd_to_fd s : in_fd (to_fd s) = true.
Proof. apply in_fd_iff, which_to_fd. Qed.
Lemma to_fd_id s : in_fd s = true -> to_fd s = s.
Proof.
  intros H. apply in_fd_iff in H. unfold BuilderModel.to_fd.
  rewrite H, e_neg0. apply (law_act0 L).
Qed.
Lemma to_fd_act g s : to_fd (act g s) = to_fd s.
Proof.
  unfold BuilderModel.to_fd. rewrite (law_which L), e_neg_add, (law_act L), act_inv_l.
  reflexivity.
Qed.
Lemma act_which_to_fd s : act (which s) (to_fd s) = s.
Proof. apply act_inv_r. Qed.
Lemma to_fd_eq_iff s t : to_fd s = to_fd t <-> exists g, s = act g t.
Proof.
  split.
  - intros H. exists (which s + - which t). rewrite (law_act L).
    change (act (- which t) t) with (to_fd t). rewrite <- H.
    symmetry. apply act_which_to_fd.
  - intros [g ->]. apply to_fd_act.
Qed.

Lemma to_fd2_fst a b : fst (to_fd2 a b) = to_fd a.
Proof. reflexivity. Qed.
Lemma to_fd2_act g a b : to_fd2 (act g a) (act g b) = to_fd2 a b.
Proof.
  unfold BuilderModel.to_fd2. rewrite (law_which L), e_neg_add, !(law_act L), !act_inv_l.
  reflexivity.
Qed.
Lemma to_fd2_id a b : in_fd a = true -> to_fd2 a b = (a, b).
Proof.
  intros H. apply in_fd_iff in H. unfold BuilderModel.to_fd2.
  rewrite H, e_neg0, !(law_act0 L). reflexivity.
Qed.
(** Swapping after mapping = mapping the swapped pair. *)
Lemma to_fd2_swap a b :
  to_fd2 (snd (to_fd2 a b)) (fst (to_fd2 a b)) = to_fd2 b a.
Proof. apply to_fd2_act. Qed.
Lemma to_fd2_idem a b :
  to_fd2 (fst (to_fd2 a b)) (snd (to_fd2 a b)) = to_fd2 a b.
Proof. apply to_fd2_act. Qed.

Lemma to_fd2_eq_iff a b c d :
  to_fd2 a b = to_fd2 c d <-> exists g, a = act g c /\ b = act g d.
Proof.
  split.
  - unfold BuilderModel.to_fd2. intros [= H1 H2].
    exists (which a + - which c). rewrite !(law_act L), <- H1, <- H2, !act_inv_r.
    auto.
  - intros [g [-> ->]]. apply to_fd2_act.
Qed.

(** A hopping is never equivalent to its reverse. *)
Lemma to_fd2_flip a b : a <> b -> to_fd2 a b <> to_fd2 b a.
Proof.
  intros N H. apply to_fd2_eq_iff in H as [g [H1 H2]].
  apply N. assert (g + g = e0 S) as G.
  { apply (@act_free (g + g) a). rewrite (law_act L), <- H2. symmetry; exact H1. }
  apply (law_tors L) in G. subst g. rewrite (law_act0 L) in H1. exact H1.
Qed.

(** builder.py: the asserts [assert not sym.in_fd(a)]. *)
Lemma swap_not_fd a b :
  in_fd a = true -> in_fd b = false -> in_fd (snd (to_fd2 b a)) = false.
Proof.
  intros Ha Hb. destruct (in_fd (snd (to_fd2 b a))) eqn:E; [|reflexivity].
  apply in_fd_iff in E, Ha. simpl in E. rewrite (law_which L), Ha, e_0r in E.
  assert (which b = e0 S) as W by (rewrite <- (e_neg_neg (which b)), E; apply e_neg0).
  apply in_fd_iff in W. congruence.
Qed.

Lemma to_fd2_neq a b : a <> b -> fst (to_fd2 a b) <> snd (to_fd2 a b).
Proof. intros N H. apply N. simpl in H. eapply act_inj; eassumption. Qed.

End Sym.
