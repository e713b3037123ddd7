(** * wraparound: splitting the translations. *)
From Coq Require Import List Bool.
From Verif Require Import BuilderModel BuilderSpec BuilderProofs BuilderMain CopyProofs WrapSpec.
Import ListNotations.
Set Implicit Arguments.

Section Sym.
Variable site : Type.
Variables S R W : Symmetry site.
Variable pW : elt S -> elt W.
Hypothesis LS : SymLaws S.
Hypothesis LR : SymLaws R.
Hypothesis LW : SymLaws W.
Hypothesis SP : splits S R W pW.

Notation dom := (@dom site S W pW).
Notation proper := (@proper site S W pW).
Lemma dom_S x s : dom (act S x s) = eadd W (pW x) (dom s).
Proof. unfold WrapSpec.dom. rewrite (law_which LS). apply (sp_add SP). Qed.
Lemma dom_W g s : dom (act W g s) = eadd W g (dom s).
Proof. destruct (sp_W SP g) as (x & <- & ->). apply dom_S. Qed.
Lemma dom_R r s : dom (act R r s) = dom s.
Proof. destruct (sp_R SP r) as (x & E & ->). rewrite dom_S, E. apply (law_0l LW). Qed.
Lemma pW0 : pW (e0 S) = e0 W.
Proof. apply (e_cancel_l LW (pW (e0 S))). rewrite <- (sp_add SP), (law_0l LS), (e_0r LW). reflexivity. Qed.
Lemma act_SS x y s : act S x (act S y s) = act S y (act S x s).
Proof. rewrite <- !(law_act LS), (sp_comm SP). reflexivity. Qed.
Lemma act_RW r g s : act R r (act W g s) = act W g (act R r s).
Proof. destruct (sp_R SP r) as (x & _ & E). destruct (sp_W SP g) as (y & _ & E'). rewrite !E, !E'. apply act_SS. Qed.
Lemma act_SW x g s : act S x (act W g s) = act W g (act S x s).
Proof. destruct (sp_W SP g) as (y & _ & E'). rewrite !E'. apply act_SS. Qed.
Lemma proper_R r s : proper s -> proper (act R r s).
Proof. unfold WrapSpec.proper. rewrite dom_R. auto. Qed.
Lemma proper_fd s : which S s = e0 S -> proper s.
Proof. unfold WrapSpec.proper, WrapSpec.dom. intros ->. apply pW0. Qed.

(** Translations between proper sites are kept ones. *)
Lemma proper_S x s : proper s -> proper (act S x s) -> exists r, forall t, act S x t = act R r t.
Proof.
  unfold WrapSpec.proper. rewrite dom_S. intros -> H. rewrite (e_0r LW) in H. apply (sp_ker SP _ H).
Qed.
Lemma proper_site s t : proper s -> proper t -> same_site S s t -> same_site R s t.
Proof. intros Hs Ht (x & ->). destruct (@proper_S x s Hs Ht) as (r & E). exists r. apply E. Qed.
Lemma same_R_S s t : same_site R s t -> same_site S s t.
Proof. intros (r & ->). destruct (sp_R SP r) as (x & _ & E). exists x. apply E. Qed.
Lemma hop_R_S a b c d : same_hop R a b c d -> same_hop S a b c d.
Proof. intros (r & -> & ->). destruct (sp_R SP r) as (x & _ & E). exists x. split; apply E. Qed.

(** Pulling the second site of a hopping back. *)
Definition wa (b : site) : site := act W (eneg W (dom b)) b.
Lemma wa_proper b : proper (wa b).
Proof. unfold WrapSpec.proper, wa. rewrite dom_W. apply (law_negl LW). Qed.
Lemma wa_back b : act W (dom b) (wa b) = b.
Proof. apply (act_inv_r LW). Qed.

Lemma hop_fwd a b x y g : proper a -> proper x -> proper y ->
  same_hop S a b x (act W g y) <-> g = dom b /\ same_hop R a (wa b) x y.
Proof.
  intros Ha Hx Hy. split.
  - intros (z & Ex & Ey). subst x. destruct (@proper_S z a Ha Hx) as (r & E). assert (g = dom b).
    { apply (f_equal dom) in Ey. rewrite dom_W, Hy, (e_0r LW), E, dom_R in Ey. exact Ey. }
    split; auto. exists r. split; [apply E|]. subst g. apply (act_inj LW) with (g := dom b). rewrite Ey, E, <- act_RW, wa_back. reflexivity.
  - intros [-> (r & -> & ->)]. apply hop_R_S. exists r. split; auto. rewrite <- act_RW, wa_back. reflexivity.
Qed.
Lemma hop_bwd a b x y g : proper a -> proper x -> proper y ->
  same_hop S b a x (act W g y) <-> g = eneg W (dom b) /\ same_hop R (wa b) a x y.
Proof.
  intros Ha Hx Hy. split.
  - intros (z & Ex & Ey). assert (g = eneg W (dom b)).
    { pose proof (f_equal dom Ex) as D1. pose proof (f_equal dom Ey) as D2. rewrite dom_S in D1, D2. rewrite Hx in D1. rewrite dom_W, Hy, Ha, !(e_0r LW) in D2.
      subst g. apply (e_neg_unique LW). auto. }
    split; auto. apply (same_hop_swap (Sy := R)).
    assert (Q : same_hop S a b y (act W (dom b) x)).
    { destruct (sp_W SP (dom b)) as (u & Eu & Au). exists (eadd S u z). rewrite !(law_act LS), <- Ex, <- Ey, Au. split; auto.
      rewrite <- Au. subst g. symmetry. apply (act_inv_r LW). }
    apply (@hop_fwd a b y x (dom b) Ha Hy Hx) in Q. tauto.
  - intros [-> H]. apply (same_hop_swap (Sy := R)) in H. assert (Q : same_hop S a b y (act W (dom b) x)) by (apply hop_fwd; auto).
    destruct Q as (z & Ey & Ex). destruct (sp_W SP (eneg W (dom b))) as (u & Eu & Au). exists (eadd S u z). rewrite !(law_act LS), <- Ex, <- Ey, <- !Au. split; auto.
    symmetry. apply (act_inv_l LW).
Qed.
(** A hopping and its image in the other direction, at g and -g *)
Lemma hop_same x y g : proper x -> proper y -> x = act W g y -> g = e0 W /\ x = y.
Proof.
  intros Hx Hy E. assert (g = e0 W).
  { apply (f_equal dom) in E. rewrite dom_W, Hx, Hy, (e_0r LW) in E. auto. }
  split; auto. subst g. rewrite (law_act0 LW) in E. auto.
Qed.
End Sym.
