(** * The order of sites and translational symmetries: the hypotheses of the
    theorems on finalization hold for every one-dimensional
    TranslationalSymmetry with exact data and the order of sites
    "first by family, then by tag". *)
From Coq Require Import List Bool Arith ZArith Lia.
From Verif Require Import BuilderModel SymmetryModel SymmetryProofs SystemSpec.
Import ListNotations.
Set Implicit Arguments.
Open Scope Z_scope.

(** Comparison of tags (tuples / tiny arrays: lexicographic). *)
Fixpoint tag_leb (u v : vec) : bool :=
  match u, v with
  | [], _ => true
  | _ :: _, [] => false
  | x :: u, y :: v => if x <? y then true else if x =? y then tag_leb u v else false
  end.
(** builder.py:44-75: a Site is the tuple (family, tag); families are ordered
    (lattice.py / builder.py:80-175, by canonical repr), here they are integers. *)
Definition pair_leb (a b : Z * vec) : bool :=
  if fst a <? fst b then true else if fst a =? fst b then tag_leb (snd a) (snd b) else false.

Lemma tag_refl u : tag_leb u u = true.
Proof. induction u as [|x u IH]; cbn; auto. rewrite Z.ltb_irrefl, Z.eqb_refl. auto. Qed.
Lemma tag_total u : forall v, tag_leb u v = true \/ tag_leb v u = true.
Proof.
  induction u as [|x u IH]; intros [|y v]; cbn; auto.
  destruct (Z.ltb_spec x y); auto. destruct (Z.ltb_spec y x); auto.
  assert (x = y) by lia. subst. rewrite Z.eqb_refl. apply IH.
Qed.
Lemma tag_trans u : forall v w, tag_leb u v = true -> tag_leb v w = true -> tag_leb u w = true.
Proof.
  induction u as [|x u IH]; intros [|y v] [|z w]; cbn; auto; try discriminate.
  destruct (Z.ltb_spec x y).
  - intros _. destruct (Z.ltb_spec y z); [|destruct (Z.eqb_spec y z); [|discriminate]];
      intros _; destruct (Z.ltb_spec x z); auto; lia.
  - destruct (Z.eqb_spec x y); [|discriminate]. subst y. intros H1.
    destruct (Z.ltb_spec x z); auto. destruct (Z.eqb_spec x z); [|discriminate]. eauto.
Qed.
Lemma tag_anti u : forall v, tag_leb u v = true -> tag_leb v u = true -> u = v.
Proof.
  induction u as [|x u IH]; intros [|y v]; cbn; auto; try discriminate.
  destruct (Z.ltb_spec x y); destruct (Z.ltb_spec y x); try lia; destruct (Z.eqb_spec x y); destruct (Z.eqb_spec y x); try discriminate; try lia.
  subst. intros. f_equal. auto.
Qed.
Lemma pair_total_order : total_order pair_leb.
Proof.
  constructor; unfold pair_leb.
  - intros x y. destruct (Z.ltb_spec (fst x) (fst y)); auto. destruct (Z.ltb_spec (fst y) (fst x)); auto.
    assert (E : fst x = fst y) by lia. rewrite E, Z.eqb_refl. apply tag_total.
  - intros x y z. destruct (Z.ltb_spec (fst x) (fst y)).
    + intros _. destruct (Z.ltb_spec (fst y) (fst z)); [|destruct (Z.eqb_spec (fst y) (fst z)); [|discriminate]];
        intros _; destruct (Z.ltb_spec (fst x) (fst z)); auto; lia.
    + destruct (Z.eqb_spec (fst x) (fst y)) as [E|]; [|discriminate]. rewrite <- E. intros H1.
      destruct (Z.ltb_spec (fst x) (fst z)); auto. destruct (Z.eqb_spec (fst x) (fst z)); [|discriminate]. apply tag_trans. auto.
  - intros [f t] [g u]. cbn. destruct (Z.ltb_spec f g); destruct (Z.ltb_spec g f); try lia;
      destruct (Z.eqb_spec f g); destruct (Z.eqb_spec g f); try discriminate; try lia.
    subst. intros. f_equal. apply tag_anti; auto.
Qed.
Lemma tag_shift u : forall v d, length u = length d -> length v = length d -> tag_leb (vadd u d) (vadd v d) = tag_leb u v.
Proof.
  induction u as [|x u IH]; intros [|y v] [|z d]; cbn; try discriminate; auto.
  intros [= H1] [= H2]. rewrite IH by auto.
  destruct (Z.ltb_spec (x + z) (y + z)); destruct (Z.ltb_spec x y); try lia; auto.
  destruct (Z.eqb_spec (x + z) (y + z)); destruct (Z.eqb_spec x y); try lia; auto.
Qed.

Section TS1.
Variable data : Z -> option famdata.
Variable reversed : bool.
Hypothesis OK : data_ok 1 data.
Notation ts_site := (ts_site data).
Notation S := (TransSymm reversed OK).

Definition ts_leb (a b : ts_site) : bool := pair_leb (proj1_sig a) (proj1_sig b).
Definition ts_tr (k : Z) : elt S := exist _ [k] eq_refl.
Definition ts_dom (s : ts_site) : Z := hd 0 (proj1_sig (which S s)).

Lemma ts_total_order : total_order ts_leb.
Proof.
  constructor; unfold ts_leb; intros.
  - apply (to_total pair_total_order).
  - eapply (to_trans pair_total_order); eauto.
  - apply sig_eq. apply (to_anti pair_total_order); auto.
Qed.
Lemma ts_one_dim : one_dim S ts_dom ts_tr.
Proof.
  constructor.
  - intros s. apply sig_eq. unfold ts_dom. pose proof (@elt_len 1 (which S s)) as H.
    destruct (proj1_sig (which S s)) as [|x [|y l]]; cbn in *; try discriminate. reflexivity.
  - apply sig_eq. reflexivity.
  - intros x y. apply sig_eq. reflexivity.
  - intros x y H. apply (f_equal (fun e => hd 0 (proj1_sig e))) in H. exact H.
Qed.
Lemma ts_leb_act g a b : ts_leb (act S g a) (act S g b) = ts_leb a b.
Proof.
  unfold ts_leb, pair_leb. cbn [act TransSymm proj1_sig fst snd].
  destruct (Z.ltb_spec (fst (proj1_sig a)) (fst (proj1_sig b))); auto.
  destruct (Z.eqb_spec (fst (proj1_sig a)) (fst (proj1_sig b))) as [E|]; auto.
  assert (D : ts_data b = ts_data a) by (unfold ts_data; rewrite E; reflexivity). rewrite D.
  destruct (ts_data_spec OK a) as (_ & La & _). destruct (ts_data_spec OK b) as (_ & Lb & _). rewrite D in Lb.
  unfold ts_act. apply tag_shift; destruct reversed; rewrite ?vneg_length, ?matvec_length; auto.
Qed.
End TS1.
