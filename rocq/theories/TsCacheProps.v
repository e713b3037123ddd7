(** * C54: a TranslationalSymmetry acts by its periods, after any history. *)
From Coq Require Import List Bool ZArith Arith Lia.
From Verif Require Import BuilderModel BuilderProofs SymmetryModel SymmetryProofs TsCacheModel.
Import ListNotations.
Local Open Scope nat_scope.

(** tag + g[0] * b[0] + g[1] * b[1] + ... *)
Fixpoint translate (g : vec) (b : mat) (tag : vec) : vec :=
  match g, b with
  | x :: g, r :: b => translate g b (vadd tag (map (Z.mul x) r))
  | _, _ => tag
  end.
(** The matrix m_part has the periods [b] as its columns. *)
Definition columns (dim : nat) (d : famdata) (b : mat) : Prop :=
  length (m_part d) = dim /\
  forall g tag, length g = length b -> length tag = dim -> vadd tag (matvec (m_part d) g) = translate g b tag.

Lemma translate_neg g b tag : translate (vneg g) b tag = translate g (map vneg b) tag.
Proof.
  revert b tag. induction g as [|x g IH]; intros [|r b] tag; cbn [vneg map translate]; auto. unfold vneg in IH at 1. rewrite IH. f_equal. f_equal.
  unfold vneg. rewrite map_map. apply map_ext. intros; lia.
Qed.
Lemma columns_neg dim d b g tag : columns dim d b -> length g = length b -> length tag = dim -> vadd tag (vneg (matvec (m_part d) g)) = translate (vneg g) b tag.
Proof. intros [_ H] Hg Ht. rewrite <- matvec_vneg. apply H; auto. rewrite vneg_length. exact Hg. Qed.
Lemma vneg_mat b : map vneg (map vneg b) = b.
Proof. rewrite map_map. induction b; cbn; rewrite ?vneg_vneg; congruence. Qed.

Section C54.
Variables fam rper : Type.
Variable fdec : forall a b : fam, {a = b} + {a <> b}.
Variable rneg : rper -> rper.
Variable num_dir : rper -> nat.
Variable bravais : rper -> fam -> option mat.
Variable complete : fam -> mat -> mat -> option famdata.
Variable dim : fam -> nat.                           (* dimension of the tags *)
(** Reversing the periods, twice; number of periods. *)
Hypothesis rneg_rneg : forall p, rneg (rneg p) = p.
Hypothesis bravais_neg : forall p f, bravais (rneg p) f = option_map (map vneg) (bravais p f).
Hypothesis bravais_len : forall p f b, bravais p f = Some b -> length b = num_dir p.
(** The data of a family are exact (C14_family_data) and contain its periods. *)
Hypothesis complete_ok : forall f b other d, complete f b other = Some d -> fam_ok (length b) d /\ columns (dim f) d b.

Notation symobj := (symobj rper).
Notation world := (world fam rper).
Notation op := (op fam rper).
Notation step := (@step fam rper fdec rneg num_dir bravais complete).
Notation run := (@run fam rper fdec rneg num_dir bravais complete).
Notation start := (start fam rper).
Notation cached w o f := (lookup fdec f (get_cache w o)).

(** Families are met for the first time only through symmetries that are not
    reversed. *)
Definition first_use_ok (w : world) (x : op) : Prop :=
  match x with
  | AddFamily _ i f _ | Which _ i f _ | Act _ i _ f _ =>
    forall o, nth_error (w_objs w) i = Some o -> cached w o f = None -> o_rev o = false
  | _ => True
  end.
Fixpoint guarded (w : world) (l : list op) : Prop :=
  match l with [] => True | x :: l => first_use_ok w x /\ guarded (fst (step w x)) l end.

(** [b]: the periods of the unreversed symmetry *)
Definition entry_ok (strict : bool) (p : rper) (fd : fam * famdata) : Prop :=
  exists b, bravais p (fst fd) = Some b /\ fam_ok (length b) (snd fd) /\
    (columns (dim (fst fd)) (snd fd) b \/ (strict = false /\ columns (dim (fst fd)) (snd fd) (map vneg b))).
Definition Inv (strict : bool) (w : world) : Prop :=
  (forall o, In o (w_objs w) -> o_cache o < length (w_heap w)) /\
  (forall a, a < length (w_heap w) -> exists p,
     (forall o, In o (w_objs w) -> o_cache o = a -> o_periods o = if o_rev o then rneg p else p) /\
     (forall fd, In fd (nth a (w_heap w) []) -> entry_ok strict p fd)).

Lemma set_nth_length A (l : list A) i x : length (set_nth l i x) = length l.
Proof. revert i; induction l as [|y l IH]; intros [|i]; cbn; auto. Qed.
Lemma nth_set_nth A (l : list A) i x j d : i < length l -> nth j (set_nth l i x) d = if Nat.eq_dec j i then x else nth j l d.
Proof.
  revert i j; induction l as [|y l IH]; intros [|i] [|j] H; try (cbn in H; lia); try reflexivity. cbn [set_nth nth]. rewrite IH by (cbn in H; lia).
  destruct (Nat.eq_dec j i), (Nat.eq_dec (S j) (S i)); auto; lia.
Qed.
Lemma lookup_In A k (l : list (fam * A)) v : lookup fdec k l = Some v -> In (k, v) l.
Proof. induction l as [|[k' v'] l IH]; cbn; [discriminate|]. unfold eqb. destruct (fdec k k') as [->|]; [intros [= ->]; auto|auto]. Qed.
Lemma remove1_In A k (l : list (fam * A)) p : In p (remove1 fdec k l) -> In p l.
Proof. induction l as [|[k' v'] l IH]; cbn; [tauto|]. destruct (eqb fdec k k'); cbn; tauto. Qed.

Lemma set_cache_Inv strict w o c : Inv strict w -> In o (w_objs w) ->
  (forall p, (o_periods o = if o_rev o then rneg p else p) -> (forall fd, In fd (get_cache w o) -> entry_ok strict p fd) -> forall fd, In fd c -> entry_ok strict p fd) ->
  Inv strict (set_cache w o c).
Proof.
  intros [I1 I2] Ho Hc. split; cbn; rewrite set_nth_length; auto. intros a Ha. destruct (I2 a Ha) as (p & P1 & P2). exists p. split; auto.
  rewrite nth_set_nth by auto. destruct (Nat.eq_dec a (o_cache o)) as [->|]; auto.
Qed.
Lemma add_new_Inv strict w o f other : Inv strict w -> In o (w_objs w) -> (strict = true -> o_rev o = false) ->
  Inv strict (fst (add_new_family bravais complete w o f other)).
Proof.
  intros I Ho G. unfold add_new_family. destruct (bravais (o_periods o) f) as [b|] eqn:B; [|exact I]. destruct (complete f b other) as [d|] eqn:D; [|exact I]. cbn.
  apply set_cache_Inv; auto. intros p Hp Hc fd Hin. apply in_app_iff in Hin. destruct Hin as [Hin|[<-|[]]]; [auto|]. destruct (complete_ok _ _ _ _ D) as [F Cl].
  destruct (o_rev o) eqn:E.
  - rewrite Hp, bravais_neg in B. unfold entry_ok. cbn [fst snd]. destruct (bravais p f) as [b0|]; [|discriminate]. cbn in B. injection B as <-. exists b0. split; auto. rewrite map_length in F. split; auto.
    right. split; auto. destruct strict; auto; discriminate (G eq_refl).
  - unfold entry_ok. cbn [fst snd]. rewrite <- Hp. exists b. split; auto.
Qed.
Lemma step_Inv strict w x : Inv strict w -> (strict = true -> first_use_ok w x) -> Inv strict (fst (step w x)).
Proof.
  intros I G. pose proof I as [I1 I2].
  destruct x as [p|i|i f other|i f|i f tag|i g f tag]; cbn [TsCacheModel.step].
  - split; cbn; rewrite app_length; cbn.
    + intros o Ho. apply in_app_iff in Ho. destruct Ho as [Ho|[<-|[]]]; [apply I1 in Ho; lia|cbn; lia].
    + intros a Ha. destruct (Nat.eq_dec a (length (w_heap w))) as [->|n].
      * exists p. split.
        -- intros o Ho E. apply in_app_iff in Ho. destruct Ho as [Ho|[<-|[]]]; [apply I1 in Ho; lia|reflexivity].
        -- rewrite app_nth2, Nat.sub_diag by lia. intros fd [].
      * destruct (I2 a) as (q & Q1 & Q2); [lia|]. exists q. split.
        -- intros o Ho E. apply in_app_iff in Ho. destruct Ho as [Ho|[<-|[]]]; [auto|cbn in E; lia].
        -- rewrite app_nth1 by lia. auto.
  - destruct (nth_error (w_objs w) i) as [o|] eqn:E; [|exact I]. apply nth_error_In in E. split; cbn.
    + intros o' Ho. apply in_app_iff in Ho. destruct Ho as [Ho|[<-|[]]]; cbn; auto.
    + intros a Ha. destruct (I2 a Ha) as (p & P1 & P2). exists p. split; auto. intros o' Ho Eo. apply in_app_iff in Ho. destruct Ho as [Ho|[<-|[]]]; auto.
      cbn in *. rewrite (P1 o E Eo). destruct (o_rev o); cbn; auto.
  - destruct (nth_error (w_objs w) i) as [o|] eqn:E; [|exact I]. destruct (lookup fdec f (get_cache w o)) eqn:Lk; [exact I|].
    pose proof (add_new_Inv strict w o f other I (nth_error_In _ _ E) (fun s => G s o E Lk)) as X. destruct (add_new_family bravais complete w o f other) as [w' [d|]]; exact X.
  - destruct (nth_error (w_objs w) i) as [o|] eqn:E; [|exact I]. destruct (lookup fdec f (get_cache w o)) eqn:Lk; [|exact I].
    apply set_cache_Inv; auto; [eapply nth_error_In; eauto|]. intros p _ Hc fd Hin. apply Hc. eapply remove1_In; eauto.
  - destruct (nth_error (w_objs w) i) as [o|] eqn:E; [|exact I]. unfold get_data. destruct (lookup fdec f (get_cache w o)) eqn:Lk; [exact I|].
    pose proof (add_new_Inv strict w o f [] I (nth_error_In _ _ E) (fun s => G s o E Lk)) as X. destruct (add_new_family bravais complete w o f []) as [w' [d|]]; exact X.
  - destruct (nth_error (w_objs w) i) as [o|] eqn:E; [|exact I]. unfold get_data. destruct (lookup fdec f (get_cache w o)) eqn:Lk; [exact I|].
    pose proof (add_new_Inv strict w o f [] I (nth_error_In _ _ E) (fun s => G s o E Lk)) as X. destruct (add_new_family bravais complete w o f []) as [w' [d|]]; exact X.
Qed.
Lemma run_Inv strict l : forall w, Inv strict w -> (strict = true -> guarded w l) -> Inv strict (fst (run w l)).
Proof.
  induction l as [|x l IH]; intros w I G; [exact I|]. cbn [TsCacheModel.run].
  pose proof (step_Inv strict w x I (fun s => proj1 (G s))) as I'. specialize (IH (fst (step w x)) I' (fun s => proj2 (G s))).
  destruct (step w x) as [w' r]. cbn [fst] in *. destruct (run w' l) as [w'' rs]. exact IH.
Qed.
Lemma start_Inv strict : Inv strict start.
Proof. split; cbn; [intros o []|intros a Ha; lia]. Qed.

(** What the data used by an object look like *)
Lemma get_data_ok strict w o f : Inv strict w -> In o (w_objs w) -> (strict = true -> cached w o f = None -> o_rev o = false) ->
  forall w' d, get_data fdec bravais complete w o f = (w', Some d) ->
  exists b, bravais (o_periods o) f = Some b /\ fam_ok (length b) d /\
    (columns (dim f) d (if o_rev o then map vneg b else b) \/ (strict = false /\ columns (dim f) d (if o_rev o then b else map vneg b))).
Proof.
  intros [I1 I2] Ho G w' d. unfold get_data. destruct (cached w o f) as [d'|] eqn:Lk.
  - intros [= <- <-]. destruct (I2 (o_cache o) (I1 o Ho)) as (p & P1 & P2). apply lookup_In in Lk. destruct (P2 _ Lk) as (b & B & F & Cl). cbn [fst snd] in *.
    rewrite (P1 o Ho eq_refl). destruct (o_rev o).
    + exists (map vneg b). rewrite bravais_neg, B, map_length, vneg_mat. cbn. auto.
    + exists b. auto.
  - unfold add_new_family. destruct (bravais (o_periods o) f) as [b|] eqn:B; [|discriminate]. destruct (complete f b []) as [d'|] eqn:D; [|discriminate]. intros [= _ <-].
    destruct (complete_ok _ _ _ _ D) as [F Cl]. exists b. split; auto. split; auto. destruct (o_rev o); auto. destruct strict; auto; discriminate (G eq_refl eq_refl).
Qed.

(** A symmetry object moves sites by its periods, whatever operations were
    performed before. *)
Theorem C54_act : forall l, guarded start l -> let w := fst (run start l) in
  forall i o g f tag f' tag', nth_error (w_objs w) i = Some o -> first_use_ok w (Act _ i g f tag) -> length tag = dim f ->
  snd (step w (Act _ i g f tag)) = RSite f' tag' ->
  f' = f /\ exists b, bravais (o_periods o) f = Some b /\ length g = length b /\ tag' = translate g b tag.
Proof.
  intros l Gd w i o g f tag f' tag' E FU Ht. pose proof (run_Inv true l start (start_Inv true) (fun _ => Gd)) as I. fold w in I. cbn [TsCacheModel.step]. rewrite E.
  pose proof (get_data_ok true w o f I (nth_error_In _ _ E) (fun _ => FU o E)) as X. destruct (get_data fdec bravais complete w o f) as [w' [d|]]; [|discriminate].
  destruct (X w' d eq_refl) as (b & B & F & [Cl|[? _]]); [|discriminate]. cbn [snd]. destruct (length g =? num_dir (o_periods o)) eqn:Lg; [|discriminate]. apply Nat.eqb_eq in Lg. rewrite <- (bravais_len _ _ _ B) in Lg.
  intros [= <- <-]. split; auto. exists b. split; auto. split; auto. unfold ts_act. destruct (o_rev o).
  - rewrite (columns_neg (dim f) d (map vneg b)) by (auto; rewrite map_length; auto). rewrite translate_neg, vneg_mat. reflexivity.
  - apply Cl; auto.
Qed.

(** Without the condition on the first use, by the periods or by the opposite. *)
Theorem C54_sign : forall l, let w := fst (run start l) in
  forall i o g f tag f' tag', nth_error (w_objs w) i = Some o -> length tag = dim f ->
  snd (step w (Act _ i g f tag)) = RSite f' tag' ->
  f' = f /\ exists b, bravais (o_periods o) f = Some b /\ (tag' = translate g b tag \/ tag' = translate g (map vneg b) tag).
Proof.
  intros l w i o g f tag f' tag' E Ht. assert (I : Inv false w) by (apply run_Inv; [apply start_Inv|discriminate]). cbn [TsCacheModel.step]. rewrite E.
  pose proof (get_data_ok false w o f I (nth_error_In _ _ E)) as X. destruct (get_data fdec bravais complete w o f) as [w' [d|]]; [|discriminate].
  destruct (X ltac:(discriminate) w' d eq_refl) as (b & B & F & Cl). cbn [snd]. destruct (length g =? num_dir (o_periods o)) eqn:Lg; [|discriminate]. apply Nat.eqb_eq in Lg. rewrite <- (bravais_len _ _ _ B) in Lg.
  intros [= <- <-]. split; auto. exists b. split; auto. unfold ts_act. assert (Lm : length g = length (map vneg b)) by (rewrite map_length; auto).
  destruct (o_rev o), Cl as [Cl|[_ Cl]].
  - left. rewrite (columns_neg (dim f) d (map vneg b)) by auto. rewrite translate_neg, vneg_mat. reflexivity.
  - right. rewrite (columns_neg (dim f) d b) by auto. apply translate_neg.
  - left. apply Cl; auto.
  - right. apply Cl; auto.
Qed.

(** Success: the family is compatible, or known already. *)
Theorem C54_defined : forall w i o g f tag, nth_error (w_objs w) i = Some o ->
  length g = num_dir (o_periods o) ->
  cached w o f <> None \/ (exists b, bravais (o_periods o) f = Some b /\ complete f b [] <> None) ->
  exists tag', snd (step w (Act _ i g f tag)) = RSite f tag'.
Proof.
  intros w i o g f tag E Lg H. cbn [TsCacheModel.step]. rewrite E. unfold get_data. destruct (cached w o f) as [d|] eqn:Lk.
  - cbn. apply Nat.eqb_eq in Lg. rewrite Lg. eauto.
  - destruct H as [H|(b & B & D)]; [congruence|]. unfold add_new_family. rewrite B. destruct (complete f b []); [|congruence]. cbn. apply Nat.eqb_eq in Lg. rewrite Lg. eauto.
Qed.

(** which() counts the translations, after any history. *)
Theorem C54_which : forall l, let w := fst (run start l) in
  forall i o g f tag f' tag' w1 w2 w3 e e', nth_error (w_objs w) i = Some o -> length tag = dim f ->
  step w (Act _ i g f tag) = (w1, RSite f' tag') -> step w1 (Which _ i f tag) = (w2, RElt fam e) -> step w2 (Which _ i f tag') = (w3, RElt fam e') ->
  e' = vadd g e /\ w3 = w1.
Proof.
  intros l w i o g f tag f' tag' w1 w2 w3 e e' E Ht. assert (I : Inv false w) by (apply run_Inv; [apply start_Inv|discriminate]).
  cbn [TsCacheModel.step]. rewrite E. pose proof (get_data_ok false w o f I (nth_error_In _ _ E)) as X.
  destruct (get_data fdec bravais complete w o f) as [w' [d|]] eqn:GD; [|discriminate]. destruct (X ltac:(discriminate) w' d eq_refl) as (b & B & F & Cl).
  destruct (length g =? num_dir (o_periods o)) eqn:Lg; [|discriminate]. apply Nat.eqb_eq in Lg. rewrite <- (bravais_len _ _ _ B) in Lg. intros [= <- <- <-].
  assert (O' : nth_error (w_objs w') i = Some o /\ lookup fdec f (get_cache w' o) = Some d).
  { revert GD. unfold get_data. destruct (cached w o f) eqn:Lk; [intros [= <- <-]; auto|]. unfold add_new_family. rewrite B. destruct (complete f b []) as [d'|]; [|discriminate]. intros [= <- ->].
    split; [exact E|]. unfold get_cache, set_cache. cbn [w_heap w_objs]. rewrite nth_set_nth by (apply I; eapply nth_error_In; eauto). destruct (Nat.eq_dec _ _); [|congruence].
    unfold get_cache in Lk. revert Lk. generalize (nth (o_cache o) (w_heap w) []). intros c Lk. induction c as [|[k v] c IH]; cbn in *.
    - unfold eqb. destruct (fdec f f); congruence.
    - destruct (eqb fdec f k); [discriminate|auto]. }
  destruct O' as [O1 O2]. rewrite O1. unfold get_data. rewrite O2. intros [= <- <-]. rewrite O1, O2. intros [= <- <-]. split; auto.
  apply (@ts_which_act (length b)); auto. assert (Q : length (m_part d) = dim f) by (destruct Cl as [Cl|[_ Cl]]; apply Cl). lia.
Qed.

(** reversed(): opposite periods, opposite action, the same fundamental domain. *)
Theorem C54_reversed : forall w i o, nth_error (w_objs w) i = Some o ->
  exists j w', step w (Reversed _ _ i) = (w', RObj _ j) /\
  (exists o', nth_error (w_objs w') j = Some o' /\ o_periods o' = rneg (o_periods o)) /\
  (forall k, k < length (w_objs w) -> nth_error (w_objs w') k = nth_error (w_objs w) k) /\
  forall f tag, cached w o f <> None ->
    (forall g, length g = num_dir (o_periods o) -> num_dir (rneg (o_periods o)) = num_dir (o_periods o) ->
       snd (step w' (Act _ j g f tag)) = snd (step w' (Act _ i (vneg g) f tag))) /\
    (forall e, snd (step w' (Which _ i f tag)) = RElt fam e -> snd (step w' (Which _ j f tag)) = RElt fam (vneg e)).
Proof.
  intros w i o E. cbn [TsCacheModel.step]. rewrite E. eexists _, _. split; [reflexivity|]. cbn [w_objs w_heap].
  assert (N : nth_error (w_objs w ++ [mkObj (rneg (o_periods o)) (negb (o_rev o)) (o_cache o)]) (length (w_objs w)) = Some (mkObj (rneg (o_periods o)) (negb (o_rev o)) (o_cache o)))
    by (rewrite nth_error_app2, Nat.sub_diag by lia; reflexivity).
  assert (M : forall k, k < length (w_objs w) -> nth_error (w_objs w ++ [mkObj (rneg (o_periods o)) (negb (o_rev o)) (o_cache o)]) k = nth_error (w_objs w) k)
    by (intros k Hk; apply nth_error_app1; auto).
  split; [eexists; split; [exact N|reflexivity]|]. split; [exact M|]. intros f tag Ck.
  assert (Hi : i < length (w_objs w)) by (apply nth_error_Some; congruence). rewrite N, (M i Hi), E.
  unfold get_data, get_cache. cbn [o_cache w_heap]. unfold get_cache in Ck. destruct (lookup fdec f (nth (o_cache o) (w_heap w) [])) as [d|]; [|congruence]. split.
  - intros g Lg Ln. cbn [o_periods o_rev snd]. rewrite vneg_length. rewrite Ln. rewrite Lg, Nat.eqb_refl. f_equal. unfold ts_act. rewrite matvec_vneg. destruct (o_rev o); cbn; rewrite ?vneg_vneg; reflexivity.
  - cbn [snd o_rev]. intros e [= <-]. unfold ts_which. destruct (o_rev o); cbn; rewrite ?vneg_vneg; reflexivity.
Qed.
(** The data of a family, once found, stay: the fundamental domain does not
    change unless the family is deleted, and the family cannot be added again. *)
Definition deletes (f : fam) (x : op) : Prop := match x with DelFamily _ _ f' => f' = f | _ => False end.
Lemma lookup_app_some A k (c c' : list (fam * A)) v : lookup fdec k c = Some v -> lookup fdec k (c ++ c') = Some v.
Proof. induction c as [|[k' v'] c IH]; cbn; [discriminate|]. destruct (eqb fdec k k'); auto. Qed.
Lemma lookup_remove1 A k k' (c : list (fam * A)) : k' <> k -> lookup fdec k (remove1 fdec k' c) = lookup fdec k c.
Proof.
  intros N. induction c as [|[j v] c IH]; cbn; auto. unfold eqb in *. destruct (fdec k' j) as [->|]; cbn; unfold eqb.
  - destruct (fdec k j); congruence.
  - destruct (fdec k j); auto.
Qed.
Lemma set_cache_keeps (w : world) (o : symobj) c (o' : symobj) f d : o_cache o < length (w_heap w) -> cached w o' f = Some d ->
  (lookup fdec f (get_cache w o) = Some d -> lookup fdec f c = Some d) -> cached (set_cache w o c) o' f = Some d.
Proof.
  intros Hr H Hc. unfold get_cache, set_cache in *. cbn. rewrite nth_set_nth by auto. destruct (Nat.eq_dec _ _) as [E|]; auto. rewrite E in *. auto.
Qed.
Lemma add_new_keeps (w : world) o g other o' f d : o_cache o < length (w_heap w) -> cached w o' f = Some d ->
  cached (fst (add_new_family bravais complete w o g other)) o' f = Some d.
Proof.
  intros Hr H. unfold add_new_family. destruct (bravais _ _); [|exact H]. destruct (complete _ _ _); [|exact H]. cbn. apply set_cache_keeps; auto. apply lookup_app_some.
Qed.
Lemma step_keeps w x i o f d : Inv false w -> ~ deletes f x -> nth_error (w_objs w) i = Some o -> cached w o f = Some d ->
  nth_error (w_objs (fst (step w x))) i = Some o /\ cached (fst (step w x)) o f = Some d.
Proof.
  intros I Nd E H. pose proof I as [I1 _]. pose proof (I1 o (nth_error_In _ _ E)) as Hr.
  assert (Ha : forall o', nth_error (w_objs w ++ [o']) i = Some o) by (intros; rewrite nth_error_app1; auto; apply nth_error_Some; congruence).
  assert (Oa : forall o' g other, w_objs (fst (add_new_family bravais complete w o' g other)) = w_objs w).
  { intros. unfold add_new_family. destruct (bravais _ _); auto. destruct (complete _ _ _); auto. }
  destruct x as [p|j|j g other|j g|j g tag|j e g tag]; cbn [TsCacheModel.step].
  - cbn. split; auto. unfold get_cache in *. cbn. rewrite app_nth1; auto.
  - destruct (nth_error (w_objs w) j) as [o'|] eqn:E'; cbn; auto.
  - destruct (nth_error (w_objs w) j) as [o'|] eqn:E'; cbn; auto. destruct (lookup fdec g (get_cache w o')); auto.
    pose proof (add_new_keeps w o' g other o f d (I1 _ (nth_error_In _ _ E')) H) as K. specialize (Oa o' g other).
    destruct (add_new_family bravais complete w o' g other) as [w' [?|]]; cbn [fst] in *; rewrite Oa; auto.
  - destruct (nth_error (w_objs w) j) as [o'|] eqn:E'; cbn; auto. destruct (lookup fdec g (get_cache w o')); cbn; auto. split; auto.
    apply set_cache_keeps; auto; [apply I1; eapply nth_error_In; eauto|]. rewrite lookup_remove1; auto.
  - destruct (nth_error (w_objs w) j) as [o'|] eqn:E'; cbn; auto. unfold get_data. destruct (lookup fdec g (get_cache w o')); cbn; auto.
    pose proof (add_new_keeps w o' g [] o f d (I1 _ (nth_error_In _ _ E')) H) as K. specialize (Oa o' g []).
    destruct (add_new_family bravais complete w o' g []) as [w' [?|]]; cbn [fst] in *; rewrite Oa; auto.
  - destruct (nth_error (w_objs w) j) as [o'|] eqn:E'; cbn; auto. unfold get_data. destruct (lookup fdec g (get_cache w o')); cbn; auto.
    pose proof (add_new_keeps w o' g [] o f d (I1 _ (nth_error_In _ _ E')) H) as K. specialize (Oa o' g []).
    destruct (add_new_family bravais complete w o' g []) as [w' [?|]]; cbn [fst] in *; rewrite Oa; auto.
Qed.
Lemma run_keeps l : forall w i o f d, Inv false w -> (forall x, In x l -> ~ deletes f x) -> nth_error (w_objs w) i = Some o -> cached w o f = Some d ->
  nth_error (w_objs (fst (run w l))) i = Some o /\ cached (fst (run w l)) o f = Some d.
Proof.
  induction l as [|x l IH]; intros w i o f d I Nd E H; [auto|]. cbn [TsCacheModel.run].
  destruct (step_keeps w x i o f d I (Nd x (or_introl eq_refl)) E H) as [E' H']. pose proof (step_Inv false w x I ltac:(discriminate)) as I'.
  specialize (IH (fst (step w x)) i o f d I' (fun y Hy => Nd y (or_intror Hy)) E' H'). destruct (step w x) as [w' r]. cbn [fst] in *. destruct (run w' l) as [w'' rs]. exact IH.
Qed.
Theorem C54_stable : forall l0, let w := fst (run start l0) in
  forall i f tag w' e l, step w (Which _ i f tag) = (w', RElt fam e) -> (forall x, In x l -> ~ deletes f x) ->
  snd (step (fst (run w' l)) (Which _ i f tag)) = RElt fam e /\
  forall other, step (fst (run w' l)) (AddFamily _ i f other) = (fst (run w' l), RKeyError fam).
Proof.
  intros l0 w i f tag w' e l H Nd. assert (I : Inv false w) by (apply run_Inv; [apply start_Inv|discriminate]).
  assert (I' : Inv false w') by (pose proof (step_Inv false w (Which _ i f tag) I ltac:(discriminate)) as X; rewrite H in X; exact X).
  cbn [TsCacheModel.step] in H. destruct (nth_error (w_objs w) i) as [o|] eqn:E; [|discriminate].
  destruct (get_data fdec bravais complete w o f) as [w1 [d|]] eqn:GD; [|discriminate]. injection H as <- <-.
  assert (O' : nth_error (w_objs w1) i = Some o /\ cached w1 o f = Some d).
  { revert GD. unfold get_data. destruct (cached w o f) eqn:Lk; [intros [= <- <-]; auto|]. unfold add_new_family. destruct (bravais _ _); [|discriminate]. destruct (complete _ _ _) as [d'|]; [|discriminate]. intros [= <- ->].
    split; [exact E|]. unfold get_cache, set_cache. cbn [w_heap w_objs]. rewrite nth_set_nth by (apply I; eapply nth_error_In; eauto). destruct (Nat.eq_dec _ _); [|congruence].
    unfold get_cache in Lk. revert Lk. generalize (nth (o_cache o) (w_heap w) []). intros c Lk. induction c as [|[k v] c IH]; cbn in *.
    - unfold eqb. destruct (fdec f f); congruence.
    - destruct (eqb fdec f k); [discriminate|auto]. }
  destruct O' as [O1 O2]. destruct (run_keeps l w1 i o f d I' Nd O1 O2) as [R1 R2]. cbn [TsCacheModel.step]. rewrite R1. unfold get_data. rewrite R2. auto.
Qed.
End C54.
Print Assumptions C54_stable.
Print Assumptions C54_act.
Print Assumptions C54_sign.
Print Assumptions C54_defined.
Print Assumptions C54_which.
Print Assumptions C54_reversed.

(** *** A concrete case: chains. *)
Definition cx_bravais (p : Z) (f : nat) : option mat := Some [[p]].
Definition cx_complete (f : nat) (b other : mat) : option famdata :=
  match b with [[p]] => if Z.eq_dec p 0 then None else Some (mkFam [[p]] [[1%Z]] p) | _ => None end.
Example cx_ok : (forall p, Z.opp (Z.opp p) = p) /\
  (forall p f, cx_bravais (Z.opp p) f = option_map (map vneg) (cx_bravais p f)) /\
  (forall p f b, cx_bravais p f = Some b -> length b = 1) /\
  (forall f b other d, cx_complete f b other = Some d -> fam_ok (length b) d /\ columns 1 d b).
Proof.
  split; [apply Z.opp_involutive|]. split; [reflexivity|]. split; [intros p f b [= <-]; reflexivity|].
  intros f b other d. unfold cx_complete. destruct b as [|[|p [|]] [|]]; try discriminate. destruct (Z.eq_dec p 0); [discriminate|]. intros [= <-]. split.
  - split; [exact n|]. cbn. repeat split; try reflexivity; try (intros r [<-|[]]; reflexivity). clear n. unfold scalarI. cbn. destruct p; reflexivity.
  - split; [reflexivity|]. intros [|x [|]] [|t [|]]; cbn [length]; try discriminate. intros _ _. cbn [matvec map dot vadd translate m_part]. f_equal. lia.
Qed.
Notation cx_run := (@run nat Z Nat.eq_dec Z.opp (fun _ => 1) cx_bravais cx_complete (start nat Z)).
(** period 3; the family is used before the symmetry is reversed *)
Definition cx_hist : list (op nat Z) :=
  [New nat 3%Z; Act Z 0 [2%Z] 7 [1%Z]; Reversed nat Z 0; Act Z 1 [2%Z] 7 [1%Z]; Which Z 1 7 [7%Z]; Reversed nat Z 1; Act Z 2 [1%Z] 7 [0%Z]].
Example cx_guarded : @guarded nat Z Nat.eq_dec Z.opp (fun _ => 1) cx_bravais cx_complete (start nat Z) cx_hist /\
  snd (cx_run cx_hist) = [RObj nat 0; RSite 7 [7%Z]; RObj nat 1; RSite 7 [(-5)%Z]; RElt nat [(-2)%Z]; RObj nat 2; RSite 7 [3%Z]].
Proof. split; [|reflexivity]. cbn. repeat split; intros o [= <-]; cbn; auto; discriminate. Qed.

(** The full property is false: in the first use through the reversed symmetry
    (periods: -3) the sites move by +3, and those of the original symmetry
    (periods: 3) by -3. *)
Example C54_first_use_refuted :
  let w := fst (cx_run [New nat 3%Z; Reversed nat Z 0; Act Z 1 [1%Z] 7 [0%Z]; Act Z 0 [1%Z] 7 [0%Z]]) in
  map (@o_periods Z) (w_objs w) = [3; -3]%Z /\
  snd (cx_run [New nat 3%Z; Reversed nat Z 0; Act Z 1 [1%Z] 7 [0%Z]; Act Z 0 [1%Z] 7 [0%Z]]) =
    [RObj nat 0; RObj nat 1; RSite 7 [3%Z]; RSite 7 [(-3)%Z]].
Proof. split; reflexivity. Qed.

(** after the first use nothing else than deleting the family changes which() *)
Example cx_stable : snd (cx_run (cx_hist ++ [New nat 5%Z; Act Z 3 [2%Z] 7 [1%Z]; AddFamily Z 1 7 []; Which Z 1 7 [7%Z]])) =
  [RObj nat 0; RSite 7 [7%Z]; RObj nat 1; RSite 7 [(-5)%Z]; RElt nat [(-2)%Z]; RObj nat 2; RSite 7 [3%Z];
   RObj nat 3; RSite 7 [11%Z]; RKeyError nat; RElt nat [(-2)%Z]].
Proof. reflexivity. Qed.
