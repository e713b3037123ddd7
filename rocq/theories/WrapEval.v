(** * wraparound: evaluation of the constructed functions. *)
From Coq Require Import List Bool Arith Lia Permutation.
From Verif Require Import BuilderModel ParamModel SubstModel SubstProofs PeierlsModel PeierlsProofs WrapModel WrapSpec.
Import ListNotations.
Set Implicit Arguments.

Section OSum.
Variable C : Type.
Variable add : C -> C -> C.
Variable zero : C.
Notation osum := (@osum C add zero).
Hypothesis add_comm : forall a b, add a b = add b a.
Hypothesis add_assoc : forall a b c, add a (add b c) = add (add a b) c.
Hypothesis add_0 : forall a, add zero a = a.

Definition oadd (x y : option C) : option C := match x, y with Some a, Some b => Some (add a b) | _, _ => None end.
Lemma osum_cons x l : osum (x :: l) = oadd x (osum l).
Proof. reflexivity. Qed.
Lemma oadd_comm x y : oadd x y = oadd y x.
Proof. destruct x, y; cbn; auto. rewrite add_comm. reflexivity. Qed.
Lemma oadd_assoc x y z : oadd x (oadd y z) = oadd (oadd x y) z.
Proof. destruct x, y, z; cbn; auto. rewrite add_assoc. reflexivity. Qed.
Lemma oadd_0 x : oadd (Some zero) x = x.
Proof. destruct x; cbn; auto. rewrite add_0. reflexivity. Qed.
Lemma osum_app l l' : osum (l ++ l') = oadd (osum l) (osum l').
Proof. induction l as [|x l IH]; cbn [app]; rewrite ?osum_cons; [symmetry; apply oadd_0|]. rewrite IH. apply oadd_assoc. Qed.
Lemma osum_perm l l' : Permutation l l' -> osum l = osum l'.
Proof.
  induction 1; rewrite ?osum_cons; auto; try congruence. rewrite !oadd_assoc. f_equal. apply oadd_comm.
Qed.
Lemma osum_None l : In None l -> osum l = None.
Proof. induction l as [|x l IH]; intros []; cbn; [subst x; reflexivity|]. rewrite IH by auto. destruct x; reflexivity. Qed.
Lemma osum_zero A (f : A -> option C) l : (forall x, In x l -> f x = Some zero) -> osum (map f l) = Some zero.
Proof. induction l as [|x l IH]; intros H; cbn [map]; [reflexivity|]. rewrite osum_cons, H, IH, oadd_0; auto; [intros; apply H; right; auto|left; auto]. Qed.
Lemma osum_flat A (E : A -> option C) (T : A -> list (option C)) l : (forall x, In x l -> E x = osum (T x)) ->
  osum (map E l) = osum (flat_map T l).
Proof. induction l as [|x l IH]; intros H; cbn [map flat_map]; [reflexivity|]. rewrite osum_cons, osum_app, H, IH; auto; [intros; apply H; right; auto|left; auto]. Qed.
(** The sum over a set that contains the support is the sum over the support. *)
Lemma osum_support A (adec : forall x y : A, {x = y} + {x <> y}) (f : A -> option C) G gs : NoDup G -> NoDup gs -> incl gs G ->
  (forall g, In g G -> ~ In g gs -> f g = Some zero) -> osum (map f G) = osum (map f gs).
Proof.
  intros NG Ngs I H. assert (X : Permutation G (gs ++ filter (fun g => if in_dec adec g gs then false else true) G)).
  { apply NoDup_Permutation; auto.
    - assert (N2 : NoDup (filter (fun g => if in_dec adec g gs then false else true) G)) by (apply NoDup_filter; auto).
      clear - Ngs N2. assert (D : forall g, In g gs -> ~ In g (filter (fun g => if in_dec adec g gs then false else true) G)).
      { intros g Hg Hf. apply filter_In in Hf. destruct Hf as [_ Hf]. destruct (in_dec adec g gs); [discriminate|contradiction]. }
      revert D. generalize (filter (fun g => if in_dec adec g gs then false else true) G) N2. intros F NF D. clear N2. induction Ngs as [|x l Hx Ngs IH]; cbn; auto.
      constructor; [|apply IH; cbn in D; auto]. rewrite in_app_iff. intros [?|?]; [contradiction|]. apply (D x); cbn; auto.
    - intros g. rewrite in_app_iff, filter_In. split.
      + intros Hg. destruct (in_dec adec g gs); auto.
      + intros [Hg|[Hg _]]; auto. }
  rewrite (osum_perm (Permutation_map f X)), map_app, osum_app.
  rewrite (osum_zero f (filter (fun g => if in_dec adec g gs then false else true) G)); [rewrite oadd_comm; apply oadd_0|].
  intros g Hg. apply filter_In in Hg. destruct Hg as [Hg Hn]. apply H; auto. destruct (in_dec adec g gs); [discriminate|auto].
Qed.
Lemma osum_conj (conj : C -> C) (conj_add : forall a b, conj (add a b) = add (conj a) (conj b)) (conj_0 : conj zero = zero) l :
  option_map conj (osum l) = osum (map (option_map conj) l).
Proof.
  induction l as [|x l IH]; cbn [map]; [cbn; rewrite conj_0; reflexivity|]. rewrite !osum_cons, <- IH. destruct x, (osum l); cbn; auto. rewrite conj_add. reflexivity.
Qed.
End OSum.

Lemma omap_Some (A B : Type) (f : A -> option B) l : (forall x, In x l -> f x <> None) -> exists r, omap f l = Some r.
Proof.
  induction l as [|x l IH]; intros H; cbn; eauto. destruct (f x) eqn:E; [|exfalso; apply (H x); cbn; auto].
  destruct IH as (r & ->); [intros; apply H; cbn; auto|]. eauto.
Qed.
Lemma omap_In (A B : Type) (f : A -> option B) l r x : omap f l = Some r -> In x l -> exists y, f x = Some y.
Proof.
  revert r. induction l as [|z l IH]; intros r H []; cbn in H; destruct (f z) eqn:E; try discriminate; destruct (omap f l) eqn:E'; try discriminate.
  - subst z. eauto.
  - eauto.
Qed.
Lemma omap_length (A B : Type) (f : A -> option B) l : forall r, omap f l = Some r -> length r = length l.
Proof.
  induction l as [|z l IH]; intros r H; cbn in H; [injection H as <-; reflexivity|]. destruct (f z); [|discriminate]. destruct (omap f l) eqn:E; [|discriminate].
  injection H as <-. cbn. f_equal. auto.
Qed.
Lemma omap_nth (A B : Type) (f : A -> option B) l : forall r i x, omap f l = Some r -> nth_error l i = Some x -> nth_error r i = f x.
Proof.
  induction l as [|z l IH]; intros r i x H Hi; [destruct i; discriminate|]. cbn in H. destruct (f z) eqn:E; [|discriminate]. destruct (omap f l) eqn:E'; [|discriminate].
  injection H as <-. destruct i; cbn in *; [congruence|]. eauto.
Qed.
Lemma omap_ext (A B : Type) (f g : A -> option B) l : (forall x, In x l -> f x = g x) -> omap f l = omap g l.
Proof. induction l as [|x l IH]; intros H; [reflexivity|]. cbn. rewrite H, IH; auto; [intros; apply H; right; auto|left; auto]. Qed.

Lemma takeN_app (name : Type) (momenta : list name) (mom_ne : momenta <> []) l : takeN momenta (l ++ momenta) = l.
Proof.
  unfold takeN. destruct (length momenta) eqn:E; [destruct momenta; [contradiction|discriminate]|]. rewrite app_length, E.
  replace (length l + S n - S n) with (length l) by lia. rewrite firstn_app, Nat.sub_diag, firstn_all. cbn. apply app_nil_r.
Qed.
Lemma dropN_app (name : Type) (momenta : list name) (mom_ne : momenta <> []) l : dropN momenta (l ++ momenta) = momenta.
Proof.
  unfold dropN. destruct (length momenta) eqn:E; [destruct momenta; [contradiction|discriminate]|]. rewrite app_length, E.
  replace (length l + S n - S n) with (length l) by lia. rewrite skipn_app, Nat.sub_diag, skipn_all. reflexivity.
Qed.

Section Eval.
Variables site obj name C Ph : Type.
Variable dec : forall a b : site, {a = b} + {a <> b}.
Variable W : Symmetry site.
Variable conj : C -> C.
Variable add : C -> C -> C.
Variable zero : C.
Variable scal : Ph -> C -> C.
Variable bloch : elt W -> list (arg site obj) -> Ph.
Variable ndec : forall a b : name, {a = b} + {a <> b}.
Variable P : pyfuns site obj name C.
Variables site0 site1 : name.
Variable momenta : list name.
Variable argsort : list (list name) -> list nat.
Hypothesis argsort_perm : forall l, Permutation (argsort l) (seq 0 (length l)).
Hypothesis add_comm : forall a b, add a b = add b a.
Hypothesis add_assoc : forall a b c, add a (add b c) = add (add a b) c.
Hypothesis add_0 : forall a, add zero a = a.
Hypothesis mom_ne : momenta <> [].
Hypothesis s01 : site0 <> site1.
Notation bfun := (bfun W P).
Notation wfun := (wfun W P).
Notation bval := (val C bfun).
Notation b_params := (@b_params site obj name C W P site0 site1 momenta).
Notation b_call := (@b_call site obj name C Ph W conj add scal bloch P momenta).
Notation wfuns := (@wfuns site obj name C Ph W conj add zero scal bloch ndec P site0 site1 momenta argsort).
Notation own_params := (@own_params site obj name C W P site0 site1 momenta).
Notation sum_keys := (@sum_keys site obj name C W ndec P site0 site1 momenta).
Notation site_params := (site_params site0 site1).
Notation bval_call := (@bval_call site obj name C Ph W conj add scal bloch P momenta).
Notation sum_loop := (@sum_loop site obj name C Ph W conj add scal bloch ndec P site0 site1 momenta).
Notation out_args := (@out_args site obj name C W ndec P site0 site1 momenta).
Notation route := (@route site obj name).
Notation osum := (osum add zero).

Variable env : name -> option obj.
Variable ks : list obj.
Hypothesis Hks : omap env momenta = Some ks.
Definition kargs : list (arg site obj) := map (@AObj site obj) ks.

Lemma len_k : length ks = length momenta.
Proof. exact (omap_length _ _ Hks). Qed.
Lemma take_app l : take momenta (l ++ kargs) = l.
Proof.
  unfold take. pose proof len_k. destruct (length momenta) eqn:E; [destruct momenta; [contradiction|discriminate]|].
  rewrite app_length. unfold kargs. rewrite map_length, H. replace (length l + S n - S n) with (length l) by lia.
  rewrite firstn_app, Nat.sub_diag, firstn_all. cbn. apply app_nil_r.
Qed.
Lemma drop_app l : drop momenta (l ++ kargs) = kargs.
Proof.
  unfold drop. pose proof len_k. destruct (length momenta) eqn:E; [destruct momenta; [contradiction|discriminate]|].
  rewrite app_length. unfold kargs. rewrite map_length, H. replace (length l + S n - S n) with (length l) by lia.
  rewrite skipn_app, Nat.sub_diag, skipn_all. reflexivity.
Qed.
(** A bound function called with [n] sites and its own parameters *)
Definition callb (n : nat) (b : bfun) (ss : list site) : option C :=
  match route env n (b_params b) with Some l => b_call b (map (@ASite site obj) ss ++ l) | None => None end.

(** The shape of its signature *)
Definition shape (n : nat) (b : bfun) : Prop :=
  (exists pre, b_params b = pre ++ own_params n b ++ momenta /\ length pre = n) /\
  (forall p, In p (own_params n b) -> ~ In p (site_params n)).

Lemma route_shape n b : shape n b -> route env n (b_params b) =
  match omap env (own_params n b) with Some l => Some (map (@AObj site obj) l ++ kargs) | None => None end.
Proof.
  intros [(pre & E & Hl) _]. unfold ParamModel.route. rewrite E at 1. rewrite skipn_app, <- Hl, Nat.sub_diag, skipn_all. cbn [app skipn].
  rewrite omap_app, Hks. destruct (omap env (own_params (length pre) b)); [|reflexivity]. cbn. rewrite map_app. reflexivity.
Qed.

Definition beval (n : nat) (ss : list site) (v : bval) : option C :=
  match v with
  | VConst _ c => Some c
  | VFun _ b => callb n b ss
  | VHC _ b => option_map conj (callb n b (rev ss))
  end.

Lemma add_new_app ps l : exists r, add_new ndec ps l = ps ++ r /\ (forall p, In p (ps ++ r) <-> In p ps \/ In p l) /\ forall p, In p r -> ~ In p ps.
Proof.
  revert ps. induction l as [|p l IH]; intros ps; cbn [add_new].
  - exists []. rewrite app_nil_r. split; auto. split; [intros q; cbn; tauto|intros q []].
  - destruct (in_dec ndec p ps) as [i|n].
    + destruct (IH ps) as (r & E & H & D). exists r. split; auto. split; auto. intros q. rewrite H. cbn. split; intros [?|?]; auto. destruct H0; subst; auto.
    + destruct (IH (ps ++ [p])) as (r & E & H & D). exists (p :: r). rewrite E, <- app_assoc. split; auto. split.
      * intros q. specialize (H q). rewrite <- app_assoc in H. cbn [app] in H. rewrite H, in_app_iff. cbn. tauto.
      * intros q [<-|Hq]; auto. intros Q. apply (D q Hq). apply in_app_iff. auto.
Qed.
Lemma sum_keys_app n vals : exists r, sum_keys n vals = site_params n ++ r /\
  (forall p, In p (site_params n ++ r) <-> In p (site_params n) \/ exists v b, In v vals /\ bval_fun v = Some b /\ In p (own_params n b)) /\
  forall p, In p r -> ~ In p (site_params n).
Proof.
  unfold WrapModel.sum_keys. assert (G : forall vals ps0, exists r, fold_left (fun ps v => match bval_fun v with None => ps | Some b => add_new ndec ps (own_params n b) end) vals ps0 = ps0 ++ r /\
    (forall p, In p (ps0 ++ r) <-> In p ps0 \/ exists v b, In v vals /\ bval_fun v = Some b /\ In p (own_params n b)) /\
    forall p, In p r -> ~ In p ps0).
  { clear vals. induction vals as [|v vals IH]; intros ps0; cbn [fold_left].
    - exists []. rewrite app_nil_r. split; auto. split; [|intros p []]. intros p. split; auto. intros [?|(v & b & [] & _)]; auto.
    - destruct (bval_fun v) as [b|] eqn:Eb.
      + destruct (add_new_app ps0 (own_params n b)) as (r1 & E1 & H1 & D1). destruct (IH (add_new ndec ps0 (own_params n b))) as (r & E & H & DD).
        exists (r1 ++ r). rewrite E, E1, app_assoc. split; auto. split.
        2: { intros p Hp. apply in_app_iff in Hp. destruct Hp as [Hp|Hp]; auto. intros Q. apply (DD p Hp). rewrite E1. apply in_app_iff; auto. }
        intros p. rewrite <- E1, H, E1, H1. split.
        * intros [[?|?]|(v' & b' & A & B & D)]; auto; right; [exists v, b|exists v', b']; cbn; auto.
        * intros [?|(v' & b' & [A|A] & B & D)]; auto; [|right; exists v', b'; auto]. subst v'. left. right. congruence.
      + destruct (IH ps0) as (r & E & H & DD). exists r. split; auto. split; auto. intros p. rewrite H. split; (intros [?|(v' & b' & A & B & D)]; [auto|right; exists v', b']); cbn; auto.
        destruct A as [A|A]; auto. subst v'. congruence. }
  apply G.
Qed.
Lemma index_spec s l i : index ndec s l = Some i -> nth_error l i = Some s.
Proof.
  revert i. induction l as [|x l IH]; intros i; cbn; [discriminate|]. destruct (ndec s x) as [->|]; [intros [= <-]; reflexivity|].
  destruct (index ndec s l) eqn:E; [|discriminate]. intros [= <-]. cbn. auto.
Qed.
Lemma index_In s l : In s l -> exists i, index ndec s l = Some i.
Proof.
  induction l as [|x l IH]; intros H; [destruct H|]. cbn. destruct (ndec s x) as [|n]; [eauto|]. destruct H as [H|H]; [congruence|]. destruct (IH H) as (i & ->). cbn. eauto.
Qed.

Section Sum.
Variable n : nat.
Hypothesis Hn : n = 1 \/ n = 2.
Variable vals : list bval.
Hypothesis Hv : forall v b, In v vals -> bval_fun v = Some b -> shape n b /\ (n = 1 -> v = VFun C b).
Variable ss : list site.
Hypothesis Hss : length ss = n.

Lemma len_sp : length (site_params n) = n.
Proof. destruct Hn as [->| ->]; reflexivity. Qed.

Lemma out_args_ok rest l v b : sum_keys n vals = site_params n ++ rest -> omap env rest = Some l ->
  In v vals -> bval_fun v = Some b ->
  exists o, omap env (own_params n b) = Some o /\
    out_args n vals b (map (@ASite site obj) ss ++ map (@AObj site obj) (l ++ ks)) = Some (map (@ASite site obj) ss ++ map (@AObj site obj) o ++ kargs).
Proof.
  intros K L Hin Hb. destruct (Hv _ Hin Hb) as [[_ Hd] _].
  assert (Sub : forall p, In p (own_params n b) -> In p rest).
  { intros p Hp. destruct (sum_keys_app n vals) as (r & E & H & _). assert (r = rest) by (apply (app_inv_head (site_params n)); congruence). subst r.
    assert (X : In p (site_params n ++ rest)) by (apply H; right; eauto). apply in_app_iff in X. destruct X; auto. exfalso. apply (Hd p); auto. }
  destruct (@omap_Some _ _ env (own_params n b)) as (o & Ho).
  { intros p Hp. destruct (omap_In env rest p L (Sub p Hp)) as (y & ->). discriminate. }
  exists o. split; auto. unfold WrapModel.out_args. rewrite K, omap_app.
  assert (LA : last_args momenta (map (@ASite site obj) ss ++ map (@AObj site obj) (l ++ ks)) = Some kargs).
  { unfold last_args. rewrite map_app, app_assoc. pose proof len_k as LK. rewrite (app_length _ (map _ ks)), map_length. 
    destruct (Nat.ltb_spec (length (map (@ASite site obj) ss ++ map (@AObj site obj) l) + length ks) (length momenta)); [lia|].
    replace (length (map (@ASite site obj) ss ++ map (@AObj site obj) l) + length ks - length momenta) with (length (map (@ASite site obj) ss ++ map (@AObj site obj) l)) by lia.
    rewrite skipn_app, Nat.sub_diag, skipn_all. reflexivity. }
  rewrite LA.
  assert (S1 : omap (fun s => bind (index ndec s (site_params n ++ rest)) (nth_error (map (@ASite site obj) ss ++ map (@AObj site obj) (l ++ ks)))) (site_params n) = Some (map (@ASite site obj) ss)).
  { destruct Hn as [E|E]; subst n; rewrite E in *; destruct ss as [|x [|y [|]]]; try discriminate; cbn.
    - destruct (ndec site0 site0); [reflexivity|congruence].
    - destruct (ndec site0 site0); [|congruence]. destruct (ndec site1 site0); [congruence|]. destruct (ndec site1 site1); [|congruence]. reflexivity. }
  rewrite S1.
  assert (S2 : omap (fun s => bind (index ndec s (site_params n ++ rest)) (nth_error (map (@ASite site obj) ss ++ map (@AObj site obj) (l ++ ks)))) (own_params n b) = Some (map (@AObj site obj) o)).
  { rewrite (@omap_ext _ _ _ (fun s => option_map (@AObj site obj) (env s))).
    - clear - Ho. revert o Ho. induction (own_params n b) as [|p q IH]; intros o Ho; cbn in *; [injection Ho as <-; reflexivity|].
      destruct (env p); [|discriminate]. destruct (omap env q); [|discriminate]. injection Ho as <-. cbn. rewrite (IH _ eq_refl). reflexivity.
    - intros p Hp. destruct (@index_In p (site_params n ++ rest)) as (i & Hi); [apply in_app_iff; auto|]. rewrite Hi. cbn [bind].
      apply index_spec in Hi. destruct (Nat.lt_ge_cases i n) as [Lt|Ge].
      + exfalso. rewrite nth_error_app1 in Hi by (rewrite len_sp; auto). apply (Hd p Hp). eapply nth_error_In; eauto.
      + rewrite nth_error_app2 in Hi by (rewrite len_sp; auto). rewrite len_sp in Hi. rewrite nth_error_app2 by (rewrite map_length, Hss; auto).
        rewrite map_length, Hss, nth_error_map. rewrite nth_error_app1.
        * rewrite (omap_nth _ _ _ L Hi). reflexivity.
        * rewrite (omap_length _ _ L). apply nth_error_Some. congruence. }
  rewrite S2. cbn [bind]. rewrite <- app_assoc. reflexivity.
Qed.

Lemma bval_call_ok v b o : In v vals -> bval_fun v = Some b -> omap env (own_params n b) = Some o ->
  bval_call v (map (@ASite site obj) ss ++ map (@AObj site obj) o ++ kargs) = beval n ss v.
Proof.
  intros Hin Hb Ho. destruct (Hv _ Hin Hb) as [Sh V1]. unfold beval, callb. destruct v as [c|b'|b']; cbn [bval_fun] in Hb; try discriminate.
  - assert (b' = b) by congruence. subst b'. cbn [WrapModel.bval_call]. rewrite (route_shape Sh), Ho. reflexivity.
  - assert (b' = b) by congruence. subst b'. rewrite (route_shape Sh), Ho. destruct Hn as [E|E]; [specialize (V1 E); discriminate|].
    rewrite E in Hss. destruct ss as [|x [|y [|]]]; try discriminate. reflexivity.
Qed.

Lemma sum_loop_ok rest l : sum_keys n vals = site_params n ++ rest -> omap env rest = Some l ->
  forall order acc, (forall i, In i order -> i < length vals) ->
  sum_loop n vals (map (@ASite site obj) ss ++ map (@AObj site obj) (l ++ ks)) acc order =
  oadd add (Some acc) (osum (map (fun i => match nth_error vals i with Some v => beval n ss v | None => None end) order)).
Proof.
  intros K L. induction order as [|i order IH]; intros acc Ho; cbn [WrapModel.sum_loop map].
  - cbn. rewrite add_comm, add_0. reflexivity.
  - destruct (nth_error vals i) as [v|] eqn:Ev; [|apply nth_error_None in Ev; specialize (Ho i (or_introl eq_refl)); lia].
    rewrite osum_cons, (oadd_assoc add add_assoc). assert (Hin : In v vals) by (eapply nth_error_In; eauto).
    assert (Ho' : forall i, In i order -> i < length vals) by (intros; apply Ho; cbn; auto).
    destruct (bval_fun v) as [b|] eqn:Eb.
    + destruct (@out_args_ok rest l v b K L Hin Eb) as (o & Ho1 & ->). cbn [bind]. rewrite (@bval_call_ok v b o Hin Eb Ho1).
      destruct (beval n ss v) as [c|]; [|reflexivity]. cbn [bind]. rewrite IH by auto. reflexivity.
    + destruct v as [c|b|b]; try discriminate. rewrite IH by auto. reflexivity.
Qed.

Lemma call_sum :
  match route env n (w_params ndec site0 site1 momenta (BindSum n vals)) with
  | Some l => w_call conj add zero scal bloch ndec site0 site1 momenta argsort (BindSum n vals) (map (@ASite site obj) ss ++ l)
  | None => None
  end = osum (map (beval n ss) vals).
Proof.
  cbn [w_params w_call]. destruct (sum_keys_app n vals) as (rest & K & HK & HD). rewrite K.
  unfold ParamModel.route. rewrite <- app_assoc, skipn_app, len_sp, Nat.sub_diag. rewrite <- len_sp at 1. rewrite skipn_all. cbn [app skipn].
  rewrite omap_app, Hks. destruct (omap env rest) as [l|] eqn:L.
  - cbn [option_map]. rewrite (@sum_loop_ok rest l K L).
    + change (oadd add (Some zero) ?x) with (oadd add (Some zero) x). rewrite (oadd_0 add zero add_0).
      rewrite (osum_perm add zero add_comm add_assoc (Permutation_map _ (argsort_perm (map (selection site0 site1 momenta n) vals)))).
      f_equal. rewrite map_length. clear. induction vals as [|v vs IH] using rev_ind; [reflexivity|].
      rewrite app_length. cbn [length]. rewrite Nat.add_1_r, seq_S, !map_app. cbn [map Nat.add]. f_equal.
      * rewrite <- IH. apply map_ext_in. intros i Hi. apply in_seq in Hi. rewrite nth_error_app1 by lia. reflexivity.
      * rewrite nth_error_app2, Nat.sub_diag by lia. reflexivity.
    + intros i Hi. apply (Permutation_in _ (argsort_perm _)) in Hi. apply in_seq in Hi. rewrite map_length in Hi. lia.
  - cbn [option_map]. symmetry. apply osum_None.
    assert (X : exists p, In p rest /\ env p = None).
    { clear - L. induction rest as [|p r IH]; [discriminate|]. cbn in L. destruct (env p) eqn:E; [|exists p; cbn; auto].
      destruct (omap env r); [discriminate|]. destruct IH as (q & A & B); auto. exists q. cbn. auto. }
    destruct X as (p & Hp & Ep). assert (Y : In p (site_params n ++ rest)) by (apply in_app_iff; auto).
    (* p comes from one of the values, or is a site name occurring again: impossible *)
    destruct (proj1 (HK p) Y) as [Hs|(v & b & Hin & Hb & Ho)].
    + exfalso. exact (HD p Hp Hs).
    + apply in_map_iff. exists v. split; auto. destruct (Hv _ Hin Hb) as [Sh _].
      assert (N : omap env (own_params n b) = None).
      { destruct (omap env (own_params n b)) as [o|] eqn:Eo; auto. destruct (omap_In env _ p Eo Ho) as (y & Hy). congruence. }
      unfold beval, callb. destruct v as [c|b'|b']; cbn in Hb; try discriminate; assert (b' = b) by congruence; subst b'; rewrite (route_shape Sh), N; reflexivity.
Qed.
End Sum.
End Eval.
