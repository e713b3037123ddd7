(** * wraparound: the result is the Bloch sum. *)
From Coq Require Import List Bool Arith Lia Permutation.
From Verif Require Import BuilderModel BuilderSpec BuilderProofs BuilderInv BuilderReach BuilderMain BuilderProps CopyProofs SystemModel SystemSpec SystemMain
  ParamModel SubstModel SubstProofs PeierlsModel PeierlsProofs WrapModel WrapSpec WrapEval WrapSym WrapDict.
Import ListNotations.
Set Implicit Arguments.
Local Open Scope nat_scope.

Lemma osum_flat2 (C : Type) (add : C -> C -> C) (zero : C) (add_assoc : forall a b c, add a (add b c) = add (add a b) c) (add_0 : forall a, add zero a = a)
  (A B : Type) (E : B -> option C) (F : A -> list B) (G : A -> list (option C)) l :
  (forall t, In t l -> osum add zero (map E (F t)) = osum add zero (G t)) ->
  osum add zero (map E (flat_map F l)) = osum add zero (flat_map G l).
Proof.
  induction l as [|t l IH]; intros H; cbn [flat_map map]; [reflexivity|]. rewrite map_app, !(osum_app add zero add_assoc add_0).
  f_equal; [apply H; left; auto|apply IH; intros; apply H; right; auto].
Qed.
Lemma NoDup_flat (A B : Type) (f : A -> list B) l : (forall t, In t l -> NoDup (f t)) ->
  ForallOrdPairs (fun p q => forall g, In g (f p) -> ~ In g (f q)) l -> NoDup (flat_map f l).
Proof.
  intros N O. induction O as [|t l HF HX IH]; cbn; [constructor|].
  assert (NT : NoDup (f t)) by (apply N; left; auto). assert (NL : NoDup (flat_map f l)) by (apply IH; intros; apply N; right; auto).
  assert (D : forall g, In g (f t) -> ~ In g (flat_map f l)).
  { intros g Hg Q. apply in_flat_map in Q. destruct Q as (t' & Ht' & Q). rewrite Forall_forall in HF. exact (HF t' Ht' g Hg Q). }
  clear - NT NL D. induction NT as [|x r Hx NT IH]; cbn; auto. constructor; [|apply IH; intros; apply D; right; auto].
  rewrite in_app_iff. intros [?|?]; [contradiction|]. apply (D x); [left|]; auto.
Qed.

Section Main.
Variables site obj name C Ph : Type.
Variable dec : forall a b : site, {a = b} + {a <> b}.
Variables S R W : Symmetry site.
Variable pW : elt S -> elt W.
Hypothesis LS : SymLaws S.
Hypothesis LR : SymLaws R.
Hypothesis LW : SymLaws W.
Hypothesis SP : splits S R W pW.
Variable conj : C -> C.
Variable add : C -> C -> C.
Variable zero : C.
Variable scal : Ph -> C -> C.
Variable conjP : Ph -> Ph.
Variable bloch : elt W -> list (arg site obj) -> Ph.
Variable ndec : forall a b : name, {a = b} + {a <> b}.
Variable P : pyfuns site obj name C.
Variables site0 site1 : name.
Variable momenta : list name.
Variable argsort : list (list name) -> list nat.
Hypothesis argsort_perm : forall l, Permutation (argsort l) (seq 0 (length l)).
Hypothesis add_comm : forall a b, add a b = add b a.
Hypothesis add_assoc : forall a b c, add a (add b c) = add (add a b) c.
Hypothesis add_0 : forall a, add zero a = a.
Hypothesis conj_add : forall a b, conj (add a b) = add (conj a) (conj b).
Hypothesis conj_conj : forall a, conj (conj a) = a.
Hypothesis conj_0 : conj zero = zero.
Hypothesis conj_scal : forall p c, conj (scal p c) = scal (conjP p) (conj c).
Hypothesis scal_0 : forall p, scal p zero = zero.
Hypothesis mom_ne : momenta <> [].
Hypothesis s01 : site0 <> site1.
Variable env : name -> option obj.
Variable ks : list obj.
Hypothesis Hks : omap env momenta = Some ks.
Notation kargs := (@kargs site obj ks).
Hypothesis bloch_0 : forall c, scal (bloch (e0 W) kargs) c = c.
Hypothesis bloch_neg : forall g, bloch (eneg W g) kargs = conjP (bloch g kargs).
Notation val := (val C P).
Notation bfun := (bfun W P).
Notation bval := (BuilderModel.val C bfun).
Notation wfun := (wfun W P).
Notation pairdec := (pairdec dec).
Notation b_params := (@b_params site obj name C W P site0 site1 momenta).
Notation own_params := (@own_params site obj name C W P site0 site1 momenta).
Notation b_call := (@b_call site obj name C Ph W conj add scal bloch P momenta).
Notation wfuns := (@wfuns site obj name C Ph W conj add zero scal bloch ndec P site0 site1 momenta argsort).
Notation dom := (@dom site S W pW).
Notation wa := (@wa site S W pW).
Notation proper := (@proper site S W pW).
Notation entry := (site * site * val)%type.
Notation key := (@key site obj name C S R W pW P).
Notation rkey := (@rkey site obj name C S R W pW P).
Notation edom := (@edom site obj name C S W pW P).
Notation onsite_t := (@onsite_t site obj name C S W pW P).
Notation hop_val := (@hop_val site obj name C S W pW P).
Notation site_val := (@site_val site obj name C W P).
Notation rev_val := (@rev_val site obj name C W conj P).
Notation contribH := (@contribH site obj name C dec S R W pW conj P).
Notation contribS := (@contribS site obj name C dec S R W pW P).
Notation osum := (@osum C add zero).
Notation oadd := (oadd add).
Notation c1 := (@call1 site obj name C P env).
Notation c2 := (@call2 site obj name C P env).
Notation c1' := (@call1 site obj name C wfuns env).
Notation c2' := (@call2 site obj name C wfuns env).
Notation callb := (@callb site obj name C Ph W conj add scal bloch P site0 site1 momenta env).
Notation beval := (@beval site obj name C Ph W conj add scal bloch P site0 site1 momenta env).
Notation shape := (@shape site obj name C W P site0 site1 momenta).
Notation site_sig := (@site_sig site obj name C W P site0 site1 momenta).
Notation hop_sig := (@hop_sig site obj name C dec S W pW P site0 site1 momenta).
Notation es := (@eval_site site S C P c1).
Notation eh := (@eval_hop site S C conj P c2).
Notation es' := (@eval_site site R C wfun c1').
Notation eh' := (@eval_hop site R C conj wfun c2').

(** Value functions do not distinguish sites related by a kept translation. *)
Hypothesis inv1 : forall v r s, c1 v (act R r s) = c1 v s.
Hypothesis inv2 : forall f r a b, c2 f (act R r a) (act R r b) = c2 f a b.

(** The value of a hopping of the old builder, with the phase *)
Definition u (t : entry) : option C := option_map (scal (bloch (edom t) kargs)) (eh (snd t) (fst (fst t)) (snd (fst t))).

(** *** Signatures *)
Lemma shape_hop e v : NoDup (b_params (BindHop W P e v)) -> shape 2 (BindHop W P e v).
Proof.
  intros N. unfold WrapEval.shape. unfold WrapModel.own_params. cbn [WrapModel.b_params] in *. cbn [app skipn]. rewrite (takeN_app mom_ne). split.
  - exists [site0; site1]. auto.
  - intros p Hp. cbn. inversion N as [|? ? A N']; subst. inversion N' as [|? ? B N'']; subst. cbn in A. rewrite in_app_iff in A, B. intros [<-|[<-|[]]]; tauto.
Qed.
Lemma shape_hopsite e v : NoDup (b_params (BindHopSite W P e v)) -> shape 1 (BindHopSite W P e v).
Proof.
  intros N. unfold WrapEval.shape. unfold WrapModel.own_params. cbn [WrapModel.b_params] in *. cbn [app skipn]. rewrite (takeN_app mom_ne). split.
  - exists [site0]. auto.
  - intros p Hp. cbn. inversion N as [|? ? A N']; subst. cbn in A. rewrite in_app_iff in A. intros [<-|[]]. tauto.
Qed.
(** Onsite functions take the site as their first argument and have no other
    parameter called _site0. *)
Definition site_pars (v : val) : Prop :=
  match v with VConst _ _ => True | _ => exists p ps, val_params P v = p :: ps /\ ~ In site0 ps end.
Lemma shape_site v : match v with VConst _ _ => False | _ => True end -> site_pars v -> shape 1 (BindSite W P v).
Proof.
  intros Hc H. assert (E : exists p ps, val_params P v = p :: ps /\ ~ In site0 ps) by (destruct v; [destruct Hc|exact H|exact H]).
  destruct E as (p & ps & E & N). unfold WrapEval.shape. unfold WrapModel.own_params. cbn [WrapModel.b_params]. rewrite E. cbn [app skipn]. rewrite (takeN_app mom_ne). split.
  - exists [p]. auto.
  - intros q Hq. cbn. intros [<-|[]]. contradiction.
Qed.

(** *** Evaluation of the bound functions *)
Lemma hop_call e v x y : NoDup (b_params (BindHop W P e v)) -> plain v ->
  callb 2 (BindHop W P e v) [x; y] =
  option_map (scal (bloch e kargs)) (match v with VConst _ c => Some c | VFun _ f => c2 f x (act W e y) | VHC _ f => None end).
Proof.
  intros N Pl. unfold WrapEval.callb. rewrite (route_shape _ Hks (shape_hop N)). 
  assert (O : own_params 2 (BindHop W P e v) = skipn 2 (val_params P v)) by (unfold WrapModel.own_params; cbn [WrapModel.b_params app skipn]; rewrite (takeN_app mom_ne); reflexivity).
  rewrite O. destruct v as [c|f|f]; [| |destruct Pl]; cbn [val_params].
  - cbn [skipn omap map app b_call WrapModel.b_call]. pose proof (@drop_app site obj name momenta mom_ne env ks Hks []) as DA; cbn [app] in DA; rewrite DA. reflexivity.
  - unfold call2, ParamModel.route. destruct (omap env (skipn 2 (pf_params P f))) as [l|]; [|reflexivity]. cbn [map app WrapModel.b_call option_map].
    rewrite (drop_app mom_ne env Hks), (take_app mom_ne env Hks). cbn [val_or_call val_call]. destruct (pf_call P f _); reflexivity.
Qed.
Lemma hopsite_call e v x : NoDup (b_params (BindHopSite W P e v)) -> plain v ->
  callb 1 (BindHopSite W P e v) [x] =
  (let w := option_map (scal (bloch e kargs)) (match v with VConst _ c => Some c | VFun _ f => c2 f x (act W e x) | VHC _ f => None end) in
   oadd w (option_map conj w)).
Proof.
  intros N Pl. unfold WrapEval.callb. rewrite (route_shape _ Hks (shape_hopsite N)). 
  assert (O : own_params 1 (BindHopSite W P e v) = skipn 2 (val_params P v)) by (unfold WrapModel.own_params; cbn [WrapModel.b_params app skipn]; rewrite (takeN_app mom_ne); reflexivity).
  rewrite O. destruct v as [c|f|f]; [| |destruct Pl]; cbn [val_params].
  - cbn [skipn omap map app b_call WrapModel.b_call]. pose proof (@drop_app site obj name momenta mom_ne env ks Hks []) as DA; cbn [app] in DA; rewrite DA. reflexivity.
  - unfold call2, ParamModel.route. destruct (omap env (skipn 2 (pf_params P f))) as [l|]; [|reflexivity]. cbn [map app WrapModel.b_call option_map].
    rewrite (drop_app mom_ne env Hks), (take_app mom_ne env Hks). cbn [val_or_call val_call]. destruct (pf_call P f _); reflexivity.
Qed.
Lemma site_call v x : match v with VConst _ _ => False | _ => True end -> site_pars v -> callb 1 (BindSite W P v) [x] = c1 v x.
Proof.
  intros Hc H. unfold WrapEval.callb. rewrite (route_shape _ Hks (shape_site v Hc H)).
  assert (E : exists p ps, val_params P v = p :: ps /\ ~ In site0 ps) by (destruct v; [destruct Hc|exact H|exact H]).
  destruct E as (p & ps & E & N).
  assert (O : own_params 1 (BindSite W P v) = ps) by (unfold WrapModel.own_params; cbn [WrapModel.b_params]; rewrite E; cbn [app skipn]; rewrite (takeN_app mom_ne); reflexivity).
  rewrite O. destruct v as [c|f|f]; [destruct Hc| |].
  - cbn [val_params] in E. cbn [call1]. unfold ParamModel.route. rewrite E. cbn [skipn]. destruct (omap env ps) as [l|]; [|reflexivity].
    cbn [map app WrapModel.b_call val_call1 option_map]. rewrite (take_app mom_ne env Hks). reflexivity.
  - cbn [call1]. destruct (omap env ps); reflexivity.
Qed.

(** [t]: an entry of the old builder *)
Definition good (t : entry) : Prop :=
  fst (fst t) <> snd (fst t) /\ in_fd S (fst (fst t)) = true /\ plain (snd t) /\ hop_sig t.

Lemma good_proper t : good t -> proper (fst (fst t)).
Proof. intros (_ & F & _). apply proper_fd with (R := R); auto. apply in_fd_iff; auto. Qed.
Lemma eh_good t : good t -> eh (snd t) (fst (fst t)) (snd (fst t)) =
  match snd t with VConst _ c => Some c | VFun _ f => c2 f (fst (fst t)) (snd (fst t)) | VHC _ f => None end.
Proof.
  intros (_ & F & Pl & _). unfold eval_hop. pose proof (to_fd2_id LS _ (snd (fst t)) F) as E. unfold to_fd2 in E. injection E as E1 E2.
  destruct (snd t); [reflexivity| |destruct Pl]. rewrite E1, E2. reflexivity.
Qed.
(** The hopping function, called with any translated pair *)
Lemma hop_val_eval t x y : good t -> ~ onsite_t t -> same_hop R (fst (fst t)) (wa (snd (fst t))) x y -> beval 2 [x; y] (hop_val t) = u t.
Proof.
  intros G O (r & -> & ->). unfold u. rewrite (eh_good G). destruct G as (_ & F & Pl & Sg). unfold WrapDict.hop_sig in Sg.
  destruct (dec _ _) as [?|_]; [contradiction|]. unfold WrapDict.hop_val. destruct (hop_bound _ _ _ _ t) eqn:E.
  - cbn [WrapEval.beval]. rewrite hop_call by auto. f_equal. destruct (snd t) as [c|f|f]; auto. unfold WrapDict.edom. rewrite <- (act_RW LS SP), (@wa_back site S W pW LW). apply inv2.
  - unfold hop_bound in E. apply orb_false_iff in E. destruct E as [E1 E2]. destruct (snd t) as [c|f|f]; try discriminate. cbn [WrapEval.beval option_map].
    apply negb_false_iff in E1. apply (law_is0 LW) in E1. rewrite E1, bloch_0. reflexivity.
Qed.
Lemma rev_val_eval x y v : (forall b, v <> VHC C b) -> beval 2 [x; y] (rev_val v) = option_map conj (beval 2 [y; x] v).
Proof. destruct v as [c|b|b]; intros H; cbn; auto. exfalso. apply (H b). reflexivity. Qed.
Lemma hop_val_nohc t b : hop_val t <> VHC C b.
Proof. unfold WrapDict.hop_val. destruct (hop_bound _ _ _ _ t); [discriminate|]. destruct (snd t); discriminate. Qed.

(** *** Sums *)
Definition T (x y : site) (t : entry) : list (option C) :=
  (if pairdec (to_fd2 R x y) (key t) then [u t] else []) ++
  (if pairdec (to_fd2 R x y) (rkey t) then [option_map conj (u t)] else []).

Lemma not_onsite_fd x y t : x <> y -> to_fd2 R x y = key t \/ to_fd2 R x y = rkey t -> ~ onsite_t t.
Proof.
  intros n E O. apply (to_fd2_neq LR) in n. destruct E as [E|E]; rewrite E in n; apply n; unfold WrapDict.key, WrapDict.rkey; rewrite <- O; reflexivity.
Qed.
Lemma T_swap x y t : osum (T y x t) = option_map conj (osum (T x y t)).
Proof.
  unfold T. assert (E : to_fd2 R y x = sw R (to_fd2 R x y)) by (symmetry; apply (sw_fd2 LR)).
  assert (A : (if pairdec (to_fd2 R y x) (key t) then [u t] else []) = (if pairdec (to_fd2 R x y) (rkey t) then [u t] else [])).
  { destruct (pairdec (to_fd2 R y x) (key t)) as [e|n], (pairdec (to_fd2 R x y) (rkey t)) as [e'|n']; auto; exfalso.
    - apply n'. rewrite <- (@sw_key site obj name C S R W pW LR P), <- e, (sw_fd2 LR). reflexivity.
    - apply n. rewrite E, e', (@sw_rkey site obj name C S R W pW LR P). reflexivity. }
  assert (B : (if pairdec (to_fd2 R y x) (rkey t) then [option_map conj (u t)] else []) = (if pairdec (to_fd2 R x y) (key t) then [option_map conj (u t)] else [])).
  { destruct (pairdec (to_fd2 R y x) (rkey t)) as [e|n], (pairdec (to_fd2 R x y) (key t)) as [e'|n']; auto; exfalso.
    - apply n'. rewrite <- (@sw_rkey site obj name C S R W pW LR P), <- e, (sw_fd2 LR). reflexivity.
    - apply n. rewrite E, e', (@sw_key site obj name C S R W pW LR P). reflexivity. }
  rewrite A, B, !(osum_app add zero add_assoc add_0), (oadd_comm add add_comm).
  destruct (pairdec (to_fd2 R x y) (key t)), (pairdec (to_fd2 R x y) (rkey t)); destruct (u t) as [c|]; cbn; rewrite ?conj_0, ?conj_add, ?conj_conj, ?conj_0; reflexivity.
Qed.
Lemma T_swap_l x y l : osum (flat_map (T y x) l) = option_map conj (osum (flat_map (T x y) l)).
Proof.
  induction l as [|t l IH]; cbn [flat_map]; [cbn; rewrite conj_0; reflexivity|]. rewrite !(osum_app add zero add_assoc add_0), IH, T_swap.
  destruct (osum (T x y t)), (osum (flat_map (T x y) l)); cbn; rewrite ?conj_add; reflexivity.
Qed.
Lemma fd_hop a b x y : to_fd2 R x y = to_fd2 R a b -> same_hop R a b x y.
Proof. intros E. apply (same_hop_fd LR). exact E. Qed.

Lemma contribH_eval K l : (forall t, In t l -> good t) -> K = to_fd2 R (fst K) (snd K) -> fst K <> snd K ->
  osum (map (beval 2 [fst K; snd K]) (flat_map (contribH K) l)) = osum (flat_map (T (fst K) (snd K)) l).
Proof.
  intros G F n. apply osum_flat2; auto. intros t Ht. specialize (G t Ht). unfold WrapDict.contribH, T. rewrite <- F.
  destruct (dec (fst (fst t)) (wa (snd (fst t)))) as [o|o].
  - destruct (pairdec K (key t)) as [e|_]; [exfalso; apply (@not_onsite_fd (fst K) (snd K) t n); [left; rewrite <- F; exact e|exact o]|].
    destruct (pairdec K (rkey t)) as [e|_]; [exfalso; apply (@not_onsite_fd (fst K) (snd K) t n); [right; rewrite <- F; exact e|exact o]|]. reflexivity.
  - assert (NK : key t <> rkey t) by (apply (to_fd2_flip LR); exact o).
    destruct (pairdec (key t) K) as [e|n1]; [|destruct (pairdec (rkey t) K) as [e|n2]].
    + destruct (pairdec K (key t)) as [_|]; [|congruence]. destruct (pairdec K (rkey t)) as [|_]; [congruence|].
      rewrite app_nil_r. cbn [map]. f_equal. f_equal. apply hop_val_eval; auto. apply fd_hop. rewrite <- F. auto.
    + destruct (pairdec K (key t)) as [|_]; [congruence|]. destruct (pairdec K (rkey t)) as [_|]; [|congruence]. cbn [map app]. f_equal. f_equal.
      rewrite rev_val_eval by apply hop_val_nohc. f_equal. apply hop_val_eval; auto. apply same_hop_swap. apply fd_hop. rewrite <- F. auto.
    + destruct (pairdec K (key t)) as [|_]; [congruence|]. destruct (pairdec K (rkey t)) as [|_]; [congruence|]. reflexivity.
Qed.
Lemma contribS_eval x l : (forall t, In t l -> good t) -> in_fd R x = true ->
  osum (map (beval 1 [x]) (flat_map (contribS x) l)) = osum (flat_map (T x x) l).
Proof.
  intros G F. assert (Fx : to_fd2 R x x = (x, x)) by (apply (to_fd2_id LR); exact F).
  apply osum_flat2; auto. intros t Ht. specialize (G t Ht). unfold WrapDict.contribS, T. rewrite Fx.
  destruct (dec (fst (fst t)) (wa (snd (fst t)))) as [o|o].
  - assert (K1 : key t = (to_fd R (fst (fst t)), to_fd R (fst (fst t)))) by (unfold WrapDict.key; rewrite <- o; reflexivity).
    assert (K2 : rkey t = (to_fd R (fst (fst t)), to_fd R (fst (fst t)))) by (unfold WrapDict.rkey; rewrite <- o; reflexivity).
    rewrite K1, K2. destruct (dec (to_fd R (fst (fst t))) x) as [e|n].
    + rewrite e. destruct (pairdec (x, x) (x, x)) as [_|]; [|congruence]. cbn [map app WrapEval.beval].
      assert (Sg : NoDup (b_params (BindHopSite W P (edom t) (snd t)))).
      { destruct G as (_ & _ & _ & Sg). unfold WrapDict.hop_sig in Sg. destruct (dec _ _); [exact Sg|contradiction]. }
      rewrite hopsite_call; auto; [|apply G].
      assert (E : option_map (scal (bloch (edom t) kargs)) (match snd t with VConst _ c => Some c | VFun _ f => c2 f x (act W (edom t) x) | VHC _ _ => None end) = u t).
      { unfold u. rewrite (eh_good G). f_equal. destruct (snd t) as [c|f|f]; auto. rewrite <- e. unfold to_fd, WrapDict.edom.
        rewrite <- (act_RW LS SP). replace (act W (dom (snd (fst t))) (fst (fst t))) with (snd (fst t)) by (rewrite o; symmetry; apply (@wa_back site S W pW LW)). apply inv2. }
      rewrite E. cbn zeta. unfold WrapSpec.osum. destruct (u t) as [c|]; cbn; auto. rewrite (add_comm _ zero), !add_0. rewrite (add_comm (conj c) zero), add_0. reflexivity.
    + destruct (pairdec (x, x) _) as [e|_]; [congruence|]. reflexivity.
  - assert (N1 : fst (key t) <> snd (key t)) by (apply (to_fd2_neq LR); exact o).
    assert (N2 : fst (rkey t) <> snd (rkey t)) by (apply (to_fd2_neq LR); intros Q; apply o; auto).
    destruct (pairdec (x, x) (key t)) as [e|_]; [rewrite <- e in N1; exfalso; apply N1; reflexivity|].
    destruct (pairdec (x, x) (rkey t)) as [e|_]; [rewrite <- e in N2; exfalso; apply N2; reflexivity|]. reflexivity.
Qed.

(** *** Several values for one site or hopping *)
Definition comb (n : nat) (l : list bval) : BuilderModel.val C wfun :=
  match l with [v] => liftb v | _ => VFun C (BindSum n l) end.
Notation combine_vals := (@combine_vals site obj name C W ndec P site0 site1 momenta).
Lemma combine_ok n l : (forall v b, In v l -> bval_fun v = Some b -> shape n b) -> combine_vals n l = inl (comb n l).
Proof.
  intros H. assert (OK : sum_ok ndec site0 site1 momenta n l = true).
  { unfold sum_ok. apply forallb_forall. intros v Hv. destruct (bval_fun v) as [b|] eqn:E; auto. destruct (H v b Hv E) as [(pre & E1 & Hl) _].
    rewrite E1, skipn_app, <- Hl, Nat.sub_diag, skipn_all. cbn [app skipn]. rewrite (dropN_app mom_ne). destruct (list_eq_dec ndec momenta momenta); [reflexivity|congruence]. }
  unfold WrapModel.combine_vals, comb. destruct l as [|v [|v' l]]; rewrite ?OK; reflexivity.
Qed.
Lemma osum_1 x : osum [x] = x.
Proof. destruct x; cbn; auto. rewrite add_comm, add_0. reflexivity. Qed.
Lemma es_comb x vs : in_fd R x = true -> (forall v b, In v vs -> bval_fun v = Some b -> shape 1 b /\ v = VFun C b) ->
  es' (comb 1 vs) x = osum (map (beval 1 [x]) vs).
Proof.
  intros F H. pose proof (to_fd_id LR x F) as Fx. unfold to_fd in Fx.
  assert (SUM : es' (VFun C (BindSum 1 vs)) x = osum (map (beval 1 [x]) vs)).
  { unfold eval_site. rewrite Fx. assert (HV : forall v b, In v vs -> bval_fun v = Some b -> shape 1 b /\ (1 = 1 -> v = VFun C b)) by (intros v b Hv Hb; destruct (H v b Hv Hb); auto). first [exact (@call_sum site obj name C Ph W conj add zero scal bloch ndec P site0 site1 momenta argsort argsort_perm add_comm add_assoc add_0 s01 env ks Hks 1 (or_introl eq_refl) vs HV [x] eq_refl)| symmetry; exact (@call_sum site obj name C Ph W conj add zero scal bloch ndec P site0 site1 momenta argsort argsort_perm add_comm add_assoc add_0 s01 env ks Hks 1 (or_introl eq_refl) vs HV [x] eq_refl)]. }
  destruct vs as [|v [|v' vs]]; cbn [comb]; auto. cbn [map]. rewrite osum_1. destruct v as [c|b|b]; cbn [liftb eval_site WrapEval.beval]; auto.
  - rewrite Fx. reflexivity.
  - destruct (H (VHC C b) b (or_introl eq_refl) eq_refl). discriminate.
Qed.
Lemma eh_comb x y vs : in_fd R x = true -> (forall v b, In v vs -> bval_fun v = Some b -> shape 2 b) ->
  (forall b, In (VHC C b) vs -> callb 2 b [fst (to_fd2 R y x); snd (to_fd2 R y x)] = callb 2 b [y; x]) ->
  eh' (comb 2 vs) x y = osum (map (beval 2 [x; y]) vs).
Proof.
  intros F H HC. pose proof (to_fd2_id LR x y F) as Fx. unfold to_fd2 in Fx. injection Fx as F1 F2.
  assert (SUM : eh' (VFun C (BindSum 2 vs)) x y = osum (map (beval 2 [x; y]) vs)).
  { unfold eval_hop. rewrite F1, F2. assert (HV : forall v b, In v vs -> bval_fun v = Some b -> shape 2 b /\ (2 = 1 -> v = VFun C b)) by (intros v b Hv Hb; split; [eauto|discriminate]). first [exact (@call_sum site obj name C Ph W conj add zero scal bloch ndec P site0 site1 momenta argsort argsort_perm add_comm add_assoc add_0 s01 env ks Hks 2 (or_intror eq_refl) vs HV [x; y] eq_refl)| symmetry; exact (@call_sum site obj name C Ph W conj add zero scal bloch ndec P site0 site1 momenta argsort argsort_perm add_comm add_assoc add_0 s01 env ks Hks 2 (or_intror eq_refl) vs HV [x; y] eq_refl)]. }
  destruct vs as [|v [|v' vs]]; cbn [comb]; auto. cbn [map]. rewrite osum_1. destruct v as [c|b|b]; cbn [liftb eval_hop WrapEval.beval]; auto.
  - rewrite F1, F2. reflexivity.
  - specialize (HC b (or_introl eq_refl)). cbn [fst snd to_fd2] in HC. cbn [rev app]. rewrite <- HC. reflexivity.
Qed.

(** *** The new builder *)
Notation put_sites := (@put_sites site obj name C dec R W ndec P site0 site1 momenta).
Notation put_hops := (@put_hops site obj name C dec R W ndec P site0 site1 momenta).
Lemma put_sites_eq l : (forall s vs, In (s, vs) l -> combine_vals 1 vs = inl (comb 1 vs)) -> forall ret,
  put_sites ret l = set_sites dec R ret (map (fun p => (fst p, comb 1 (snd p))) l).
Proof.
  induction l as [|[s vs] l IH]; intros H ret; cbn [WrapModel.put_sites map set_sites fst snd]; [reflexivity|].
  rewrite (H s vs (or_introl eq_refl)). cbn [rbind]. destruct (setitem dec R ret _ _) as [ret' [e|]]; [reflexivity|].
  apply IH. intros; eapply H; right; eauto.
Qed.
Lemma put_hops_eq l : (forall k vs, In (k, vs) l -> combine_vals 2 vs = inl (comb 2 vs)) -> forall ret,
  put_hops ret l = set_hops dec R ret (map (fun p => (fst p, comb 2 (snd p))) l).
Proof.
  induction l as [|[[a b] vs] l IH]; intros H ret; cbn [WrapModel.put_hops map set_hops fst snd]; [reflexivity|].
  rewrite (H (a, b) vs (or_introl eq_refl)). cbn [rbind]. destruct (setitem dec R ret _ _) as [ret' [e|]]; [reflexivity|].
  apply IH. intros; eapply H; right; eauto.
Qed.

Notation wraparound := (@wraparound site obj name C dec S R W pW conj ndec P site0 site1 momenta).
Notation rs := (@read_site site dec S C conj P).
Notation rh := (@read_hop site dec S C conj P).
Notation rs' := (@read_site site dec R C conj wfun).
Notation rh' := (@read_hop site dec R C conj wfun).

Lemma svp_fd (h : store site C P) s v : reachable dec S h -> In (s, v) (site_value_pairs h) -> in_fd S s = true.
Proof.
  intros Re Hin. apply (wf_fd (reach_WF_gen Re LS)). apply mem_true. unfold site_value_pairs in Hin. apply in_map_iff in Hin.
  destruct Hin as (p & [= <- _] & Hp). apply in_map. exact Hp.
Qed.
Lemma fd_proper s : in_fd S s = true -> proper s.
Proof. intros F. apply proper_fd with (R := R); auto. apply in_fd_iff; auto. Qed.

(** Sites of the old builder and the new cells *)
Lemma svp_cover (h : store site C P) t : reachable dec S h -> rs h t <> None -> exists s v, In (s, v) (site_value_pairs h) /\ same_site S s t /\ (proper t -> same_site R s t).
Proof.
  intros Re Ht. destruct (svp_facts LS conj Re) as (_ & _ & S3). destruct (S3 t Ht) as (s & v & Hin & Hs). exists s, v. split; auto. split; auto.
  intros Pt. apply proper_site with (pW := pW); auto. apply fd_proper. eapply svp_fd; eauto.
Qed.

Lemma wrap_struct (h : store site C P) : reachable dec S h -> (forall s v, In (s, v) (site_value_pairs h) -> site_pars v) ->
  match wraparound h with
  | inl ret => Forall (fun p => site_sig (snd p)) (site_value_pairs h) /\ Forall hop_sig (hopping_value_pairs h) /\
      reachable dec R ret /\
      (forall t, rs' ret t <> None <-> proper t /\ rs h t <> None) /\
      (forall s v t, In (s, v) (site_value_pairs h) -> same_site R s t ->
         rs' ret t = Some (comb 1 (site_val v :: flat_map (contribS (to_fd R t)) (hopping_value_pairs h)))) /\
      exists (dom' : site * site -> Prop),
        (forall K, dom' K -> K = to_fd2 R (fst K) (snd K) /\ fst K <> snd K /\
           (forall x y, to_fd2 R x y = K -> rh' ret x y = Some (comb 2 (flat_map (contribH K) (hopping_value_pairs h)))) /\
           (forall x y, to_fd2 R y x = K -> rh' ret x y = Some (hconj conj (comb 2 (flat_map (contribH K) (hopping_value_pairs h)))))) /\
        (forall x y, ~ dom' (to_fd2 R x y) -> ~ dom' (to_fd2 R y x) -> rh' ret x y = None) /\
        (forall K, dom' K \/ ~ dom' K) /\
        (forall t, In t (hopping_value_pairs h) -> ~ onsite_t t -> dom' (key t) \/ dom' (rkey t)) /\
        (forall K, dom' K -> exists t, In t (hopping_value_pairs h) /\ ~ onsite_t t /\ (K = key t \/ K = rkey t))
  | inr e => e = EValue _ /\ (Exists (fun p => ~ site_sig (snd p)) (site_value_pairs h) \/ Exists (fun t => ~ hop_sig t) (hopping_value_pairs h))
  end.
Proof.
  intros Re SPar. unfold WrapModel.wraparound. destruct (svp_facts LS conj Re) as (S1 & S2 & S3). destruct (hvp_facts LS conj Re) as (H1 & H2 & H3 & H4).
  pose proof (@wrap_sites_spec site obj name C dec R W ndec P site0 site1 momenta (site_value_pairs h) []) as WS.
  destruct (@wrap_sites site obj name C dec R W ndec P site0 site1 momenta [] (site_value_pairs h)) as [ds0|e]; cbn [rbind]; [|tauto].
  destruct WS as [SG EDS].
  assert (SR : ForallOrdPairs (fun p q => ~ same_site R (fst p) (fst q)) (site_value_pairs h)).
  { clear - S1 SP. induction S1 as [|p l HF HX IH]; constructor; auto. rewrite Forall_forall in *. intros q Hq X. apply (HF q Hq). eapply same_R_S; eauto. }
  destruct (@fold_assign_lookup site obj name C dec R W LR P (site_value_pairs h) SR []) as (N0 & L0 & M0). rewrite <- EDS in N0, L0, M0. specialize (N0 (NoDup_nil _)).
  assert (KD : forall x, In x (map fst ds0) <-> exists s v, In (s, v) (site_value_pairs h) /\ to_fd R s = x).
  { intros x. split.
    - intros Hx. destruct (in_dec dec x (map (fun p => to_fd R (fst p)) (site_value_pairs h))) as [i|n].
      + apply in_map_iff in i. destruct i as ([s v] & E & Hin). eauto.
      + exfalso. assert (Q : lookup dec x ds0 = None).
        { rewrite M0; [reflexivity|]. intros s v Hin E. apply n. apply in_map_iff. exists (s, v). auto. }
        apply lookup_None in Q. contradiction.
    - intros (s & v & Hin & <-). apply (mem_true dec). apply mem_lookup. eauto. }
  assert (A0 : forall s, in_fd S s = true -> rs h s <> None -> exists v, In (s, v) (site_value_pairs h)).
  { intros s F Hs. destruct (S3 s Hs) as (s' & v & Hin & E). exists v. apply (same_site_fd LS) in E. rewrite !(to_fd_id LS) in E; auto; [subst s'; auto|eapply svp_fd; eauto]. }
  assert (FD : forall t, In t (hopping_value_pairs h) -> in_fd S (fst (fst t)) = true).
  { intros [[a b] v] Ht. destruct (H3 a b v Ht) as (_ & _ & _ & _ & E & _). cbn. apply (f_equal fst) in E. cbn [fst] in E. rewrite <- E. apply (in_fd_to_fd LS). }
  pose proof (@wrap_hops_spec site obj name C dec S R W pW LR conj ndec P site0 site1 momenta ds0 (hopping_value_pairs h) [] ds0 []
     (@Inv_init site obj name C dec S R W pW conj P ds0)) as WH.
  assert (WH1 : forall t, In t (hopping_value_pairs h) -> In (to_fd R (fst (fst t))) (map fst ds0)).
  { intros [[a b] v] Ht. destruct (H3 a b v Ht) as (_ & Ha & _). apply KD. cbn. destruct (A0 a (FD _ Ht) Ha) as (w & Hw). eauto. }
  specialize (WH WH1). destruct (@wrap_hops site obj name C dec S R W pW conj ndec P site0 site1 momenta ds0 [] (hopping_value_pairs h)) as [[ds dh]|e]; cbn [rbind fst snd]; [|tauto].
  destruct WH as [HG I]. cbn [app] in I. cbn [fst snd] in I.
  assert (INS : forall x vs, In (x, vs) ds -> exists s v, In (s, v) (site_value_pairs h) /\ x = to_fd R s /\ vs = site_val v :: flat_map (contribS x) (hopping_value_pairs h)).
  { intros x vs Hin. assert (NDS : NoDup (map fst ds)) by (rewrite (i_dsk I); exact N0). pose proof (In_lookup dec ds x vs NDS Hin) as E.
    assert (Hx : In x (map fst ds0)) by (rewrite <- (i_dsk I); change x with (fst (x, vs)); apply in_map; exact Hin).
    apply KD in Hx. destruct Hx as (s & v & Hs & <-). exists s, v. split; auto. split; auto. rewrite (i_ds I), (L0 s v Hs) in E. cbn [option_map app] in E. congruence. }
  assert (INH : forall K vs, In (K, vs) dh -> vs = flat_map (contribH K) (hopping_value_pairs h) /\ exists t, In t (hopping_value_pairs h) /\ ~ onsite_t t /\ (K = key t \/ K = rkey t)).
  { intros K vs Hin. pose proof (In_lookup pairdec dh K vs (i_dhn I) Hin) as E. split; [apply (i_dh I); auto|apply (i_key I _ E)]. }
  (* shapes *)
  assert (SHS : forall x vs, In (x, vs) ds -> forall v b, In v vs -> bval_fun v = Some b -> shape 1 b /\ v = VFun C b).
  { intros x vs Hin v b Hv Hb. destruct (INS x vs Hin) as (s & v0 & Hs & -> & ->). destruct Hv as [<-|Hv].
    - pose proof (SPar s v0 Hs) as SPv. destruct v0 as [c|f|f]; cbn [WrapDict.site_val bval_fun] in Hb |- *; try discriminate; injection Hb as <-; (split; [apply shape_site; [exact Logic.I|exact SPv]|reflexivity]).
    - apply in_flat_map in Hv. destruct Hv as (t & Ht & Hv). unfold WrapDict.contribS in Hv. rewrite Forall_forall in HG. specialize (HG t Ht). unfold WrapDict.hop_sig in HG.
      destruct (dec _ _); [|destruct Hv]. destruct (dec _ _); [|destruct Hv]. destruct Hv as [<-|[]]. injection Hb as <-. split; [apply shape_hopsite; exact HG|reflexivity]. }
  assert (SHV : forall t b, In t (hopping_value_pairs h) -> ~ onsite_t t -> bval_fun (hop_val t) = Some b -> shape 2 b).
  { intros t b Ht O. rewrite Forall_forall in HG. specialize (HG t Ht). unfold WrapDict.hop_sig in HG. destruct (dec _ _); [contradiction|]. unfold WrapDict.hop_val.
    destruct (hop_bound _ _ _ _ t) eqn:EB; [intros [= <-]; apply shape_hop; exact HG|]. unfold hop_bound in EB. apply orb_false_iff in EB. destruct EB as [_ EB].
    destruct (snd t); try discriminate. }
  assert (SHH : forall K vs, In (K, vs) dh -> forall v b, In v vs -> bval_fun v = Some b -> shape 2 b).
  { intros K vs Hin v b Hv Hb. destruct (INH K vs Hin) as (-> & _). apply in_flat_map in Hv. destruct Hv as (t & Ht & Hv). unfold WrapDict.contribH in Hv.
    destruct (dec _ _) as [|O]; [destruct Hv|]. destruct (pairdec _ _); [|destruct (pairdec _ _); [|destruct Hv]]; destruct Hv as [<-|[]].
    - eapply SHV; eauto.
    - apply (SHV t b Ht O). destruct (hop_val t); cbn in *; congruence. }
  rewrite put_sites_eq by (intros s vs Hin; apply combine_ok; intros v b Hv Hb; exact (proj1 (SHS s vs Hin v b Hv Hb))).
  assert (D1 : ForallOrdPairs (fun p q : site * BuilderModel.val C wfun => ~ same_site R (fst p) (fst q)) (map (fun p => (fst p, comb 1 (snd p))) ds)).
  { assert (NDS : NoDup (map fst ds)) by (rewrite (i_dsk I); exact N0). assert (FDS : forall x vs, In (x, vs) ds -> in_fd R x = true).
    { intros x vs Hin. destruct (INS x vs Hin) as (s & v & _ & -> & _). apply (in_fd_to_fd LR). }
    clear - NDS FDS LR. induction ds as [|[x vs] ds IH]; cbn; constructor.
    - apply Forall_forall. intros q Hq E. apply in_map_iff in Hq. destruct Hq as ([x' vs'] & <- & Hq). cbn in E, NDS. inversion NDS as [|? ? A B]; subst. apply A.
      apply (same_site_fd LR) in E. rewrite !(to_fd_id LR) in E; [|eapply FDS; left; reflexivity|eapply FDS; right; eauto]. subst x'. change x with (fst (x, vs')). apply in_map. auto.
    - apply IH; [cbn in NDS; inversion NDS; auto|]. intros; eapply FDS; right; eauto. }
  destruct (@set_sites_spec site dec R LR C conj wfun _ [] (r_empty _ _ _ _) D1) as (r1 & E1 & R1 & B1 & B2 & B3). rewrite E1. cbn [rbind].
  assert (RD : forall s v t, In (s, v) (site_value_pairs h) -> same_site R s t -> rs' r1 t = Some (comb 1 (site_val v :: flat_map (contribS (to_fd R t)) (hopping_value_pairs h)))).
  { intros s v t Hs Ht. apply (B2 (to_fd R t)); [|apply (same_site_sym LR); exists (eneg R (which R t)); reflexivity].
    pose proof (proj1 (same_site_fd LR s t) Ht) as E. apply in_map_iff. exists (to_fd R t, site_val v :: flat_map (contribS (to_fd R t)) (hopping_value_pairs h)). split; auto.
    apply (lookup_In dec). rewrite (i_ds I). rewrite E at 1. rewrite (L0 s v Hs). reflexivity. }
  assert (RN : forall t, rs' r1 t <> None <-> proper t /\ rs h t <> None).
  { intros t. split.
    - intros Ht. destruct (in_dec dec (to_fd R t) (map fst ds)) as [i|n].
      + apply in_map_iff in i. destruct i as ([x vs] & Ex & Hin). cbn in Ex. subst x. destruct (INS _ _ Hin) as (s & v & Hs & E & _).
        assert (Q : same_site R s t) by (apply (same_site_fd LR); auto). split.
        * destruct Q as (r & ->). apply proper_R; auto. apply fd_proper. eapply svp_fd; eauto.
        * rewrite (rs_same dec LS conj h (same_R_S SP Q)). rewrite (S2 _ _ Hs). discriminate.
      + exfalso. apply Ht. rewrite B3; [apply (@C02_empty site dec R C conj wfun t t t)|]. intros x w Hin E. apply in_map_iff in Hin. destruct Hin as ([x' vs] & [= <- _] & Hin).
        apply n. destruct (INS _ _ Hin) as (s & v & Hs & E' & _). apply (same_site_fd LR) in E. rewrite E, E'. cbn [fst]. rewrite (to_fd_id LR) by (apply (in_fd_to_fd LR)).
        rewrite <- E'. change x' with (fst (x', vs)). apply in_map. exact Hin.
    - intros [Pt Ht]. destruct (@svp_cover h t Re Ht) as (s & v & Hs & _ & Q). rewrite (RD s v t Hs (Q Pt)). discriminate. }
  assert (KF : forall K vs, In (K, vs) dh -> K = to_fd2 R (fst K) (snd K) /\ fst K <> snd K /\ rs' r1 (fst K) <> None /\ rs' r1 (snd K) <> None).
  { intros K vs Hin. destruct (INH K vs Hin) as (_ & t & Ht & O & EK). destruct t as [[a b] v]. destruct (H3 a b v Ht) as (_ & Ha & Hb & _).
    assert (PA : proper a) by (apply fd_proper; apply (FD _ Ht)). assert (PB : proper (wa b)) by (apply wa_proper with (R := R); auto).
    assert (HB : rs h (wa b) <> None).
    { destruct (sp_W SP (eneg W (dom b))) as (z & _ & Ez). unfold WrapSym.wa. rewrite Ez. rewrite (rs_same dec LS conj h (s := b)); [exact Hb|exists z; reflexivity]. }
    assert (X : forall p q, proper p -> proper q -> rs h p <> None -> rs h q <> None -> p <> q -> K = to_fd2 R p q -> K = to_fd2 R (fst K) (snd K) /\ fst K <> snd K /\ rs' r1 (fst K) <> None /\ rs' r1 (snd K) <> None).
    { intros p q Pp Pq Rp Rq N ->. split; [symmetry; exact (to_fd2_id LR _ (snd (to_fd2 R p q)) (in_fd_to_fd LR p))|]. split; [apply (to_fd2_neq LR); auto|]. cbn [fst snd to_fd2]. split; apply RN; (split; [apply proper_R; auto|]);
      destruct (sp_R SP (eneg R (which R p))) as (z & _ & Ez); rewrite Ez.
      - rewrite (rs_same dec LS conj h (s := p)); [exact Rp|exists z; reflexivity].
      - rewrite (rs_same dec LS conj h (s := q)); [exact Rq|exists z; reflexivity]. }
    unfold WrapDict.onsite_t in O. cbn in O. destruct EK as [-> | ->]; [apply (X a (wa b))|apply (X (wa b) a)]; auto. }
  rewrite put_hops_eq by (intros K vs Hin; apply combine_ok; exact (SHH K vs Hin)).
  set (lh := map (fun p : site * site * list bval => (fst p, comb 2 (snd p))) dh) in *.
  assert (INL : forall a b w, In (a, b, w) lh -> exists vs, In ((a, b), vs) dh /\ w = comb 2 vs).
  { intros a b w Hin. unfold lh in Hin. apply in_map_iff in Hin. destruct Hin as ([[a' b'] vs] & [= <- <- <-] & Hin). eauto. }
  assert (D2 : ForallOrdPairs (fun p q => ~ same_hop R (fst (fst p)) (snd (fst p)) (fst (fst q)) (snd (fst q)) /\
                             ~ same_hop R (fst (fst p)) (snd (fst p)) (snd (fst q)) (fst (fst q))) lh).
  { assert (Q : forall K vs K' vs', In (K, vs) dh -> In (K', vs') dh -> K <> K' ->
       ~ same_hop R (fst K) (snd K) (fst K') (snd K') /\ ~ same_hop R (fst K) (snd K) (snd K') (fst K')).
    { intros K vs K' vs' HK HK' N. destruct (KF K vs HK) as (F & _). destruct (KF K' vs' HK') as (F' & _). split; intros E; apply (same_hop_fd LR) in E.
      - rewrite <- F, <- F' in E. congruence.
      - rewrite <- F in E. pose proof (i_exc I K') as X. unfold sw in X. rewrite E in X. rewrite (In_lookup pairdec dh K vs (i_dhn I) HK), (In_lookup pairdec dh K' vs' (i_dhn I) HK') in X.
        specialize (X ltac:(discriminate)). discriminate. }
    pose proof (i_dhn I) as ND. unfold lh. clear - Q ND. induction dh as [|[K vs] d IH]; cbn; constructor.
    - apply Forall_forall. intros q Hq. apply in_map_iff in Hq. destruct Hq as ([K' vs'] & <- & Hq). cbn [fst snd]. apply (Q K vs K' vs'); [left; auto|right; auto|].
      cbn in ND. inversion ND as [|? ? A B]; subst. intros <-. apply A. change K with (fst (K, vs')). apply in_map. auto.
    - apply IH; [|cbn in ND; inversion ND; auto]. intros K1 v1 K2 v2 A B. apply (Q K1 v1 K2 v2); right; auto. }
  destruct (@set_hops_spec site dec R LR C conj wfun lh r1 R1 D2) as (ret & E2 & R2 & G1 & G2 & G3 & G4).
  { intros a b w Hin. destruct (INL a b w Hin) as (vs & Hv & _). destruct (KF _ _ Hv) as (_ & N & Ra & Rb). auto. }
  rewrite E2. split; auto. split; auto. split; auto. split; [intros t; rewrite G1; apply RN|]. split; [intros s v t Hs Ht; rewrite G1; eapply RD; eauto|].
  exists (fun K => lookup pairdec K dh <> None). split; [|split; [|split; [|split]]].
  - intros K HK. destruct (lookup pairdec K dh) as [vs|] eqn:E; [|contradiction]. apply (lookup_In pairdec) in E. destruct (KF K vs E) as (F & N & _). destruct (INH K vs E) as (Ev & _).
    assert (IL : In (fst K, snd K, comb 2 (flat_map (contribH K) (hopping_value_pairs h))) lh).
    { unfold lh. apply in_map_iff. exists (K, vs). destruct K. rewrite <- Ev. auto. }
    split; auto. split; auto. split.
    + intros x y Hxy. apply (G2 _ _ _ x y IL). apply (same_hop_fd LR). rewrite <- F. exact Hxy.
    + intros x y Hxy. apply (G3 _ _ _ x y IL). apply same_hop_swap. apply (same_hop_fd LR). rewrite <- F. exact Hxy.
  - intros x y Nx Ny. rewrite G4; [rewrite B1; apply (@C02_empty site dec R C conj wfun x x y)|]. intros a b w Hin. destruct (INL a b w Hin) as (vs & Hv & _).
    pose proof (In_lookup pairdec dh (a, b) vs (i_dhn I) Hv) as Lk. destruct (KF _ _ Hv) as (F & _). cbn [fst snd] in F. split; intros Q.
    + apply (same_hop_fd LR) in Q. apply Nx. rewrite Q, <- F, Lk. discriminate.
    + apply same_hop_swap in Q. apply (same_hop_fd LR) in Q. apply Ny. rewrite Q, <- F, Lk. discriminate.
  - intros K. destruct (lookup pairdec K dh); [left; discriminate|right; intros X; apply X; reflexivity].
  - intros t Ht O. apply (i_cov I); auto.
  - intros K HK. destruct (lookup pairdec K dh) as [vs|] eqn:E; [|contradiction]. apply (i_key I _ E).
Qed.

(** *** The Bloch sum *)
Definition edec (x y : elt W) : {x = y} + {x <> y}.
Proof.
  destruct (eis0 W (eadd W (eneg W x) y)) eqn:E; [left|right].
  - apply (law_is0 LW) in E. apply (e_cancel_l LW (eneg W x)). rewrite E. apply (law_negl LW).
  - intros ->. rewrite (law_negl LW) in E. assert (Q : eis0 W (e0 W) = true) by (apply (law_is0 LW); reflexivity). congruence.
Defined.

(** The value of a pair of sites of the old system, no hopping being zero. *)
Notation bvalue := (@element site dec S C P conj zero c1 c2).
Definition term (h : store site C P) (x y : site) (g : elt W) : option C :=
  option_map (scal (bloch g kargs)) (bvalue h x (act W g y)).

Lemma eh_same v a b x y : same_hop S a b x y -> eh v x y = eh v a b.
Proof.
  intros (z & -> & ->). pose proof (to_fd2_act LS z a b) as E1. pose proof (to_fd2_act LS z b a) as E2. unfold to_fd2 in E1, E2. injection E1 as A1 A2. injection E2 as B1 B2.
  destruct v; cbn [eval_hop]; rewrite ?A1, ?A2, ?B1, ?B2; reflexivity.
Qed.
Lemma eh_hconj v a b : eh (hconj conj v) b a = option_map conj (eh v a b).
Proof. apply (@eval_hop_conj site S C conj P c2 v a b conj_conj). Qed.

Section Sum.
Variable h : store site C P.
Hypothesis Re : reachable dec S h.
Variables x y : site.
Hypothesis Px : proper x.
Hypothesis Py : proper y.
Notation hvp := (hopping_value_pairs h).
Definition GG (t : entry) : list (elt W) :=
  (if pairdec (to_fd2 R x y) (key t) then [edom t] else []) ++
  (if pairdec (to_fd2 R x y) (rkey t) then [eneg W (edom t)] else []).

Lemma hvp_good t : In t hvp -> fst (fst t) <> snd (fst t) /\ proper (fst (fst t)) /\ rh h (fst (fst t)) (snd (fst t)) = Some (snd t) /\ in_fd S (fst (fst t)) = true.
Proof.
  destruct (hvp_facts LS conj Re) as (_ & _ & H3 & _). destruct t as [[a b] v]. intros Ht. destruct (H3 a b v Ht) as (N & _ & _ & _ & E & E'). cbn.
  assert (F : in_fd S a = true) by (apply (f_equal fst) in E; cbn [fst] in E; rewrite <- E; apply (in_fd_to_fd LS)). split; auto. split; [apply fd_proper; auto|]. auto.
Qed.
Lemma GG_key t g : In t hvp -> (same_hop S (fst (fst t)) (snd (fst t)) x (act W g y) <-> to_fd2 R x y = key t /\ g = edom t).
Proof.
  intros Ht. destruct (hvp_good t Ht) as (_ & Pa & _). rewrite (hop_fwd LS LW SP) by auto. rewrite (same_hop_fd LR). unfold WrapDict.key, WrapDict.edom. tauto.
Qed.
Lemma GG_rkey t g : In t hvp -> (same_hop S (snd (fst t)) (fst (fst t)) x (act W g y) <-> to_fd2 R x y = rkey t /\ g = eneg W (edom t)).
Proof.
  intros Ht. destruct (hvp_good t Ht) as (_ & Pa & _). rewrite (hop_bwd LS LW SP) by auto. rewrite (same_hop_fd LR). unfold WrapDict.rkey, WrapDict.edom. tauto.
Qed.
Lemma GG_In t g : In t hvp -> (In g (GG t) <-> same_hop S (fst (fst t)) (snd (fst t)) x (act W g y) \/ same_hop S (snd (fst t)) (fst (fst t)) x (act W g y)).
Proof.
  intros Ht. rewrite GG_key, GG_rkey by auto. unfold GG. rewrite in_app_iff.
  destruct (pairdec (to_fd2 R x y) (key t)), (pairdec (to_fd2 R x y) (rkey t)); cbn [In]; split; intros Q; repeat match goal with H : _ \/ _ |- _ => destruct H | H : _ /\ _ |- _ => destruct H | H : False |- _ => destruct H end; subst; auto; try contradiction.
Qed.
Lemma term_key t : In t hvp -> to_fd2 R x y = key t -> term h x y (edom t) = u t.
Proof.
  intros Ht E. assert (Q : same_hop S (fst (fst t)) (snd (fst t)) x (act W (edom t) y)) by (apply GG_key; auto).
  destruct (hvp_good t Ht) as (N & _ & Hv & _). unfold term, u, element. destruct (dec x (act W (edom t) y)) as [e|_].
  - exfalso. destruct Q as (z & Q1 & Q2). apply N. rewrite Q1, Q2 in e. apply (act_inj LS) in e. exact e.
  - rewrite (rh_same dec LS conj h Q), Hv, (eh_same _ Q). reflexivity.
Qed.
Lemma term_rkey t : In t hvp -> to_fd2 R x y = rkey t -> term h x y (eneg W (edom t)) = option_map conj (u t).
Proof.
  intros Ht E. assert (Q : same_hop S (snd (fst t)) (fst (fst t)) x (act W (eneg W (edom t)) y)) by (apply GG_rkey; auto).
  destruct (hvp_good t Ht) as (N & _ & Hv & _). unfold term, u, element. destruct (dec x (act W (eneg W (edom t)) y)) as [e|_].
  - exfalso. destruct Q as (z & Q1 & Q2). apply N. rewrite Q1, Q2 in e. apply (act_inj LS) in e. auto.
  - rewrite (rh_same dec LS conj h Q), (@C01_hermitian site dec S LS C conj P conj_conj h Re (fst (fst t)) (snd (fst t))), Hv. cbn [option_map].
    rewrite (eh_same _ Q), eh_hconj, bloch_neg. destruct (eh _ _ _); cbn; [rewrite conj_scal|]; reflexivity.
Qed.
Lemma GG_T t : In t hvp -> map (term h x y) (GG t) = T x y t.
Proof.
  intros Ht. unfold GG, T. rewrite map_app. destruct (pairdec (to_fd2 R x y) (key t)) as [e|], (pairdec (to_fd2 R x y) (rkey t)) as [e'|]; cbn [map app];
    rewrite ?term_key, ?term_rkey; auto.
Qed.
Lemma GG_zero t : In t hvp -> x = y -> ~ In (e0 W) (GG t).
Proof.
  intros Ht E Hg. apply GG_In in Hg; auto. destruct (hvp_good t Ht) as (N & _). rewrite (law_act0 LW), E in Hg.
  destruct Hg as [(z & Q1 & Q2)|(z & Q1 & Q2)]; apply N; apply (act_inj LS) with (g := z); congruence.
Qed.
Lemma GG_nodup : NoDup ((if dec x y then [e0 W] else []) ++ flat_map GG hvp).
Proof.
  assert (NF : NoDup (flat_map GG hvp)).
  { apply NoDup_flat.
    - intros t Ht. unfold GG. destruct (pairdec (to_fd2 R x y) (key t)) as [e|], (pairdec (to_fd2 R x y) (rkey t)) as [e'|]; cbn [app]; try (repeat constructor; intros []; fail).
      constructor; [|constructor; [intros []|constructor]]. intros [Q|[]]. assert (Z : edom t = e0 W) by (apply (law_tors LW); rewrite <- Q at 1; apply (law_negl LW)).
      destruct (hvp_good t Ht) as (N & _). assert (O : fst (fst t) = wa (snd (fst t))).
      { destruct (dec (fst (fst t)) (wa (snd (fst t)))); auto. exfalso. apply (to_fd2_flip LR n). unfold WrapDict.key in e. unfold WrapDict.rkey in e'. congruence. }
      apply N. rewrite O. unfold WrapSym.wa. unfold WrapDict.edom in Z. rewrite Z, (e_neg0 LW), (law_act0 LW). reflexivity.
    - destruct (hvp_facts LS conj Re) as (_ & H2 & _). assert (IN : forall t, In t hvp -> In t hvp) by auto. revert IN H2. generalize hvp at 1 3 4. intros l IN H2.
      induction l as [|t l IH]; constructor.
      + cbn in H2. inversion H2 as [|? ? HF HX]; subst. rewrite Forall_forall in *. intros t' Ht' g Hg Hg'. destruct (HF (fst t') (in_map fst _ _ Ht')) as [N1 N2].
        apply GG_In in Hg; [|apply IN; left; auto]. apply GG_In in Hg'; [|apply IN; right; auto].
        destruct Hg as [Hg|Hg], Hg' as [Hg'|Hg']; pose proof (same_hop_trans LS Hg (same_hop_sym LS Hg')) as Q; try tauto; apply same_hop_swap in Q; tauto.
      + apply IH; [intros; apply IN; right; auto|]. cbn in H2. inversion H2; auto. }
  destruct (dec x y) as [e|n]; auto. cbn. constructor; auto. intros Q. apply in_flat_map in Q. destruct Q as (t & Ht & Q). exact (GG_zero t Ht e Q).
Qed.

Lemma bloch_sum G : NoDup G -> (forall g, x = act W g y \/ rh h x (act W g y) <> None -> In g G) ->
  osum (map (term h x y) G) =
  oadd (if dec x y then match rs h x with Some v => es v x | None => Some zero end else Some zero) (osum (flat_map (T x y) hvp)).
Proof.
  intros NG Cov. rewrite (@osum_support C add zero add_comm add_assoc add_0 (elt W) edec (term h x y) G _ NG GG_nodup).
  - rewrite map_app, (osum_app add zero add_assoc add_0). f_equal.
    + destruct (dec x y) as [e|n]; [|reflexivity]. cbn [map]. rewrite osum_1. unfold term, element. rewrite (law_act0 LW). destruct (dec x y); [|contradiction].
      destruct (match rs h x with Some v => es v x | None => Some zero end); cbn; [rewrite bloch_0|]; reflexivity.
    + assert (Q : map (term h x y) (flat_map GG hvp) = flat_map (T x y) hvp); [|rewrite Q; reflexivity].
      assert (IN : forall t, In t hvp -> In t hvp) by auto. revert IN. generalize hvp at 1 3 4. intros l IN. induction l as [|t l IH]; [reflexivity|].
      cbn [flat_map]. rewrite map_app, GG_T, IH; auto; [intros; apply IN; right; auto|apply IN; left; auto].
  - intros g Hg. apply Cov. apply in_app_iff in Hg. destruct Hg as [Hg|Hg].
    + destruct (dec x y); [|destruct Hg]. destruct Hg as [<-|[]]. left. rewrite (law_act0 LW). auto.
    + right. apply in_flat_map in Hg. destruct Hg as (t & Ht & Hg). apply GG_In in Hg; auto. destruct (hvp_good t Ht) as (_ & _ & Hv & _). destruct Hg as [Hg|Hg]; rewrite (rh_same dec LS conj h Hg).
      * rewrite Hv. discriminate.
      * rewrite (@C01_hermitian site dec S LS C conj P conj_conj h Re (fst (fst t)) (snd (fst t))), Hv. discriminate.
  - intros g _ Hg. rewrite in_app_iff in Hg. unfold term, element. destruct (dec x (act W g y)) as [e|n].
    + exfalso. apply Hg. left. destruct (hop_same LS LW SP g Px Py e) as [-> ->]. destruct (dec y y); [left; reflexivity|congruence].
    + destruct (rh h x (act W g y)) as [v|] eqn:E; [|cbn; rewrite scal_0; reflexivity]. exfalso. apply Hg. right. destruct (hvp_facts LS conj Re) as (_ & _ & _ & H4).
      destruct (H4 x (act W g y)) as (a & b & w & Ht & Q); [congruence|]. apply in_flat_map. exists (a, b, w). split; auto. apply GG_In; auto.
Qed.
End Sum.

(** *** Everything together *)
Lemma wrap_value h ret : reachable dec S h -> (forall s v, In (s, v) (site_value_pairs h) -> site_pars v) -> wraparound h = inl ret ->
  forall x y G, proper x -> proper y -> rs h x <> None -> NoDup G -> (forall g, x = act W g y \/ rh h x (act W g y) <> None -> In g G) ->
  (x = y -> exists w, rs' ret x = Some w /\ es' w x = osum (map (term h x y) G)) /\
  (x <> y -> match rh' ret x y with
             | Some w => eh' w x y = osum (map (term h x y) G)
             | None => forall g, rh h x (act W g y) = None
             end) /\
  (x <> y -> rh' ret x y <> None -> exists g, rh h x (act W g y) <> None).
Proof.
  intros Re SPar E x y G Px Py Hx NG Cov. pose proof (wrap_struct Re SPar) as WS. rewrite E in WS.
  destruct WS as (SG & HG & Rr & _ & RS & dm & D1 & D2 & D3 & D4 & D5). rewrite Forall_forall in HG.
  assert (GD : forall t, In t (hopping_value_pairs h) -> good t).
  { intros t Ht. destruct (hvp_good Re t Ht) as (N & _ & _ & F). split; auto. split; auto. split; auto.
    destruct (hvp_facts LS conj Re) as (_ & _ & H3 & _). destruct t as [[a b] v]. apply (H3 a b v Ht). }
  rewrite (bloch_sum Re Px Py NG Cov). split; [|split].
  - intros <-. destruct (dec x x) as [_|]; [|congruence]. destruct (svp_cover x Re Hx) as (s & v & Hs & _ & Q). specialize (Q Px).
    eexists. split; [apply (RS s v x Hs Q)|]. destruct (svp_facts LS conj Re) as (_ & S2 & _). rewrite (rs_same dec LS conj h (same_R_S SP Q)), (S2 s v Hs).
    assert (Ex : es' (comb 1 (site_val v :: flat_map (contribS (to_fd R x)) (hopping_value_pairs h))) x = es' (comb 1 (site_val v :: flat_map (contribS (to_fd R x)) (hopping_value_pairs h))) (to_fd R x)).
    { symmetry. apply (@eval_site_act site R LR C wfun c1'). }
    rewrite Ex, es_comb.
    + cbn [map]. rewrite osum_cons. f_equal.
      * assert (F : in_fd S s = true) by (eapply svp_fd; eauto). assert (X : es v x = es v s) by (destruct (same_R_S SP Q) as (z & ->); apply (@eval_site_act site S LS C P c1)).
        rewrite X. pose proof (SPar s v Hs) as SPv. pose proof (to_fd_id LS s F) as Fs. unfold to_fd in Fs.
        assert (Y : forall v, match v with VConst _ _ => False | _ => True end -> site_pars v -> callb 1 (BindSite W P v) [to_fd R x] = c1 v s).
        { intros v' Hc Hp. rewrite (site_call v' (to_fd R x) Hc Hp). destruct Q as (r & ->). rewrite (to_fd_act LR). apply inv1. }
        destruct v as [c|f|f]; cbn [WrapDict.site_val WrapEval.beval eval_site]; rewrite ?Fs; auto; apply Y; auto.
      * rewrite contribS_eval; auto; [|apply (in_fd_to_fd LR)]. f_equal. apply flat_map_ext. intros t. unfold T. rewrite (to_fd2_id LR _ _ (in_fd_to_fd LR x)). reflexivity.
    + apply (in_fd_to_fd LR).
    + intros w b [<-|Hw] Hb.
      * pose proof (SPar s v Hs) as SPv. destruct v as [c|f|f]; cbn [WrapDict.site_val bval_fun] in Hb |- *; try discriminate; injection Hb as <-; (split; [apply shape_site; [exact Logic.I|exact SPv]|reflexivity]).
      * apply in_flat_map in Hw. destruct Hw as (t & Ht & Hw). unfold WrapDict.contribS in Hw. specialize (HG t Ht). unfold WrapDict.hop_sig in HG.
        destruct (dec _ _); [|destruct Hw]. destruct (dec _ _); [|destruct Hw]. destruct Hw as [<-|[]]. injection Hb as <-. split; [apply shape_hopsite; exact HG|reflexivity].
  - intros N. destruct (dec x y) as [|_]; [contradiction|]. rewrite (oadd_0 add zero add_0).
    assert (EV : forall K, dm K -> eh' (comb 2 (flat_map (contribH K) (hopping_value_pairs h))) (fst K) (snd K) = osum (flat_map (T (fst K) (snd K)) (hopping_value_pairs h))).
    { intros K HK. destruct (D1 K HK) as (F & NK & _). assert (FK : in_fd R (fst K) = true) by (rewrite F; apply (in_fd_to_fd LR)). rewrite eh_comb; auto.
      - apply contribH_eval; auto.
      - intros v b Hv Hb. apply in_flat_map in Hv. destruct Hv as (t & Ht & Hv). unfold WrapDict.contribH in Hv. pose proof (HG t Ht) as Sg. unfold WrapDict.hop_sig in Sg.
        destruct (dec _ _) as [|O]; [destruct Hv|]. assert (Q : bval_fun (hop_val t) = Some b).
        { destruct (pairdec _ _); [|destruct (pairdec _ _); [|destruct Hv]]; destruct Hv as [<-|[]]; auto. destruct (hop_val t); cbn in *; congruence. }
        unfold WrapDict.hop_val in Q. destruct (hop_bound _ _ _ _ t) eqn:EB; [injection Q as <-; apply shape_hop; exact Sg|]. unfold hop_bound in EB. apply orb_false_iff in EB. destruct EB as [_ EB].
        destruct (snd t); try discriminate.
      - intros b Hv. apply in_flat_map in Hv. destruct Hv as (t & Ht & Hv). unfold WrapDict.contribH in Hv. destruct (dec _ _) as [|O]; [destruct Hv|].
        assert (NH := @hop_val_nohc t). assert (Z : K = rkey t /\ hop_val t = VFun C b).
        { destruct (pairdec (key t) K) as [|]; [destruct Hv as [Hv|[]]; exfalso; eapply NH; eauto|]. destruct (pairdec (rkey t) K) as [e|]; [|destruct Hv]. destruct Hv as [Hv|[]]. split; auto.
          destruct (hop_val t) as [c|b'|b'] eqn:Eh; cbn in Hv; try discriminate; [congruence|exfalso; apply (NH b'); auto]. }
        destruct Z as [-> Z]. pose proof (@hop_val_eval t) as HV. rewrite Z in HV. cbn [WrapEval.beval] in HV. rewrite !HV; auto.
        + apply same_hop_swap. apply fd_hop. rewrite <- F. reflexivity.
        + change (to_fd2 R (snd (rkey t)) (fst (rkey t))) with (sw R (rkey t)). rewrite (@sw_rkey site obj name C S R W pW LR P). apply fd_hop.
          exact (to_fd2_id LR (fst (key t)) (snd (key t)) (in_fd_to_fd LR _)). }
    assert (TX : forall x' y', to_fd2 R x' y' = to_fd2 R x y -> flat_map (T x' y') (hopping_value_pairs h) = flat_map (T x y) (hopping_value_pairs h)).
    { intros x' y' Q. apply flat_map_ext. intros t. unfold T. rewrite Q. reflexivity. }
    destruct (D3 (to_fd2 R x y)) as [Y1|N1]; [|destruct (D3 (to_fd2 R y x)) as [Y2|N2]].
    + destruct (D1 _ Y1) as (F & _ & Q & _). rewrite (Q x y eq_refl). rewrite <- (TX (fst (to_fd2 R x y)) (snd (to_fd2 R x y))) by auto. rewrite <- (EV _ Y1).
      set (w := comb 2 _). destruct w; cbn [eval_hop]; auto.
      * pose proof F as F'. unfold to_fd2 at 2 in F'. cbn zeta. unfold to_fd2 in F. cbn [fst snd] in F. injection F as F1 F2. cbn [fst snd to_fd2]. congruence.
      * f_equal. assert (F3 : to_fd2 R (snd (to_fd2 R x y)) (fst (to_fd2 R x y)) = to_fd2 R y x) by (apply (sw_fd2 LR)). unfold to_fd2 in F3. cbn [fst snd] in F3. injection F3 as F1 F2. cbn [fst snd to_fd2]. congruence.
    + destruct (D1 _ Y2) as (F & _ & _ & Q). rewrite (Q x y eq_refl). rewrite (T_swap_l y x).
      assert (TY : flat_map (T y x) (hopping_value_pairs h) = flat_map (T (fst (to_fd2 R y x)) (snd (to_fd2 R y x))) (hopping_value_pairs h)).
      { apply flat_map_ext. intros t. unfold T. rewrite <- F. reflexivity. }
      rewrite TY, <- (EV _ Y2). set (w := comb 2 _). rewrite (@eval_hop_conj site R C conj wfun c2' w y x conj_conj). f_equal.
      destruct w; cbn [eval_hop]; auto.
      * unfold to_fd2 in F. cbn [fst snd] in F. injection F as F1 F2. cbn [fst snd to_fd2]. congruence.
      * f_equal. assert (F3 : to_fd2 R (snd (to_fd2 R y x)) (fst (to_fd2 R y x)) = to_fd2 R x y) by (apply (sw_fd2 LR)). unfold to_fd2 in F3. cbn [fst snd] in F3. injection F3 as F1 F2. cbn [fst snd to_fd2]. congruence.
    + rewrite (D2 x y N1 N2). intros g. destruct (rh h x (act W g y)) as [v|] eqn:Eg; auto. exfalso. destruct (hvp_facts LS conj Re) as (_ & _ & _ & H4).
      destruct (H4 x (act W g y)) as (a & b & w & Ht & Q); [congruence|]. pose proof (GG_key Re Px Py (a, b, w) g Ht) as K1. pose proof (GG_rkey Re Px Py (a, b, w) g Ht) as K2. cbn [fst snd] in K1, K2.
      assert (SW : forall p q K, to_fd2 R p q = K -> to_fd2 R q p = sw R K) by (intros p q K <-; symmetry; apply (sw_fd2 LR)).
      assert (OO : ~ onsite_t (a, b, w)) by (apply (not_onsite_fd N); tauto).
      destruct Q as [Q|Q]; [apply K1 in Q|apply K2 in Q]; destruct Q as [Q _]; destruct (D4 _ Ht OO) as [Z|Z].
      * apply N1. rewrite Q. exact Z.
      * apply N2. rewrite (SW _ _ _ Q), (@sw_key site obj name C S R W pW LR P). exact Z.
      * apply N2. rewrite (SW _ _ _ Q), (@sw_rkey site obj name C S R W pW LR P). exact Z.
      * apply N1. rewrite Q. exact Z.
  - intros N Hr. destruct (D3 (to_fd2 R x y)) as [Y1|N1]; [|destruct (D3 (to_fd2 R y x)) as [Y2|N2]].
    + destruct (D5 _ Y1) as (t & Ht & _ & [Q|Q]).
      * exists (edom t). rewrite (rh_same dec LS conj h (a := fst (fst t)) (b := snd (fst t))); [|apply (GG_key Re Px Py); auto]. destruct (hvp_good Re t Ht) as (_ & _ & -> & _). discriminate.
      * exists (eneg W (edom t)). rewrite (rh_same dec LS conj h (a := snd (fst t)) (b := fst (fst t))); [|apply (GG_rkey Re Px Py); auto].
        rewrite (@C01_hermitian site dec S LS C conj P conj_conj h Re (fst (fst t)) (snd (fst t))). destruct (hvp_good Re t Ht) as (_ & _ & -> & _). discriminate.
    + assert (SW : forall K, to_fd2 R y x = K -> to_fd2 R x y = sw R K) by (intros K <-; symmetry; apply (sw_fd2 LR)).
      destruct (D5 _ Y2) as (t & Ht & _ & [Q|Q]); apply SW in Q; rewrite ?(@sw_key site obj name C S R W pW LR P), ?(@sw_rkey site obj name C S R W pW LR P) in Q.
      * exists (eneg W (edom t)). rewrite (rh_same dec LS conj h (a := snd (fst t)) (b := fst (fst t))); [|apply (GG_rkey Re Px Py); auto].
        rewrite (@C01_hermitian site dec S LS C conj P conj_conj h Re (fst (fst t)) (snd (fst t))). destruct (hvp_good Re t Ht) as (_ & _ & -> & _). discriminate.
      * exists (edom t). rewrite (rh_same dec LS conj h (a := fst (fst t)) (b := snd (fst t))); [|apply (GG_key Re Px Py); auto]. destruct (hvp_good Re t Ht) as (_ & _ & -> & _). discriminate.
    + contradiction (Hr (D2 x y N1 N2)).
Qed.
End Main.
