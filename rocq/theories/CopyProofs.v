(** * Assigning many sites, then many hoppings, item by item. *)
From Coq Require Import List Bool.
From Verif Require Import BuilderModel BuilderSpec BuilderMain BuilderProps.
Import ListNotations.
Set Implicit Arguments.

Section Copy.
Variable site : Type.
Variable dec : forall a b : site, {a = b} + {a <> b}.
Variable Sy : Symmetry site.
Hypothesis L : SymLaws Sy.
Variable C : Type.
Variable conj : C -> C.
Variable F : Type.
Notation store := (store site C F).
Notation val := (val C F).
Notation setitem := (@setitem site dec Sy C F).
Notation rs := (@read_site site dec Sy C conj F).
Notation rh := (@read_hop site dec Sy C conj F).
Notation reachable := (@reachable site dec Sy C F).
Notation same_site := (same_site Sy).
Notation same_hop := (same_hop Sy).
Notation hconj := (@hconj C conj F).

Fixpoint set_sites (h : store) (l : list (site * val)) : res site store :=
  match l with
  | [] => inl h
  | (s, v) :: l => match setitem h (Simple C F (KSite s)) v with
                   | (h, None) => set_sites h l | (_, Some e) => inr e end
  end.
Fixpoint set_hops (h : store) (l : list (site * site * val)) : res site store :=
  match l with
  | [] => inl h
  | (a, b, v) :: l => match setitem h (Simple C F (KHop a b)) v with
                      | (h, None) => set_hops h l | (_, Some e) => inr e end
  end.

Lemma same_site_dec a b : {same_site a b} + {~ same_site a b}.
Proof. destruct (dec (to_fd Sy b) (to_fd Sy a)) as [e|n]; [left|right]; rewrite (same_site_fd L); auto. Qed.
Lemma same_hop_dec a b c d : {same_hop a b c d} + {~ same_hop a b c d}.
Proof.
  destruct (BuilderInv.pdec dec (to_fd2 Sy c d) (to_fd2 Sy a b)) as [e|n]; [left|right]; rewrite (same_hop_fd L); auto.
Qed.
Lemma same_site_sym a b : same_site a b -> same_site b a.
Proof. rewrite !(same_site_fd L). auto. Qed.
Lemma same_site_trans a b c : same_site a b -> same_site b c -> same_site a c.
Proof. rewrite !(same_site_fd L). congruence. Qed.
Lemma same_hop_sym a b c d : same_hop a b c d -> same_hop c d a b.
Proof. rewrite !(same_hop_fd L). auto. Qed.
Lemma same_hop_trans a b c d e f : same_hop a b c d -> same_hop c d e f -> same_hop a b e f.
Proof. rewrite !(same_hop_fd L). congruence. Qed.
Lemma same_hop_swap a b c d : same_hop a b c d -> same_hop b a d c.
Proof. intros (g & -> & ->). exists g. auto. Qed.

Lemma step_ok h o : reachable h -> enabled (abs dec Sy conj h) o ->
  snd (exec1 dec Sy h o) = None /\ effect Sy conj (abs dec Sy conj h) o (abs dec Sy conj (fst (exec1 dec Sy h o))).
Proof.
  intros R En. pose proof (@C02_step site dec Sy L C conj F h o R) as H. unfold spec_step in H.
  destruct (snd (exec1 dec Sy h o)) as [e|]; cbn in H; tauto.
Qed.

Lemma set_sites_spec : forall l h, reachable h ->
  ForallOrdPairs (fun p q => ~ same_site (fst p) (fst q)) l ->
  exists h', set_sites h l = inl h' /\ reachable h' /\ (forall x y, rh h' x y = rh h x y) /\
    (forall s v t, In (s, v) l -> same_site s t -> rs h' t = Some v) /\
    (forall t, (forall s v, In (s, v) l -> ~ same_site s t) -> rs h' t = rs h t).
Proof.
  induction l as [|[s v] l IH]; intros h R D; cbn [set_sites].
  - exists h. repeat split; auto. intros s v t [].
  - inversion D as [|? ? D1 D2]; subst.
    destruct (@step_ok h (SetSite s v) R I) as [E1 (E2 & E3 & E4)]. cbn [exec1 asite ahop abs] in *.
    pose proof (r_set (Simple C F (KSite s)) v R) as R1.
    destruct (setitem h (Simple C F (KSite s)) v) as [h1 e]. cbn [fst snd] in *. subst e.
    destruct (IH h1 R1 D2) as (h' & A1 & A2 & A3 & A4 & A5). exists h'. split; auto. split; auto.
    split; [intros; rewrite A3; apply E4|]. split.
    + intros s' v' t [[= <- <-]|Hin] Ht; [|eauto].
      rewrite A5; [apply E2; exact Ht|]. intros s' v' Hin' Hs'. rewrite Forall_forall in D1.
      apply (D1 _ Hin'). cbn. eapply same_site_trans; [exact Ht|apply same_site_sym; exact Hs'].
    + intros t Ht. rewrite A5; [|intros; apply Ht with v0; right; assumption].
      apply E3. apply Ht with v. left. reflexivity.
Qed.

Lemma set_hops_spec : forall l h, reachable h ->
  ForallOrdPairs (fun p q => ~ same_hop (fst (fst p)) (snd (fst p)) (fst (fst q)) (snd (fst q)) /\
                             ~ same_hop (fst (fst p)) (snd (fst p)) (snd (fst q)) (fst (fst q))) l ->
  (forall a b v, In (a, b, v) l -> a <> b /\ rs h a <> None /\ rs h b <> None) ->
  exists h', set_hops h l = inl h' /\ reachable h' /\ (forall t, rs h' t = rs h t) /\
    (forall a b v x y, In (a, b, v) l -> same_hop a b x y -> rh h' x y = Some v) /\
    (forall a b v x y, In (a, b, v) l -> same_hop b a x y -> rh h' x y = Some (hconj v)) /\
    (forall x y, (forall a b v, In (a, b, v) l -> ~ same_hop a b x y /\ ~ same_hop b a x y) -> rh h' x y = rh h x y).
Proof.
  induction l as [|[[a b] v] l IH]; intros h R D N; cbn [set_hops].
  - exists h. repeat split; auto; intros a b v x y [].
  - inversion D as [|? ? D1 D2]; subst.
    assert (EN : enabled (abs dec Sy conj h) (SetHop a b v)).
    { destruct (N a b v (or_introl eq_refl)) as (n & Ha & Hb). cbn. auto. }
    destruct (@step_ok h (SetHop a b v) R EN) as [E1 (E2 & E3 & E4 & E5)]. cbn [exec1 asite ahop abs] in *.
    pose proof (r_set (Simple C F (KHop a b)) v R) as R1.
    destruct (setitem h (Simple C F (KHop a b)) v) as [h1 e]. cbn [fst snd] in *. subst e.
    assert (N1 : forall a b v, In (a, b, v) l -> a <> b /\ rs h1 a <> None /\ rs h1 b <> None).
    { intros a' b' v' Hin. rewrite !E2. apply N with v'. right. exact Hin. }
    destruct (IH h1 R1 D2 N1) as (h' & A1 & A2 & A3 & A4 & A5 & A6). exists h'. split; auto. split; auto.
    rewrite Forall_forall in D1.
    assert (X : forall x y, same_hop a b x y \/ same_hop b a x y -> rh h' x y = rh h1 x y).
    { intros x y Hxy. apply A6. intros a' b' v' Hin. destruct (D1 _ Hin) as [U V]. cbn in U, V.
      assert (V' : ~ same_hop b a a' b') by (intros Q; apply V; apply same_hop_swap; exact Q).
      assert (U' : ~ same_hop b a b' a') by (intros Q; apply U; apply same_hop_swap; exact Q).
      split; intros Q; apply same_hop_sym in Q; destruct Hxy as [Hxy|Hxy]; pose proof (same_hop_trans Hxy Q); tauto. }
    split; [intros; rewrite A3; apply E2|]. split; [|split].
    + intros a' b' v' x y [[= <- <- <-]|Hin] Hxy; [|eauto]. rewrite X by auto. apply E3; exact Hxy.
    + intros a' b' v' x y [[= <- <- <-]|Hin] Hxy; [|eauto]. rewrite X by auto. apply E4; exact Hxy.
    + intros x y Hxy. rewrite A6; [|intros; apply Hxy with v0; right; assumption].
      destruct (Hxy a b v (or_introl eq_refl)). apply E5; auto.
Qed.

(** The site/value and hopping/value pairs of a builder list every orbit once. *)
Lemma NoDup_pairs A (R : A -> A -> Prop) l : NoDup l -> (forall x y, In x l -> In y l -> R x y -> x = y) ->
  ForallOrdPairs (fun x y => ~ R x y) l.
Proof.
  induction 1 as [|x l Hx ND IH]; intros H; constructor.
  - apply Forall_forall. intros y Hy Rxy. assert (x = y) by (apply H; cbn; auto). congruence.
  - apply IH. intros. apply H; cbn; auto.
Qed.
End Copy.
