(** * C39: Builder.attach_lead.

    The lead [T] has a symmetry with one direction [L]; [sub n] is its subgroup
    of index n (used when the hoppings of the lead reach farther than the next
    cell).  [order] and [sord] are arbitrary iteration orders of Python sets. *)
From Coq Require Import List Bool Arith ZArith Lia Permutation.
From Verif Require Import BuilderModel BuilderProofs BuilderSpec BuilderMain BuilderProps FillModel FillSpec FillProps
  SymmetryModel SymmetryProofs AttachModel AttachSpec AttachProofs.
Import ListNotations.
Local Open Scope Z_scope.

Section C39.
Variable site : Type.
Variable dec : forall a b : site, {a = b} + {a <> b}.
Variables C F : Type.
Variable conj : C -> C.
Variable VNone : val C F.
Variable family : site -> Z.
Variable order : nat -> list site -> list site.
Variable sord : list site -> list site.
Hypothesis Hord : forall k l, Permutation (order k l) l.
Hypothesis Hsord : forall l, Permutation (sord l) l.
Notation NS := (NoSymmetry site).
Variable L : line site.
Variable sub : Z -> line site.
Hypothesis LL : LineLaws L.
Hypothesis LS : forall n, LineLaws (sub n).
Variable phi : forall n, elt (lsym (sub n)) -> elt (lsym L).
Hypothesis Hphi : forall n g s, act (lsym (sub n)) g s = act (lsym L) (phi n g) s.
Hypothesis Hfam : forall g s, family (act (lsym L) g s) = family s.
Variables T h : store site C F.
Hypothesis RT : reachable dec (lsym L) T.
Hypothesis Rh : reachable dec NS h.
Variable origin : option site.
Variable add_cells : Z.
Notation attach_lead fuel := (attach_lead dec VNone family order sord fuel L sub T h origin add_cells).
Notation rs h s := (@read_site site dec NS C conj F h s).
Notation rh h a b := (@read_hop site dec NS C conj F h a b).
Notation read_lead at_ s := (read_site dec (lsym (a_line at_)) conj (a_lead at_) s).
Notation read_lead_hop at_ a b := (read_hop dec (lsym (a_line at_)) conj (a_lead at_) a b).
Notation lead_site at_ := (AttachSpec.lead_site dec (a_line at_) (a_lead at_)).
Notation lead_hop at_ := (AttachSpec.lead_hop dec (a_line at_) (a_lead at_)).
Notation reach at_ := (AttachSpec.reach dec (a_line at_) (a_lead at_) h).
Notation meets at_ := (AttachSpec.meets dec (a_line at_) (a_lead at_) h origin).
Notation dom at_ := (AttachModel.dom (a_line at_)).

Notation effective := (AttachSpec.effective dec L T conj sub).
(** The lead that is attached. *)
Theorem C39_lead : forall fuel h' at_, attach_lead fuel = (h', inl at_) ->
  0 <= add_cells /\ effective (a_line at_) (a_lead at_).
Proof.
  intros fuel h' at_ H. unfold AttachSpec.effective. cbv zeta. unfold AttachModel.attach_lead in H. destruct (Z.ltb_spec add_cells 0) as [|Ha]; [discriminate|]. split; auto.
  destruct (Z.ltb_spec 1 (hop_range L T)) as [Hn|Hn].
  - right. split; auto. destruct (enlarged _ _ _ _ _ _ _) as [T' [done|e]] eqn:E; [|discriminate].
    destruct (@enlarged_ok site dec C F conj VNone order Hord L (sub (hop_range L T)) LL (LS _) (phi _) (Hphi _) T RT fuel T' done E) as (R' & A1 & A2 & A3).
    assert (Hfam' : forall g s, family (act (lsym (sub (hop_range L T))) g s) = family s) by (intros; rewrite Hphi; auto).
    destruct (@core_ok site dec C F conj VNone family order sord Hord Hsord _ (LS _) Hfam' T' h R' Rh fuel origin add_cells h' at_ Ha H) as (El & Et & _).
    rewrite El, Et. split; auto. split; [exact A1|]. split; [intros s X; apply A2, A1; auto|]. intros a b X Y. apply A3; apply A1; auto.
  - left. destruct (@core_ok site dec C F conj VNone family order sord Hord Hsord L LL Hfam T h RT Rh fuel origin add_cells h' at_ Ha H) as (El & Et & _). auto.
Qed.

(** If moreover the subgroup's cells are n consecutive cells, the attached lead
    only has hoppings between neighboring cells. *)
Theorem C39_range : (forall n s, 1 < n -> AttachModel.dom (sub n) s = AttachModel.dom L s / n) ->
  forall fuel h' at_, attach_lead fuel = (h', inl at_) -> hop_range (a_line at_) (a_lead at_) <= 1.
Proof.
  intros Hd fuel h' at_ H. unfold AttachModel.attach_lead in H. destruct (Z.ltb_spec add_cells 0) as [|Ha]; [discriminate|].
  destruct (Z.ltb_spec 1 (hop_range L T)) as [Hn|Hn].
  - destruct (enlarged _ _ _ _ _ _ _) as [T' [done|e]] eqn:E; [|discriminate].
    destruct (@enlarged_ok site dec C F conj VNone order Hord L (sub (hop_range L T)) LL (LS _) (phi _) (Hphi _) T RT fuel T' done E) as (R' & _).
    assert (Hfam' : forall g s, family (act (lsym (sub (hop_range L T))) g s) = family s) by (intros; rewrite Hphi; auto).
    destruct (@core_ok site dec C F conj VNone family order sord Hord Hsord _ (LS _) Hfam' T' h R' Rh fuel origin add_cells h' at_ Ha H) as (El & Et & _).
    rewrite El, Et. apply (@enlarged_range site dec C F conj VNone order Hord L (sub (hop_range L T)) LL (LS _) (phi _) (Hphi _) T RT fuel T' done (hop_range L T) E); auto; lia.
  - destruct (@core_ok site dec C F conj VNone family order sord Hord Hsord L LL Hfam T h RT Rh fuel origin add_cells h' at_ Ha H) as (El & Et & _). rewrite El, Et. auto.
Qed.

Lemma as_core fuel h' r : attach_lead fuel = (h', r) -> 0 <= add_cells ->
  (exists L1 T1, effective L1 T1 /\ LineLaws L1 /\ (forall g s, family (act (lsym L1) g s) = family s) /\ reachable dec (lsym L1) T1 /\
     attach_core dec VNone family order sord fuel L1 T1 h origin add_cells = (h', r)) \/
  (h' = h /\ exists e, r = inr e /\ exists T', enlarged dec VNone order fuel L (sub (hop_range L T)) T = (T', inr e)).
Proof.
  intros H Ha. unfold AttachModel.attach_lead in H. destruct (Z.ltb_spec add_cells 0) as [|_]; [lia|].
  destruct (1 <? hop_range L T) eqn:En.
  - destruct (enlarged _ _ _ _ _ _ _) as [T' [done|e]] eqn:E.
    + left. exists (sub (hop_range L T)), T'.
      destruct (@enlarged_ok site dec C F conj VNone order Hord L (sub (hop_range L T)) LL (LS _) (phi _) (Hphi _) T RT fuel T' done E) as (R' & A1 & A2 & A3).
      split. { right. split; [apply Z.ltb_lt; auto|]. split; auto. split; [exact A1|]. split; [intros s X; apply A2, A1; auto|]. intros a b X Y. apply A3; apply A1; auto. }
      split; auto. split; [intros; rewrite Hphi; auto|]. auto.
    + right. inversion H; subst. split; auto. exists e. split; auto. exists T'. auto.
  - left. exists L, T. split; auto. left. split; auto. apply Z.ltb_ge; auto.
Qed.

(** Normal return.  [mx] is the last lead cell that belongs to the system, i.e.
    the last one where it has lead sites, plus add_cells; [mn] the first one.
    The added sites (returned, and stored as padding) are exactly the lead sites
    up to [mx] that can be reached from the cell after it without crossing the
    system; they get the values of the lead.  The interface consists of the
    sites in cell [mx] that hop to the next cell. *)
Theorem C39_attach : forall fuel h' at_, attach_lead fuel = (h', inl at_) ->
  reachable dec NS h' /\
  exists mx mn, is_max (meets at_) (mx - add_cells) /\ is_min (meets at_) mn /\
  interrupted dec (a_line at_) (a_lead at_) h mn mx /\
  (NoDup (a_padding at_) /\ forall s, In s (a_padding at_) <-> reach at_ mx s /\ dom at_ s <= mx) /\
  (forall s, In s (a_padding at_) ->
     lead_site at_ s /\ mn <= dom at_ s <= mx /\ rs h s = None /\ rs h' s = read_lead at_ s) /\
  (forall s, lead_site at_ s -> dom at_ s = mx + 1 -> rs h' s = None) /\
  (forall s, ~ In s (a_padding at_) -> ~ (lead_site at_ s /\ dom at_ s = mx + 1) -> rs h' s = rs h s) /\
  (forall a b, rs h' a <> None -> rs h' b <> None -> ~ In a (a_padding at_) -> ~ In b (a_padding at_) ->
     rh h' a b = rh h a b) /\
  (forall a b, rs h' a <> None -> rs h' b <> None -> In a (a_padding at_) \/ In b (a_padding at_) ->
     rh h' a b = read_lead_hop at_ a b) /\
  (NoDup (a_interface at_) /\
   forall t, In t (a_interface at_) <-> dom at_ t = mx /\ exists s, dom at_ s = mx + 1 /\ lead_hop at_ s t) /\
  ((forall s, lead_site at_ s -> dom at_ s = mx + 1 -> ~ present dec h s) ->
     (forall s, present dec h s -> rs h' s = rs h s) /\ (forall s, In s (a_interface at_) -> rs h' s <> None)).
Proof.
  intros fuel h' at_ H. destruct (C39_lead _ _ _ H) as [Ha _]. destruct (as_core _ _ _ H Ha) as [(L1 & T1 & Eff & LL1 & Hf1 & R1 & H1)|(_ & e & X & _)]; [|discriminate].
  destruct (@core_ok site dec C F conj VNone family order sord Hord Hsord L1 LL1 Hf1 T1 h R1 Rh fuel origin add_cells h' at_ Ha H1) as (El & Et & Rest). rewrite El, Et. exact Rest.
Qed.

(** Without [origin], nothing of the system is lost, and all the interface
    sites belong to the system. *)
Theorem C39_preserves : origin = None -> forall fuel h' at_, attach_lead fuel = (h', inl at_) ->
  (forall s, rs h s <> None -> rs h' s = rs h s) /\
  (forall a b, rs h a <> None -> rs h b <> None -> rh h' a b = rh h a b) /\
  (forall s, rs h s = None -> rs h' s <> None -> In s (a_padding at_)) /\
  (forall s, In s (a_interface at_) -> rs h' s <> None).
Proof.
  intros Ho fuel h' at_ H. destruct (C39_lead _ _ _ H) as [Ha _]. destruct (C39_attach _ _ _ H) as (_ & mx & mn & Mx & Mn & _ & (_ & P1) & P2 & P3 & P4 & P5 & P6 & P7 & P8).
  destruct P8 as [Q1 Q2].
  { intros s Ls Ds Ps. assert (M : meets at_ (mx + 1)) by (exists s; repeat split; auto; rewrite Ho; discriminate). apply (proj2 Mx) in M. lia. }
  assert (Q : forall s, rs h s <> None -> rs h' s = rs h s) by (intros s Hs; apply Q1; apply (@pres_read site dec C F conj h s); auto).
  split; auto. split; [|split; auto].
  - intros a b Xa Xb. apply P5; rewrite ?Q; auto; intros Y; apply P2 in Y; destruct Y as (_ & _ & Y & _); auto.
  - intros s X Y. destruct (in_dec dec s (a_padding at_)) as [i|n]; auto. exfalso. apply Y. rewrite P4; auto. intros [X1 X2]. apply Y. apply P3; auto.
Qed.

(** Exceptions.  ValueError leaves the system unchanged; a lead that the system
    does not interrupt gives RuntimeError and empties the system ([EFuel] is
    "not finished yet"). *)
Theorem C39_errors : forall fuel h' e, attach_lead fuel = (h', inr e) ->
  (e = EValue _ /\ h' = h /\
    (add_cells < 0 \/ exists L1 T1, effective L1 T1 /\ ((forall s, ~ AttachSpec.lead_site dec L1 T1 s)
      \/ (exists s, AttachSpec.lead_site dec L1 T1 s /\ forall t, present dec h t -> family t <> family s)
      \/ (forall z, ~ AttachSpec.meets dec L1 T1 h origin z))))
  \/ (e = ERuntime _ /\ h' = [] /\
      exists L1 T1 mx mn, effective L1 T1 /\ is_max (AttachSpec.meets dec L1 T1 h origin) (mx - add_cells) /\ is_min (AttachSpec.meets dec L1 T1 h origin) mn /\
        ~ interrupted dec L1 T1 h mn mx)
  \/ e = EFuel _.
Proof.
  intros fuel h' e H. destruct (Z_lt_le_dec add_cells 0) as [Ha|Ha].
  { unfold AttachModel.attach_lead in H. destruct (Z.ltb_spec add_cells 0); [|lia]. left. assert (e = EValue _) by congruence. assert (h' = h) by congruence. auto. }
  destruct (as_core _ _ _ H Ha) as [(L1 & T1 & Eff & LL1 & Hf1 & R1 & H1)|(E0 & e' & X & T' & E)].
  - destruct (@core_err site dec C F conj VNone family order sord Hord Hsord L1 LL1 Hf1 T1 h R1 Rh fuel origin add_cells h' e Ha H1) as [(A & B & D)|[(A & B & D)|(A & B)]]; [| |right; right; auto].
    + left. split; auto. split; auto. right. exists L1, T1. auto.
    + right. left. destruct D as (mx & mn & D). split; auto. split; auto. exists L1, T1, mx, mn. auto.
  - right. right. assert (e' = e) by congruence. subst e'. unfold enlarged in E.
    destruct (@C13_errors site dec (lsym (sub (hop_range L T))) (lsym L) (line_laws (LS _)) (line_laws LL) C F VNone (fun _ => Some true) order (phi _) (Hphi _) Hord T [] RT (r_empty dec _ _ _) (sites T) fuel None T' e E)
      as [(Y & _)|(_ & [(_ & m & Y & _)|[(_ & Y)|(Y & _)]])]; try discriminate; auto.
    unfold shape_raises in Y. exfalso. decompose [ex and or] Y; discriminate.
Qed.

(** Termination.  (With a longer period: if the subgroup's cells are n
    consecutive cells.) *)
Lemma count_cells (L1 : line site) (LL1 : LineLaws L1) (T1 : store site C F) (R1 : reachable dec (lsym L1) T1) k l :
  NoDup l -> (forall s, In s l -> AttachSpec.lead_site dec L1 T1 s /\ 0 <= AttachModel.dom L1 s < k) ->
  (length l <= length (sites T1) * Z.to_nat k)%nat.
Proof.
  intros ND H. set (cells := map Z.of_nat (seq 0 (Z.to_nat k))).
  set (all := flat_map (fun s => map (fun z => act (lsym L1) (ofZ L1 z) s) cells) (sites T1)).
  assert (E : length all = (length (sites T1) * Z.to_nat k)%nat).
  { unfold all. generalize (sites T1). induction l0 as [|s l0 IH]; [reflexivity|]. cbn [flat_map length Nat.mul]. rewrite app_length, IH, map_length. unfold cells. rewrite map_length, seq_length. reflexivity. }
  rewrite <- E. apply NoDup_incl_length; auto. intros s Hs. destruct (H s Hs) as [A B].
  unfold all. apply in_flat_map. exists (to_fd (lsym L1) s). split; [apply (@lead_site_iff site dec C F L1 LL1 T1 s); auto|]. apply in_map_iff. exists (AttachModel.dom L1 s). split; [apply act_dom; auto|].
  unfold cells. apply in_map_iff. exists (Z.to_nat (AttachModel.dom L1 s)). split; [lia|]. apply in_seq. lia.
Qed.

Theorem C39_terminates : (forall n s, 1 < n -> AttachModel.dom (sub n) s = AttachModel.dom L s / n) ->
  exists fuel0, forall fuel, (fuel0 <= fuel)%nat -> snd (attach_lead fuel) <> inr (EFuel _).
Proof.
  intros Hd. set (n := hop_range L T).
  assert (Bd : forall L1 : line site, exists M, 0 <= M /\ forall s, present dec h s -> Z.abs (AttachModel.dom L1 s) <= M).
  { intros L1. exists (fold_right Z.max 0 (map (fun s => Z.abs (AttachModel.dom L1 s)) (sites h))).
    assert (G : forall l, 0 <= fold_right Z.max 0 (map (fun s => Z.abs (AttachModel.dom L1 s)) l) /\
      forall s, In s l -> Z.abs (AttachModel.dom L1 s) <= fold_right Z.max 0 (map (fun s => Z.abs (AttachModel.dom L1 s)) l)).
    { induction l as [|x l [I1 I2]]; cbn [map fold_right]; [split; [lia|intros s []]|]. split; [lia|]. intros s [->|Hs]; [lia|]. apply I2 in Hs. lia. }
    destruct (G (sites h)) as [G1 G2]. split; auto. intros s Ps. apply G2. apply (@present_iff site dec C F h s); auto. }
  destruct (Bd (if 1 <? n then sub n else L)) as (M & HM & BM).
  set (K := (length (sites T) * Z.to_nat (Z.max n 1))%nat).
  exists (K * Z.to_nat (2 * M + 2 + Z.abs add_cells) + K + 1)%nat. intros fuel Hf.
  destruct (attach_lead fuel) as [h' r] eqn:E. cbn [snd]. intros ->. unfold AttachModel.attach_lead in E. fold n in E.
  destruct (Z.ltb_spec add_cells 0) as [|Ha]; [discriminate|].
  assert (Core : forall L1 T1, LineLaws L1 -> (forall g s, family (act (lsym L1) g s) = family s) -> reachable dec (lsym L1) T1 ->
    L1 = (if 1 <? n then sub n else L) -> (length (sites T1) <= K)%nat ->
    attach_core dec VNone family order sord fuel L1 T1 h origin add_cells = (h', inr (EFuel _)) -> False).
  { intros L1 T1 LL1 Hf1 R1 E1 HK H1.
    destruct (@core_err site dec C F conj VNone family order sord Hord Hsord L1 LL1 Hf1 T1 h R1 Rh fuel origin add_cells h' (EFuel _) Ha H1) as [(A & _)|[(A & _)|(_ & mx & mn & A & B & D)]]; try discriminate.
    destruct A as [(s & Ps & _ & Ds & _) _]. destruct B as [(t & Pt & _ & Dt & _) _]. rewrite <- E1 in BM. apply BM in Ps. apply BM in Pt.
    assert (Z.to_nat (mx + 2 - mn) <= Z.to_nat (2 * M + 2 + Z.abs add_cells))%nat by lia.
    assert (length (sites T1) * Z.to_nat (mx + 2 - mn) <= K * Z.to_nat (2 * M + 2 + Z.abs add_cells))%nat by (apply Nat.mul_le_mono; auto). lia. }
  destruct (Z.ltb_spec 1 n) as [Hn|Hn].
  - destruct (enlarged dec VNone order fuel L (sub n) T) as [T' [done|e]] eqn:Ee.
    + destruct (@enlarged_ok site dec C F conj VNone order Hord L (sub n) LL (LS _) (phi _) (Hphi _) T RT fuel T' done Ee) as (R' & A1 & A2 & A3).
      apply (Core (sub n) T'); auto. { intros; rewrite Hphi; auto. }
      unfold K. rewrite Z.max_l by lia. apply (count_cells L LL T RT); [apply (@C08_sites site dec (lsym (sub n)) (line_laws (LS n)) C F T' R')|].
      intros s Hs. destruct (@sites_fd site dec C F (sub n) (LS n) T' R' s Hs) as [D0 _]. rewrite (Hd n s Hn) in D0. split.
      * apply (@lead_read site dec C F conj L T s). rewrite <- A2.
        -- apply A1, A1. apply (@lead_read site dec C F conj (sub n) T' s). apply (proj1 (proj2 (@C08_sites site dec (lsym (sub n)) (line_laws (LS n)) C F T' R'))); auto.
        -- apply A1. apply (@lead_read site dec C F conj (sub n) T' s). apply (proj1 (proj2 (@C08_sites site dec (lsym (sub n)) (line_laws (LS n)) C F T' R'))); auto.
      * pose proof (Z.div_mod (AttachModel.dom L s) n). pose proof (Z.mod_pos_bound (AttachModel.dom L s) n). rewrite D0 in *. lia.
    + assert (e = EFuel _) by congruence. subst e. unfold enlarged in Ee.
      destruct (@C13_errors site dec (lsym (sub n)) (lsym L) (line_laws (LS _)) (line_laws LL) C F VNone (fun _ => Some true) order (phi _) (Hphi _) Hord T [] RT (r_empty dec _ _ _) (sites T) fuel None T' (EFuel _) Ee)
      as [(Y & _)|(_ & [(Y & _)|[(Y & _)|(_ & (l & ND & Y & Len) & _)]])]; try discriminate.
      assert (length l <= K)%nat; [|lia]. unfold K. rewrite Z.max_l by lia. apply (count_cells L LL T RT); auto.
      intros s Hs. apply Y in Hs. assert (A : AttachModel.dom (sub n) s = 0 /\ AttachSpec.lead_site dec L T s).
      { assert (Fd : forall t, AttachSpec.lead_site dec L T t -> AttachModel.dom (sub n) (to_fd (lsym (sub n)) t) = 0 /\ AttachSpec.lead_site dec L T (to_fd (lsym (sub n)) t)).
        { intros t Ht. split; [apply dom_fd; auto|]. rewrite to_fd_dom by auto. rewrite Hphi. unfold AttachSpec.lead_site in *.
          rewrite <- Ht. exact (proj1 (proj2 (proj2 (@C03_invariant site dec (lsym L) (line_laws LL) C conj F T _ t t t)))). }
        destruct Hs as [t _ Ht _ _|t u _ Ht _ _]; apply Fd; auto. apply (@lead_hop_ends site dec C F L LL T RT t u); auto. }
      destruct A as [D0 Ls]. split; auto. rewrite (Hd n s Hn) in D0.
      pose proof (Z.div_mod (AttachModel.dom L s) n). pose proof (Z.mod_pos_bound (AttachModel.dom L s) n). rewrite D0 in *. lia.
  - apply (Core L T); auto. unfold K. nia.
Qed.
End C39.

Print Assumptions C39_lead.
Print Assumptions C39_range.
Print Assumptions C39_attach.
Print Assumptions C39_preserves.
Print Assumptions C39_errors.
Print Assumptions C39_terminates.

(** *** Concrete cases: ladders; sites are (x, y), the family is y, and the
    lead with period p is invariant under x -> x + p. *)
Definition ladder (p : Z) : line (Z * Z) :=
  mkLine (mkSym 0 Z.opp Z.add (Z.eqb 0) (fun s => fst s / Z.max 1 p) (fun g s => (fst s + Z.max 1 p * g, snd s)))
    (fun z => z) (fun z => z).
Example ladder_laws p : LineLaws (ladder p).
Proof.
  constructor; try reflexivity. constructor; cbn -[Z.mul Z.max Z.eqb Z.div]; intros; try lia; try (destruct s; cbn -[Z.mul Z.max]; f_equal; nia).
  rewrite (Z.mul_comm _ x), Z.div_add by lia. lia.
Qed.
Definition zdec (a b : Z * Z) : {a = b} + {a <> b}.
Proof. decide equality; apply Z.eq_dec. Defined.
Definition zset S h k v := fst (setitem zdec S h (Simple (site:=Z*Z) Z nat k) (VConst nat v)).
Definition zNS := NoSymmetry (Z * Z).
Definition zsys (l : list (Z * Z)) : store (Z * Z) Z nat :=
  fold_left (fun h s => zset zNS h (KSite s) (fst s)) l [].
Definition zlead : store (Z * Z) Z nat :=
  let S := lsym (ladder 1) in
  zset S (zset S (zset S (zset S (zset S [] (KSite (0, 0)) 20) (KSite (0, 1)) 21) (KHop (0, 0) (1, 0)) 30) (KHop (0, 1) (1, 1)) 31) (KHop (0, 0) (0, 1)) 32.
Example zsys_reachable l : reachable zdec zNS (zsys l).
Proof.
  unfold zsys. assert (G : forall l h, reachable zdec zNS h -> reachable zdec zNS (fold_left (fun h s => zset zNS h (KSite s) (fst s)) l h)).
  { clear l. induction l as [|s l IH]; intros h H; cbn [fold_left]; auto. apply IH. apply r_set. auto. }
  apply G. apply r_empty.
Qed.
Example zlead_reachable : reachable zdec (lsym (ladder 1)) zlead.
Proof. repeat apply r_set. apply r_empty. Qed.
Example ladder_sub n : forall g s, act (lsym (ladder n)) g s = act (lsym (ladder 1)) (Z.max 1 n * g) s.
Proof. intros g s. cbn -[Z.mul Z.max]. f_equal. nia. Qed.
Example ladder_family g s : snd (act (lsym (ladder 1)) g s) = snd s.
Proof. reflexivity. Qed.
Example ladder_cells n s : 1 < n -> AttachModel.dom (ladder n) s = AttachModel.dom (ladder 1) s / n.
Proof. intros H. cbn -[Z.div Z.max]. rewrite Z.max_r by lia. rewrite Z.max_id, Z.div_1_r. reflexivity. Qed.
Definition zattach sys origin add :=
  attach_lead zdec (VFun Z 0%nat) snd (fun _ l => rev l) (fun l => rev l) 100 (ladder 1) ladder zlead (zsys sys) origin add.
(** the sites of the system, the padding and the interface; or whether the
    exception is RuntimeError *)
Definition zshow (r : store (Z * Z) Z nat * res (Z * Z) (attached (Z * Z) Z nat)) : list (Z * Z) * ((list (Z * Z) * list (Z * Z)) + bool) :=
  (sites (fst r), match snd r with inl a => inl (a_padding a, a_interface a) | inr (ERuntime _) => inr true | inr _ => inr false end).
(** A ragged system, one more cell. *)
Example ex_attach : zshow (zattach [(0, 0); (1, 0); (2, 0); (0, 1)] None 1) =
  ([(0, 0); (1, 0); (2, 0); (0, 1); (3, 0); (3, 1); (2, 1); (1, 1)],
   inl ([(3, 1); (3, 0); (2, 1); (1, 1)], [(3, 0); (3, 1)])).
Proof. vm_compute. reflexivity. Qed.
(** The upper leg is not interrupted: RuntimeError (the docstring says
    ValueError), and the system is left empty. *)
Example ex_attach_not_interrupted : zshow (zattach [(0, 0); (1, 0); (2, 0); (-5, 1)] None 0) = ([], inr true).
Proof. vm_compute. reflexivity. Qed.
(** With [origin], sites of the system itself may get deleted: here those in
    the cell after [origin]. *)
Example ex_attach_origin : zshow (zattach [(0, 0); (1, 0); (2, 0); (0, 1); (1, 1); (2, 1)] (Some (0, 0)) 0) =
  ([(0, 0); (2, 0); (0, 1); (2, 1)], inl ([], [(0, 0); (0, 1)])).
Proof. vm_compute. reflexivity. Qed.
(** Period doubling may lose a part of the lead: a chain with only next-nearest
    neighbor hoppings loses its odd sites. *)
Definition zlead2 : store (Z * Z) Z nat :=
  let S := lsym (ladder 1) in zset S (zset S [] (KSite (0, 0)) 20) (KHop (0, 0) (2, 0)) 30.
Example ex_attach_lost :
  match attach_lead zdec (VFun Z 0%nat) snd (fun _ l => rev l) (fun l => rev l) 100 (ladder 1) ladder zlead2 (zsys [(0, 0); (1, 0)]) None 0 with
  | (_, inl a) => AttachSpec.lead_site zdec (ladder 1) zlead2 (5, 0) /\
      ~ AttachSpec.lead_site zdec (a_line a) (a_lead a) (5, 0) /\
      AttachSpec.lead_site zdec (a_line a) (a_lead a) (6, 0) /\ hop_range (ladder 1) zlead2 = 2
  | _ => False
  end.
Proof. vm_compute. repeat split; discriminate. Qed.
