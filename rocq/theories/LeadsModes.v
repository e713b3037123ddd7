(** * Proofs about the propagating modes. *)
From mathcomp Require Import all_ssreflect all_algebra.
From Verif Require Import Zmod LeadsModel LeadsSpec LeadsProofs LeadsClusters.
Set Implicit Arguments. Unset Strict Implicit. Unset Printing Implicit Defensive.
Import Order.Theory GRing.Theory Num.Theory.
Local Open Scope ring_scope.

Section Modes.
Variable C : numClosedFieldType.
(** ** Conservation of the current *)
Section Cons.
Variables (n k : nat) (h : 'M[C]_n) (u v : 'M[C]_(n, k)).
Hypothesis Hh : hermitian h.
Definition cross r r' (X : 'M[C]_(k + k, r)) (Y : 'M[C]_(k + k, r')) : 'M[C]_(r, r') := hc (usubmx X) *m dsubmx Y - hc (dsubmx X) *m usubmx Y.
Lemma conserved r s r' s' (X : 'M[C]_(k + k, r)) (P Q : 'M[C]_(r, s)) F (Y : 'M[C]_(k + k, r')) (P' Q' : 'M[C]_(r', s')) F' :
  core h u v X P Q F -> core h u v Y P' Q' F' -> hc Q *m cross X Y *m Q' = hc P *m cross X Y *m P'.
Proof.
move=> [A1 A2 A3] [B1 B2 B3].
have E1 : hc F *m (h *m F') = - (hc Q *m (hc (dsubmx X) *m usubmx Y) *m Q') - hc P *m (hc (usubmx X) *m dsubmx Y) *m P'.
  rewrite B1 mulmxDr !mulmxN !mulmxA. have -> : hc F *m u = hc Q *m hc (dsubmx X) by rewrite -[u]hcK -hcM A3 hcM.
  have -> : hc F *m v = hc P *m hc (usubmx X) by rewrite -[v]hcK -hcM A2 hcM. by [].
have E2 : hc F *m (h *m F') = - (hc Q *m (hc (usubmx X) *m dsubmx Y) *m Q') - hc P *m (hc (dsubmx X) *m usubmx Y) *m P'.
  have -> : hc F *m (h *m F') = hc (h *m F) *m F' by rewrite hcM (hcE h) Hh mulmxA.
  rewrite A1 hcB hcN !hcM mulmxBl mulNmx -!mulmxA B2 B3 !mulmxA. by [].
rewrite /cross !mulmxBr !mulmxBl. have E : (hc F *m (h *m F')) - (hc F *m (h *m F')) = 0 by rewrite subrr. rewrite {1}E1 E2 in E. apply: subr0_eq. rewrite -[RHS]E. zmod.
Qed.
End Cons.
(** the matrix of the velocity operator in the basis of the pencil *)
Definition vop k r (x : 'M[C]_(k + k, r)) : 'M[C]_r := let w := - 'i *: hc (dsubmx x) *m usubmx x in w + hc w.
Lemma vopE k r (x : 'M[C]_(k + k, r)) : vop x = 'i *: cross x x.
Proof. rewrite /vop /cross hcM hcZ rmorphN /= conjCi opprK hcK scalerBr -scalemxAr -scalemxAl scaleNr. zmod. Qed.
Lemma crossM k r s r' s' (X : 'M[C]_(k + k, r)) (Y : 'M[C]_(k + k, r')) (T : 'M[C]_(r, s)) (T' : 'M[C]_(r', s')) : cross (X *m T) (Y *m T') = hc T *m cross X Y *m T'.
Proof.
have U m p q (A : 'M[C]_(m + m, p)) (B : 'M[C]_(p, q)) : usubmx (A *m B) = usubmx A *m B /\ dsubmx (A *m B) = dsubmx A *m B.
  by rewrite -{1 3}(vsubmxK A) mul_col_mx col_mxKu col_mxKd.
by rewrite /cross !(U _ _ _ _ _).1 !(U _ _ _ _ _).2 !hcM mulmxBr mulmxBl !mulmxA.
Qed.
Lemma vopM k r s (x : 'M[C]_(k + k, r)) (T : 'M[C]_(r, s)) : vop (x *m T) = hc T *m vop x *m T.
Proof. by rewrite !vopE crossM -scalemxAr -scalemxAl. Qed.

(** ** Columns *)
Section Cols.
Variables (r : nat) (idx : seq 'I_r).
Hypothesis Hu : uniq idx.
Lemma index_ord (j : 'I_r) : j \in idx -> {a : 'I_(size idx) | tnth (in_tuple idx) a = j /\ index j idx = a}.
Proof. move=> Hj. have Hi : (index j idx < size idx)%N by rewrite index_mem. exists (Ordinal Hi). split=> //. by rewrite (tnth_nth j) /= nth_index. Qed.
Lemma index_tnth (a : 'I_(size idx)) : index (tnth (in_tuple idx) a) idx = a.
Proof. rewrite (tnth_nth (tnth (in_tuple idx) a)) /=. by rewrite index_uniq. Qed.
Lemma put_in m (A : 'M[C]_(m, r)) (B : 'M[C]_(m, size idx)) i a : put_cols A B i (tnth (in_tuple idx) a) = B i a.
Proof. rewrite mxE index_tnth. case: insubP => [a' _ Ea|]; last by rewrite ltn_ord. congr (B i _). exact/val_inj. Qed.
Lemma put_out m (A : 'M[C]_(m, r)) (B : 'M[C]_(m, size idx)) i j : j \notin idx -> put_cols A B i j = A i j.
Proof. move=> Hj. rewrite mxE. case: insubP => [a' Ha Ea|] //. by rewrite index_mem (negPf Hj) in Ha. Qed.
Lemma take_put m (A : 'M[C]_(m, r)) (B : 'M[C]_(m, size idx)) : take_cols (put_cols A B) idx = B.
Proof. apply/matrixP=> i a. by rewrite mxE put_in. Qed.
Lemma take_put_other m (A : 'M[C]_(m, r)) (B : 'M[C]_(m, size idx)) (idx' : seq 'I_r) : (forall j, j \in idx' -> j \notin idx) -> take_cols (put_cols A B) idx' = take_cols A idx'.
Proof. move=> H. apply/matrixP=> i a. by rewrite mxE put_out ?mxE // H // mem_tnth. Qed.
Definition emb (B : 'M[C]_(size idx)) : 'M[C]_r :=
  \matrix_(l, j) match insub (index l idx), insub (index j idx) with Some a, Some b => B a b | None, None => (l == j)%:R | _, _ => 0 end.
Lemma insub_in (a : 'I_(size idx)) : insub (index (tnth (in_tuple idx) a) idx) = Some a :> option 'I_(size idx).
Proof. rewrite index_tnth. by apply: valK. Qed.
Lemma insub_out j : j \notin idx -> insub (index j idx) = None :> option 'I_(size idx).
Proof. move=> Hj. apply: insubN. by rewrite index_mem. Qed.
Lemma put_mul m (A : 'M[C]_(m, r)) (B : 'M[C]_(size idx)) : put_cols A (take_cols A idx *m B) = A *m emb B.
Proof.
apply/matrixP=> i j. rewrite [RHS]mxE. case: (boolP (j \in idx)) => Hj.
- have [a [Ea _]] := index_ord Hj. rewrite -Ea put_in mxE. symmetry. rewrite (bigID (fun l => l \in idx)) /= [X in _ + X]big1 ?addr0; last first.
    move=> l Hl. by rewrite mxE insub_out // insub_in mulr0.
  rewrite -(big_uniq _ Hu) /= big_tnth. apply: eq_bigr => b _. rewrite !mxE. by rewrite !insub_in.
- rewrite put_out // (bigD1 j) //= [emb _ _ _]mxE !insub_out // eqxx mulr1 big1 ?addr0 // => l Hl. rewrite mxE (insub_out Hj).
  case: insubP => [*|_]; rewrite ?mulr0 //. by rewrite (negPf Hl) mulr0.
Qed.
Lemma emb_comm (lam : 'rV[C]_r) (B : 'M[C]_(size idx)) : (forall i j, i \in idx -> j \in idx -> lam 0 i = lam 0 j) -> diag_mx lam *m emb B = emb B *m diag_mx lam.
Proof.
move=> H. apply/matrixP=> l j. rewrite mul_diag_mx mul_mx_diag !mxE.
case: (boolP (l \in idx)) => Hl; case: (boolP (j \in idx)) => Hj; rewrite ?(insub_out Hl) ?(insub_out Hj).
- by rewrite (H l j) // mulrC.
- have [a [<- _]] := index_ord Hl. by rewrite insub_in mulr0 mul0r.
- have [a [<- _]] := index_ord Hj. by rewrite insub_in mulr0 mul0r.
- case: eqP => [->|_]; by rewrite ?mulr0 ?mul0r ?mulr1 ?mul1r.
Qed.
End Cols.

(** ** The loop *)
Section Loop.
Variables (qr : forall m c, 'M[C]_(m, c) -> option ('M[C]_(m, c) * 'M[C]_c)) (eigh : forall c, 'M[C]_c -> option ('rV[C]_c * 'M[C]_c)).
Hypothesis Hqr : forall m c (A : 'M[C]_(m, c)) y, qr A = Some y -> qr_of A y.
Hypothesis Heigh : forall c (A : 'M[C]_c) y, hermitian A -> eigh A = Some y -> eigh_of A y.
Variables (n k r : nat) (lam : 'rV[C]_r).
Definition good idx (st : 'M[C]_(k + k, r) * 'M[C]_(n, r) * 'rV[C]_r) : Prop :=
  [/\ vop (take_cols st.1.1 idx) = diag_mx (take_cols st.2 idx), hc (take_cols st.1.2 idx) *m take_cols st.1.2 idx = 1%:M
    & forall j, take_cols st.2 idx 0 j \is Num.real].
Definition rotated (st0 st : 'M[C]_(k + k, r) * 'M[C]_(n, r) * 'rV[C]_r) : Prop :=
  exists T, [/\ st.1.1 = st0.1.1 *m T, st.1.2 = st0.1.2 *m T & diag_mx lam *m T = T *m diag_mx lam].
Lemma step_ok idx st st' : uniq idx -> proper_step qr eigh idx st = inl st' ->
  [/\ good idx st', forall idx', (forall j, j \in idx' -> j \notin idx) -> good idx' st -> good idx' st'
    & (forall i j, i \in idx -> j \in idx -> lam 0 i = lam 0 j) -> forall st0, rotated st0 st -> rotated st0 st'].
Proof.
move=> Ui. case: st => [[psi full] vel]. rewrite /proper_step. case Eqr: (qr _) => [[q rr]|//]. have [/= Q1 Q2] := Hqr Eqr.
case: ifP => // /negbFE Ur. rewrite !take_put //. set x := take_cols psi idx *m invmx rr. set vo := _ + hc _.
have Ev : vo = vop x by [].
have Hv : hermitian vo by rewrite /hermitian -hcE /vo hcD hcK addrC.
case Eei: (eigh vo) => [[w rot]|//] [<-]. have [/= [Z1 Z2] Z3 Z4 _] := Heigh Hv Eei.
have Eq : q = take_cols full idx *m invmx rr by rewrite Q2 mulmxK.
split.
- split=> /=; rewrite !take_put //.
  + by rewrite vopM -Ev -mulmxA Z3 mulmxA hcE Z1 mul1mx.
  + by rewrite hcM -mulmxA (mulmxA (hc q)) (hcE q) Q1 mul1mx hcE Z1.
- move=> idx' D [G1 G2 G3]. by split=> /=; rewrite !take_put_other.
- move=> Hl [[psi0 full0] vel0] [T [/= E1 E2 E3]]. exists (T *m (emb (invmx rr) *m emb rot)). split=> /=.
  + have K := put_mul Ui (psi *m emb (invmx rr)) rot. rewrite -put_mul // take_put // in K. by rewrite K put_mul // E1 !mulmxA.
  + have K := put_mul Ui (full *m emb (invmx rr)) rot. rewrite -put_mul // take_put // in K. by rewrite Eq K put_mul // E2 !mulmxA.
  + by rewrite !mulmxA E3 -!mulmxA (mulmxA (diag_mx _)) (emb_comm Ui) // -!mulmxA (emb_comm Ui).
Qed.
Lemma loop_ok ids st st' : uniq (flatten ids) -> (forall idx, idx \in ids -> forall i j, i \in idx -> j \in idx -> lam 0 i = lam 0 j) ->
  proper_loop qr eigh ids st = inl st' -> rotated st st' /\ forall idx, idx \in ids -> good idx st'.
Proof.
move=> U L H. suff : forall st0, rotated st0 st -> forall done : seq (seq 'I_r), (forall idx, idx \in done -> good idx st /\ forall j, j \in idx -> j \notin flatten ids) ->
   rotated st0 st' /\ forall idx, idx \in done ++ ids -> good idx st'.
  move/(_ st)/(_ _ [::]). apply; last by []. exists 1%:M. by rewrite !mulmx1 mul1mx.
elim: ids st U L H => [|idx ids IH] st /=; first by move=> _ _ [<-] st0 Hr done Hd; split=> // idx; rewrite cats0 => /Hd [].
rewrite cat_uniq => /and3P [Ui /hasPn D U] L. case Es: (proper_step _ _ _ _) => [st1|//] H st0 Hr done Hd.
have [G1 G2 G3] := step_ok Ui Es.
have L1 : forall idx', idx' \in ids -> forall i j, i \in idx' -> j \in idx' -> lam 0 i = lam 0 j by move=> idx' Hi'; apply: L; rewrite inE Hi' orbT.
have L2 : forall i j, i \in idx -> j \in idx -> lam 0 i = lam 0 j by apply: L; rewrite mem_head.
have L3 : forall idx', idx' \in rcons done idx -> good idx' st1 /\ forall j, j \in idx' -> j \notin flatten ids.
  move=> idx'. rewrite mem_rcons inE => /orP [/eqP->|Hi].
  + split=> // j Hj. apply/negP => Hj'. by move: (D j Hj'); rewrite /= Hj.
  + have [Hg Hn] := Hd _ Hi. split; first by apply: G2 => // j /Hn; rewrite mem_cat => /norP [].
    by move=> j /Hn; rewrite mem_cat => /norP [].
have [R1 R2] := IH st1 U L1 H st0 (G3 L2 _ Hr) (rcons done idx) L3.
split=> // idx' Hi. apply: R2. by rewrite cat_rcons.
Qed.
End Loop.
End Modes.
