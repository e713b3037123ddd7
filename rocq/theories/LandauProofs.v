(** * Ladder operators. *)
From Coq Require Import String Ascii Lia.
From mathcomp Require Import all_ssreflect all_algebra zify.
From Verif Require Import LandauModel LandauSpec.
Set Implicit Arguments. Unset Strict Implicit. Unset Printing Implicit Defensive.
Import Order.Theory GRing.Theory Num.Theory.
Local Open Scope ring_scope.

Lemma letter_dec : comparable letter. Proof. by case; case; [left|right|right|left]. Qed.
Definition letter_eqMixin := comparableMixin letter_dec.
Canonical letter_eqType := Eval hnf in EqType letter letter_eqMixin.
Section Ladder.
Variable C : numClosedFieldType.
Notation state := (nat -> C).
Definition lop (x : letter) (psi : state) : state := if x is Raise then raise psi else lower psi.
Definition letters_op (w : seq letter) (psi : state) : state := foldr lop psi w.
Definition iop (m : int) (psi : state) : state := if 0 <= m then iter `|m| (@raise C) psi else iter `|m| (@lower C) psi.
Definition word_op (lt : seq int) (psi : state) : state := foldr iop psi lt.
Definition swap (x : letter) := if x is Raise then Lower else Raise.
Notation e := (fun a b : int => a * b < 0).

Lemma add_letter_op x r psi : word_op (add_letter x r) psi = lop x (word_op r psi).
Proof.
case: x r => [] [|m r] //=; case: ifP => H //=.
- rewrite /iop. have -> : (0 <= m + 1) by lia. have -> : (0 <= m) by lia. by have -> : absz (m + 1) = (absz m).+1 by lia.
- rewrite /iop. have -> : (0 <= m - 1) = false by lia. have -> : (0 <= m) = false by lia. by have -> : absz (m - 1) = (absz m).+1 by lia.
Qed.
Lemma ladder_term_op w psi : word_op (ladder_term w) psi = letters_op w psi.
Proof.
case: w => // x w. rewrite /ladder_term. by elim: (x :: w) => // y v IH /=; rewrite add_letter_op IH.
Qed.
Lemma add_letter_swap x r : add_letter (swap x) [seq - i | i <- r] = [seq - i | i <- add_letter x r].
Proof.
case: x r => [] [|m r] //=; rewrite ?oppr_lt0 ?oppr_gt0; case: ifP => H //=; congr (_ :: _); lia.
Qed.
Lemma ladder_term_swap w : ladder_term (map swap w) = [seq - i | i <- ladder_term w].
Proof. case: w => // x w. rewrite /ladder_term /=. by elim: (w) x => [|y v IH] x /=; [rewrite -add_letter_swap|rewrite -add_letter_swap -IH]. Qed.
Lemma add_letter_ok x r : all (fun m => m != 0) r -> sorted e r -> all (fun m => m != 0) (add_letter x r) /\ sorted e (add_letter x r).
Proof.
case: x r => [] [|m [|b r]] //=; case: ifP => H; rewrite /= ?andbT; try (split; lia).
all: move=> /and3P[H1 H2 H3] /andP[H4 H5]; rewrite H2 H3 H5 ?H1 ?H4 ?andbT /=; split; nia.
Qed.
Lemma ladder_term_sorted w : sorted e (ladder_term w).
Proof.
case: w => // x w. rewrite /ladder_term. suff [] : all (fun m => m != 0) (foldr add_letter [::] (x :: w)) /\ sorted e (foldr add_letter [::] (x :: w)) by [].
elim: (x :: w) => // y v [IH1 IH2] /=. exact: add_letter_ok.
Qed.
Definition deg (l : seq int) : nat := \sum_(m <- l) `|m|%N.
Lemma add_letter_deg x r : deg (add_letter x r) = (deg r).+1.
Proof. rewrite /deg. case: x r => [] [|m r] /=; try case: ifP => H; rewrite !big_cons ?big_nil; lia. Qed.
Lemma ladder_term_deg w : deg (ladder_term w) = size w.
Proof. case: w => [|x w]; first by rewrite /deg big_cons big_nil. rewrite /ladder_term. by elim: (x :: w) => [|y v IH]; [rewrite /deg big_nil|rewrite /= add_letter_deg IH]. Qed.

(** ranges *)
Lemma product_range a p : product (py_range a (a + p%:Z)) = \prod_(0 <= i < p) (a + i%:Z).
Proof.
rewrite /py_range (_ : a <= a + p%:Z) ?ler_addl // addrAC subrr add0r absz_nat /product foldrE big_map. by rewrite /index_iota subn0.
Qed.
Lemma range_pos a p : 0 < a -> 0 < product (py_range a (a + p%:Z)).
Proof. move=> H. rewrite product_range. elim: p => [|p IH]; first by rewrite big_nil. rewrite big_nat_recr //=. apply: mulr_gt0; [exact: IH|lia]. Qed.
Lemma range_zero a p : a <= 0 -> 0 < a + p%:Z -> product (py_range a (a + p%:Z)) = 0.
Proof.
move=> H1 H2. rewrite product_range. elim: p H2 => [|p IH] H2; first by lia. rewrite big_nat_recr //=. case: (ltrP 0 (a + p%:Z)) => H; first by rewrite IH // mul0r.
have -> : a + p%:Z = 0 by lia. by rewrite mulr0.
Qed.
(** no failure up to degree 6 *)
Lemma deg_cons m l : deg (m :: l) = (`|m| + deg l)%N. Proof. by rewrite /deg big_cons. Qed.
Definition tot (l : seq int) : int := \sum_(m <- l) m.
Lemma tot_cons m l : tot (m :: l) = m + tot l. Proof. by rewrite /tot big_cons. Qed.
Lemma tot_nil : tot [::] = 0. Proof. by rewrite /tot big_nil. Qed.
Lemma deg_ge l : tot l <= (deg l)%:Z.
Proof. elim: l => [|m l IH]; first by rewrite /deg tot_nil big_nil. rewrite deg_cons tot_cons. lia. Qed.
Lemma py_up (n m : int) : 0 < m -> n + m + 1 = (n + 1) + (`|m|%N)%:Z. Proof. lia. Qed.
Lemma py_down (n m : int) : m < 0 -> n + 1 = (n + m + 1) + (`|m|%N)%:Z. Proof. lia. Qed.
Lemma no_failure l : sorted e l -> (deg l <= 6)%N ->
  (forall n ret, 0 <= n -> 0 <= n + tot l -> @evaluate_loop C l n ret <> None) /\
  (forall n ret, n < 0 -> 0 <= n + tot l -> (if l is m :: _ then 0 < m else true) -> (n = -1 \/ (deg l)%:Z < - n + 2%:R) -> @evaluate_loop C l n ret <> None).
Proof.
elim: l => [|m l IH] Hs Hd; first by split.
have Hs' : sorted e l by case: (l) Hs => //= b r /andP[_].
rewrite deg_cons in Hd *. have Hd' : (deg l <= 6)%N by lia. have {IH} [IA IB] := IH Hs' Hd'. split=> n ret Hn.
- rewrite tot_cons => Hf; rewrite /=. case: (ltrP 0 m) => Hm.
  { have HP := @range_pos (n + 1) `|m|%N. rewrite (py_up n Hm) ltNge ltW ?HP /=; [|lia|lia]. apply: IA; lia. }
  case: (ltrP m 0) => Hm'; last first.
  { apply: IA; lia. }
  case: eqP => // Hn0. rewrite (py_down n Hm'). case: (lerP 0 (n + m)) => Hp.
  { have HP := @range_pos (n + m + 1) `|m|%N. rewrite ltNge ltW ?HP /=; [|lia|lia]. apply: IA; lia. }
  rewrite range_zero ?ltxx; try lia. apply: IB; try lia.
  case: (l) Hs => // b r /andP[Hb _]. nia.
- rewrite tot_cons => Hf Hm Hc. rewrite /= Hm. case: (lerP 0 (n + m)) => Hp.
  { rewrite (py_up n Hm) range_zero ?ltxx; try lia. apply: IA; lia. }
  exfalso. case: l Hs Hs' Hd Hd' IA IB Hf Hc => [|b r]; first by rewrite tot_nil; lia.
  move=> /andP[Hb _] _ Hd Hd' _ _ Hf Hc. have := deg_ge r. move: Hf. rewrite !tot_cons deg_cons in Hc *. nia.
Qed.

(** the loop computes matrix elements *)
Notation pr a p := (\prod_(0 <= i < p) (a + i%:Z)).
Lemma sqrt_mul (a b : int) : 0 <= a -> sqrtC (a * b)%:~R = sqrtC a%:~R * sqrtC b%:~R :> C.
Proof. move=> Ha. by rewrite rmorphM /= rootCMl // ler0z. Qed.
Lemma pr_ge0 (a : int) p : 0 <= a -> 0 <= pr a p.
Proof. move=> H. apply: prodr_ge0 => i _. lia. Qed.
Definition single (n : int) (r : C) : state := fun k => if k%:Z == n then r else 0.
Lemma iter_ext (f : state -> state) p psi phi : (forall a b, a =1 b -> f a =1 f b) -> psi =1 phi -> iter p f psi =1 iter p f phi.
Proof. move=> Hf H. elim: p => //= p IH. exact: Hf. Qed.
Lemma raise_ext a b : a =1 b -> raise a =1 @raise C b. Proof. by move=> H [|n] //=; rewrite H. Qed.
Lemma lower_ext a b : a =1 b -> lower a =1 @lower C b. Proof. by move=> H n; rewrite /lower H. Qed.
Lemma iter_raise p (n : nat) r : iter p (@raise C) (single n%:Z r) =1 single (n%:Z + p%:Z) (r * sqrtC (pr (n%:Z + 1) p)%:~R).
Proof.
elim: p => [|p IH] k /=; first by rewrite addr0 big_nil sqrtC1 mulr1.
rewrite (raise_ext IH) /raise. case: k => [|k].
{ rewrite /single. by have -> : (0%:Z == n%:Z + p.+1%:Z) = false by lia. }
rewrite /single. have -> : (k.+1%:Z == n%:Z + p.+1%:Z) = (k%:Z == n%:Z + p%:Z) by lia.
case: eqP => H; last by rewrite mulr0. rewrite big_nat_recr //= sqrt_mul; last by apply: pr_ge0; lia.
have -> : n%:Z + 1 + p%:Z = k.+1%:Z by lia. rewrite mulrC mulrA. congr (_ * _ * sqrtC _). 
Qed.
Lemma pr_shift (a : int) p : pr a p.+1 = a * pr (a + 1) p.
Proof. rewrite big_nat_recl //= addr0. congr (_ * _). apply: eq_bigr => i _. by rewrite -addrA -PoszD add1n. Qed.
Lemma iter_lower p (n : nat) r : iter p (@lower C) (single n%:Z r) =1 if (p <= n)%N then single (n%:Z - p%:Z) (r * sqrtC (pr (n%:Z - p%:Z + 1) p)%:~R) else fun _ => 0.
Proof.
elim: p => [|p IH] k /=; first by rewrite subr0 big_nil sqrtC1 mulr1.
rewrite (lower_ext IH) /lower. case: (leqP p n) => H; last by rewrite ltnNge (ltnW H) /= mulr0.
rewrite /single. have -> : (k.+1%:Z == n%:Z - p%:Z) = (k.+1 + p == n)%N by lia. case: eqP => E.
- have -> : (p < n)%N by lia. have -> : k%:Z == n%:Z - p.+1%:Z by lia.
  have -> : n%:Z - p%:Z + 1 = k.+1%:Z + 1 by lia. have -> : n%:Z - p.+1%:Z + 1 = k.+1%:Z by lia.
  rewrite pr_shift sqrt_mul //. by rewrite mulrCA.
- rewrite mulr0. case: ifP => H' //. by have -> : (k%:Z == n%:Z - p.+1%:Z) = false by lia.
Qed.
Definition run (l : seq int) (psi : state) : state := foldl (fun a m => iop m a) psi l.
Lemma iop_ext m a b : a =1 b -> iop m a =1 iop m b.
Proof. move=> H. rewrite /iop. case: ifP => _; apply: iter_ext => //. exact: raise_ext. exact: lower_ext. Qed.
Lemma run_ext l a b : a =1 b -> run l a =1 run l b.
Proof. elim: l a b => //= m l IH a b H. apply: IH. exact: iop_ext. Qed.
Lemma single0 n : single n 0 =1 fun _ => 0. Proof. by move=> k; rewrite /single; case: ifP. Qed.
Lemma iop0 m : iop m (fun _ => 0) =1 fun _ => 0.
Proof.
rewrite /iop. case: ifP => _; elim: `|m|%N => //= p IH k.
- by rewrite (raise_ext IH); case: k => //= k; rewrite mulr0.
- by rewrite (lower_ext IH) /lower mulr0.
Qed.
Lemma run0 l : run l (fun _ => 0) =1 fun _ => 0.
Proof. elim: l => //= m l IH k. by rewrite (run_ext l (iop0 m)). Qed.
Lemma loop_correct l n ret v : evaluate_loop l n ret = Some v -> (n < 0 -> ret = 0) -> run l (single n ret) =1 single (n + tot l) v.
Proof.
elim: l n ret => [|m l IH] n ret; first by move=> [<-] _ k; rewrite tot_nil addr0.
move=> HE Hn. rewrite tot_cons addrA.
have [H|H] := ltrP n 0.
{ (* below the ground state *)
  have Hr := Hn H. rewrite Hr in HE *. have Z : forall l n v, @evaluate_loop C l n 0 = Some v -> v = 0.
  { elim=> [|m' l' IH'] n' v' /=; first by case. do ?[case: ifP => _ //]; rewrite ?mul0r; try exact: IH'; by case. }
  rewrite (Z _ _ _ HE) => k. rewrite (run_ext (m :: l) (single0 n)) (run0 (m :: l)) single0 //. }
case: n H HE Hn => // n _ /= HE Hn. have [Hm|Hm] := ltrP 0 m.
{ move: HE. rewrite Hm (py_up _ Hm) product_range. case: ifP => // _ HE k. rewrite -(IH _ _ HE); last by lia.
  apply: run_ext => j. rewrite /iop ltW // iter_raise. by have -> : (absz m)%:Z = m by lia. }
move: HE. have -> : (0 < m) = false by lia. have [Hm'|Hm'] := ltrP m 0.
{ case: ifP => H0.
  { move=> [<-] k. rewrite single0 -(run0 l k). apply: run_ext => j. rewrite /iop. have -> : (0 <= m) = false by lia. rewrite iter_lower. by have -> : (absz m <= n)%N = false by lia. }
  rewrite (py_down n Hm') product_range. case: ifP => // _ HE k. rewrite -(IH _ _ HE); last first.
  { move=> Hp. have := @range_zero (n%:Z + m + 1) (absz m). rewrite product_range => ->; try lia. by rewrite sqrtC0 mulr0. }
  apply: run_ext => j. rewrite /iop. have -> : (0 <= m) = false by lia. rewrite iter_lower. have -> : n%:Z - (absz m)%:Z = n%:Z + m by lia.
  case: leqP => // Hp. have := @range_zero (n%:Z + m + 1) (absz m). rewrite product_range => ->; try lia. by rewrite sqrtC0 mulr0 single0. }
have E0 : m = 0 by lia. rewrite E0 /= => HE k. rewrite -(IH _ _ HE) ?addr0 //.
by have -> : ret * sqrtC 1%:~R = ret by rewrite sqrtC1 mulr1.
Qed.
Lemma run_word lt psi : run (rev lt) psi = word_op lt psi.
Proof. by rewrite /run foldl_rev. Qed.
Lemma tot_rev l : tot (rev l) = tot l. Proof. rewrite /tot. by apply: perm_big; rewrite perm_rev. Qed.
Lemma deg_rev l : deg (rev l) = deg l. Proof. rewrite /deg. by apply: perm_big; rewrite perm_rev. Qed.
Lemma sorted_rev l : sorted e l -> sorted e (rev l).
Proof. rewrite rev_sorted. apply: sub_sorted => a b /=. by rewrite mulrC. Qed.
Lemma tot_opp l : tot [seq - i | i <- l] = - tot l.
Proof. by rewrite /tot big_map sumrN. Qed.
Lemma deg_opp l : deg [seq - i | i <- l] = deg l.
Proof. rewrite /deg big_map. apply: eq_bigr => i _. by rewrite abszN. Qed.
Lemma sorted_opp l : sorted e l -> sorted e [seq - i | i <- l].
Proof. rewrite sorted_map. apply: sub_sorted => a b /=. by rewrite mulrNN. Qed.
(** evaluate_ladder_term *)
Definition supp (psi : state) (n : int) := forall k : nat, k%:Z != n -> psi k = 0.
Lemma supp_iop m psi n : supp psi n -> supp (iop m psi) (n + m).
Proof.
move=> H. have U p : supp (iter p (@raise C) psi) (n + p%:Z).
{ elim: p => [|p IH] k Hk /=; first by apply: H; lia. case: k Hk => // k Hk. rewrite /raise IH ?mulr0 //. lia. }
have D p : supp (iter p (@lower C) psi) (n - p%:Z).
{ elim: p => [|p IH] k Hk /=; first by apply: H; lia. rewrite /lower IH ?mulr0 //. lia. }
move=> k Hk. rewrite /iop. case: ifP => Hm; [apply: U|apply: D]; lia.
Qed.
Lemma word_out lt (n m : nat) : m%:Z != n%:Z + tot lt -> word_op lt (@level C n) m = 0.
Proof.
suff H : supp (word_op lt (@level C n)) (n%:Z + tot lt) by exact: H. elim: lt => [|x lt IH] /=.
- move=> k. rewrite tot_nil addr0 /level => Hk. by have -> : (k == n) = false by lia.
- rewrite tot_cons addrCA addrC. exact: supp_iop.
Qed.
Lemma evaluate_correct w (n m : nat) (b : C) : (size w <= 6)%N -> m%:Z = n%:Z + (if b < 0 then - tot (ladder_term w) else tot (ladder_term w)) ->
  evaluate_ladder_term (ladder_term w) n%:Z b = Some (word_op (if b < 0 then [seq - i | i <- ladder_term w] else ladder_term w) (@level C n) m).
Proof.
move=> Hw Hm. rewrite /evaluate_ladder_term /=. set lt := if _ then _ else _.
have Ht : m%:Z = n%:Z + tot lt by rewrite /lt Hm; case: ifP => // _; rewrite tot_opp.
have Hd : (deg (rev lt) <= 6)%N by rewrite deg_rev /lt; case: ifP => _; rewrite ?deg_opp ladder_term_deg.
have Hs : sorted e (rev lt) by apply: sorted_rev; rewrite /lt; case: ifP => _; [apply: sorted_opp|]; apply: ladder_term_sorted.
case E: (evaluate_loop _ _ _) => [v|]; last first.
{ exfalso. apply: (proj1 (no_failure Hs Hd) n%:Z 1 _ _ E) => //. by rewrite tot_rev -Ht. }
have L : level C n =1 single n%:Z 1. { move=> k. rewrite /level /single. have -> : (k%:Z == n%:Z) = (k == n) by lia. by case: ifP. }
have X := loop_correct E. rewrite tot_rev -Ht in X. congr Some. rewrite -run_word (run_ext _ L) X //. by rewrite /single eqxx.
Qed.
(** expansion of products of momenta *)
Variable B : C.
Definition sw (x : letter) : letter := if B < 0 then swap x else x.
Lemma lop_ext x a b : a =1 b -> lop x a =1 lop x b.
Proof. move=> H. case: x; [exact: raise_ext|exact: lower_ext]. Qed.
Lemma lop_sum x (L : seq (C * seq letter)) psi n :
  lop x (fun m => \sum_(r <- L) r.1 * letters_op (map sw r.2) psi m) n = \sum_(r <- L) r.1 * lop x (letters_op (map sw r.2) psi) n.
Proof.
case: x; rewrite /= /raise /lower; first case: n => [|n].
- by rewrite big1 // => r _; rewrite mulr0.
- rewrite mulr_sumr. apply: eq_bigr => r _. by rewrite mulrCA.
- rewrite mulr_sumr. apply: eq_bigr => r _. by rewrite mulrCA.
Qed.
Lemma momenta_expand ks psi n : momenta_operator B ks psi n = \sum_(r <- expand B ks) r.1 * letters_op (map sw r.2) psi n.
Proof.
elim: ks n => [|k ks IH] n /=; first by rewrite big_seq1 mul1r.
rewrite /momenta_operator /= -/(momenta_operator B ks psi). rewrite big_allpairs_dep.
have S x : lop x (momenta_operator B ks psi) n = \sum_(r <- expand B ks) r.1 * lop x (letters_op (map sw r.2) psi) n.
{ rewrite (lop_ext x IH). exact: lop_sum. }
have T c x : \sum_(r <- expand B ks) (c * r.1) * letters_op (map sw (x :: r.2)) psi n = c * lop (sw x) (momenta_operator B ks psi) n.
{ rewrite S mulr_sumr. apply: eq_bigr => r _. by rewrite mulrA. }
rewrite /momentum_operator. case: k; rewrite /= !big_cons big_nil addr0 /= !T /sw /field_scale; case: ifP => _ /=.
- by rewrite mulrDr addrC.
- by rewrite mulrDr addrC.
- by rewrite mulrDr mulrN mulNr.
- by rewrite mulrDr mulrN mulNr.
Qed.
Lemma expand_size ks r : r \in expand B ks -> size r.2 = size ks.
Proof.
elim: ks r => [|k ks IH] r /=; first by rewrite inE => /eqP ->.
move=> /allpairsPdep[c [r' [_ H ->]]] /=. by rewrite IH.
Qed.
End Ladder.
