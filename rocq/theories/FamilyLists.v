(** * Proofs about the choice of the data of site families: lists of integers. *)
From Coq Require Import ZArith Lia.
From mathcomp Require Import all_ssreflect all_algebra ssrZ.
From Verif Require Import SymmetryModel SymmetryProofs TsCacheModel TsCacheProps FamilyModel FamilySpec FamilyProofs.
Set Implicit Arguments. Unset Strict Implicit. Unset Printing Implicit Defensive.
Import Order.Theory GRing.Theory Num.Theory.
Local Open Scope ring_scope.

Notation iZ := int_of_Z.
Notation zn r j := (int_of_Z (nth Z0 r j)).
Lemma iZD a b : iZ (Z.add a b) = iZ a + iZ b. Proof. exact: (rmorphD ZInstances.int_of_Z_rmorphism). Qed.
Lemma iZM a b : iZ (Z.mul a b) = iZ a * iZ b. Proof. exact: (rmorphM ZInstances.int_of_Z_rmorphism). Qed.
Lemma iZN a : iZ (Z.opp a) = - iZ a. Proof. exact: (rmorphN ZInstances.int_of_Z_rmorphism). Qed.
Lemma iZ_inj : injective iZ. Proof. exact: can_inj int_of_ZK. Qed.
Lemma iZ_ge0 a : Z.le Z0 a -> 0 <= iZ a.
Proof. by case: a => //= p; case: (Pos.to_nat p) => // n []. Qed.
Lemma iZ_gt0 a : Z.lt Z0 a -> 0 < iZ a.
Proof. case: a => //= p _. rewrite ltz_nat. exact/ssrnat.ltP/Pos2Nat.is_pos. Qed.
Lemma iZ_le a b : Z.le a b -> iZ a <= iZ b.
Proof. move=> H. rewrite -subr_ge0 -iZN -iZD. apply: iZ_ge0. lia. Qed.
Lemma iZ_lt a b : Z.lt a b -> iZ a < iZ b.
Proof. move=> H. rewrite -subr_gt0 -iZN -iZD. apply: iZ_gt0. lia. Qed.
Lemma zn_nil j : zn [::] j = 0. Proof. by rewrite nth_nil. Qed.
Lemma zn_default r j : (size r <= j)%N -> zn r j = 0. Proof. by move=> H; rewrite nth_default. Qed.
Lemma dot_int n (u v : vec) : (size u <= n)%N -> iZ (dot u v) = \sum_(i < n) zn u i * zn v i.
Proof.
elim: u v n => [|x u IH] [|y v] n /=.
- by rewrite big1 // => i _; rewrite nth_nil mul0r.
- by rewrite big1 // => i _; rewrite nth_nil mul0r.
- by rewrite big1 // => i _; rewrite zn_nil mulr0.
- case: n => [//|n] Hn. by rewrite big_ord_recl /= iZD iZM (IH v n).
Qed.
Lemma nth_map_in A B (f : A -> B) x0 y0 s i : (i < size s)%N -> nth y0 (List.map f s) i = f (nth x0 s i).
Proof. elim: s i => [|a s IH] [|i] //=. exact: IH. Qed.
Lemma matvec_nth (M : mat) v i : zn (matvec M v) i = iZ (dot (nth [::] M i) v).
Proof. elim: M i => [|r M IH] [|i] //=. Qed.
Lemma vadd_nth (u v : vec) j : size u = size v -> zn (vadd u v) j = zn u j + zn v j.
Proof. elim: u v j => [|x u IH] [|y v] [|j] //=; rewrite ?iZD //. move=> [E]. exact: IH. Qed.
Lemma vadd_size (u v : vec) : size u = size v -> size (vadd u v) = size u.
Proof. elim: u v => [|x u IH] [|y v] //= [E]. by rewrite IH. Qed.
Lemma vneg_nth (u : vec) j : zn (vneg u) j = - zn u j.
Proof. elim: u j => [|x u IH] [|j] //=; rewrite ?iZN ?oppr0 //. Qed.
Lemma vneg_size (u : vec) : size (vneg u) = size u.
Proof. by elim: u => //= x u ->. Qed.
Lemma matvec_size (M : mat) v : size (matvec M v) = size M.
Proof. by elim: M => //= x u ->. Qed.
Lemma eq_zn (u v : vec) : size u = size v -> (forall j, (j < size u)%N -> zn u j = zn v j) -> u = v.
Proof. move=> Hs H. apply: (@eq_from_nth _ Z0) => // j Hj. exact: iZ_inj (H j Hj). Qed.
(** matrices as lists *)
Lemma lists_size m n (A : 'M[int]_(m, n)) : size (lists A) = m. Proof. by rewrite size_map size_enum_ord. Qed.
Lemma lists_nth m n (A : 'M[int]_(m, n)) (i : 'I_m) (j : 'I_n) : zn (nth [::] (lists A) i) j = A i j.
Proof. rewrite (nth_map i) ?size_enum_ord // (nth_map j) ?size_enum_ord // !nth_ord_enum. exact: Z_of_intK. Qed.
Lemma lists_row_size m n (A : 'M[int]_(m, n)) i : (i < m)%N -> size (nth [::] (lists A) i) = n.
Proof. move=> Hi. by rewrite (nth_map (Ordinal Hi)) ?size_enum_ord // size_map size_enum_ord. Qed.
Lemma lists_rows m n (A : 'M[int]_(m, n)) r : r \in lists A -> size r = n.
Proof. case/mapP=> i _ ->. by rewrite size_map size_enum_ord. Qed.
Lemma In_mem (r : vec) (M : mat) : List.In r M -> exists2 i, (i < size M)%N & r = nth [::] M i.
Proof. elim: M => [|a M IH] //= [<-|/IH[i Hi ->]]; [by exists 0%N|by exists i.+1]. Qed.
Lemma firstn_take A k (s : seq A) : List.firstn k s = take k s.
Proof. elim: s k => [|x s IH] [|k] //=. by rewrite IH. Qed.
Lemma map_list A B (f : A -> B) s : List.map f s = map f s. Proof. by []. Qed.
Lemma length_size A (s : seq A) : List.length s = size s. Proof. by []. Qed.
(** row vector times matrix *)
Lemma vecmat_size n r (M : mat) : (forall i, (i < size M)%N -> size (nth [::] M i) = n) -> size (vecmat n r M) = n.
Proof.
have Rp : size (List.repeat Z0 n) = n by elim: n => //= n ->.
elim: M r => [|row M IH] [|x r] H //.
have E : size [seq Z.mul x i | i <- row] = n by rewrite size_map; apply: (H 0%N).
rewrite /= vadd_size // E // IH // => i Hi. exact: (H i.+1).
Qed.
Lemma repeat_nth n j : zn (List.repeat Z0 n) j = 0.
Proof. by elim: n j => [|n IH] [|j] //=. Qed.
Lemma vecmat_nth n k r (M : mat) j : (forall i, (i < size M)%N -> size (nth [::] M i) = n) -> (size M <= k)%N ->
  zn (vecmat n r M) j = \sum_(i < k) zn r i * zn (nth [::] M i) j.
Proof.
elim: M r k => [|row M IH] [|x r] k H Hk.
- rewrite /= repeat_nth big1 // => i _. by rewrite !nth_nil mul0r.
- rewrite /= repeat_nth big1 // => i _. by rewrite (nth_nil [::]) nth_nil mulr0.
- rewrite /= repeat_nth big1 // => i _. by rewrite nth_nil mul0r.
- case: k Hk => [//|k] Hk. rewrite big_ord_recl /= vadd_nth.
  + rewrite (IH r k) //; last by move=> i Hi; apply: (H i.+1). congr (_ + _). case: (ltnP j (size row)) => Hj.
    * by rewrite (nth_map Z0) // iZM.
    * by rewrite !zn_default ?mulr0 // size_map.
  + rewrite size_map (H 0%N) // vecmat_size // => i Hi. exact: (H i.+1).
Qed.
Lemma scalarI_size n z : size (scalarI n z) = n.
Proof. by rewrite /scalarI !map_list size_map -length_size List.seq_length. Qed.
Lemma seq_nth s n i : (i < n)%N -> nth 0%N (List.seq s n) i = (s + i)%N.
Proof. elim: n s i => [|n IH] s [|i] //= H; rewrite ?addn0 // IH // addSnnS //. Qed.
Lemma eqbE i j : Nat.eqb i j = (i == j).
Proof. by apply/idP/eqP => [/Nat.eqb_eq|/Nat.eqb_eq]. Qed.
Lemma scalarI_row n z i : (i < n)%N -> size (nth [::] (scalarI n z) i) = n.
Proof. move=> Hi. rewrite /scalarI (nth_map_in _ 0%N) -?length_size ?List.seq_length //. by rewrite List.map_length List.seq_length. Qed.
Lemma scalarI_nth n z i j : (i < n)%N -> (j < n)%N -> nth Z0 (nth [::] (scalarI n z) i) j = if i == j then z else Z0.
Proof.
move=> Hi Hj. rewrite /scalarI (nth_map_in _ 0%N) -?length_size ?List.seq_length // (nth_map_in _ 0%N) -?length_size ?List.seq_length //.
by rewrite !seq_nth // eqbE.
Qed.
Lemma lists_exact n (m : 'M[int]_n) : \det m != 0 -> exact_inverse n (lists m) (lists (\adj m)) (Z_of_int (\det m)).
Proof.
move=> HD. split; first by move=> E; move: HD; rewrite -(Z_of_intK (\det m)) E.
split; first exact: lists_size. split; first exact: lists_size.
split; first by move=> r /In_mem[i Hi ->]; apply: lists_row_size; rewrite -(lists_size m).
split; first by move=> r /In_mem[i Hi ->]; apply: lists_row_size; rewrite -(lists_size (\adj m)).
have HR: forall i, (i < size (lists m))%N -> size (nth [::] (lists m) i) = n by move=> i Hi; apply: lists_row_size; rewrite -(lists_size m).
apply: (@eq_from_nth _ [::]); rewrite map_list size_map lists_size ?scalarI_size // => i Hi.
rewrite (nth_map [::]) ?lists_size //. apply: eq_zn; first by rewrite vecmat_size // scalarI_row.
move=> j. rewrite vecmat_size // => Hj. rewrite (vecmat_nth (k := n)) ?lists_size //; last by rewrite lists_size in HR. rewrite scalarI_nth //.
have := congr1 (fun A : 'M[int]_n => A (Ordinal Hi) (Ordinal Hj)) (mul_adj_mx m). rewrite !mxE => E.
transitivity (\sum_j0 (\adj m) (Ordinal Hi) j0 * m j0 (Ordinal Hj)).
- apply: eq_bigr => k _. by rewrite (lists_nth (\adj m) (Ordinal Hi) k) (lists_nth m k (Ordinal Hj)).
- rewrite E -val_eqE /=. by case: (i == j); rewrite ?mulr1n ?mulr0n ?Z_of_intK.
Qed.

(** translations of tags *)
Lemma mulmap x (r : vec) j : zn [seq Z.mul x i | i <- r] j = iZ x * zn r j.
Proof. elim: r j => [|y r IH] [|j] //=; rewrite ?iZM ?mulr0 //. Qed.
Lemma translate_size (g : vec) (b : mat) tag : (forall r, List.In r b -> size r = size tag) -> size (translate g b tag) = size tag.
Proof.
elim: g b tag => [|x g IH] [|r b] tag //= H. have E : size tag = size [seq Z.mul x i | i <- r] by rewrite size_map H; [|left].
rewrite IH vadd_size // => r' Hr. by rewrite H //; right.
Qed.
Lemma translate_nth (g : vec) (b : mat) tag j n : (forall r, List.In r b -> size r = size tag) -> (size b <= n)%N ->
  zn (translate g b tag) j = zn tag j + \sum_(i < n) zn g i * zn (nth [::] b i) j.
Proof.
elim: g b tag n => [|x g IH] [|r b] tag n H Hn /=; try by rewrite big1 ?addr0 // => i _; rewrite ?(nth_nil [::]) ?nth_nil ?mul0r ?mulr0.
case: n Hn => [//|n] Hn. have E : size tag = size [seq Z.mul x i | i <- r] by rewrite size_map H; [|left].
rewrite (IH _ _ n) //; last by move=> r' Hr; rewrite vadd_size // H //; right.
by rewrite vadd_nth // mulmap big_ord_recl /= addrA.
Qed.
