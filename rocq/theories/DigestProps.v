(** * C38: digest is a deterministic uniform source in [0, 1). *)
From Coq Require Import List ZArith QArith Qreals Reals Lia Lra Psatz.
From Verif Require Import DigestModel.
Import ListNotations.

(** ** Specification vocabulary *)
(** a string of eight bytes *)
Definition word (b : list Z) : Prop := length b = 8%nat /\ Forall (fun x => (0 <= x < 256)%Z) b.
(** the number m / 2^53 with 0 <= m < 2^53: lies in [0, 1) and is exactly
    representable as a double *)
Definition unit_double (x : Q) (m : Z) : Prop := (0 <= m < 2 ^ 53)%Z /\ x == m # (2 ^ 53).

(** ** Proofs *)
Lemma mask_mod x : Z.land x BPF_MASK = (x mod 2 ^ 53)%Z.
Proof. change BPF_MASK with (Z.ones 53). apply Z.land_ones. lia. Qed.
Lemma masked x : unit_double (inject_Z (Z.land x BPF_MASK) * RECIP_BPF) (x mod 2 ^ 53).
Proof.
  rewrite mask_mod. split; [apply Z.mod_pos_bound; reflexivity|]. unfold RECIP_BPF, inject_Z, Qmult, Qeq. cbn [Qnum Qden]. rewrite Z.mul_1_r. reflexivity.
Qed.
Lemma unit_range x m : unit_double x m -> 0 <= x /\ x < 1.
Proof. intros [H ->]. split; unfold Qle, Qlt; cbn [Qnum Qden]; lia. Qed.

(** Both numbers lie in [0, 1) and are multiples of 2^-53, for every input,
    salt, encoding and hash function. *)
Theorem C38_range utf8 md5 input salt :
  (exists m, unit_double (fst (uniform2 utf8 md5 input salt)) m) /\ (exists m, unit_double (snd (uniform2 utf8 md5 input salt)) m)
  /\ 0 <= uniform utf8 md5 input salt /\ uniform utf8 md5 input salt < 1.
Proof.
  unfold uniform, uniform2. cbn [fst snd]. split; [eexists; apply masked|]. split; [eexists; apply masked|]. eapply unit_range. apply masked.
Qed.

(** The result is a function of the concatenated bytes of input and salt
    only: (so the boundary between the two is not part of the hash). *)
Theorem C38_deterministic utf8 md5 i1 s1 i2 s2 :
  str_to_bytes utf8 i1 ++ str_to_bytes utf8 s1 = str_to_bytes utf8 i2 ++ str_to_bytes utf8 s2 ->
  uniform utf8 md5 i1 s1 = uniform utf8 md5 i2 s2 /\ gauss utf8 md5 i1 s1 = gauss utf8 md5 i2 s2.
Proof. intros H. unfold uniform, gauss, log_arg, uniform2. rewrite H. auto. Qed.
(** ... and on nothing less: if two calls agree for every hash function (into
    16 bytes), their concatenated bytes are the same. *)
Theorem C38_separates utf8 i1 s1 i2 s2 :
  (forall md5, (forall x, length (md5 x) = 16%nat) -> uniform utf8 md5 i1 s1 == uniform utf8 md5 i2 s2) ->
  str_to_bytes utf8 i1 ++ str_to_bytes utf8 s1 = str_to_bytes utf8 i2 ++ str_to_bytes utf8 s2.
Proof.
  intros H. set (c1 := str_to_bytes utf8 i1 ++ str_to_bytes utf8 s1). set (c2 := str_to_bytes utf8 i2 ++ str_to_bytes utf8 s2).
  destruct (list_eq_dec Z.eq_dec c2 c1) as [E|N]; auto. exfalso.
  specialize (H (fun x => if list_eq_dec Z.eq_dec x c1 then 1%Z :: repeat 0%Z 15 else repeat 0%Z 16)).
  assert (L : forall x, length (if list_eq_dec Z.eq_dec x c1 then 1%Z :: repeat 0%Z 15 else repeat 0%Z 16) = 16%nat) by (intros x; destruct (list_eq_dec Z.eq_dec x c1); reflexivity).
  specialize (H L). clear L. unfold uniform, uniform2 in H. fold c1 c2 in H. cbv zeta in H. cbn [fst] in H.
  destruct (list_eq_dec Z.eq_dec c1 c1) as [_|F]; [|congruence]. destruct (list_eq_dec Z.eq_dec c2 c1) as [E|_]; [congruence|].
  vm_compute in H. discriminate.
Qed.
(** the salt "b" of "a" and the salt "ab" of the empty input coincide *)
Example C38_salt_refuted md5 : exists i1 s1 i2 s2, s1 <> s2 /\ i1 <> i2 /\ uniform (fun x => x) md5 i1 s1 = uniform (fun x => x) md5 i2 s2.
Proof. exists (PStr [97%Z]), (PStr [98%Z]), (PStr []), (PStr [97%Z; 98%Z]). repeat split; discriminate. Qed.

(** words and integers *)
Fixpoint to_bytes (n : nat) (w : Z) : list Z := match n with O => [] | S n => (w mod 256)%Z :: to_bytes n (w / 256)%Z end.
Lemma to_bytes_len n : forall w, length (to_bytes n w) = n. Proof. induction n; cbn; auto. Qed.
Lemma to_bytes_ok n : forall w, Forall (fun x => (0 <= x < 256)%Z) (to_bytes n w).
Proof. induction n; cbn; constructor; auto. apply Z.mod_pos_bound; lia. Qed.
Lemma le_to_bytes n : forall w, (0 <= w < 256 ^ Z.of_nat n)%Z -> little_endian (to_bytes n w) = w.
Proof.
  induction n as [|n IH]; intros w H.
  - cbn in *. lia.
  - cbn [to_bytes little_endian fold_right]. change (fold_right (fun x acc => (x + 256 * acc)%Z) 0%Z (to_bytes n (w / 256))) with (little_endian (to_bytes n (w / 256))).
    rewrite IH; [pose proof (Z.div_mod w 256); lia|]. rewrite Nat2Z.inj_succ, Z.pow_succ_r in H by lia. split; [apply Z.div_pos; lia|apply Z.div_lt_upper_bound; lia].
Qed.
Lemma le_range b : Forall (fun x => (0 <= x < 256)%Z) b -> (0 <= little_endian b < 256 ^ Z.of_nat (length b))%Z.
Proof.
  induction 1 as [|x b Hx _ IH]; [cbn; lia|]. cbn [little_endian fold_right length]. change (fold_right _ _ b) with (little_endian b). rewrite Nat2Z.inj_succ, Z.pow_succ_r by lia. lia.
Qed.
Lemma bytes_le b : Forall (fun x => (0 <= x < 256)%Z) b -> to_bytes (length b) (little_endian b) = b.
Proof.
  induction 1 as [|x b Hx Hb IH]; [reflexivity|]. cbn [length to_bytes little_endian fold_right]. change (fold_right _ _ b) with (little_endian b).
  replace ((x + 256 * little_endian b) mod 256)%Z with x. 2: { rewrite Z.add_comm, Z.mul_comm, Z.add_comm, Z.mod_add by lia. symmetry. apply Z.mod_small; auto. }
  replace ((x + 256 * little_endian b) / 256)%Z with (little_endian b). 2: { rewrite Z.mul_comm, Z.div_add by lia. rewrite (Z.div_small x); lia. }
  rewrite IH. reflexivity.
Qed.
Lemma word_range b : word b -> (0 <= little_endian b < 2 ^ 64)%Z.
Proof. intros [L F]. pose proof (le_range b F) as H. rewrite L in H. exact H. Qed.
Lemma unpack_mod b : (unpack_q b mod 2 ^ 53 = little_endian b mod 2 ^ 53)%Z.
Proof.
  unfold unpack_q. cbv zeta. destruct (little_endian b <? 2 ^ 63)%Z; auto. replace (little_endian b - 2 ^ 64)%Z with (little_endian b + (- 2 ^ 11) * 2 ^ 53)%Z by lia. apply Z.mod_add. discriminate.
Qed.

Lemma map_NoDup (A B : Type) (f : A -> B) l : (forall x y, In x l -> In y l -> f x = f y -> x = y) -> NoDup l -> NoDup (map f l).
Proof.
  intros H. induction 1 as [|x l Hx Hl IH]; cbn; constructor.
  - intros Hi. apply in_map_iff in Hi. destruct Hi as (y & E & Hy). assert (y = x) by (apply H; cbn; auto). subst; auto.
  - apply IH. intros; apply H; cbn; auto.
Qed.
(** Uniformity: among the 2^64 possible first halves of the hash, exactly
    2^11 = 2048 give any particular one of the 2^53 possible results. *)
Theorem C38_uniform utf8 input salt b2 m : (0 <= m < 2 ^ 53)%Z ->
  exists l, NoDup l /\ length l = 2048%nat /\ forall b1, In b1 l <-> word b1 /\ uniform utf8 (fun _ => b1 ++ b2) input salt == m # (2 ^ 53).
Proof.
  intros Hm. exists (map (fun k => to_bytes 8 (m + Z.of_nat k * 2 ^ 53)) (seq 0 2048)).
  assert (Rg : forall k, (k < 2048)%nat -> (0 <= m + Z.of_nat k * 2 ^ 53 < 256 ^ Z.of_nat 8)%Z) by (intros k Hk; change (256 ^ Z.of_nat 8)%Z with (2 ^ 64)%Z; lia).
  split; [|split].
  - apply map_NoDup; [|apply seq_NoDup]. intros k k' Hk Hk' E. apply in_seq in Hk, Hk'.
    apply (f_equal little_endian) in E. rewrite !le_to_bytes in E by (apply Rg; lia). lia.
  - rewrite map_length, seq_length. reflexivity.
  - intros b1. rewrite in_map_iff. split.
    + intros (k & <- & Hk). apply in_seq in Hk. split; [split; [apply to_bytes_len|apply to_bytes_ok]|].
      unfold uniform, uniform2. cbn [fst]. rewrite firstn_app, to_bytes_len, Nat.sub_diag, firstn_O, app_nil_r. rewrite firstn_all2 by (rewrite to_bytes_len; lia).
      destruct (masked (unpack_q (to_bytes 8 (m + Z.of_nat k * 2 ^ 53)))) as [_ ->]. rewrite unpack_mod, le_to_bytes by (apply Rg; lia). rewrite Z.mod_add by discriminate. rewrite Z.mod_small by lia. reflexivity.
    + intros [W E]. pose proof (word_range _ W) as Hr. destruct W as [L F].
      unfold uniform, uniform2 in E. cbn [fst] in E. rewrite firstn_app, L, Nat.sub_diag, firstn_O, app_nil_r in E. rewrite firstn_all2 in E by lia.
      destruct (masked (unpack_q b1)) as [_ E2]. rewrite E2, unpack_mod in E. unfold Qeq in E. cbn [Qnum Qden] in E. apply Z.mul_cancel_r in E; [|discriminate].
      exists (Z.to_nat (little_endian b1 / 2 ^ 53)). pose proof (Z.div_mod (little_endian b1) (2 ^ 53) ltac:(discriminate)) as D.
      assert (0 <= little_endian b1 / 2 ^ 53 < 2048)%Z by (split; [apply Z.div_pos; lia|apply Z.div_lt_upper_bound; lia]).
      split; [|apply in_seq; lia]. rewrite Z2Nat.id by lia. rewrite <- E. replace (little_endian b1 mod 2 ^ 53 + little_endian b1 / 2 ^ 53 * 2 ^ 53)%Z with (little_endian b1) by lia. rewrite <- L. apply bytes_le; auto.
Qed.

(** gauss never takes the logarithm of zero or the square root of a negative
    number, and its absolute value is at most sqrt(106 ln 2) < 8.6. *)
Theorem C38_gauss utf8 md5 input salt :
  0 < log_arg utf8 md5 input salt /\ log_arg utf8 md5 input salt <= 1
  /\ (0 <= - 2 * ln (Q2R (log_arg utf8 md5 input salt)))%R
  /\ (Rabs (gauss utf8 md5 input salt) <= sqrt (106 * ln 2))%R.
Proof.
  destruct (masked (unpack_q (skipn 8 (md5 (str_to_bytes utf8 input ++ str_to_bytes utf8 salt))))) as [Hm E].
  set (m := (unpack_q (skipn 8 (md5 (str_to_bytes utf8 input ++ str_to_bytes utf8 salt))) mod 2 ^ 53)%Z) in *.
  assert (El : log_arg utf8 md5 input salt == (2 ^ 53 - m) # (2 ^ 53)).
  { unfold log_arg, uniform2. cbn [snd]. rewrite E. unfold Qminus, Qplus, Qopp, Qeq. cbn [Qnum Qden]. lia. }
  assert (L0 : 0 < log_arg utf8 md5 input salt) by (rewrite El; unfold Qlt; cbn [Qnum Qden]; lia).
  assert (L1 : log_arg utf8 md5 input salt <= 1) by (rewrite El; unfold Qle; cbn [Qnum Qden]; lia).
  assert (Lm : (1 # 2 ^ 53) <= log_arg utf8 md5 input salt) by (rewrite El; unfold Qle; cbn [Qnum Qden]; lia).
  set (x := log_arg utf8 md5 input salt) in *.
  assert (P : (0 < Q2R x)%R) by (replace 0%R with (Q2R 0) by (unfold Q2R; cbn; lra); apply Qlt_Rlt; auto).
  assert (P1 : (Q2R x <= 1)%R) by (replace 1%R with (Q2R 1) by (unfold Q2R; cbn; lra); apply Qle_Rle; auto).
  assert (Pm : (/ 2 ^ 53 <= Q2R x)%R).
  { apply Qle_Rle in Lm. replace (/ 2 ^ 53)%R with (Q2R (1 # 2 ^ 53)); auto. unfold Q2R. cbn [Qnum Qden]. rewrite Rmult_1_l. f_equal. change (Z.pos (2 ^ 53)) with (2 ^ 53)%Z. rewrite <- pow_IZR with (n := 53%nat). reflexivity. }
  assert (Ln : (ln (Q2R x) <= 0)%R).
  { destruct (Rle_lt_or_eq_dec _ _ P1) as [Lt|Eq]; [|rewrite Eq, ln_1; lra]. rewrite <- ln_1. left. apply ln_increasing; auto. }
  assert (Lb : (- (53 * ln 2) <= ln (Q2R x))%R).
  { assert (T : (ln (/ 2 ^ 53) <= ln (Q2R x))%R).
    { destruct Pm as [Lt|Eq]; [left; apply ln_increasing; auto; apply Rinv_0_lt_compat; apply pow_lt; lra|rewrite Eq; lra]. }
    rewrite ln_Rinv in T by (apply pow_lt; lra). replace (2 ^ 53)%R with (Rpower 2 (INR 53)) in T by (rewrite Rpower_pow by lra; reflexivity).
    unfold Rpower in T. rewrite ln_exp in T. replace (INR 53) with 53%R in T by (simpl; lra). lra. }
  split; auto. split; auto. split; [lra|].
  change (gauss utf8 md5 input salt) with (cos (Q2R (fst (uniform2 utf8 md5 input salt)) * (2 * PI)) * sqrt (- 2 * ln (Q2R (log_arg utf8 md5 input salt))))%R. fold x. rewrite Rabs_mult. rewrite (Rabs_right (sqrt _)) by (apply Rle_ge, sqrt_pos).
  apply Rle_trans with (1 * sqrt (-2 * ln (Q2R x)))%R.
  - apply Rmult_le_compat_r; [apply sqrt_pos|]. apply Rabs_le. pose proof (COS_bound (Q2R (fst (uniform2 utf8 md5 input salt)) * (2 * PI))). lra.
  - rewrite Rmult_1_l. apply sqrt_le_1_alt. lra.
Qed.

(** an example: the hash bytes 255, 254, ... *)
Example C38_example : uniform (fun x => x) (fun _ => map (fun k => 255 - Z.of_nat k)%Z (seq 0 16)) (PStr [97%Z]) (PBuf [])
  == (7312834606006015 # (2 ^ 53)).
Proof. vm_compute. reflexivity. Qed.
