(** Lemmas about bytes, wraps and endianness. *)
From Verif Require Import Base.
Ltac Zify.zify_post_hook ::= Z.div_mod_to_equations.

Lemma zb_range b : 0 <= zb b < 256.
Proof.
  unfold zb. pose proof (Byte.to_N_bounded b). lia.
Qed.

Lemma zb_bz z : zb (bz z) = z mod 256.
Proof.
  unfold zb, bz.
  destruct (Byte.of_N (Z.to_N (z mod 256))) eqn:E.
  - apply Byte.to_of_N in E. rewrite E. rewrite Z2N.id; [reflexivity|].
    apply Z.mod_pos_bound; lia.
  - apply Byte.of_N_None_iff in E.
    pose proof (Z.mod_pos_bound z 256). lia.
Qed.

Lemma bz_zb b : bz (zb b) = b.
Proof.
  unfold zb, bz.
  rewrite Z.mod_small by (pose proof (Byte.to_N_bounded b); lia).
  rewrite N2Z.id, Byte.of_to_N. reflexivity.
Qed.

Lemma zb_inj a b : zb a = zb b -> a = b.
Proof. intros H. rewrite <- (bz_zb a), <- (bz_zb b), H. reflexivity. Qed.


Lemma bz_eq a b : a mod 256 = b mod 256 -> bz a = bz b.
Proof. unfold bz. intros ->. reflexivity. Qed.

Lemma eqb_eq (a b : byte) : Byte.eqb a b = true <-> a = b.
Proof.
  split.
  - intros H. apply Byte.byte_dec_bl. exact H.
  - intros ->. apply Byte.byte_dec_lb. reflexivity.
Qed.

Lemma eqb_neq (a b : byte) : Byte.eqb a b = false <-> a <> b.
Proof.
  rewrite <- eqb_eq. destruct (Byte.eqb a b); split; intros; congruence.
Qed.

Lemma eqb_refl (a : byte) : Byte.eqb a a = true.
Proof. apply eqb_eq; reflexivity. Qed.

Lemma bytes_eqb_eq a : forall b, bytes_eqb a b = true <-> a = b.
Proof.
  induction a as [|x a IH]; intros [|y b]; cbn; try (split; congruence).
  rewrite andb_true_iff, eqb_eq, IH. split; intros; [destruct H; congruence|].
  inversion H; auto.
Qed.

Lemma bytes_eqb_refl a : bytes_eqb a a = true.
Proof. apply bytes_eqb_eq; reflexivity. Qed.

Lemma byte_eq_dec (a b : byte) : {a = b} + {a <> b}.
Proof. destruct (Byte.eqb a b) eqn:E; [left; now apply eqb_eq|right; now apply eqb_neq]. Qed.


(** ** zlen *)
Lemma zlen_nonneg {A} (l : list A) : 0 <= zlen l.
Proof. unfold zlen; lia. Qed.
Lemma zlen_app {A} (a b : list A) : zlen (a ++ b) = zlen a + zlen b.
Proof. unfold zlen. rewrite app_length. lia. Qed.
Lemma zlen_cons {A} (x : A) l : zlen (x :: l) = 1 + zlen l.
Proof. unfold zlen. cbn [length]. lia. Qed.

(** ** Wraps *)
Lemma u32_small z : 0 <= z < two32 -> u32 z = z.
Proof. intros; unfold u32; apply Z.mod_small; lia. Qed.
Lemma u64_small z : 0 <= z < two64 -> u64 z = z.
Proof. intros; unfold u64; apply Z.mod_small; lia. Qed.
Lemma u32_range z : 0 <= u32 z < two32.
Proof. unfold u32; apply Z.mod_pos_bound; lia. Qed.
Lemma i64_small z : - two63 <= z < two63 -> i64 z = z.
Proof. intros; unfold i64; lia. Qed.
Lemma i64_range z : - two63 <= i64 z < two63.
Proof. unfold i64; lia. Qed.
Lemma i64_u64 z : - two63 <= z < two63 -> i64 (u64 z) = z.
Proof. intros; unfold i64, u64; lia. Qed.
Lemma i32_u32 z : - 2147483648 <= z < 2147483648 -> i32 (u32 z) = z.
Proof. intros; unfold i32, u32; lia. Qed.
Lemma i16_u16 z : - 32768 <= z < 32768 -> i16 (u16 z) = z.
Proof. intros; unfold i16, u16; lia. Qed.
Lemma i8_u8 z : - 128 <= z < 128 -> i8 (u8 z) = z.
Proof. intros; unfold i8, u8; lia. Qed.

(** ** Disjoint bitwise or is addition *)
Lemma testbit_above a k n : 0 <= a < 2 ^ k -> 0 <= k <= n -> Z.testbit a n = false.
Proof.
  intros Ha Hn. destruct (Z.eq_dec a 0) as [->|N]; [apply Z.bits_0|].
  apply Z.bits_above_log2; [lia|].
  apply Z.log2_lt_pow2; [lia|]. apply Z.lt_le_trans with (2 ^ k); [lia|].
  apply Z.pow_le_mono_r; lia.
Qed.

Lemma land_disjoint a b k :
  0 <= k -> 0 <= a < 2 ^ k -> Z.land a (b * 2 ^ k) = 0.
Proof.
  intros Hk Ha. apply Z.bits_inj'. intros n Hn. rewrite Z.land_spec, Z.bits_0.
  destruct (Z.ltb_spec n k).
  - rewrite Z.mul_pow2_bits_low by lia. apply andb_false_r.
  - rewrite (testbit_above a k n) by lia. reflexivity.
Qed.

Lemma lor_add_disjoint a b k :
  0 <= k -> 0 <= a < 2 ^ k -> Z.lor a (Z.shiftl b k) = a + b * 2 ^ k.
Proof.
  intros Hk Ha. rewrite Z.shiftl_mul_pow2 by lia.
  pose proof (land_disjoint a b k Hk Ha) as D.
  rewrite <- Z.lxor_lor by exact D. symmetry. apply Z.add_nocarry_lxor. exact D.
Qed.

Lemma shiftr_div a k : 0 <= k -> Z.shiftr a k = a / 2 ^ k.
Proof. apply Z.shiftr_div_pow2. Qed.

Lemma shiftr8 a : Z.shiftr a 8 = a / 256.
Proof. rewrite Z.shiftr_div_pow2 by lia. reflexivity. Qed.


(** ** Endianness *)
Lemma le_put_length n : forall v, length (le_put n v) = n.
Proof. induction n as [|n IH]; intros v; cbn; [reflexivity|now rewrite IH]. Qed.

Lemma le_get_cons b bs : le_get (b :: bs) = zb b + 256 * le_get bs /\ 0 <= le_get bs.
Proof.
  revert b. induction bs as [|c bs IH]; intros b.
  - cbn [le_get]. pose proof (zb_range b). split; [|lia].
    rewrite lor_add_disjoint by (cbn; lia). lia.
  - destruct (IH c) as [E P]. pose proof (zb_range b). pose proof (zb_range c).
    assert (0 <= le_get (c :: bs)) by lia.
    split; [|assumption].
    change (le_get (b :: c :: bs)) with (Z.lor (zb b) (Z.shiftl (le_get (c :: bs)) 8)).
    rewrite lor_add_disjoint; change (2 ^ 8) with 256; lia.
Qed.

Lemma le_get_nonneg bs : 0 <= le_get bs.
Proof.
  destruct bs as [|b bs]; [cbn; lia|].
  destruct (le_get_cons b bs). pose proof (zb_range b). lia.
Qed.

Lemma le_get_bound bs : 0 <= le_get bs < 256 ^ zlen bs.
Proof.
  split; [apply le_get_nonneg|].
  induction bs as [|b bs IH]; [cbn; lia|].
  destruct (le_get_cons b bs) as [E P]. rewrite E, zlen_cons.
  rewrite Z.pow_add_r by (try lia; apply zlen_nonneg).
  pose proof (zb_range b). change (256 ^ 1) with 256. nia.
Qed.

Lemma le_get_put n : forall v, 0 <= v < 256 ^ Z.of_nat n -> le_get (le_put n v) = v.
Proof.
  induction n as [|n IH]; intros v Hv.
  - change (256 ^ Z.of_nat 0) with 1 in Hv. cbn. lia.
  - cbn [le_put]. destruct (le_get_cons (bz v) (le_put n (Z.shiftr v 8))) as [-> _].
    rewrite shiftr8, zb_bz, IH.
    + pose proof (Z.div_mod v 256). lia.
    + rewrite Nat2Z.inj_succ, Z.pow_succ_r in Hv by lia. lia.
Qed.

Lemma le_get_put_mod n : forall v, le_get (le_put n v) = v mod 256 ^ Z.of_nat n.
Proof.
  induction n as [|n IH]; intros v.
  - change (256 ^ Z.of_nat 0) with 1. rewrite Z.mod_1_r. reflexivity.
  - cbn [le_put]. destruct (le_get_cons (bz v) (le_put n (Z.shiftr v 8))) as [-> _].
    rewrite shiftr8, zb_bz, IH, Nat2Z.inj_succ, Z.pow_succ_r by lia.
    rewrite Z.rem_mul_r by (try lia; apply Z.pow_nonzero; lia). reflexivity.
Qed.

Lemma le_put_get bs : le_put (length bs) (le_get bs) = bs.
Proof.
  induction bs as [|b bs IH]; [reflexivity|].
  cbn [length le_put]. destruct (le_get_cons b bs) as [E P]. rewrite E.
  pose proof (zb_range b). f_equal.
  - rewrite <- (bz_zb b) at 2. apply bz_eq. lia.
  - rewrite shiftr8. replace ((zb b + 256 * le_get bs) / 256) with (le_get bs) by lia. exact IH.
Qed.

Lemma le_get_inj a b : length a = length b -> le_get a = le_get b -> a = b.
Proof.
  intros L H. rewrite <- (le_put_get a), <- (le_put_get b), L, H. reflexivity.
Qed.

Lemma le_get_app a b : le_get (a ++ b) = le_get a + 256 ^ zlen a * le_get b.
Proof.
  induction a as [|x a IH].
  - cbn [app]. change (zlen (@nil byte)) with 0. cbn [le_get]. rewrite Z.pow_0_r. lia.
  - rewrite <- app_comm_cons. destruct (le_get_cons x (a ++ b)) as [-> _].
    destruct (le_get_cons x a) as [-> _]. rewrite IH, zlen_cons, Z.pow_add_r by (try lia; apply zlen_nonneg).
    change (256 ^ 1) with 256. ring.
Qed.

Lemma be_put_length n v : length (be_put n v) = n.
Proof. unfold be_put. rewrite rev_length. apply le_put_length. Qed.

(** ** firstn / skipn of concatenations *)
Lemma firstn_app_exact {A} (a b : list A) : firstn (length a) (a ++ b) = a.
Proof. induction a as [|x a IH]; cbn; [now destruct b|now rewrite IH]. Qed.
Lemma skipn_app_exact {A} (a b : list A) : skipn (length a) (a ++ b) = b.
Proof. induction a as [|x a IH]; cbn; [reflexivity|exact IH]. Qed.
Lemma app_inj_len {A} (a c b d : list A) : length a = length c -> a ++ b = c ++ d -> a = c /\ b = d.
Proof.
  revert c. induction a as [|x a IH]; intros [|y c] L E; cbn in *; try discriminate; [auto|].
  inversion E; subst. destruct (IH c) as [-> ->]; auto.
Qed.

Lemma lor_hi V c m : 0 <= m -> 0 <= c < 2 ^ m -> Z.lor (V * 2 ^ m) c = V * 2 ^ m + c.
Proof.
  intros Hm Hc. rewrite Z.lor_comm, <- Z.shiftl_mul_pow2 by lia. rewrite lor_add_disjoint by lia.
  rewrite Z.shiftl_mul_pow2 by lia. lia.
Qed.
