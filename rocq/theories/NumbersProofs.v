From Verif Require Import Base BaseProofs GoStd GoStdProofs SpecText Numbers SpecNumbers.
From Verif Require Import Chain.
Ltac Zify.zify_post_hook ::= Z.div_mod_to_equations.
Notation two127 := 170141183460469231731687303715884105728 (only parsing).
Notation two128 := 340282366920938463463374607431768211456 (only parsing).

(** ** Big-endian *)
Lemma be_get_app a b : be_get (a ++ b) = be_get a * 256 ^ zlen b + be_get b.
Proof. unfold be_get. rewrite rev_app_distr, le_get_app. unfold zlen. rewrite rev_length. lia. Qed.
Lemma be_get_bound b : 0 <= be_get b < 256 ^ zlen b.
Proof. unfold be_get. pose proof (le_get_bound (rev b)) as H. unfold zlen in *. now rewrite rev_length in H. Qed.
Lemma be_get_put n v : 0 <= v < 256 ^ Z.of_nat n -> be_get (be_put n v) = v.
Proof. intros H. unfold be_get, be_put. rewrite rev_involutive. now apply le_get_put. Qed.
Lemma be_put_get b : be_put (length b) (be_get b) = b.
Proof. unfold be_get, be_put. rewrite <- rev_length, le_put_get. apply rev_involutive. Qed.
Lemma be_get_inj a b : length a = length b -> be_get a = be_get b -> a = b.
Proof. intros L E. rewrite <- (be_put_get a), <- (be_put_get b), L, E. reflexivity. Qed.
Lemma be_get_value b : be_get b = be_value b.
Proof.
  unfold be_value. induction b as [|c b IH] using rev_ind; [reflexivity|].
  rewrite be_get_app, fold_left_app. cbn [fold_left]. rewrite IH.
  change (256 ^ zlen [c]) with 256. unfold be_get. cbn [rev app le_get]. rewrite Z.shiftl_0_l, Z.lor_0_r. lia.
Qed.

(** ** Uint128 *)
Lemma u128_bytes u : u128_ok u -> be_get (U128_BytesBE u) = u128_value u.
Proof.
  intros [HL HH]. change (2 ^ 64) with two64 in *. unfold U128_BytesBE. rewrite be_get_app.
  rewrite !be_get_put by (change (256 ^ Z.of_nat 8) with two64; lia).
  unfold zlen. rewrite be_put_length. unfold u128_value. change (256 ^ Z.of_nat 8) with (2 ^ 64). lia.
Qed.
Lemma u128_bytes_len u : length (U128_BytesBE u) = 16%nat.
Proof. unfold U128_BytesBE. rewrite app_length, !be_put_length. reflexivity. Qed.
Lemma u128_bytes_le u : U128_BytesLE u = rev (U128_BytesBE u).
Proof. unfold U128_BytesLE, U128_BytesBE, be_put. rewrite rev_app_distr, !rev_involutive. reflexivity. Qed.
Lemma u128_value_bound u : u128_ok u -> 0 <= u128_value u < two128.
Proof. intros [H1 H2]. change (2 ^ 64) with two64 in *. unfold u128_value. change (2 ^ 64) with two64. lia. Qed.
Lemma u128_value_inj u v : u128_ok u -> u128_ok v -> u128_value u = u128_value v -> u = v.
Proof.
  destruct u as [a b], v as [c d]. unfold u128_ok, u128_value. cbn [Lo Hi]. change (2 ^ 64) with two64.
  intros H K E. assert (b = d) by lia. assert (a = c) by lia. subst. reflexivity.
Qed.
Lemma big_u128 u : u128_ok u -> Uint128_BigInt u = u128_value u.
Proof. intros H. unfold Uint128_BigInt, big_SetBytes. now apply u128_bytes. Qed.

Lemma take8 b : length b = 16%nat ->
  let u := {| Lo := be_get (skipn 8 b); Hi := be_get (firstn 8 b) |} in
  u128_ok u /\ u128_value u = be_get b.
Proof.
  intros L u. pose proof (be_get_bound (firstn 8 b)) as B1. pose proof (be_get_bound (skipn 8 b)) as B2.
  unfold zlen in *. rewrite firstn_length, L in B1. rewrite skipn_length, L in B2.
  change (256 ^ Z.of_nat (Nat.min 8 16)) with two64 in B1. change (256 ^ Z.of_nat (16 - 8)) with two64 in B2.
  split; [subst u; split; cbn [Lo Hi]; change (2 ^ 64) with two64; lia|].
  unfold u128_value, u. cbn [Lo Hi]. rewrite <- (firstn_skipn 8 b) at 3. rewrite be_get_app.
  unfold zlen. rewrite skipn_length, L. reflexivity.
Qed.
Lemma NewUint128_ok i : - two128 < i < two128 ->
  exists u, NewUint128 i = Ok u /\ u128_ok u /\ u128_value u = Z.abs i.
Proof.
  intros H. unfold NewUint128, big_FillBytes. change (256 ^ Z.of_nat 16) with two128.
  destruct (Z.ltb_spec (Z.abs i) two128); [|lia]. cbn [rbind].
  destruct (take8 (be_put 16 (Z.abs i)) (be_put_length _ _)) as [A B].
  eexists. split; [reflexivity|]. split; [exact A|]. rewrite B. apply be_get_put.
  change (256 ^ Z.of_nat 16) with two128. lia.
Qed.
Lemma NewUint128_panic i : ~ (- two128 < i < two128) -> exists m, NewUint128 i = Panic m.
Proof.
  intros H. unfold NewUint128, big_FillBytes. change (256 ^ Z.of_nat 16) with two128.
  destruct (Z.ltb_spec (Z.abs i) two128); [lia|]. cbn [rbind]. eauto.
Qed.
Lemma NewUint128_value u : u128_ok u -> NewUint128 (u128_value u) = Ok u.
Proof.
  intros H. pose proof (u128_value_bound u H). destruct (NewUint128_ok (u128_value u)) as [v [E [K V]]]; [lia|].
  rewrite E. f_equal. apply u128_value_inj; auto. lia.
Qed.

Lemma bitlen_le i n : 0 < n -> (big_BitLen i <= n <-> - 2 ^ n < i < 2 ^ n).
Proof.
  intros Hn. unfold big_BitLen. destruct (Z.eqb_spec i 0) as [->|E].
  - assert (0 < 2 ^ n) by (apply Z.pow_pos_nonneg; lia). lia.
  - pose proof (Z.log2_lt_pow2 (Z.abs i) n ltac:(lia)). lia.
Qed.
Lemma bitlen_128 i : (128 <? big_BitLen i) = false <-> - two128 < i < two128.
Proof. pose proof (bitlen_le i 128 ltac:(lia)) as H. change (2 ^ 128) with two128 in H. lia. Qed.

Lemma NewUint128FromString_ok s u :
  NewUint128FromString s = Ok u <-> exists i, int_text s i /\ 0 <= i < two128 /\ u128_ok u /\ u128_value u = i.
Proof.
  unfold NewUint128FromString. split.
  - destruct (big_SetString s) as [i|] eqn:E; [|discriminate]. apply big_SetString_ok in E.
    destruct (128 <? big_BitLen i) eqn:B; cbn [orb]; [discriminate|]. destruct (Z.ltb_spec i 0); [discriminate|].
    apply bitlen_128 in B. intros H1. destruct (NewUint128_ok i B) as [v [E2 [K V]]].
    rewrite H1 in E2. injection E2 as <-. exists i. repeat split; auto; try lia; apply K.
  - intros (i & T & R & K & V). apply big_SetString_ok in T. rewrite T.
    assert (B : (128 <? big_BitLen i) = false) by (apply bitlen_128; lia). rewrite B.
    destruct (Z.ltb_spec i 0); [lia|]. cbn [orb]. rewrite <- V. now apply NewUint128_value.
Qed.
Lemma NewUint128FromString_nopanic s m : NewUint128FromString s <> Panic m.
Proof.
  unfold NewUint128FromString. destruct (big_SetString s) as [i|]; [|discriminate].
  destruct (128 <? big_BitLen i) eqn:B; cbn [orb]; [discriminate|]. destruct (Z.ltb_spec i 0); [discriminate|].
  apply bitlen_128 in B. destruct (NewUint128_ok i B) as [u [-> _]]. discriminate.
Qed.

(** ** Int128 *)
Lemma i128_value_range u : u128_ok u -> - two127 <= i128_value u < two127.
Proof.
  intros H. pose proof (u128_value_bound u H). unfold i128_value. change (2 ^ 127) with two127. change (2 ^ 128) with two128.
  destruct (Z.ltb_spec (u128_value u) two127); lia.
Qed.
Lemma i128_value_inj u v : u128_ok u -> u128_ok v -> i128_value u = i128_value v -> u = v.
Proof.
  intros Hu Hv E. apply u128_value_inj; auto. pose proof (u128_value_bound u Hu). pose proof (u128_value_bound v Hv).
  unfold i128_value in E. change (2 ^ 127) with two127 in E. change (2 ^ 128) with two128 in E.
  destruct (Z.ltb_spec (u128_value u) two127), (Z.ltb_spec (u128_value v) two127); lia.
Qed.
Lemma land128 z : 0 <= z < 256 -> (0 <? Z.land z 128) = (128 <=? z).
Proof.
  intros H. assert (X : forallb (fun k => Bool.eqb (0 <? Z.land (Z.of_nat k) 128) (128 <=? Z.of_nat k)) (seq 0 256) = true)
    by (vm_compute; reflexivity).
  rewrite forallb_forall in X. specialize (X (Z.to_nat z)). rewrite Z2Nat.id in X by lia.
  apply Bool.eqb_prop. apply X. apply in_seq. lia.
Qed.
Lemma big_i128 u : u128_ok u -> Int128_BigInt u = i128_value u.
Proof.
  intros H. unfold Int128_BigInt, big_SetBytes. cbv zeta. rewrite u128_bytes by exact H.
  pose proof (u128_bytes u H) as V. pose proof (u128_bytes_len u) as L.
  destruct (U128_BytesBE u) as [|b0 b] eqn:E; [discriminate L|].
  assert (zlen (b0 :: b) = 16) by (unfold zlen; rewrite L; reflexivity). rewrite H0.
  pose proof (zb_range b0). rewrite land128 by lia. change (Z.shiftl 1 (16 * 8)) with two128.
  change (b0 :: b) with ([b0] ++ b) in V. rewrite be_get_app in V.
  assert (zlen b = 15) by (rewrite zlen_cons in H0; lia).
  pose proof (be_get_bound b) as B. rewrite H2 in *. change (256 ^ 15) with 1329227995784915872903807060280344576 in *.
  assert (B0 : be_get [b0] = zb b0) by (unfold be_get; cbn [rev app le_get]; now rewrite Z.shiftl_0_l, Z.lor_0_r).
  rewrite B0 in V. unfold i128_value. change (2 ^ 127) with two127. change (2 ^ 128) with two128.
  destruct (Z.leb_spec 128 (zb b0)), (Z.ltb_spec (u128_value u) two127); lia.
Qed.

(** The two halves of the first sixteen bytes. *)
Lemma take16 b : (16 <= length b)%nat ->
  let u := {| Lo := be_get (firstn 8 (skipn 8 b)); Hi := be_get (firstn 8 b) |} in
  u128_ok u /\ u128_value u = be_get (firstn 16 b).
Proof.
  intros L u. assert (L16 : length (firstn 16 b) = 16%nat) by (rewrite firstn_length; lia).
  destruct (take8 (firstn 16 b) L16) as [A B].
  assert (E1 : firstn 8 (firstn 16 b) = firstn 8 b) by (rewrite firstn_firstn; reflexivity).
  assert (E2 : skipn 8 (firstn 16 b) = firstn 8 (skipn 8 b)) by (rewrite skipn_firstn_comm; reflexivity).
  rewrite E1, E2 in *. auto.
Qed.

Lemma be_get_zeros k : be_get (repeat x00 k) = 0.
Proof.
  induction k as [|k IH]; [reflexivity|]. change (repeat x00 (S k)) with ([x00] ++ repeat x00 k).
  rewrite be_get_app, IH. cbn. lia.
Qed.
Lemma be_get_ffs k : be_get (repeat xff k) = 256 ^ Z.of_nat k - 1.
Proof.
  induction k as [|k IH]; [reflexivity|]. change (repeat xff (S k)) with ([xff] ++ repeat xff k).
  rewrite be_get_app, IH. unfold zlen. rewrite repeat_length. change (be_get [xff]) with 255.
  rewrite Nat2Z.inj_succ, Z.pow_succ_r by lia. lia.
Qed.

Lemma bytes_len i : 0 < i -> zlen (big_Bytes i) = Z.log2 i / 8 + 1.
Proof.
  intros H. unfold big_Bytes, zlen. rewrite be_put_length. unfold big_BitLen.
  destruct (Z.eqb_spec i 0); [lia|]. rewrite Z.abs_eq by lia. pose proof (Z.log2_nonneg i). lia.
Qed.
Lemma bytes_value i : 0 <= i -> be_get (big_Bytes i) = i.
Proof.
  intros H. unfold big_Bytes. rewrite Z.abs_eq by lia. apply be_get_put. unfold big_BitLen.
  destruct (Z.eqb_spec i 0) as [->|]; [cbn; lia|]. rewrite Z.abs_eq by lia.
  pose proof (Z.log2_nonneg i). split; [lia|]. rewrite Z2Nat.id by lia.
  change 256 with (2 ^ 8). rewrite <- Z.pow_mul_r by lia.
  pose proof (Z.log2_spec i ltac:(lia)) as [_ U]. eapply Z.lt_le_trans; [exact U|].
  apply Z.pow_le_mono_r; lia.
Qed.
Lemma bytes_len_eq i n : 0 < n -> 256 ^ (n - 1) <= i < 256 ^ n -> zlen (big_Bytes i) = n.
Proof.
  intros Hn H. assert (0 < 256 ^ (n - 1)) by (apply Z.pow_pos_nonneg; lia).
  rewrite bytes_len by lia. change 256 with (2 ^ 8) in H. rewrite <- !Z.pow_mul_r in H by lia.
  pose proof (proj1 (Z.log2_le_pow2 i (8 * (n - 1)) ltac:(lia)) (proj1 H)).
  pose proof (proj1 (Z.log2_lt_pow2 i (8 * n) ltac:(lia)) (proj2 H)). lia.
Qed.

Lemma NewInt128_pos i : 0 < i < two128 ->
  exists u, NewInt128 i = Ok u /\ u128_ok u /\ u128_value u = i.
Proof.
  intros H. unfold NewInt128. assert (B : (128 <? big_BitLen i) = false) by (apply bitlen_128; lia). rewrite B.
  destruct (Z.eqb_spec i 0); [lia|]. destruct (Z.ltb_spec 0 i); [|lia]. cbv zeta.
  assert (L : (length (big_Bytes i) <= 16)%nat).
  { pose proof (bytes_len i ltac:(lia)) as BL. pose proof (proj1 (Z.log2_lt_pow2 i 128 ltac:(lia))) as X.
    change (2 ^ 128) with two128 in X. specialize (X ltac:(lia)). unfold zlen in BL. lia. }
  assert (PL : length (pad16 x00 (big_Bytes i)) = 16%nat) by (unfold pad16; rewrite app_length, repeat_length; lia).
  destruct (take16 (pad16 x00 (big_Bytes i))) as [A V]; [lia|].
  eexists. split; [reflexivity|]. split; [exact A|]. rewrite V, firstn_all2 by lia.
  unfold pad16. rewrite be_get_app, be_get_zeros, bytes_value by lia. lia.
Qed.
Lemma NewInt128_neg i : - two128 < i < 0 ->
  exists u, NewInt128 i = Ok u /\ u128_ok u /\
    u128_value u = if - two127 <? i then i + two128 else i / 256 + two128.
Proof.
  intros H. unfold NewInt128. assert (B : (128 <? big_BitLen i) = false) by (apply bitlen_128; lia). rewrite B.
  destruct (Z.eqb_spec i 0) as [|NZ]; [lia|]. destruct (Z.ltb_spec 0 i); [lia|]. cbv zeta.
  set (n := big_BitLen i / 8 + 1). assert (BL : 1 <= big_BitLen i <= 128).
  { split; [unfold big_BitLen; destruct (Z.eqb_spec i 0); [lia|]; pose proof (Z.log2_nonneg (Z.abs i)); lia|lia]. }
  assert (Hn : 1 <= n <= 17) by (subst n; lia).
  rewrite Z.shiftl_mul_pow2, Z.mul_1_l by lia.
  assert (P : 2 ^ (n * 8) = 256 ^ n) by (rewrite Z.mul_comm, Z.pow_mul_r by lia; reflexivity). rewrite P.
  assert (Bi : - 2 ^ big_BitLen i < i) by (apply (bitlen_le i (big_BitLen i)); lia).
  assert (P1 : 2 ^ big_BitLen i <= 2 ^ (8 * n - 1)) by (apply Z.pow_le_mono_r; subst n; lia).
  assert (P2 : 2 * 2 ^ (8 * n - 1) = 256 ^ n) by (rewrite <- Z.pow_succ_r by lia; rewrite <- P; f_equal; lia).
  assert (P3 : 256 * 256 ^ (n - 1) = 256 ^ n) by (rewrite <- Z.pow_succ_r by lia; f_equal; lia).
  set (x := i + 256 ^ n).
  assert (Lx : zlen (big_Bytes x) = n) by (apply bytes_len_eq; lia).
  assert (Vx : be_get (big_Bytes x) = x) by (apply bytes_value; lia).
  assert (CASE : (n <= 16 /\ - two127 < i) \/ (n = 17 /\ i <= - two127)).
  { destruct (Z.le_gt_cases n 16) as [N16|N16].
    - left. split; [exact N16|]. assert (big_BitLen i <= 127) by (subst n; lia).
      pose proof (proj1 (bitlen_le i 127 ltac:(lia)) ltac:(lia)) as X. change (2 ^ 127) with two127 in X. lia.
    - right. split; [lia|]. destruct (Z.le_gt_cases i (- two127)); [assumption|exfalso].
      pose proof (proj2 (bitlen_le i 127 ltac:(lia))) as X. change (2 ^ 127) with two127 in X. specialize (X ltac:(lia)).
      subst n. lia. }
  unfold zlen in Lx.
  assert (PL : (16 <= length (pad16 xff (big_Bytes x)))%nat) by (unfold pad16; rewrite app_length, repeat_length; lia).
  destruct (take16 _ PL) as [A V]. eexists. split; [reflexivity|]. split; [exact A|]. rewrite V.
  destruct CASE as [[N16 Hi]|[N17 Hi]].
  - destruct (Z.ltb_spec (- two127) i); [|lia].
    rewrite firstn_all2 by (unfold pad16; rewrite app_length, repeat_length; lia).
    unfold pad16. rewrite be_get_app, be_get_ffs, Vx. unfold zlen. rewrite Lx.
    assert (Q : 256 ^ Z.of_nat (16 - length (big_Bytes x)) * 256 ^ n = two128).
    { rewrite <- Z.pow_add_r by lia. replace (Z.of_nat (16 - length (big_Bytes x)) + n) with 16 by lia. reflexivity. }
    rewrite Z.mul_sub_distr_r, Q. subst x. lia.
  - destruct (Z.ltb_spec (- two127) i); [lia|].
    assert (PX : pad16 xff (big_Bytes x) = big_Bytes x).
    { unfold pad16. replace (16 - length (big_Bytes x))%nat with 0%nat by lia. reflexivity. }
    rewrite PX. assert (S : be_get (big_Bytes x) = be_get (firstn 16 (big_Bytes x)) * 256 + be_get (skipn 16 (big_Bytes x))).
    { rewrite <- (firstn_skipn 16 (big_Bytes x)) at 1. rewrite be_get_app. unfold zlen at 1. rewrite skipn_length.
      replace (Z.of_nat (length (big_Bytes x) - 16)) with 1 by lia. lia. }
    pose proof (be_get_bound (skipn 16 (big_Bytes x))) as SB. unfold zlen in SB. rewrite skipn_length in SB.
    replace (Z.of_nat (length (big_Bytes x) - 16)) with 1 in SB by lia. change (256 ^ 1) with 256 in SB.
    rewrite Vx in S. unfold x in S at 1. rewrite N17 in S.
    change (256 ^ 17) with 87112285931760246646623899502532662132736 in S. lia.
Qed.

(** Signed result for every accepted integer. *)
Definition int128_result (i : Z) : Z :=
  if i <=? - 2 ^ 127 then i / 256 else if i <? 2 ^ 127 then i else i - 2 ^ 128.
Lemma NewInt128_ok i : - two128 < i < two128 ->
  exists u, NewInt128 i = Ok u /\ u128_ok u /\ i128_value u = int128_result i.
Proof.
  intros H. unfold int128_result, i128_value. change (2 ^ 127) with two127. change (2 ^ 128) with two128.
  destruct (Z.lt_trichotomy i 0) as [N|[->|P]].
  - destruct (NewInt128_neg i ltac:(lia)) as [u [E [A V]]]. exists u. split; [exact E|]. split; [exact A|].
    rewrite V. destruct (Z.ltb_spec (- two127) i).
    + destruct (Z.ltb_spec (i + two128) two127); [lia|]. destruct (Z.leb_spec i (- two127)); [lia|].
      destruct (Z.ltb_spec i two127); lia.
    + destruct (Z.ltb_spec (i / 256 + two128) two127); [lia|]. destruct (Z.leb_spec i (- two127)); lia.
  - exists {| Lo := 0; Hi := 0 |}. split; [reflexivity|]. split; [split; cbn; lia|reflexivity].
  - destruct (NewInt128_pos i ltac:(lia)) as [u [E [A V]]]. exists u. split; [exact E|]. split; [exact A|].
    rewrite V. destruct (Z.leb_spec i (- two127)); [lia|]. reflexivity.
Qed.
Lemma NewInt128_panic i : ~ (- two128 < i < two128) -> exists m, NewInt128 i = Panic m.
Proof.
  intros H. unfold NewInt128. destruct (128 <? big_BitLen i) eqn:B; [eauto|]. apply bitlen_128 in B. lia.
Qed.
Lemma NewInt128FromString_ok s u :
  NewInt128FromString s = Ok u <->
  exists i, int_text s i /\ - two128 < i < two128 /\ u128_ok u /\ i128_value u = int128_result i.
Proof.
  unfold NewInt128FromString. split.
  - destruct (big_SetString s) as [i|] eqn:E; [|discriminate]. apply big_SetString_ok in E.
    destruct (128 <? big_BitLen i) eqn:B; [discriminate|].
    apply bitlen_128 in B. intros H1. destruct (NewInt128_ok i B) as [v [E2 [K V]]].
    rewrite H1 in E2. injection E2 as <-. exists i. repeat split; auto; try lia; apply K.
  - intros (i & T & R & K & V). apply big_SetString_ok in T. rewrite T.
    assert (B : (128 <? big_BitLen i) = false) by (apply bitlen_128; lia). rewrite B.
    destruct (NewInt128_ok i R) as [v [E2 [K2 V2]]]. rewrite E2. f_equal. apply i128_value_inj; auto. congruence.
Qed.
Lemma NewInt128FromString_nopanic s m : NewInt128FromString s <> Panic m.
Proof.
  unfold NewInt128FromString. destruct (big_SetString s) as [i|]; [|discriminate].
  destruct (128 <? big_BitLen i) eqn:B; [discriminate|].
  apply bitlen_128 in B. destruct (NewInt128_ok i B) as [u [-> _]]. discriminate.
Qed.

(** ** JSON integers *)
Definition quoted (s : list byte) : list byte := [x22] ++ s ++ [x22].
Lemma unquote s : (1 < zlen s /\ nth 0 s x00 = x22 /\ nth (length s - 1) s x00 = x22) <->
  exists t, s = quoted t.
Proof.
  split.
  - intros [L [H0 H1]]. destruct s as [|c s]; [cbn in L; lia|]. cbn [nth] in H0. subst c.
    destruct s as [|c s] using rev_ind; [cbn in L; lia|]. exists s. unfold quoted. cbn [app]. f_equal. f_equal.
    f_equal. cbn [length] in H1. rewrite app_length in H1. cbn [length] in H1.
    replace (S (length s + 1) - 1)%nat with (S (length s)) in H1 by lia. cbn [nth] in H1.
    rewrite app_nth2, Nat.sub_diag in H1 by lia. exact H1.
  - intros [t ->]. unfold quoted. cbn [app]. split; [rewrite zlen_cons; unfold zlen; rewrite app_length; cbn [length]; lia|].
    split; [reflexivity|]. cbn [length]. rewrite app_length. cbn [length].
    replace (S (length t + 1) - 1)%nat with (S (length t)) by lia. cbn [nth]. rewrite app_nth2, Nat.sub_diag by lia. reflexivity.
Qed.
Lemma readUintJSON_quoted t : readUintJSON (quoted t) = ParseUint t 64.
Proof.
  unfold readUintJSON. destruct (proj2 (unquote (quoted t)) (ex_intro _ t eq_refl)) as [L [H0 H1]].
  rewrite H0, H1. destruct (Z.ltb_spec 1 (zlen (quoted t))); [|lia].
  change (Byte.eqb x22 x22) with true. cbn [andb]. cbv zeta. f_equal. unfold quoted. cbn [app skipn length].
  rewrite app_length. cbn [length]. replace (S (length t + 1) - 2)%nat with (length t) by lia.
  rewrite firstn_app, Nat.sub_diag, firstn_all. cbn [firstn]. apply app_nil_r.
Qed.
Lemma readUintJSON_plain s : ~ (exists t, s = quoted t) -> readUintJSON s = ParseUint s 64.
Proof.
  intros H. unfold readUintJSON. rewrite <- unquote in H.
  destruct (Z.ltb_spec 1 (zlen s)); [|reflexivity].
  destruct (Byte.eqb (nth 0 s x00) x22) eqn:E0; [|reflexivity].
  destruct (Byte.eqb (nth (length s - 1) s x00) x22) eqn:E1; [|reflexivity].
  apply Byte.byte_dec_bl in E0, E1. tauto.
Qed.
Lemma digits_not_quoted t s : digits s -> s <> quoted t.
Proof. intros D ->. inversion D as [|? ? X]. unfold digit in X. cbn in X. lia. Qed.
Lemma quoted_inj s t : quoted s = quoted t -> s = t.
Proof. unfold quoted. intros H. injection H as H. now apply app_inv_tail in H. Qed.
Definition quoted_dec s : {t | s = quoted t} + {~ exists t, s = quoted t}.
Proof.
  destruct (Z_lt_dec 1 (zlen s)) as [L|L].
  - destruct (Byte.byte_eq_dec (nth 0 s x00) x22) as [E0|E0].
    + destruct (Byte.byte_eq_dec (nth (length s - 1) s x00) x22) as [E1|E1].
      * left. exists (firstn (length s - 2) (skipn 1 s)). destruct (proj1 (unquote s) (conj L (conj E0 E1))) as [t ->].
        f_equal. unfold quoted. cbn [app skipn length]. rewrite app_length. cbn [length].
        replace (S (length t + 1) - 2)%nat with (length t) by lia.
        rewrite firstn_app, Nat.sub_diag, firstn_all. cbn [firstn]. symmetry. apply app_nil_r.
      * right. intros H. apply unquote in H. tauto.
    + right. intros H. apply unquote in H. tauto.
  - right. intros H. apply unquote in H. tauto.
Qed.
Lemma readUintJSON_ok s v : readUintJSON s = (v, None) <->
  exists ds, (s = ds \/ s = quoted ds) /\ ds <> [] /\ digits ds /\ v = dec_val ds /\ v < 2 ^ 64.
Proof.
  destruct (quoted_dec s) as [[t ->]|Q].
  - rewrite readUintJSON_quoted, ParseUint_ok by lia. split.
    + intros H. exists t. split; [auto|exact H].
    + intros (ds & [E|E] & N & D & K).
      * symmetry in E. now apply digits_not_quoted in E.
      * apply quoted_inj in E. subst. auto.
  - rewrite readUintJSON_plain, ParseUint_ok by (auto; lia). split.
    + intros H. exists s. auto.
    + intros (ds & [->|E] & K); [exact K|]. elim Q. eauto.
Qed.
Lemma readUintJSON_write v : 0 <= v < two64 -> readUintJSON (writeUintJSON v) = (v, None).
Proof.
  intros H. apply readUintJSON_ok. exists (FormatUint v). unfold writeUintJSON.
  split; [destruct (4294967295 <? v); auto|].
  split; [apply FormatUint_ne; lia|]. split; [apply FormatUint_digits; lia|].
  rewrite FormatUint_val by lia. auto. change (2 ^ 64) with two64. lia.
Qed.

(** ** BlockNum.String *)
Lemma numeral_length n s d : 1 <= d -> numeral n s -> n < 10 ^ d -> zlen s <= d.
Proof.
  intros Hd N H. destruct (numeral_lower _ _ N) as [[_ ->]|L]; [cbn; lia|].
  destruct (Z.le_gt_cases (zlen s) d) as [|G]; [assumption|].
  assert (10 ^ d <= 10 ^ (zlen s - 1)) by (apply Z.pow_le_mono_r; lia). lia.
Qed.
Lemma dec_zeros k s : dec_val (repeat x30 k ++ s) = dec_val s.
Proof.
  induction k as [|k IH]; [reflexivity|]. cbn [repeat app]. rewrite dec_val_cons, IH. change (zb x30) with 48. lia.
Qed.
Lemma BlockNum_String_ok n : 0 <= n < two32 ->
  digits (BlockNum_String n) /\ length (BlockNum_String n) = 10%nat /\ dec_val (BlockNum_String n) = n.
Proof.
  intros H. unfold BlockNum_String. pose proof (FormatUint_numeral n ltac:(lia)) as N.
  pose proof (numeral_length n _ 10 ltac:(lia) N) as L. change (10 ^ 10) with 10000000000 in L. specialize (L ltac:(lia)).
  split; [|split].
  - apply Forall_app. split; [|apply FormatUint_digits; lia].
    apply Forall_forall. intros c Hc. apply repeat_spec in Hc. subst. unfold digit. cbn. lia.
  - unfold zlen in L. rewrite app_length, repeat_length. lia.
  - rewrite dec_zeros. apply FormatUint_val. lia.
Qed.

From Verif Require Import SpecName.
Lemma digits_order s : forall t, length s = length t -> digits s -> digits t ->
  (str_lt s t <-> dec_val s < dec_val t).
Proof.
  induction s as [|c s IH]; intros [|d t] L Hs Ht; try discriminate L; [cbn; lia|].
  injection L as L. inversion Hs as [|? ? Hc Hs']; inversion Ht as [|? ? Hd Ht']; subst.
  cbn [str_lt]. rewrite !dec_val_cons. unfold zlen. rewrite L.
  pose proof (dec_val_bound s Hs') as Bs. pose proof (dec_val_bound t Ht') as Bt.
  unfold zlen in Bs, Bt. rewrite L in Bs. set (P := 10 ^ Z.of_nat (length t)) in *.
  specialize (IH t L Hs' Ht'). unfold digit in *.
  destruct (Z.lt_trichotomy (zb c) (zb d)) as [H|[H|H]].
  - split; [intros _; nia|auto].
  - assert (c = d) by (rewrite <- (bz_zb c), <- (bz_zb d); now f_equal). subst d.
    split; [intros [X|[_ X]]; [lia|apply IH in X; lia]|]. intros X. right. split; [reflexivity|]. apply IH. lia.
  - split; [intros [X|[-> _]]; [lia|lia]|]. nia.
Qed.
