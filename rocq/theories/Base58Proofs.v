(** Proofs about Base58. *)
From Verif Require Import Base BaseProofs GoStd GoStdProofs Numbers SpecNumbers NumbersProofs SpecHex HexProofs Base58 SpecBase58.
Ltac Zify.zify_post_hook ::= Z.div_mod_to_equations.

(** ** The tables *)
Lemma at_none {A} (l : list A) i : zlen l <= i -> at_ l i = None.
Proof. intros H. unfold at_. pose proof (zlen_nonneg l). destruct (Z.ltb_spec i 0); [lia|]. apply nth_error_None. unfold zlen in H. lia. Qed.
Lemma b58_digit c : at_ b58 (zb c) = Some (match base58_digit c with Some d => d | None => 255 end).
Proof. destruct c; reflexivity. Qed.
Lemma b58_high v : 128 <= v < 256 -> at_ b58 v = Some 255.
Proof.
  intros H. assert (zb (bz v) = v) as E by (rewrite zb_bz; lia). rewrite <- E, b58_digit.
  destruct (base58_digit (bz v)) as [d|] eqn:D; [|reflexivity]. exfalso. revert D. unfold base58_digit. rewrite E.
  repeat match goal with |- context [?a <=? ?b] => destruct (Z.leb_spec a b); cbn [andb]; try lia; try discriminate end.
Qed.
Lemma b58_out v : 256 <= v -> at_ b58 v = None.
Proof. intros H. apply at_none. exact H. Qed.
Lemma digit58_range c d : base58_digit c = Some d -> 0 <= d < 58.
Proof. destruct c; vm_compute; intros [= <-]; split; congruence. Qed.
Lemma digit58_ascii c d : base58_digit c = Some d -> zb c < 128.
Proof. destruct c; vm_compute; intros [= <-]; congruence. Qed.
Lemma alphabet_digit d : 0 <= d < 58 -> base58_digit (nth (Z.to_nat d) alphabet x00) = Some d.
Proof.
  intros H. assert (In d (map Z.of_nat (seq 0 58))) as I.
  { rewrite <- (Z2Nat.id d) by lia. apply in_map, in_seq. lia. }
  revert I. cbn [seq map]. cbn [In]. intros I.
  repeat (destruct I as [<-|I]; [vm_compute; reflexivity|]). destruct I.
Qed.
Lemma digit58_alphabet c d : base58_digit c = Some d -> c = nth (Z.to_nat d) alphabet x00.
Proof. destruct c; intros H; first [discriminate H|injection H as <-; reflexivity]. Qed.
Lemma digit58_inj c c' d : base58_digit c = Some d -> base58_digit c' = Some d -> c = c'.
Proof. intros H H'. now rewrite (digit58_alphabet _ _ H), (digit58_alphabet _ _ H'). Qed.
Lemma digit58_zero c : base58_digit c = Some 0 <-> c = x31.
Proof. split; [|intros ->; reflexivity]. intros H. now rewrite (digit58_alphabet _ _ H). Qed.
Lemma digits58_range s ds : map base58_digit s = map Some ds -> Forall (fun d => 0 <= d < 58) ds.
Proof.
  revert ds. induction s as [|c s IH]; intros [|d ds] M; try discriminate M; [constructor|].
  cbn [map] in M. injection M as M1 M. apply digit58_range in M1. constructor; auto.
Qed.
Lemma digits58_inj s s' ds : map base58_digit s = map Some ds -> map base58_digit s' = map Some ds -> s = s'.
Proof.
  revert s' ds. induction s as [|c s IH]; intros [|c' s'] [|d ds] M M'; try discriminate; [reflexivity|].
  cbn [map] in M, M'. injection M as M1 M. injection M' as M1' M'. f_equal; eauto using digit58_inj.
Qed.
Lemma base58_string_digits s : base58_string s <-> exists ds, map base58_digit s = map Some ds.
Proof.
  split.
  - induction 1 as [|c s Hc _ [ds IH]]; [exists []; reflexivity|]. destruct (base58_digit c) as [d|] eqn:E; [|congruence].
    exists (d :: ds). cbn [map]. now rewrite E, IH.
  - intros [ds M]. revert ds M. induction s as [|c s IH]; intros [|d ds] M; try discriminate M; constructor.
    + cbn [map] in M. injection M as M _. congruence.
    + cbn [map] in M. injection M as _ M. eapply IH; eauto.
Qed.

(** ** Uniqueness of the numeral *)
Lemma base_lower r d ds : 1 < r -> 0 < d -> Forall (fun d => 0 <= d < r) ds -> r ^ zlen ds <= base_value r (d :: ds).
Proof. intros Hr Hd F. rewrite base_cons. pose proof (base_bound r ds Hr F). nia. Qed.
Lemma base_unique r a b : 1 < r -> Forall (fun d => 0 <= d < r) a -> Forall (fun d => 0 <= d < r) b ->
  (forall t, a <> 0 :: t) -> (forall t, b <> 0 :: t) -> base_value r a = base_value r b -> a = b.
Proof.
  intros Hr Fa Fb Za Zb E.
  assert (LE : forall a b, Forall (fun d => 0 <= d < r) a -> Forall (fun d => 0 <= d < r) b -> (forall t, b <> 0 :: t) ->
    base_value r a = base_value r b -> (length b <= length a)%nat).
  { clear - Hr. intros a b Fa Fb Zb E. destruct b as [|d b]; [cbn; lia|].
    inversion Fb as [|? ? Hd Fb']; subst. assert (d <> 0) by (intros ->; eapply Zb; reflexivity).
    pose proof (base_lower r d b Hr ltac:(lia) Fb') as L. rewrite <- E in L. pose proof (base_bound r a Hr Fa) as U.
    assert (zlen b < zlen a) by (apply (Z.pow_lt_mono_r_iff r); [lia|apply zlen_nonneg|lia]).
    unfold zlen in *. cbn [length]. lia. }
  apply (base_inj r); auto.
  pose proof (LE a b Fa Fb Zb E). pose proof (LE b a Fb Fa Za (eq_sym E)). lia.
Qed.
Lemma be_base b : be_value b = base_value 256 (map zb b).
Proof. induction b as [|c b IH]; [reflexivity|]. rewrite be_cons. cbn [map]. rewrite base_cons. unfold zlen. now rewrite map_length, IH. Qed.
Lemma zbs_range b : Forall (fun d => 0 <= d < 256) (map zb b).
Proof. apply Forall_forall. intros d H. apply in_map_iff in H as (c & <- & _). apply zb_range. Qed.
Lemma zbs_inj a : forall b, map zb a = map zb b -> a = b.
Proof. induction a as [|x a IH]; intros [|y b] E; try discriminate E; [reflexivity|]. cbn [map] in E. injection E as E1 E. f_equal; auto using zb_inj. Qed.
Lemma zbs_zero b : (forall t, b <> x00 :: t) -> forall t, map zb b <> 0 :: t.
Proof. intros H t E. destruct b as [|c b]; [discriminate|]. cbn [map] in E. injection E as E _. apply (H b). f_equal. apply zb_inj. exact E. Qed.
Lemma be_unique a b : (forall t, a <> x00 :: t) -> (forall t, b <> x00 :: t) -> be_value a = be_value b -> a = b.
Proof. intros Ha Hb E. rewrite !be_base in E. apply zbs_inj. apply (base_unique 256); auto using zbs_range, zbs_zero. lia. Qed.

Lemma repeat_split {A} (c : A) k s k' s' : (forall t, s <> c :: t) -> (forall t, s' <> c :: t) ->
  repeat c k ++ s = repeat c k' ++ s' -> k = k' /\ s = s'.
Proof.
  intros H H'. revert k'. induction k as [|k IH]; intros [|k'] E; cbn [repeat app] in E; auto.
  - exfalso. now apply (H (repeat c k' ++ s')).
  - exfalso. now apply (H' (repeat c k ++ s)).
  - injection E as E. destruct (IH k' E). auto.
Qed.
Lemma digits_nonzero s ds : map base58_digit s = map Some ds -> (forall t, s <> x31 :: t) -> forall t, ds <> 0 :: t.
Proof.
  intros M H t ->. destruct s as [|c s]; [discriminate|]. cbn [map] in M. injection M as M _.
  apply digit58_zero in M. subst. now apply (H s).
Qed.
Lemma text_inj s s' b : base58_text s b -> base58_text s' b -> s = s'.
Proof.
  intros (k & t & c & ds & -> & Zt & -> & Zc & M & V) (k' & t' & c' & ds' & -> & Zt' & E & Zc' & M' & V').
  destruct (repeat_split x00 k c k' c' Zc Zc' E) as [<- <-]. f_equal.
  assert (ds = ds'); [|subst; eapply digits58_inj; eauto].
  apply (base_unique 58); eauto using digits58_range, digits_nonzero; [lia|congruence].
Qed.
Lemma text_fun s b b' : base58_text s b -> base58_text s b' -> b = b'.
Proof.
  intros (k & t & c & ds & -> & Zt & -> & Zc & M & V) (k' & t' & c' & ds' & E & Zt' & -> & Zc' & M' & V').
  destruct (repeat_split x31 k t k' t' Zt Zt' E) as [<- <-]. f_equal.
  rewrite M in M'. apply map_some_inj in M'. subst ds'. apply be_unique; auto. congruence.
Qed.

(** ** Leading characters *)
Lemma count_split c s : exists s', s = repeat c (count_leading c s) ++ s' /\ forall t, s' <> c :: t.
Proof.
  induction s as [|d s (s' & E & N)]; [exists []; split; [reflexivity|discriminate]|].
  cbn [count_leading]. destruct (Byte.eqb d c) eqn:Q.
  - apply eqb_eq in Q. subst d. exists s'. split; [cbn [repeat app]; now rewrite <- E|exact N].
  - exists (d :: s). split; [reflexivity|]. intros t [= -> ->]. apply eqb_neq in Q. congruence.
Qed.

(** ** big.Int.Bytes *)
Lemma big_Bytes_spec v : 0 <= v -> be_value (big_Bytes v) = v /\ forall t, big_Bytes v <> x00 :: t.
Proof.
  intros Hv. unfold big_Bytes. set (n := Z.to_nat ((big_BitLen v + 7) / 8)). rewrite Z.abs_eq by lia.
  destruct (Z.eq_dec v 0) as [->|NZ]; [unfold n; cbn; split; [reflexivity|discriminate]|].
  assert (BL : big_BitLen v = Z.log2 v + 1) by (unfold big_BitLen; destruct (Z.eqb_spec v 0); [lia|]; now rewrite Z.abs_eq by lia).
  pose proof (Z.log2_spec v ltac:(lia)) as L. pose proof (Z.log2_nonneg v) as L0.
  assert (U : v < 256 ^ Z.of_nat n).
  { change 256 with (2 ^ 8). rewrite <- Z.pow_mul_r by lia. eapply Z.lt_le_trans; [apply L|]. apply Z.pow_le_mono_r; lia. }
  assert (V : be_value (be_put n v) = v) by (rewrite <- be_get_value; apply be_get_put; lia).
  split; [exact V|]. intros t E. assert (LN : length (be_put n v) = n) by apply be_put_length.
  rewrite E in V, LN. cbn [length] in LN. rewrite be_cons in V. change (zb x00) with 0 in V.
  pose proof (be_bound t) as B. assert (2 ^ Z.log2 v < 2 ^ (8 * zlen t)).
  { rewrite Z.pow_mul_r by (try lia; apply zlen_nonneg). change (2 ^ 8) with 256. lia. }
  apply Z.pow_lt_mono_r_iff in H; [|lia|pose proof (zlen_nonneg t); lia]. unfold zlen in H. lia.
Qed.

(** ** Decode on alphabet strings *)
Lemma chunk_digits s ds : forall i tot rest, map base58_digit s = map Some ds ->
  0 <= tot -> (tot + 1) * 58 ^ zlen ds <= two64 ->
  Decode_chunk (runes i (s ++ rest)) tot =
  Decode_chunk (runes (i + zlen s) rest) (tot * 58 ^ zlen ds + base_value 58 ds).
Proof.
  revert ds. induction s as [|c s IH]; intros [|d ds] i tot rest M H0 H1; try discriminate M.
  - cbn [app]. change (zlen (@nil byte)) with 0. change (zlen (@nil Z)) with 0. change (base_value 58 []) with 0. rewrite !Z.add_0_r, Z.mul_1_r. reflexivity.
  - cbn [map] in M. injection M as Mc M. pose proof (digit58_range _ _ Mc) as R.
    cbn [app]. rewrite runes_ascii by eauto using digit58_ascii. cbn [Decode_chunk]. rewrite b58_digit, Mc.
    destruct (Z.eqb_spec d 255); [lia|].
    rewrite zlen_cons in H1. rewrite Z.pow_add_r in H1 by (try lia; apply zlen_nonneg). change (58 ^ 1) with 58 in H1.
    assert (P : 1 <= 58 ^ zlen ds) by (pose proof (Z.pow_pos_nonneg 58 (zlen ds) ltac:(lia) (zlen_nonneg ds)); lia).
    rewrite (u64_small (tot * 58)) by nia. rewrite u64_small by nia.
    rewrite (IH ds) by (auto; nia). rewrite base_cons, !zlen_cons, Z.pow_add_r by (try lia; apply zlen_nonneg). change (58 ^ 1) with 58.
    f_equal; [f_equal; lia|ring].
Qed.
Lemma radix_nth n : (1 <= n <= 10)%nat -> nth n bigRadix 0 = 58 ^ Z.of_nat n.
Proof. intros H. do 11 (destruct n as [|n]; [try lia; reflexivity|]). lia. Qed.
Lemma pow58_10 n : (n <= 10)%nat -> 58 ^ Z.of_nat n <= two64.
Proof. intros H. transitivity (58 ^ 10); [apply Z.pow_le_mono_r; lia|]. vm_compute. discriminate. Qed.

(** [p] alphabet characters are consumed, whatever comes behind. *)
Lemma map_firstn_some {A} (f : A -> option Z) n t ds : map f t = map Some ds -> map f (firstn n t) = map Some (firstn n ds).
Proof. intros M. rewrite <- !firstn_map. now rewrite M. Qed.
Lemma map_skipn_some {A} (f : A -> option Z) n t ds : map f t = map Some ds -> map f (skipn n t) = map Some (skipn n ds).
Proof. intros M. rewrite <- !skipn_map. now rewrite M. Qed.

Lemma loop_digits fuel : forall t ds answer, map base58_digit t = map Some ds -> (length t <= fuel)%nat ->
  Decode_loop fuel t answer = Ok (Some (answer * 58 ^ zlen ds + base_value 58 ds)).
Proof.
  induction fuel as [|fuel IH]; intros t ds answer M L.
  { destruct t; [|cbn [length] in L; lia]. destruct ds; [|discriminate M]. cbn. do 2 f_equal. lia. }
  cbn [Decode_loop]. destruct t as [|c t]; [destruct ds; [|discriminate M]; cbn; do 2 f_equal; lia|].
  set (T := c :: t) in *. set (n := if (10 <? length T)%nat then 10%nat else length T).
  assert (Hn : (1 <= n <= 10 /\ n <= length T)%nat).
  { unfold n. destruct (Nat.ltb_spec 10 (length T)); [lia|]. unfold T in *. cbn [length] in *. lia. }
  clearbody n. pose proof (map_some_len _ _ _ M) as LD.
  pose proof (map_firstn_some base58_digit n T ds M) as MF. pose proof (map_skipn_some base58_digit n T ds M) as MS.
  assert (ZF : zlen (firstn n ds) = Z.of_nat n) by (unfold zlen; rewrite firstn_length_le; lia).
  rewrite <- (app_nil_r (firstn n T)). rewrite (chunk_digits _ _ 0 0 [] MF) by (try lia; rewrite ZF; pose proof (pow58_10 n); lia).
  cbn [runes Decode_chunk rbind]. rewrite (IH (skipn n T) (skipn n ds)); auto.
  2: { rewrite skipn_length. unfold T in *. cbn [length] in *. lia. }
  do 2 f_equal. rewrite radix_nth by lia.
  assert (Q1 : 58 ^ zlen ds = 58 ^ Z.of_nat n * 58 ^ zlen (skipn n ds)).
  { rewrite <- (firstn_skipn n ds) at 1. rewrite zlen_app, Z.pow_add_r, ZF by apply zlen_nonneg. reflexivity. }
  assert (Q2 : base_value 58 ds = base_value 58 (firstn n ds) * 58 ^ zlen (skipn n ds) + base_value 58 (skipn n ds)).
  { rewrite <- (firstn_skipn n ds) at 1. apply base_app. }
  rewrite Q1, Q2. ring.
Qed.
Lemma Decode_digits s ds : map base58_digit s = map Some ds ->
  exists b, Decode s = Ok b /\ base58_text s b.
Proof.
  intros M. unfold Decode. rewrite (loop_digits _ _ _ _ M) by lia. cbn [rbind].
  rewrite Z.mul_0_l, Z.add_0_l. eexists. split; [reflexivity|].
  destruct (count_split alphabetIdx0 s) as (s' & E & N). set (k := count_leading alphabetIdx0 s) in *.
  pose proof (base_bound 58 ds ltac:(lia) (digits58_range _ _ M)) as B.
  destruct (big_Bytes_spec (base_value 58 ds) ltac:(lia)) as [V Z].
  assert (Q : map base58_digit s' = map Some (skipn k ds) /\ base_value 58 (skipn k ds) = base_value 58 ds).
  { rewrite E in M. clear - M. revert ds M. induction k as [|k IH]; intros ds M; [auto|].
    destruct ds as [|d ds]; [discriminate M|]. cbn [repeat app map] in M. injection M as M1 M.
    destruct (IH ds M) as [A V]. cbn [skipn]. split; [exact A|]. rewrite base_cons, V.
    assert (d = 0) as -> by (revert M1; clear; cbv; congruence). lia. }
  destruct Q as [Q1 Q2]. exists k, s', (big_Bytes (base_value 58 ds)), (skipn k ds).
  repeat split; auto. congruence.
Qed.

(** ** Encode *)
(** [ds] least significant first *)
Fixpoint lval (ds : list Z) : Z := match ds with [] => 0 | d :: ds => d + 58 * lval ds end.
Lemma lval_app a b : lval (a ++ b) = lval a + 58 ^ zlen a * lval b.
Proof.
  induction a as [|d a IH]; [change (zlen (@nil Z)) with 0; cbn [app lval]; lia|]. cbn [app lval]. rewrite IH, zlen_cons, Z.pow_add_r by (try lia; apply zlen_nonneg). change (58 ^ 1) with 58. ring.
Qed.
Lemma lval_rev ds : base_value 58 (rev ds) = lval ds.
Proof.
  induction ds as [|d ds IH]; [reflexivity|]. cbn [rev lval]. rewrite base_app, IH, base_cons, base_nil. change (zlen [d]) with 1. change (zlen (@nil Z)) with 0. lia.
Qed.
Lemma ten_digits_spec i : forall m, 0 <= m < 58 ^ Z.of_nat i ->
  exists ds, map base58_digit (ten_digits i m) = map Some ds /\ lval ds = m /\ length ds = i.
Proof.
  induction i as [|i IH]; intros m H; [exists []; cbn in *; repeat split; lia|].
  cbn [ten_digits]. rewrite Nat2Z.inj_succ, Z.pow_succ_r in H by lia.
  destruct (IH (m / 58)) as (ds & M & V & L). { split; [lia|]. apply Z.div_lt_upper_bound; lia. }
  exists (m mod 58 :: ds). cbn [map lval length]. rewrite alphabet_digit by lia. rewrite M, V, L. repeat split; lia.
Qed.
Lemma last_digits_spec i : forall m, 0 <= m < 58 ^ Z.of_nat i ->
  exists ds, map base58_digit (last_digits i m) = map Some ds /\ lval ds = m /\ (forall t, rev ds <> 0 :: t).
Proof.
  induction i as [|i IH]; intros m H; [exists []; cbn in *; repeat split; [lia|discriminate]|].
  cbn [last_digits]. rewrite Nat2Z.inj_succ, Z.pow_succ_r in H by lia.
  destruct (Z.ltb_spec 0 m); [|exists []; cbn; repeat split; [lia|discriminate]].
  destruct (IH (m / 58)) as (ds & M & V & N). { split; [lia|]. apply Z.div_lt_upper_bound; lia. }
  exists (m mod 58 :: ds). cbn [map lval rev]. rewrite alphabet_digit by lia. rewrite M, V. repeat split; [lia|].
  intros t E. destruct (rev ds) as [|x r] eqn:R.
  - cbn [app] in E. injection E as E _. apply (f_equal (@rev _)) in R. rewrite rev_involutive in R. subst ds.
    cbn [lval rev] in V. lia.
  - cbn [app] in E. injection E as -> _. now apply (N r).
Qed.
Lemma radix10 : bigRadix10 = 58 ^ 10. Proof. reflexivity. Qed.
Lemma Encode_loop_spec fuel : forall x, 0 <= x < 2 ^ Z.of_nat fuel ->
  exists ds, map base58_digit (Encode_loop fuel x) = map Some ds /\ lval ds = x /\ (forall t, rev ds <> 0 :: t).
Proof.
  induction fuel as [|fuel IH]; intros x H; [exists []; cbn in *; repeat split; [lia|discriminate]|].
  cbn [Encode_loop]. destruct (Z.ltb_spec 0 x); [|exists []; cbn; repeat split; [lia|discriminate]].
  rewrite Nat2Z.inj_succ, Z.pow_succ_r in H by lia.
  assert (Hm : 0 <= x mod bigRadix10 < 58 ^ Z.of_nat 10) by (change (58 ^ Z.of_nat 10) with bigRadix10; apply Z.mod_pos_bound; reflexivity).
  assert (Hx : 0 <= x / bigRadix10 < 2 ^ Z.of_nat fuel).
  { split; [apply Z.div_pos; [lia|reflexivity]|]. apply Z.div_lt_upper_bound; [reflexivity|]. 
    change bigRadix10 with 430804206899405824. lia. }
  destruct (IH _ Hx) as (ds & M & V & N). cbv zeta.
  pose proof (Z.div_mod x bigRadix10 ltac:(discriminate)) as DM.
  destruct (Z.eqb_spec (x / bigRadix10) 0) as [E|E].
  - destruct (last_digits_spec 10 _ Hm) as (dl & Ml & Vl & Nl). exists dl. split; [|split; [lia|exact Nl]].
    rewrite E. rewrite map_app, Ml. destruct fuel; cbn [Encode_loop]; [|change (0 <? 0) with false; cbv iota]; cbn [map]; apply app_nil_r.
  - destruct (ten_digits_spec 10 _ Hm) as (dl & Ml & Vl & Ll). exists (dl ++ ds). split; [|split].
    + now rewrite !map_app, Ml, M.
    + rewrite lval_app, Vl, V. replace (zlen dl) with 10 by (unfold zlen; now rewrite Ll). rewrite <- radix10. lia.
    + intros t Q. rewrite rev_app_distr in Q. destruct (rev ds) as [|d r] eqn:R.
      * apply (f_equal (@rev _)) in R. rewrite rev_involutive in R. subst ds. cbn [rev lval] in V. lia.
      * cbn [app] in Q. injection Q as -> _. now apply (N r).
Qed.
Lemma Encode_text b : base58_text (Encode b) b.
Proof.
  unfold Encode. set (x := big_SetBytes b). assert (X : x = be_value b) by (unfold x, big_SetBytes; apply be_get_value).
  pose proof (be_bound b) as B. rewrite <- X in B.
  destruct (Encode_loop_spec (Z.to_nat (big_BitLen x)) x) as (ds & M & V & N).
  { split; [lia|]. unfold big_BitLen. destruct (Z.eqb_spec x 0) as [->|E]; [cbn; lia|]. rewrite Z.abs_eq by lia.
    pose proof (Z.log2_nonneg x). rewrite Z2Nat.id by lia. apply Z.log2_spec. lia. }
  rewrite rev_app_distr. destruct (count_split x00 b) as (b' & E & NZ). set (k := count_leading x00 b) in *.
  assert (R : rev (repeat alphabetIdx0 k) = repeat x31 k).
  { clear. induction k as [|k IH]; [reflexivity|]. cbn [repeat rev]. rewrite IH. clear. induction k as [|k IH]; [reflexivity|].
    cbn [repeat app]. now rewrite IH. }
  rewrite R. exists k, (rev (Encode_loop (Z.to_nat (big_BitLen x)) x)), b', (rev ds).
  assert (MR : map base58_digit (rev (Encode_loop (Z.to_nat (big_BitLen x)) x)) = map Some (rev ds)) by (rewrite !map_rev; now rewrite M).
  repeat split; auto.
  - intros t Q. rewrite Q in MR. destruct (rev ds) as [|d r]; [discriminate|]. cbn [map] in MR. injection MR as MR _.
    assert (d = 0) as -> by (revert MR; clear; cbv; congruence). now apply (N r).
  - rewrite lval_rev, V, X, E. clear. induction k as [|k IH]; [reflexivity|]. cbn [repeat app]. rewrite be_cons, IH. change (zb x00) with 0. lia.
Qed.
Lemma Encode_string b : base58_string (Encode b).
Proof.
  destruct (Encode_text b) as (k & s' & b' & ds & -> & _ & _ & _ & M & _). apply Forall_app. split.
  - apply Forall_forall. intros c H. apply repeat_spec in H. subst. discriminate.
  - apply base58_string_digits. eauto.
Qed.
Lemma Decode_Encode b : Decode (Encode b) = Ok b.
Proof.
  destruct (proj1 (base58_string_digits _) (Encode_string b)) as [ds M]. destruct (Decode_digits _ _ M) as (b' & E & T).
  rewrite E. f_equal. eapply text_fun; eauto using Encode_text.
Qed.
Lemma Encode_Decode s : base58_string s -> exists b, Decode s = Ok b /\ Encode b = s /\ base58_text s b.
Proof.
  intros H. apply base58_string_digits in H as [ds M]. destruct (Decode_digits _ _ M) as (b & E & T).
  exists b. split; [exact E|]. split; [|exact T]. eapply text_inj; eauto using Encode_text.
Qed.

(** ** Foreign strings *)
Lemma first_rune i c r : base58_digit c = None ->
  exists v rest, runes i (c :: r) = (i, v) :: rest /\
    ((zb c < 128 /\ v = zb c)
     \/ ((zb c = 194 \/ zb c = 195) /\ (exists d r', r = d :: r' /\ 128 <= zb d <= 191) /\ 128 <= v < 256)
     \/ (128 <= zb c /\ ~ ((zb c = 194 \/ zb c = 195) /\ exists d r', r = d :: r' /\ 128 <= zb d <= 191) /\ 256 <= v)).
Proof.
  intros D. cbn [runes]. pose proof (zb_range c) as RC. destruct (Z.ltb_spec (zb c) 128); [do 2 eexists; split; [reflexivity|auto]|].
  assert (B : ~ ((zb c = 194 \/ zb c = 195) /\ exists d r', r = d :: r' /\ 128 <= zb d <= 191) ->
    exists v rest, (i, RuneError) :: runes (i + 1) r = (i, v) :: rest /\
    ((zb c < 128 /\ v = zb c) \/ ((zb c = 194 \/ zb c = 195) /\ (exists d r', r = d :: r' /\ 128 <= zb d <= 191) /\ 128 <= v < 256)
     \/ (128 <= zb c /\ ~ ((zb c = 194 \/ zb c = 195) /\ exists d r', r = d :: r' /\ 128 <= zb d <= 191) /\ 256 <= v))).
  { intros N. do 2 eexists. split; [reflexivity|]. right. right. unfold RuneError. repeat split; auto; lia. }
  destruct (inr 194 223 c) eqn:E1.
  { unfold inr in E1. destruct r as [|d r]. { apply B. intros (_ & d & r' & Q & _). discriminate. }
    destruct (cont d) eqn:E2; unfold cont in E2.
    - do 2 eexists. split; [reflexivity|]. right. destruct (Z.leb_spec (zb c) 195).
      + left. repeat split; [lia| |lia|lia]. exists d, r. split; [reflexivity|lia].
      + right. repeat split; [lia| |lia]. intros [Q _]. lia.
    - apply B. intros (_ & d' & r' & Q & K). injection Q as -> ->. lia. }
  assert (N1 : ~ ((zb c = 194 \/ zb c = 195) /\ exists d r', r = d :: r' /\ 128 <= zb d <= 191)).
  { intros [Q _]. unfold inr in E1. lia. }
  specialize (B N1).
  destruct (inr 224 239 c) eqn:E2.
  { destruct r as [|d [|e r]]; [exact B|exact B|]. cbv zeta.
    destruct (inr _ _ d && cont e) eqn:E3; [|exact B]. do 2 eexists. split; [reflexivity|]. right. right. repeat split; auto.
    unfold inr, cont in *. destruct (Z.eqb_spec (zb c) 224), (Z.eqb_spec (zb c) 237); lia. }
  destruct (inr 240 244 c) eqn:E3; [|exact B].
  destruct r as [|d [|e [|f r]]]; [exact B|exact B|exact B|]. cbv zeta.
  destruct (inr _ _ d && cont e && cont f) eqn:E4; [|exact B]. do 2 eexists. split; [reflexivity|]. right. right. repeat split; auto.
  unfold inr, cont in *. destruct (Z.eqb_spec (zb c) 240), (Z.eqb_spec (zb c) 244); lia.
Qed.

(** The foreign character at offset |p| falls into the chunk that starts at the
    last multiple of ten. *)
Lemma loop_foreign fuel : forall p c r answer, base58_string p -> base58_digit c = None -> (length (p ++ c :: r) <= fuel)%nat ->
  let visible := firstn (9 - length p mod 10) r in
  let soft := zb c < 128 \/ ((zb c = 194 \/ zb c = 195) /\ exists d r', visible = d :: r' /\ 128 <= zb d <= 191) in
  (soft -> Decode_loop fuel (p ++ c :: r) answer = Ok None)
  /\ (~ soft -> exists m, Decode_loop fuel (p ++ c :: r) answer = Panic m).
Proof.
  induction fuel as [|fuel IH]; intros p c r answer HP D L; [rewrite app_length in L; cbn [length] in L; lia|].
  cbv zeta. cbn [Decode_loop]. remember (p ++ c :: r) as T eqn:ET. destruct T as [|t0 T0]; [destruct p; discriminate|]. rewrite ET in *. clear ET t0 T0.
  assert (LT : length (p ++ c :: r) = (length p + S (length r))%nat) by (rewrite app_length; reflexivity).
  set (n := if (10 <? length (p ++ c :: r))%nat then 10%nat else length (p ++ c :: r)).
  destruct (Nat.le_gt_cases 10 (length p)) as [G|G].
  - assert (n = 10%nat) as -> by (unfold n; destruct (Nat.ltb_spec 10 (length (p ++ c :: r))); lia).
    assert (F : firstn 10 (p ++ c :: r) = firstn 10 p) by (rewrite firstn_app; replace (10 - length p)%nat with 0%nat by lia; apply app_nil_r).
    assert (S : skipn 10 (p ++ c :: r) = skipn 10 p ++ c :: r) by (rewrite skipn_app; replace (10 - length p)%nat with 0%nat by lia; reflexivity).
    rewrite F, S. destruct (proj1 (base58_string_digits p) HP) as [ds M].
    pose proof (map_firstn_some _ 10 _ _ M) as MF. pose proof (map_some_len _ _ _ M).
    assert (ZF : zlen (firstn 10 ds) = 10) by (unfold zlen; rewrite firstn_length_le; lia).
    rewrite <- (app_nil_r (firstn 10 p)). rewrite (chunk_digits _ _ 0 0 [] MF) by (try lia; rewrite ZF; vm_compute; congruence).
    cbn [runes Decode_chunk rbind].
    assert (HS : base58_string (skipn 10 p)).
    { apply base58_string_digits. exists (skipn 10 ds). now apply map_skipn_some. }
    specialize (IH (skipn 10 p) c r (answer * nth 10 bigRadix 0 + (0 * 58 ^ zlen (firstn 10 ds) + base_value 58 (firstn 10 ds))) HS D).
    cbv zeta in IH. rewrite skipn_length in IH.
    replace (length p mod 10)%nat with ((length p - 10) mod 10)%nat.
    2: { replace (length p) with ((length p - 10) + 1 * 10)%nat at 2 by lia. now rewrite Nat.mod_add by lia. }
    apply IH. rewrite <- S, skipn_length, LT. rewrite LT in L. lia.
  - rewrite Nat.mod_small by lia.
    assert (F : firstn n (p ++ c :: r) = p ++ c :: firstn (9 - length p) r).
    { rewrite firstn_app, (firstn_all2 p) by (unfold n; destruct (Nat.ltb_spec 10 (length (p ++ c :: r))); lia). f_equal.
      unfold n. destruct (Nat.ltb_spec 10 (length (p ++ c :: r))).
      - replace (10 - length p)%nat with (S (9 - length p)) by lia. reflexivity.
      - rewrite LT. replace (length p + S (length r) - length p)%nat with (S (length r)) by lia. cbn [firstn]. f_equal.
        rewrite firstn_all. symmetry. apply firstn_all2. lia. }
    rewrite F. destruct (proj1 (base58_string_digits p) HP) as [ds M]. pose proof (map_some_len _ _ _ M) as LD.
    rewrite (chunk_digits _ _ 0 0 _ M).
    2: lia. 2: { unfold zlen. pose proof (pow58_10 (length ds)). lia. }
    destruct (first_rune (0 + zlen p) c (firstn (9 - length p) r) D) as (v & rest & -> & K).
    cbn [Decode_chunk]. destruct K as [[K1 ->]|[[K1 [K2 K3]]|[K1 [K2 K3]]]].
    + rewrite b58_digit, D. cbn [rbind Z.eqb Pos.eqb]. split; [reflexivity|]. intros N. exfalso. apply N. now left.
    + rewrite b58_high by lia. cbn [rbind Z.eqb Pos.eqb]. split; [reflexivity|]. intros N. exfalso. apply N. right. auto.
    + rewrite b58_out by lia. cbn [rbind]. split; [|eauto]. intros [Q|Q]; [lia|contradiction].
Qed.
Lemma Decode_foreign p c r : base58_string p -> base58_digit c = None ->
  let visible := firstn (9 - length p mod 10) r in
  let soft := zb c < 128 \/ ((zb c = 194 \/ zb c = 195) /\ exists d r', visible = d :: r' /\ 128 <= zb d <= 191) in
  (soft -> Decode (p ++ c :: r) = Ok []) /\ (~ soft -> exists m, Decode (p ++ c :: r) = Panic m).
Proof.
  intros HP D. destruct (loop_foreign (length (p ++ c :: r)) p c r 0 HP D (le_n _)) as [A B].
  split; intros S; unfold Decode.
  - rewrite A by exact S. reflexivity.
  - destruct (B S) as [m ->]. cbn [rbind]. eauto.
Qed.
Lemma split_foreign s : base58_string s \/ exists p c r, s = p ++ c :: r /\ base58_string p /\ base58_digit c = None.
Proof.
  induction s as [|c s IH]; [left; constructor|]. destruct (base58_digit c) as [d|] eqn:E.
  - destruct IH as [IH|(p & e & r & -> & HP & N)].
    + left. constructor; [congruence|exact IH].
    + right. exists (c :: p), e, r. split; [reflexivity|]. split; [constructor; [congruence|exact HP]|exact N].
  - right. exists [], c, s. split; [reflexivity|]. split; [constructor|exact E].
Qed.
