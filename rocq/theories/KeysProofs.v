(** Proofs about check-encoding and key texts. *)
From Verif Require Import Base BaseProofs GoStd Numbers SpecNumbers NumbersProofs SpecHex HexProofs.
From Verif Require Import Base58 SpecBase58 Base58Proofs Ripemd SpecRipemd RipemdProofs PropRipemd Chain Keys SpecKeys.

Lemma checksumEosio_eq p s : checksumEosio p s = Ok (firstn 4 (ripemd160 (p ++ s))).
Proof.
  unfold checksumEosio. pose proof (fed_Write New [] p fed_New) as [F _]. cbn [app] in F.
  destruct s as [|c s].
  - rewrite (fed_Sum _ _ [] F). cbn [rbind app]. now rewrite app_nil_r.
  - pose proof (fed_Write _ _ (c :: s) F) as [F2 _]. rewrite (fed_Sum _ _ [] F2). reflexivity.
Qed.
Lemma CheckEncodeEosio_text p s : exists t, CheckEncodeEosio p s = Ok t /\ check_text_eosio t p s.
Proof. unfold CheckEncodeEosio. rewrite checksumEosio_eq. cbn [rbind]. eexists. split; [reflexivity|apply Encode_text]. Qed.
Lemma CheckEncode_text sha p : check_text sha (CheckEncode sha p) p.
Proof. apply Encode_text. Qed.
Lemma rmd4 m : length (firstn 4 (ripemd160 m)) = 4%nat.
Proof. rewrite firstn_length_le; [reflexivity|]. rewrite C34_size. lia. Qed.

Lemma Decode_ok_text s b : Decode s = Ok b -> b <> [] -> base58_text s b.
Proof.
  intros E N. destruct (split_foreign s) as [H|(p & c & r & -> & HP & D)].
  - destruct (Encode_Decode s H) as (b' & E' & _ & T). congruence.
  - destruct (Decode_foreign p c r HP D) as [A B]. cbv zeta in A, B.
    assert (Dec : forall P : Prop, (P \/ ~ P) -> (P -> Decode (p ++ c :: r) = Ok []) -> (~ P -> exists m, Decode (p ++ c :: r) = Panic m) -> False).
    { intros P [HPP|HPP] X Y; [rewrite X in E by exact HPP; congruence|]. destruct (Y HPP) as [m M]. congruence. }
    exfalso. eapply Dec; [|exact A|exact B].
    destruct (Z.lt_decidable (zb c) 128) as [G|G]; [left; now left|].
    destruct (Z.eq_dec (zb c) 194) as [E1|E1], (Z.eq_dec (zb c) 195) as [E2|E2];
    (destruct (firstn (9 - length p mod 10) r) as [|d r'] eqn:Q; [right; intros [K|[_ (d & r' & K & _)]]; [lia|discriminate]|]);
    try (right; intros [K|[K _]]; lia);
    (destruct (Z_le_dec 128 (zb d)); [destruct (Z_le_dec (zb d) 191)|]);
    try (left; right; split; [auto|]; exists d, r'; split; [reflexivity|lia]);
    (right; intros [K|[_ (d' & r'' & K & K2)]]; [lia|]; injection K as -> ->; lia).
Qed.
Lemma text_Decode s b : base58_text s b -> Decode s = Ok b.
Proof. intros T. assert (s = Encode b) as -> by (eapply text_inj; eauto using Encode_text). apply Decode_Encode. Qed.

Lemma app4 (p c : list byte) : length c = 4%nat ->
  firstn (length (p ++ c) - 4) (p ++ c) = p /\ skipn (length (p ++ c) - 4) (p ++ c) = c /\ (length (p ++ c) <? 4)%nat = false.
Proof.
  intros L. rewrite app_length, L. replace (length p + 4 - 4)%nat with (length p) by lia.
  rewrite firstn_app, firstn_all, Nat.sub_diag, skipn_app, skipn_all, Nat.sub_diag. cbn [firstn skipn app]. rewrite app_nil_r.
  repeat split. apply Nat.ltb_ge. lia.
Qed.
Lemma CheckDecodeEosio_ok s suffix p : CheckDecodeEosio s suffix = Ok p <-> check_text_eosio s p suffix.
Proof.
  unfold CheckDecodeEosio, check_text_eosio. split.
  - destruct (Decode s) as [d|e|m] eqn:E; cbn [rbind]; try discriminate.
    destruct (Nat.ltb_spec (length d) 4); [discriminate|]. rewrite checksumEosio_eq. cbn [rbind].
    destruct (bytes_eqb _ _) eqn:Q; cbn [negb]; [|discriminate]. intros [= <-]. apply bytes_eqb_eq in Q.
    rewrite Q, firstn_skipn. apply Decode_ok_text; [exact E|]. intros ->. cbn [length] in H. lia.
  - intros T. rewrite (text_Decode _ _ T). cbn [rbind]. destruct (app4 p (firstn 4 (ripemd160 (p ++ suffix)))) as (F & S & L); [apply rmd4|].
    rewrite L, F, S, checksumEosio_eq. cbn [rbind]. now rewrite bytes_eqb_refl.
Qed.
Lemma CheckDecode_ok sha s p : (forall x, length (sha x) = 32%nat) -> (CheckDecode sha s = Ok p <-> check_text sha s p).
Proof.
  intros HS. unfold CheckDecode, check_text, checksum. split.
  - destruct (Decode s) as [d|e|m] eqn:E; cbn [rbind]; try discriminate.
    destruct (Nat.ltb_spec (length d) 4); [discriminate|].
    destruct (bytes_eqb _ _) eqn:Q; cbn [negb]; [|discriminate]. intros [= <-]. apply bytes_eqb_eq in Q.
    rewrite Q, firstn_skipn. apply Decode_ok_text; [exact E|]. intros ->. cbn [length] in H. lia.
  - intros T. rewrite (text_Decode _ _ T). cbn [rbind]. destruct (app4 p (firstn 4 (sha (sha p)))) as (F & S & L).
    { apply firstn_length_le. rewrite HS. lia. }
    rewrite L, F, S. now rewrite bytes_eqb_refl.
Qed.

(** ** Keys *)
Lemma key_tag_ok tag t : key_tag tag = Some t <-> In (t, tag) key_types.
Proof.
  unfold key_tag, key_types. cbn [In]. split.
  - destruct (bytes_eqb tag (str "K1")) eqn:E1; [apply bytes_eqb_eq in E1; intros [= <-]; subst; auto|].
    destruct (bytes_eqb tag (str "P1")) eqn:E2; [apply bytes_eqb_eq in E2; intros [= <-]; subst; auto|].
    destruct (bytes_eqb tag (str "WA")) eqn:E3; [apply bytes_eqb_eq in E3; intros [= <-]; subst; auto|]. discriminate.
  - intros [[= <- <-]|[[= <- <-]|[[= <- <-]|[]]]]; reflexivity.
Qed.
Lemma key_tag_String t tag : In (t, tag) key_types -> KeyType_String t = tag /\ length tag = 2%nat.
Proof. intros [[= <- <-]|[[= <- <-]|[[= <- <-]|[]]]]; split; reflexivity. Qed.

Lemma tagged (head s : list byte) k : length head = 4%nat ->
  (7 <= length s)%nat /\ firstn 4 s = head /\
  match key_tag (firstn 2 (skipn 4 s)) with
  | None => False
  | Some t => rbind (CheckDecodeEosio (skipn 7 s) (KeyType_String t)) (fun d => Ok {| KType := t; KData := d |}) = Ok k
  end <-> exists sep, key_text head sep s k.
Proof.
  intros LH. split.
  - intros (L & F & M). destruct (key_tag (firstn 2 (skipn 4 s))) as [t|] eqn:E; [|destruct M].
    destruct (CheckDecodeEosio (skipn 7 s) (KeyType_String t)) as [d|e|m] eqn:D; cbn [rbind] in M; try discriminate M.
    injection M as <-. apply CheckDecodeEosio_ok in D. apply key_tag_ok in E. destruct (key_tag_String _ _ E) as [KS _]. rewrite KS in D.
    assert (S : s = head ++ firstn 2 (skipn 4 s) ++ nth 6 s x00 :: skipn 7 s).
    { rewrite <- F. do 7 (destruct s as [|? s]; [cbn [length] in L; lia|]). reflexivity. }
    exists (nth 6 s x00). exists (firstn 2 (skipn 4 s)), (skipn 7 s). split; [exact E|]. split; [exact S|exact D].
  - intros (sep & tag & t & I & -> & T). destruct (key_tag_String _ _ I) as [KS LT].
    destruct head as [|h0 [|h1 [|h2 [|h3 [|]]]]]; cbn [length] in LH; try lia.
    destruct tag as [|t0 [|t1 [|]]]; cbn [length] in LT; try lia.
    cbn [app firstn skipn]. split; [cbn [length]; lia|]. split; [reflexivity|].
    pose proof I as I2. apply key_tag_ok in I2. rewrite I2. rewrite KS.
    apply CheckDecodeEosio_ok in T. rewrite T. cbn [rbind]. destruct k; reflexivity.
Qed.
Lemma NewSignatureString_ok s k : NewSignatureString s = Ok k <-> exists sep, key_text (str "SIG_") sep s k.
Proof.
  rewrite <- (tagged (str "SIG_") s k eq_refl). unfold NewSignatureString.
  destruct (Nat.ltb_spec (length s) 7); cbn [orb]; [split; [discriminate|intros [G _]; lia]|].
  destruct (bytes_eqb (firstn 4 s) (str "SIG_")) eqn:E; cbn [negb].
  - apply bytes_eqb_eq in E. destruct (key_tag _); split; try tauto; try discriminate. 
  - split; [discriminate|]. intros (_ & F & _). rewrite F, bytes_eqb_refl in E. discriminate.
Qed.
Lemma NewPublicKey_pub sha s k : firstn 4 s = str "PUB_" ->
  (NewPublicKeyFromString sha s = Ok k <-> exists sep, key_text (str "PUB_") sep s k).
Proof.
  intros F. rewrite <- (tagged (str "PUB_") s k eq_refl). unfold NewPublicKeyFromString.
  rewrite F, bytes_eqb_refl. destruct (Nat.ltb_spec (length s) 7); [split; [discriminate|intros [G _]; lia]|].
  destruct (key_tag _); split; try tauto; try discriminate.
Qed.
Lemma key_String_text head k : In (KType k) [0; 1; 2] -> 
  exists s, rbind (CheckEncodeEosio (KData k) (KeyType_String (KType k))) (fun s =>
    Ok (head ++ KeyType_String (KType k) ++ str "_" ++ s)) = Ok s /\ key_text head x5f s k.
Proof.
  intros H. destruct (CheckEncodeEosio_text (KData k) (KeyType_String (KType k))) as (t & -> & T). cbn [rbind].
  eexists. split; [reflexivity|]. exists (KeyType_String (KType k)), t. split; [|split; [reflexivity|exact T]].
  destruct H as [<-|[<-|[<-|[]]]]; cbn; auto.
Qed.

(** ** Legacy keys *)
Lemma legacy_length (b : list byte) : length b = 37%nat -> (hd x00 b = x02 \/ hd x00 b = x03) -> length (Encode b) = 50%nat.
Proof.
  intros L H. destruct (Encode_text b) as (k & s & b' & ds & E & Zs & Eb & Zb & M & V). rewrite E.
  assert (k = 0%nat) as -> by (destruct k; [reflexivity|]; subst b; cbn in H; destruct H; discriminate).
  cbn [repeat app] in *. subst b'. pose proof (map_some_len _ _ _ M) as LL. rewrite <- LL.
  pose proof (digits58_range _ _ M) as R. pose proof (base_bound 58 ds ltac:(lia) R) as U. rewrite V in U.
  destruct b as [|c b]; [discriminate|]. cbn [hd length] in *. rewrite be_cons in U, V.
  pose proof (be_bound b) as B. assert (ZL : zlen b = 36) by (unfold zlen; lia). rewrite ZL in *.
  assert (C : 2 <= zb c <= 3) by (destruct H; subst c; cbn; lia).
  assert (NZ : exists d0 ds', ds = d0 :: ds').
  { destruct ds as [|d0 ds']; [|eauto]. exfalso. change (base_value 58 []) with 0 in V. pose proof (Z.pow_pos_nonneg 256 36). nia. }
  destruct NZ as (d0 & ds' & ->). inversion R as [|? ? R0 R']; subst.
  assert (d0 <> 0) by (intros ->; eapply digits_nonzero; eauto).
  pose proof (base_lower 58 d0 ds' ltac:(lia) ltac:(lia) R') as LO. rewrite V in LO.
  assert (A1 : 58 ^ zlen ds' < 58 ^ 50). { eapply Z.le_lt_trans; [exact LO|]. eapply Z.lt_le_trans with (m := 4 * 256 ^ 36); [nia|]. vm_compute. discriminate. }
  assert (A2 : 58 ^ 49 < 58 ^ zlen (d0 :: ds')). { eapply Z.lt_le_trans with (m := 2 * 256 ^ 36); [vm_compute; reflexivity|]. nia. }
  apply Z.pow_lt_mono_r_iff in A1; [|lia|lia]. apply Z.pow_lt_mono_r_iff in A2; [|lia|apply zlen_nonneg].
  unfold zlen in *. cbn [length] in *. lia.
Qed.
Lemma no_underscore s : base58_string s -> ~ In x5f s.
Proof. intros H I. apply (proj1 (Forall_forall _ _) H x5f I). reflexivity. Qed.
Lemma not_pub prefix t : firstn 4 prefix <> str "PUB_" -> base58_string t -> (4 <= length (prefix ++ t))%nat -> firstn 4 (prefix ++ t) <> str "PUB_".
Proof.
  intros N H L E. apply no_underscore in H. 
  destruct prefix as [|a [|b [|c [|d p]]]]; cbn [app] in *.
  - destruct t as [|a [|b [|c [|d t]]]]; cbn [length] in L; try lia. injection E as -> -> -> ->. apply H. cbn; auto.
  - destruct t as [|b [|c [|d t]]]; cbn [length] in L; try lia. injection E as -> -> -> ->. apply H. cbn; auto.
  - destruct t as [|c [|d t]]; cbn [length] in L; try lia. injection E as -> -> -> ->. apply H. cbn; auto.
  - destruct t as [|d t]; cbn [length] in L; try lia. injection E as -> -> -> ->. apply H. cbn; auto.
  - apply N. exact E.
Qed.
Lemma legacy_ok sha prefix t p : (forall x, length (sha x) = 32%nat) -> firstn 4 prefix <> str "PUB_" -> length t = 50%nat -> check_text sha t p ->
  NewPublicKeyFromString sha (prefix ++ t) = Ok {| KType := 0; KData := p |}.
Proof.
  intros HS N L T. unfold NewPublicKeyFromString.
  assert (B : base58_string t) by (assert (t = Encode (p ++ firstn 4 (sha (sha p)))) as -> by (eapply text_inj; eauto using Encode_text); apply Encode_string).
  rewrite app_length, L. destruct (Nat.ltb_spec (length prefix + 50) 7); [lia|].
  destruct (bytes_eqb (firstn 4 (prefix ++ t)) (str "PUB_")) eqn:E.
  { apply bytes_eqb_eq in E. exfalso. revert E. apply not_pub; auto. rewrite app_length. lia. }
  destruct (Nat.ltb_spec (length prefix + 50) 50); [lia|].
  replace (length prefix + 50 - 50)%nat with (length prefix) by lia.
  rewrite skipn_app, skipn_all, Nat.sub_diag. cbn [skipn app].
  apply (CheckDecode_ok sha t p HS) in T. rewrite T. reflexivity.
Qed.
