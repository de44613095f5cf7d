(** C28-C32: Base58, Base58Check, key and signature texts. *)
From Verif Require Import Base BaseProofs GoStd SpecNumbers SpecHex Base58 SpecBase58 Base58Proofs.
From Verif Require Import Ripemd SpecRipemd PropRipemd Chain Keys SpecKeys KeysProofs.

(** * C28 *)
Theorem C28_encode : forall b, base58_text (Encode b) b.
Proof. exact Encode_text. Qed.
Print Assumptions C28_encode.
Theorem C28_decode_encode : forall b, Decode (Encode b) = Ok b.
Proof. exact Decode_Encode. Qed.
Print Assumptions C28_decode_encode.
Theorem C28_encode_decode : forall s, base58_string s -> exists b, Decode s = Ok b /\ Encode b = s /\ base58_text s b.
Proof. exact Encode_Decode. Qed.
Print Assumptions C28_encode_decode.
(** The specification is a bijection, so it determines both functions. *)
Theorem C28_spec_unique : forall s b s' b',
  base58_text s b -> base58_text s' b' -> (s = s' <-> b = b').
Proof. intros s b s' b' H H'. split; intros <-; [eapply text_fun|eapply text_inj]; eauto. Qed.
Print Assumptions C28_spec_unique.
Theorem C28_output_alphabet : forall b, base58_string (Encode b).
Proof. exact Encode_string. Qed.
Print Assumptions C28_output_alphabet.
Example C28_example : Encode (str "Hello World!") = str "2NEpo7TZRRrLZSi2U" /\ Encode [x00; x00; x28; x7f; xb4; xcd] = str "11233QC4".
Proof. vm_compute. auto. Qed.

(** * C29 *)
(** [p] is the longest alphabet prefix, [c] the first other byte.  The outcome
    depends on [c] and on the bytes behind it in the same ten-byte chunk: a byte
    below 128, or C2/C3 with a continuation byte (a code point below 256), gives
    the empty slice; everything else panics. *)
Theorem C29_foreign : forall p c r, base58_string p -> base58_digit c = None ->
  let visible := firstn (9 - length p mod 10) r in
  let below256 := zb c < 128 \/ ((zb c = 194 \/ zb c = 195) /\ exists d r', visible = d :: r' /\ 128 <= zb d <= 191) in
  (below256 -> Decode (p ++ c :: r) = Ok []) /\ (~ below256 -> exists m, Decode (p ++ c :: r) = Panic m).
Proof. exact Decode_foreign. Qed.
Print Assumptions C29_foreign.
(** Every string is either all alphabet or of that form, so Decode is characterised
    completely; it never reports an error. *)
Theorem C29_complete : forall s, base58_string s \/ exists p c r, s = p ++ c :: r /\ base58_string p /\ base58_digit c = None.
Proof. exact split_foreign. Qed.
Print Assumptions C29_complete.
(** ASCII strings never panic. *)
Theorem C29_ascii : forall s, Forall (fun c => zb c < 128) s -> exists b, Decode s = Ok b /\ (~ base58_string s -> b = []).
Proof.
  intros s H. destruct (split_foreign s) as [A|(p & c & r & -> & HP & D)].
  - destruct (Encode_Decode s A) as (b & E & _). exists b. split; [exact E|contradiction].
  - exists []. split; [|reflexivity]. apply (Decode_foreign p c r HP D). left.
    apply Forall_app in H as [_ H]. now inversion H.
Qed.
Print Assumptions C29_ascii.
Example C29_example : Decode (str "0") = Ok [] /\ Decode [xc3; xa9] = Ok [] /\ Decode (str "111111111" ++ [xc3; xa9]) = Panic "index out of range"
  /\ Decode [xe2; x82; xac] = Panic "index out of range" /\ base58_digit x30 = None.
Proof. vm_compute. auto 10. Qed.

(** * C30 *)
Theorem C30_encode : forall sha p, check_text sha (CheckEncode sha p) p.
Proof. exact CheckEncode_text. Qed.
Print Assumptions C30_encode.
Theorem C30_encode_eosio : forall p suffix, exists t, CheckEncodeEosio p suffix = Ok t /\ check_text_eosio t p suffix.
Proof. exact CheckEncodeEosio_text. Qed.
Print Assumptions C30_encode_eosio.
(** Accepted are exactly the genuine encodings, with their payload. *)
Theorem C30_decode : forall sha s p, (forall x, length (sha x) = 32%nat) -> (CheckDecode sha s = Ok p <-> check_text sha s p).
Proof. exact CheckDecode_ok. Qed.
Print Assumptions C30_decode.
Theorem C30_decode_eosio : forall s suffix p, CheckDecodeEosio s suffix = Ok p <-> check_text_eosio s p suffix.
Proof. exact CheckDecodeEosio_ok. Qed.
Print Assumptions C30_decode_eosio.
Theorem C30_roundtrip : forall sha p suffix, (forall x, length (sha x) = 32%nat) ->
  CheckDecode sha (CheckEncode sha p) = Ok p /\ rbind (CheckEncodeEosio p suffix) (fun t => CheckDecodeEosio t suffix) = Ok p.
Proof.
  intros sha p suffix HS. split; [apply CheckDecode_ok; auto using CheckEncode_text|].
  destruct (CheckEncodeEosio_text p suffix) as (t & -> & T). cbn [rbind]. now apply CheckDecodeEosio_ok.
Qed.
Print Assumptions C30_roundtrip.
(** ... and the accepted input is the encoding of the result. *)
Theorem C30_genuine : forall sha s p suffix, (forall x, length (sha x) = 32%nat) ->
  (CheckDecode sha s = Ok p -> s = CheckEncode sha p) /\ (CheckDecodeEosio s suffix = Ok p -> CheckEncodeEosio p suffix = Ok s).
Proof.
  intros sha s p suffix HS. split; intros H.
  - apply CheckDecode_ok in H; [|exact HS]. eapply text_inj; [exact H|apply CheckEncode_text].
  - apply CheckDecodeEosio_ok in H. destruct (CheckEncodeEosio_text p suffix) as (t & E & T). rewrite E. f_equal.
    eapply text_inj; [exact T|exact H].
Qed.
Print Assumptions C30_genuine.
Example C30_example : CheckEncodeEosio [x01] (str "K1") <> CheckEncodeEosio [x01] (str "P1").
Proof. vm_compute. discriminate. Qed.

(** * C31 *)
(** The text form of a key or signature of a known type is its PUB_/SIG_ text ... *)
Theorem C31_pub_string : forall k, In (KType k) [0; 1; 2] -> exists s, PublicKey_String k = Ok s /\ key_text (str "PUB_") x5f s k.
Proof. intros k. apply key_String_text. Qed.
Print Assumptions C31_pub_string.
Theorem C31_sig_string : forall k, In (KType k) [0; 1; 2] -> exists s, Signature_String k = Ok s /\ key_text (str "SIG_") x5f s k.
Proof. intros k. apply key_String_text. Qed.
Print Assumptions C31_sig_string.
(** ... and parsing accepts exactly such texts, whatever the separator after the tag. *)
Theorem C31_pub_parse : forall sha s k, firstn 4 s = str "PUB_" ->
  (NewPublicKeyFromString sha s = Ok k <-> exists sep, key_text (str "PUB_") sep s k).
Proof. exact NewPublicKey_pub. Qed.
Print Assumptions C31_pub_parse.
Theorem C31_sig_parse : forall s k, NewSignatureString s = Ok k <-> exists sep, key_text (str "SIG_") sep s k.
Proof. exact NewSignatureString_ok. Qed.
Print Assumptions C31_sig_parse.
Theorem C31_roundtrip : forall sha k old, In (KType k) [0; 1; 2] ->
  rbind (PublicKey_String k) (NewPublicKeyFromString sha) = Ok k
  /\ rbind (PublicKey_String k) (PublicKey_UnmarshalText sha old) = Ok (k, None)
  /\ rbind (Signature_String k) NewSignatureString = Ok k
  /\ rbind (Signature_String k) (Signature_UnmarshalText old) = Ok (k, None).
Proof.
  intros sha k old H. destruct (C31_pub_string k H) as (s & E & T). destruct (C31_sig_string k H) as (s' & E' & T').
  rewrite E, E'. cbn [rbind]. unfold PublicKey_UnmarshalText, Signature_UnmarshalText.
  assert (P : NewPublicKeyFromString sha s = Ok k).
  { apply NewPublicKey_pub; [|eauto]. destruct T as (tag & t & _ & -> & _). reflexivity. }
  assert (Q : NewSignatureString s' = Ok k) by (apply NewSignatureString_ok; eauto).
  rewrite P, Q. auto.
Qed.
Print Assumptions C31_roundtrip.
(** A text is read back under another type only if the check bytes collide. *)
Theorem C31_type_bound : forall head sep sep' tag tag' t k k',
  key_text head sep (head ++ tag ++ sep :: t) k -> key_text head sep' (head ++ tag' ++ sep' :: t) k' ->
  length tag = 2%nat -> length tag' = 2%nat ->
  KData k = KData k' /\ firstn 4 (ripemd160 (KData k ++ tag)) = firstn 4 (ripemd160 (KData k' ++ tag')).
Proof.
  intros head sep sep' tag tag' t k k' (g & u & I & E & T) (g' & u' & I' & E' & T') L L'.
  apply app_inv_head in E, E'. destruct (key_tag_String _ _ I) as [_ Lg]. destruct (key_tag_String _ _ I') as [_ Lg'].
  destruct tag as [|a [|b [|]]], tag' as [|a' [|b' [|]]], g as [|c [|d [|]]], g' as [|c' [|d' [|]]]; try discriminate.
  cbn [app] in E, E'. injection E as <- <- <-. injection E' as <- <- <-.
  pose proof (text_fun _ _ _ T T') as Q. apply app_inj_tail_iff in Q || idtac.
  assert (LL : length (KData k) = length (KData k')) by (apply (f_equal (@length _)) in Q; rewrite !app_length, !rmd4 in Q; lia).
  assert (QD : KData k = KData k').
  { apply (f_equal (firstn (length (KData k)))) in Q. rewrite !firstn_app, Nat.sub_diag in Q.
    replace (length (KData k) - length (KData k'))%nat with 0%nat in Q by lia. cbn [firstn] in Q. rewrite !app_nil_r in Q.
    rewrite firstn_all, LL, firstn_all in Q. exact Q. }
  split; [exact QD|]. rewrite QD in *. now apply app_inv_head in Q.
Qed.
Print Assumptions C31_type_bound.
Theorem C31_reject_keeps : forall sha old s k e,
  (PublicKey_UnmarshalText sha old s = Ok (k, Some e) -> k = old) /\ (Signature_UnmarshalText old s = Ok (k, Some e) -> k = old).
Proof.
  intros sha old s k e. unfold PublicKey_UnmarshalText, Signature_UnmarshalText.
  split; [destruct (NewPublicKeyFromString sha s)|destruct (NewSignatureString s)]; cbn; congruence.
Qed.
Print Assumptions C31_reject_keeps.
Definition k1_example : Key := {| KType := 0; KData := x02 :: repeat x07 32 |}.
Example C31_example : In (KType k1_example) [0; 1; 2] /\ exists s, PublicKey_String k1_example = Ok s /\ firstn 7 s = str "PUB_K1_".
Proof. split; [now left|]. vm_compute. eexists. split; reflexivity. Qed.

(** * C32 *)
Theorem C32_roundtrip : forall sha d c prefix, (forall x, length (sha x) = 32%nat) ->
  length d = 32%nat -> (c = x02 \/ c = x03) -> firstn 4 prefix <> str "PUB_" ->
  let k := {| KType := 0; KData := c :: d |} in
  exists s, PublicKey_LegacyString sha k prefix = Ok (prefix ++ s) /\ check_text sha s (c :: d)
    /\ NewPublicKeyFromString sha (prefix ++ s) = Ok k.
Proof.
  intros sha d c prefix HS L C N k. exists (CheckEncode sha (c :: d)). split; [reflexivity|]. split; [apply CheckEncode_text|].
  apply legacy_ok; auto using CheckEncode_text. unfold CheckEncode. apply legacy_length; [|exact C].
  rewrite app_length. unfold checksum. rewrite firstn_length_le by (rewrite HS; lia). cbn [length]. lia.
Qed.
Print Assumptions C32_roundtrip.
(** Parsing anything that does not start with PUB_: *)
Theorem C32_parse : forall sha s, firstn 4 s <> str "PUB_" ->
  ((length s < 7)%nat -> exists e, NewPublicKeyFromString sha s = Err e)
  /\ ((7 <= length s < 50)%nat -> exists m, NewPublicKeyFromString sha s = Panic m)
  /\ (forall prefix t k, (forall x, length (sha x) = 32%nat) -> s = prefix ++ t -> length t = 50%nat ->
        (NewPublicKeyFromString sha s = Ok k <-> KType k = 0 /\ check_text sha t (KData k))).
Proof.
  intros sha s N. unfold NewPublicKeyFromString.
  destruct (bytes_eqb (firstn 4 s) (str "PUB_")) eqn:E; [apply bytes_eqb_eq in E; contradiction|].
  split; [intros L; destruct (Nat.ltb_spec (length s) 7); [eauto|lia]|].
  split; [intros L; destruct (Nat.ltb_spec (length s) 7); [lia|]; destruct (Nat.ltb_spec (length s) 50); [eauto|lia]|].
  intros prefix t k HS -> L. rewrite app_length, L. destruct (Nat.ltb_spec (length prefix + 50) 7); [lia|].
  destruct (Nat.ltb_spec (length prefix + 50) 50); [lia|]. replace (length prefix + 50 - 50)%nat with (length prefix) by lia.
  rewrite skipn_app, skipn_all, Nat.sub_diag. cbn [skipn app]. split.
  - destruct (CheckDecode sha t) as [d|e|m] eqn:D; cbn [rbind]; try discriminate. intros [= <-]. cbn [KType KData].
    split; [reflexivity|]. now apply CheckDecode_ok.
  - intros [K T]. apply CheckDecode_ok in T; [|exact HS]. rewrite T. cbn [rbind]. destruct k as [kt kd]. cbn [KType KData] in *. now subst.
Qed.
Print Assumptions C32_parse.
(** Other key types have no legacy text. *)
Theorem C32_only_k1 : forall sha k prefix, (exists m, PublicKey_LegacyString sha k prefix = Panic m) <-> KType k <> 0.
Proof.
  intros sha k prefix. unfold PublicKey_LegacyString. destruct (Z.eqb_spec (KType k) 0) as [E|E]; cbn [negb]; split; eauto; try contradiction.
  intros [m Q]. discriminate Q.
Qed.
Print Assumptions C32_only_k1.
Example C32_example : firstn 4 (str "EOS") <> str "PUB_" /\ exists m, NewPublicKeyFromString (fun _ => zeros 32) (str "EOS1234") = Panic m.
Proof. split; [discriminate|]. apply C32_parse; [discriminate|cbn; lia]. Qed.

(** * C34: the digest as pkg/chain offers it *)
Theorem C34_checksum160 : forall m, Checksum160Digest m = Ok (SpecRipemd.ripemd160 m).
Proof.
  intros m. unfold Checksum160Digest. rewrite PropRipemd.C34_digest. cbn [rbind]. rewrite PropRipemd.C34_size.
  rewrite firstn_all2; [reflexivity|]. rewrite PropRipemd.C34_size. constructor.
Qed.
Print Assumptions C34_checksum160.
