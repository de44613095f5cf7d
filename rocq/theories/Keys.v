(** pkg/base58/base58check.go and the text forms of PublicKey and Signature.
    [sha] is crypto/sha256.Sum256. *)
From Verif Require Import Base GoStd Base58 Ripemd Chain.

(** base58check.go:11, :14 *)
Definition ErrChecksum : gerr := ErrMsg "checksum error".
Definition ErrInvalidFormat : gerr := ErrMsg "invalid format: checksum bytes missing".

(** base58check.go:17-22 *)
Definition checksum (sha : list byte -> list byte) (input : list byte) : list byte :=
  let h := sha input in
  let h2 := sha h in
  firstn 4 h2.
(** base58check.go:25-34 *)
Definition checksumEosio (input suffix : list byte) : res (list byte) :=
  let h := New in
  let h := fst (Write h input) in
  let h := match suffix with [] => h | _ => fst (Write h suffix) end in
  rbind (Sum h []) (fun sum => Ok (firstn 4 sum)).
(** base58check.go:37-43 *)
Definition CheckEncode (sha : list byte -> list byte) (input : list byte) : list byte :=
  Encode (input ++ checksum sha input).
(** base58check.go:46-52 *)
Definition CheckEncodeEosio (input suffix : list byte) : res (list byte) :=
  rbind (checksumEosio input suffix) (fun cksum => Ok (Encode (input ++ cksum))).
(** base58check.go:55-68 *)
Definition CheckDecode (sha : list byte -> list byte) (input : list byte) : res (list byte) :=
  rbind (Decode input) (fun decoded =>
    if (length decoded <? 4)%nat then Err ErrInvalidFormat
    else
      let cksum := skipn (length decoded - 4) decoded in
      let payload := firstn (length decoded - 4) decoded in
      if negb (bytes_eqb (checksum sha payload) cksum) then Err ErrChecksum else Ok payload).
(** base58check.go:71-84 *)
Definition CheckDecodeEosio (input suffix : list byte) : res (list byte) :=
  rbind (Decode input) (fun decoded =>
    if (length decoded <? 4)%nat then Err ErrInvalidFormat
    else
      let cksum := skipn (length decoded - 4) decoded in
      let payload := firstn (length decoded - 4) decoded in
      rbind (checksumEosio payload suffix) (fun c =>
        if negb (bytes_eqb c cksum) then Err ErrChecksum else Ok payload)).

(** chain/key_type.go:11-22 *)
Definition KeyType_String (t : Z) : list byte :=
  if t =? 0 then str "K1" else if t =? 1 then str "P1" else if t =? 2 then str "WA" else str "XX".
(** the switch on s[4:6], public_key.go:31-40, signature.go:29-38 *)
Definition key_tag (tag : list byte) : option Z :=
  if bytes_eqb tag (str "K1") then Some 0
  else if bytes_eqb tag (str "P1") then Some 1
  else if bytes_eqb tag (str "WA") then Some 2
  else None.

(** chain/public_key.go:24-53 *)
Definition NewPublicKeyFromString (sha : list byte -> list byte) (s : list byte) : res Key :=
  if (length s <? 7)%nat then Err (ErrMsg "invalid public key string")
  else if bytes_eqb (firstn 4 s) (str "PUB_") then
    match key_tag (firstn 2 (skipn 4 s)) with
    | None => Err (ErrMsg "unknown key type")
    | Some t =>
        rbind (CheckDecodeEosio (skipn 7 s) (KeyType_String t)) (fun d => Ok {| KType := t; KData := d |})
    end
  else if (length s <? 50)%nat then Panic "slice bounds out of range"
  else rbind (CheckDecode sha (skipn (length s - 50) s)) (fun d => Ok {| KType := 0; KData := d |}).
(** public_key.go:55-57 String, public_key.go:115-117 MarshalText *)
Definition PublicKey_String (k : Key) : res (list byte) :=
  rbind (CheckEncodeEosio (KData k) (KeyType_String (KType k))) (fun s =>
    Ok (str "PUB_" ++ KeyType_String (KType k) ++ str "_" ++ s)).
(** public_key.go:60-65 *)
Definition PublicKey_LegacyString (sha : list byte -> list byte) (k : Key) (prefix : list byte) : res (list byte) :=
  if negb (KType k =? 0) then Panic "only K1 keys can be converted to legacy format"
  else Ok (prefix ++ CheckEncode sha (KData k)).
(** public_key.go:121-127 *)
Definition PublicKey_UnmarshalText (sha : list byte -> list byte) (old : Key) (text : list byte) : res (Key * option gerr) :=
  set_on_success old (NewPublicKeyFromString sha text).

(** chain/signature.go:24-45 *)
Definition NewSignatureString (s : list byte) : res Key :=
  if (length s <? 7)%nat || negb (bytes_eqb (firstn 4 s) (str "SIG_")) then Err (ErrMsg "invalid signature string")
  else
    match key_tag (firstn 2 (skipn 4 s)) with
    | None => Err (ErrMsg "unknown signature type")
    | Some t =>
        rbind (CheckDecodeEosio (skipn 7 s) (KeyType_String t)) (fun d => Ok {| KType := t; KData := d |})
    end.
(** signature.go:47-49 String, signature.go:110-112 MarshalText *)
Definition Signature_String (k : Key) : res (list byte) :=
  rbind (CheckEncodeEosio (KData k) (KeyType_String (KType k))) (fun s =>
    Ok (str "SIG_" ++ KeyType_String (KType k) ++ str "_" ++ s)).
(** signature.go:116-122 *)
Definition Signature_UnmarshalText (old : Key) (text : list byte) : res (Key * option gerr) :=
  set_on_success old (NewSignatureString text).

(** chain/checksum.go:22-29 *)
Definition Checksum160Digest (message : list byte) : res (list byte) :=
  rbind (Sum (fst (Write New message)) []) (fun d =>
    if (length d <? 20)%nat then Panic "slice bounds out of range" else Ok (firstn 20 d)).
