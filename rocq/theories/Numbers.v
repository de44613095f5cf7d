(** pkg/chain/numbers.go: conversions and text/JSON forms. *)
From Verif Require Import Base GoStd.
From Verif Require Import Chain.

(** numbers.go:37-44 NewUint128 *)
Definition NewUint128 (i : Z) : res U128 :=
  rbind (big_FillBytes 16 i) (fun b =>
  Ok {| Lo := be_get (skipn 8 b); Hi := be_get (firstn 8 b) |}).

(** numbers.go:57-59, :63-65: for len(b) < 16 { b = append([]byte{p}, b...) } *)
Definition pad16 (p : byte) (b : list byte) : list byte := repeat p (16 - length b) ++ b.

(** numbers.go:47-71 NewInt128.  BigEndian.Uint64 reads the first eight bytes of its
    argument; b has at least 16 bytes here. *)
Definition NewInt128 (i : Z) : res U128 :=
  if 128 <? big_BitLen i then Panic "int128 only supports bitlen <= 128"
  else if i =? 0 then Ok {| Lo := 0; Hi := 0 |}
  else
    let b := if 0 <? i then pad16 x00 (big_Bytes i)
             else let length := (big_BitLen i / 8 + 1) * 8 in
                  pad16 xff (big_Bytes (i + Z.shiftl 1 length)) in
    Ok {| Lo := be_get (firstn 8 (skipn 8 b)); Hi := be_get (firstn 8 b) |}.

(** numbers.go:73-79 NewUint128FromString *)
Definition NewUint128FromString (s : list byte) : res U128 :=
  match big_SetString s with
  | None => Err (ErrMsg "invalid unsigned integer")
  | Some i =>
      if (128 <? big_BitLen i) || (i <? 0) then Err (ErrMsg "invalid unsigned integer")
      else NewUint128 i
  end.
(** numbers.go:81-87 NewInt128FromString *)
Definition NewInt128FromString (s : list byte) : res U128 :=
  match big_SetString s with
  | None => Err (ErrMsg "invalid signed integer")
  | Some i => if 128 <? big_BitLen i then Err (ErrMsg "invalid signed integer") else NewInt128 i
  end.

(** numbers.go:105-109 Uint128.BigInt *)
Definition Uint128_BigInt (u : U128) : Z := big_SetBytes (U128_BytesBE u).
(** numbers.go:111-119 Int128.BigInt *)
Definition Int128_BigInt (u : U128) : Z :=
  let b := U128_BytesBE u in
  let rv := big_SetBytes b in
  match b with
  | b0 :: _ => if 0 <? Z.land (zb b0) 128 then rv - Z.shiftl 1 (zlen b * 8) else rv
  | [] => rv
  end.
(** numbers.go:121-123, :195-197 *)
Definition Uint128_String (u : U128) : list byte := FormatInt (Uint128_BigInt u).
(** numbers.go:125-127, :199-201 *)
Definition Int128_String (u : U128) : list byte := FormatInt (Int128_BigInt u).

(** numbers.go:209-213, :215-219: the target is assigned even on an error (the zero value). *)
Definition assign_always (r : res U128) : res (U128 * option gerr) :=
  match r with
  | Ok v => Ok (v, None)
  | Err e => Ok ({| Lo := 0; Hi := 0 |}, Some e)
  | Panic m => Panic m
  end.
Definition Uint128_UnmarshalText (old : U128) (text : list byte) := assign_always (NewUint128FromString text).
Definition Int128_UnmarshalText (old : U128) (text : list byte) := assign_always (NewInt128FromString text).

(** numbers.go:262-268 readUintJSON *)
Definition readUintJSON (s : list byte) : Z * option gerr :=
  let s := if (1 <? zlen s) && Byte.eqb (nth 0 s x00) x22 && Byte.eqb (nth (length s - 1) s x00) x22
           then firstn (length s - 2) (skipn 1 s) else s in
  ParseUint s 64.
(** numbers.go:270-276 writeUintJSON *)
Definition writeUintJSON (v : Z) : list byte :=
  let s := FormatUint v in
  if 4294967295 <? v then [x22] ++ s ++ [x22] else s.

(** numbers.go:231-233 / :241-247 *)
Definition Uint64_MarshalJSON (v : Z) : list byte := writeUintJSON v.
Definition Uint64_UnmarshalJSON (old : Z) (b : list byte) : Z * option gerr :=
  let (v, err) := readUintJSON b in
  match err with None => (v, None) | Some e => (old, Some e) end.
(** numbers.go:235-237 / :249-258 *)
Definition BlockNum_MarshalJSON (v : Z) : list byte := writeUintJSON v.
Definition BlockNum_UnmarshalJSON (old : Z) (b : list byte) : Z * option gerr :=
  let (v, err) := readUintJSON b in
  if 4294967295 <? v then (old, Some (ErrMsg "block number is too large"))
  else match err with None => (u32 v, None) | Some e => (old, Some e) end.
(** numbers.go:32-34 BlockNum.String: %010d *)
Definition BlockNum_String (bn : Z) : list byte :=
  let s := FormatUint bn in repeat x30 (10 - length s) ++ s.
