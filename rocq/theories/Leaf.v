(** The types Encoder.Encode and Decoder.Decode handle without recursion: the fast
    paths of pkg/abi and the table of pkg/chain/encoding.go. *)
From Verif Require Import Base Prog AbiPrim Chain Values.

(** Go types of the leaf values. *)
Inductive kind : Type :=
| KBool | KString | KU8 | KU16 | KU32 | KU64 | KI8 | KI16 | KI32 | KI64 | KF32 | KF64 | KInt | KUint | KGoBytes
| KAction | KAsset | KBlob | KBlockNum | KBlockTimestamp | KBytes | KChecksum160 | KChecksum256 | KChecksum512
| KFloat128 | KInt128 | KName | KPermissionLevel | KPublicKey | KSignature | KSymbol | KSymbolCode
| KTimePoint | KTimePointSec | KTransaction | KTransactionExtension | KTransactionHeader | KUint128 | KUint64
| KExtendedAsset.
Definition kind_of (p : prim) : kind :=
  match p with
  | PBool _ => KBool | PString _ => KString | PU8 _ => KU8 | PU16 _ => KU16 | PU32 _ => KU32 | PU64 _ => KU64
  | PI8 _ => KI8 | PI16 _ => KI16 | PI32 _ => KI32 | PI64 _ => KI64 | PF32 _ => KF32 | PF64 _ => KF64
  | PInt _ => KInt | PUint _ => KUint | PGoBytes _ => KGoBytes
  | PAction _ => KAction | PAsset _ => KAsset | PBlob _ => KBlob | PBlockNum _ => KBlockNum
  | PBlockTimestamp _ => KBlockTimestamp | PBytes _ => KBytes | PChecksum160 _ => KChecksum160
  | PChecksum256 _ => KChecksum256 | PChecksum512 _ => KChecksum512 | PFloat128 _ => KFloat128
  | PInt128 _ => KInt128 | PName _ => KName | PPermissionLevel _ => KPermissionLevel
  | PPublicKey _ => KPublicKey | PSignature _ => KSignature | PSymbol _ => KSymbol | PSymbolCode _ => KSymbolCode
  | PTimePoint _ => KTimePoint | PTimePointSec _ => KTimePointSec | PTransaction _ => KTransaction
  | PTransactionExtension _ => KTransactionExtension | PTransactionHeader _ => KTransactionHeader
  | PUint128 _ => KUint128 | PUint64 _ => KUint64 | PExtendedAsset _ => KExtendedAsset
  end.
Definition zero_u128 : U128 := {| Lo := 0; Hi := 0 |}.
Definition zero_asset : Asset := {| Value := 0; Sym := 0 |}.
Definition zero_key : Key := {| KType := 0; KData := [] |}.
Definition zero_header : TransactionHeader :=
  {| Expiration := 0; RefBlockNum := 0; RefBlockPrefix := 0; MaxNetUsageWords := 0; MaxCpuUsageMs := 0; DelaySec := 0 |}.
(** Go's zero value. *)
Definition zero_prim (k : kind) : prim :=
  match k with
  | KBool => PBool false | KString => PString [] | KU8 => PU8 0 | KU16 => PU16 0 | KU32 => PU32 0 | KU64 => PU64 0
  | KI8 => PI8 0 | KI16 => PI16 0 | KI32 => PI32 0 | KI64 => PI64 0 | KF32 => PF32 0 | KF64 => PF64 0
  | KInt => PInt 0 | KUint => PUint 0 | KGoBytes => PGoBytes []
  | KAction => PAction zero_action | KAsset => PAsset zero_asset | KBlob => PBlob [] | KBlockNum => PBlockNum 0
  | KBlockTimestamp => PBlockTimestamp 0 | KBytes => PBytes [] | KChecksum160 => PChecksum160 (zeros 20)
  | KChecksum256 => PChecksum256 (zeros 32) | KChecksum512 => PChecksum512 (zeros 64)
  | KFloat128 => PFloat128 (zeros 16) | KInt128 => PInt128 zero_u128 | KName => PName 0
  | KPermissionLevel => PPermissionLevel {| Actor := 0; Permission := 0 |}
  | KPublicKey => PPublicKey zero_key | KSignature => PSignature zero_key | KSymbol => PSymbol 0
  | KSymbolCode => PSymbolCode 0 | KTimePoint => PTimePoint 0 | KTimePointSec => PTimePointSec 0
  | KTransaction => PTransaction {| Header := zero_header; ContextFreeActions := []; Actions := []; Extensions := [] |}
  | KTransactionExtension => PTransactionExtension {| EType := 0; EData := [] |}
  | KTransactionHeader => PTransactionHeader zero_header
  | KUint128 => PUint128 zero_u128 | KUint64 => PUint64 0
  | KExtendedAsset => PExtendedAsset {| Quantity := zero_asset; Contract := 0 |}
  end.

(** Encode on a leaf: abi/encode.go:36-70 for Go types, chain/encoding.go:70-125 for
    chain types.  ExtendedAsset is not in that table: by value it takes the struct
    path (encode.go:111-125), field by field, by pointer its MarshalABI. *)
Definition write_prim (p : prim) : wr :=
  match p with
  | PBool v => WriteBool v | PString v => WriteString v
  | PU8 v => WriteUint8 v | PU16 v => WriteUint16 v | PU32 v => WriteUint32 v | PU64 v => WriteUint64 v
  | PI8 v => WriteInt8 v | PI16 v => WriteInt16 v | PI32 v => WriteInt32 v | PI64 v => WriteInt64 v
  | PF32 v => WriteFloat32 v | PF64 v => WriteFloat64 v
  | PInt v => WriteVarint v | PUint v => WriteVaruint v
  | PGoBytes b => EncodeByteSlice b
  | PAction a => Action_MarshalABI a | PAsset a => Asset_MarshalABI a | PBlob b => Bytes_MarshalABI b
  | PBlockNum v => BlockNum_MarshalABI v | PBlockTimestamp v => BlockTimestamp_MarshalABI v
  | PBytes b => Bytes_MarshalABI b
  | PChecksum160 c | PChecksum256 c | PChecksum512 c => Checksum_MarshalABI c
  | PFloat128 d => Float128_MarshalABI d | PInt128 u | PUint128 u => Uint128_MarshalABI u
  | PName v => Name_MarshalABI v | PPermissionLevel p => PermissionLevel_MarshalABI p
  | PPublicKey k | PSignature k => Key_MarshalABI k
  | PSymbol v | PSymbolCode v => Symbol_MarshalABI v
  | PTimePoint v => TimePoint_MarshalABI v | PTimePointSec v => TimePointSec_MarshalABI v
  | PTransaction t => Transaction_MarshalABI t | PTransactionExtension e => TransactionExtension_MarshalABI e
  | PTransactionHeader h => TransactionHeader_MarshalABI h
  | PUint64 v => Uint64_MarshalABI v
  | PExtendedAsset e => etry (Asset_MarshalABI (Quantity e)) (Name_MarshalABI (Contract e))
  end.

(** [p] with the result wrapped. *)
Definition wrap {A B} (c : A -> B) (p : io A) : io B :=
  '(x, err) <-- p ;; DRet (c x, err).
(** Decode wrap a leaf holding [old]: abi/decode.go:38-82 for Go types ([*ptr, err =
    ...], so a failed read stores the zero value), chain/encoding.go:13-68 for chain
    types, and ExtendedAsset through its UnmarshalABI (decode.go:146-149). *)
Definition read_prim (old : prim) : io prim :=
  match old with
  | PBool _ => wrap PBool ReadBool | PString _ => wrap PString ReadString
  | PU8 _ => wrap PU8 ReadUint8 | PU16 _ => wrap PU16 ReadUint16 | PU32 _ => wrap PU32 ReadUint32
  | PU64 _ => wrap PU64 ReadUint64 | PI8 _ => wrap PI8 ReadInt8 | PI16 _ => wrap PI16 ReadInt16
  | PI32 _ => wrap PI32 ReadInt32 | PI64 _ => wrap PI64 ReadInt64
  | PF32 _ => wrap PF32 ReadFloat32 | PF64 _ => wrap PF64 ReadFloat64
  | PInt _ => wrap PInt ReadVarint | PUint _ => wrap PUint ReadVaruint
  | PGoBytes b => wrap PGoBytes (DecodeByteSlice b)
  | PAction a => wrap PAction (Action_UnmarshalABI a) | PAsset a => wrap PAsset (Asset_UnmarshalABI a)
  | PBlob b => wrap PBlob (Bytes_UnmarshalABI b) | PBlockNum v => wrap PBlockNum (BlockNum_UnmarshalABI v)
  | PBlockTimestamp v => wrap PBlockTimestamp (BlockTimestamp_UnmarshalABI v)
  | PBytes b => wrap PBytes (Bytes_UnmarshalABI b)
  | PChecksum160 c => wrap PChecksum160 (Checksum_UnmarshalABI 20 c)
  | PChecksum256 c => wrap PChecksum256 (Checksum_UnmarshalABI 32 c)
  | PChecksum512 c => wrap PChecksum512 (Checksum_UnmarshalABI 64 c)
  | PFloat128 d => wrap PFloat128 (Float128_UnmarshalABI d)
  | PInt128 u => wrap PInt128 (Uint128_UnmarshalABI u)
  | PName v => wrap PName (Name_UnmarshalABI v)
  | PPermissionLevel p => wrap PPermissionLevel (PermissionLevel_UnmarshalABI p)
  | PPublicKey k => wrap PPublicKey (PublicKey_UnmarshalABI k)
  | PSignature k => wrap PSignature (Signature_UnmarshalABI k)
  | PSymbol v => wrap PSymbol (Symbol_UnmarshalABI v) | PSymbolCode v => wrap PSymbolCode (Symbol_UnmarshalABI v)
  | PTimePoint v => wrap PTimePoint (TimePoint_UnmarshalABI v)
  | PTimePointSec v => wrap PTimePointSec (TimePointSec_UnmarshalABI v)
  | PTransaction t => wrap PTransaction (Transaction_UnmarshalABI t)
  | PTransactionExtension e => wrap PTransactionExtension (TransactionExtension_UnmarshalABI e)
  | PTransactionHeader h => wrap PTransactionHeader (TransactionHeader_UnmarshalABI h)
  | PUint128 u => wrap PUint128 (Uint128_UnmarshalABI u)
  | PUint64 v => wrap PUint64 (Uint64_UnmarshalABI v)
  | PExtendedAsset e => wrap PExtendedAsset (ExtendedAsset_UnmarshalABI e)
  end.
