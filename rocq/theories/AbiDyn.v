(** pkg/chain/abi.go: ABI definitions, type resolution, dynamic codec.

    A [*resolvedType] is represented by the type name it was created for: the
    resolver's table maps each name to the one object made for it, and the only
    pointers it hands out are pointers to these objects.  Go maps are association
    lists without repeated keys; [map[string]interface{}] values cannot be cyclic
    here. *)
From Verif Require Import Base Prog AbiPrim Chain Values Leaf.

Notation name := (list byte).

(** abi.go:24-27 *)
Record AbiType := { NewTypeName : name; AType : name }.
(** abi.go:29-32 *)
Record AbiVariant := { VName : name; VTypes : list name }.
(** abi.go:40-43 *)
Record AbiField := { FName : name; FType : name }.
(** abi.go:34-38 *)
Record AbiStruct := { SName : name; SBase : name; SFields : list AbiField }.
(** abi.go:45-49 *)
Record AbiAction := { ActName : Z; ActType : name; RicardianContract : list byte }.
(** abi.go:51-57 *)
Record AbiTable := { TName : Z; IndexType : name; KeyNames : list name; KeyTypes : list name; TType : name }.
(** abi.go:59-62 *)
Record AbiClause := { ClId : list byte; ClBody : list byte }.
(** abi.go:64-67 *)
Record AbiExtension := { XType : Z; XData : list byte }.
(** abi.go:69-72 *)
Record AbiErrorMessage := { ErrCode : Z; ErrText : list byte }.
(** abi.go:12-22; Extensions is a slice of pointers, None = nil *)
Record Abi := {
  Version : list byte; Types : list AbiType; Structs : list AbiStruct;
  AbiActions : list AbiAction; Tables : list AbiTable; Clauses : list AbiClause;
  ErrorMessages : list AbiErrorMessage; AbiExtensions : list (option AbiExtension);
  Variants : list AbiVariant }.

(** abi.go:74-81 *)
Fixpoint GetTable (l : list AbiTable) (n : Z) : option AbiTable :=
  match l with [] => None | t :: l => if TName t =? n then Some t else GetTable l n end.
(** abi.go:83-90 *)
Fixpoint GetAction (l : list AbiAction) (n : Z) : option AbiAction :=
  match l with [] => None | t :: l => if ActName t =? n then Some t else GetAction l n end.
(** abi.go:92-99 *)
Fixpoint GetStruct (l : list AbiStruct) (n : name) : option AbiStruct :=
  match l with [] => None | t :: l => if bytes_eqb (SName t) n then Some t else GetStruct l n end.
(** abi.go:101-108 *)
Fixpoint GetType (l : list AbiType) (n : name) : option AbiType :=
  match l with [] => None | t :: l => if bytes_eqb (NewTypeName t) n then Some t else GetType l n end.
(** abi.go:110-117 *)
Fixpoint GetVariant (l : list AbiVariant) (n : name) : option AbiVariant :=
  match l with [] => None | t :: l => if bytes_eqb (VName t) n then Some t else GetVariant l n end.

(** ** Resolution *)
(** abi.go:644-658 *)
Record rtype := {
  t_name : name; t_baseName : name;
  t_isArray : bool; t_isOptional : bool; t_isExtension : bool;
  t_base : option name; t_fields : option (list (name * name));
  t_variant : option (list name); t_ref : option name }.
(** the map r.types, abi.go:581 *)
Definition rtable := list (name * rtype).
Fixpoint lookup {A} (tbl : list (name * A)) (n : name) : option A :=
  match tbl with
  | [] => None
  | (m, t) :: tbl => if bytes_eqb m n then Some t else lookup tbl n
  end.
(** m[k] = v *)
Fixpoint assign {A} (m : list (name * A)) (k : name) (v : A) : list (name * A) :=
  match m with
  | [] => [(k, v)]
  | (k', v') :: m => if bytes_eqb k' k then (k, v) :: m else (k', v') :: assign m k v
  end.

(** last byte of a string and the rest; None = index out of range *)
Definition last_byte (s : name) : option (name * byte) :=
  match rev s with
  | [] => None
  | c :: r => Some (rev r, c)
  end.
(** abi.go:588-603: baseName, isArray, isOptional, isExtension; None = index out of range panic *)
Definition parse_name (n : name) : option (name * bool * bool * bool) :=
  match last_byte n with
  | None => None
  | Some (init, c) =>
      let isOptional := Byte.eqb c x3f in
      let baseName := if isOptional then init else n in
      match last_byte baseName with
      | None => None
      | Some (init, c) =>
          let isExtension := Byte.eqb c x24 in
          let baseName := if isExtension then init else baseName in
          match last_byte baseName with
          | None => None
          | Some (init, c1) =>
              match last_byte init with
              | None => None
              | Some (init, c0) =>
                  let isArray := Byte.eqb c0 x5b && Byte.eqb c1 x5d in
                  Some (if isArray then init else baseName, isArray, isOptional, isExtension)
              end
          end
      end
  end.

(** a change of the object the table holds for [n] *)
Definition update (tbl : rtable) (n : name) (f : rtype -> rtype) : rtable :=
  map (fun '(m, t) => (m, if bytes_eqb m n then f t else t)) tbl.
Definition set_base (b : name) (t : rtype) : rtype :=
  {| t_name := t_name t; t_baseName := t_baseName t; t_isArray := t_isArray t; t_isOptional := t_isOptional t;
     t_isExtension := t_isExtension t; t_base := Some b; t_fields := t_fields t; t_variant := t_variant t; t_ref := t_ref t |}.
Definition set_fields (l : list (name * name)) (t : rtype) : rtype :=
  {| t_name := t_name t; t_baseName := t_baseName t; t_isArray := t_isArray t; t_isOptional := t_isOptional t;
     t_isExtension := t_isExtension t; t_base := t_base t; t_fields := Some l; t_variant := t_variant t; t_ref := t_ref t |}.
Definition add_field (fd : name * name) (t : rtype) : rtype :=
  set_fields (match t_fields t with Some l => l ++ [fd] | None => [fd] end) t.
Definition set_variant (l : list name) (t : rtype) : rtype :=
  {| t_name := t_name t; t_baseName := t_baseName t; t_isArray := t_isArray t; t_isOptional := t_isOptional t;
     t_isExtension := t_isExtension t; t_base := t_base t; t_fields := t_fields t; t_variant := Some l; t_ref := t_ref t |}.
Definition add_variant (n : name) (t : rtype) : rtype :=
  set_variant (match t_variant t with Some l => l ++ [n] | None => [n] end) t.
Definition set_ref (n : name) (t : rtype) : rtype :=
  {| t_name := t_name t; t_baseName := t_baseName t; t_isArray := t_isArray t; t_isOptional := t_isOptional t;
     t_isExtension := t_isExtension t; t_base := t_base t; t_fields := t_fields t; t_variant := t_variant t; t_ref := Some n |}.

(** None = out of fuel *)
Definition fres := option (res rtable).
Definition fbind (r : fres) (f : rtable -> fres) : fres :=
  match r with Some (Ok t) => f t | r => r end.
(** abi.go:622-630 *)
Fixpoint resolve_fields (rec : name -> rtable -> fres) (n : name) (l : list AbiField) (tbl : rtable) : fres :=
  match l with
  | [] => Some (Ok tbl)
  | f :: l =>
      fbind (rec (FType f) tbl) (fun tbl =>
      resolve_fields rec n l (update tbl n (add_field (FName f, FType f))))
  end.
(** abi.go:633-636 *)
Fixpoint resolve_variants (rec : name -> rtable -> fres) (n : name) (l : list name) (tbl : rtable) : fres :=
  match l with
  | [] => Some (Ok tbl)
  | v :: l =>
      fbind (rec v tbl) (fun tbl => resolve_variants rec n l (update tbl n (add_variant v)))
  end.
(** abi.go:584-642 *)
Fixpoint resolve (fuel : nat) (a : Abi) (n : name) (tbl : rtable) : fres :=
  match lookup tbl n with
  | Some _ => Some (Ok tbl)
  | None =>
      match fuel with
      | O => None
      | S fuel =>
          match parse_name n with
          | None => Some (Panic "index out of range")
          | Some (baseName, isArray, isOptional, isExtension) =>
              let t := {| t_name := n; t_baseName := baseName; t_isArray := isArray; t_isOptional := isOptional;
                          t_isExtension := isExtension; t_base := None; t_fields := None; t_variant := None; t_ref := None |} in
              let tbl := (n, t) :: tbl in
              let rec := resolve fuel a in
              match GetStruct (Structs a) baseName with
              | Some s =>
                  let tbl := update tbl n (set_fields []) in
                  fbind (match SBase s with
                         | [] => Some (Ok tbl)
                         | b => fbind (rec b tbl) (fun tbl => Some (Ok (update tbl n (set_base b))))
                         end) (fun tbl => resolve_fields rec n (SFields s) tbl)
              | None =>
                  match GetVariant (Variants a) baseName with
                  | Some v =>
                      let tbl := update tbl n (set_variant []) in
                      resolve_variants rec n (VTypes v) tbl
                  | None =>
                      match GetType (Types a) baseName with
                      | Some t => fbind (rec (AType t) tbl) (fun tbl => Some (Ok (update tbl n (set_ref (AType t)))))
                      | None => Some (Ok tbl)
                      end
                  end
              end
          end
      end
  end.
(** Enough fuel: one more than the number of type names written in the ABI. *)
Definition abi_names (a : Abi) : list name :=
  flat_map (fun s => SBase s :: map FType (SFields s)) (Structs a)
  ++ flat_map VTypes (Variants a) ++ map AType (Types a).
Definition resolve_fuel (a : Abi) : nat := S (length (abi_names a)).

(** abi.go:664-704 allFields: [cur] walks up the base chain; [rv] is what has been
    put in front so far.  A chain visits each object of the table at most once. *)
Fixpoint allFields_loop (fuel : nat) (tbl : rtable) (cur : name) (seen : list name) (rv : list (name * name))
  : option (list (name * name)) :=
  match fuel with
  | O => None
  | S fuel =>
      match lookup tbl cur with
      | None => None
      | Some t =>
          match t_fields t with
          | None => None
          | Some fs =>
              if existsb (bytes_eqb (t_name t)) seen then None
              else
                let rv := fs ++ rv in
                match t_base t with
                | None => Some rv
                | Some b => allFields_loop fuel tbl b (t_name t :: seen) rv
                end
          end
      end
  end.
(** An empty result is a nil slice. *)
Definition allFields (tbl : rtable) (n : name) : option (list (name * name)) :=
  match allFields_loop (S (length tbl)) tbl n [] [] with
  | Some [] => None
  | r => r
  end.

(** ** Builtin types: the cases of the switches at abi.go:228-394 and :469-572 *)
Inductive builtin : Type :=
| B_bool | B_string | B_uint8 | B_uint16 | B_uint32 | B_uint64 | B_uint128
| B_int8 | B_int16 | B_int32 | B_int64 | B_int128 | B_float32 | B_float64 | B_float128
| B_varuint32 | B_varint32 | B_bytes | B_asset | B_block_timestamp_type
| B_checksum160 | B_checksum256 | B_checksum512 | B_eosio_name | B_extended_asset | B_name
| B_public_key | B_signature | B_symbol_code | B_symbol | B_time_point_sec | B_time_point.
Definition builtin_names : list (name * builtin) :=
  [(str "bool", B_bool); (str "string", B_string); (str "uint8", B_uint8); (str "uint16", B_uint16);
   (str "uint32", B_uint32); (str "uint64", B_uint64); (str "uint128", B_uint128); (str "int8", B_int8);
   (str "int16", B_int16); (str "int32", B_int32); (str "int64", B_int64); (str "int128", B_int128);
   (str "float32", B_float32); (str "float64", B_float64); (str "float128", B_float128);
   (str "varuint32", B_varuint32); (str "varint32", B_varint32); (str "bytes", B_bytes);
   (str "asset", B_asset); (str "block_timestamp_type", B_block_timestamp_type);
   (str "checksum160", B_checksum160); (str "checksum256", B_checksum256); (str "checksum512", B_checksum512);
   (str "eosio::name", B_eosio_name); (str "extended_asset", B_extended_asset); (str "name", B_name);
   (str "public_key", B_public_key); (str "signature", B_signature); (str "symbol_code", B_symbol_code);
   (str "symbol", B_symbol); (str "time_point_sec", B_time_point_sec); (str "time_point", B_time_point)].
Definition builtin_of (n : name) : option builtin := lookup builtin_names n.

(** abi.go:226-398 *)
Definition encodeBuiltin (baseName : name) (v : gval) : wr :=
  match builtin_of baseName, v with
  | Some B_bool, VPrim (PBool b) => WriteBool b
  | Some B_string, VPrim (PString s) => WriteString s
  | Some B_uint8, VPrim (PU8 v) => WriteUint8 v
  | Some B_uint16, VPrim (PU16 v) => WriteUint16 v
  | Some B_uint32, VPrim (PU32 v) => WriteUint32 v
  | Some B_uint64, VPrim (PU64 v) => WriteUint64 v
  | Some B_uint64, VPrim (PUint64 v) => WriteInt64 (i64 v)
  | Some B_uint128, VPrim (PUint128 u) => Uint128_MarshalABI u
  | Some B_int8, VPrim (PI8 v) => WriteInt8 v
  | Some B_int16, VPrim (PI16 v) => WriteInt16 v
  | Some B_int32, VPrim (PI32 v) => WriteInt32 v
  | Some B_int64, VPrim (PI64 v) => WriteInt64 v
  | Some B_int128, VPrim (PInt128 u) => Uint128_MarshalABI u
  | Some B_float32, VPrim (PF32 v) => WriteFloat32 v
  | Some B_float64, VPrim (PF64 v) => WriteFloat64 v
  | Some B_float128, VPrim (PFloat128 b) => Float128_MarshalABI b
  | Some B_varuint32, VPrim (PUint v) => WriteVaruint v
  | Some B_varint32, VPrim (PInt v) => WriteVarint v
  | Some B_bytes, VPrim (PGoBytes b) => WriteBytes b
  | Some B_asset, VPrim (PAsset a) => Asset_MarshalABI a
  | Some B_block_timestamp_type, VPrim (PBlockTimestamp t) => BlockTimestamp_MarshalABI t
  | Some B_checksum160, VPrim (PChecksum160 c) => Checksum_MarshalABI c
  | Some B_checksum256, VPrim (PChecksum256 c) => Checksum_MarshalABI c
  | Some B_checksum512, VPrim (PChecksum512 c) => Checksum_MarshalABI c
  | Some B_eosio_name, VPrim (PName n) => Name_MarshalABI n
  | Some B_extended_asset, VPrim (PExtendedAsset e) => ExtendedAsset_MarshalABI e
  | Some B_name, VPrim (PName n) => Name_MarshalABI n
  | Some B_public_key, VPrim (PPublicKey k) => Key_MarshalABI k
  | Some B_signature, VPrim (PSignature k) => Key_MarshalABI k
  | Some B_symbol_code, VPrim (PSymbolCode s) => Symbol_MarshalABI s
  | Some B_symbol, VPrim (PSymbol s) => Symbol_MarshalABI s
  | Some B_time_point_sec, VPrim (PTimePointSec t) => TimePointSec_MarshalABI t
  | Some B_time_point, VPrim (PTimePoint t) => TimePoint_MarshalABI t
  | _, _ => ERet (Some (ErrMsg "expected builtin type"))
  end.

(** [*v, err = p] / [err = rv.UnmarshalABI(dec); *v = rv]: v is assigned whatever the error. *)
Definition into {A} (c : A -> prim) (p : io A) : io gval :=
  '(x, err) <-- p ;; DRet (VPrim (c x), err).
(** abi.go:468-573 *)
Definition decodeBuiltin (baseName : name) : io gval :=
  match builtin_of baseName with
  | Some B_string => into PString ReadString
  | Some B_bool => into PBool ReadBool
  | Some B_int8 => into PI8 ReadInt8
  | Some B_uint8 => into PU8 ReadUint8
  | Some B_int16 => into PI16 ReadInt16
  | Some B_uint16 => into PU16 ReadUint16
  | Some B_int32 => into PI32 ReadInt32
  | Some B_uint32 => into PU32 ReadUint32
  | Some B_int64 => into PI64 ReadInt64
  | Some B_uint64 => into PUint64 ReadUint64
  | Some B_int128 => into PInt128 (Uint128_UnmarshalABI zero_u128)
  | Some B_uint128 => into PUint128 (Uint128_UnmarshalABI zero_u128)
  | Some B_float32 => into PF32 ReadFloat32
  | Some B_float64 => into PF64 ReadFloat64
  | Some B_float128 => into PFloat128 (Float128_UnmarshalABI (zeros 16))
  | Some B_varint32 => into PInt ReadVarint
  | Some B_varuint32 => into PUint ReadVaruint
  | Some B_asset => into PAsset (Asset_UnmarshalABI zero_asset)
  | Some B_block_timestamp_type => into PBlockTimestamp (BlockTimestamp_UnmarshalABI 0)
  | Some B_bytes => into PBytes (Bytes_UnmarshalABI [])
  | Some B_checksum160 => into PChecksum160 (Checksum_UnmarshalABI 20 (zeros 20))
  | Some B_checksum256 => into PChecksum256 (Checksum_UnmarshalABI 32 (zeros 32))
  | Some B_checksum512 => into PChecksum512 (Checksum_UnmarshalABI 64 (zeros 64))
  | Some B_extended_asset => into PExtendedAsset (ExtendedAsset_UnmarshalABI {| Quantity := zero_asset; Contract := 0 |})
  | Some B_name => into PName (Name_UnmarshalABI 0)
  | Some B_public_key => into PPublicKey (PublicKey_UnmarshalABI zero_key)
  | Some B_signature => into PSignature (Signature_UnmarshalABI zero_key)
  | Some B_symbol_code => into PSymbolCode (Symbol_UnmarshalABI 0)
  | Some B_symbol => into PSymbol (Symbol_UnmarshalABI 0)
  | Some B_time_point_sec => into PTimePointSec (TimePointSec_UnmarshalABI 0)
  | Some B_time_point => into PTimePoint (TimePoint_UnmarshalABI 0)
  | Some B_eosio_name | None => DRet (VNil, Some (ErrMsg "unknown type"))
  end.

(** ** Encoding *)
(** abi.go:171-176 *)
Fixpoint encode_elems (f : gval -> wr) (l : list gval) : wr :=
  match l with
  | [] => ERet None
  | e :: l => etry (f e) (encode_elems f l)
  end.
(** abi.go:192-196; a missing key reads as nil *)
Fixpoint encode_fields (rec : name -> gval -> wr) (fs : list (name * name)) (m : list (name * gval)) : wr :=
  match fs with
  | [] => ERet None
  | (f, t) :: fs =>
      etry (rec t (match lookup m f with Some v => v | None => VNil end)) (encode_fields rec fs m)
  end.
(** abi.go:209-221: the alternative with the given name and its index *)
Fixpoint find_variant (i : Z) (vn : name) (l : list name) : option Z :=
  match l with
  | [] => None
  | t :: l => if bytes_eqb t vn then Some i else find_variant (i + 1) vn l
  end.
(** abi.go:183-401 encodeInner; [rec] is encodeType.  The name of an alternative is
    the name of the object it points to. *)
Definition encodeInner (rec : name -> gval -> wr) (tbl : rtable) (t : rtype) (v : gval) : wr :=
  match t_ref t with
  | Some ref => rec ref v
  | None =>
      match allFields tbl (t_name t) with
      | Some fields =>
          match v with
          | VMap m => encode_fields rec fields m
          | _ => ERet (Some (ErrMsg "expected map"))
          end
      | None =>
          match t_variant t with
          | Some variant =>
              match v with
              | VSlice [VPrim (PString vn); x] =>
                  match find_variant 0 vn variant with
                  | None => ERet (Some (ErrMsg "unknown variant"))
                  | Some ti => etry (WriteVaruint ti) (rec vn x)
                  end
              | VSlice [_; _] => ERet (Some (ErrMsg "expected string variant name"))
              | VSlice _ => ERet (Some (ErrMsg "expected two elements"))
              | _ => ERet (Some (ErrMsg "expected slice"))
              end
          | None => encodeBuiltin (t_baseName t) v
          end
      end
  end.
Definition is_nil (v : gval) : bool := match v with VNil => true | _ => false end.
(** abi.go:151-181 encodeType *)
Fixpoint encodeType (fuel : nat) (tbl : rtable) (n : name) (v : gval) : wr :=
  match fuel with
  | O => EFuel
  | S fuel =>
      match lookup tbl n with
      | None => EPanic "nil pointer dereference"
      | Some t =>
          let exists_ := negb (is_nil v) in
          let body :=
            if t_isArray t then
              match v with
              | VSlice va =>
                  etry (WriteVaruint (zlen va))
                    (encode_elems (encodeInner (encodeType fuel tbl) tbl t) va)
              | _ => ERet (Some (ErrMsg "expected slice"))
              end
            else encodeInner (encodeType fuel tbl) tbl t v in
          if t_isOptional t then
            err <~~ WriteBool exists_ ;;
            if negb exists_ || match err with Some _ => true | None => false end
            then ERet None else body
          else if negb exists_ then ERet (Some (ErrMsg "found nil for non optional"))
          else body
      end
  end.

(** ** Decoding *)
(** abi.go:416-422: the loop over the elements of [make([]interface{}, l)] *)
Fixpoint decode_elems (f : io gval) (n : nat) (acc : list gval) : io (list gval) :=
  match n with
  | O => DRet (acc, None)
  | S n =>
      '(x, err) <-- f ;;
      match err with
      | Some e => DRet (acc, Some e)
      | None => decode_elems f n (acc ++ [x])
      end
  end.
(** abi.go:440-449 *)
Fixpoint decode_fields (rec : name -> io gval) (fs : list (name * name)) (vs : list (name * gval)) : io gval :=
  match fs with
  | [] => DRet (VMap vs, None)
  | (f, t) :: fs =>
      '(fv, err) <-- rec t ;;
      match err with
      | Some e => DRet (VNil, Some e)
      | None => decode_fields rec fs (assign vs f fv)
      end
  end.
(** abi.go:434-575 decodeInner into a nil [interface{}] *)
Definition decodeInner (rec : name -> io gval) (tbl : rtable) (t : rtype) : io gval :=
  match t_ref t with
  | Some ref => rec ref
  | None =>
      match allFields tbl (t_name t) with
      | Some fields => decode_fields rec fields []
      | None =>
          match t_variant t with
          | Some variant =>
              '(idx, err) <-- ReadVaruint ;;
              match err with
              | Some e => DRet (VNil, Some e)
              | None =>
                  if zlen variant <=? i64 idx then DRet (VNil, Some (ErrMsg "invalid variant index"))
                  else
                    match at_ variant idx with
                    | None => DPanic "index out of range"
                    | Some tv =>
                        '(x, err) <-- rec tv ;;
                        match err with
                        | Some e => DRet (VNil, Some e)
                        | None => DRet (VSlice [VPrim (PString tv); x], None)
                        end
                    end
              end
          | None => decodeBuiltin (t_baseName t)
          end
      end
  end.
(** abi.go:428-430: if err == io.EOF && t.isExtension { return nil } *)
Definition ext_eof (t : rtype) (r : gval * option gerr) : io gval :=
  match r with
  | (v, Some EOF) => if t_isExtension t then DRet (v, None) else DRet (v, Some EOF)
  | r => DRet r
  end.
(** abi.go:403-432 decodeType into a nil [interface{}]; an interface{} has 16 bytes *)
Fixpoint decodeType (fuel : nat) (tbl : rtable) (n : name) : io gval :=
  match fuel with
  | O => DFuel
  | S fuel =>
      match lookup tbl n with
      | None => DPanic "nil pointer dereference"
      | Some t =>
          let inner := decodeInner (decodeType fuel tbl) tbl t in
          let body :=
            if t_isArray t then
              '(l, err) <-- ReadVaruint ;;
              match err with
              | Some e => ext_eof t (VNil, Some e)
              | None =>
                  if make_ok 16 l then
                    '(va, err) <-- decode_elems inner (Z.to_nat (i64 l)) [] ;;
                    match err with
                    | Some e => DRet (VNil, Some e)
                    | None => DRet (VSlice va, None)
                    end
                  else DPanic "makeslice: len out of range"
              end
            else r <-- inner ;; ext_eof t r in
          if t_isOptional t then
            '(exists_, err) <-- ReadBool ;;
            match err with
            | Some e => DRet (VNil, Some e)
            | None => if exists_ then body else DRet (VNil, None)
            end
          else body
      end
  end.

(** ** Entry points *)
Definition with_types {B} (a : Abi) (n : name) (f : rtable -> B) (panic : string -> B) (fuel : B) : B :=
  match resolve (resolve_fuel a) a n [] with
  | Some (Ok tbl) => f tbl
  | Some (Err _) => fuel
  | Some (Panic m) => panic m
  | None => fuel
  end.
(** abi.go:135-142 *)
Definition Abi_Decode (fuel : nat) (a : Abi) (n : name) : io gval :=
  with_types a n (fun tbl => decodeType fuel tbl n) DPanic DFuel.
(** abi.go:144-149 *)
Definition Abi_Encode (fuel : nat) (a : Abi) (n : name) (v : gval) : wr :=
  with_types a n (fun tbl => encodeType fuel tbl n v) EPanic EFuel.
(** abi.go:119-125 *)
Definition Abi_DecodeAction (fuel : nat) (a : Abi) (n : Z) : io gval :=
  match GetAction (AbiActions a) n with
  | None => DRet (VNil, Some (ErrMsg "unknown action"))
  | Some act => Abi_Decode fuel a (ActType act)
  end.
(** abi.go:127-133 *)
Definition Abi_EncodeAction (fuel : nat) (a : Abi) (n : Z) (v : gval) : wr :=
  match GetAction (AbiActions a) n with
  | None => ERet (Some (ErrMsg "unknown action"))
  | Some act => Abi_Encode fuel a (ActType act) v
  end.
