(** pkg/abi: the reading and writing methods. *)
From Verif Require Import Base Prog GoVarint.

(** ** Writing methods, pkg/abi/encode.go *)

(** encode.go:159-162 WriteBytes *)
Definition WriteBytes (b : list byte) : wr := EWrite b (fun e => ERet e).
(** encode.go:164-167 WriteByte *)
Definition WriteByte (b : Z) : wr := EWrite [bz b] (fun e => ERet e).
(** encode.go:168-173 WriteBool *)
Definition WriteBool (v : bool) : wr := if v then WriteByte 1 else WriteByte 0.
(** encode.go:175-177 WriteUint8 *)
Definition WriteUint8 (v : Z) : wr := WriteByte v.
(** encode.go:179-183 WriteUint16 *)
Definition WriteUint16 (v : Z) : wr := WriteBytes (le_put 2 v).
(** encode.go:185-189 WriteUint32 *)
Definition WriteUint32 (v : Z) : wr := WriteBytes (le_put 4 v).
(** encode.go:191-195 WriteUint64 *)
Definition WriteUint64 (v : Z) : wr := WriteBytes (le_put 8 v).
(** encode.go:197-199 WriteInt8 *)
Definition WriteInt8 (v : Z) : wr := WriteByte (u8 v).
(** encode.go:201-205 WriteInt16 *)
Definition WriteInt16 (v : Z) : wr := WriteBytes (le_put 2 (u16 v)).
(** encode.go:207-211 WriteInt32 *)
Definition WriteInt32 (v : Z) : wr := WriteBytes (le_put 4 (u32 v)).
(** encode.go:213-217 WriteInt64 *)
Definition WriteInt64 (v : Z) : wr := WriteBytes (le_put 8 (u64 v)).
(** encode.go:219-223 WriteVaruint: PutUvarint into a [4]byte. *)
Definition WriteVaruint (v : Z) : wr :=
  match PutUvarint 4 v with
  | Some b => WriteBytes b
  | None => EPanic "index out of range"
  end.
(** encode.go:225-229 WriteVarint: PutVarint into a [4]byte. *)
Definition WriteVarint (v : Z) : wr :=
  match PutVarint 4 v with
  | Some b => WriteBytes b
  | None => EPanic "index out of range"
  end.
(** encode.go:231-237 WriteString *)
Definition WriteString (v : list byte) : wr :=
  etry (WriteVaruint (zlen v)) (WriteBytes v).
(** encode.go:239-241 WriteFloat32.  A float is represented by its IEEE-754 bit
    pattern, so math.Float32bits is the identity here. *)
Definition WriteFloat32 (bits : Z) : wr := WriteUint32 bits.
(** encode.go:243-245 WriteFloat64 *)
Definition WriteFloat64 (bits : Z) : wr := WriteUint64 bits.

(** ** Reading methods, pkg/abi/decode.go *)

(** [make([]T, n)] panics when n is negative or n*size exceeds the address space
    limit of the runtime (2^48 bytes on linux/amd64); smaller requests are taken
    to succeed (memory exhaustion below that limit is not modelled). *)
Definition max_alloc : Z := 281474976710656.
Definition make_ok (size n : Z) : bool := (0 <=? n) && (n * size <=? max_alloc).

(** decode.go:312-325 ReadBytes, returning the byte count, the buffer (n bytes,
    zero beyond what was read) and the error. *)
Definition ReadBytes (n : Z) : io (Z * list byte) :=
  if n <? 0 then DRet ((0, []), Some (ErrMsg "abi: read with negative count"))
  else if n =? 0 then DRet ((0, []), None)
  else if make_ok 1 n then
    DRead n (fun got err =>
      match err with
      | None => DRet ((zlen got, got), None)
      | Some e => DRet ((zlen got, got ++ zeros (Z.to_nat n - length got)), Some e)
      end)
  else DPanic "makeslice: len out of range".

(** decode.go:327-333 ReadByte *)
Definition ReadByte : io Z :=
  '(_, b, err) <-- ReadBytes 1 ;;
  match err with
  | Some e => DRet (0, Some e)
  | None => match b with
            | c :: _ => DRet (zb c, None)
            | [] => DPanic "index out of range"
            end
  end.

(** decode.go:335-341 ReadUint64 *)
Definition ReadUint64 : io Z :=
  '(_, b, err) <-- ReadBytes 8 ;;
  match err with Some e => DRet (0, Some e) | None => DRet (le_get b, None) end.
(** decode.go:343-349 ReadUint32 *)
Definition ReadUint32 : io Z :=
  '(_, b, err) <-- ReadBytes 4 ;;
  match err with Some e => DRet (0, Some e) | None => DRet (le_get b, None) end.
(** decode.go:351-357 ReadUint16 *)
Definition ReadUint16 : io Z :=
  '(_, b, err) <-- ReadBytes 2 ;;
  match err with Some e => DRet (0, Some e) | None => DRet (le_get b, None) end.
(** decode.go:359-365 ReadUint8 *)
Definition ReadUint8 : io Z := dtry 0 ReadByte (fun b => DRet (b, None)).
(** decode.go:367-373 ReadInt64 *)
Definition ReadInt64 : io Z := dtry 0 ReadUint64 (fun v => DRet (i64 v, None)).
(** decode.go:375-381 ReadInt32 *)
Definition ReadInt32 : io Z := dtry 0 ReadUint32 (fun v => DRet (i32 v, None)).
(** decode.go:383-389 ReadInt16 *)
Definition ReadInt16 : io Z := dtry 0 ReadUint16 (fun v => DRet (i16 v, None)).
(** decode.go:391-397 ReadInt8 *)
Definition ReadInt8 : io Z := dtry 0 ReadByte (fun b => DRet (i8 b, None)).
(** decode.go:416-422 ReadVaruint *)
Definition ReadVaruint : io Z := dtry 0 (ReadUvarint ReadByte) (fun v => DRet (v, None)).
(** decode.go:424-430 ReadVarint *)
Definition ReadVarint : io Z := dtry 0 (GoVarint.ReadVarint ReadByte) (fun v => DRet (v, None)).
(** decode.go:399-409 ReadString *)
Definition ReadString : io (list byte) :=
  dtry [] ReadVaruint (fun len =>
  '(_, utf8, err) <-- ReadBytes (i64 len) ;;
  match err with Some e => DRet ([], Some e) | None => DRet (utf8, None) end).
(** decode.go:411-414 ReadBool *)
Definition ReadBool : io bool :=
  '(b, err) <-- ReadByte ;; DRet (negb (b =? 0), err).
(** decode.go:432-438 ReadFloat32 (bit pattern) *)
Definition ReadFloat32 : io Z := dtry 0 ReadUint32 (fun v => DRet (v, None)).
(** decode.go:440-446 ReadFloat64 (bit pattern) *)
Definition ReadFloat64 : io Z := dtry 0 ReadUint64 (fun v => DRet (v, None)).

(** decode.go:77-82: the [case *[]byte] fast path of Decode, decoding into a
    target currently holding [old]. *)
Definition DecodeByteSlice (old : list byte) : io (list byte) :=
  '(len, err) <-- ReadVaruint ;;
  match err with
  | Some e => DRet (old, Some e)
  | None =>
      '(_, b, err) <-- ReadBytes (i64 len) ;; DRet (b, err)
  end.
(** encode.go:66-70: the [case []byte] fast path of Encode. *)
Definition EncodeByteSlice (v : list byte) : wr :=
  etry (WriteVaruint (zlen v)) (WriteBytes v).
