(** pkg/chain: binary form of the fixed types (MarshalABI / UnmarshalABI).

    A method [func (x *T) UnmarshalABI(d) error] is modelled as a program taking
    the old target and returning the new target together with the error.  A nil
    and an empty slice are identified (both are [[]]). *)
From Verif Require Import Base Prog GoVarint AbiPrim.

(** [v, err := p; if err == nil { *x = v }; return err]. *)
Definition keep {A} (old : A) (p : io A) : io A :=
  '(v, err) <-- p ;;
  DRet (match err with None => v | Some _ => old end, err).

(** ** Numbers, chain/numbers.go *)
(** numbers.go:15-18 Uint128, :20 Int128 *)
Record U128 := { Lo : Z; Hi : Z }.
(** numbers.go:89-99 Uint128.Bytes for binary.LittleEndian; Int128.Bytes (numbers.go:101-103) is the same *)
Definition U128_BytesLE (u : U128) : list byte := le_put 8 (Lo u) ++ le_put 8 (Hi u).
(** numbers.go:89-99 Uint128.Bytes for binary.BigEndian *)
Definition U128_BytesBE (u : U128) : list byte := be_put 8 (Hi u) ++ be_put 8 (Lo u).
(** numbers.go:131-133 and :135-137 (Int128 is the same representation) *)
Definition Uint128_MarshalABI (u : U128) : wr := WriteBytes (U128_BytesLE u).
(** numbers.go:153-163, :165-167 *)
Definition Uint128_UnmarshalABI (old : U128) : io U128 :=
  dtry old ReadUint64 (fun lo =>
  '(hi, err) <-- ReadUint64 ;;
  DRet (match err with None => {| Lo := lo; Hi := hi |} | Some _ => old end, err)).
(** numbers.go:139-141 *)
Definition Float128_MarshalABI (d : list byte) : wr := WriteBytes d.
(** numbers.go:169-175; Data is a [16]byte, so copy replaces all of it. *)
Definition Float128_UnmarshalABI (old : list byte) : io (list byte) :=
  '(_, b, err) <-- ReadBytes 16 ;;
  DRet (match err with None => b | Some _ => old end, err).
(** numbers.go:143-145 *)
Definition Uint64_MarshalABI (v : Z) : wr := WriteUint64 v.
(** numbers.go:177-183 *)
Definition Uint64_UnmarshalABI (old : Z) : io Z := keep old ReadUint64.
(** numbers.go:147-149 *)
Definition BlockNum_MarshalABI (v : Z) : wr := WriteUint32 v.
(** numbers.go:185-191 *)
Definition BlockNum_UnmarshalABI (old : Z) : io Z := keep old ReadUint32.

(** ** Names, symbols, assets *)
(** name.go:25-27 *)
Definition Name_MarshalABI (n : Z) : wr := WriteUint64 n.
(** name.go:31-37 *)
Definition Name_UnmarshalABI (old : Z) : io Z := keep old ReadUint64.
(** symbol.go:83-85, :87-89 (Symbol and SymbolCode) *)
Definition Symbol_MarshalABI (s : Z) : wr := WriteUint64 s.
(** symbol.go:93-99, :101-107 *)
Definition Symbol_UnmarshalABI (old : Z) : io Z := keep old ReadUint64.
(** asset.go:14-17; NewAsset (asset.go:25-27) is its constructor *)
Record Asset := { Value : Z; Sym : Z }.
(** asset.go:19-22 *)
Record ExtendedAsset := { Quantity : Asset; Contract : Z }.
(** asset.go:116-122 *)
Definition Asset_MarshalABI (a : Asset) : wr :=
  etry (WriteInt64 (Value a)) (Symbol_MarshalABI (Sym a)).
(** asset.go:124-130 *)
Definition ExtendedAsset_MarshalABI (e : ExtendedAsset) : wr :=
  etry (Asset_MarshalABI (Quantity e)) (Name_MarshalABI (Contract e)).
(** asset.go:134-141 *)
Definition Asset_UnmarshalABI (old : Asset) : io Asset :=
  dtry old ReadInt64 (fun v =>
  '(s, err) <-- Symbol_UnmarshalABI 0 ;; DRet ({| Value := v; Sym := s |}, err)).
(** asset.go:143-151 *)
Definition ExtendedAsset_UnmarshalABI (old : ExtendedAsset) : io ExtendedAsset :=
  '(q, err) <-- Asset_UnmarshalABI (Quantity old) ;;
  match err with
  | Some e => DRet ({| Quantity := q; Contract := Contract old |}, Some e)
  | None =>
      '(c, err) <-- Name_UnmarshalABI (Contract old) ;;
      DRet ({| Quantity := q; Contract := c |}, err)
  end.

(** ** Times, chain/time.go *)
(** time.go:94-96 *)
Definition TimePoint_MarshalABI (t : Z) : wr := WriteInt64 t.
(** time.go:98-100 *)
Definition TimePointSec_MarshalABI (t : Z) : wr := WriteUint32 t.
(** time.go:102-104 *)
Definition BlockTimestamp_MarshalABI (t : Z) : wr := WriteUint32 t.
(** time.go:108-114 *)
Definition TimePoint_UnmarshalABI (old : Z) : io Z := keep old ReadInt64.
(** time.go:116-122 *)
Definition TimePointSec_UnmarshalABI (old : Z) : io Z := keep old ReadUint32.
(** time.go:124-130 *)
Definition BlockTimestamp_UnmarshalABI (old : Z) : io Z := keep old ReadUint32.

(** ** Byte strings *)
(** bytes.go:19-27 Bytes, blob.go:20-28 Blob *)
Definition Bytes_MarshalABI (b : list byte) : wr :=
  etry (WriteVaruint (zlen b)) (WriteBytes b).
(** bytes.go:31-41 Bytes, blob.go:32-42 Blob *)
Definition Bytes_UnmarshalABI (old : list byte) : io (list byte) :=
  dtry old ReadVaruint (fun l =>
  '(_, data, err) <-- ReadBytes (i64 l) ;;
  DRet (match err with None => data | Some _ => old end, err)).
(** checksum.go:65-75: Checksum160, 256, 512 (n = 20, 32, 64 bytes) *)
Definition Checksum_MarshalABI (c : list byte) : wr := WriteBytes c.
(** checksum.go:79-101 *)
Definition Checksum_UnmarshalABI (n : Z) (old : list byte) : io (list byte) :=
  '(_, data, err) <-- ReadBytes n ;;
  DRet (match err with None => data | Some _ => old end, err).

(** ** Keys and signatures *)
(** public_key.go:12-15, signature.go:12-15: Type is a byte.  NewPublicKey (public_key.go:17-22)
    and NewSignature (signature.go:17-22) are its constructor. *)
Record Key := { KType : Z; KData : list byte }.
(** key_type.go:5-9 *)
Definition K1 : Z := 0.
Definition P1 : Z := 1.
Definition WA : Z := 2.
(** public_key.go:69-75, signature.go:53-59 *)
Definition Key_MarshalABI (k : Key) : wr :=
  etry (WriteByte (KType k)) (WriteBytes (KData k)).
(** binary.PutUvarint into a buffer of binary.MaxVarintLen32 = 5 bytes. *)
Definition put_len {A} (l : Z) (f : list byte -> io A) : io A :=
  match PutUvarint 5 l with
  | Some b => f b
  | None => DPanic "index out of range"
  end.
(** public_key.go:79-111 *)
Definition PublicKey_UnmarshalABI (old : Key) : io Key :=
  dtry old ReadByte (fun t =>
  if (t =? K1) || (t =? P1) then
    '(_, b, err) <-- ReadBytes 33 ;; DRet ({| KType := t; KData := b |}, err)
  else if t =? WA then
    let old' := {| KType := t; KData := KData old |} in
    dtry old' (ReadBytes 34) (fun '(_, data) =>
    dtry old' ReadVaruint (fun l =>
    dtry old' (ReadBytes (i64 l)) (fun '(_, rpid) =>
    put_len l (fun n =>
    DRet ({| KType := t; KData := data ++ n ++ rpid |}, None)))))
  else DRet ({| KType := t; KData := KData old |}, Some (ErrMsg "unknown key type"))).
(** signature.go:63-106 *)
Definition Signature_UnmarshalABI (old : Key) : io Key :=
  dtry old ReadByte (fun t =>
  if (t =? K1) || (t =? P1) then
    '(_, b, err) <-- ReadBytes 65 ;; DRet ({| KType := t; KData := b |}, err)
  else if t =? WA then
    let old' := {| KType := t; KData := KData old |} in
    dtry old' (ReadBytes 65) (fun '(_, data) =>
    dtry old' ReadVaruint (fun al =>
    dtry old' (ReadBytes (i64 al)) (fun '(_, ad) =>
    dtry old' ReadVaruint (fun cl =>
    dtry old' (ReadBytes (i64 cl)) (fun '(_, cd) =>
    put_len al (fun na =>
    put_len cl (fun nc =>
    DRet ({| KType := t; KData := data ++ na ++ ad ++ nc ++ cd |}, None))))))))
  else DRet ({| KType := t; KData := KData old |}, Some (ErrMsg "unknown key type"))).

(** ** Actions, chain/action.go *)
(** action.go:10-13 *)
Record PermissionLevel := { Actor : Z; Permission : Z }.
(** action.go:15-20; NewAction (action.go:22-24) is its constructor *)
Record Action := { Account : Z; AName : Z; Authorization : list PermissionLevel; AData : list byte }.
Definition zero_action : Action :=
  {| Account := 0; AName := 0; Authorization := []; AData := [] |}.

(** action.go:53-56: the error of the first write is discarded. *)
Definition PermissionLevel_MarshalABI (p : PermissionLevel) : wr :=
  _ <~~ Name_MarshalABI (Actor p) ;;
  Name_MarshalABI (Permission p).
(** action.go:67-72 (the loop of Action.MarshalABI) *)
Fixpoint write_auths (l : list PermissionLevel) (k : wr) : wr :=
  match l with
  | [] => k
  | p :: l => etry (PermissionLevel_MarshalABI p) (write_auths l k)
  end.
(** action.go:58-74: the errors of the first two writes are discarded. *)
Definition Action_MarshalABI (a : Action) : wr :=
  _ <~~ Name_MarshalABI (Account a) ;;
  _ <~~ Name_MarshalABI (AName a) ;;
  etry (WriteVaruint (zlen (Authorization a)))
    (write_auths (Authorization a) (Bytes_MarshalABI (AData a))).
(** action.go:78-81: the error of the first read is discarded. *)
Definition PermissionLevel_UnmarshalABI (old : PermissionLevel) : io PermissionLevel :=
  '(a, _) <-- Name_UnmarshalABI (Actor old) ;;
  '(p, err) <-- Name_UnmarshalABI (Permission old) ;;
  DRet ({| Actor := a; Permission := p |}, err).
(** action.go:90-97: the loop appends to what the target already holds. *)
Fixpoint read_auths (n : nat) (acc : list PermissionLevel) : io (list PermissionLevel) :=
  match n with
  | O => DRet (acc, None)
  | S n =>
      '(p, err) <-- PermissionLevel_UnmarshalABI {| Actor := 0; Permission := 0 |} ;;
      match err with
      | Some e => DRet (acc, Some e)
      | None => read_auths n (acc ++ [p])
      end
  end.
(** action.go:83-99: the errors of the first two reads are discarded. *)
Definition Action_UnmarshalABI (old : Action) : io Action :=
  '(acc, _) <-- Name_UnmarshalABI (Account old) ;;
  '(nm, _) <-- Name_UnmarshalABI (AName old) ;;
  '(l, err) <-- ReadVaruint ;;
  match err with
  | Some e => DRet ({| Account := acc; AName := nm; Authorization := Authorization old; AData := AData old |}, Some e)
  | None =>
      '(au, err) <-- read_auths (Z.to_nat (i64 l)) (Authorization old) ;;
      match err with
      | Some e => DRet ({| Account := acc; AName := nm; Authorization := au; AData := AData old |}, Some e)
      | None =>
          '(d, err) <-- Bytes_UnmarshalABI (AData old) ;;
          DRet ({| Account := acc; AName := nm; Authorization := au; AData := d |}, err)
      end
  end.

(** ** Transactions, chain/transaction.go *)
(** transaction.go:5-12 *)
Record TransactionHeader := {
  Expiration : Z; RefBlockNum : Z; RefBlockPrefix : Z;
  MaxNetUsageWords : Z; MaxCpuUsageMs : Z; DelaySec : Z }.
(** transaction.go:14-17 *)
Record TransactionExtension := { EType : Z; EData : list byte }.
(** transaction.go:19-24 *)
Record Transaction := {
  Header : TransactionHeader;
  ContextFreeActions : list Action;
  Actions : list Action;
  Extensions : list TransactionExtension }.
Definition zero_extension := {| EType := 0; EData := [] |}.

(** transaction.go:28-52 *)
Definition TransactionHeader_MarshalABI (h : TransactionHeader) : wr :=
  etry (TimePointSec_MarshalABI (Expiration h))
  (etry (WriteUint16 (RefBlockNum h))
  (etry (WriteUint32 (RefBlockPrefix h))
  (etry (WriteVaruint (MaxNetUsageWords h))
  (etry (WriteUint8 (MaxCpuUsageMs h))
  (WriteVaruint (DelaySec h)))))).
(** transaction.go:54-62 *)
Definition TransactionExtension_MarshalABI (e : TransactionExtension) : wr :=
  etry (WriteUint16 (EType e)) (Bytes_MarshalABI (EData e)).
(** The loops at transaction.go:75-80, 86-91, 97-102. *)
Fixpoint write_all {A} (f : A -> wr) (l : list A) (k : wr) : wr :=
  match l with
  | [] => k
  | x :: l => etry (f x) (write_all f l k)
  end.
(** transaction.go:64-104 *)
Definition Transaction_MarshalABI (t : Transaction) : wr :=
  etry (TransactionHeader_MarshalABI (Header t))
  (etry (WriteVaruint (zlen (ContextFreeActions t)))
  (write_all Action_MarshalABI (ContextFreeActions t)
  (etry (WriteVaruint (zlen (Actions t)))
  (write_all Action_MarshalABI (Actions t)
  (etry (WriteVaruint (zlen (Extensions t)))
  (write_all TransactionExtension_MarshalABI (Extensions t)
  (ERet None))))))).

(** transaction.go:108-132: [txh.F, err = d.ReadX()] stores the value read (zero
    when there was an error). *)
Definition TransactionHeader_UnmarshalABI (old : TransactionHeader) : io TransactionHeader :=
  '(ex, err) <-- TimePointSec_UnmarshalABI (Expiration old) ;;
  let h := {| Expiration := ex; RefBlockNum := RefBlockNum old; RefBlockPrefix := RefBlockPrefix old;
              MaxNetUsageWords := MaxNetUsageWords old; MaxCpuUsageMs := MaxCpuUsageMs old; DelaySec := DelaySec old |} in
  match err with Some e => DRet (h, Some e) | None =>
  '(rbn, err) <-- ReadUint16 ;;
  let h := {| Expiration := ex; RefBlockNum := rbn; RefBlockPrefix := RefBlockPrefix old;
              MaxNetUsageWords := MaxNetUsageWords old; MaxCpuUsageMs := MaxCpuUsageMs old; DelaySec := DelaySec old |} in
  match err with Some e => DRet (h, Some e) | None =>
  '(rbp, err) <-- ReadUint32 ;;
  let h := {| Expiration := ex; RefBlockNum := rbn; RefBlockPrefix := rbp;
              MaxNetUsageWords := MaxNetUsageWords old; MaxCpuUsageMs := MaxCpuUsageMs old; DelaySec := DelaySec old |} in
  match err with Some e => DRet (h, Some e) | None =>
  '(mnu, err) <-- ReadVaruint ;;
  let h := {| Expiration := ex; RefBlockNum := rbn; RefBlockPrefix := rbp;
              MaxNetUsageWords := mnu; MaxCpuUsageMs := MaxCpuUsageMs old; DelaySec := DelaySec old |} in
  match err with Some e => DRet (h, Some e) | None =>
  '(mcu, err) <-- ReadUint8 ;;
  let h := {| Expiration := ex; RefBlockNum := rbn; RefBlockPrefix := rbp;
              MaxNetUsageWords := mnu; MaxCpuUsageMs := mcu; DelaySec := DelaySec old |} in
  match err with Some e => DRet (h, Some e) | None =>
  '(ds, err) <-- ReadVaruint ;;
  DRet ({| Expiration := ex; RefBlockNum := rbn; RefBlockPrefix := rbp;
           MaxNetUsageWords := mnu; MaxCpuUsageMs := mcu; DelaySec := ds |}, err)
  end end end end end.
(** transaction.go:134-142 *)
Definition TransactionExtension_UnmarshalABI (old : TransactionExtension) : io TransactionExtension :=
  '(t, err) <-- ReadUint16 ;;
  match err with
  | Some e => DRet ({| EType := t; EData := EData old |}, Some e)
  | None =>
      '(d, err) <-- Bytes_UnmarshalABI (EData old) ;;
      DRet ({| EType := t; EData := d |}, err)
  end.
(** The loops at transaction.go:156-161, 167-172, 178-183: decode in place into
    the n zero elements made by [make]. *)
Fixpoint read_all {A} (zero : A) (f : A -> io A) (n : nat) : io (list A) :=
  match n with
  | O => DRet ([], None)
  | S n =>
      '(x, err) <-- f zero ;;
      match err with
      | Some e => DRet (x :: repeat zero n, Some e)
      | None => '(xs, err) <-- read_all zero f n ;; DRet (x :: xs, err)
      end
  end.
(** [len, err := ReadVaruint(); xs = make([]T, len); loop], keeping [old] when the
    length cannot be read.  transaction.go:151-161, 162-172, 173-183.  [size] is
    the size of T in bytes on a 64-bit platform. *)
Definition read_slice {A} (size : Z) (zero : A) (f : A -> io A) (old : list A) : io (list A) :=
  '(len, err) <-- ReadVaruint ;;
  match err with
  | Some e => DRet (old, Some e)
  | None =>
      if make_ok size len
      then read_all zero f (Z.to_nat (i64 len))
      else DPanic "makeslice: len out of range"
  end.
(** transaction.go:144-185 *)
Definition Transaction_UnmarshalABI (old : Transaction) : io Transaction :=
  '(h, err) <-- TransactionHeader_UnmarshalABI (Header old) ;;
  let t := {| Header := h; ContextFreeActions := ContextFreeActions old;
              Actions := Actions old; Extensions := Extensions old |} in
  match err with Some e => DRet (t, Some e) | None =>
  '(cfa, err) <-- read_slice 64 zero_action Action_UnmarshalABI (ContextFreeActions old) ;;
  let t := {| Header := h; ContextFreeActions := cfa;
              Actions := Actions old; Extensions := Extensions old |} in
  match err with Some e => DRet (t, Some e) | None =>
  '(acts, err) <-- read_slice 64 zero_action Action_UnmarshalABI (Actions old) ;;
  let t := {| Header := h; ContextFreeActions := cfa;
              Actions := acts; Extensions := Extensions old |} in
  match err with Some e => DRet (t, Some e) | None =>
  '(exts, err) <-- read_slice 32 zero_extension TransactionExtension_UnmarshalABI (Extensions old) ;;
  DRet ({| Header := h; ContextFreeActions := cfa; Actions := acts; Extensions := exts |}, err)
  end end end.

(** ** Digests *)
(** checksum.go:36-38, :46-48: d[:n], copied into an array of n bytes.  (Go compares n
    with the capacity of d; a digest's capacity is taken to be its length.) *)
Definition digest_copy (n : nat) (d : list byte) : res (list byte) :=
  if (length d <? n)%nat then Panic "slice bounds out of range" else Ok (firstn n d).
(** checksum.go:32-39; crypto/sha256 is not modelled, [sha256] stands for it *)
Definition Checksum256Digest (sha256 : list byte -> list byte) (message : list byte) : res (list byte) :=
  digest_copy 32 (sha256 message).
(** checksum.go:42-49, crypto/sha512 likewise *)
Definition Checksum512Digest (sha512 : list byte -> list byte) (message : list byte) : res (list byte) :=
  digest_copy 64 (sha512 message).
(** action.go:42-49 Action.Digest. *)
Definition Action_Digest (sha256 : list byte -> list byte) (a : Action) : res (list byte) :=
  match runw (Action_MarshalABI a) [] with
  | WDone None b => Checksum256Digest sha256 b
  | WDone (Some _) _ => Panic "marshal error"
  | WCrash m _ => Panic m
  | WDiverged => Panic "stack"
  end.
