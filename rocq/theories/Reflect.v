(** The reflective codec: pkg/abi/encode.go:28-150 (Encode, EncodeValue),
    pkg/abi/decode.go:29-300 and :454-522 (Decode, DecodeVariant, DecodeValue,
    indirect), with the fast paths pkg/chain installs (chain/encoding.go).

    Go types are described by [gtype], values and decode targets by [rval].
    Simplifications: values are trees, so two pointers or slices sharing storage are
    not represented; interface variables are left to Interfaces.v (Encode) and
    Targets.v (Decode); the methods of user-defined Marshaler/Unmarshaler types and the custom functions of
    NewCustomEncoder/NewCustomDecoder are arbitrary programs; Decode is given non-nil
    pointers (other arguments: Targets.v); map keys are compared structurally, so float, pointer and
    interface keys are excluded by [has_type] in SpecReflect. *)
From Verif Require Import Base Prog AbiPrim Chain Values Leaf.

(** The value of a struct field's [eosio] tag (encode.go:113, decode.go:215). *)
Inductive tag := NoTag | Optional | Extension | Variant.
(** Exported; named "_"; any other unexported field. *)
Inductive visibility := Exported | Blank | Hidden.
(** Named integer types without methods, by kind. *)
Inductive ikind := IU64 | IU32 | II64 | II32.

Inductive gtype : Type :=
| TLeaf (k : kind)                       (* bool, string, ..., []byte, and pkg/chain's types *)
| TInt (k : ikind)
| TOther                                 (* kinds no case handles and without nil: named strings, bools, ... *)
| TPtr (t : gtype)
| TSlice (t : gtype)
| TArray (n : nat) (t : gtype)
| TMap (k v : gtype)
| TStruct (fs : list (tag * visibility * gtype))
| TUser (i : nat) (u : gtype)            (* type with underlying type u and methods MarshalABI, UnmarshalABI *)
| TName (i : nat).                       (* back reference to a declared type *)

(** Values.  [RLeaf p z]: [z] says whether the value is Go's zero value (reflect's
    IsZero), which [p] alone does not tell for types holding slices, since an empty
    slice need not be nil.  [None] stands for nil.  A map is an association list in
    the order in which the runtime happens to enumerate it.  [ROther z]: [z] is IsZero. *)
Inductive rval : Type :=
| RLeaf (p : prim) (z : bool)
| RInt (v : Z)
| ROther (z : bool)
| RPtr (o : option rval)
| RSlice (o : option (list rval))
| RArray (l : list rval)
| RMap (o : option (list (rval * rval)))
| RStruct (l : list rval)
| RUser (v : rval).

(** Declared types, so that types may be recursive through pointers, slices and
    maps; the in-memory size of a type (for allocation limits only); the methods of
    user-defined types (encode.go:19-21, decode.go:20-22): MarshalABI, with a value
    receiver so that both the type and pointers to it have it, and UnmarshalABI, which
    is given what its target holds. *)
Record types := {
  declared : nat -> gtype; size_of : gtype -> Z;
  marshals : nat -> rval -> wr; unmarshals : nat -> rval -> io rval }.
Definition head (E : types) (t : gtype) : gtype :=
  match t with TName i => declared E i | _ => t end.

(** Go's zero value of a type.  A back reference by value cannot occur in Go. *)
Fixpoint zero_of (t : gtype) : rval :=
  match t with
  | TLeaf k => RLeaf (zero_prim k) true
  | TInt _ => RInt 0
  | TOther | TName _ => ROther true
  | TPtr _ => RPtr None
  | TSlice _ => RSlice None
  | TArray n t => RArray (repeat (zero_of t) n)
  | TMap _ _ => RMap None
  | TStruct fs => RStruct ((fix go (fs : list (tag * visibility * gtype)) :=
                              match fs with [] => [] | (_, t) :: fs => zero_of t :: go fs end) fs)
  | TUser _ u => RUser (zero_of u)
  end.
Definition zero (E : types) (t : gtype) : rval := zero_of (head E t).

(** reflect.Value.IsZero *)
Fixpoint is_zero (v : rval) : bool :=
  match v with
  | RLeaf _ z => z
  | RInt v => v =? 0
  | ROther z => z
  | RPtr o => match o with None => true | Some _ => false end
  | RSlice o => match o with None => true | Some _ => false end
  | RArray l => (fix all l := match l with [] => true | v :: l => is_zero v && all l end) l
  | RMap o => match o with None => true | Some _ => false end
  | RStruct l => (fix all l := match l with [] => true | v :: l => is_zero v && all l end) l
  | RUser v => is_zero v
  end.
(** IsZero of a leaf after it was decoded: slices are then never nil. *)
Definition leaf_zero (p : prim) : bool :=
  match p with
  | PBool b => negb b
  | PString s => match s with [] => true | _ => false end
  | PU8 v | PU16 v | PU32 v | PU64 v | PI8 v | PI16 v | PI32 v | PI64 v | PF32 v | PF64 v | PInt v | PUint v
  | PBlockNum v | PBlockTimestamp v | PName v | PSymbol v | PSymbolCode v | PTimePoint v | PTimePointSec v
  | PUint64 v => v =? 0
  | PChecksum160 b | PChecksum256 b | PChecksum512 b | PFloat128 b => forallb (fun c => zb c =? 0) b
  | PInt128 u | PUint128 u => (Lo u =? 0) && (Hi u =? 0)
  | PAsset a => (Value a =? 0) && (Sym a =? 0)
  | PPermissionLevel p => (Actor p =? 0) && (Permission p =? 0)
  | PTransactionHeader h =>
      (Expiration h =? 0) && (RefBlockNum h =? 0) && (RefBlockPrefix h =? 0) && (MaxNetUsageWords h =? 0)
      && (MaxCpuUsageMs h =? 0) && (DelaySec h =? 0)
  | PExtendedAsset e => (Value (Quantity e) =? 0) && (Sym (Quantity e) =? 0) && (Contract e =? 0)
  | PGoBytes _ | PBlob _ | PBytes _ | PAction _ | PPublicKey _ | PSignature _ | PTransaction _
  | PTransactionExtension _ => false
  end.

(** Go's own types; the other leaves are pkg/chain's, which have MarshalABI and
    UnmarshalABI methods. *)
Definition go_kind (k : kind) : bool :=
  match k with
  | KBool | KString | KU8 | KU16 | KU32 | KU64 | KI8 | KI16 | KI32 | KI64 | KF32 | KF64 | KInt | KUint | KGoBytes => true
  | _ => false
  end.
(** chain/encoding.go:10-125: the types of the fast-path tables. *)
Definition table_kind (k : kind) : bool :=
  match k with KExtendedAsset => false | _ => negb (go_kind k) end.

(** ** Encoding *)

(** abi/encode.go:12 EncodeFunc: an arbitrary program given the value. *)
Definition ehook := gtype -> rval -> enc (bool * option gerr).
(** chain/encoding.go:70-125 chainEncoder *)
Definition chain_encoder : ehook := fun t v =>
  match t, v with
  | TLeaf k, RLeaf p _ =>
      if table_kind k then e <~~ write_prim p ;; ERet (true, e) else ERet (false, None)
  | _, _ => ERet (false, None)
  end.
(** chain/encoding.go:139-147 NewCustomEncoder *)
Definition custom_encoder (fn : ehook) : ehook := fun t v =>
  r <~~ fn t v ;;
  match r with
  | (false, None) => chain_encoder t v
  | r => ERet r
  end.
(** A value by pointer goes to its MarshalABI (encode.go:79-83); only ExtendedAsset
    differs from the by-value path. *)
Definition marshal (p : prim) : wr :=
  match p with PExtendedAsset e => ExtendedAsset_MarshalABI e | p => write_prim p end.
(** encode.go:143-150 *)
Definition write_int (k : ikind) (v : Z) : wr :=
  match k with
  | IU64 => WriteUint64 v | IU32 => WriteUint32 v | II64 => WriteInt64 v | II32 => WriteInt32 v
  end.
Definition nil_pointer_err := ErrMsg "eosio encoder: encountered unexpected nil pointer".
Definition unexpected_type_err := ErrMsg "eosio encoder: unexpected type".

(** encode.go:30-34: the custom function first, then [rest]. *)
Definition hooked (h : ehook) (t : gtype) (v : rval) (rest : wr) : wr :=
  r <~~ h t v ;;
  match r with
  | (true, err) => ERet err
  | (false, Some e) => ERet (Some e)
  | (false, None) => rest
  end.
(** A leaf the custom function left alone.  ExtendedAsset by value is encoded as a
    struct, so the function is asked again for its two fields. *)
Definition encode_leaf (h : ehook) (p : prim) : wr :=
  match p with
  | PExtendedAsset e =>
      let q := PAsset (Quantity e) in
      let c := PName (Contract e) in
      etry (hooked h (TLeaf KAsset) (RLeaf q (leaf_zero q)) (write_prim q))
           (hooked h (TLeaf KName) (RLeaf c (leaf_zero c)) (write_prim c))
  | p => write_prim p
  end.

(** encode.go:29-150 Encode and EncodeValue.  Cases where the value does not have
    the type are unreachable and end in EPanic. *)
Fixpoint encode (E : types) (h : ehook) (t : gtype) (v : rval) {struct v} : wr :=
  hooked h (head E t) v
    match head E t, v with
    | TLeaf k, RLeaf p _ => encode_leaf h p
    | TInt k, RInt v => write_int k v
    | TOther, ROther _ => ERet (Some unexpected_type_err)
    | TPtr t, RPtr o =>
        match head E t with
        | TLeaf k =>
            if go_kind k then match o with
                              | None => ERet (Some nil_pointer_err)
                              | Some x => encode E h t x
                              end
            else match o with
                 | None => EPanic "value method called using nil pointer"
                 | Some (RLeaf p _) => marshal p
                 | Some _ => EPanic "ill-typed"
                 end
        | TUser i _ =>
            match o with
            | None => EPanic "value method called using nil pointer"
            | Some (RUser x) => marshals E i x
            | Some _ => EPanic "ill-typed"
            end
        | _ => match o with
               | None => ERet (Some nil_pointer_err)
               | Some x => encode E h t x
               end
        end
    | TSlice t, RSlice o =>
        let l := match o with None => [] | Some l => l end in
        etry (WriteVaruint (zlen l))
          match o with
          | None => ERet None
          | Some l => (fix go l := match l with
                                   | [] => ERet None
                                   | x :: l => etry (encode E h t x) (go l)
                                   end) l
          end
    | TArray _ t, RArray l =>
        (fix go l := match l with
                     | [] => ERet None
                     | x :: l => etry (encode E h t x) (go l)
                     end) l
    | TStruct fs, RStruct l =>
        (fix go (fs : list (tag * visibility * gtype)) (l : list rval) {struct l} : wr :=
           match l, fs with
           | x :: l, (tg, vis, t) :: fs =>
               let field := match vis with
                            | Exported => encode E h t x
                            | _ => EPanic "cannot return value obtained from unexported field"
                            end in
               match tg with
               | Optional =>
                   _ <~~ WriteBool (negb (is_zero x)) ;;
                   if is_zero x then go fs l else etry field (go fs l)
               | _ => etry field (go fs l)
               end
           | _, _ => ERet None
           end) fs l
    | TMap kt vt, RMap o =>
        let m := match o with None => [] | Some m => m end in
        etry (WriteVaruint (zlen m))
          match o with
          | None => ERet None
          | Some m => (fix go m := match m with
                                   | [] => ERet None
                                   | (k, x) :: m => etry (encode E h kt k) (etry (encode E h vt x) (go m))
                                   end) m
          end
    | TUser i _, RUser x => marshals E i x
    | _, _ => EPanic "ill-typed"
    end.
(** The loops of [encode], named for the proofs. *)
Definition put_list (f : rval -> wr) : list rval -> wr :=
  fix go l := match l with [] => ERet None | x :: l => etry (f x) (go l) end.
Definition put_pairs (f g : rval -> wr) : list (rval * rval) -> wr :=
  fix go m := match m with [] => ERet None | (k, x) :: m => etry (f k) (etry (g x) (go m)) end.
Definition put_fields (E : types) (h : ehook) : list (tag * visibility * gtype) -> list rval -> wr :=
  fix go (fs : list (tag * visibility * gtype)) (l : list rval) {struct l} : wr :=
    match l, fs with
    | x :: l, (tg, vis, t) :: fs =>
        let field := match vis with
                     | Exported => encode E h t x
                     | _ => EPanic "cannot return value obtained from unexported field"
                     end in
        match tg with
        | Optional =>
            _ <~~ WriteBool (negb (is_zero x)) ;;
            if is_zero x then go fs l else etry field (go fs l)
        | _ => etry field (go fs l)
        end
    | _, _ => ERet None
    end.

(** ** Decoding *)

(** abi/decode.go:13 DecodeFunc: an arbitrary program given the target. *)
Definition dhook := gtype -> rval -> dec (rval * (bool * option gerr)).
(** Read a leaf into a target. *)
Definition leaf_read (p : prim) : io rval :=
  '(q, err) <-- read_prim p ;; DRet (RLeaf q (leaf_zero q), err).
(** chain/encoding.go:10-68 chainDecoder *)
Definition chain_decoder : dhook := fun t v =>
  match t, v with
  | TLeaf k, RLeaf p _ =>
      if table_kind k then '(v, err) <-- leaf_read p ;; DRet (v, (true, err)) else DRet (v, (false, None))
  | _, _ => DRet (v, (false, None))
  end.
(** chain/encoding.go:128-136 NewCustomDecoder *)
Definition custom_decoder (fn : dhook) : dhook := fun t v =>
  '(v, r) <-- fn t v ;;
  match r with
  | (false, None) => chain_decoder t v
  | r => DRet (v, r)
  end.

(** Keys are compared with Go's ==, here structural equality. *)
Definition byte_list_dec : forall a b : list byte, {a = b} + {a <> b} := list_eq_dec Byte.byte_eq_dec.
Definition prim_dec (a b : prim) : {a = b} + {a <> b}.
Proof.
  pose proof Z.eq_dec as ZD. pose proof byte_list_dec as BD.
  assert (UD : forall a b : U128, {a = b} + {a <> b}) by decide equality.
  assert (AD : forall a b : Asset, {a = b} + {a <> b}) by decide equality.
  assert (PD : forall a b : PermissionLevel, {a = b} + {a <> b}) by decide equality.
  assert (KD : forall a b : Key, {a = b} + {a <> b}) by decide equality.
  assert (XD : forall a b : TransactionExtension, {a = b} + {a <> b}) by decide equality.
  assert (HD : forall a b : TransactionHeader, {a = b} + {a <> b}) by decide equality.
  assert (CD : forall a b : Action, {a = b} + {a <> b}) by (decide equality; now apply list_eq_dec).
  assert (TD : forall a b : Transaction, {a = b} + {a <> b})
    by (decide equality; now apply list_eq_dec).
  assert (ED : forall a b : ExtendedAsset, {a = b} + {a <> b}) by decide equality.
  assert (BoD : forall a b : bool, {a = b} + {a <> b}) by decide equality.
  decide equality.
Defined.
Fixpoint rval_dec (a b : rval) {struct a} : {a = b} + {a <> b}.
Proof.
  pose proof Z.eq_dec as ZD. pose proof prim_dec as PD. pose proof Bool.bool_dec as BD.
  assert (LD : forall a b : list rval, {a = b} + {a <> b}) by (apply list_eq_dec; exact rval_dec).
  decide equality.
  - decide equality.
  - decide equality.
  - decide equality. apply list_eq_dec. intros [x1 x2] [y1 y2].
    destruct (rval_dec x1 y1); [|right; congruence]. destruct (rval_dec x2 y2); [|right; congruence].
    left; congruence.
Defined.
(** reflect.Value.SetMapIndex *)
Fixpoint map_set (k x : rval) (m : list (rval * rval)) : list (rval * rval) :=
  match m with
  | [] => [(k, x)]
  | (k', x') :: m => if rval_dec k k' then (k, x) :: m else (k', x') :: map_set k x m
  end.

(** decode.go:156-166, :241-251: a pointer element is allocated if nil and decoded
    through; any other element is decoded in place.  The same step serves
    struct fields (:205-213) and the dereferencing of indirect (:505-521). *)
Definition through (E : types) (f : gtype -> rval -> io rval) (t : gtype) (v : rval) : io rval :=
  match head E t, v with
  | TPtr t', RPtr o =>
      let x := match o with Some x => x | None => zero E t' end in
      '(x, err) <-- f t' x ;; DRet (RPtr (Some x), err)
  | _, _ => f t v
  end.
(** Elements decoded one after the other until an error. *)
Fixpoint get_elems (f : rval -> io rval) (l : list rval) : io (list rval) :=
  match l with
  | [] => DRet ([], None)
  | x :: l =>
      '(x, err) <-- f x ;;
      match err with
      | Some e => DRet (x :: l, Some e)
      | None => '(l, err) <-- get_elems f l ;; DRet (x :: l, err)
      end
  end.
(** decode.go:235-256 the Slice case, on elements of size [size] and zero value [z]. *)
Definition get_slice (size : Z) (z : rval) (f : rval -> io rval) (old : option (list rval))
  : io (option (list rval)) :=
  '(l, err) <-- ReadVaruint ;;
  match err with
  | Some e => DRet (old, Some e)
  | None =>
      if zlen (match old with Some cur => cur | None => [] end) =? i64 l then
        match old with
        | None => DRet (None, None)
        | Some cur => '(xs, err) <-- get_elems f cur ;; DRet (Some xs, err)
        end
      else if make_ok size (i64 l) then
        '(xs, err) <-- get_elems f (repeat z (Z.to_nat (i64 l))) ;; DRet (Some xs, err)
      else DPanic "reflect.MakeSlice: len out of range"
  end.
(** decode.go:180-197 the loop of the Map case. *)
Fixpoint get_pairs (fk fv : io rval) (n : nat) (m : list (rval * rval)) : io (list (rval * rval)) :=
  match n with
  | O => DRet (m, None)
  | S n =>
      '(k, err) <-- fk ;;
      match err with
      | Some e => DRet (m, Some e)
      | None =>
          '(x, err) <-- fv ;;
          match err with
          | Some e => DRet (m, Some e)
          | None => get_pairs fk fv n (map_set k x m)
          end
      end
  end.
(** decode.go:170-198 the Map case. *)
Definition get_map (fk fv : io rval) (old : option (list (rval * rval))) : io (option (list (rval * rval))) :=
  '(l, err) <-- ReadVaruint ;;
  match err with
  | Some e => DRet (old, Some e)
  | None => '(m, err) <-- get_pairs fk fv (Z.to_nat (i64 l)) [] ;; DRet (Some m, err)
  end.
(** decode.go:205-209 before the tag is looked at. *)
Definition allocated (E : types) (t : gtype) (v : rval) : rval :=
  match head E t, v with
  | TPtr t', RPtr None => RPtr (Some (zero E t'))
  | _, _ => v
  end.
(** decode.go:200-233 one field; [f] is Decode, [g] DecodeVariant. *)
Definition get_field (E : types) (f g : gtype -> rval -> io rval) (fd : tag * visibility * gtype) (v : rval) : io rval :=
  let '(tg, vis, t) := fd in
  match vis with
  | Blank => DRet (v, None)
  | Hidden => DPanic "value obtained using unexported field"
  | Exported =>
      match tg with
      | NoTag => through E f t v
      | Optional =>
          '(b, err) <-- ReadBool ;;
          match err with
          | Some e => DRet (allocated E t v, Some e)
          | None => if (b : bool) then through E f t v else DRet (zero E t, None)
          end
      | Variant => through E g t v
      | Extension =>
          '(v, err) <-- through E f t v ;;
          match err with
          | Some EOF => DRet (zero E t, None)
          | err => DRet (v, err)
          end
      end
  end.
Fixpoint get_fields (E : types) (f g : gtype -> rval -> io rval) (fs : list (tag * visibility * gtype)) (l : list rval)
  : io (list rval) :=
  match fs, l with
  | fd :: fs, v :: l =>
      '(v, err) <-- get_field E f g fd v ;;
      match err with
      | Some e => DRet (v :: l, Some e)
      | None => '(l, err) <-- get_fields E f g fs l ;; DRet (v :: l, err)
      end
  | _, _ => DRet (l, None)
  end.

(** decode.go:118-122: the alternatives other than [i] set to nil; IsNil panics on a
    field whose type has no nil. *)
Fixpoint clear_others (E : types) (i : Z) (fs : list (tag * visibility * gtype)) (l : list rval) : option (list rval) :=
  match fs, l with
  | (_, vis, t) :: fs, v :: l =>
      match clear_others E (i - 1) fs l with
      | None => None
      | Some l =>
          if i =? 0 then Some (v :: l) else
          let nilable := match head E t with
                         | TPtr _ | TSlice _ | TMap _ _ | TLeaf KGoBytes | TLeaf KBytes | TLeaf KBlob => true
                         | TUser _ (TSlice _) | TUser _ (TMap _ _) => true
                         | _ => false
                         end in
          if nilable then
            if is_zero v then Some (v :: l)
            else match vis with Exported => Some (zero E t :: l) | _ => None end
          else None
      end
  | _, _ => Some l
  end.
Fixpoint replace_nth {A} (n : nat) (x : A) (l : list A) : list A :=
  match n, l with
  | _, [] => []
  | O, _ :: l => x :: l
  | S n, y :: l => y :: replace_nth n x l
  end.
(** decode.go:110-137 DecodeVariant from the bounds check on; [f] is Decode. *)
Definition get_alternative (E : types) (f : gtype -> rval -> io rval) (i : Z)
  (fs : list (tag * visibility * gtype)) (l : list rval) : io (list rval) :=
  if zlen fs <=? i then DRet (l, Some (ErrMsg "abi: variant index out of bounds"))
  else match clear_others E i fs l with
       | None => DPanic "reflect: call of reflect.Value.IsNil or Set on a wrong field"
       | Some l =>
           match nth_error fs (Z.to_nat i) with
           | Some (_, vis, t) =>
               match head E t with
               | TPtr t' =>
                   '(x, err) <-- f t' (zero E t') ;;
                   match err with
                   | Some e => DRet (l, Some e)
                   | None => match vis with
                             | Exported => DRet (replace_nth (Z.to_nat i) (RPtr (Some x)) l, None)
                             | _ => DPanic "value obtained using unexported field"
                             end
                   end
               | _ => DRet (l, Some (ErrMsg "abi: invalid variant: expected field pointer"))
               end
           | None => DPanic "index out of range"
           end
       end.

(** Which function is running: Decode on a pointer to the target; DecodeValue on the
    target; DecodeVariant after the index byte [i]. *)
Inductive mode := Whole | Deref | Alt (i : Z).
Definition byte_elems (b : list byte) : list rval := map (fun c => RLeaf (PU8 (zb c)) (zb c =? 0)) b.
Definition elem_byte (v : rval) : byte := match v with RLeaf (PU8 v) _ => bz v | _ => x00 end.
Definition byte_slice (o : option (list rval)) : rval :=
  match o with None => RLeaf (PGoBytes []) true | Some l => RLeaf (PGoBytes (map elem_byte l)) false end.

(** Decode into the target [old] of type [t]: decode.go:30-91, :94-138, :141-300.
    [fuel] bounds the nesting depth; DFuel stands for unbounded recursion. *)
Fixpoint decode (fuel : nat) (E : types) (h : dhook) (m : mode) (t : gtype) (old : rval) : io rval :=
  match fuel with
  | O => DFuel
  | S fuel =>
    let f := decode fuel E h in
    match m with
    | Whole =>
        '(v, r) <-- h (head E t) old ;;
        match r with
        | (true, err) => DRet (v, err)
        | (false, Some e) => DRet (v, Some e)
        | (false, None) =>
            match head E t, v with
            | TLeaf k, RLeaf p _ => if go_kind k then leaf_read p else f Deref t v
            | _, _ => f Deref t v
            end
        end
    | Deref =>
        match head E t, old with
        | TPtr _, RPtr _ => through E (f Deref) t old
        | TLeaf k, RLeaf p z =>
            if go_kind k then
              match p with
              | PU64 _ | PU32 _ | PI64 _ | PI32 _ =>
                  '(v, err) <-- leaf_read p ;; DRet (match err with None => v | Some _ => old end, err)
              | PGoBytes b =>
                  '(o, err) <-- get_slice 1 (zero_of (TLeaf KU8)) (f Whole (TLeaf KU8)) (if z then None else Some (byte_elems b)) ;;
                  DRet (byte_slice o, err)
              | _ => DRet (old, Some (ErrMsg "abi: unsupported type"))
              end
            else leaf_read p
        | TInt k, RInt v =>
            '(v, err) <-- keep v match k with
                                 | IU64 => ReadUint64 | IU32 => ReadUint32 | II64 => ReadInt64 | II32 => ReadInt32
                                 end ;;
            DRet (RInt v, err)
        | TSlice t, RSlice o =>
            '(o, err) <-- get_slice (size_of E t) (zero E t) (through E (f Whole) t) o ;; DRet (RSlice o, err)
        | TArray _ t, RArray l =>
            '(l, err) <-- get_elems (through E (f Whole) t) l ;; DRet (RArray l, err)
        | TMap kt vt, RMap o =>
            '(o, err) <-- get_map (f Whole kt (zero E kt)) (f Whole vt (zero E vt)) o ;; DRet (RMap o, err)
        | TStruct fs, RStruct l =>
            let variant t v :=
              '(i, err) <-- ReadByte ;;
              match err with Some e => DRet (v, Some e) | None => f (Alt i) t v end in
            '(l, err) <-- get_fields E (f Whole) variant fs l ;; DRet (RStruct l, err)
        | TUser i _, RUser x => '(x, err) <-- unmarshals E i x ;; DRet (RUser x, err)
        | _, _ => DRet (old, Some (ErrMsg "abi: unsupported type"))
        end
    | Alt i =>
        match head E t, old with
        | TPtr _, RPtr _ => through E (f (Alt i)) t old
        | TLeaf k, RLeaf p _ =>
            if go_kind k then DRet (old, Some (ErrMsg "abi: invalid variant: expected struct")) else leaf_read p
        | TStruct fs, RStruct l =>
            '(l, err) <-- get_alternative E (f Whole) i fs l ;; DRet (RStruct l, err)
        | TUser i _, RUser x => '(x, err) <-- unmarshals E i x ;; DRet (RUser x, err)
        | _, _ => DRet (old, Some (ErrMsg "abi: invalid variant: expected struct"))
        end
    end
  end.

(** chain.NewEncoder(w).Encode(v) and chain.NewDecoder(r).Decode(&target)
    (chain/encoding.go:126-155). *)
Definition Encode (E : types) (t : gtype) (v : rval) : wr := encode E chain_encoder t v.
Definition Decode (fuel : nat) (E : types) (t : gtype) (old : rval) : io rval := decode fuel E chain_decoder Whole t old.
