(** Decode into targets with interface variables inside, and what it does with an
    argument that is not a pointer to a target (pkg/abi/decode.go:29-138, :141-300,
    :454-522).

    Simplifications: as in Reflect.v values are trees; types with interfaces inside
    have no UnmarshalABI method of their own; map keys of such types are not described. *)
From Verif Require Import Base Prog AbiPrim Chain Values Leaf Reflect.

Inductive target : Type :=
| GPlain (t : gtype) (v : rval)              (* of a type without interfaces inside *)
| GIface (o : option target)                 (* an interface variable: nil, or holding a non-nil pointer to ... *)
| GHeld                                      (* an interface variable holding anything else *)
| GPtr (z : target) (o : option target)      (* a pointer; [z] is the zero value of the type it points to *)
| GArray (l : list target)
| GSlice (size : Z) (z : target) (o : option (list target))   (* nil or not; [z] is the zero value of its elements, of that size *)
| GMap (kt : gtype) (z : target) (o : option (list (rval * target)))   (* [z] is the zero value of the map's values *)
| GStruct (fs : list ((tag * visibility * gtype * rval) + (option tag * visibility * target))).
(** The second kind of field has interfaces inside; its tag is [None] or [Some tag]. *)

(** reflect.Zero of the target's type *)
Fixpoint zero_target (E : types) (g : target) : target :=
  match g with
  | GPlain t _ => GPlain t (zero E t)
  | GIface _ | GHeld => GIface None
  | GPtr z _ => GPtr z None
  | GArray l => GArray ((fix go l := match l with [] => [] | g :: l => zero_target E g :: go l end) l)
  | GSlice size z _ => GSlice size z None
  | GMap kt z _ => GMap kt z None
  | GStruct fs => GStruct ((fix go (fs : list ((tag * visibility * gtype * rval) + (option tag * visibility * target))) :=
      match fs with
      | [] => []
      | inl (tg, vis, t, _) :: fs => inl (tg, vis, t, zero E t) :: go fs
      | inr (tg, vis, g) :: fs => inr (tg, vis, zero_target E g) :: go fs
      end) fs)
  end.

Definition unsupported_err := ErrMsg "abi: unsupported type".
(** decode.go:156-166, :205-213: a pointer is allocated if nil and decoded through. *)
Definition through_target (E : types) (p : gtype -> rval -> io rval) (f : target -> io target) (g : target) : io target :=
  match g with
  | GPlain t v => '(v, err) <-- through E p t v ;; DRet (GPlain t v, err)
  | GPtr z o => '(x, err) <-- f match o with Some x => x | None => z end ;; DRet (GPtr z (Some x), err)
  | g => f g
  end.
Fixpoint get_targets (f : target -> io target) (l : list target) : io (list target) :=
  match l with
  | [] => DRet ([], None)
  | x :: l =>
      '(x, err) <-- f x ;;
      match err with
      | Some e => DRet (x :: l, Some e)
      | None => '(l, err) <-- get_targets f l ;; DRet (x :: l, err)
      end
  end.
(** decode.go:235-256 the Slice case: elements that are there are decoded into if their
    number is right, otherwise new ones are made. *)
Definition get_target_slice (size : Z) (z : target) (f : target -> io target) (old : option (list target))
  : io (option (list target)) :=
  '(l, err) <-- ReadVaruint ;;
  match err with
  | Some e => DRet (old, Some e)
  | None =>
      if zlen (match old with Some cur => cur | None => [] end) =? i64 l then
        match old with
        | None => DRet (None, None)
        | Some cur => '(xs, err) <-- get_targets f cur ;; DRet (Some xs, err)
        end
      else if make_ok size (i64 l) then
        '(xs, err) <-- get_targets f (repeat z (Z.to_nat (i64 l))) ;; DRet (Some xs, err)
      else DPanic "reflect.MakeSlice: len out of range"
  end.
(** m[k] = x *)
Fixpoint target_set (k : rval) (x : target) (m : list (rval * target)) : list (rval * target) :=
  match m with
  | [] => [(k, x)]
  | (k', x') :: m => if rval_dec k k' then (k, x) :: m else (k', x') :: target_set k x m
  end.
(** decode.go:180-197 the loop of the Map case; keys and values are new. *)
Fixpoint get_target_pairs (fk : io rval) (fv : io target) (n : nat) (m : list (rval * target)) : io (list (rval * target)) :=
  match n with
  | O => DRet (m, None)
  | S n =>
      '(k, err) <-- fk ;;
      match err with
      | Some e => DRet (m, Some e)
      | None =>
          '(x, err) <-- fv ;;
          match err with
          | Some e => DRet (m, Some e)
          | None => get_target_pairs fk fv n (target_set k x m)
          end
      end
  end.
(** decode.go:170-198 the Map case *)
Definition get_target_map (fk : io rval) (fv : io target) (old : option (list (rval * target))) : io (option (list (rval * target))) :=
  '(l, err) <-- ReadVaruint ;;
  match err with
  | Some e => DRet (old, Some e)
  | None => '(m, err) <-- get_target_pairs fk fv (Z.to_nat (i64 l)) [] ;; DRet (Some m, err)
  end.
(** decode.go:205-209 before the tag is looked at. *)
Definition allocated_target (E : types) (g : target) : target :=
  match g with GPlain t v => GPlain t (allocated E t v) | GPtr z None => GPtr z (Some z) | g => g end.
(** decode.go:200-233 one field with interfaces inside; [f] decodes it, [fv] decodes it as a variant. *)
Definition get_target_field (E : types) (f fv : target -> io target) (tg : option tag) (vis : visibility) (g : target) : io target :=
  match vis with
  | Blank => DRet (g, None)
  | Hidden => DPanic "value obtained using unexported field"
  | Exported =>
      match tg with
      | Some Optional =>
          '(b, err) <-- ReadBool ;;
          match err with
          | Some e => DRet (allocated_target E g, Some e)
          | None => if (b : bool) then f g else DRet (zero_target E g, None)
          end
      | Some Extension =>
          '(g, err) <-- f g ;;
          match err with
          | Some EOF => DRet (zero_target E g, None)
          | err => DRet (g, err)
          end
      | Some Variant => fv g
      | _ => f g
      end
  end.
(** A field without interfaces, as in Reflect.v. *)
Definition get_plain_field (E : types) (fuel : nat) (fd : tag * visibility * gtype) (v : rval) : io rval :=
  let f := decode fuel E chain_decoder in
  let variant t v :=
    '(i, err) <-- ReadByte ;;
    match err with Some e => DRet (v, Some e) | None => f (Alt i) t v end in
  get_field E (f Whole) variant fd v.
Fixpoint get_target_fields (E : types) (fuel : nat) (f fv : target -> io target)
  (fs : list ((tag * visibility * gtype * rval) + (option tag * visibility * target)))
  : io (list ((tag * visibility * gtype * rval) + (option tag * visibility * target))) :=
  match fs with
  | [] => DRet ([], None)
  | fd :: fs =>
      '(fd, err) <-- match fd with
                     | inl (tg, vis, t, v) =>
                         '(v, err) <-- get_plain_field E fuel (tg, vis, t) v ;; DRet (inl (tg, vis, t, v), err)
                     | inr (tg, vis, g) =>
                         '(g, err) <-- get_target_field E f fv tg vis g ;; DRet (inr (tg, vis, g), err)
                     end ;;
      match err with
      | Some e => DRet (fd :: fs, Some e)
      | None => '(fs, err) <-- get_target_fields E fuel f fv fs ;; DRet (fd :: fs, err)
      end
  end.

(** What a field holds, and the field holding something else. *)
Definition content (fd : (tag * visibility * gtype * rval) + (option tag * visibility * target)) : target :=
  match fd with inl (_, _, t, v) => GPlain t v | inr (_, _, g) => g end.
Definition exported (fd : (tag * visibility * gtype * rval) + (option tag * visibility * target)) : bool :=
  match fd with inl (_, Exported, _, _) | inr (_, Exported, _) => true | _ => false end.
Definition refilled (fd : (tag * visibility * gtype * rval) + (option tag * visibility * target)) (g : target)
  : (tag * visibility * gtype * rval) + (option tag * visibility * target) :=
  match fd, g with
  | inl (tg, vis, t, _), GPlain _ v => inl (tg, vis, t, v)
  | inl fd, _ => inl fd
  | inr (tg, vis, _), g => inr (tg, vis, g)
  end.
(** decode.go:119 IsNil on what a field holds; [None] stands for a panic. *)
Definition is_nil (E : types) (g : target) : option bool :=
  match g with
  | GPlain t v => match clear_others E 1 [(NoTag, Exported, t)] [v] with Some _ => Some (is_zero v) | None => None end
  | GIface None | GPtr _ None | GSlice _ _ None | GMap _ _ None => Some true
  | GIface (Some _) | GHeld | GPtr _ (Some _) | GSlice _ _ (Some _) | GMap _ _ (Some _) => Some false
  | GArray _ | GStruct _ => None
  end.
(** decode.go:118-122: the alternatives other than [i] set to nil; Set panics on an
    unexported field. *)
Fixpoint clear_targets (E : types) (i : Z) (fs : list ((tag * visibility * gtype * rval) + (option tag * visibility * target)))
  : option (list ((tag * visibility * gtype * rval) + (option tag * visibility * target))) :=
  match fs with
  | [] => Some []
  | fd :: fs =>
      match clear_targets E (i - 1) fs with
      | None => None
      | Some fs =>
          if i =? 0 then Some (fd :: fs) else
          match is_nil E (content fd) with
          | None => None
          | Some true => Some (fd :: fs)
          | Some false => if exported fd then Some (refilled fd (zero_target E (content fd)) :: fs) else None
          end
      end
  end.
(** decode.go:110-137 DecodeVariant from the bounds check on; [p] and [f] are Decode. *)
Definition get_target_alternative (E : types) (p : gtype -> rval -> io rval) (f : target -> io target) (i : Z)
  (fs : list ((tag * visibility * gtype * rval) + (option tag * visibility * target)))
  : io (list ((tag * visibility * gtype * rval) + (option tag * visibility * target))) :=
  if zlen fs <=? i then DRet (fs, Some (ErrMsg "abi: variant index out of bounds"))
  else match clear_targets E i fs with
       | None => DPanic "reflect: call of reflect.Value.IsNil or Set on a wrong field"
       | Some fs' =>
           match nth_error fs (Z.to_nat i) with
           | Some fd =>
               let store (x : io target) :=
                 '(x, err) <-- x ;;
                 match err with
                 | Some e => DRet (fs', Some e)
                 | None => if exported fd then DRet (replace_nth (Z.to_nat i) (refilled fd x) fs', None)
                           else DPanic "value obtained using unexported field"
                 end in
               match content fd with
               | GPlain t _ =>
                   match head E t with
                   | TPtr t' => store ('(x, err) <-- p t' (zero E t') ;; DRet (GPlain t (RPtr (Some x)), err))
                   | _ => DRet (fs', Some (ErrMsg "abi: invalid variant: expected field pointer"))
                   end
               | GPtr z _ => store ('(x, err) <-- f z ;; DRet (GPtr z (Some x), err))
               | _ => DRet (fs', Some (ErrMsg "abi: invalid variant: expected field pointer"))
               end
           | None => DPanic "index out of range"
           end
       end.
(** decode.go:94-104 DecodeVariant of a field: the index, then the alternative. *)
Definition by_index {A} (f : mode -> A -> io A) (x : A) : io A :=
  '(i, err) <-- ReadByte ;; match err with Some e => DRet (x, Some e) | None => f (Alt i) x end.

(** Decode on a pointer to the target, DecodeValue on the target, or DecodeVariant on it
    after the index (decode.go:30-91, :94-138, :141-300).  [indirect] goes through an
    interface variable only if it holds a non-nil pointer (:477-484), and from there on
    only the cases of DecodeValue or DecodeVariant apply; otherwise the kind is
    Interface, which has no case (:305-306) and is no struct (:110-112). *)
Fixpoint decode_target (fuel : nat) (E : types) (m : mode) (g : target) : io target :=
  match fuel with
  | O => DFuel
  | S fuel' =>
    let p := decode fuel' E chain_decoder in
    let f := decode_target fuel' E in
    match g with
    | GPlain t v => '(v, err) <-- decode fuel E chain_decoder m t v ;; DRet (GPlain t v, err)
    | _ =>
      match m with
      | Whole => f Deref g
      | Deref =>
        match g with
        | GPlain _ _ => DRet (g, None)
        | GIface None | GHeld => DRet (g, Some unsupported_err)
        | GIface (Some x) => '(x, err) <-- f Deref x ;; DRet (GIface (Some x), err)
        | GPtr z o => '(x, err) <-- f Deref match o with Some x => x | None => z end ;; DRet (GPtr z (Some x), err)
        | GArray l => '(l, err) <-- get_targets (through_target E (p Whole) (f Whole)) l ;; DRet (GArray l, err)
        | GSlice size z o =>
            '(o, err) <-- get_target_slice size z (through_target E (p Whole) (f Whole)) o ;; DRet (GSlice size z o, err)
        | GMap kt z o => '(o, err) <-- get_target_map (p Whole kt (zero E kt)) (f Whole z) o ;; DRet (GMap kt z o, err)
        | GStruct fs =>
            '(fs, err) <-- get_target_fields E fuel' (through_target E (p Whole) (f Whole))
                             (through_target E (fun t => by_index (fun m => p m t)) (by_index f)) fs ;;
            DRet (GStruct fs, err)
        end
      | Alt i =>
        match g with
        | GIface (Some x) => '(x, err) <-- f (Alt i) x ;; DRet (GIface (Some x), err)
        | GPtr z o => '(x, err) <-- f (Alt i) match o with Some x => x | None => z end ;; DRet (GPtr z (Some x), err)
        | GStruct fs => '(fs, err) <-- get_target_alternative E (p Whole) (f Whole) i fs ;; DRet (GStruct fs, err)
        | _ => DRet (g, Some (ErrMsg "abi: invalid variant: expected struct"))
        end
      end
    end
  end.

(** ** The argument of Decode *)
Inductive argument : Type :=
| ArgNil                                     (* Decode(nil) *)
| ArgValue (t : gtype)                       (* not a pointer *)
| ArgNilPtr (t : gtype)                      (* a nil pointer to [t], none of the types of the fast paths *)
| ArgNilGo (p : prim)                        (* a nil pointer to the type of [p], one of Go's own *)
| ArgNilChain (k : kind)                     (* a nil pointer to one of pkg/chain's types that have a fast path *)
| ArgPtr (g : target).                       (* a pointer to a target *)
Definition invalid_type_err := ErrMsg "abi: invalid type, unable to decode into".
(** What storing through a nil pointer does. *)
Definition nil_panic {A} : dec A := DPanic "invalid memory address or nil pointer dereference".
(** chain/encoding.go:10-68: UnmarshalABI is called on the nil pointer.  Structs decoded
    field by field take the address of a field first, which panics (chain/action.go:78-96,
    chain/transaction.go:108-113, :144-149); the others read something before they store
    through the pointer, and return the error if that fails: the value of an asset
    (chain/asset.go:134-139), the type of a key or signature (chain/public_key.go:79-84,
    chain/signature.go:63-68), the whole value otherwise.  A transaction extension stores
    its type whether or not it could be read (chain/transaction.go:134-136). *)
Definition decode_nil_chain (k : kind) (a : argument) : io argument :=
  let first {A} (p : io A) : io argument :=
    '(_, err) <-- p ;; match err with Some e => DRet (a, Some e) | None => nil_panic end in
  match k with
  | KPermissionLevel | KAction | KTransactionHeader | KTransaction => nil_panic
  | KAsset => first ReadInt64
  | KPublicKey | KSignature => first ReadByte
  | KTransactionExtension => '(_, _) <-- ReadUint16 ;; nil_panic
  | k => first (leaf_read (zero_prim k))
  end.
(** decode.go:30-91: Decode dispatches on the type of its argument; through reflection
    only a non-nil pointer will do (:82-88).  The message names the argument's type
    (:86), which nil does not have: Type panics.  The fast paths (:37-81) read
    and then assign through the pointer; for a byte slice only if its length was read. *)
Definition decode_argument (fuel : nat) (E : types) (a : argument) : io argument :=
  match a with
  | ArgNil => DPanic "reflect: call of reflect.Value.Type on zero Value"
  | ArgValue _ | ArgNilPtr _ => DRet (a, Some invalid_type_err)
  | ArgNilGo p =>
      match p with
      | PGoBytes _ =>
          '(l, err) <-- ReadVaruint ;;
          match err with
          | Some e => DRet (a, Some e)
          | None => '(_, _) <-- ReadBytes (i64 l) ;; nil_panic
          end
      | p => '(_, _) <-- read_prim p ;; nil_panic
      end
  | ArgNilChain k => decode_nil_chain k a
  | ArgPtr g => '(g, err) <-- decode_target fuel E Whole g ;; DRet (ArgPtr g, err)
  end.
(** The argument of DecodeVariant: nil; not a pointer, or a nil one; a pointer to a
    target. *)
Inductive variant_argument : Type :=
| VarNil
| VarInvalid (t : gtype)
| VarPtr (g : target).
Definition invalid_variant_err := ErrMsg "abi: invalid variant type, unable to decode into".
(** decode.go:94-103 DecodeVariant: its argument is looked at before the index is read. *)
Definition decode_variant_argument (fuel : nat) (E : types) (a : variant_argument) : io variant_argument :=
  match a with
  | VarNil => DPanic "reflect: call of reflect.Value.Type on zero Value"
  | VarInvalid _ => DRet (a, Some invalid_variant_err)
  | VarPtr g => '(g, err) <-- by_index (decode_target fuel E) g ;; DRet (VarPtr g, err)
  end.
