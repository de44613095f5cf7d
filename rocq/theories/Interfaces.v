(** Interface variables: what Encode does with values that have them inside
    (pkg/abi/encode.go:28-150), through pkg/chain's encoder (chain/encoding.go:70-125).

    A value is described together with the types of its parts.  Simplifications: as
    in Reflect.v values are trees; types with interfaces inside have no MarshalABI
    method of their own, declared or promoted from an embedded field. *)
From Verif Require Import Base Prog AbiPrim Chain Values Leaf Reflect.

Inductive any : Type :=
| APlain (t : gtype) (v : rval)              (* a value of a type without interfaces inside *)
| AIface (o : option any)                    (* an interface variable, nil or holding a value *)
| APtr (o : option any)                      (* the others: types with interfaces inside *)
| ASlice (o : option (list any))
| AArray (l : list any)
| AMap (o : option (list (any * any)))       (* in the order the runtime enumerates it *)
| AStruct (fs : list (tag * visibility * any)).

(** reflect.Value.IsZero; an interface variable is zero if it is nil, whatever the
    value it holds. *)
Fixpoint any_zero (a : any) : bool :=
  match a with
  | APlain _ v => is_zero v
  | AIface o | APtr o => match o with None => true | Some _ => false end
  | ASlice o => match o with None => true | Some _ => false end
  | AArray l => (fix all l := match l with [] => true | a :: l => any_zero a && all l end) l
  | AMap o => match o with None => true | Some _ => false end
  | AStruct fs => (fix all (fs : list (tag * visibility * any)) :=
                     match fs with [] => true | (_, a) :: fs => any_zero a && all fs end) fs
  end.

(** encode.go:29-150 Encode and EncodeValue.  The fast paths and the Marshaler test
    concern plain values only.  The Interface method of reflect.Value gives the value
    an interface variable holds (:94, :104, :110, :125, :138, :141), which Encode
    dispatches on; from a nil one it gives nil, whose reflect.Value is the zero Value,
    and CanInterface (:79) panics on that. *)
Fixpoint encode_any (E : types) (a : any) {struct a} : wr :=
  match a with
  | APlain t v => Encode E t v
  | AIface None => EPanic "reflect: call of reflect.Value.CanInterface on zero Value"
  | AIface (Some a) => encode_any E a
  | APtr None => ERet (Some nil_pointer_err)
  | APtr (Some a) => encode_any E a
  | ASlice o =>
      etry (WriteVaruint (zlen match o with None => [] | Some l => l end))
        match o with
        | None => ERet None
        | Some l => (fix go l := match l with
                                 | [] => ERet None
                                 | a :: l => etry (encode_any E a) (go l)
                                 end) l
        end
  | AArray l =>
      (fix go l := match l with
                   | [] => ERet None
                   | a :: l => etry (encode_any E a) (go l)
                   end) l
  | AMap o =>
      etry (WriteVaruint (zlen match o with None => [] | Some m => m end))
        match o with
        | None => ERet None
        | Some m => (fix go m := match m with
                                 | [] => ERet None
                                 | (k, a) :: m => etry (encode_any E k) (etry (encode_any E a) (go m))
                                 end) m
        end
  | AStruct fs =>
      (fix go (fs : list (tag * visibility * any)) : wr :=
         match fs with
         | [] => ERet None
         | (tg, vis, a) :: fs =>
             let field := match vis with
                          | Exported => encode_any E a
                          | _ => EPanic "cannot return value obtained from unexported field"
                          end in
             match tg with
             | Optional =>
                 _ <~~ WriteBool (negb (any_zero a)) ;;
                 if any_zero a then go fs else etry field (go fs)
             | _ => etry field (go fs)
             end
         end) fs
  end.
