(** pkg/codegen/codegen.go: GenUnmarshalFn and the meaning of the code it emits.

    The generator works on the texts of field types, and so does the model.  What the
    templates emit is represented by statements ([stmt]), one constructor for each
    template, with the Go typing rules that decide whether the code compiles and an
    interpreter over the values of Reflect.v.  The text itself is in CodegenSource.v, what
    the text means as a Go program in GoLang.v, and that it means what is said here is
    proved in CodegenProgram.v and CodegenRun.v.  Not modelled: the package qualifiers in
    type texts (they are assumed to resolve where the code is placed). *)
From Verif Require Import Base Prog AbiPrim Chain Values Leaf GoStd Numbers Reflect.

(** ** reflect.Type.String *)

(** The texts of Go's own types. *)
Definition kind_text (k : kind) : list byte :=
  match k with
  | KBool => str "bool" | KString => str "string"
  | KU8 => str "uint8" | KU16 => str "uint16" | KU32 => str "uint32" | KU64 => str "uint64"
  | KI8 => str "int8" | KI16 => str "int16" | KI32 => str "int32" | KI64 => str "int64"
  | KF32 => str "float32" | KF64 => str "float64" | KInt => str "int" | KUint => str "uint"
  | KGoBytes => str "[]uint8"
  | _ => str "chain.T"                             (* chain.Name and so on: which one does not matter *)
  end.
(** Structs and other declared types have a package and a name. *)
Fixpoint type_text (t : gtype) : list byte :=
  match t with
  | TLeaf k => kind_text k
  | TPtr t => x2a :: type_text t
  | TSlice t => str "[]" ++ type_text t
  | TArray n t => x5b :: FormatUint (Z.of_nat n) ++ x5d :: type_text t
  | TMap k v => str "map[" ++ type_text k ++ x5d :: type_text v
  | TInt _ | TOther | TStruct _ | TUser _ _ | TName _ => str "main.T"
  end.

(** ** GenUnmarshalFn *)

(** codegen.go:164-174 *)
Record field := {
  f_type : list byte; f_ptr : bool; f_optional : bool; f_slice : bool; f_array : bool; f_len : Z;
  f_method : option kind                           (* the kind whose Write and Read methods are called *)
}.
(** codegen.go:202-208: the text between the bracket and the first closing bracket, and
    the text behind it *)
Fixpoint closing (s acc : list byte) : option (list byte * list byte) :=
  match s with
  | [] => None
  | c :: s => if Byte.eqb c x5d then Some (rev acc, s) else closing s (c :: acc)
  end.
Definition has_prefix (p s : list byte) : bool := if byte_list_dec (firstn (length p) s) p then true else false.
Definition same_text (a b : list byte) : bool := if byte_list_dec a b then true else false.
(** codegen.go:220-253 *)
Definition method_of (text : list byte) : option kind :=
  if same_text text (str "string") then Some KString
  else if same_text text (str "uint64") then Some KU64
  else if same_text text (str "uint32") then Some KU32
  else if same_text text (str "uint16") then Some KU16
  else if same_text text (str "uint8") then Some KU8
  else if same_text text (str "int64") then Some KI64
  else if same_text text (str "int32") then Some KI32
  else if same_text text (str "int16") then Some KI16
  else if same_text text (str "int8") then Some KI8
  else if same_text text (str "bool") then Some KBool
  else if same_text text (str "[]uint8") || same_text text (str "[]byte") then Some KGoBytes
  else if same_text text (str "int") then Some KInt
  else if same_text text (str "uint") then Some KUint
  else if same_text text (str "float32") then Some KF32
  else if same_text text (str "float64") then Some KF64
  else None.
(** codegen.go:185-218; strconv.Atoi of a length the compiler printed *)
Definition classify (text : list byte) (tg : tag) : res field :=
  let '(ptr, text) := match text with c :: r => if Byte.eqb c x2a then (true, r) else (false, text) | [] => (false, text) end in
  let '(sl, ar, n, text) :=
    if has_prefix (str "[]") text then (true, false, 0, skipn 2 text)
    else if has_prefix (str "[") text then
      match closing (skipn 1 text) [] with
      | Some (digits, rest) => (false, true, match ParseInt digits 64 with Ok v => v | _ => 0 end, rest)
      | None => (false, true, 0, text)
      end
    else (false, false, 0, text) in
  match tg with
  | Optional => if ptr : bool
                then Ok {| f_type := text; f_ptr := ptr; f_optional := true; f_slice := sl; f_array := ar; f_len := n; f_method := method_of text |}
                else Panic "cant generate code for non-pointer optionals"
  | _ => Ok {| f_type := text; f_ptr := ptr; f_optional := false; f_slice := sl; f_array := ar; f_len := n; f_method := method_of text |}
  end.

(** [v.N], with a dereference around it and [[i]] behind it *)
Record gplace := { star : bool; index : bool }.
Inductive stmt :=
(* marshal *)
| SWrite (k : kind) (p : gplace)                   (* codegen.go:43-52 writeTemplate *)
| SMarshal (p : gplace)                            (* :70-78 writeOtherTemplate *)
| SWriteSlice (p : gplace) (body : stmt)           (* :90-98 writeSliceTemplate *)
| SWriteArray (n : Z) (body : stmt)                (* :110-114 writeArrayTemplate *)
| SWriteOptional (optional : bool) (body : stmt)   (* :122-136 writeOptionalTemplate *)
(* unmarshal *)
| SRead (k : kind) (p : gplace)                    (* :54-68 readTemplate, not a pointer *)
| SReadTmp (k : kind) (p : gplace)                 (* :54-68 readTemplate, a pointer *)
| SUnmarshal (p : gplace)                          (* :80-88 readOtherTemplate *)
| SReadSlice (body : stmt)                         (* :100-108 readSliceTemplate *)
| SReadArray (n : Z) (body : stmt)                 (* :116-120 readArrayTemplate *)
| SReadOptional (body : stmt).                     (* :138-145 readOptionalTemplate *)

(** codegen.go:257-278 *)
Definition gen_write (f : field) : stmt :=
  let indexed := f_slice f || f_array f in
  let code := match f_method f with
              | Some k => SWrite k {| star := f_ptr f; index := indexed |}
              | None => SMarshal {| star := f_ptr f && indexed; index := indexed |}
              end in
  let code := if f_slice f then SWriteSlice {| star := f_ptr f; index := false |} code else code in
  let code := if f_array f then SWriteArray (f_len f) code else code in
  if f_optional f || f_ptr f then SWriteOptional (f_optional f) code else code.
(** codegen.go:287-307 *)
Definition gen_read (f : field) : stmt :=
  let indexed := f_slice f || f_array f in
  let code := match f_method f with
              | Some k => (if f_ptr f then SReadTmp else SRead) k {| star := false; index := indexed |}
              | None => SUnmarshal {| star := f_ptr f && indexed; index := indexed |}
              end in
  let code := if f_slice f then SReadSlice code else code in
  let code := if f_array f then SReadArray (f_len f) code else code in
  if f_optional f then SReadOptional code else code.
(** codegen.go:264,269: whether the marshal function declares [length] *)
Definition declares_length (fs : list field) : bool := existsb (fun f => f_slice f || f_array f) fs.
(** codegen.go:185-218 the fields of a struct *)
Fixpoint classify_all (fs : list (tag * visibility * gtype)) : res (list field) :=
  match fs with
  | [] => Ok []
  | (tg, _, t) :: fs => rbind (classify (type_text t) tg) (fun f => rbind (classify_all fs) (fun l => Ok (f :: l)))
  end.
(** codegen.go:176-313: the bodies of the two functions, field by field *)
Definition GenUnmarshalFn (fs : list (tag * visibility * gtype)) : res (list stmt * list stmt) :=
  rbind (classify_all fs) (fun l => Ok (map gen_write l, map gen_read l)).

(** ** Does the code compile? *)

(** A type with the methods MarshalABI and UnmarshalABI: pkg/chain's types, structs,
    whose methods are generated in turn, and types whose methods the user wrote. *)
Definition has_methods (E : types) (t : gtype) : bool :=
  match head E t with TLeaf k => negb (go_kind k) | TStruct _ | TUser _ _ => true | _ => false end.
(** Method calls go through a pointer if there is one. *)
Definition callable (E : types) (t : gtype) : bool :=
  match t with TPtr t => has_methods E t | _ => has_methods E t end.
Definition element_type (E : types) (t : gtype) : option gtype :=
  match head E t with
  | TSlice t | TArray _ t => Some t
  | TLeaf KGoBytes => Some (TLeaf KU8)
  | TPtr t => match head E t with TArray _ t => Some t | _ => None end      (* indexing through a pointer *)
  | _ => None
  end.
Definition place_type (E : types) (p : gplace) (t : gtype) : option gtype :=
  match (if star p then match head E t with TPtr t => Some t | _ => None end else Some t) with
  | Some t => if index p then element_type E t else Some t
  | None => None
  end.
Definition kind_dec (a b : kind) : {a = b} + {a <> b}.
Proof. decide equality. Defined.
Definition is_kind (E : types) (k : kind) (t : gtype) : bool :=
  match head E t with TLeaf k' => if kind_dec k k' then true else false | _ => false end.
Definition is_slice (E : types) (t : gtype) : bool :=
  match head E t with TSlice _ | TLeaf KGoBytes => true | _ => false end.
(** The typing rules, for a field of type [t].  ReadBytes takes an argument and returns
    three results (decode.go:312), so reading with it never compiles. *)
Fixpoint well_typed (E : types) (t : gtype) (s : stmt) : bool :=
  match s with
  | SWrite k p => match place_type E p t with Some t' => is_kind E k t' | None => false end
  | SMarshal p | SUnmarshal p => match place_type E p t with Some t' => callable E t' | None => false end
  | SWriteSlice p b => match place_type E p t with Some t' => is_slice E t' | None => false end && well_typed E t b
  | SWriteArray _ b | SReadArray _ b | SReadOptional b => well_typed E t b
  | SWriteOptional _ b => match head E t with TPtr _ => true | _ => false end && well_typed E t b
  | SRead k p =>
      match k with KGoBytes => false | _ => match place_type E p t with Some t' => is_kind E k t' | None => false end end
  | SReadTmp k p =>
      match k with
      | KGoBytes => false
      | _ => match place_type E p t with
             | Some t' => match head E t' with TPtr t' => is_kind E k t' | _ => false end
             | None => false
             end
      end
  | SReadSlice b => is_slice E t && well_typed E t b
  end.
(** A variable declared and not used is an error, and so is [var tmp] twice in the body of
    a function; inside a loop or an if it is in a scope of its own.  A field named "_"
    cannot be referred to. *)
Definition compiles (E : types) (fs : list (tag * visibility * gtype)) : bool :=
  match classify_all fs with
  | Ok l =>
      forallb (fun '(tg, vis, t, f) =>
                 match vis with Blank => false | _ => true end && well_typed E t (gen_write f) && well_typed E t (gen_read f))
              (combine fs l)
      && implb (declares_length l) (existsb f_slice l)
      && (length (filter (fun s => match s with SReadTmp _ _ => true | _ => false end) (map gen_read l)) <=? 1)%nat
  | _ => false
  end.

(** ** What the code does *)
Definition elements (v : rval) : res (list rval) :=
  match v with
  | RSlice o => Ok match o with Some l => l | None => [] end
  | RArray l | RPtr (Some (RArray l)) => Ok l
  | RLeaf (PGoBytes b) _ => Ok (byte_elems b)
  | RPtr None => Panic "nil pointer dereference"
  | _ => Panic "ill-typed"
  end.
Definition value_at (p : gplace) (i : nat) (v : rval) : res rval :=
  rbind (if star p then match v with RPtr (Some x) => Ok x | RPtr None => Panic "nil pointer dereference" | _ => Panic "ill-typed" end else Ok v)
    (fun x => if index p then rbind (elements x) (fun l => match nth_error l i with Some y => Ok y | None => Panic "index out of range" end)
              else Ok x).
(** Assignment to [v.N] or [v.N[i]]. *)
Definition assign (index : bool) (i : nat) (v x : rval) : res rval :=
  if index then
    rbind (elements v) (fun l =>
      if (i <? length l)%nat then
        let l := replace_nth i x l in
        Ok match v with
           | RArray _ => RArray l
           | RPtr _ => RPtr (Some (RArray l))
           | RLeaf _ _ => RLeaf (PGoBytes (map elem_byte l)) false
           | _ => RSlice (Some l)
           end
      else Panic "index out of range")
  else Ok x.
Definition assign_star (p : gplace) (i : nat) (v x : rval) : res rval :=
  if star p then match v with
                 | RPtr (Some y) => rbind (assign (index p) i y x) (fun y => Ok (RPtr (Some y)))
                 | _ => Panic "nil pointer dereference"
                 end
  else assign (index p) i v x.
Definition ewith {A} (r : res A) (f : A -> wr) : wr :=
  match r with Ok x => f x | Panic m => EPanic m | Err e => ERet (Some e) end.
Definition dwith {A} (r : res A) (f : A -> io rval) : io rval :=
  match r with Ok x => f x | Panic m => DPanic m | Err _ => DPanic "ill-typed" end.
(** The Write methods by the kind of their argument. *)
Definition write_builtin (q : prim) : wr := match q with PGoBytes b => WriteBytes b | q => write_prim q end.
(** for i := 0; i < n; i++ *)
Fixpoint for_write (f : nat -> wr) (n i : nat) : wr :=
  match n with O => ERet None | S n => etry (f i) (for_write f n (S i)) end.
Fixpoint for_read (f : nat -> rval -> io rval) (n i : nat) (v : rval) : io rval :=
  match n with
  | O => DRet (v, None)
  | S n => '(v, err) <-- f i v ;; match err with Some e => DRet (v, Some e) | None => for_read f n (S i) v end
  end.
Definition nil_field_err := ErrMsg "encountered nil for non-optional field".

(** The marshal code of a field of type [t] holding [v]; [mar] is the method MarshalABI
    of other types. *)
Fixpoint exec_write (mar : gtype -> rval -> wr) (E : types) (t : gtype) (v : rval) (i : nat) (s : stmt) : wr :=
  match s with
  | SWrite _ p => ewith (value_at p i v) (fun x => match x with RLeaf q _ => write_builtin q | _ => EPanic "ill-typed" end)
  | SMarshal p =>
      ewith (value_at p i v) (fun x =>
        match place_type E p t, x with
        | Some (TPtr t'), RPtr o => match o with Some y => mar t' y | None => EPanic "nil pointer dereference" end
        | Some t', x => mar t' x
        | None, _ => EPanic "ill-typed"
        end)
  | SWriteSlice p b =>
      ewith (value_at p i v) (fun x => ewith (elements x) (fun l =>
        etry (WriteVaruint (zlen l)) (for_write (fun i => exec_write mar E t v i b) (length l) 0)))
  | SWriteArray n b => for_write (fun i => exec_write mar E t v i b) (Z.to_nat n) 0
  | SWriteOptional opt b =>
      let exists_ := negb (is_zero v) in
      etry (if opt then WriteBool exists_ else ERet None)
        (if exists_ then exec_write mar E t v i b else if opt then ERet None else ERet (Some nil_field_err))
  | _ => EPanic "not marshal code"
  end.
(** The unmarshal code; [unm] is the method UnmarshalABI.  On a nil pointer it panics
    (at the latest when it has read something to store; here at once). *)
Fixpoint exec_read (unm : gtype -> rval -> io rval) (E : types) (t : gtype) (i : nat) (s : stmt) (v : rval) : io rval :=
  match s with
  | SRead k p =>
      '(q, err) <-- read_prim (zero_prim k) ;;
      dwith (assign (index p) i v (RLeaf q (leaf_zero q))) (fun v => DRet (v, err))
  | SReadTmp k p =>
      '(q, err) <-- read_prim (zero_prim k) ;;
      match err with
      | Some e => DRet (v, Some e)
      | None => dwith (assign (index p) i v (RPtr (Some (RLeaf q (leaf_zero q))))) (fun v => DRet (v, None))
      end
  | SUnmarshal p =>
      dwith (value_at p i v) (fun x =>
        let store x err := dwith (assign_star p i v x) (fun v => DRet (v, err)) in
        match place_type E p t, x with
        | Some (TPtr t'), RPtr o =>
            match o with
            | Some y => '(y, err) <-- unm t' y ;; store (RPtr (Some y)) err
            | None => DPanic "nil pointer dereference"
            end
        | Some t', x => '(x, err) <-- unm t' x ;; store x err
        | None, _ => DPanic "ill-typed"
        end)
  | SReadSlice b =>
      '(l, err) <-- ReadVaruint ;;
      match err with
      | Some e => DRet (v, Some e)
      | None =>
          let elem := match element_type E t with Some t' => t' | None => TOther end in
          if make_ok (match head E t with TLeaf _ => 1 | _ => size_of E elem end) (i64 l) then
            let n := Z.to_nat (i64 l) in
            let made := match head E t with
                        | TLeaf _ => RLeaf (PGoBytes (zeros n)) false
                        | _ => RSlice (Some (repeat (zero E elem) n))
                        end in
            for_read (fun i v => exec_read unm E t i b v) n 0 made
          else DPanic "makeslice: len out of range"
      end
  | SReadArray n b => for_read (fun i v => exec_read unm E t i b v) (Z.to_nat n) 0 v
  | SReadOptional b =>
      '(x, err) <-- ReadBool ;;
      match err with
      | Some e => DRet (v, Some e)
      | None => if (x : bool) then exec_read unm E t i b v else DRet (v, None)
      end
  | _ => DPanic "not unmarshal code"
  end.

(** codegen.go:11-25 marshalTemplate: the fields one after the other *)
Fixpoint marshal_body (mar : gtype -> rval -> wr) (E : types) (fs : list (tag * visibility * gtype)) (code : list stmt) (l : list rval) : wr :=
  match fs, code, l with
  | (_, t) :: fs, s :: code, v :: l => etry (exec_write mar E t v 0 s) (marshal_body mar E fs code l)
  | _, _, _ => ERet None
  end.
(** codegen.go:27-41 unmarshalTemplate *)
Fixpoint unmarshal_body (unm : gtype -> rval -> io rval) (E : types) (fs : list (tag * visibility * gtype)) (code : list stmt) (l : list rval)
  : io (list rval) :=
  match fs, code, l with
  | (_, t) :: fs, s :: code, v :: l =>
      '(v, err) <-- exec_read unm E t 0 s v ;;
      match err with
      | Some e => DRet (v :: l, Some e)
      | None => '(l, err) <-- unmarshal_body unm E fs code l ;; DRet (v :: l, err)
      end
  | _, _, _ => DRet (l, None)
  end.
(** The methods MarshalABI and UnmarshalABI: of pkg/chain's types, of structs as
    generated, and of other user-defined types.  [fuel] bounds the nesting of structs. *)
Fixpoint MarshalABI (fuel : nat) (E : types) (t : gtype) (v : rval) : wr :=
  match fuel with
  | O => EFuel
  | S fuel =>
      match head E t, v with
      | TStruct fs, RStruct l =>
          match GenUnmarshalFn fs with
          | Ok (code, _) => marshal_body (MarshalABI fuel E) E fs code l
          | _ => EPanic "no code"
          end
      | TLeaf k, RLeaf p _ => if go_kind k then EPanic "no method" else marshal p
      | TUser i _, RUser x => marshals E i x
      | _, _ => EPanic "no method"
      end
  end.
Fixpoint UnmarshalABI (fuel : nat) (E : types) (t : gtype) (v : rval) : io rval :=
  match fuel with
  | O => DFuel
  | S fuel =>
      match head E t, v with
      | TStruct fs, RStruct l =>
          match GenUnmarshalFn fs with
          | Ok (_, code) => '(l, err) <-- unmarshal_body (UnmarshalABI fuel E) E fs code l ;; DRet (RStruct l, err)
          | _ => DPanic "no code"
          end
      | TLeaf k, RLeaf p _ => if go_kind k then DPanic "no method" else leaf_read p
      | TUser i _, RUser x => '(x, err) <-- unmarshals E i x ;; DRet (RUser x, err)
      | _, _ => DPanic "no method"
      end
  end.
