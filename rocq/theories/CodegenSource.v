(** pkg/codegen/codegen.go: the text GenUnmarshalFn returns, byte by byte.  Executing a
    template is represented by a function of the fields it mentions, with the white space that
    its trim markers leave. *)
From Verif Require Import Base Prog AbiPrim Chain Values Leaf GoStd Numbers Reflect Codegen.

(** The end of a line and the tabs of the next one. *)
Definition nl (tabs : nat) : list byte := x0a :: repeat x09 tabs.
Definition when (b : bool) (s : list byte) : list byte := if b then s else [].
(** codegen.go:324-326 *)
Definition indent (s : list byte) : list byte := x09 :: flat_map (fun c => if Byte.eqb c x0a then [x0a; x09] else [c]) s.
(** codegen.go:220-253: field.Method *)
Definition method_name (k : kind) : list byte :=
  match k with
  | KString => str "String" | KU64 => str "Uint64" | KU32 => str "Uint32" | KU16 => str "Uint16" | KU8 => str "Uint8"
  | KI64 => str "Int64" | KI32 => str "Int32" | KI16 => str "Int16" | KI8 => str "Int8" | KBool => str "Bool"
  | KGoBytes => str "Bytes" | KInt => str "Varint" | KUint => str "Varuint" | KF32 => str "Float32" | KF64 => str "Float64"
  | _ => []
  end.
Definition many (f : field) : bool := f_slice f || f_array f.
Definition return_err : list byte := str "; err != nil {" ++ nl 2 ++ str "return err" ++ nl 1 ++ str "}".

(** codegen.go:43-52 writeTemplate *)
Definition write_template (name : list byte) (f : field) (k : kind) : list byte :=
  nl 1 ++ str "if err = e.Write" ++ method_name k ++ str "(" ++ when (f_ptr f) (str "(*") ++ str "v." ++ name
  ++ when (f_ptr f) (str ")") ++ when (many f) (str "[i]") ++ str ")" ++ return_err.
(** codegen.go:54-68 readTemplate *)
Definition read_template (name : list byte) (f : field) (k : kind) : list byte :=
  nl 1 ++ when (f_ptr f) (str "var tmp " ++ f_type f ++ nl 1) ++ str "if "
  ++ (if f_ptr f then str "tmp" else str "v." ++ name ++ when (many f) (str "[i]"))
  ++ str ", err = d.Read" ++ method_name k ++ str "()" ++ return_err
  ++ when (f_ptr f) (nl 1 ++ str "v." ++ name ++ when (many f) (str "[i]") ++ str " = &tmp").
(** codegen.go:70-78 writeOtherTemplate *)
Definition write_other_template (name : list byte) (f : field) : list byte :=
  nl 1 ++ str "if err = " ++ when (f_ptr f && many f) (str "(*") ++ str "v." ++ name ++ when (f_ptr f && many f) (str ")")
  ++ when (many f) (str "[i]") ++ str ".MarshalABI(e)" ++ return_err.
(** codegen.go:80-88 readOtherTemplate *)
Definition read_other_template (name : list byte) (f : field) : list byte :=
  nl 1 ++ str "if err = " ++ when (f_ptr f && many f) (str "(*") ++ str "v." ++ name ++ when (f_ptr f && many f) (str ")")
  ++ when (many f) (str "[i]") ++ str ".UnmarshalABI(d)" ++ return_err.
(** codegen.go:90-98 writeSliceTemplate; the second line starts with four blanks *)
Definition write_slice_template (name : list byte) (f : field) (code : list byte) : list byte :=
  nl 1 ++ str "length = len(" ++ when (f_ptr f) (str "*") ++ str "v." ++ name ++ str ")"
  ++ nl 0 ++ str "    if err = e.WriteVaruint(uint(length))" ++ return_err
  ++ nl 1 ++ str "for i := 0; i < length; i++ {" ++ code ++ nl 1 ++ str "}".
(** codegen.go:100-108 readSliceTemplate *)
Definition read_slice_template (name : list byte) (f : field) (code : list byte) : list byte :=
  nl 1 ++ str "if length, err = d.ReadVaruint()" ++ return_err
  ++ nl 1 ++ str "v." ++ name ++ str " = make([]" ++ f_type f ++ str ", length)"
  ++ nl 1 ++ str "for i := 0; i < int(length); i++ {" ++ code ++ nl 1 ++ str "}".
(** codegen.go:110-114 writeArrayTemplate, :116-120 readArrayTemplate *)
Definition array_template (f : field) (code : list byte) : list byte :=
  nl 1 ++ str "for i := 0; i < " ++ FormatInt (f_len f) ++ str "; i++ {" ++ code ++ nl 1 ++ str "}".
(** codegen.go:122-136 writeOptionalTemplate *)
Definition write_optional_template (name : list byte) (f : field) (code : list byte) : list byte :=
  nl 1 ++ str "exists = v." ++ name ++ str " != nil"
  ++ when (f_optional f) (nl 1 ++ str "if err = e.WriteBool(exists)" ++ return_err)
  ++ nl 1 ++ str "if exists {" ++ code ++ nl 1 ++ str "}"
  ++ when (negb (f_optional f))
       (str " else {" ++ nl 2 ++ str "return errors.New(" ++ x22 :: str "encountered nil for non-optional field: " ++ name ++ x22 :: str ")"
        ++ nl 1 ++ str "}").
(** codegen.go:138-145 readOptionalTemplate *)
Definition read_optional_template (code : list byte) : list byte :=
  nl 1 ++ str "if exists, err = d.ReadBool()" ++ return_err ++ nl 1 ++ str "if exists {" ++ code ++ nl 1 ++ str "}".
(** codegen.go:11-25 marshalTemplate *)
Definition marshal_template (name : list byte) (uses_exists uses_length : bool) (code : list byte) : list byte :=
  nl 0 ++ str "func (v " ++ name ++ str ") MarshalABI(e *abi.Encoder) error {" ++ nl 1 ++ str "var err error"
  ++ when uses_exists (nl 1 ++ str "var exists bool") ++ when uses_length (nl 1 ++ str "var length int")
  ++ code ++ nl 1 ++ str "return err" ++ nl 0 ++ str "}" ++ nl 0.
(** codegen.go:27-41 unmarshalTemplate *)
Definition unmarshal_template (name : list byte) (uses_exists uses_length : bool) (code : list byte) : list byte :=
  nl 0 ++ str "func (v *" ++ name ++ str ") UnmarshalABI(d *abi.Decoder) error {" ++ nl 1 ++ str "var err error"
  ++ when uses_exists (nl 1 ++ str "var exists bool") ++ when uses_length (nl 1 ++ str "var length uint")
  ++ code ++ nl 1 ++ str "return err" ++ nl 0 ++ str "}" ++ nl 0.

(** codegen.go:257-278 the marshal pass, for one field (render, codegen.go:315-322, cannot fail on them) *)
Definition write_code (name : list byte) (f : field) : list byte :=
  let code := match f_method f with Some k => write_template name f k | None => write_other_template name f end in
  let code := if f_slice f then write_slice_template name f (indent code) else code in
  let code := if f_array f then array_template f (indent code) else code in
  if f_optional f || f_ptr f then write_optional_template name f (indent code) else code.
(** codegen.go:287-307 the unmarshal pass *)
Definition read_code (name : list byte) (f : field) : list byte :=
  let code := match f_method f with Some k => read_template name f k | None => read_other_template name f end in
  let code := if f_slice f then read_slice_template name f (indent code) else code in
  let code := if f_array f then array_template f (indent code) else code in
  if f_optional f then read_optional_template (indent code) else code.
(** codegen.go:255-311, for fields with their names *)
Definition source (struct : list byte) (fs : list (list byte * field)) : list byte :=
  marshal_template struct (existsb (fun '(_, f) => f_optional f || f_ptr f) fs) (existsb (fun '(_, f) => f_slice f || f_array f) fs)
    (concat (map (fun '(name, f) => write_code name f) fs))
  ++ nl 0
  ++ unmarshal_template struct (existsb (fun '(_, f) => f_optional f) fs) (existsb (fun '(_, f) => f_slice f) fs)
       (concat (map (fun '(name, f) => read_code name f) fs)).
(** codegen.go:176-313; t.Name() is [struct] *)
Definition GenUnmarshalFn_source (struct : list byte) (names : list (list byte)) (fs : list (tag * visibility * gtype)) : res (list byte) :=
  rbind (classify_all fs) (fun l => Ok (source struct (combine names l))).
