(** When a value under an ABI schema and a Go value of a static type say the same
    thing: the names and shapes agree, field by field. *)
From Verif Require Import Base SpecWire Chain SpecChain Values Leaf SpecLeaf AbiDyn SpecAbi Reflect SpecReflect SpecTags SpecMirror.

(** The same builtin value; a uint64 may be a Go uint64 or a chain.Uint64. *)
Inductive same_builtin : prim -> prim -> Prop :=
| sb_refl p : same_builtin p p
| sb_u64 v : same_builtin (PU64 v) (PUint64 v)
| sb_uint64 v : same_builtin (PUint64 v) (PU64 v).
(** Named integer types: type Amount int64 and the like. *)
Definition same_int (p : prim) (k : ikind) (v : Z) : Prop :=
  match k with
  | IU64 => p = PU64 v \/ p = PUint64 v
  | IU32 => p = PU32 v
  | II64 => p = PI64 v
  | II32 => p = PI32 v
  end.
Definition usable (p : prim) : Prop := typed_prim p /\ bounded_prim p /\ wf_keys p.

(** [twin_field a E n fd g v]: the schema value [g] of the type named [n] and the Go value
    [v] of the struct field [fd].  [twin_body] is about the type with its '?' and '$' dealt
    with, [twin_inner] about the element of an array. *)
Inductive twin_field (a : Abi) (E : types) : name -> tag * visibility * gtype -> gval -> rval -> Prop :=
| tf_required n b arr ext t g v : decomposes n b arr false ext -> g <> VNil -> direct t = true ->
    twin_body a E Slot n b arr t g v ->
    twin_field a E n (if ext then extension t else field t) g v
| tf_absent n b arr ext t v : decomposes n b arr true ext -> is_zero v = true -> direct t = true -> same v (zero_of t) ->
    twin_field a E n (Optional, Exported, t) VNil v
| tf_present n b arr ext t g v : decomposes n b arr true ext -> g <> VNil -> is_zero v = false -> direct t = true ->
    twin_body a E Slot n b arr t g v ->
    twin_field a E n (Optional, Exported, t) g v
with twin_body (a : Abi) (E : types) : place -> name -> name -> bool -> gtype -> gval -> rval -> Prop :=
| tb_pointer pl n b arr t t' g v : head E t = TPtr t' -> twin_body a E (beneath pl) n b arr t' g v ->
    twin_body a E pl n b arr t g (RPtr (Some v))
| tb_slice pl n b t t' gs o : head E t = TSlice t' -> short gs -> twin_list a E n b t' gs (elems o) ->
    twin_body a E pl n b true t (VSlice gs) (RSlice o)
| tb_bytes pl n b t d z : head E t = TLeaf KGoBytes -> falls_through a n b -> b = str "uint8" -> short d ->
    twin_body a E pl n b true t (VSlice (map (fun c => VPrim (PU8 (zb c))) d)) (RLeaf (PGoBytes d) z)
| tb_single pl n b t g v : twin_inner a E pl n b t g v -> twin_body a E pl n b false t g v
with twin_inner (a : Abi) (E : types) : place -> name -> name -> gtype -> gval -> rval -> Prop :=
| ti_pointer pl n b t t' g v : head E t = TPtr t' -> twin_inner a E (beneath pl) n b t' g v ->
    twin_inner a E pl n b t g (RPtr (Some v))
| ti_alias pl n b m b' arr ext t g v : defines a b (DAlias m) -> decomposes m b' arr false ext -> g <> VNil ->
    twin_body a E pl m b' arr t g v -> twin_inner a E pl n b t g v
| ti_struct pl n b t fs gofs m l : head E t = TStruct gofs -> inherits a n fs -> fs <> [] -> twin_fields a E fs gofs m l ->
    twin_inner a E pl n b t (VMap m) (RStruct l)
| ti_leaf pl n b t p q z : head E t = TLeaf (kind_of q) -> readable pl (kind_of q) = true ->
    falls_through a n b -> builtin_type p = Some b -> usable p -> same_builtin p q ->
    twin_inner a E pl n b t (VPrim p) (RLeaf q z)
| ti_int pl n b t k p v : head E t = TInt k -> falls_through a n b -> builtin_type p = Some b -> usable p -> same_int p k v ->
    twin_inner a E pl n b t (VPrim p) (RInt v)
with twin_list (a : Abi) (E : types) : name -> name -> gtype -> list gval -> list rval -> Prop :=
| tl_nil n b t : twin_list a E n b t [] []
| tl_cons n b t g gs v vs : twin_inner a E Slot n b t g v -> twin_list a E n b t gs vs ->
    twin_list a E n b t (g :: gs) (v :: vs)
with twin_fields (a : Abi) (E : types) :
  list (name * name) -> list (tag * visibility * gtype) -> list (name * gval) -> list rval -> Prop :=
| tfs_nil m : twin_fields a E [] [] m []
| tfs_field f n fs fd gofs m v l : twin_field a E n fd (SpecAbi.entry m f) v -> twin_fields a E fs gofs m l ->
    twin_fields a E ((f, n) :: fs) (fd :: gofs) m (v :: l)
(* a Go struct embedded in place of some of the fields, as for a base type *)
| tfs_embedded fs1 fs2 gofs1 gofs2 m l1 l2 : twin_fields a E fs1 gofs1 m l1 -> twin_fields a E fs2 gofs2 m l2 ->
    twin_fields a E (fs1 ++ fs2) (field (TStruct gofs1) :: gofs2) m (RStruct l1 :: l2).

(** A schema type (neither optional nor an extension) and a Go type given to Encode or
    Decode. *)
Definition twins (a : Abi) (E : types) (n : name) (t : gtype) (g : gval) (v : rval) : Prop :=
  exists b arr ext, decomposes n b arr false ext /\ g <> VNil /\ twin_body a E Target n b arr t g v.

Scheme twin_field_mind := Induction for twin_field Sort Prop
  with twin_body_mind := Induction for twin_body Sort Prop
  with twin_inner_mind := Induction for twin_inner Sort Prop
  with twin_list_mind := Induction for twin_list Sort Prop
  with twin_fields_mind := Induction for twin_fields Sort Prop.
Combined Scheme twin_all from twin_field_mind, twin_body_mind, twin_inner_mind, twin_list_mind, twin_fields_mind.
