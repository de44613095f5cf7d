(** Specification for values with interface variables inside. *)
From Verif Require Import Base Prog SpecWire AbiPrim Chain SpecChain Values Leaf SpecLeaf Reflect SpecReflect Interfaces.

(** ** The zero value of its type: interface variables inside are nil *)
Inductive blank : any -> Prop :=
| bl_plain t v : is_zero v = true -> blank (APlain t v)
| bl_iface : blank (AIface None)
| bl_ptr : blank (APtr None)
| bl_slice : blank (ASlice None)
| bl_array l : (forall a, In a l -> blank a) -> blank (AArray l)
| bl_map : blank (AMap None)
| bl_struct fs : (forall tg vis a, In (tg, vis, a) fs -> blank a) -> blank (AStruct fs).

(** ** The same value without interfaces

    [boxed E t v a]: [a] is the value [v] of type [t] except that some of its parts
    are held in interface variables.  An optional field counts as absent when it is
    the zero value of its type, which a variable holding a zero value is not. *)
Inductive boxed (E : types) : gtype -> rval -> any -> Prop :=
| bx_plain t v : boxed E t v (APlain t v)
| bx_iface t v a : boxed E t v a -> boxed E t v (AIface (Some a))
| bx_ptr t t' v a : head E t = TPtr t' -> boxed E t' v a -> boxed E t (RPtr (Some v)) (APtr (Some a))
| bx_nil_slice t t' : head E t = TSlice t' -> boxed E t (RSlice None) (ASlice None)
| bx_slice t t' l l' : head E t = TSlice t' -> boxed_list E t' l l' -> boxed E t (RSlice (Some l)) (ASlice (Some l'))
| bx_array t n t' l l' : head E t = TArray n t' -> boxed_list E t' l l' -> boxed E t (RArray l) (AArray l')
| bx_nil_map t kt vt : head E t = TMap kt vt -> boxed E t (RMap None) (AMap None)
| bx_map t kt vt m m' : head E t = TMap kt vt -> boxed_pairs E kt vt m m' -> boxed E t (RMap (Some m)) (AMap (Some m'))
| bx_struct t fs l l' : head E t = TStruct fs -> boxed_fields E fs l l' -> boxed E t (RStruct l) (AStruct l')
with boxed_list (E : types) : gtype -> list rval -> list any -> Prop :=
| bxl_nil t : boxed_list E t [] []
| bxl_cons t v l a l' : boxed E t v a -> boxed_list E t l l' -> boxed_list E t (v :: l) (a :: l')
with boxed_pairs (E : types) : gtype -> gtype -> list (rval * rval) -> list (any * any) -> Prop :=
| bxp_nil kt vt : boxed_pairs E kt vt [] []
| bxp_cons kt vt k v m a b m' : boxed E kt k a -> boxed E vt v b -> boxed_pairs E kt vt m m' ->
    boxed_pairs E kt vt ((k, v) :: m) ((a, b) :: m')
with boxed_fields (E : types) : list (tag * visibility * gtype) -> list rval -> list (tag * visibility * any) -> Prop :=
| bxf_nil : boxed_fields E [] [] []
| bxf_cons tg vis t fs v l a l' : boxed E t v a -> (tg = Optional -> blank a <-> is_zero v = true) ->
    boxed_fields E fs l l' -> boxed_fields E ((tg, vis, t) :: fs) (v :: l) ((tg, vis, a) :: l').

(** ** Wire form of any value: that of what its interface variables hold *)
Inductive any_encoded (E : types) : any -> list byte -> Prop :=
| ae_plain t v bs v' : encoded E Target t v bs v' -> any_encoded E (APlain t v) bs
| ae_iface a bs : any_encoded E a bs -> any_encoded E (AIface (Some a)) bs
| ae_ptr a bs : any_encoded E a bs -> any_encoded E (APtr (Some a)) bs
| ae_slice o pre bs : zlen (elems o) < 2 ^ 28 -> varu (zlen (elems o)) pre -> any_encoded_list E (elems o) bs ->
    any_encoded E (ASlice o) (pre ++ bs)
| ae_array l bs : any_encoded_list E l bs -> any_encoded E (AArray l) bs
| ae_map o pre bs : zlen (elems o) < 2 ^ 28 -> varu (zlen (elems o)) pre -> any_encoded_pairs E (elems o) bs ->
    any_encoded E (AMap o) (pre ++ bs)
| ae_struct fs bs : any_encoded_fields E fs bs -> any_encoded E (AStruct fs) bs
with any_encoded_list (E : types) : list any -> list byte -> Prop :=
| ael_nil : any_encoded_list E [] []
| ael_cons a l b bs : any_encoded E a b -> any_encoded_list E l bs -> any_encoded_list E (a :: l) (b ++ bs)
with any_encoded_pairs (E : types) : list (any * any) -> list byte -> Prop :=
| aep_nil : any_encoded_pairs E [] []
| aep_cons k a m b1 b2 bs : any_encoded E k b1 -> any_encoded E a b2 -> any_encoded_pairs E m bs ->
    any_encoded_pairs E ((k, a) :: m) (b1 ++ b2 ++ bs)
with any_encoded_fields (E : types) : list (tag * visibility * any) -> list byte -> Prop :=
| aef_nil : any_encoded_fields E [] []
| aef_field tg a fs b bs : tg <> Optional -> any_encoded E a b -> any_encoded_fields E fs bs ->
    any_encoded_fields E ((tg, Exported, a) :: fs) (b ++ bs)
| aef_absent vis a fs bs : blank a -> any_encoded_fields E fs bs ->
    any_encoded_fields E ((Optional, vis, a) :: fs) ([x00] ++ bs)
| aef_present a fs b bs : ~ blank a -> any_encoded E a b -> any_encoded_fields E fs bs ->
    any_encoded_fields E ((Optional, Exported, a) :: fs) ([x01] ++ b ++ bs).

(** Every plain part is a value of its type, and its type is one Decode accepts. *)
Inductive plain_parts (P : gtype -> rval -> Prop) : any -> Prop :=
| pp_plain t v : P t v -> plain_parts P (APlain t v)
| pp_nil : plain_parts P (AIface None)
| pp_iface a : plain_parts P a -> plain_parts P (AIface (Some a))
| pp_nil_ptr : plain_parts P (APtr None)
| pp_ptr a : plain_parts P a -> plain_parts P (APtr (Some a))
| pp_slice o : (forall a, In a (elems o) -> plain_parts P a) -> plain_parts P (ASlice o)
| pp_array l : (forall a, In a l -> plain_parts P a) -> plain_parts P (AArray l)
| pp_map o : (forall k a, In (k, a) (elems o) -> plain_parts P k /\ plain_parts P a) -> plain_parts P (AMap o)
| pp_struct fs : (forall tg vis a, In (tg, vis, a) fs -> plain_parts P a) -> plain_parts P (AStruct fs).
Definition sound_part (E : types) (t : gtype) (v : rval) : Prop := supported E t /\ has_type E sound_leaf t v.

(** ** A nil interface where Encode looks: not in an optional field that is absent *)
Inductive nil_inside : any -> Prop :=
| ni_here : nil_inside (AIface None)
| ni_iface a : nil_inside a -> nil_inside (AIface (Some a))
| ni_ptr a : nil_inside a -> nil_inside (APtr (Some a))
| ni_slice l a : In a l -> nil_inside a -> nil_inside (ASlice (Some l))
| ni_array l a : In a l -> nil_inside a -> nil_inside (AArray l)
| ni_key m k a : In (k, a) m -> nil_inside k -> nil_inside (AMap (Some m))
| ni_value m k a : In (k, a) m -> nil_inside a -> nil_inside (AMap (Some m))
| ni_struct fs tg vis a : In (tg, vis, a) fs -> (tg = Optional -> ~ blank a) -> nil_inside a ->
    nil_inside (AStruct fs).

Scheme boxed_mind := Induction for boxed Sort Prop
  with boxed_list_mind := Induction for boxed_list Sort Prop
  with boxed_pairs_mind := Induction for boxed_pairs Sort Prop
  with boxed_fields_mind := Induction for boxed_fields Sort Prop.
Combined Scheme boxed_all from boxed_mind, boxed_list_mind, boxed_pairs_mind, boxed_fields_mind.
Scheme any_encoded_mind := Induction for any_encoded Sort Prop
  with any_encoded_list_mind := Induction for any_encoded_list Sort Prop
  with any_encoded_pairs_mind := Induction for any_encoded_pairs Sort Prop
  with any_encoded_fields_mind := Induction for any_encoded_fields Sort Prop.
Combined Scheme any_encoded_all from any_encoded_mind, any_encoded_list_mind, any_encoded_pairs_mind, any_encoded_fields_mind.
