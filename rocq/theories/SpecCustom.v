(** Custom encoder and decoder functions. *)
From Verif Require Import Base Prog Chain Values Leaf Reflect.

(** The function declines a value: it reports neither done nor an error and writes
    nothing (reads nothing and leaves the target alone). *)
Definition declines (fn : ehook) (t : gtype) (v : rval) : Prop :=
  forall out, runw (fn t v) out = WDone (false, None) out.
Definition declines_target (fn : dhook) (t : gtype) (v : rval) : Prop :=
  forall env inp, run env (fn t v) inp = Done (v, (false, None)) inp.

(** [consulted E t v a b]: encoding [v] of type [t] may hand the function the value [b]
    of type [a]: the value itself and everything reached through pointers, elements,
    map entries and fields, except chain types and user-defined types behind pointers,
    which have their own methods, and absent optional fields. *)
Inductive consulted (E : types) : gtype -> rval -> gtype -> rval -> Prop :=
| co_self t v : consulted E t v (head E t) v
| co_ptr t t' x a b : head E t = TPtr t' -> (forall k, head E t' = TLeaf k -> go_kind k = true) -> (forall i u, head E t' <> TUser i u) ->
    consulted E t' x a b -> consulted E t (RPtr (Some x)) a b
| co_slice t t' l x a b : head E t = TSlice t' -> In x l -> consulted E t' x a b -> consulted E t (RSlice (Some l)) a b
| co_array t t' n l x a b : head E t = TArray n t' -> In x l -> consulted E t' x a b -> consulted E t (RArray l) a b
| co_key t kt vt m k x a b : head E t = TMap kt vt -> In (k, x) m -> consulted E kt k a b -> consulted E t (RMap (Some m)) a b
| co_value t kt vt m k x a b : head E t = TMap kt vt -> In (k, x) m -> consulted E vt x a b -> consulted E t (RMap (Some m)) a b
| co_field t fs l i tg t' x a b : head E t = TStruct fs -> nth_error fs i = Some (tg, Exported, t') -> nth_error l i = Some x ->
    (tg = Optional -> is_zero x = false) -> consulted E t' x a b -> consulted E t (RStruct l) a b
| co_quantity t k e z : head E t = TLeaf k ->
    consulted E t (RLeaf (PExtendedAsset e) z) (TLeaf KAsset) (RLeaf (PAsset (Quantity e)) (leaf_zero (PAsset (Quantity e))))
| co_contract t k e z : head E t = TLeaf k ->
    consulted E t (RLeaf (PExtendedAsset e) z) (TLeaf KName) (RLeaf (PName (Contract e)) (leaf_zero (PName (Contract e)))).
