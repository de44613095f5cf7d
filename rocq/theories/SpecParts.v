(** Specification: what the values and targets with interface variables inside are
    made of. *)
From Verif Require Import Base Prog AbiPrim Chain Values Leaf Reflect SpecReflect Interfaces Targets.

(** Every part without interfaces satisfies [P]; every field next to an interface has a
    tag in [G]. *)
Inductive parts (P : gtype -> rval -> Prop) (G : tag -> Prop) : any -> Prop :=
| pa_plain t v : P t v -> parts P G (APlain t v)
| pa_nil : parts P G (AIface None)
| pa_iface a : parts P G a -> parts P G (AIface (Some a))
| pa_nil_ptr : parts P G (APtr None)
| pa_ptr a : parts P G a -> parts P G (APtr (Some a))
| pa_nil_slice : parts P G (ASlice None)
| pa_slice l : (forall a, In a l -> parts P G a) -> parts P G (ASlice (Some l))
| pa_array l : (forall a, In a l -> parts P G a) -> parts P G (AArray l)
| pa_nil_map : parts P G (AMap None)
| pa_map m : (forall k a, In (k, a) m -> parts P G k) -> (forall k a, In (k, a) m -> parts P G a) -> parts P G (AMap (Some m))
| pa_struct fs : (forall tg vis a, In (tg, vis, a) fs -> G tg) -> (forall tg vis a, In (tg, vis, a) fs -> parts P G a) ->
    parts P G (AStruct fs).

(** The same for what Decode is pointed at. *)
Inductive target_parts (P : gtype -> Prop) (G : tag -> Prop) : target -> Prop :=
| tp_plain t v : P t -> target_parts P G (GPlain t v)
| tp_nil : target_parts P G (GIface None)
| tp_held : target_parts P G GHeld
| tp_iface x : target_parts P G x -> target_parts P G (GIface (Some x))
| tp_nil_ptr z : target_parts P G z -> target_parts P G (GPtr z None)
| tp_ptr z x : target_parts P G z -> target_parts P G x -> target_parts P G (GPtr z (Some x))
| tp_array l : (forall g, In g l -> target_parts P G g) -> target_parts P G (GArray l)
| tp_slice size z o : target_parts P G z -> (forall l g, o = Some l -> In g l -> target_parts P G g) -> target_parts P G (GSlice size z o)
| tp_map kt z o : P kt -> target_parts P G z -> target_parts P G (GMap kt z o)
| tp_struct fs :
    (forall tg vis t v, In (inl (tg, vis, t, v)) fs -> G tg /\ P t) ->
    (forall o vis g, In (inr (o, vis, g)) fs -> (forall tg, o = Some tg -> G tg) /\ target_parts P G g) ->
    target_parts P G (GStruct fs).
