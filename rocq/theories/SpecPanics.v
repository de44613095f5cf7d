(** What makes Encode panic or fail. *)
From Verif Require Import Base Prog SpecWire AbiPrim Chain SpecChain Values Leaf SpecLeaf Reflect SpecReflect AbiDyn SpecAbi.

(** No panic on any writer, failing or not. *)
Definition never_panics_w {A} (p : enc A) : Prop :=
  forall o i out m out', runf o i p out <> WCrash m out'.

(** ** Encode *)
(** User-defined MarshalABI methods come to an end, and panic with a failing writer
    only if they also panic with a working one. *)
Definition predictable (E : types) : Prop :=
  forall i x, (wpanics (marshals E i x) \/ never_panics_w (marshals E i x)) /\ forall out, runw (marshals E i x) out <> WDiverged.
(** A field is written unless it is tagged optional and zero. *)
Definition written (tg : tag) (v : rval) : Prop := tg = Optional -> is_zero v = false.
(** [P] holds of the value or of a part of it that is to be written. *)
Inductive holds (E : types) (P : gtype -> rval -> Prop) : gtype -> rval -> Prop :=
| ho_here t v : P t v -> holds E P t v
| ho_ptr t t' v : head E t = TPtr t' -> holds E P t' v -> holds E P t (RPtr (Some v))
| ho_slice t t' l v : head E t = TSlice t' -> In v l -> holds E P t' v -> holds E P t (RSlice (Some l))
| ho_array t n t' l v : head E t = TArray n t' -> In v l -> holds E P t' v -> holds E P t (RArray l)
| ho_key t kt vt m k v : head E t = TMap kt vt -> In (k, v) m -> holds E P kt k -> holds E P t (RMap (Some m))
| ho_value t kt vt m k v : head E t = TMap kt vt -> In (k, v) m -> holds E P vt v -> holds E P t (RMap (Some m))
| ho_field t fs l i tg vis t' v : head E t = TStruct fs -> nth_error fs i = Some (tg, vis, t') -> nth_error l i = Some v ->
    written tg v -> holds E P t' v -> holds E P t (RStruct l).
(** A number or length of 2^28 or more (2^27 for int), a nil pointer to one of
    pkg/chain's types or to a user-defined one, an unexported field, a panic of a
    user-defined method. *)
Definition panic_cause (E : types) (t : gtype) (v : rval) : Prop :=
  match head E t, v with
  | TLeaf _, RLeaf p _ => ~ bounded_prim p
  | TPtr t', RPtr None => (exists k, head E t' = TLeaf k /\ go_kind k = false) \/ exists i u, head E t' = TUser i u
  | TSlice _, RSlice (Some l) => ~ short l
  | TMap _ _, RMap (Some m) => ~ short m
  | TStruct fs, RStruct l => exists i tg vis t' v, nth_error fs i = Some (tg, vis, t') /\ nth_error l i = Some v
      /\ written tg v /\ vis <> Exported
  | TUser i _, RUser x => wpanics (marshals E i x)
  | _, _ => False
  end.
(** Any other nil pointer, a type Encode does not handle, an error of a user-defined
    method. *)
Definition error_cause (E : types) (t : gtype) (v : rval) : Prop :=
  match head E t, v with
  | TPtr t', RPtr None => (forall k, head E t' = TLeaf k -> go_kind k = true) /\ (forall i u, head E t' <> TUser i u)
  | TOther, _ => True
  | TUser i _, RUser x => exists e out full, runw (marshals E i x) out = WDone (Some e) full
  | _, _ => False
  end.
Definition cause (E : types) (t : gtype) (v : rval) : Prop := panic_cause E t v \/ error_cause E t v.

(** ** Abi.Encode: no number or length of 2^28 or more *)
Inductive small_gval : gval -> Prop :=
| sg_nil : small_gval VNil
| sg_leaf p : typed_prim p -> bounded_prim p -> small_gval (VPrim p)
| sg_slice l : short l -> Forall small_gval l -> small_gval (VSlice l)
| sg_map m : Forall (fun kv => small_gval (snd kv)) m -> small_gval (VMap m)
| sg_other i : small_gval (VOther i).
(** No variant of 2^28 or more alternatives is needed for [n]. *)
Definition short_variants (a : Abi) (n : name) : Prop :=
  forall m b arr opt ext l, reach a n m -> decomposes m b arr opt ext -> defines a b (DVariant l) -> short l.
