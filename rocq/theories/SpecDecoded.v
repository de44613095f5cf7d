(** What a decoded value looks like, and which values the encoder can write. *)
From Verif Require Import Base Prog SpecWire AbiPrim Chain SpecChain Values Leaf SpecLeaf Reflect SpecReflect.

(** Every part is present: leaves are in range and keys have the length their type
    asks for, pointers and maps are not nil, a map has each key once.  Only a field tagged optional or extension may hold the zero
    value of its type instead. *)
Inductive filled (E : types) : gtype -> rval -> Prop :=
| fi_leaf t k p : head E t = TLeaf k -> kind_of p = k -> sound_leaf p -> filled E t (RLeaf p (leaf_zero p))
| fi_nil_bytes t : head E t = TLeaf KGoBytes -> filled E t (RLeaf (PGoBytes []) true)
| fi_int t k v : head E t = TInt k -> int_range k v -> filled E t (RInt v)
| fi_ptr t t' v : head E t = TPtr t' -> filled E t' v -> filled E t (RPtr (Some v))
| fi_nil_slice t t' : head E t = TSlice t' -> filled E t (RSlice None)
| fi_slice t t' l : head E t = TSlice t' -> filled_list E t' l ->
    make_ok (size_of E t') (zlen l) = true -> filled E t (RSlice (Some l))
| fi_array t n t' l : head E t = TArray n t' -> filled_list E t' l -> length l = n -> filled E t (RArray l)
| fi_map t kt vt m : head E t = TMap kt vt -> filled_pairs E kt vt m -> NoDup (map fst m) ->
    filled E t (RMap (Some m))
| fi_struct t fs l : head E t = TStruct fs -> filled_fields E fs l -> filled E t (RStruct l)
| fi_user t i u v : head E t = TUser i u -> has_type E sound_leaf u v -> filled E t (RUser v)
with filled_list (E : types) : gtype -> list rval -> Prop :=
| fl_nil t : filled_list E t []
| fl_cons t v l : filled E t v -> filled_list E t l -> filled_list E t (v :: l)
with filled_pairs (E : types) : gtype -> gtype -> list (rval * rval) -> Prop :=
| fp_nil kt vt : filled_pairs E kt vt []
| fp_cons kt vt k v m : filled E kt k -> filled E vt v -> filled_pairs E kt vt m ->
    filled_pairs E kt vt ((k, v) :: m)
with filled_fields (E : types) : list (tag * visibility * gtype) -> list rval -> Prop :=
| ff_nil : filled_fields E [] []
| ff_value tg vis t fs v l : filled E t v -> filled_fields E fs l ->
    filled_fields E ((tg, vis, t) :: fs) (v :: l)
| ff_absent tg vis t fs l : tg = Optional \/ tg = Extension -> filled_fields E fs l ->
    filled_fields E ((tg, vis, t) :: fs) (zero E t :: l).
Scheme filled_mind := Induction for filled Sort Prop
  with filled_list_mind := Induction for filled_list Sort Prop
  with filled_pairs_mind := Induction for filled_pairs Sort Prop
  with filled_fields_mind := Induction for filled_fields Sort Prop.
Combined Scheme filled_all from filled_mind, filled_list_mind, filled_pairs_mind, filled_fields_mind.

(** Every number and length the encoder writes as a varuint is below 2^28 (2^27 in
    absolute value for int), the largest it can write. *)
Fixpoint small (v : rval) : Prop :=
  match v with
  | RLeaf p _ => bounded_prim p
  | RInt _ | ROther _ | RUser _ => True
  | RPtr o => match o with None => True | Some v => small v end
  | RSlice o => match o with
                | None => True
                | Some l => short l /\ (fix all l := match l with [] => True | v :: l => small v /\ all l end) l
                end
  | RArray l | RStruct l => (fix all l := match l with [] => True | v :: l => small v /\ all l end) l
  | RMap o => match o with
              | None => True
              | Some m => short m /\ (fix all m := match m with
                                                   | [] => True
                                                   | (k, v) :: m => small k /\ small v /\ all m
                                                   end) m
              end
  end.

(** A user-defined type whose UnmarshalABI leaves values with keys of the right length in
    its target, and whose MarshalABI writes every such value. *)
Definition regular (E : types) (i : nat) (u : gtype) : Prop :=
  (forall old env inp v rest, has_type E any_leaf u old -> zlen inp < 2 ^ 28 ->
     run env (unmarshals E i old) inp = Done (v, None) rest -> has_type E sound_leaf u v)
  /\ (forall v, has_type E sound_leaf u v -> exists out full, runw (marshals E i v) out = WDone None full).
