(** Specification of the reflective codec: which values a type has, when two values
    are the same to a user, the wire form of a value, and which types Decode
    accepts. *)
From Verif Require Import Base Prog SpecWire AbiPrim Chain SpecChain Values Leaf SpecLeaf Reflect.
From Coq Require Import Permutation.

(** ** Values of a type *)

(** Leaf types holding a slice, for which "zero" means that the slice is nil. *)
Definition holds_slice (k : kind) : bool :=
  match k with
  | KGoBytes | KBlob | KBytes | KAction | KPublicKey | KSignature | KTransaction | KTransactionExtension => true
  | _ => false
  end.
Definition zero_flag_ok (p : prim) (z : bool) : Prop :=
  (z = true -> p = zero_prim (kind_of p)) /\ (holds_slice (kind_of p) = false -> z = leaf_zero p).
Definition int_range (k : ikind) (v : Z) : Prop :=
  match k with IU64 => in_u 64 v | IU32 => in_u 32 v | II64 => in_i 64 v | II32 => in_i 32 v end.
(** Key types compared structurally: no floats, pointers or slices inside. *)
Fixpoint comparable (t : gtype) : bool :=
  match t with
  | TLeaf k => negb (holds_slice k) && match k with KF32 | KF64 => false | _ => true end
  | TInt _ => true
  | TArray _ t => comparable t
  | TStruct fs => (fix all (fs : list (tag * visibility * gtype)) :=
                     match fs with [] => true | (_, _, t) :: fs => comparable t && all fs end) fs
  | TUser _ u => comparable u
  | _ => false
  end.
(** [v] is a value a variable of type [t] can hold; every leaf satisfies [ok].  A
    slice that exists was allocated; a map has each key once. *)
Inductive has_type (E : types) (ok : prim -> Prop) : gtype -> rval -> Prop :=
| ht_leaf t k p z : head E t = TLeaf k -> kind_of p = k -> zero_flag_ok p z -> ok p -> has_type E ok t (RLeaf p z)
| ht_int t k v : head E t = TInt k -> int_range k v -> has_type E ok t (RInt v)
| ht_other t z : head E t = TOther -> has_type E ok t (ROther z)
| ht_nil t t' : head E t = TPtr t' -> has_type E ok t (RPtr None)
| ht_ptr t t' v : head E t = TPtr t' -> has_type E ok t' v -> has_type E ok t (RPtr (Some v))
| ht_nil_slice t t' : head E t = TSlice t' -> has_type E ok t (RSlice None)
| ht_slice t t' l : head E t = TSlice t' -> have_type E ok t' l -> make_ok (size_of E t') (zlen l) = true ->
    has_type E ok t (RSlice (Some l))
| ht_array t t' n l : head E t = TArray n t' -> have_type E ok t' l -> length l = n -> has_type E ok t (RArray l)
| ht_nil_map t kt vt : head E t = TMap kt vt -> has_type E ok t (RMap None)
| ht_map t kt vt m : head E t = TMap kt vt -> comparable kt = true -> have_pair_type E ok kt vt m ->
    NoDup (map fst m) -> has_type E ok t (RMap (Some m))
| ht_struct t fs l : head E t = TStruct fs -> have_field_types E ok fs l -> has_type E ok t (RStruct l)
| ht_user t i u v : head E t = TUser i u -> has_type E ok u v -> has_type E ok t (RUser v)
with have_type (E : types) (ok : prim -> Prop) : gtype -> list rval -> Prop :=
| hts_nil t : have_type E ok t []
| hts_cons t v l : has_type E ok t v -> have_type E ok t l -> have_type E ok t (v :: l)
with have_pair_type (E : types) (ok : prim -> Prop) : gtype -> gtype -> list (rval * rval) -> Prop :=
| htp_nil kt vt : have_pair_type E ok kt vt []
| htp_cons kt vt k v m : has_type E ok kt k -> has_type E ok vt v -> have_pair_type E ok kt vt m ->
    have_pair_type E ok kt vt ((k, v) :: m)
with have_field_types (E : types) (ok : prim -> Prop) : list (tag * visibility * gtype) -> list rval -> Prop :=
| htf_nil : have_field_types E ok [] []
| htf_cons tg vis t fs v l : has_type E ok t v -> have_field_types E ok fs l ->
    have_field_types E ok ((tg, vis, t) :: fs) (v :: l).

(** In range, and public keys and signatures of the length their type asks for. *)
Definition sound_leaf (p : prim) : Prop := typed_prim p /\ wf_keys p.
(** Anything a Go variable can hold. *)
Definition any_leaf (p : prim) : Prop := typed_prim p.

(** ** The same value: nil and empty slices or maps identified, maps unordered *)
Definition elems {A} (o : option (list A)) : list A := match o with Some l => l | None => [] end.
Inductive same : rval -> rval -> Prop :=
| sm_leaf p z z' : same (RLeaf p z) (RLeaf p z')
| sm_int v : same (RInt v) (RInt v)
| sm_other z : same (ROther z) (ROther z)
| sm_nil : same (RPtr None) (RPtr None)
| sm_ptr v v' : same v v' -> same (RPtr (Some v)) (RPtr (Some v'))
| sm_slice o o' : same_list (elems o) (elems o') -> same (RSlice o) (RSlice o')
| sm_array l l' : same_list l l' -> same (RArray l) (RArray l')
| sm_map o o' m : Permutation (elems o) m -> same_pairs m (elems o') -> same (RMap o) (RMap o')
| sm_struct l l' : same_list l l' -> same (RStruct l) (RStruct l')
| sm_user v v' : same v v' -> same (RUser v) (RUser v')
with same_list : list rval -> list rval -> Prop :=
| sml_nil : same_list [] []
| sml_cons v v' l l' : same v v' -> same_list l l' -> same_list (v :: l) (v' :: l')
with same_pairs : list (rval * rval) -> list (rval * rval) -> Prop :=
| smp_nil : same_pairs [] []
| smp_cons k k' v v' m m' : same k k' -> same v v' -> same_pairs m m' ->
    same_pairs ((k, v) :: m) ((k', v') :: m').

(** The same value with the entries of any of its maps enumerated in another order.
    What a user-defined type holds is its own business. *)
Inductive reordered : rval -> rval -> Prop :=
| ro_leaf p z : reordered (RLeaf p z) (RLeaf p z)
| ro_int v : reordered (RInt v) (RInt v)
| ro_other z : reordered (ROther z) (ROther z)
| ro_nil : reordered (RPtr None) (RPtr None)
| ro_ptr v v' : reordered v v' -> reordered (RPtr (Some v)) (RPtr (Some v'))
| ro_nil_slice : reordered (RSlice None) (RSlice None)
| ro_slice l l' : reordered_list l l' -> reordered (RSlice (Some l)) (RSlice (Some l'))
| ro_array l l' : reordered_list l l' -> reordered (RArray l) (RArray l')
| ro_nil_map : reordered (RMap None) (RMap None)
| ro_map m q m' : reordered_pairs m q -> Permutation q m' -> reordered (RMap (Some m)) (RMap (Some m'))
| ro_struct l l' : reordered_list l l' -> reordered (RStruct l) (RStruct l')
| ro_user v : reordered (RUser v) (RUser v)
with reordered_list : list rval -> list rval -> Prop :=
| rol_nil : reordered_list [] []
| rol_cons v v' l l' : reordered v v' -> reordered_list l l' -> reordered_list (v :: l) (v' :: l')
with reordered_pairs : list (rval * rval) -> list (rval * rval) -> Prop :=
| rop_nil : reordered_pairs [] []
| rop_cons k k' v v' m m' : reordered k k' -> reordered v v' -> reordered_pairs m m' ->
    reordered_pairs ((k, v) :: m) ((k', v') :: m').

(** ** Where a type stands

    [Slot]: a slice or array element or a struct field.  [Target]: what Decode is
    pointed at, a map key or a map value.  [Behind]: reached through a pointer held
    by a [Target] or [Behind], where only the reflective cases apply. *)
Inductive place := Slot | Target | Behind.
(** The Go types readable there: behind a pointer held by a target, bool, string and
    most number types are not. *)
Definition readable (pl : place) (k : kind) : bool :=
  match pl with
  | Behind => negb (go_kind k) || match k with KU64 | KU32 | KI64 | KI32 | KGoBytes => true | _ => false end
  | _ => true
  end.
Definition beneath (pl : place) : place := match pl with Slot => Target | _ => Behind end.
Definition direct (t : gtype) : bool := match t with TName _ => false | _ => true end.
(** No back reference by value (Go forbids it). *)
Fixpoint by_value (t : gtype) : bool :=
  match t with
  | TName _ => false
  | TArray _ t => by_value t
  | TStruct fs => (fix all (fs : list (tag * visibility * gtype)) :=
                     match fs with [] => true | (_, _, t) :: fs => by_value t && all fs end) fs
  | TUser _ u => by_value u
  | _ => true
  end.

(** One step into a type. *)
Inductive part (E : types) : place * gtype -> place * gtype -> Prop :=
| pt_ptr pl t t' : head E t = TPtr t' -> part E (pl, t) (beneath pl, t')
| pt_slice pl t t' : head E t = TSlice t' -> part E (pl, t) (Slot, t')
| pt_array pl t n t' : head E t = TArray n t' -> part E (pl, t) (Slot, t')
| pt_key pl t kt vt : head E t = TMap kt vt -> part E (pl, t) (Target, kt)
| pt_value pl t kt vt : head E t = TMap kt vt -> part E (pl, t) (Target, vt)
| pt_field pl t fs tg vis t' : head E t = TStruct fs -> In (tg, vis, t') fs -> part E (pl, t) (Slot, t').
Inductive within (E : types) : place * gtype -> place * gtype -> Prop :=
| wi_here a : within E a a
| wi_part a b c : part E a b -> within E b c -> within E a c.

(** For programs that declare no type with methods of its own. *)
Definition no_marshal (_ : nat) (_ : rval) : wr := EPanic "no method".
Definition no_unmarshal (_ : nat) (_ : rval) : io rval := DPanic "no method".
(** The methods of a user-defined type agree: what MarshalABI writes, UnmarshalABI
    reads back into a zero target as the same value, whatever follows. *)
Definition faithful (E : types) (i : nat) (u : gtype) : Prop :=
  forall v out full, has_type E sound_leaf u v -> runw (marshals E i v) out = WDone None full ->
  exists bs v', full = out ++ bs /\ reads (unmarshals E i (zero_of u)) bs v' /\ same v v'
    /\ (comparable u = true -> v' = v).
(** Supported: no kind without a case, no variant tag, only exported fields,
    comparable keys, and back references only behind pointers, slices or maps. *)
Definition supported_here (E : types) (pl : place) (t : gtype) : Prop :=
  match head E t with
  | TLeaf k => readable pl k = true
  | TInt _ | TPtr _ | TSlice _ => True
  | TArray _ t => direct t = true
  | TMap kt _ => comparable kt = true
  | TStruct fs => Forall (fun '(tg, vis, t) => tg <> Variant /\ vis = Exported /\ direct t = true) fs
  | TUser i u => by_value u = true /\ faithful E i u
  | TOther | TName _ => False
  end.
Definition supported (E : types) (t : gtype) : Prop :=
  forall pl t', within E (Target, t) (pl, t') -> supported_here E pl t'.

(** ** Wire form

    [encoded E pl t v bs v']: the value [v] of type [t] has the wire form [bs], which at
    [pl] is read back as [v']. *)
Definition int_layout (k : ikind) (v : Z) : layout :=
  match k with IU64 | II64 => fixed_le 8 v | IU32 | II32 => fixed_le 4 v end.
(** Behind a pointer a nil byte slice read as empty stays nil. *)
Definition read_zero (pl : place) (p : prim) : bool :=
  match pl, p with Behind, PGoBytes [] => true | _, _ => leaf_zero p end.
Inductive encoded (E : types) : place -> gtype -> rval -> list byte -> rval -> Prop :=
| w_leaf pl t k p z bs : head E t = TLeaf k -> kind_of p = k -> readable pl k = true ->
    typed_prim p -> bounded_prim p -> wf_keys p -> prim_layout p bs ->
    encoded E pl t (RLeaf p z) bs (RLeaf p (read_zero pl p))
| w_int pl t k v bs : head E t = TInt k -> int_range k v -> int_layout k v bs -> encoded E pl t (RInt v) bs (RInt v)
| w_ptr pl t t' v bs v' : head E t = TPtr t' -> encoded E (beneath pl) t' v bs v' ->
    encoded E pl t (RPtr (Some v)) bs (RPtr (Some v'))
| w_slice pl t t' o pre bs l' : head E t = TSlice t' -> zlen (elems o) < 2 ^ 28 ->
    make_ok (size_of E t') (zlen (elems o)) = true ->
    varu (zlen (elems o)) pre -> encoded_list E t' (elems o) bs l' ->
    encoded E pl t (RSlice o) (pre ++ bs) (RSlice match l' with [] => None | _ => Some l' end)
| w_array pl t n t' l bs l' : head E t = TArray n t' -> direct t' = true -> length l = n -> encoded_list E t' l bs l' ->
    encoded E pl t (RArray l) bs (RArray l')
| w_map pl t kt vt o pre bs m' : head E t = TMap kt vt -> comparable kt = true -> zlen (elems o) < 2 ^ 28 ->
    varu (zlen (elems o)) pre -> encoded_pairs E kt vt (elems o) bs m' -> NoDup (map fst m') ->
    encoded E pl t (RMap o) (pre ++ bs) (RMap (Some m'))
| w_struct pl t fs l bs l' : head E t = TStruct fs -> encoded_fields E fs l bs l' ->
    encoded E pl t (RStruct l) bs (RStruct l')
| w_user pl t i u v bs v' : head E t = TUser i u -> writes (marshals E i v) bs ->
    reads (unmarshals E i (zero_of u)) bs v' -> encoded E pl t (RUser v) bs (RUser v')
with encoded_list (E : types) : gtype -> list rval -> list byte -> list rval -> Prop :=
| wl_nil t : encoded_list E t [] [] []
| wl_cons t v l b bs v' l' : encoded E Slot t v b v' -> encoded_list E t l bs l' -> encoded_list E t (v :: l) (b ++ bs) (v' :: l')
with encoded_pairs (E : types) : gtype -> gtype -> list (rval * rval) -> list byte -> list (rval * rval) -> Prop :=
| wp_nil kt vt : encoded_pairs E kt vt [] [] []
| wp_cons kt vt k v m b1 b2 bs k' v' m' : encoded E Target kt k b1 k' -> encoded E Target vt v b2 v' ->
    encoded_pairs E kt vt m bs m' -> encoded_pairs E kt vt ((k, v) :: m) (b1 ++ b2 ++ bs) ((k', v') :: m')
with encoded_fields (E : types) : list (tag * visibility * gtype) -> list rval -> list byte -> list rval -> Prop :=
| wf_none : encoded_fields E [] [] [] []
| wf_field tg t fs v l b bs v' l' : tg = NoTag \/ tg = Extension -> direct t = true ->
    encoded E Slot t v b v' -> encoded_fields E fs l bs l' ->
    encoded_fields E ((tg, Exported, t) :: fs) (v :: l) (b ++ bs) (v' :: l')
| wf_absent t fs v l bs l' : is_zero v = true -> direct t = true -> encoded_fields E fs l bs l' ->
    encoded_fields E ((Optional, Exported, t) :: fs) (v :: l) ([x00] ++ bs) (zero_of t :: l')
| wf_present t fs v l b bs v' l' : is_zero v = false -> direct t = true -> encoded E Slot t v b v' ->
    encoded_fields E fs l bs l' ->
    encoded_fields E ((Optional, Exported, t) :: fs) (v :: l) ([x01] ++ b ++ bs) (v' :: l').

Scheme encoded_mind := Induction for encoded Sort Prop
  with encoded_list_mind := Induction for encoded_list Sort Prop
  with encoded_pairs_mind := Induction for encoded_pairs Sort Prop
  with encoded_fields_mind := Induction for encoded_fields Sort Prop.
Scheme has_type_mind := Induction for has_type Sort Prop
  with have_type_mind := Induction for have_type Sort Prop
  with have_pair_type_mind := Induction for have_pair_type Sort Prop
  with have_field_types_mind := Induction for have_field_types Sort Prop.
Scheme same_mind := Induction for same Sort Prop
  with same_list_mind := Induction for same_list Sort Prop
  with same_pairs_mind := Induction for same_pairs Sort Prop.
Scheme reordered_mind := Induction for reordered Sort Prop
  with reordered_list_mind := Induction for reordered_list Sort Prop
  with reordered_pairs_mind := Induction for reordered_pairs Sort Prop.
Combined Scheme reordered_all from reordered_mind, reordered_list_mind, reordered_pairs_mind.
Combined Scheme encoded_all from encoded_mind, encoded_list_mind, encoded_pairs_mind, encoded_fields_mind.
Combined Scheme has_type_all from has_type_mind, have_type_mind, have_pair_type_mind, have_field_types_mind.
Combined Scheme same_all from same_mind, same_list_mind, same_pairs_mind.

(** ** Outcomes independent of the model's fuel *)
Definition decodes_whatever_follows (E : types) (t : gtype) (bs : list byte) (v : rval) : Prop :=
  exists F, forall fuel, (F <= fuel)%nat -> reads (Decode fuel E t (zero E t)) bs v.

(** An entry of a map as the bytes list it. *)
Record listed : Type := { key_bytes : list byte; key : rval; value_bytes : list byte; value : rval }.
Definition listed_in (E : types) (kt vt : gtype) (e : listed) : Prop :=
  decodes_whatever_follows E kt (key_bytes e) (key e) /\ decodes_whatever_follows E vt (value_bytes e) (value e).
Definition listing (es : list listed) : list byte := concat (map (fun e => key_bytes e ++ value_bytes e) es).
(** The last entry with key [k] has the value [x]. *)
Definition last_listed (es : list listed) (k x : rval) : Prop :=
  exists before e after, es = before ++ e :: after /\ key e = k /\ value e = x /\ ~ In k (map key after).

(** ** Independence of the target's previous content *)

(** The same error or panic, the same bytes left unread and, without error, related
    results. *)
Definition same_result {A} (R : A -> A -> Prop) (o o' : outcome (A * option gerr)) : Prop :=
  match o, o' with
  | Done (a, e) rest, Done (a', e') rest' => e = e' /\ rest = rest' /\ (e = None -> R a a')
  | Crash m, Crash m' => m = m'
  | Diverged, Diverged => True
  | _, _ => False
  end.
(** What a target can hold: byte slices that could be allocated. *)
Definition storable (p : prim) : Prop :=
  match p with PGoBytes b => make_ok 1 (zlen b) = true | _ => True end.
(** No Action inside (it appends to its authorizations), only exported fields, back
    references only behind pointers, slices or maps, and user-defined types whose
    UnmarshalABI does not look at what its receiver held. *)
Definition overwritten_here (E : types) (t : gtype) : Prop :=
  match head E t with
  | TLeaf k => k <> KAction
  | TName _ => False
  | TArray _ t => direct t = true
  | TStruct fs => Forall (fun '(_, vis, t) => vis = Exported /\ direct t = true) fs
  | TUser i u => by_value u = true /\
      forall a b, has_type E storable u a -> has_type E storable u b -> forall env inp,
      same_result same (run env (unmarshals E i a) inp) (run env (unmarshals E i b) inp)
  | _ => True
  end.
Definition overwritten (E : types) (t : gtype) : Prop :=
  forall pl t', within E (Target, t) (pl, t') -> overwritten_here E t'.
