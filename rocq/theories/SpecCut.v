(** Specification of what a failed Encode has written. *)
From Coq Require Import String.
From Verif Require Import Base Prog SpecWire AbiPrim Chain SpecChain Values Leaf SpecLeaf Reflect SpecReflect SpecPanics.

(** Elements, entries and fields that are all encoded, one after the other. *)
Inductive elements_written (E : types) (t : gtype) : list rval -> list byte -> Prop :=
| ew_nil : elements_written E t [] []
| ew_cons x l b bs : writes (Encode E t x) b -> elements_written E t l bs -> elements_written E t (x :: l) (b ++ bs).
Inductive entries_written (E : types) (kt vt : gtype) : list (rval * rval) -> list byte -> Prop :=
| nw_nil : entries_written E kt vt [] []
| nw_cons k x m b b' bs : writes (Encode E kt k) b -> writes (Encode E vt x) b' -> entries_written E kt vt m bs ->
    entries_written E kt vt ((k, x) :: m) (b ++ b' ++ bs).
Inductive fields_written (E : types) : list (tag * visibility * gtype) -> list rval -> list byte -> Prop :=
| fw_nil : fields_written E [] [] []
| fw_plain tg t x b fs l bs : tg <> Optional -> writes (Encode E t x) b -> fields_written E fs l bs ->
    fields_written E ((tg, Exported, t) :: fs) (x :: l) (b ++ bs)
| fw_zero vis t x fs l bs : is_zero x = true -> fields_written E fs l bs ->
    fields_written E ((Optional, vis, t) :: fs) (x :: l) (x00 :: bs)
| fw_present t x b fs l bs : is_zero x = false -> writes (Encode E t x) b -> fields_written E fs l bs ->
    fields_written E ((Optional, Exported, t) :: fs) (x :: l) (x01 :: b ++ bs).
(** The flag in front of an optional field that is not zero. *)
Definition flag (tg : tag) : list byte := match tg with Optional => [x01] | _ => [] end.

(** [v] cannot be encoded; [bs] is the form of all that comes before the place where that
    shows, and [e] is the error it gives (for a kind that is not supported, up to the name
    of the type in the message). *)
Inductive cut_short (E : types) : gtype -> rval -> list byte -> gerr -> Prop :=
| cs_other t z : head E t = TOther -> cut_short E t (ROther z) [] (ErrMsg "eosio encoder: unexpected type")
| cs_nil t t' : head E t = TPtr t' -> error_cause E t (RPtr None) -> cut_short E t (RPtr None) [] (ErrMsg "eosio encoder: encountered unexpected nil pointer")
| cs_user t i u x e bs : head E t = TUser i u -> (forall out, runw (marshals E i x) out = WDone (Some e) (out ++ bs)) ->
    cut_short E t (RUser x) bs e
| cs_ptr t t' v bs e : head E t = TPtr t' -> cut_short E t' v bs e -> cut_short E t (RPtr (Some v)) bs e
| cs_slice t t' xs y ys pre bs bs' e : head E t = TSlice t' -> short (xs ++ y :: ys) -> varu (zlen (xs ++ y :: ys)) pre ->
    elements_written E t' xs bs -> cut_short E t' y bs' e -> cut_short E t (RSlice (Some (xs ++ y :: ys))) (pre ++ bs ++ bs') e
| cs_array t n t' xs y ys bs bs' e : head E t = TArray n t' ->
    elements_written E t' xs bs -> cut_short E t' y bs' e -> cut_short E t (RArray (xs ++ y :: ys)) (bs ++ bs') e
| cs_key t kt vt m k x m' pre bs bs' e : head E t = TMap kt vt -> short (m ++ (k, x) :: m') -> varu (zlen (m ++ (k, x) :: m')) pre ->
    entries_written E kt vt m bs -> cut_short E kt k bs' e -> cut_short E t (RMap (Some (m ++ (k, x) :: m'))) (pre ++ bs ++ bs') e
| cs_value t kt vt m k x m' pre bs b bs' e : head E t = TMap kt vt -> short (m ++ (k, x) :: m') -> varu (zlen (m ++ (k, x) :: m')) pre ->
    entries_written E kt vt m bs -> writes (Encode E kt k) b -> cut_short E vt x bs' e ->
    cut_short E t (RMap (Some (m ++ (k, x) :: m'))) (pre ++ bs ++ b ++ bs') e
| cs_field t fs tg t' gs xs y ys bs bs' e : head E t = TStruct (fs ++ (tg, Exported, t') :: gs) -> fields_written E fs xs bs ->
    written tg y -> cut_short E t' y bs' e -> cut_short E t (RStruct (xs ++ y :: ys)) (bs ++ flag tg ++ bs') e.
