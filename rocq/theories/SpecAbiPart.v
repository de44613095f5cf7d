(** Specification of what a failed Abi.Encode has written, and of its error. *)
From Coq Require Import String.
From Verif Require Import Base Prog SpecWire Chain SpecChain Values Leaf SpecLeaf AbiDyn SpecAbi.

(** [v] is not an alternative of [l] with its value; [e] is the error it gives.  Errors are
    given by the fixed part of their message, without the names and types it ends with. *)
Inductive variant_fault (l : list name) : gval -> gerr -> Prop :=
| vf_not_slice v : (forall vs, v <> VSlice vs) -> variant_fault l v (ErrMsg "expected slice")
| vf_not_two vs : length vs <> 2%nat -> variant_fault l (VSlice vs) (ErrMsg "expected two elements")
| vf_not_named x y : (forall s, x <> VPrim (PString s)) -> variant_fault l (VSlice [x; y]) (ErrMsg "expected string variant name")
| vf_unknown vn x : ~ In vn l -> variant_fault l (VSlice [VPrim (PString vn); x]) (ErrMsg "unknown variant").

(** The value [v] cannot be encoded as [n], [bs] is what comes before the place where that
    shows (everything before it, in its usual form, and nothing of what follows), and [e] is
    the error of that place. *)
Inductive fail_enc (a : Abi) : name -> gval -> list byte -> gerr -> Prop :=
| fe_nil n b arr ext : decomposes n b arr false ext -> fail_enc a n VNil [] (ErrMsg "found nil for non optional")
| fe_opt n b arr ext v bs e : decomposes n b arr true ext -> v <> VNil -> fail_body a n b arr v bs e -> fail_enc a n v (x01 :: bs) e
| fe_req n b arr ext v bs e : decomposes n b arr false ext -> v <> VNil -> fail_body a n b arr v bs e -> fail_enc a n v bs e
with fail_body (a : Abi) : name -> name -> bool -> gval -> list byte -> gerr -> Prop :=
| fb_not_list n b v : (forall l, v <> VSlice l) -> fail_body a n b true v [] (ErrMsg "expected slice")
| fb_element n b vs x ws pre bs vs' bs' e : short (vs ++ x :: ws) -> varu (zlen (vs ++ x :: ws)) pre ->
    abi_elems a n b vs bs vs' -> fail_inner a n b x bs' e ->
    fail_body a n b true (VSlice (vs ++ x :: ws)) (pre ++ bs ++ bs') e
| fb_single n b v bs e : fail_inner a n b v bs e -> fail_body a n b false v bs e
with fail_inner (a : Abi) : name -> name -> gval -> list byte -> gerr -> Prop :=
| fi_alias n b t v bs e : defines a b (DAlias t) -> fail_enc a t v bs e -> fail_inner a n b v bs e
| fi_not_map n b fs v : inherits a n fs -> fs <> [] -> (forall m, v <> VMap m) -> fail_inner a n b v [] (ErrMsg "expected map")
| fi_field n b fs f t gs m bs out bs' e : inherits a n (fs ++ (f, t) :: gs) -> abi_fields a fs m bs out ->
    fail_enc a t (entry m f) bs' e -> fail_inner a n b (VMap m) (bs ++ bs') e
| fi_not_variant n b l v e : defines a b (DVariant l) -> variant_fault l v e -> fail_inner a n b v [] e
| fi_variant n b l i vn x pre bs e : defines a b (DVariant l) -> first_at l i vn -> Z.of_nat i < 2 ^ 28 ->
    varu (Z.of_nat i) pre -> fail_enc a vn x bs e -> fail_inner a n b (VSlice [VPrim (PString vn); x]) (pre ++ bs) e
| fi_builtin n b v : falls_through a n b -> (forall p, v = VPrim p -> builtin_type p <> Some b) ->
    fail_inner a n b v [] (ErrMsg "expected builtin type").
