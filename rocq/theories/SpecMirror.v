(** Plain Go structs with the fields of the chain's composite types and no methods
    of their own, as in benchmarks/types.go:4-38. *)
From Verif Require Import Base Chain Values Leaf Reflect.

Definition field (t : gtype) : tag * visibility * gtype := (NoTag, Exported, t).
Definition go (p : prim) : rval := RLeaf p (leaf_zero p).

(** benchmarks/types.go:27-30 *)
Definition PermissionLevel_struct := TStruct [field (TLeaf KU64); field (TLeaf KU64)].
Definition PermissionLevel_fields (p : PermissionLevel) : rval := RStruct [go (PU64 (Actor p)); go (PU64 (Permission p))].
(** benchmarks/types.go:31-36 *)
Definition Action_struct :=
  TStruct [field (TLeaf KU64); field (TLeaf KU64); field (TSlice PermissionLevel_struct); field (TLeaf KGoBytes)].
Definition Action_fields (a : Action) : rval :=
  RStruct [go (PU64 (Account a)); go (PU64 (AName a)); RSlice (Some (map PermissionLevel_fields (Authorization a)));
           go (PGoBytes (AData a))].
(** benchmarks/types.go:4-11 *)
Definition TransactionHeader_struct :=
  TStruct [field (TLeaf KU32); field (TLeaf KU16); field (TLeaf KU32); field (TLeaf KUint); field (TLeaf KU8); field (TLeaf KUint)].
Definition TransactionHeader_fields (h : TransactionHeader) : rval :=
  RStruct [go (PU32 (Expiration h)); go (PU16 (RefBlockNum h)); go (PU32 (RefBlockPrefix h));
           go (PUint (MaxNetUsageWords h)); go (PU8 (MaxCpuUsageMs h)); go (PUint (DelaySec h))].
(** benchmarks/types.go:12-15 *)
Definition TransactionExtension_struct := TStruct [field (TLeaf KU16); field (TLeaf KGoBytes)].
Definition TransactionExtension_fields (e : TransactionExtension) : rval :=
  RStruct [go (PU16 (EType e)); go (PGoBytes (EData e))].
(** benchmarks/types.go:16-21 (the embedded header is a field) *)
Definition Transaction_struct :=
  TStruct [field TransactionHeader_struct; field (TSlice Action_struct); field (TSlice Action_struct);
           field (TSlice TransactionExtension_struct)].
Definition Transaction_fields (t : Transaction) : rval :=
  RStruct [TransactionHeader_fields (Header t); RSlice (Some (map Action_fields (ContextFreeActions t)));
           RSlice (Some (map Action_fields (Actions t))); RSlice (Some (map TransactionExtension_fields (Extensions t)))].
(** chain/asset.go:14-17, :19-22 without their methods *)
Definition Asset_struct := TStruct [field (TLeaf KI64); field (TLeaf KU64)].
Definition Asset_fields (a : Asset) : rval := RStruct [go (PI64 (Value a)); go (PU64 (Sym a))].
