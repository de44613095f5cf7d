(** ABI definitions: chain.Abi as a Go struct and its binary layout, as nodeos writes
    abi_def. *)
From Verif Require Import Base SpecWire Chain SpecChain Values Leaf Reflect SpecMirror.
From Verif Require AbiDyn.
Import AbiDyn(Abi, AbiType, AbiVariant, AbiField, AbiStruct, AbiAction, AbiTable, AbiClause, AbiExtension, AbiErrorMessage).

Definition strings := field (TSlice (TLeaf KString)).
Definition str_v (s : list byte) : rval := go (PString s).
Definition list_v {A} (f : A -> rval) (l : list A) : rval := RSlice (Some (map f l)).

(** chain/abi.go:24-27 *)
Definition AbiType_struct := TStruct [field (TLeaf KString); field (TLeaf KString)].
Definition AbiType_value (t : AbiType) : rval := RStruct [str_v (AbiDyn.NewTypeName t); str_v (AbiDyn.AType t)].
Definition abitype_layout (t : AbiType) : layout := bytes_layout (AbiDyn.NewTypeName t) +++ bytes_layout (AbiDyn.AType t).
(** chain/abi.go:29-32 *)
Definition AbiVariant_struct := TStruct [field (TLeaf KString); strings].
Definition AbiVariant_value (v : AbiVariant) : rval := RStruct [str_v (AbiDyn.VName v); list_v str_v (AbiDyn.VTypes v)].
Definition abivariant_layout (v : AbiVariant) : layout := bytes_layout (AbiDyn.VName v) +++ vec_of bytes_layout (AbiDyn.VTypes v).
(** chain/abi.go:40-43 *)
Definition AbiField_struct := TStruct [field (TLeaf KString); field (TLeaf KString)].
Definition AbiField_value (f : AbiField) : rval := RStruct [str_v (AbiDyn.FName f); str_v (AbiDyn.FType f)].
Definition abifield_layout (f : AbiField) : layout := bytes_layout (AbiDyn.FName f) +++ bytes_layout (AbiDyn.FType f).
(** chain/abi.go:34-38 *)
Definition AbiStruct_struct := TStruct [field (TLeaf KString); field (TLeaf KString); field (TSlice AbiField_struct)].
Definition AbiStruct_value (s : AbiStruct) : rval :=
  RStruct [str_v (AbiDyn.SName s); str_v (AbiDyn.SBase s); list_v AbiField_value (AbiDyn.SFields s)].
Definition abistruct_layout (s : AbiStruct) : layout :=
  bytes_layout (AbiDyn.SName s) +++ bytes_layout (AbiDyn.SBase s) +++ vec_of abifield_layout (AbiDyn.SFields s).
(** chain/abi.go:45-49 *)
Definition AbiAction_struct := TStruct [field (TLeaf KName); field (TLeaf KString); field (TLeaf KString)].
Definition AbiAction_value (x : AbiAction) : rval :=
  RStruct [go (PName (AbiDyn.ActName x)); str_v (AbiDyn.ActType x); str_v (AbiDyn.RicardianContract x)].
Definition abiaction_layout (x : AbiAction) : layout :=
  fixed_le 8 (AbiDyn.ActName x) +++ bytes_layout (AbiDyn.ActType x) +++ bytes_layout (AbiDyn.RicardianContract x).
(** chain/abi.go:51-57 *)
Definition AbiTable_struct := TStruct [field (TLeaf KName); field (TLeaf KString); strings; strings; field (TLeaf KString)].
Definition AbiTable_value (t : AbiTable) : rval :=
  RStruct [go (PName (AbiDyn.TName t)); str_v (AbiDyn.IndexType t); list_v str_v (AbiDyn.KeyNames t);
           list_v str_v (AbiDyn.KeyTypes t); str_v (AbiDyn.TType t)].
Definition abitable_layout (t : AbiTable) : layout :=
  fixed_le 8 (AbiDyn.TName t) +++ bytes_layout (AbiDyn.IndexType t) +++ vec_of bytes_layout (AbiDyn.KeyNames t)
  +++ vec_of bytes_layout (AbiDyn.KeyTypes t) +++ bytes_layout (AbiDyn.TType t).
(** chain/abi.go:59-62 *)
Definition AbiClause_struct := TStruct [field (TLeaf KString); field (TLeaf KString)].
Definition AbiClause_value (c : AbiClause) : rval := RStruct [str_v (AbiDyn.ClId c); str_v (AbiDyn.ClBody c)].
Definition abiclause_layout (c : AbiClause) : layout := bytes_layout (AbiDyn.ClId c) +++ bytes_layout (AbiDyn.ClBody c).
(** chain/abi.go:64-67 *)
Definition AbiExtension_struct := TStruct [field (TLeaf KU16); field (TLeaf KBytes)].
Definition AbiExtension_value (o : option AbiExtension) : rval :=
  RPtr match o with Some x => Some (RStruct [go (PU16 (AbiDyn.XType x)); go (PBytes (AbiDyn.XData x))]) | None => None end.
Definition abiextension_layout (o : option AbiExtension) : layout :=
  match o with
  | Some x => fixed_le 2 (AbiDyn.XType x) +++ bytes_layout (AbiDyn.XData x)
  | None => fun _ => False
  end.
(** chain/abi.go:69-72 *)
Definition AbiErrorMessage_struct := TStruct [field (TLeaf KUint64); field (TLeaf KString)].
Definition AbiErrorMessage_value (m : AbiErrorMessage) : rval :=
  RStruct [go (PUint64 (AbiDyn.ErrCode m)); str_v (AbiDyn.ErrText m)].
Definition abierror_layout (m : AbiErrorMessage) : layout := fixed_le 8 (AbiDyn.ErrCode m) +++ bytes_layout (AbiDyn.ErrText m).

(** chain/abi.go:12-22; the variants come last and are an extension *)
Definition Abi_early := [field (TLeaf KString); field (TSlice AbiType_struct); field (TSlice AbiStruct_struct);
  field (TSlice AbiAction_struct); field (TSlice AbiTable_struct); field (TSlice AbiClause_struct);
  field (TSlice AbiErrorMessage_struct); field (TSlice (TPtr AbiExtension_struct))].
Definition Abi_struct := TStruct (Abi_early ++ [(Extension, Exported, TSlice AbiVariant_struct)]).
Definition Abi_early_values (a : Abi) : list rval :=
  [str_v (AbiDyn.Version a); list_v AbiType_value (AbiDyn.Types a); list_v AbiStruct_value (AbiDyn.Structs a);
   list_v AbiAction_value (AbiDyn.AbiActions a); list_v AbiTable_value (AbiDyn.Tables a); list_v AbiClause_value (AbiDyn.Clauses a);
   list_v AbiErrorMessage_value (AbiDyn.ErrorMessages a); list_v AbiExtension_value (AbiDyn.AbiExtensions a)].
Definition Abi_value (a : Abi) : rval := RStruct (Abi_early_values a ++ [list_v AbiVariant_value (AbiDyn.Variants a)]).

Definition abi_early_layout (a : Abi) : layout :=
  bytes_layout (AbiDyn.Version a) +++ vec_of abitype_layout (AbiDyn.Types a) +++ vec_of abistruct_layout (AbiDyn.Structs a)
  +++ vec_of abiaction_layout (AbiDyn.AbiActions a) +++ vec_of abitable_layout (AbiDyn.Tables a)
  +++ vec_of abiclause_layout (AbiDyn.Clauses a) +++ vec_of abierror_layout (AbiDyn.ErrorMessages a)
  +++ vec_of abiextension_layout (AbiDyn.AbiExtensions a).
Definition abi_def_layout (a : Abi) : layout := abi_early_layout a +++ vec_of abivariant_layout (AbiDyn.Variants a).

(** Numbers in range, lengths below 2^28, no nil extension. *)
Definition short_all {A} (P : A -> Prop) (l : list A) : Prop := short l /\ Forall P l.
Definition short_string (s : list byte) : Prop := short s.
Definition wf_abi_def (a : Abi) : Prop :=
  short (AbiDyn.Version a)
  /\ short_all (fun t => short (AbiDyn.NewTypeName t) /\ short (AbiDyn.AType t)) (AbiDyn.Types a)
  /\ short_all (fun s => short (AbiDyn.SName s) /\ short (AbiDyn.SBase s)
       /\ short_all (fun f => short (AbiDyn.FName f) /\ short (AbiDyn.FType f)) (AbiDyn.SFields s)) (AbiDyn.Structs a)
  /\ short_all (fun x => in_u 64 (AbiDyn.ActName x) /\ short (AbiDyn.ActType x) /\ short (AbiDyn.RicardianContract x)) (AbiDyn.AbiActions a)
  /\ short_all (fun t => in_u 64 (AbiDyn.TName t) /\ short (AbiDyn.IndexType t) /\ short_all short_string (AbiDyn.KeyNames t)
       /\ short_all short_string (AbiDyn.KeyTypes t) /\ short (AbiDyn.TType t)) (AbiDyn.Tables a)
  /\ short_all (fun c => short (AbiDyn.ClId c) /\ short (AbiDyn.ClBody c)) (AbiDyn.Clauses a)
  /\ short_all (fun m => in_u 64 (AbiDyn.ErrCode m) /\ short (AbiDyn.ErrText m)) (AbiDyn.ErrorMessages a)
  /\ short_all (fun o => exists x, o = Some x /\ in_u 16 (AbiDyn.XType x) /\ short (AbiDyn.XData x)) (AbiDyn.AbiExtensions a)
  /\ short_all (fun v => short (AbiDyn.VName v) /\ short_all short_string (AbiDyn.VTypes v)) (AbiDyn.Variants a).
(** Types take less than 2^20 bytes of memory. *)
Definition small_types (E : types) : Prop := forall t, 0 <= size_of E t < 2 ^ 20.
Definition without_variants (a : Abi) : Abi :=
  {| AbiDyn.Version := AbiDyn.Version a; AbiDyn.Types := AbiDyn.Types a; AbiDyn.Structs := AbiDyn.Structs a;
     AbiDyn.AbiActions := AbiDyn.AbiActions a; AbiDyn.Tables := AbiDyn.Tables a; AbiDyn.Clauses := AbiDyn.Clauses a;
     AbiDyn.ErrorMessages := AbiDyn.ErrorMessages a; AbiDyn.AbiExtensions := AbiDyn.AbiExtensions a; AbiDyn.Variants := [] |}.
