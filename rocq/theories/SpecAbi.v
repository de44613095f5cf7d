(** Specification of ABI schemas: what a type name means, what an ABI defines, and
    which bytes represent a value of a type. *)
From Verif Require Import Base Prog SpecWire Chain SpecChain Values Leaf SpecLeaf AbiDyn.

(** ** Type names
    base [] $ ? in this order, every marker optional; what is left without '$' and
    '?' must have at least two bytes. *)
Definition ends_with (s suffix : name) : Prop := exists p, s = p ++ suffix.
Definition decomposes (n base : name) (arr opt ext : bool) : Prop :=
  exists core mid,
    (if opt then n = mid ++ str "?" else n = mid /\ ~ ends_with n (str "?"))
    /\ (if ext then mid = core ++ str "$" else mid = core /\ ~ ends_with mid (str "$"))
    /\ (2 <= length core)%nat
    /\ (if arr then core = base ++ str "[]" else core = base /\ ~ ends_with core (str "[]")).
Definition malformed (n : name) : Prop := forall base arr opt ext, ~ decomposes n base arr opt ext.

(** ** Definitions: the first entry of each section counts, structs before variants
    before aliases. *)
Definition first_named {A} (key : A -> name) (n : name) (l : list A) (x : A) : Prop :=
  exists pre post, l = pre ++ x :: post /\ key x = n /\ Forall (fun y => key y <> n) pre.
Definition none_named {A} (key : A -> name) (n : name) (l : list A) : Prop :=
  Forall (fun y => key y <> n) l.
Inductive defn : Type :=
| DStruct (base : option name) (fields : list (name * name))
| DVariant (types : list name)
| DAlias (t : name)
| DNone.
Inductive defines (a : Abi) (b : name) : defn -> Prop :=
| def_struct s : first_named SName b (Structs a) s ->
    defines a b (DStruct (match SBase s with [] => None | p => Some p end)
                         (map (fun f => (FName f, FType f)) (SFields s)))
| def_variant v : none_named SName b (Structs a) -> first_named VName b (Variants a) v ->
    defines a b (DVariant (VTypes v))
| def_alias t : none_named SName b (Structs a) -> none_named VName b (Variants a) ->
    first_named NewTypeName b (Types a) t -> defines a b (DAlias (AType t))
| def_none : none_named SName b (Structs a) -> none_named VName b (Variants a) ->
    none_named NewTypeName b (Types a) -> defines a b DNone.
Definition mentioned (d : defn) : list name :=
  match d with
  | DStruct base fields => match base with Some p => [p] | None => [] end ++ map snd fields
  | DVariant l => l
  | DAlias t => [t]
  | DNone => []
  end.
(** [m] is a type name needed to understand [n]. *)
Inductive reach (a : Abi) (n : name) : name -> Prop :=
| reach_refl : reach a n n
| reach_step m b arr opt ext d k : reach a n m -> decomposes m b arr opt ext -> defines a b d ->
    In k (mentioned d) -> reach a n k.

(** The resolver's object for [n] says what the name and the ABI say. *)
Definition describes (a : Abi) (t : rtype) (n : name) : Prop :=
  t_name t = n
  /\ decomposes n (t_baseName t) (t_isArray t) (t_isOptional t) (t_isExtension t)
  /\ match t_base t, t_fields t, t_variant t, t_ref t with
     | p, Some fs, None, None => defines a (t_baseName t) (DStruct p fs)
     | None, None, Some l, None => defines a (t_baseName t) (DVariant l)
     | None, None, None, Some r => defines a (t_baseName t) (DAlias r)
     | None, None, None, None => defines a (t_baseName t) DNone
     | _, _, _, _ => False
     end.

(** ** Inheritance: the fields of the base chain, root first.  A circular chain, or
    one that reaches anything but a struct, has no (finite) derivation. *)
Inductive inherits (a : Abi) : name -> list (name * name) -> Prop :=
| inh_root n b arr opt ext fs : decomposes n b arr opt ext -> defines a b (DStruct None fs) ->
    inherits a n fs
| inh_base n b arr opt ext p fs up : decomposes n b arr opt ext -> defines a b (DStruct (Some p) fs) ->
    inherits a p up -> inherits a n (up ++ fs).
(** The name stands for something to be looked up among the builtin types: the ABI
    does not define it, or only as a struct without usable fields. *)
Definition falls_through (a : Abi) (n b : name) : Prop :=
  defines a b DNone
  \/ exists p fs, defines a b (DStruct p fs) /\ forall all, inherits a n all -> all = [].

(** ** Builtin types: value, bytes, and the value read back *)
(** The ABI type whose values are represented by this Go type. *)
Definition builtin_type (p : prim) : option name :=
  match p with
  | PBool _ => Some (str "bool") | PString _ => Some (str "string")
  | PU8 _ => Some (str "uint8") | PU16 _ => Some (str "uint16") | PU32 _ => Some (str "uint32")
  | PU64 _ | PUint64 _ => Some (str "uint64") | PUint128 _ => Some (str "uint128")
  | PI8 _ => Some (str "int8") | PI16 _ => Some (str "int16") | PI32 _ => Some (str "int32")
  | PI64 _ => Some (str "int64") | PInt128 _ => Some (str "int128")
  | PF32 _ => Some (str "float32") | PF64 _ => Some (str "float64") | PFloat128 _ => Some (str "float128")
  | PUint _ => Some (str "varuint32") | PInt _ => Some (str "varint32")
  | PAsset _ => Some (str "asset") | PExtendedAsset _ => Some (str "extended_asset")
  | PBlockTimestamp _ => Some (str "block_timestamp_type")
  | PChecksum160 _ => Some (str "checksum160") | PChecksum256 _ => Some (str "checksum256")
  | PChecksum512 _ => Some (str "checksum512") | PName _ => Some (str "name")
  | PPublicKey _ => Some (str "public_key") | PSignature _ => Some (str "signature")
  | PSymbolCode _ => Some (str "symbol_code") | PSymbol _ => Some (str "symbol")
  | PTimePointSec _ => Some (str "time_point_sec") | PTimePoint _ => Some (str "time_point")
  | _ => None
  end.
(** A uint64 is always returned as chain.Uint64. *)
Definition read_back (p : prim) : prim := match p with PU64 v => PUint64 v | p => p end.
(** The ABI type that is decoded to this Go type. *)
Definition decoded_type (p : prim) : option name :=
  match p with PBytes _ => Some (str "bytes") | PU64 _ => None | p => builtin_type p end.
Definition builtin_layout (b : name) (p : prim) (bs : list byte) (p' : prim) : Prop :=
  builtin_type p = Some b /\ bounded_prim p /\ prim_layout p bs /\ p' = read_back p.

(** Values of the Go types; public keys and signatures well formed. *)
Definition wf_prim (p : prim) : Prop := typed_prim p /\ wf_keys p.
Inductive wf_gval : gval -> Prop :=
| wf_nil : wf_gval VNil
| wf_leaf p : wf_prim p -> wf_gval (VPrim p)
| wf_slice l : Forall wf_gval l -> wf_gval (VSlice l)
| wf_map m : Forall (fun kv => wf_gval (snd kv)) m -> wf_gval (VMap m)
| wf_other i : wf_gval (VOther i).

(** ** The binary form of a value, and the value that comes back *)
(** The value stored under a key; nil if there is none. *)
Definition entry (m : list (name * gval)) (k : name) : gval :=
  match lookup m k with Some v => v | None => VNil end.
(** The Go map after storing the pairs one after the other. *)
Definition to_map (l : list (name * gval)) : list (name * gval) :=
  fold_left (fun m '(k, v) => assign m k v) l [].
Definition first_at (l : list name) (i : nat) (n : name) : Prop :=
  nth_error l i = Some n /\ forall j, (j < i)%nat -> nth_error l j <> Some n.

Inductive abi_enc (a : Abi) : name -> gval -> list byte -> gval -> Prop :=
| enc_nil n b arr ext : decomposes n b arr true ext -> abi_enc a n VNil [x00] VNil
| enc_opt n b arr ext v bs v' : decomposes n b arr true ext -> v <> VNil ->
    abi_body a n b arr v bs v' -> abi_enc a n v (x01 :: bs) v'
| enc_req n b arr ext v bs v' : decomposes n b arr false ext -> v <> VNil ->
    abi_body a n b arr v bs v' -> abi_enc a n v bs v'
with abi_body (a : Abi) : name -> name -> bool -> gval -> list byte -> gval -> Prop :=
| body_array n b vs pre bs vs' : short vs -> varu (zlen vs) pre -> abi_elems a n b vs bs vs' ->
    abi_body a n b true (VSlice vs) (pre ++ bs) (VSlice vs')
| body_single n b v bs v' : abi_inner a n b v bs v' -> abi_body a n b false v bs v'
with abi_inner (a : Abi) : name -> name -> gval -> list byte -> gval -> Prop :=
| in_alias n b t v bs v' : defines a b (DAlias t) -> abi_enc a t v bs v' -> abi_inner a n b v bs v'
| in_struct n b fs m bs out : inherits a n fs -> fs <> [] -> abi_fields a fs m bs out ->
    abi_inner a n b (VMap m) bs (VMap (to_map out))
| in_variant n b l i vn x pre bs x' : defines a b (DVariant l) -> first_at l i vn -> Z.of_nat i < 2 ^ 28 ->
    varu (Z.of_nat i) pre -> abi_enc a vn x bs x' ->
    abi_inner a n b (VSlice [VPrim (PString vn); x]) (pre ++ bs) (VSlice [VPrim (PString vn); x'])
| in_builtin n b p bs p' : falls_through a n b -> builtin_layout b p bs p' ->
    abi_inner a n b (VPrim p) bs (VPrim p')
with abi_elems (a : Abi) : name -> name -> list gval -> list byte -> list gval -> Prop :=
| elems_nil n b : abi_elems a n b [] [] []
| elems_cons n b v vs bs bs' v' vs' : abi_inner a n b v bs v' -> abi_elems a n b vs bs' vs' ->
    abi_elems a n b (v :: vs) (bs ++ bs') (v' :: vs')
with abi_fields (a : Abi) : list (name * name) -> list (name * gval) -> list byte -> list (name * gval) -> Prop :=
| fields_nil m : abi_fields a [] m [] []
| fields_cons f t fs m bs bs' v' out : abi_enc a t (entry m f) bs v' -> abi_fields a fs m bs' out ->
    abi_fields a ((f, t) :: fs) m (bs ++ bs') ((f, v') :: out).

(** ** Which cycles matter for termination *)
(** [m] is decoded as part of decoding [n] before anything marks the way: an alias
    target or a struct field of a type that is neither array nor optional. *)
Definition direct (a : Abi) (n m : name) : Prop :=
  exists b ext, decomposes n b false false ext
    /\ (defines a b (DAlias m) \/ exists fs f, inherits a n fs /\ In (f, m) fs).
(** The first thing decoded. *)
Definition direct_first (a : Abi) (n m : name) : Prop :=
  exists b ext, decomposes n b false false ext
    /\ (defines a b (DAlias m) \/ exists fs f, inherits a n ((f, m) :: fs)).
(** An alias that is not an array. *)
Definition plain_alias (a : Abi) (n m : name) : Prop :=
  exists b opt ext, decomposes n b false opt ext /\ defines a b (DAlias m).
Inductive path {A} (R : A -> A -> Prop) (x : A) : A -> Prop :=
| path_one y : R x y -> path R x y
| path_more y z : R x y -> path R y z -> path R x z.

(** ** Classes of schemas *)
(** The ABI uses the builtin type [b] somewhere in [n]. *)
Definition uses_builtin (a : Abi) (n b : name) : Prop :=
  exists m arr opt ext, reach a n m /\ decomposes m b arr opt ext /\ falls_through a m b.
Definition plain_schema (a : Abi) (n : name) : Prop :=
  ~ uses_builtin a n (str "bytes") /\ ~ uses_builtin a n (str "eosio::name").
Definition distinct_fields (a : Abi) (n0 : name) : Prop :=
  forall n fs, reach a n0 n -> inherits a n fs -> NoDup (map fst fs).
Definition acyclic (a : Abi) (n0 : name) : Prop := forall m, reach a n0 m -> ~ path (direct a) m m.
Definition leads_to_cycle {A} (R : A -> A -> Prop) (x : A) : Prop :=
  exists c, (x = c \/ path R x c) /\ path R c c.
Definition alias_acyclic (a : Abi) (n0 : name) : Prop := forall m, reach a n0 m -> ~ path (plain_alias a) m m.
(** No type marked '$' is needed for [n]. *)
Definition no_extension (a : Abi) (n0 : name) : Prop :=
  forall m b arr opt ext, reach a n0 m -> decomposes m b arr opt ext -> ext = false.
Definition no_optional (a : Abi) (n0 : name) : Prop :=
  forall m b arr opt ext, reach a n0 m -> decomposes m b arr opt ext -> opt = false.
(** Every type name needed for [n] is a proper type name. *)
Definition well_named (a : Abi) (n : name) : Prop := forall m, reach a n m -> ~ malformed m.
(** The ABI types the library knows by itself. *)
Definition builtin_list : list name :=
  map str ["bool"; "string"; "uint8"; "uint16"; "uint32"; "uint64"; "uint128"; "int8"; "int16"; "int32"; "int64";
           "int128"; "float32"; "float64"; "float128"; "varuint32"; "varint32"; "bytes"; "asset";
           "block_timestamp_type"; "checksum160"; "checksum256"; "checksum512"; "eosio::name"; "extended_asset";
           "name"; "public_key"; "signature"; "symbol_code"; "symbol"; "time_point_sec"; "time_point"]%string.
(** Every type needed for [n] is defined by the ABI or decodable by itself. *)
Definition all_known (a : Abi) (n0 : name) : Prop :=
  forall m b arr opt ext, reach a n0 m -> decomposes m b arr opt ext -> falls_through a m b ->
    In b builtin_list /\ b <> str "eosio::name".
(** [p] is the base of the struct [n]. *)
Definition base_of (a : Abi) (n p : name) : Prop :=
  exists b arr opt ext fs, decomposes n b arr opt ext /\ defines a b (DStruct (Some p) fs).

(** ** Outcomes of the interpreter
    The interpreter of the model carries a step budget; these say what happens with
    any budget large enough, that is in the program itself. *)
Definition decodes (env : renv) (a : Abi) (n : name) (inp : list byte) (r : outcome (gval * option gerr)) : Prop :=
  r <> Diverged /\ exists F, forall fuel, (F <= fuel)%nat -> run env (Abi_Decode fuel a n) inp = r.
Definition decode_never_returns (env : renv) (a : Abi) (n : name) (inp : list byte) : Prop :=
  forall fuel, run env (Abi_Decode fuel a n) inp = Diverged.
Definition encodes (a : Abi) (n : name) (v : gval) (out : list byte) (r : woutcome (option gerr)) : Prop :=
  r <> WDiverged /\ exists F, forall fuel, (F <= fuel)%nat -> runw (Abi_Encode fuel a n v) out = r.
Definition encode_never_returns (a : Abi) (n : name) (v : gval) (out : list byte) : Prop :=
  forall fuel, runw (Abi_Encode fuel a n v) out = WDiverged.
(** Encoding reports an error and writes nothing. *)
Definition encode_rejects (a : Abi) (n : name) (v : gval) : Prop :=
  forall out, exists e, encodes a n v out (WDone (Some e) out).
(** Decoding reports an error and reads nothing. *)
Definition decode_rejects (a : Abi) (n : name) : Prop :=
  forall env inp, exists e, decodes env a n inp (Done (VNil, Some e) inp).

(** ** What is kept of a value: maps may lose entries, uint64 values come back as
    chain.Uint64 *)
Inductive keeps : gval -> gval -> Prop :=
| keep_nil : keeps VNil VNil
| keep_prim p : keeps (VPrim p) (VPrim (read_back p))
| keep_slice l l' : Forall2 keeps l l' -> keeps (VSlice l) (VSlice l')
| keep_map m m' : (forall k x', lookup m' k = Some x' -> keeps (entry m k) x') -> keeps (VMap m) (VMap m').
