(** Re-encoding what the dynamic codec decoded: classes of schemas and values. *)
From Verif Require Import Base Prog SpecWire Chain SpecChain Values Leaf SpecLeaf AbiDyn SpecAbi.

(** No variant needed for [n] lists an alternative twice. *)
Definition distinct_alternatives (a : Abi) (n0 : name) : Prop :=
  forall m b arr opt ext l, reach a n0 m -> decomposes m b arr opt ext -> defines a b (DVariant l) -> NoDup l.
(** No variant has 2^28 alternatives. *)
Definition few_alternatives (a : Abi) (n0 : name) : Prop :=
  forall m b arr opt ext l, reach a n0 m -> decomposes m b arr opt ext -> defines a b (DVariant l) -> zlen l < 2 ^ 28.
(** No type that is neither optional nor an array is another name of an optional type. *)
Definition no_hidden_optional (a : Abi) (n0 : name) : Prop :=
  forall m b ext t b' arr' ext', reach a n0 m -> decomposes m b false false ext -> defines a b (DAlias t) ->
    ~ decomposes t b' arr' true ext'.
(** Nothing of which a byte string of the same length can be another encoding: no bool
    (every byte but 0 means true), no optional type (its flag is a bool), no variant
    with an alternative listed twice. *)
Definition rigid_schema (a : Abi) (n : name) : Prop :=
  no_optional a n /\ ~ uses_builtin a n (str "bool") /\ distinct_alternatives a n.

(** The numbers of variable length in a value are those the encoder accepts. *)
Inductive small_numbers : gval -> Prop :=
| sn_nil : small_numbers VNil
| sn_prim p : match p with
              | PUint v => v < 2 ^ 28
              | PInt v => - 2 ^ 27 <= v < 2 ^ 27
              | _ => True
              end -> small_numbers (VPrim p)
| sn_slice l : Forall small_numbers l -> small_numbers (VSlice l)
| sn_map m : Forall (fun kv => small_numbers (snd kv)) m -> small_numbers (VMap m)
| sn_other i : small_numbers (VOther i).
