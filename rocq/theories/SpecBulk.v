(** How big a decoded value is. *)
From Verif Require Import Base Prog SpecWire Chain SpecChain Values Leaf SpecLeaf AbiDyn SpecAbi.

(** Bytes a leaf keeps besides itself. *)
Definition held (p : prim) : Z :=
  match p with
  | PString s | PGoBytes s | PBlob s | PBytes s => zlen s
  | PPublicKey k | PSignature k => zlen (KData k)
  | _ => 0
  end.
(** Everything in a value of the dynamic codec: leaves and slices, and the bytes kept in
    leaves. A map with entries counts as what its entries hold: its keys are the field names
    of the ABI. An empty map counts as one, so nothing counts as less than one. *)
Fixpoint bulk (v : gval) : Z :=
  match v with
  | VNil | VOther _ => 1
  | VPrim p => 1 + held p
  | VSlice l => 1 + (fix all l := match l with [] => 0 | v :: l => bulk v + all l end) l
  | VMap [] => 1
  | VMap m => (fix all m := match m with [] => 0 | (_, v) :: m => bulk v + all m end) m
  end.
(** Names of alternatives of the variants needed for [n] have at most [L] bytes. *)
Definition names_within (a : Abi) (n0 : name) (L : Z) : Prop :=
  forall m b arr opt ext l k, reach a n0 m -> decomposes m b arr opt ext -> defines a b (DVariant l) -> In k l -> zlen k <= L.
