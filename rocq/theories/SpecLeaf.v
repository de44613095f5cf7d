(** Leaf values: ranges of the Go types and binary layouts. *)
From Verif Require Import Base Prog SpecWire Chain SpecChain Values Leaf.

Definition in_i (n v : Z) : Prop := - 2 ^ (n - 1) <= v < 2 ^ (n - 1).
(** Every value a Go variable of the type can hold. *)
Definition typed_prim (p : prim) : Prop :=
  match p with
  | PU8 v => in_u 8 v | PU16 v => in_u 16 v
  | PU32 v | PF32 v | PBlockTimestamp v | PTimePointSec v | PBlockNum v => in_u 32 v
  | PU64 v | PUint64 v | PUint v | PF64 v | PName v | PSymbol v | PSymbolCode v => in_u 64 v
  | PI8 v => in_i 8 v | PI16 v => in_i 16 v | PI32 v => in_i 32 v
  | PI64 v | PInt v | PTimePoint v => in_i 64 v
  | PUint128 u | PInt128 u => wf_u128 u
  | PFloat128 d => length d = 16%nat
  | PAsset x => wf_asset x
  | PExtendedAsset x => wf_asset (Quantity x) /\ in_u 64 (Contract x)
  | PChecksum160 d => length d = 20%nat
  | PChecksum256 d => length d = 32%nat
  | PChecksum512 d => length d = 64%nat
  | PPublicKey k | PSignature k => in_u 8 (KType k)
  | PBool _ | PString _ | PGoBytes _ | PBlob _ | PBytes _ => True
  | PPermissionLevel x => wf_permission x
  | PAction x => typed_action x
  | PTransaction x => typed_transaction x
  | PTransactionExtension x => in_u 16 (EType x)
  | PTransactionHeader x => typed_header x
  end.
(** Lengths and varuint fields below 2^28, so that writing does not panic. *)
Definition bounded_prim (p : prim) : Prop :=
  match p with
  | PString s | PGoBytes s | PBlob s | PBytes s => short s
  | PUint v => v < 2 ^ 28
  | PInt v => - 2 ^ 27 <= v < 2 ^ 27
  | PAction x => wf_action x
  | PTransaction x => wf_transaction x
  | PTransactionExtension x => wf_extension x
  | PTransactionHeader x => wf_header x
  | _ => True
  end.
(** Public keys and signatures have the length their type asks for. *)
Definition wf_keys (p : prim) : Prop :=
  match p with
  | PPublicKey k => wf_public_key k
  | PSignature k => wf_signature k
  | _ => True
  end.
Definition prim_layout (p : prim) : layout :=
  match p with
  | PBool v => raw [if v then x01 else x00]
  | PString s | PGoBytes s | PBlob s | PBytes s => bytes_layout s
  | PU8 v | PI8 v => fixed_le 1 v
  | PU16 v | PI16 v => fixed_le 2 v
  | PU32 v | PI32 v | PF32 v | PBlockNum v | PBlockTimestamp v | PTimePointSec v => fixed_le 4 v
  | PU64 v | PI64 v | PF64 v | PName v | PSymbol v | PSymbolCode v | PTimePoint v | PUint64 v => fixed_le 8 v
  | PUint128 u | PInt128 u => u128_layout u
  | PFloat128 d | PChecksum160 d | PChecksum256 d | PChecksum512 d => raw d
  | PUint v => varu v
  | PInt v => varu (zigzag v)
  | PAsset x => asset_layout x
  | PExtendedAsset x => extended_asset_layout x
  | PPublicKey k | PSignature k => key_layout k
  | PPermissionLevel x => permission_layout x
  | PAction x => action_layout x
  | PTransaction x => transaction_layout x
  | PTransactionExtension x => extension_layout x
  | PTransactionHeader x => header_layout x
  end.
