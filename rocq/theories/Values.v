(** Values of the Go types the codecs handle without looking inside: Go's basic
    types and the types of pkg/chain.  A float is its IEEE-754 bit pattern. *)
From Verif Require Import Base Prog AbiPrim Chain.

Inductive prim : Type :=
(* Go types *)
| PBool (b : bool) | PString (s : list byte)
| PU8 (v : Z) | PU16 (v : Z) | PU32 (v : Z) | PU64 (v : Z)
| PI8 (v : Z) | PI16 (v : Z) | PI32 (v : Z) | PI64 (v : Z)
| PF32 (v : Z) | PF64 (v : Z)
| PInt (v : Z) | PUint (v : Z)
| PGoBytes (b : list byte)                     (* []byte *)
(* chain types *)
| PAction (a : Action) | PAsset (a : Asset) | PBlob (b : list byte) | PBlockNum (v : Z)
| PBlockTimestamp (v : Z) | PBytes (b : list byte)
| PChecksum160 (b : list byte) | PChecksum256 (b : list byte) | PChecksum512 (b : list byte)
| PFloat128 (b : list byte) | PInt128 (u : U128) | PName (v : Z)
| PPermissionLevel (p : PermissionLevel) | PPublicKey (k : Key) | PSignature (k : Key)
| PSymbol (v : Z) | PSymbolCode (v : Z) | PTimePoint (v : Z) | PTimePointSec (v : Z)
| PTransaction (t : Transaction) | PTransactionExtension (e : TransactionExtension)
| PTransactionHeader (h : TransactionHeader) | PUint128 (u : U128) | PUint64 (v : Z)
| PExtendedAsset (e : ExtendedAsset).

(** A Go [interface{}] as the dynamic codec meets it. *)
Inductive gval : Type :=
| VNil
| VPrim (p : prim)
| VSlice (l : list gval)                       (* []interface{} *)
| VMap (m : list (list byte * gval))           (* map[string]interface{} *)
| VOther (id : Z).                             (* a value of any other Go type *)
