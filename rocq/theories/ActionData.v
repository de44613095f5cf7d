(** pkg/chain/action.go: decoding the data of an action. *)
From Verif Require Import Base Prog AbiPrim Chain Values Leaf AbiDyn Reflect.

(** What a call comes back with. *)
Inductive call (A : Type) : Type :=
| Returns (a : A)
| Panics (m : string)
| Hangs.
Arguments Returns {A} a.
Arguments Panics {A} m.
Arguments Hangs {A}.
(** A decoder run on bytes.NewReader(data); what it leaves unread is dropped.  [strict]
    is the Go release, see renv. *)
Definition on_bytes {A} (strict : bool) (p : dec A) (data : list byte) : call A :=
  match run {| r_end := EOF; r_strict := strict |} p data with
  | Done r _ => Returns r
  | Crash m => Panics m
  | Diverged => Hangs
  end.
(** action.go:26-36 Action.Decode; the [abi] pointer is not nil.  None stands for the
    nil map. *)
Definition Action_Decode (fuel : nat) (strict : bool) (abi : Abi) (a : Action)
  : call (option (list (name * gval)) * option gerr) :=
  on_bytes strict
    ('(decoded, err) <-- Abi_DecodeAction fuel abi (AName a) ;;
     match err with
     | Some e => DRet (None, Some e)
     | None => match decoded with
               | VMap rv => DRet (Some rv, None)
               | _ => DRet (None, Some (ErrMsg "action data is not a map[string]interface{}"))
               end
     end) (AData a).
(** action.go:38-40 Action.DecodeInto, into a pointer to a [t] holding [old]. *)
Definition Action_DecodeInto (fuel : nat) (strict : bool) (E : types) (t : gtype) (old : rval) (a : Action)
  : call (rval * option gerr) :=
  on_bytes strict (Decode fuel E t old) (AData a).
