(** How much a decoded value holds beyond what its type always holds. *)
From Verif Require Import Base Prog SpecWire Chain SpecChain Values Leaf SpecLeaf Reflect SpecReflect SpecStrict.

(** Bytes, and elements of the slices, kept in a leaf. *)
Definition action_contents (a : Action) : Z := zlen (Authorization a) + zlen (AData a).
Definition extension_contents (e : TransactionExtension) : Z := zlen (EData e).
Definition contents_of {A} (f : A -> Z) (l : list A) : Z := fold_right (fun x s => 1 + f x + s) 0 l.
Definition kept (p : prim) : Z :=
  match p with
  | PString s | PGoBytes s | PBlob s | PBytes s => zlen s
  | PPublicKey k | PSignature k => zlen (KData k)
  | PAction a => action_contents a
  | PTransactionExtension e => extension_contents e
  | PTransaction t => contents_of action_contents (ContextFreeActions t) + contents_of action_contents (Actions t)
                      + contents_of extension_contents (Extensions t)
  | _ => 0
  end.
(** Elements of all slices, entries of all maps, and what leaves keep. *)
Fixpoint contents (v : rval) : Z :=
  match v with
  | RLeaf p _ => kept p
  | RInt _ | ROther _ | RPtr None | RSlice None | RMap None => 0
  | RPtr (Some v) => contents v
  | RSlice (Some l) => (fix all l := match l with [] => 0 | v :: l => 1 + contents v + all l end) l
  | RMap (Some m) => (fix all m := match m with [] => 0 | (k, v) :: m => 1 + contents k + contents v + all m end) m
  | RArray l | RStruct l => (fix all l := match l with [] => 0 | v :: l => contents v + all l end) l
  | RUser v => contents v
  end.

(** Types no value of which is read from no bytes at all. *)
Inductive costs (E : types) : gtype -> Prop :=
| co_leaf t k : head E t = TLeaf k -> costs E t
| co_int t k : head E t = TInt k -> costs E t
| co_slice t t' : head E t = TSlice t' -> costs E t
| co_map t k v : head E t = TMap k v -> costs E t
| co_user t i u : head E t = TUser i u -> costs E t
| co_ptr t t' : head E t = TPtr t' -> costs E t' -> costs E t
| co_array t n t' : head E t = TArray (S n) t' -> costs E t' -> costs E t
| co_field t fs t' : head E t = TStruct fs -> In (NoTag, Exported, t') fs -> costs E t' -> costs E t
| co_flag t fs tg t' : head E t = TStruct fs -> In (tg, Exported, t') fs -> tg = Optional \/ tg = Variant -> costs E t.
(** All slices and maps met inside [t], however deep, are of such types. *)
Definition elements_cost (E : types) (t : gtype) : Prop :=
  forall pl t', within E (Target, t) (pl, t') ->
  match head E t' with
  | TSlice t => costs E t
  | TMap k v => costs E k \/ costs E v
  | _ => True
  end.
(** What UnmarshalABI of a user-defined type sets is less than what it reads. *)
Definition method_frugal (E : types) (i : nat) (u : gtype) : Prop :=
  forall env inp v rest, run env (unmarshals E i (zero_of u)) inp = Done (v, None) rest ->
  exists c, inp = c ++ rest /\ contents v < zlen c.
