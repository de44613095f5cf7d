(** Re-encoding what was decoded: which targets have nothing in them yet, and for which
    types a byte string no longer than the encoding is the encoding. *)
From Verif Require Import Base Prog SpecWire AbiPrim Chain Values Leaf Reflect SpecReflect SpecStrict.

(** No Action that already holds authorizations (decoding appends to them). *)
Definition unused_leaf (p : prim) : Prop := match p with PAction a => Authorization a = [] | _ => True end.

(** [bs], the encoding of what was decoded from [c], is not longer than [c]. *)
Definition no_longer (c bs : list byte) : Prop := zlen bs <= zlen c.
(** ... and if it is as long, it is [c]. *)
Definition shortest (c bs : list byte) : Prop := zlen bs <= zlen c /\ (zlen bs = zlen c -> bs = c).

(** The same of the methods of a user-defined type. *)
Definition method_reencodes (R : list byte -> list byte -> Prop) (E : types) (i : nat) (u : gtype) : Prop :=
  forall old env inp v rest, has_type E unused_leaf u old -> run env (unmarshals E i old) inp = Done (v, None) rest ->
  exists c, inp = c ++ rest /\ forall bs, writes (marshals E i v) bs -> R c bs.

(** Nothing of which a byte string of the same length can be another encoding: no bool
    (every byte but 0 means true), no optional field (its flag is a bool) and no map
    (its entries come in any order). *)
Definition rigid (E : types) (t : gtype) : Prop :=
  forall pl t', within E (Target, t) (pl, t') ->
  match head E t' with
  | TLeaf k => k <> KBool
  | TMap _ _ => False
  | TStruct fs => Forall (fun '(tg, _, _) => tg <> Optional) fs
  | _ => True
  end.
