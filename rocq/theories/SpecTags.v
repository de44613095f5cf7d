(** Struct tags: types whose every value takes at least one byte. *)
From Verif Require Import Base Reflect SpecReflect.

Inductive needs_input (E : types) : gtype -> Prop :=
| ni_leaf t k : head E t = TLeaf k -> needs_input E t
| ni_int t k : head E t = TInt k -> needs_input E t
| ni_slice t t' : head E t = TSlice t' -> needs_input E t
| ni_map t kt vt : head E t = TMap kt vt -> needs_input E t
| ni_ptr t t' : head E t = TPtr t' -> needs_input E t' -> needs_input E t
| ni_array t n t' : head E t = TArray (S n) t' -> needs_input E t' -> needs_input E t
| ni_first t t' fs : head E t = TStruct ((NoTag, Exported, t') :: fs) -> needs_input E t' -> needs_input E t
| ni_flag t t' fs : head E t = TStruct ((Optional, Exported, t') :: fs) -> needs_input E t.

(** Supported as a struct field. *)
Definition supported_field (E : types) (t : gtype) : Prop :=
  forall pl t', within E (Slot, t) (pl, t') -> supported_here E pl t'.
(** The zero values of a struct's fields. *)
Definition zeros_of (fs : list (tag * visibility * gtype)) : list rval := map (fun fd => zero_of (snd fd)) fs.
Definition extension (t : gtype) : tag * visibility * gtype := (Extension, Exported, t).
(** The alternatives of a variant struct: fields that are pointers. *)
Definition alternatives (E : types) (fs : list (tag * visibility * gtype)) : Prop :=
  Forall (fun '(tg, vis, t) => tg <> Optional /\ vis = Exported /\ exists t', head E t = TPtr t') fs.
Definition at_most_one_set (l : list rval) : Prop :=
  forall j k x y, nth_error l j = Some (RPtr (Some x)) -> nth_error l k = Some (RPtr (Some y)) -> j = k.
