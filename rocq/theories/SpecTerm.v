(** Which types lead the reflective decoder back to themselves. *)
From Verif Require Import Base Prog SpecWire Values Leaf Reflect SpecReflect.

(** Decoding [t] may come to [t'] without having read a byte in between. *)
Inductive immediate (E : types) : gtype -> gtype -> Prop :=
| im_ptr t t' : head E t = TPtr t' -> immediate E t' t
| im_array t n t' : head E t = TArray n t' -> immediate E t' t
| im_field t fs tg vis t' : head E t = TStruct fs -> In (tg, vis, t') fs -> tg = NoTag \/ tg = Extension -> immediate E t' t.
(** [t'] is used in the declaration of [t]. *)
Definition component (E : types) (t' t : gtype) : Prop := exists pl pl', part E (pl, t) (pl', t').
Inductive reaches (E : types) : gtype -> gtype -> Prop :=
| re_here t : reaches E t t
| re_step t t' t'' : component E t' t -> reaches E t' t'' -> reaches E t t''.
(** Every type within [t] is finite when slices, maps, optional fields and variants are
    left out: there is no t1 with t1 -> t2 -> ... by [immediate] for ever. *)
Definition grounded (E : types) (t : gtype) : Prop := forall t', reaches E t t' -> Acc (immediate E) t'.
(** [t] is finite. *)
Definition nonrecursive (E : types) (t : gtype) : Prop := Acc (component E) t.
(** User-defined UnmarshalABI methods come to an end. *)
Definition methods_end (E : types) : Prop :=
  forall i old env inp, match run env (unmarshals E i old) inp with
                        | Diverged => False
                        | Crash _ => True
                        | Done _ rest => (length rest <= length inp)%nat
                        end.
(** No declared type is referred to by name (structs nested in place). *)
Fixpoint nameless (t : gtype) : bool :=
  match t with
  | TLeaf _ | TInt _ | TOther | TUser _ _ => true
  | TName _ => false
  | TPtr t | TSlice t | TArray _ t => nameless t
  | TMap kt vt => nameless kt && nameless vt
  | TStruct fs => forallb (fun f => nameless (snd f)) fs
  end.
