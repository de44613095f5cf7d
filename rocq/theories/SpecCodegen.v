(** Specification of the code generator: for which struct types its output compiles,
    and which of those it is safe to read into. *)
From Verif Require Import Base Prog AbiPrim Chain Values Leaf SpecLeaf Reflect SpecReflect.

Notation fields := (list (tag * visibility * gtype)).

(** Types with MarshalABI and UnmarshalABI methods: pkg/chain's, structs (whose
    methods are generated like this one's), and types whose methods the user wrote. *)
Definition with_methods (E : types) (t : gtype) : Prop :=
  match head E t with TLeaf k => go_kind k = false | TStruct _ | TUser _ _ => True | _ => False end.
(** bool, string and the number types *)
Definition scalar (t : gtype) : Prop := exists k, t = TLeaf k /\ go_kind k = true /\ k <> KGoBytes.
(** Elements the generated loops can handle. *)
Definition method_element (E : types) (t : gtype) : Prop :=
  with_methods E t \/ exists u, t = TPtr u /\ with_methods E u.
Definition element (E : types) (t : gtype) : Prop := scalar t \/ method_element E t.

(** The fields the generator handles.  "optional" is for pointers only. *)
Inductive field_form (E : types) : tag -> gtype -> Prop :=
| ff_scalar tg t : tg <> Optional -> scalar t -> field_form E tg t
| ff_bytes tg : tg <> Optional -> field_form E tg (TLeaf KGoBytes)
| ff_methods tg t : tg <> Optional -> with_methods E t -> field_form E tg t
| ff_slice tg t : tg <> Optional -> element E t -> field_form E tg (TSlice t)
| ff_array tg n t : tg <> Optional -> element E t -> field_form E tg (TArray n t)
| ff_ptr tg t : scalar t -> field_form E tg (TPtr t)
| ff_ptr_methods tg t : with_methods E t -> field_form E tg (TPtr t)
| ff_ptr_array tg n t : method_element E t -> field_form E tg (TPtr (TArray n t)).

Definition slice_field (t : gtype) : Prop := t = TLeaf KGoBytes \/ exists u, t = TSlice u.
Definition array_field (t : gtype) : Prop := exists n u, t = TArray n u \/ t = TPtr (TArray n u).
(** A pointer to a scalar that is always present. *)
Definition required_scalar (tg : tag) (t : gtype) : Prop := tg <> Optional /\ exists u, t = TPtr u /\ scalar u.

(** Exactly the structs whose generated code compiles.  The two conditions at the end
    are defects of the templates: a variable declared for arrays is used for slices only,
    and another is declared once for each required pointer to a scalar. *)
Definition compilable (E : types) (fs : fields) : Prop :=
  Forall (fun '(tg, vis, t) => vis <> Blank /\ field_form E tg t) fs
  /\ ((exists tg vis t, In (tg, vis, t) fs /\ array_field t) -> exists tg vis t, In (tg, vis, t) fs /\ slice_field t)
  /\ (forall f g h tg vis t tg' vis' t', fs = f ++ (tg, vis, t) :: g ++ (tg', vis', t') :: h ->
        required_scalar tg t -> ~ required_scalar tg' t').

(** A struct type such that it and every struct in it is compilable and has exported
    fields only.  (Array lengths are ints; back references stand behind slices or
    pointers.) *)
Definition generable_here (E : types) (t : gtype) : Prop :=
  match head E t with
  | TStruct fs => compilable E fs /\ Forall (fun '(_, vis, t) => vis = Exported /\ direct t = true) fs
  | TArray n t => Z.of_nat n < 2 ^ 63 /\ direct t = true
  | _ => True
  end.
Definition generable (E : types) (t : gtype) : Prop :=
  (exists fs, head E t = TStruct fs) /\ forall pl t', within E (Target, t) (pl, t') -> generable_here E t'.

(** No pointer in it except to a scalar: the others are never allocated. *)
Definition only_scalar_pointers (E : types) (t : gtype) : Prop :=
  forall pl t' u, within E (Target, t) (pl, t') -> head E t' = TPtr u -> scalar u.
(** Tags other than "optional" mean nothing to the generator. *)
Definition only_optional_tags (E : types) (t : gtype) : Prop :=
  forall pl t' fs tg vis u, within E (Target, t) (pl, t') -> head E t' = TStruct fs -> In (tg, vis, u) fs ->
  tg = NoTag \/ tg = Optional.
