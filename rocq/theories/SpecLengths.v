(** Inputs without long length prefixes, and the types C66 is about. *)
From Verif Require Import Base Prog Reflect SpecReflect.

(** No [k] neighbouring bytes of 128 or more. *)
Definition no_run (k : nat) (inp : list byte) : Prop :=
  forall before run after, inp = before ++ run ++ after -> Forall (fun c => 128 <= zb c) run -> (length run < k)%nat.
(** Whatever the reader's final error and the Go release, such an input, shorter than
    2^35 bytes, does not make the program panic. *)
Definition panic_free {A} (k : nat) (p : dec A) : Prop :=
  forall env inp m, zlen inp < 2 ^ 35 -> no_run k inp -> run env p inp <> Crash m.

(** [t] is the struct with fields [fs], or a pointer to it, or a pointer to a pointer... *)
Inductive points_to (E : types) : gtype -> list (tag * visibility * gtype) -> Prop :=
| pto_struct t fs : head E t = TStruct fs -> points_to E t fs
| pto_ptr t t' fs : head E t = TPtr t' -> points_to E t' fs -> points_to E t fs.
(** Types without a programming error: no hidden field, alternatives of a variant
    exported pointers, slice elements of at most 2^48 / 128^k bytes, and user-defined
    UnmarshalABI methods that do not panic either. *)
Definition sturdy_here (E : types) (k : nat) (t : gtype) : Prop :=
  match head E t with
  | TSlice t => size_of E t * 128 ^ Z.of_nat k <= 2 ^ 48
  | TStruct fs =>
      Forall (fun '(tg, vis, t) => vis <> Hidden
        /\ (tg = Variant -> forall alts, points_to E t alts ->
              Forall (fun '(_, vis, t) => vis = Exported /\ exists t', head E t = TPtr t') alts)) fs
  | TUser i _ => forall old, panic_free k (unmarshals E i old)
  | _ => True
  end.
Definition sturdy (E : types) (k : nat) (t : gtype) : Prop :=
  forall pl t', within E (Target, t) (pl, t') -> sturdy_here E k t'.
(** What remains of it for generated methods. *)
Definition roomy_here (E : types) (k : nat) (t : gtype) : Prop :=
  match head E t with
  | TSlice t => size_of E t * 128 ^ Z.of_nat k <= 2 ^ 48
  | TUser i _ => forall old, panic_free k (unmarshals E i old)
  | _ => True
  end.
Definition roomy (E : types) (k : nat) (t : gtype) : Prop :=
  forall pl t', within E (Target, t) (pl, t') -> roomy_here E k t'.
