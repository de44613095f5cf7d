(** User-defined types with methods of their own: where the errors of Encode come from. *)
From Verif Require Import Base Prog SpecWire Values Leaf Reflect SpecReflect SpecPanics Codegen.

(** The writer returned [e] at some call. *)
Definition writer_error (o : woracle) (e : gerr) : Prop := exists j n, o j = Some (n, e).
(** The MarshalABI of the value returns [e] with this writer. *)
Definition method_error (E : types) (o : woracle) (e : gerr) (t : gtype) (v : rval) : Prop :=
  match head E t, v with
  | TUser i _, RUser x => exists k out full, runf o k (marshals E i x) out = WDone (Some e) full
  | _, _ => False
  end.

(** The methods that [E'] gives to the types numbered [i] are the ones generated for the
    struct type [t] of the program [E]: MarshalABI and UnmarshalABI (into a new struct)
    succeed when the generated code does, with the same result. *)
Definition generated_methods (E E' : types) (i : nat) (t : gtype) : Prop :=
  (forall v out full, has_type E any_leaf t v ->
     (runw (marshals E' i v) out = WDone None full <-> exists fuel, runw (MarshalABI fuel E t v) out = WDone None full))
  /\ (forall env inp v rest,
     run env (unmarshals E' i (zero E t)) inp = Done (v, None) rest
     <-> exists fuel, run env (UnmarshalABI fuel E t (zero E t)) inp = Done (v, None) rest).
(** User-defined MarshalABI methods come to an end, whatever the writer does. *)
Definition marshals_end (E : types) : Prop := forall i x o k out, runf o k (marshals E i x) out <> WDiverged.
(** A successful run is determined by the bytes it took: it does not depend on what
    follows them, on how the stream ends or on the Go release. *)
Definition determined {A} (p : io A) : Prop :=
  forall env inp v rest, run env p inp = Done (v, None) rest ->
  exists used, inp = used ++ rest /\ forall env' rest', run env' p (used ++ rest') = Done (v, None) rest'.
Definition methods_determined (E : types) : Prop := forall i old, determined (unmarshals E i old).
(** The program [E] with generated methods for the types numbered [i], [n] levels of
    structs deep. *)
Definition with_generated (E : types) (i : nat) (t : gtype) (n : nat) : types :=
  {| declared := declared E; size_of := size_of E;
     marshals := fun j v => if Nat.eqb j i then MarshalABI n E t v else marshals E j v;
     unmarshals := fun j old => if Nat.eqb j i then UnmarshalABI n E t old else unmarshals E j old |}.
