(** Programs a user writes around the codecs: many values through one Encoder, and
    the same many through one Decoder.  Nothing here models code of the repository. *)
From Verif Require Import Base Prog SpecWire AbiPrim Chain Values Leaf SpecLeaf SpecChain AbiDyn SpecAbi Reflect SpecReflect SpecStrict.

(** A record of a stream: a Go value written with Encode, or a dynamic value written
    with Abi.Encode. *)
Inductive record : Type :=
| Typed (t : gtype) (v : rval)
| Dynamic (a : Abi) (n : name) (v : gval).
(** What a reader has to know about a record to read it. *)
Inductive format : Type :=
| OfType (t : gtype)
| OfAbi (a : Abi) (n : name).
Definition format_of (r : record) : format :=
  match r with Typed t _ => OfType t | Dynamic a n _ => OfAbi a n end.
Inductive item : Type := TypedItem (v : rval) | DynamicItem (v : gval).

(** [for _, r := range records { if err := write(r); err != nil { return err } }] *)
Definition write_record (fuel : nat) (E : types) (r : record) : wr :=
  match r with
  | Typed t v => Encode E t v
  | Dynamic a n v => Abi_Encode fuel a n v
  end.
Fixpoint write_stream (fuel : nat) (E : types) (rs : list record) : wr :=
  match rs with
  | [] => ERet None
  | r :: rs => etry (write_record fuel E r) (write_stream fuel E rs)
  end.
(** Each record into a new variable. *)
Definition read_record (fuel : nat) (E : types) (f : format) : io item :=
  match f with
  | OfType t => '(v, e) <-- Decode fuel E t (zero E t) ;; DRet (TypedItem v, e)
  | OfAbi a n => '(v, e) <-- Abi_Decode fuel a n ;; DRet (DynamicItem v, e)
  end.
(** Record after record until the list ends or one fails: what was read, and the
    error that stopped it. *)
Fixpoint read_stream (fuel : nat) (E : types) (fs : list format) : io (list item) :=
  match fs with
  | [] => DRet ([], None)
  | f :: fs =>
      '(x, e) <-- read_record fuel E f ;;
      match e with
      | Some e => DRet ([], Some e)
      | None => '(xs, e) <-- read_stream fuel E fs ;; DRet (x :: xs, e)
      end
  end.
(** The usual loop, [for { err := read(&x); if err != nil { return xs, err }; xs = append(xs, x) }],
    for at most [n] rounds. *)
Fixpoint read_until_error (n fuel : nat) (E : types) (f : format) : io (list item) :=
  match n with
  | O => DFuel
  | S n =>
      '(x, e) <-- read_record fuel E f ;;
      match e with
      | Some e => DRet ([], Some e)
      | None => '(xs, e) <-- read_until_error n fuel E f ;; DRet (x :: xs, e)
      end
  end.

(** Records the codecs are meant for: C40 and C45. *)
Definition proper (E : types) (r : record) : Prop :=
  match r with
  | Typed t v => supported E t /\ has_type E sound_leaf t v
  | Dynamic a n v => plain_schema a n /\ wf_gval v
  end.
(** Formats without anything that may be missing at the end: C60 and C58. *)
Definition delimited (E : types) (f : format) : Prop :=
  match f with
  | OfType t => no_extensions E t /\ reads_checked E t
  | OfAbi a n => no_extension a n
  end.
(** The record that was written and what was read. *)
Definition restored (r : record) (x : item) : Prop :=
  match r, x with
  | Typed t v, TypedItem v' => same v v' /\ (comparable t = true -> v' = v)
  | Dynamic _ _ v, DynamicItem v' => keeps v v'
  | _, _ => False
  end.
(** Enough fuel was given: the program returns (no fuel means the Go program would
    not return either). *)
Definition stream_written (E : types) (rs : list record) (out full : list byte) : Prop :=
  exists F, forall fuel, (F <= fuel)%nat -> runw (write_stream fuel E rs) out = WDone None full.
(** Records whose writing hides no error of the writer: C61 and C59. *)
Definition checked (E : types) (f : format) : Prop :=
  match f with
  | OfType t => no_optionals E t /\ writes_checked E t
  | OfAbi a n => no_optional a n
  end.
