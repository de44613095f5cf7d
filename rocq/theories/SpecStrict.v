(** Which types the reflective codec reads and writes without hiding an error. *)
From Verif Require Import Base Prog SpecWire AbiPrim Chain SpecChain Values Leaf SpecLeaf Reflect SpecReflect.

(** Every field of every struct met inside [t], however deep, has a tag in [good]. *)
Definition tags_within (good : tag -> Prop) (E : types) (t : gtype) : Prop :=
  forall pl t' fs tg vis u, within E (Target, t) (pl, t') -> head E t' = TStruct fs -> In (tg, vis, u) fs -> good tg.
Definition no_extensions : types -> gtype -> Prop := tags_within (fun tg => tg <> Extension).
Definition no_optionals : types -> gtype -> Prop := tags_within (fun tg => tg <> Optional).

(** Every user-defined type met inside [t], however deep, is in [good]. *)
Definition methods_within (good : nat -> gtype -> Prop) (E : types) (t : gtype) : Prop :=
  forall pl t' i u, within E (Target, t) (pl, t') -> head E t' = TUser i u -> good i u.
(** User-defined methods report every error of the reader, or of the writer. *)
Definition reads_checked (E : types) : gtype -> Prop :=
  methods_within (fun i _ => forall old, IoStrict (unmarshals E i old)) E.
Definition writes_checked (E : types) : gtype -> Prop :=
  methods_within (fun i _ => forall v, WStrict (marshals E i v)) E.
(** User-defined methods agree with each other. *)
Definition faithful_methods (E : types) : gtype -> Prop := methods_within (fun i u => by_value u = true /\ faithful E i u) E.
Definition no_methods : types -> gtype -> Prop := methods_within (fun _ _ => False).

(** The byte written in front of an optional field. *)
Definition flag_byte (b : byte) : Prop := b = x00 \/ b = x01.
(** With a writer that keeps failing once it has failed: no panic, what arrives is a
    prefix of the full encoding, and with a nil error nothing but presence flags at
    the very end is missing. *)
Definition only_flags_lost (p : wr) : Prop :=
  forall o full, sticky o -> runw p [] = WDone None full ->
  exists r out', runf o 0 p [] = WDone r out' /\ prefix out' full
    /\ (r = None -> exists lost, full = out' ++ lost /\ Forall flag_byte lost).
