(** EOSIO binary layouts, stated without reference to the encoders: a layout is a
    predicate on byte strings. *)
From Verif Require Import Base Prog SpecWire Chain.

Definition layout := list byte -> Prop.

(** One layout after another. *)
Definition cat (P Q : layout) : layout := fun bs => exists a b, bs = a ++ b /\ P a /\ Q b.
Infix "+++" := cat (at level 60, right associativity).

Definition raw (d : list byte) : layout := fun bs => bs = d.
(** Fixed-width little-endian two's complement. *)
Definition fixed_le (n : nat) (v : Z) : layout := is_le n v.
(** varuint32 *)
Definition varu (v : Z) : layout := fun bs => leb_minimal bs /\ leb_value bs = v.
(** A sequence without length prefix / with length prefix. *)
Fixpoint seq_of {A} (f : A -> layout) (l : list A) : layout :=
  match l with
  | [] => raw []
  | x :: l => f x +++ seq_of f l
  end.
Definition vec_of {A} (f : A -> layout) (l : list A) : layout := varu (zlen l) +++ seq_of f l.
Definition bytes_layout (d : list byte) : layout := varu (zlen d) +++ raw d.

Definition permission_layout (p : PermissionLevel) : layout :=
  fixed_le 8 (Actor p) +++ fixed_le 8 (Permission p).
Definition action_layout (a : Action) : layout :=
  fixed_le 8 (Account a) +++ fixed_le 8 (AName a)
  +++ vec_of permission_layout (Authorization a) +++ bytes_layout (AData a).
Definition header_layout (h : TransactionHeader) : layout :=
  fixed_le 4 (Expiration h) +++ fixed_le 2 (RefBlockNum h) +++ fixed_le 4 (RefBlockPrefix h)
  +++ varu (MaxNetUsageWords h) +++ fixed_le 1 (MaxCpuUsageMs h) +++ varu (DelaySec h).
Definition extension_layout (e : TransactionExtension) : layout :=
  fixed_le 2 (EType e) +++ bytes_layout (EData e).
Definition transaction_layout (t : Transaction) : layout :=
  header_layout (Header t) +++ vec_of action_layout (ContextFreeActions t)
  +++ vec_of action_layout (Actions t) +++ vec_of extension_layout (Extensions t).
Definition asset_layout (a : Asset) : layout := fixed_le 8 (Value a) +++ fixed_le 8 (Sym a).
Definition extended_asset_layout (e : ExtendedAsset) : layout :=
  asset_layout (Quantity e) +++ fixed_le 8 (Contract e).
Definition u128_layout (u : U128) : layout := fixed_le 16 (Hi u * 2 ^ 64 + Lo u).
Definition key_layout (k : Key) : layout := fixed_le 1 (KType k) +++ raw (KData k).

(** Values of the Go types (integer ranges), with every length that is written as
    a varuint, and every varuint field, below 2^28. *)
Definition in_u (n v : Z) : Prop := 0 <= v < 2 ^ n.
Definition short {A} (l : list A) : Prop := zlen l < 2 ^ 28.
Definition wf_permission (p : PermissionLevel) : Prop := in_u 64 (Actor p) /\ in_u 64 (Permission p).
Definition wf_action (a : Action) : Prop :=
  in_u 64 (Account a) /\ in_u 64 (AName a) /\ short (Authorization a)
  /\ Forall wf_permission (Authorization a) /\ short (AData a).
Definition wf_header (h : TransactionHeader) : Prop :=
  in_u 32 (Expiration h) /\ in_u 16 (RefBlockNum h) /\ in_u 32 (RefBlockPrefix h)
  /\ in_u 28 (MaxNetUsageWords h) /\ in_u 8 (MaxCpuUsageMs h) /\ in_u 28 (DelaySec h).
Definition wf_extension (e : TransactionExtension) : Prop := in_u 16 (EType e) /\ short (EData e).
Definition wf_transaction (t : Transaction) : Prop :=
  wf_header (Header t)
  /\ short (ContextFreeActions t) /\ Forall wf_action (ContextFreeActions t)
  /\ short (Actions t) /\ Forall wf_action (Actions t)
  /\ short (Extensions t) /\ Forall wf_extension (Extensions t).
Definition wf_asset (a : Asset) : Prop := - 2 ^ 63 <= Value a < 2 ^ 63 /\ in_u 64 (Sym a).
Definition wf_u128 (u : U128) : Prop := in_u 64 (Lo u) /\ in_u 64 (Hi u).

(** The same without the length bounds: every value a Go variable of the type can
    hold (lengths of Go slices are below 2^63). *)
Definition typed_action (a : Action) : Prop :=
  in_u 64 (Account a) /\ in_u 64 (AName a) /\ Forall wf_permission (Authorization a).
Definition typed_header (h : TransactionHeader) : Prop :=
  in_u 32 (Expiration h) /\ in_u 16 (RefBlockNum h) /\ in_u 32 (RefBlockPrefix h)
  /\ in_u 64 (MaxNetUsageWords h) /\ in_u 8 (MaxCpuUsageMs h) /\ in_u 64 (DelaySec h).
Definition typed_transaction (t : Transaction) : Prop :=
  typed_header (Header t) /\ Forall typed_action (ContextFreeActions t)
  /\ Forall typed_action (Actions t) /\ Forall (fun e => in_u 16 (EType e)) (Extensions t).

(** Data of a WebAuthn public key: 33 key bytes and the user presence flag, then
    the length-prefixed relying party id. *)
Definition wa_key_data (d : list byte) : Prop :=
  exists head rpid, length head = 34%nat /\ short rpid /\ (raw head +++ bytes_layout rpid) d.
(** Data of a WebAuthn signature: 65 signature bytes, length-prefixed
    authenticator data, length-prefixed client JSON. *)
Definition wa_sig_data (d : list byte) : Prop :=
  exists head auth client, length head = 65%nat /\ short auth /\ short client
    /\ (raw head +++ bytes_layout auth +++ bytes_layout client) d.
(** Well-formed public keys and signatures: types 0 = K1, 1 = R1, 2 = WA. *)
Definition wf_public_key (k : Key) : Prop :=
  ((KType k = 0 \/ KType k = 1) /\ length (KData k) = 33%nat)
  \/ (KType k = 2 /\ wa_key_data (KData k)).
Definition wf_signature (k : Key) : Prop :=
  ((KType k = 0 \/ KType k = 1) /\ length (KData k) = 65%nat)
  \/ (KType k = 2 /\ wa_sig_data (KData k)).

(** No input whatsoever makes the decoder panic or loop. *)
Definition never_panics {A} (p : io A) : Prop :=
  forall env inp, exists r rest, run env p inp = Done r rest.
