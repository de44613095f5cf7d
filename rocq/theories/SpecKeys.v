(** Check-encoded texts and key texts: specification. *)
From Verif Require Import Base SpecBase58 SpecRipemd Chain.

(** [s] is the base58 text of the payload followed by its four check bytes. *)
Definition check_text (sha : list byte -> list byte) (s payload : list byte) : Prop :=
  base58_text s (payload ++ firstn 4 (sha (sha payload))).
Definition check_text_eosio (s payload suffix : list byte) : Prop :=
  base58_text s (payload ++ firstn 4 (ripemd160 (payload ++ suffix))).

Definition key_types : list (Z * list byte) := [(0, str "K1"); (1, str "P1"); (2, str "WA")].
(** [s] is head, type tag, a separator, check-encoded data *)
Definition key_text (head : list byte) (sep : byte) (s : list byte) (k : Key) : Prop :=
  exists tag t, In (KType k, tag) key_types /\ s = head ++ tag ++ sep :: t /\ check_text_eosio t (KData k) tag.
