(** Hexadecimal and base64 texts: specification, by positional values. *)
From Verif Require Import Base SpecNumbers.

(** Value of a digit string in base [r], most significant first. *)
Definition base_value (r : Z) (ds : list Z) : Z := fold_left (fun a d => r * a + d) ds 0.

Definition hex_val (c : byte) : option Z :=
  let z := zb c in
  if (48 <=? z) && (z <=? 57) then Some (z - 48)
  else if (97 <=? z) && (z <=? 102) then Some (z - 87)
  else if (65 <=? z) && (z <=? 70) then Some (z - 55)
  else None.
Definition lower_hex (c : byte) : Prop := 48 <= zb c <= 57 \/ 97 <= zb c <= 102.

(** [t] spells the bytes [b] in hexadecimal (either case), two digits per byte. *)
Definition hex_text (t b : list byte) : Prop :=
  exists ds, map hex_val t = map Some ds /\ length t = (2 * length b)%nat /\ base_value 16 ds = be_value b.

(** RFC 4648 base64: the sextet digits and [p] '=' characters. *)
Definition b64_val (c : byte) : option Z :=
  let z := zb c in
  if (65 <=? z) && (z <=? 90) then Some (z - 65)
  else if (97 <=? z) && (z <=? 122) then Some (z - 97 + 26)
  else if (48 <=? z) && (z <=? 57) then Some (z - 48 + 52)
  else if z =? 43 then Some 62 else if z =? 47 then Some 63 else None.
(** The sextets [body] are the bytes [b] followed by 2p zero bits. *)
Definition base64_digits (body b : list byte) (p : nat) : Prop :=
  exists ds, map b64_val body = map Some ds
    /\ (p <= 2)%nat /\ (3 * (length body + p) = 4 * (length b + p))%nat
    /\ base_value 64 ds = be_value b * 4 ^ Z.of_nat p.
(** The same when the 2p bits behind the bytes may be anything. *)
Definition base64_loose (body b : list byte) (p : nat) : Prop :=
  exists ds, map b64_val body = map Some ds
    /\ (p <= 2)%nat /\ (3 * (length body + p) = 4 * (length b + p))%nat
    /\ base_value 64 ds / 4 ^ Z.of_nat p = be_value b.
Definition pad (p : nat) : list byte := repeat x3d p.
Definition not_newline (c : byte) : bool := negb ((zb c =? 10) || (zb c =? 13)).
