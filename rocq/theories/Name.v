(** pkg/chain/name.go: text form of names. *)
From Verif Require Import Base.

(** name.go:55 *)
Definition base32Alphabet : list byte := str ".12345abcdefghijklmnopqrstuvwxyz".
(** base32Alphabet[i]; the index is masked below 32 by the caller, so the default
    is never used. *)
Definition alpha (i : Z) : byte := nth (Z.to_nat i) base32Alphabet x2e.

(** name.go:113-121 charToSymbol *)
Definition charToSymbol (c : byte) : Z :=
  if (97 <=? zb c) && (zb c <=? 122) then zb c - 97 + 6
  else if (49 <=? zb c) && (zb c <=? 53) then zb c - 49 + 1
  else 0.

(** name.go:93-111 stringToName: [k] iterations remain, [i] is the loop variable;
    [sLen] is the length of s as uint32 (so it wraps for strings of 2^32 bytes). *)
Fixpoint stringToName_loop (k : nat) (i : Z) (sLen : Z) (s : list byte) (rv : Z) : Z :=
  match k with
  | O => rv
  | S k =>
      let c := if i <? sLen then charToSymbol (nth (Z.to_nat i) s x00) else 0 in
      let c := if i <? 12
               then u64 (Z.shiftl (Z.land c 31) (64 - 5 * (i + 1)))
               else Z.land c 15 in
      stringToName_loop k (i + 1) sLen s (Z.lor rv c)
  end.
Definition stringToName (s : list byte) : Z :=
  stringToName_loop 13 0 (u32 (zlen s)) s 0.

(** name.go:57-76 nameToString: the loop fills a[12], a[11], ..., a[0] in this
    order; [acc] is the part of the array filled so far. *)
Fixpoint nameToString_loop (k : nat) (i : Z) (tmp : Z) (acc : list byte) : list byte :=
  match k with
  | O => acc
  | S k =>
      let bit := if i =? 0 then 15 else 31 in
      let c := alpha (Z.land tmp bit) in
      let shift := if i =? 0 then 4 else 5 in
      nameToString_loop k (i + 1) (Z.shiftr tmp shift) (c :: acc)
  end.

(** name.go:78-91 trimRightDots: drop the dots at the end. *)
Fixpoint drop_dots (l : list byte) : list byte :=
  match l with
  | [] => []
  | c :: l' => if Byte.eqb c x2e then drop_dots l' else l
  end.
Definition trimRightDots (l : list byte) : list byte := rev (drop_dots (rev l)).

Definition nameToString (v : Z) : list byte := trimRightDots (nameToString_loop 13 0 v []).

(** name.go:9-11 NewName, :14-16 N *)
Definition NewName (s : list byte) : Z := stringToName s.
(** name.go:19-21 String, :41-43 MarshalText *)
Definition Name_String (n : Z) : list byte := nameToString n.
(** name.go:47-51 UnmarshalText: always succeeds *)
Definition Name_UnmarshalText (old : Z) (text : list byte) : Z * option gerr := (NewName text, None).
