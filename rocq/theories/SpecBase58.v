(** Base58: specification. *)
From Verif Require Import Base SpecNumbers SpecHex.

(** The digits in order of value: 1-9, A-Z without I and O, a-z without l. *)
Definition base58_digit (c : byte) : option Z :=
  let z := zb c in
  if (49 <=? z) && (z <=? 57) then Some (z - 49)                (* 1..9 *)
  else if (65 <=? z) && (z <=? 72) then Some (z - 65 + 9)       (* A..H *)
  else if (74 <=? z) && (z <=? 78) then Some (z - 74 + 17)      (* J..N *)
  else if (80 <=? z) && (z <=? 90) then Some (z - 80 + 22)      (* P..Z *)
  else if (97 <=? z) && (z <=? 107) then Some (z - 97 + 33)     (* a..k *)
  else if (109 <=? z) && (z <=? 122) then Some (z - 109 + 44)   (* m..z *)
  else None.
Definition base58_string (s : list byte) : Prop := Forall (fun c => base58_digit c <> None) s.

(** [s] is the base58 text of [b]: one '1' per leading zero byte, then the base-58
    numeral of the rest without leading zero digits. *)
Definition base58_text (s b : list byte) : Prop :=
  exists k s' b' ds,
    s = repeat x31 k ++ s' /\ (forall t, s' <> x31 :: t)
    /\ b = repeat x00 k ++ b' /\ (forall t, b' <> x00 :: t)
    /\ map base58_digit s' = map Some ds /\ base_value 58 ds = be_value b'.
