(** EOSIO names: specification.

    A name is written with the 32 characters  . 1-5 a-z  in this order; up to 12
    characters carry five bits each from the top of a 64-bit word and a 13th
    carries the remaining four. *)
From Verif Require Import Base.

(** Place of a character in the alphabet. *)
Definition name_digit (c : byte) : option Z :=
  let z := zb c in
  if z =? 46 then Some 0                                        (* '.' *)
  else if (49 <=? z) && (z <=? 53) then Some (z - 48)           (* '1'..'5' *)
  else if (97 <=? z) && (z <=? 122) then Some (z - 91)          (* 'a'..'z' *)
  else None.

Definition is_name_char (c : byte) : Prop := name_digit c <> None.

(** Canonical name strings. *)
Definition canonical_name (s : list byte) : Prop :=
  (length s <= 13)%nat
  /\ Forall is_name_char s
  /\ last s x61 <> x2e                                       (* does not end in '.' *)
  /\ (forall c, nth_error s 12 = Some c -> zb c <= 106).     (* 13th at most 'j' *)

(** The 64-bit word: character i < 12 at bits 64-5(i+1).., the 13th at bits 0..3. *)
Definition digit0 (c : byte) : Z := match name_digit c with Some d => d | None => 0 end.
Fixpoint name_word (i : Z) (s : list byte) : Z :=
  match s with
  | [] => 0
  | c :: s => (if i <? 12 then digit0 c * 2 ^ (64 - 5 * (i + 1)) else digit0 c) + name_word (i + 1) s
  end.

(** Normalisation of an arbitrary string: cut at 13 characters, replace foreign
    characters by '.', keep the low four bits of the 13th, drop dots at the end. *)
Definition name_char (d : Z) : byte :=
  if d =? 0 then x2e else if d <=? 5 then bz (48 + d) else bz (91 + d).
Fixpoint clean (i : Z) (s : list byte) : list byte :=
  match s with
  | [] => []
  | c :: s => if i <? 12 then name_char (digit0 c) :: clean (i + 1) s
              else if i =? 12 then [name_char (digit0 c mod 16)] else []
  end.
Fixpoint strip (s : list byte) : list byte :=
  match s with
  | [] => []
  | c :: s => match strip s with
              | [] => if Byte.eqb c x2e then [] else [c]
              | s' => c :: s'
              end
  end.
Definition normalise (s : list byte) : list byte := strip (clean 0 s).

(** Byte-wise lexicographic order (Go's string comparison). *)
Fixpoint str_lt (a b : list byte) : Prop :=
  match a, b with
  | _, [] => False
  | [], _ :: _ => True
  | x :: a, y :: b => zb x < zb y \/ (x = y /\ str_lt a b)
  end.
