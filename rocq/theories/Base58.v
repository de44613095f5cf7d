(** pkg/base58: Encode and Decode. *)
From Verif Require Import Base GoStd.

(** alphabet.go:5 *)
Definition alphabet : list byte := str "123456789ABCDEFGHJKLMNPQRSTUVWXYZabcdefghijkmnopqrstuvwxyz".
(** alphabet.go:7 *)
Definition alphabetIdx0 : byte := x31.
(** alphabet.go:10-43 *)
Definition b58 : list Z :=
  [255;255;255;255;255;255;255;255;255;255;255;255;255;255;255;255;
   255;255;255;255;255;255;255;255;255;255;255;255;255;255;255;255;
   255;255;255;255;255;255;255;255;255;255;255;255;255;255;255;255;
   255;0;1;2;3;4;5;6;7;8;255;255;255;255;255;255;
   255;9;10;11;12;13;14;15;16;255;17;18;19;20;21;255;
   22;23;24;25;26;27;28;29;30;31;32;255;255;255;255;255;
   255;33;34;35;36;37;38;39;40;41;42;43;255;44;45;46;
   47;48;49;50;51;52;53;54;55;56;57;255;255;255;255;255;
   255;255;255;255;255;255;255;255;255;255;255;255;255;255;255;255;
   255;255;255;255;255;255;255;255;255;255;255;255;255;255;255;255;
   255;255;255;255;255;255;255;255;255;255;255;255;255;255;255;255;
   255;255;255;255;255;255;255;255;255;255;255;255;255;255;255;255;
   255;255;255;255;255;255;255;255;255;255;255;255;255;255;255;255;
   255;255;255;255;255;255;255;255;255;255;255;255;255;255;255;255;
   255;255;255;255;255;255;255;255;255;255;255;255;255;255;255;255;
   255;255;255;255;255;255;255;255;255;255;255;255;255;255;255;255].

(** base58.go:7-21 (both variables; entry 10 is bigRadix10) *)
Definition bigRadix : list Z :=
  [0; 58; 58 * 58; 58 * 58 * 58; 58 * 58 * 58 * 58; 58 * 58 * 58 * 58 * 58;
   58 * 58 * 58 * 58 * 58 * 58; 58 * 58 * 58 * 58 * 58 * 58 * 58;
   58 * 58 * 58 * 58 * 58 * 58 * 58 * 58; 58 * 58 * 58 * 58 * 58 * 58 * 58 * 58 * 58;
   58 * 58 * 58 * 58 * 58 * 58 * 58 * 58 * 58 * 58].
Definition bigRadix10 : Z := 58 * 58 * 58 * 58 * 58 * 58 * 58 * 58 * 58 * 58.

(** base58.go:50-57: the loop over the runes of one chunk.  [Ok None] is the early
    return of the empty slice; an index >= 256 panics. *)
Fixpoint Decode_chunk (rs : list (Z * Z)) (total : Z) : res (option Z) :=
  match rs with
  | [] => Ok (Some total)
  | (_, v) :: rs =>
      match at_ b58 v with
      | None => Panic "index out of range"
      | Some tmp =>
          if tmp =? 255 then Ok None
          else Decode_chunk rs (u64 (u64 (total * 58) + tmp))
      end
  end.
(** base58.go:44-64: chunk after chunk of at most ten bytes; the length of the
    string is enough fuel. *)
Fixpoint Decode_loop (fuel : nat) (t : list byte) (answer : Z) : res (option Z) :=
  match fuel with
  | O => Ok (Some answer)
  | S fuel =>
      match t with
      | [] => Ok (Some answer)
      | _ =>
          let n := if (10 <? length t)%nat then 10%nat else length t in
          rbind (Decode_chunk (runes 0 (firstn n t)) 0) (fun total =>
            match total with
            | None => Ok None
            | Some total => Decode_loop fuel (skipn n t) (answer * nth n bigRadix 0 + total)
            end)
      end
  end.
(** base58.go:68-73 *)
Fixpoint count_leading (c : byte) (s : list byte) : nat :=
  match s with
  | [] => O
  | d :: s => if Byte.eqb d c then S (count_leading c s) else O
  end.
(** base58.go:24-79 *)
Definition Decode (b : list byte) : res (list byte) :=
  rbind (Decode_loop (length b) b 0) (fun answer =>
    match answer with
    | None => Ok []
    | Some answer =>
        let tmpval := big_Bytes answer in
        let numZeros := count_leading alphabetIdx0 b in
        Ok (zeros numZeros ++ tmpval)
    end).

(** base58.go:104-107: while m > 0; m is below 58^10, so ten rounds are enough. *)
Fixpoint last_digits (fuel : nat) (m : Z) : list byte :=
  match fuel with
  | O => []
  | S fuel =>
      if 0 <? m then nth (Z.to_nat (m mod 58)) alphabet x00 :: last_digits fuel (m / 58) else []
  end.
(** base58.go:110-113: exactly ten rounds *)
Fixpoint ten_digits (i : nat) (m : Z) : list byte :=
  match i with
  | O => []
  | S i => nth (Z.to_nat (m mod 58)) alphabet x00 :: ten_digits i (m / 58)
  end.
(** base58.go:90-115: the bytes appended to answer; the bit length is enough fuel *)
Fixpoint Encode_loop (fuel : nat) (x : Z) : list byte :=
  match fuel with
  | O => []
  | S fuel =>
      if 0 <? x then
        let m := x mod bigRadix10 in
        let x := x / bigRadix10 in
        (if x =? 0 then last_digits 10 m else ten_digits 10 m) ++ Encode_loop fuel x
      else []
  end.
(** base58.go:82-133.  The capacity estimate of lines 86-88 has no effect on the
    result; the in-place reversal of lines 126-129 is written [rev]. *)
Definition Encode (b : list byte) : list byte :=
  let x := big_SetBytes b in
  let answer := Encode_loop (Z.to_nat (big_BitLen x)) x in
  let answer := answer ++ repeat alphabetIdx0 (count_leading x00 b) in
  rev answer.
