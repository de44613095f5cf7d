(** The parts of Go's standard library the text forms use: strconv, strings.Split,
    UTF-8 iteration, fmt of integers, math/big conversions.  These are models of
    library functions (Go 1.18), not of code in /repo. *)
From Verif Require Import Base.

(** The recurring shape of UnmarshalText:  v, err := parse(text); if err == nil { *t = v }; return err.
    The result is the new target and the returned error. *)
Definition set_on_success {T} (old : T) (r : res T) : res (T * option gerr) :=
  match r with
  | Ok v => Ok (v, None)
  | Err e => Ok (old, Some e)
  | Panic m => Panic m
  end.

(** ** Decimal formatting: strconv.FormatUint(v, 10), strconv.Itoa, fmt.Sprint(int),
    big.Int.String.  The fuel is the bit length, which bounds the digit count. *)
Fixpoint dec_loop (fuel : nat) (v : Z) (acc : list byte) : list byte :=
  match fuel with
  | O => acc
  | S fuel =>
      if v <? 10 then bz (48 + v) :: acc
      else dec_loop fuel (v / 10) (bz (48 + v mod 10) :: acc)
  end.
Definition FormatUint (v : Z) : list byte := dec_loop (S (Z.to_nat (Z.log2 v))) v [].
Definition FormatInt (v : Z) : list byte :=
  if v <? 0 then x2d :: FormatUint (- v) else FormatUint v.

(** ** strconv.ParseUint(s, 10, bits).  A letter is a digit >= 10, hence a syntax
    error like any other foreign character. *)
Definition is_dec (c : byte) : bool := (48 <=? zb c) && (zb c <=? 57).
Definition ErrSyntax : gerr := ErrMsg "invalid syntax".
Definition ErrRange : gerr := ErrMsg "value out of range".

Fixpoint ParseUint_loop (s : list byte) (n maxVal : Z) : Z * option gerr :=
  match s with
  | [] => (n, None)
  | c :: s =>
      if negb (is_dec c) then (0, Some ErrSyntax)
      else if 1844674407370955162 <=? n then (maxVal, Some ErrRange)   (* cutoff = maxUint64/10 + 1 *)
      else
        let n := u64 (n * 10) in
        let n1 := u64 (n + (zb c - 48)) in
        if (n1 <? n) || (maxVal <? n1) then (maxVal, Some ErrRange)
        else ParseUint_loop s n1 maxVal
  end.
Definition ParseUint (s : list byte) (bits : Z) : Z * option gerr :=
  match s with
  | [] => (0, Some ErrSyntax)
  | _ => ParseUint_loop s 0 (2 ^ bits - 1)
  end.

(** strconv.ParseInt(s, 10, bits); the value beside an error is not used by /repo. *)
Definition ParseInt (s : list byte) (bits : Z) : res Z :=
  match s with
  | [] => Err ErrSyntax
  | c :: s' =>
      let neg := Byte.eqb c x2d in
      let s := if Byte.eqb c x2b || neg then s' else s in
      let (un, err) := ParseUint s bits in
      let cutoff := 2 ^ (bits - 1) in
      match err with
      | Some (ErrMsg "invalid syntax") => Err ErrSyntax
      | _ =>
          if negb neg && (cutoff <=? un) then Err ErrRange
          else if neg && (cutoff <? un) then Err ErrRange
          else let n := i64 un in Ok (if neg then i64 (- n) else n)
      end
  end.

(** ** strings.Split(s, sep) for a one-byte separator *)
Fixpoint Split (s : list byte) (sep : byte) : list (list byte) :=
  match s with
  | [] => [[]]
  | c :: s =>
      if Byte.eqb c sep then [] :: Split s sep
      else match Split s sep with
           | [] => [[c]]          (* never: the result is not empty *)
           | p :: ps => (c :: p) :: ps
           end
  end.

(** ** for i, r := range s (UTF-8; an invalid sequence gives U+FFFD, width 1).
    The bit fields of the encoding are written arithmetically. *)
Definition cont (b : byte) : bool := (128 <=? zb b) && (zb b <=? 191).
Definition inr (lo hi : Z) (b : byte) : bool := (lo <=? zb b) && (zb b <=? hi).
Definition RuneError : Z := 65533.
Fixpoint runes (i : Z) (s : list byte) : list (Z * Z) :=
  match s with
  | [] => []
  | b0 :: t0 =>
      let z := zb b0 in
      let bad := (i, RuneError) :: runes (i + 1) t0 in
      if z <? 128 then (i, z) :: runes (i + 1) t0
      else if inr 194 223 b0 then
        match t0 with
        | b1 :: t1 => if cont b1 then (i, (z - 192) * 64 + (zb b1 - 128)) :: runes (i + 2) t1 else bad
        | _ => bad
        end
      else if inr 224 239 b0 then
        match t0 with
        | b1 :: b2 :: t2 =>
            let lo := if z =? 224 then 160 else 128 in
            let hi := if z =? 237 then 159 else 191 in
            if inr lo hi b1 && cont b2
            then (i, (z - 224) * 4096 + (zb b1 - 128) * 64 + (zb b2 - 128)) :: runes (i + 3) t2
            else bad
        | _ => bad
        end
      else if inr 240 244 b0 then
        match t0 with
        | b1 :: b2 :: b3 :: t3 =>
            let lo := if z =? 240 then 144 else 128 in
            let hi := if z =? 244 then 143 else 191 in
            if inr lo hi b1 && cont b2 && cont b3
            then (i, (z - 240) * 262144 + (zb b1 - 128) * 4096 + (zb b2 - 128) * 64 + (zb b3 - 128))
                   :: runes (i + 4) t3
            else bad
        | _ => bad
        end
      else bad
  end.

(** utf8.AppendRune / strings.Builder.WriteRune / string(rune). *)
Definition put_rune (r : Z) : list byte :=
  if (r <? 0) || (1114111 <? r) || ((55296 <=? r) && (r <=? 57343))
  then [bz 239; bz 191; bz 189]
  else if r <? 128 then [bz r]
  else if r <? 2048 then [bz (192 + r / 64); bz (128 + r mod 64)]
  else if r <? 65536 then [bz (224 + r / 4096); bz (128 + r / 64 mod 64); bz (128 + r mod 64)]
  else [bz (240 + r / 262144); bz (128 + r / 4096 mod 64); bz (128 + r / 64 mod 64); bz (128 + r mod 64)].

(** ** math/big *)
(** big.Int.SetString(s, 10): optional sign, then one or more digits. *)
Fixpoint big_digits (s : list byte) (n : Z) : option Z :=
  match s with
  | [] => Some n
  | c :: s => if is_dec c then big_digits s (n * 10 + (zb c - 48)) else None
  end.
Definition big_scan (s : list byte) : option Z :=
  match s with [] => None | _ => big_digits s 0 end.
Definition big_SetString (s : list byte) : option Z :=
  match s with
  | [] => None
  | c :: s' =>
      if Byte.eqb c x2d then option_map Z.opp (big_scan s')
      else if Byte.eqb c x2b then big_scan s'
      else big_scan s
  end.
(** big.Int.BitLen: of the absolute value. *)
Definition big_BitLen (x : Z) : Z := if x =? 0 then 0 else Z.log2 (Z.abs x) + 1.
(** big.Int.Bytes: absolute value, big-endian, no leading zero. *)
Definition big_Bytes (x : Z) : list byte := be_put (Z.to_nat ((big_BitLen x + 7) / 8)) (Z.abs x).
(** big.Int.SetBytes *)
Definition big_SetBytes (b : list byte) : Z := be_get b.
(** big.Int.FillBytes into n bytes; panics when the absolute value does not fit. *)
Definition big_FillBytes (n : nat) (x : Z) : res (list byte) :=
  if Z.abs x <? 256 ^ Z.of_nat n then Ok (be_put n (Z.abs x)) else Panic "math/big: buffer too small to fit value".
