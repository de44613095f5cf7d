(** The JSON forms of pkg/chain's types: what encoding/json makes of their methods and
    struct tags.  The first half models the parts of encoding/json (a library, not code
    in /repo) that matter; a JSON text is [list byte].  The [short] of the printer is the
    Go release: since Go 1.22 the characters 8 and 12 are written \b and \f.  Not modelled:
    what a failed Unmarshal leaves in its target. *)
From Verif Require Import Base GoStd Chain AbiDyn Name Symbol Hex Numbers Time Keys.

(** ** Strings *)
(** utf8.DecodeRune: the width of the first character, 0 if it is not valid. *)
Definition char_width (s : list byte) : nat :=
  match s with
  | [] => O
  | b0 :: t =>
      if zb b0 <? 128 then 1%nat
      else if inr 194 223 b0 then match t with b1 :: _ => if cont b1 then 2%nat else O | _ => O end
      else if inr 224 239 b0 then
        match t with
        | b1 :: b2 :: _ =>
            if inr (if zb b0 =? 224 then 160 else 128) (if zb b0 =? 237 then 159 else 191) b1 && cont b2 then 3%nat else O
        | _ => O
        end
      else if inr 240 244 b0 then
        match t with
        | b1 :: b2 :: b3 :: _ =>
            if inr (if zb b0 =? 240 then 144 else 128) (if zb b0 =? 244 then 143 else 191) b1 && cont b2 && cont b3 then 4%nat else O
        | _ => O
        end
      else O
  end.
Definition hex_digit (n : Z) : byte := nth (Z.to_nat n) (str "0123456789abcdef") x00.
(** encoding/json appendString, an ASCII character; HTML characters are escaped. *)
Definition put_ascii (short : bool) (c : byte) : list byte :=
  if Byte.eqb c x22 || Byte.eqb c x5c then [x5c; c]
  else if Byte.eqb c x0a then str "\n" else if Byte.eqb c x0d then str "\r" else if Byte.eqb c x09 then str "\t"
  else if short && Byte.eqb c x08 then str "\b" else if short && Byte.eqb c x0c then str "\f"
  else if (zb c <? 32) || Byte.eqb c x3c || Byte.eqb c x3e || Byte.eqb c x26
  then str "\u00" ++ [hex_digit (zb c / 16); hex_digit (zb c mod 16)]
  else [c].
(** The text between the quotes.  [k] bytes of the present character are still to be
    copied. *)
Fixpoint put_chars (short : bool) (k : nat) (s : list byte) : list byte :=
  match s with
  | [] => []
  | c :: t =>
      match k with
      | S k => c :: put_chars short k t
      | O =>
          if zb c <? 128 then put_ascii short c ++ put_chars short 0 t
          else match char_width s with
               | O => str "\ufffd" ++ put_chars short 0 t
               | S k =>
                   if bytes_eqb (firstn 3 s) [xe2; x80; xa8]
                   then match t with _ :: _ :: t => str "\u2028" ++ put_chars short 0 t | _ => [] end
                   else if bytes_eqb (firstn 3 s) [xe2; x80; xa9]
                   then match t with _ :: _ :: t => str "\u2029" ++ put_chars short 0 t | _ => [] end
                   else c :: put_chars short k t
               end
      end
  end.
(** encoding/json getu4, from behind the backslash and the u *)
Definition hex_value (c : byte) : option Z :=
  if (48 <=? zb c) && (zb c <=? 57) then Some (zb c - 48)
  else if (97 <=? zb c) && (zb c <=? 102) then Some (zb c - 87)
  else if (65 <=? zb c) && (zb c <=? 70) then Some (zb c - 55)
  else None.
Definition get_u4 (a b c d : byte) : option Z :=
  match hex_value a, hex_value b, hex_value c, hex_value d with
  | Some a, Some b, Some c, Some d => Some (a * 4096 + b * 256 + c * 16 + d)
  | _, _, _, _ => None
  end.
Definition is_surrogate (r : Z) : bool := (55296 <=? r) && (r <=? 57343).
(** utf16.DecodeRune; None stands for U+FFFD *)
Definition from_surrogates (r r' : Z) : option Z :=
  if (55296 <=? r) && (r <=? 56319) && (56320 <=? r') && (r' <=? 57343)
  then Some ((r - 55296) * 1024 + (r' - 56320) + 65536) else None.
Definition get_escape (c : byte) : option byte :=
  match c with
  | x22 | x5c | x2f | x27 => Some c
  | x62 => Some x08 | x66 => Some x0c | x6e => Some x0a | x72 => Some x0d | x74 => Some x09
  | _ => None
  end.
(** encoding/json unquoteBytes, without the quotes *)
Definition is_u (c : byte) : bool := Byte.eqb c x75.
Definition is_backslash (c : byte) : bool := Byte.eqb c x5c.
Fixpoint get_chars (k : nat) (s : list byte) : option (list byte) :=
  match s with
  | [] => Some []
  | c :: t =>
      match k with
      | S k => option_map (cons c) (get_chars k t)
      | O =>
          if is_backslash c then
            match t with
            | [] => None
            | e :: t =>
                if is_u e then
                  match t with
                  | a :: b :: c :: d :: t =>
                      match get_u4 a b c d with
                      | None => None
                      | Some r =>
                          let alone := option_map (app (put_rune (if is_surrogate r then RuneError else r))) (get_chars 0 t) in
                          match t with
                          | x :: y :: a :: b :: c :: d :: t' =>
                              if is_surrogate r && is_backslash x && is_u y then
                                match get_u4 a b c d with
                                | Some r' =>
                                    match from_surrogates r r' with
                                    | Some r => option_map (app (put_rune r)) (get_chars 0 t')
                                    | None => alone
                                    end
                                | None => alone
                                end
                              else alone
                          | _ => alone
                          end
                      end
                  | _ => None
                  end
                else match get_escape e with Some c => option_map (cons c) (get_chars 0 t) | None => None end
            end
          else if Byte.eqb c x22 || (zb c <? 32) then None
          else if zb c <? 128 then option_map (cons c) (get_chars 0 t)
          else match char_width s with
               | O => option_map (app (put_rune RuneError)) (get_chars 0 t)
               | S k => option_map (cons c) (get_chars k t)
               end
      end
  end.

(** ** JSON texts *)
(** A string is kept as it is written, without the quotes, and a number as well. *)
Inductive json : Type :=
| JNull | JBool (b : bool) | JNum (lit : list byte) | JStr (raw : list byte)
| JArr (l : list json) | JObj (l : list (list byte * json)).
Definition quoted (raw : list byte) : list byte := x22 :: raw ++ [x22].
(** As encoding/json prints it: no white space. *)
Fixpoint print (j : json) : list byte :=
  match j with
  | JNull => str "null" | JBool true => str "true" | JBool false => str "false"
  | JNum lit => lit
  | JStr raw => quoted raw
  | JArr [] => str "[]"
  | JArr (j :: l) => str "[" ++ print j ++ flat_map (fun j => x2c :: print j) l ++ str "]"
  | JObj [] => str "{}"
  | JObj ((k, j) :: l) =>
      str "{" ++ quoted k ++ x3a :: print j ++ flat_map (fun '(k, j) => x2c :: quoted k ++ x3a :: print j) l ++ str "}"
  end.
(** encoding/json's scanner *)
Definition is_space (c : byte) : bool := match c with x20 | x09 | x0d | x0a => true | _ => false end.
Fixpoint skip_space (s : list byte) : list byte :=
  match s with [] => [] | c :: t => if is_space c then skip_space t else s end.
(** Up to the closing quote; escapes are checked. *)
Definition is_hex (c : byte) : bool := match hex_value c with Some _ => true | None => false end.
Definition is_escape (e : byte) : bool := existsb (Byte.eqb e) [x22; x5c; x2f; x62; x66; x6e; x72; x74].
Fixpoint scan_string (s : list byte) : option (list byte * list byte) :=
  let keep xs r := option_map (fun '(raw, rest) => (xs ++ raw, rest)) r in
  match s with
  | [] => None
  | c :: t =>
      if Byte.eqb c x22 then Some ([], t)
      else if is_backslash c then
        match t with
        | [] => None
        | e :: t =>
            if is_u e then
              match t with
              | a :: b :: c' :: d :: t =>
                  if is_hex a && is_hex b && is_hex c' && is_hex d then keep [c; e; a; b; c'; d] (scan_string t) else None
              | _ => None
              end
            else if is_escape e then keep [c; e] (scan_string t)
            else None
        end
      else if zb c <? 32 then None
      else keep [c] (scan_string t)
  end.
(** An optional minus, 0 or digits not beginning with 0, an optional fraction, an optional exponent. *)
Fixpoint span (p : byte -> bool) (s : list byte) : list byte * list byte :=
  match s with
  | [] => ([], [])
  | c :: t => if p c then let (a, b) := span p t in (c :: a, b) else ([], s)
  end.
Definition is_nil {A} (l : list A) : bool := match l with [] => true | _ => false end.
Definition drop_sign (signs s : list byte) : list byte :=
  match s with c :: t => if existsb (Byte.eqb c) signs then t else s | [] => [] end.
Definition is_number (s : list byte) : bool :=
  let (ds, s) := span is_dec (drop_sign [x2d] s) in
  match ds with [] => false | d :: rest => negb (Byte.eqb d x30) || match rest with [] => true | _ => false end end &&
  let '(ok, s) :=
    match s with
    | c :: t => if Byte.eqb c x2e then let (fs, t) := span is_dec t in (negb (is_nil fs), t) else (true, s)
    | [] => (true, s)
    end in
  ok &&
  match s with
  | [] => true
  | e :: t =>
      (Byte.eqb e x65 || Byte.eqb e x45) &&
      let (es, t) := span is_dec (drop_sign [x2b; x2d] t) in negb (is_nil es) && is_nil t
  end.
Definition number_char (c : byte) : bool := is_dec c || existsb (Byte.eqb c) [x2b; x2d; x2e; x65; x45].
Definition expect (w : list byte) (j : json) (s : list byte) : option (json * list byte) :=
  if bytes_eqb (firstn (length w) s) w then Some (j, skipn (length w) s) else None.
(** The rest of the text if its next character, after white space, is [c]. *)
Definition after (c : byte) (s : list byte) : option (list byte) :=
  match skip_space s with x :: t => if Byte.eqb x c then Some t else None | [] => None end.
Fixpoint parse_value (fuel : nat) (s : list byte) : option (json * list byte) :=
  match fuel with
  | O => None
  | S fuel =>
      match skip_space s with
      | [] => None
      | c :: t =>
          if Byte.eqb c x22 then option_map (fun '(raw, rest) => (JStr raw, rest)) (scan_string t)
          else if Byte.eqb c x7b then
            match after x7d t with
            | Some rest => Some (JObj [], rest)
            | None => option_map (fun '(l, rest) => (JObj l, rest)) (parse_members fuel t)
            end
          else if Byte.eqb c x5b then
            match after x5d t with
            | Some rest => Some (JArr [], rest)
            | None => option_map (fun '(l, rest) => (JArr l, rest)) (parse_elements fuel t)
            end
          else if Byte.eqb c x6e then expect (str "null") JNull (c :: t)
          else if Byte.eqb c x74 then expect (str "true") (JBool true) (c :: t)
          else if Byte.eqb c x66 then expect (str "false") (JBool false) (c :: t)
          else let (n, rest) := span number_char (c :: t) in if is_number n then Some (JNum n, rest) else None
      end
  end
with parse_elements (fuel : nat) (s : list byte) : option (list json * list byte) :=
  match fuel with
  | O => None
  | S fuel =>
      match parse_value fuel s with
      | None => None
      | Some (j, rest) =>
          match after x2c rest with
          | Some t => option_map (fun '(l, rest) => (j :: l, rest)) (parse_elements fuel t)
          | None => option_map (fun t => ([j], t)) (after x5d rest)
          end
      end
  end
with parse_members (fuel : nat) (s : list byte) : option (list (list byte * json) * list byte) :=
  match fuel with
  | O => None
  | S fuel =>
      match after x22 s with
      | None => None
      | Some t =>
          match scan_string t with
          | None => None
          | Some (k, rest) =>
              match after x3a rest with
              | None => None
              | Some t =>
                  match parse_value fuel t with
                  | None => None
                  | Some (j, rest) =>
                      match after x2c rest with
                      | Some t => option_map (fun '(l, rest) => ((k, j) :: l, rest)) (parse_members fuel t)
                      | None => option_map (fun t => ([(k, j)], t)) (after x7d rest)
                      end
                  end
              end
          end
      end
  end.
(** How many arrays and objects are open at once; the scanner allows 10000. *)
Fixpoint nest (j : json) : Z :=
  match j with
  | JArr l => 1 + fold_right (fun j n => Z.max (nest j) n) 0 l
  | JObj l => 1 + fold_right (fun kj n => Z.max (nest (snd kj)) n) 0 l
  | _ => 0
  end.
(** Each step takes at least one byte off the text.  (The scanner gives up as soon as the
    nesting is too deep; a text that is also wrong further on is an error either way.) *)
Definition parse (s : list byte) : option json :=
  match parse_value (3 * length s) s with
  | Some (j, rest) => match skip_space rest with [] => if nest j <=? 10000 then Some j else None | _ => None end
  | None => None
  end.

(** ** Go values *)
Definition ErrJSON : gerr := ErrMsg "json".
(** A Go type: which JSON values json.Marshal may make of one of its values (more than one
    where the model identifies values that Go tells apart), and decoding into a variable
    that holds a value. *)
Record codec (T : Type) := { enc : T -> json -> Prop; dec : T -> json -> res T }.
Arguments enc {T}. Arguments dec {T}. Arguments Build_codec {T}.
Definition quote (short : bool) (s : list byte) : json := JStr (put_chars short 0 s).
Definition unquote (raw : list byte) : res (list byte) :=
  match get_chars 0 raw with Some s => Ok s | None => Err ErrJSON end.
(** string *)
Definition j_string (short : bool) : codec (list byte) := {|
  enc := fun s j => j = quote short s;
  dec := fun old j => match j with JStr raw => unquote raw | JNull => Ok old | _ => Err ErrJSON end |}.
(** uint8, uint16, uint32, uint *)
Definition j_uint (bits : Z) : codec Z := {|
  enc := fun v j => j = JNum (FormatUint v);
  dec := fun old j =>
    match j with
    | JNum lit => match ParseUint lit 64 with (v, None) => if v <? 2 ^ bits then Ok v else Err ErrJSON | (_, Some e) => Err e end
    | JNull => Ok old
    | _ => Err ErrJSON
    end |}.
(** Types with MarshalText and UnmarshalText; [nil] is what null makes of a value. *)
Definition dec_text {T} (unmarshal : T -> list byte -> res (T * option gerr)) (nil : T -> T) (old : T) (j : json) : res T :=
  match j with
  | JStr raw => rbind (unquote raw) (fun s => rbind (unmarshal old s) (fun r => match r with (v, None) => Ok v | (_, Some e) => Err e end))
  | JNull => Ok (nil old)
  | _ => Err ErrJSON
  end.
Definition j_text {T} (short : bool) (marshal : T -> res (list byte)) (unmarshal : T -> list byte -> res (T * option gerr)) (nil : T -> T) : codec T := {|
  enc := fun v j => exists s, marshal v = Ok s /\ j = quote short s;
  dec := dec_text unmarshal nil |}.
(** Types with MarshalJSON and UnmarshalJSON; what the method returns is checked.  Only
    used where the method rejects every array and object. *)
Definition literal (j : json) : list byte := match j with JArr _ | JObj _ => str "[" | _ => print j end.
Definition j_raw {T} (marshal : T -> list byte) (unmarshal : T -> list byte -> T * option gerr) : codec T := {|
  enc := fun v j => parse (marshal v) = Some j;
  dec := fun old j => match unmarshal old (literal j) with (v, None) => Ok v | (_, Some e) => Err e end |}.
(** []T.  A nil slice is printed null and an empty one [].  An element is decoded into the
    old element at its index (spare capacity is taken to be zero). *)
Fixpoint dec_elements {T} (dec : T -> json -> res T) (zero : T) (old : list T) (l : list json) : res (list T) :=
  match l with
  | [] => Ok []
  | j :: l =>
      rbind (dec (hd zero old) j) (fun v => rbind (dec_elements dec zero (tl old) l) (fun vs => Ok (v :: vs)))
  end.
Definition j_slice {T} (zero : T) (c : codec T) : codec (list T) := {|
  enc := fun l j => (exists js, Forall2 (enc c) l js /\ j = JArr js) \/ (l = [] /\ j = JNull);
  dec := fun old j => match j with JArr l => dec_elements (dec c) zero old l | JNull => Ok [] | _ => Err ErrJSON end |}.
(** *T *)
Definition j_ptr {T} (zero : T) (c : codec T) : codec (option T) := {|
  enc := fun o j => match o with Some v => enc c v j | None => j = JNull end;
  dec := fun old j =>
    match j with
    | JNull => Ok None
    | _ => rbind (dec c (match old with Some v => v | None => zero end) j) (fun v => Ok (Some v))
    end |}.
(** struct: the fields with their names; a field may be left out *)
Record jfield (T : Type) := { f_name : list byte; f_enc : T -> option json -> Prop; f_dec : T -> json -> res T }.
Arguments f_name {T}. Arguments f_enc {T}. Arguments f_dec {T}. Arguments Build_jfield {T}.
Definition fld {T A} (name : string) (c : codec A) (get : T -> A) (set : T -> A -> T) : jfield T := {|
  f_name := str name;
  f_enc := fun v o => exists j, enc c (get v) j /\ o = Some j;
  f_dec := fun v j => rbind (dec c (get v) j) (fun x => Ok (set v x)) |}.
(** omitempty, for a slice *)
Definition fld_omit {T A} (name : string) (c : codec (list A)) (get : T -> list A) (set : T -> list A -> T) : jfield T := {|
  f_name := str name;
  f_enc := fun v o => match get v with [] => o = None | l => exists j, enc c l j /\ o = Some j end;
  f_dec := fun v j => rbind (dec c (get v) j) (fun x => Ok (set v x)) |}.
Fixpoint members {T} (fs : list (jfield T)) (os : list (option json)) : list (list byte * json) :=
  match fs, os with
  | f :: fs, Some j :: os => (f_name f, j) :: members fs os
  | f :: fs, None :: os => members fs os
  | _, _ => []
  end.
(** The field of a key: the name itself, or else one equal to it but for case; [fold] is
    the release's notion of that. *)
Definition find_field {T} (fold : list byte -> list byte -> bool) (fs : list (jfield T)) (key : list byte) : option (jfield T) :=
  match find (fun f => bytes_eqb (f_name f) key) fs with Some f => Some f | None => find (fun f => fold (f_name f) key) fs end.
Fixpoint dec_members {T} (fold : list byte -> list byte -> bool) (fs : list (jfield T)) (v : T) (l : list (list byte * json)) : res T :=
  match l with
  | [] => Ok v
  | (k, j) :: l =>
      rbind (unquote k) (fun k =>
        match find_field fold fs k with
        | None => dec_members fold fs v l
        | Some f => rbind (f_dec f v j) (fun v => dec_members fold fs v l)
        end)
  end.
Definition j_struct {T} (fold : list byte -> list byte -> bool) (fs : list (jfield T)) : codec T := {|
  enc := fun v j => exists os, Forall2 (fun f o => f_enc f v o) fs os /\ j = JObj (members fs os);
  dec := fun old j => match j with JObj l => dec_members fold fs old l | JNull => Ok old | _ => Err ErrJSON end |}.
(** json.Marshal yields [text]; json.Unmarshal into a variable that holds [old] *)
Definition Marshal {T} (c : codec T) (v : T) (text : list byte) : Prop := exists j, enc c v j /\ text = print j.
Definition Unmarshal {T} (c : codec T) (old : T) (text : list byte) : res T :=
  match parse text with Some j => dec c old j | None => Err ErrJSON end.

(** ** pkg/chain *)
(** What varies with the Go release. *)
Record jenv := { short : bool; fold : list byte -> list byte -> bool }.
Definition plain_text {T} (marshal : T -> list byte) (v : T) : res (list byte) := Ok (marshal v).
Definition total {T} (unmarshal : T -> list byte -> T * option gerr) (old : T) (s : list byte) : res (T * option gerr) := Ok (unmarshal old s).
(** name.go:41-51 *)
Definition j_Name (e : jenv) : codec Z := j_text (short e) (plain_text Name_String) (total Name_UnmarshalText) (fun old => old).
(** bytes.go:45-58; a nil slice *)
Definition j_Bytes (e : jenv) : codec (list byte) := j_text (short e) (plain_text Bytes_MarshalText) (total Bytes_UnmarshalText) (fun _ => []).
(** blob.go:46-63 *)
Definition j_Blob (e : jenv) : codec (list byte) :=
  j_text (short e) (plain_text Blob_MarshalText) (fun _ s => Ok (snd (Blob_UnmarshalText s (length s)))) (fun _ => []).
(** checksum.go:105-144 *)
Definition j_Checksum (e : jenv) (n : nat) : codec (list byte) :=
  j_text (short e) (plain_text Checksum_MarshalText) (Checksum_UnmarshalText n) (fun old => old).
(** time.go:134-170 *)
Definition j_TimePoint (e : jenv) : codec Z := j_text (short e) TimePoint_MarshalText TimePoint_UnmarshalText (fun old => old).
Definition j_TimePointSec (e : jenv) : codec Z := j_text (short e) TimePointSec_MarshalText TimePointSec_UnmarshalText (fun old => old).
Definition j_BlockTimestamp (e : jenv) : codec Z := j_text (short e) BlockTimestamp_MarshalText BlockTimestamp_UnmarshalText (fun old => old).
(** numbers.go:229-258 *)
Definition j_Uint64 : codec Z := j_raw Uint64_MarshalJSON Uint64_UnmarshalJSON.
Definition j_BlockNum : codec Z := j_raw BlockNum_MarshalJSON BlockNum_UnmarshalJSON.
(** asset.go:155-167 *)
Definition j_Asset (e : jenv) : codec Asset := j_text (short e) Asset_String Asset_UnmarshalText (fun old => old).
(** symbol.go:111-136 *)
Definition j_Symbol (e : jenv) : codec Z := j_text (short e) (plain_text Symbol_String) Symbol_UnmarshalText (fun old => old).
Definition j_SymbolCode (e : jenv) : codec Z := j_text (short e) (plain_text SymbolCode_MarshalText) SymbolCode_UnmarshalText (fun old => old).
(** numbers.go:195-227 *)
Definition j_Uint128 (e : jenv) : codec U128 := j_text (short e) (plain_text Uint128_String) Uint128_UnmarshalText (fun old => old).
Definition j_Int128 (e : jenv) : codec U128 := j_text (short e) (plain_text Int128_String) Int128_UnmarshalText (fun old => old).
Definition j_Float128 (e : jenv) : codec (list byte) := j_text (short e) (plain_text Float128_MarshalText) (total Float128_UnmarshalText) (fun old => old).
(** public_key.go:115-127 *)
Definition j_PublicKey (e : jenv) (sha : list byte -> list byte) : codec Key :=
  j_text (short e) PublicKey_String (PublicKey_UnmarshalText sha) (fun old => old).
(** signature.go:110-122.  MarshalText has a pointer receiver: json.Marshal finds it given
    a *Signature, but given a Signature prints the struct of signature.go:12-15, a number
    and bytes in base64.  UnmarshalText is found either way. *)
Definition j_SignaturePtr (e : jenv) : codec Key := j_text (short e) Signature_String Signature_UnmarshalText (fun old => old).
Definition j_Signature (e : jenv) : codec Key := {|
  enc := fun v j => exists d, (d = quote (short e) (base64_EncodeToString (KData v)) \/ KData v = [] /\ d = JNull)
    /\ j = JObj [(str "Type", JNum (FormatUint (KType v))); (str "Data", d)];
  dec := dec_text Signature_UnmarshalText (fun old => old) |}.
(** action.go:10-13 *)
Definition zero_level : PermissionLevel := {| Actor := 0; Permission := 0 |}.
Definition PermissionLevel_fields (e : jenv) : list (jfield PermissionLevel) :=
  [fld "actor" (j_Name e) Actor (fun v x => {| Actor := x; Permission := Permission v |});
   fld "permission" (j_Name e) Permission (fun v x => {| Actor := Actor v; Permission := x |})].
Definition j_PermissionLevel (e : jenv) : codec PermissionLevel := j_struct (fold e) (PermissionLevel_fields e).
(** action.go:15-20 *)
Definition zero_action : Action := {| Account := 0; AName := 0; Authorization := []; AData := [] |}.
Definition Action_fields (e : jenv) : list (jfield Action) :=
  [fld "account" (j_Name e) Account (fun v x => {| Account := x; AName := AName v; Authorization := Authorization v; AData := AData v |});
   fld "name" (j_Name e) AName (fun v x => {| Account := Account v; AName := x; Authorization := Authorization v; AData := AData v |});
   fld "authorization" (j_slice zero_level (j_PermissionLevel e)) Authorization (fun v x => {| Account := Account v; AName := AName v; Authorization := x; AData := AData v |});
   fld "data" (j_Bytes e) AData (fun v x => {| Account := Account v; AName := AName v; Authorization := Authorization v; AData := x |})].
Definition j_Action (e : jenv) : codec Action := j_struct (fold e) (Action_fields e).
(** asset.go:19-22 *)
Definition ExtendedAsset_fields (e : jenv) : list (jfield ExtendedAsset) :=
  [fld "quantity" (j_Asset e) Quantity (fun v x => {| Quantity := x; Contract := Contract v |});
   fld "contract" (j_Name e) Contract (fun v x => {| Quantity := Quantity v; Contract := x |})].
Definition j_ExtendedAsset (e : jenv) : codec ExtendedAsset := j_struct (fold e) (ExtendedAsset_fields e).
(** transaction.go:14-17 *)
Definition zero_transaction_extension : TransactionExtension := {| EType := 0; EData := [] |}.
Definition TransactionExtension_fields (e : jenv) : list (jfield TransactionExtension) :=
  [fld "type" (j_uint 16) EType (fun v x => {| EType := x; EData := EData v |});
   fld "data" (j_Bytes e) EData (fun v x => {| EType := EType v; EData := x |})].
Definition j_TransactionExtension (e : jenv) : codec TransactionExtension := j_struct (fold e) (TransactionExtension_fields e).
(** transaction.go:5-12 *)
Definition zero_header : TransactionHeader := {| Expiration := 0; RefBlockNum := 0; RefBlockPrefix := 0; MaxNetUsageWords := 0; MaxCpuUsageMs := 0; DelaySec := 0 |}.
Definition TransactionHeader_fields (e : jenv) : list (jfield TransactionHeader) :=
  [fld "expiration" (j_TimePointSec e) Expiration (fun v x => {| Expiration := x; RefBlockNum := RefBlockNum v; RefBlockPrefix := RefBlockPrefix v; MaxNetUsageWords := MaxNetUsageWords v; MaxCpuUsageMs := MaxCpuUsageMs v; DelaySec := DelaySec v |});
   fld "ref_block_num" (j_uint 16) RefBlockNum (fun v x => {| Expiration := Expiration v; RefBlockNum := x; RefBlockPrefix := RefBlockPrefix v; MaxNetUsageWords := MaxNetUsageWords v; MaxCpuUsageMs := MaxCpuUsageMs v; DelaySec := DelaySec v |});
   fld "ref_block_prefix" (j_uint 32) RefBlockPrefix (fun v x => {| Expiration := Expiration v; RefBlockNum := RefBlockNum v; RefBlockPrefix := x; MaxNetUsageWords := MaxNetUsageWords v; MaxCpuUsageMs := MaxCpuUsageMs v; DelaySec := DelaySec v |});
   fld "max_net_usage_words" (j_uint 64) MaxNetUsageWords (fun v x => {| Expiration := Expiration v; RefBlockNum := RefBlockNum v; RefBlockPrefix := RefBlockPrefix v; MaxNetUsageWords := x; MaxCpuUsageMs := MaxCpuUsageMs v; DelaySec := DelaySec v |});
   fld "max_cpu_usage_ms" (j_uint 8) MaxCpuUsageMs (fun v x => {| Expiration := Expiration v; RefBlockNum := RefBlockNum v; RefBlockPrefix := RefBlockPrefix v; MaxNetUsageWords := MaxNetUsageWords v; MaxCpuUsageMs := x; DelaySec := DelaySec v |});
   fld "delay_sec" (j_uint 64) DelaySec (fun v x => {| Expiration := Expiration v; RefBlockNum := RefBlockNum v; RefBlockPrefix := RefBlockPrefix v; MaxNetUsageWords := MaxNetUsageWords v; MaxCpuUsageMs := MaxCpuUsageMs v; DelaySec := x |})].
Definition j_TransactionHeader (e : jenv) : codec TransactionHeader := j_struct (fold e) (TransactionHeader_fields e).
(** transaction.go:19-24: the fields of the embedded header count as the transaction's *)
Definition set_header (v : Transaction) (h : TransactionHeader) : Transaction :=
  {| Header := h; ContextFreeActions := ContextFreeActions v; Actions := Actions v; Extensions := Extensions v |}.
Definition embedded (f : jfield TransactionHeader) : jfield Transaction := {|
  f_name := f_name f;
  f_enc := fun v => f_enc f (Header v);
  f_dec := fun v j => rbind (f_dec f (Header v) j) (fun h => Ok (set_header v h)) |}.
Definition Transaction_fields (e : jenv) : list (jfield Transaction) :=
  map embedded (TransactionHeader_fields e) ++
  [fld "context_free_actions" (j_slice zero_action (j_Action e)) ContextFreeActions (fun v x => {| Header := Header v; ContextFreeActions := x; Actions := Actions v; Extensions := Extensions v |});
   fld "actions" (j_slice zero_action (j_Action e)) Actions (fun v x => {| Header := Header v; ContextFreeActions := ContextFreeActions v; Actions := x; Extensions := Extensions v |});
   fld "transaction_extensions" (j_slice zero_transaction_extension (j_TransactionExtension e)) Extensions (fun v x => {| Header := Header v; ContextFreeActions := ContextFreeActions v; Actions := Actions v; Extensions := x |})].
Definition j_Transaction (e : jenv) : codec Transaction := j_struct (fold e) (Transaction_fields e).
(** abi.go:24-27 *)
Definition zero_type : AbiType := {| NewTypeName := []; AType := [] |}.
Definition AbiType_fields (e : jenv) : list (jfield AbiType) :=
  [fld "new_type_name" (j_string (short e)) NewTypeName (fun v x => {| NewTypeName := x; AType := AType v |});
   fld "type" (j_string (short e)) AType (fun v x => {| NewTypeName := NewTypeName v; AType := x |})].
Definition j_AbiType (e : jenv) : codec AbiType := j_struct (fold e) (AbiType_fields e).
(** abi.go:29-32 *)
Definition zero_variant : AbiVariant := {| VName := []; VTypes := [] |}.
Definition AbiVariant_fields (e : jenv) : list (jfield AbiVariant) :=
  [fld "name" (j_string (short e)) VName (fun v x => {| VName := x; VTypes := VTypes v |});
   fld "types" (j_slice [] (j_string (short e))) VTypes (fun v x => {| VName := VName v; VTypes := x |})].
Definition j_AbiVariant (e : jenv) : codec AbiVariant := j_struct (fold e) (AbiVariant_fields e).
(** abi.go:40-43 *)
Definition zero_field : AbiField := {| FName := []; FType := [] |}.
Definition AbiField_fields (e : jenv) : list (jfield AbiField) :=
  [fld "name" (j_string (short e)) FName (fun v x => {| FName := x; FType := FType v |});
   fld "type" (j_string (short e)) FType (fun v x => {| FName := FName v; FType := x |})].
Definition j_AbiField (e : jenv) : codec AbiField := j_struct (fold e) (AbiField_fields e).
(** abi.go:34-38 *)
Definition zero_abi_struct : AbiStruct := {| SName := []; SBase := []; SFields := [] |}.
Definition AbiStruct_fields (e : jenv) : list (jfield AbiStruct) :=
  [fld "name" (j_string (short e)) SName (fun v x => {| SName := x; SBase := SBase v; SFields := SFields v |});
   fld "base" (j_string (short e)) SBase (fun v x => {| SName := SName v; SBase := x; SFields := SFields v |});
   fld "fields" (j_slice zero_field (j_AbiField e)) SFields (fun v x => {| SName := SName v; SBase := SBase v; SFields := x |})].
Definition j_AbiStruct (e : jenv) : codec AbiStruct := j_struct (fold e) (AbiStruct_fields e).
(** abi.go:45-49 *)
Definition zero_abi_action : AbiAction := {| ActName := 0; ActType := []; RicardianContract := [] |}.
Definition AbiAction_fields (e : jenv) : list (jfield AbiAction) :=
  [fld "name" (j_Name e) ActName (fun v x => {| ActName := x; ActType := ActType v; RicardianContract := RicardianContract v |});
   fld "type" (j_string (short e)) ActType (fun v x => {| ActName := ActName v; ActType := x; RicardianContract := RicardianContract v |});
   fld "ricardian_contract" (j_string (short e)) RicardianContract (fun v x => {| ActName := ActName v; ActType := ActType v; RicardianContract := x |})].
Definition j_AbiAction (e : jenv) : codec AbiAction := j_struct (fold e) (AbiAction_fields e).
(** abi.go:51-57 *)
Definition zero_table : AbiTable := {| TName := 0; IndexType := []; KeyNames := []; KeyTypes := []; TType := [] |}.
Definition AbiTable_fields (e : jenv) : list (jfield AbiTable) :=
  [fld "name" (j_Name e) TName (fun v x => {| TName := x; IndexType := IndexType v; KeyNames := KeyNames v; KeyTypes := KeyTypes v; TType := TType v |});
   fld "index_type" (j_string (short e)) IndexType (fun v x => {| TName := TName v; IndexType := x; KeyNames := KeyNames v; KeyTypes := KeyTypes v; TType := TType v |});
   fld "key_names" (j_slice [] (j_string (short e))) KeyNames (fun v x => {| TName := TName v; IndexType := IndexType v; KeyNames := x; KeyTypes := KeyTypes v; TType := TType v |});
   fld "key_types" (j_slice [] (j_string (short e))) KeyTypes (fun v x => {| TName := TName v; IndexType := IndexType v; KeyNames := KeyNames v; KeyTypes := x; TType := TType v |});
   fld "type" (j_string (short e)) TType (fun v x => {| TName := TName v; IndexType := IndexType v; KeyNames := KeyNames v; KeyTypes := KeyTypes v; TType := x |})].
Definition j_AbiTable (e : jenv) : codec AbiTable := j_struct (fold e) (AbiTable_fields e).
(** abi.go:59-62 *)
Definition zero_clause : AbiClause := {| ClId := []; ClBody := [] |}.
Definition AbiClause_fields (e : jenv) : list (jfield AbiClause) :=
  [fld "id" (j_string (short e)) ClId (fun v x => {| ClId := x; ClBody := ClBody v |});
   fld "body" (j_string (short e)) ClBody (fun v x => {| ClId := ClId v; ClBody := x |})].
Definition j_AbiClause (e : jenv) : codec AbiClause := j_struct (fold e) (AbiClause_fields e).
(** abi.go:64-67 *)
Definition zero_abi_extension : AbiExtension := {| XType := 0; XData := [] |}.
Definition AbiExtension_fields (e : jenv) : list (jfield AbiExtension) :=
  [fld "type" (j_uint 16) XType (fun v x => {| XType := x; XData := XData v |});
   fld "data" (j_Bytes e) XData (fun v x => {| XType := XType v; XData := x |})].
Definition j_AbiExtension (e : jenv) : codec AbiExtension := j_struct (fold e) (AbiExtension_fields e).
(** abi.go:69-72 *)
Definition zero_error_message : AbiErrorMessage := {| ErrCode := 0; ErrText := [] |}.
Definition AbiErrorMessage_fields (e : jenv) : list (jfield AbiErrorMessage) :=
  [fld "error_code" j_Uint64 ErrCode (fun v x => {| ErrCode := x; ErrText := ErrText v |});
   fld "error_msg" (j_string (short e)) ErrText (fun v x => {| ErrCode := ErrCode v; ErrText := x |})].
Definition j_AbiErrorMessage (e : jenv) : codec AbiErrorMessage := j_struct (fold e) (AbiErrorMessage_fields e).
(** abi.go:12-22 *)
Definition zero_abi : Abi := {| Version := []; Types := []; Structs := []; AbiActions := []; Tables := []; Clauses := []; ErrorMessages := []; AbiExtensions := []; Variants := [] |}.
Definition Abi_fields (e : jenv) : list (jfield Abi) :=
  [fld "version" (j_string (short e)) Version (fun v x => {| Version := x; Types := Types v; Structs := Structs v; AbiActions := AbiActions v; Tables := Tables v; Clauses := Clauses v; ErrorMessages := ErrorMessages v; AbiExtensions := AbiExtensions v; Variants := Variants v |});
   fld "types" (j_slice zero_type (j_AbiType e)) Types (fun v x => {| Version := Version v; Types := x; Structs := Structs v; AbiActions := AbiActions v; Tables := Tables v; Clauses := Clauses v; ErrorMessages := ErrorMessages v; AbiExtensions := AbiExtensions v; Variants := Variants v |});
   fld "structs" (j_slice zero_abi_struct (j_AbiStruct e)) Structs (fun v x => {| Version := Version v; Types := Types v; Structs := x; AbiActions := AbiActions v; Tables := Tables v; Clauses := Clauses v; ErrorMessages := ErrorMessages v; AbiExtensions := AbiExtensions v; Variants := Variants v |});
   fld "actions" (j_slice zero_abi_action (j_AbiAction e)) AbiActions (fun v x => {| Version := Version v; Types := Types v; Structs := Structs v; AbiActions := x; Tables := Tables v; Clauses := Clauses v; ErrorMessages := ErrorMessages v; AbiExtensions := AbiExtensions v; Variants := Variants v |});
   fld "tables" (j_slice zero_table (j_AbiTable e)) Tables (fun v x => {| Version := Version v; Types := Types v; Structs := Structs v; AbiActions := AbiActions v; Tables := x; Clauses := Clauses v; ErrorMessages := ErrorMessages v; AbiExtensions := AbiExtensions v; Variants := Variants v |});
   fld "ricardian_clauses" (j_slice zero_clause (j_AbiClause e)) Clauses (fun v x => {| Version := Version v; Types := Types v; Structs := Structs v; AbiActions := AbiActions v; Tables := Tables v; Clauses := x; ErrorMessages := ErrorMessages v; AbiExtensions := AbiExtensions v; Variants := Variants v |});
   fld_omit "error_messages" (j_slice zero_error_message (j_AbiErrorMessage e)) ErrorMessages (fun v x => {| Version := Version v; Types := Types v; Structs := Structs v; AbiActions := AbiActions v; Tables := Tables v; Clauses := Clauses v; ErrorMessages := x; AbiExtensions := AbiExtensions v; Variants := Variants v |});
   fld_omit "abi_extensions" (j_slice None (j_ptr zero_abi_extension (j_AbiExtension e))) AbiExtensions (fun v x => {| Version := Version v; Types := Types v; Structs := Structs v; AbiActions := AbiActions v; Tables := Tables v; Clauses := Clauses v; ErrorMessages := ErrorMessages v; AbiExtensions := x; Variants := Variants v |});
   fld_omit "variants" (j_slice zero_variant (j_AbiVariant e)) Variants (fun v x => {| Version := Version v; Types := Types v; Structs := Structs v; AbiActions := AbiActions v; Tables := Tables v; Clauses := Clauses v; ErrorMessages := ErrorMessages v; AbiExtensions := AbiExtensions v; Variants := x |})].
Definition j_Abi (e : jenv) : codec Abi := j_struct (fold e) (Abi_fields e).
