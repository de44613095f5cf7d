(** pkg/chain/symbol.go and the text form in pkg/chain/asset.go. *)
From Verif Require Import Base GoStd.
From Verif Require Chain.

(** symbol.go:140-156 rawSymbolValue; the loop with index i and accumulator rv *)
Fixpoint rawSymbol_loop (i : Z) (s : list byte) (rv : Z) : res Z :=
  match s with
  | [] => Ok rv
  | c :: s =>
      if negb ((65 <=? zb c) && (zb c <=? 90)) then Err (ErrMsg "invalid character in symbol name")
      else rawSymbol_loop (i + 1) s (Z.lor rv (u64 (Z.shiftl (zb c) (8 * (i + 1)))))
  end.
Definition rawSymbolValue (precision : Z) (s : list byte) : res Z :=
  if 18 <? precision then Err (ErrMsg "invalid symbol precision")
  else if 7 <? zlen s then Err (ErrMsg "invalid symbol name")
  else rbind (rawSymbol_loop 0 s 0) (fun rv => Ok (Z.lor rv precision)).

(** symbol.go:17-23 NewSymbol (precision is a uint8) *)
Definition NewSymbol (precision : Z) (name : list byte) : res Z := rawSymbolValue precision name.

(** symbol.go:26-41 NewSymbolFromString *)
Definition NewSymbolFromString (s : list byte) : res Z :=
  match Split s x2c with
  | [p0; p1] =>
      rbind (ParseInt p0 8) (fun precision => rawSymbolValue (u8 precision) p1)
  | _ => Err (ErrMsg "invalid asset symbol string")
  end.

(** symbol.go:44-53 Name: string(byte(v)) is the UTF-8 form of the code point.
    v has at most 56 bits after the first shift, so eight iterations are enough. *)
Fixpoint Symbol_Name_loop (fuel : nat) (v : Z) (rv : list byte) : list byte :=
  match fuel with
  | O => rv
  | S fuel => if 0 <? v then Symbol_Name_loop fuel (Z.shiftr v 8) (rv ++ put_rune (u8 v)) else rv
  end.
Definition Symbol_Name (s : Z) : list byte := Symbol_Name_loop 8 (Z.shiftr s 8) [].

(** symbol.go:56-58 Code *)
Definition Symbol_Code (s : Z) : Z := Z.shiftr s 8.
(** symbol.go:61-63 Decimals *)
Definition Symbol_Decimals (s : Z) : Z := Z.land s 255.
(** symbol.go:66-74 Precision: int multiplication wraps *)
Fixpoint p10_loop (k : nat) (p10 : Z) : Z :=
  match k with O => p10 | S k => p10_loop k (i64 (p10 * 10)) end.
Definition Symbol_Precision (s : Z) : Z := p10_loop (Z.to_nat (Symbol_Decimals s)) 1.
(** symbol.go:77-79 String, symbol.go:111-113 MarshalText *)
Definition Symbol_String (s : Z) : list byte :=
  FormatInt (Symbol_Decimals s) ++ [x2c] ++ Symbol_Name s.
(** symbol.go:115-118 SymbolCode.MarshalText *)
Definition SymbolCode_MarshalText (sc : Z) : list byte := Symbol_Name (u64 (Z.shiftl sc 8)).
(** symbol.go:122-128 Symbol.UnmarshalText *)
Definition Symbol_UnmarshalText (old : Z) (text : list byte) : res (Z * option gerr) :=
  set_on_success old (NewSymbolFromString text).
(** symbol.go:130-136 SymbolCode.UnmarshalText *)
Definition SymbolCode_UnmarshalText (old : Z) (text : list byte) : res (Z * option gerr) :=
  set_on_success old (rbind (NewSymbolFromString (str "0," ++ text)) (fun s => Ok (Symbol_Code s))).

(** asset.go:12 *)
Definition ErrInvalidAssetString : gerr := ErrMsg "invalid asset string".

(** asset.go:38-61: the loop of NewAssetFromString over the runes of the number;
    state: foundPoint, precision (uint8), builder. *)
Fixpoint asset_loop (rs : list (Z * Z)) (foundPoint : bool) (precision : Z) (builder : list byte)
  : res (Z * list byte) :=
  match rs with
  | [] => Ok (precision, builder)
  | (i, c) :: rs =>
      if c =? 46 then
        if foundPoint then Err ErrInvalidAssetString else asset_loop rs true precision builder
      else
        let builder := builder ++ put_rune c in
        if (c =? 45) && (i =? 0) then asset_loop rs foundPoint precision builder
        else
          let precision := if foundPoint then u8 (precision + 1) else precision in
          if foundPoint && (18 <? precision) then Err ErrInvalidAssetString
          else if (48 <=? c) && (c <=? 57) then asset_loop rs foundPoint precision builder
          else Err ErrInvalidAssetString
  end.

(** asset.go:30-71 NewAssetFromString *)
Definition NewAssetFromString (s : list byte) : res Chain.Asset :=
  match Split s x20 with
  | [p0; p1] =>
      if bytes_eqb p0 [] || bytes_eqb p1 [] then Err ErrInvalidAssetString
      else
        rbind (asset_loop (runes 0 p0) false 0 []) (fun '(precision, builder) =>
        rbind (ParseInt builder 64) (fun units =>
        rbind (NewSymbol precision p1) (fun symbol =>
        Ok {| Chain.Value := units; Chain.Sym := symbol |})))
  | _ => Err ErrInvalidAssetString
  end.

(** asset.go:74-80 A: panics on error *)
Definition A_ (s : list byte) : res Chain.Asset :=
  match NewAssetFromString s with
  | Ok a => Ok a
  | Err _ => Panic "invalid asset"
  | Panic m => Panic m
  end.

(** Go integer division and remainder: truncated, panicking on a zero divisor. *)
Definition go_div (a b : Z) : res Z := if b =? 0 then Panic "integer divide by zero" else Ok (i64 (Z.quot a b)).
Definition go_rem (a b : Z) : res Z := if b =? 0 then Panic "integer divide by zero" else Ok (Z.rem a b).

(** asset.go:93-95: for len(fs) < decimals { fs = "0" + fs } *)
Definition zero_pad (n : Z) (fs : list byte) : list byte := repeat x30 (Z.to_nat (n - zlen fs)) ++ fs.

(** asset.go:83-102 String, asset.go:155-157 MarshalText *)
Definition Asset_String (a : Chain.Asset) : res (list byte) :=
  let s := if Chain.Value a <? 0 then [x2d] else [] in
  let v := Chain.Value a in
  let v := if v <? 0 then i64 (- v) else v in
  rbind (go_div v (Symbol_Precision (Chain.Sym a))) (fun q =>
  let s := s ++ FormatInt q in
  rbind (if 0 <? Symbol_Decimals (Chain.Sym a) then
           rbind (go_rem v (Symbol_Precision (Chain.Sym a))) (fun f =>
           Ok (s ++ [x2e] ++ zero_pad (Symbol_Decimals (Chain.Sym a)) (FormatInt f)))
         else Ok s) (fun s =>
  Ok (s ++ [x20] ++ Symbol_Name (Chain.Sym a)))).

(** asset.go:161-167 UnmarshalText *)
Definition Asset_UnmarshalText (old : Chain.Asset) (text : list byte) : res (Chain.Asset * option gerr) :=
  set_on_success old (NewAssetFromString text).

(** asset.go:104-112 FloatValue: strconv.ParseFloat is a parameter. *)
Definition Asset_FloatValue {F} (ParseFloat : list byte -> res F) (a : Chain.Asset) : res F :=
  rbind (Asset_String a) (fun s =>
  match ParseFloat (nth 0 (Split s x20) []) with
  | Ok v => Ok v
  | Err _ => Panic "invalid syntax"
  | Panic m => Panic m
  end).
