(** Vocabulary for the JSON forms. *)
From Verif Require Import Base SpecText SpecName SpecHex SpecTime SpecSymbol Chain AbiDyn SpecChain.
Local Open Scope string_scope.
Local Open Scope list_scope.
Local Open Scope Z_scope.

(** ** UTF-8 (Unicode, table 3-7) *)
Definition bytes_in (lo hi : Z) (b : byte) : Prop := lo <= zb b <= hi.
Inductive utf8_char : list byte -> Prop :=
| u_1 a : bytes_in 0 127 a -> utf8_char [a]
| u_2 a b : bytes_in 194 223 a -> bytes_in 128 191 b -> utf8_char [a; b]
| u_3 a b c : bytes_in 224 224 a -> bytes_in 160 191 b -> bytes_in 128 191 c -> utf8_char [a; b; c]
| u_3a a b c : bytes_in 225 236 a -> bytes_in 128 191 b -> bytes_in 128 191 c -> utf8_char [a; b; c]
| u_3b a b c : bytes_in 237 237 a -> bytes_in 128 159 b -> bytes_in 128 191 c -> utf8_char [a; b; c]
| u_3c a b c : bytes_in 238 239 a -> bytes_in 128 191 b -> bytes_in 128 191 c -> utf8_char [a; b; c]
| u_4 a b c d : bytes_in 240 240 a -> bytes_in 144 191 b -> bytes_in 128 191 c -> bytes_in 128 191 d -> utf8_char [a; b; c; d]
| u_4a a b c d : bytes_in 241 243 a -> bytes_in 128 191 b -> bytes_in 128 191 c -> bytes_in 128 191 d -> utf8_char [a; b; c; d]
| u_4b a b c d : bytes_in 244 244 a -> bytes_in 128 143 b -> bytes_in 128 191 c -> bytes_in 128 191 d -> utf8_char [a; b; c; d].
Definition utf8 (s : list byte) : Prop := exists chars, Forall utf8_char chars /\ s = concat chars.
(** Printable ASCII characters that a JSON text shows as they are (the HTML characters
    are not among them). *)
Definition quiet (c : byte) : Prop := 32 <= zb c < 127 /\ ~ In c [x22; x5c; x3c; x3e; x26].

(** ** Strings (RFC 8259, section 7) *)
(** The code point a UTF-8 character stands for. *)
Definition code_point (cs : list byte) : Z :=
  match cs with
  | [a] => zb a
  | [a; b] => (zb a - 192) * 64 + (zb b - 128)
  | [a; b; c] => (zb a - 224) * 4096 + (zb b - 128) * 64 + (zb c - 128)
  | [a; b; c; d] => (zb a - 240) * 262144 + (zb b - 128) * 4096 + (zb c - 128) * 64 + (zb d - 128)
  | _ => -1
  end.
Definition hex4 (a b c d : byte) (r : Z) : Prop :=
  exists x y z w, hex_val a = Some x /\ hex_val b = Some y /\ hex_val c = Some z /\ hex_val d = Some w
    /\ r = x * 4096 + y * 256 + z * 16 + w.
(** [json_char raw cs]: the JSON text [raw] spells the UTF-8 character [cs]. *)
Inductive json_char : list byte -> list byte -> Prop :=
| spelt_itself cs : utf8_char cs -> (forall c, In c cs -> 32 <= zb c /\ c <> x22 /\ c <> x5c) -> json_char cs cs
| spelt_short e c : In (e, c) [(x22, x22); (x5c, x5c); (x2f, x2f); (x62, x08); (x66, x0c); (x6e, x0a); (x72, x0d); (x74, x09)] ->
    json_char [x5c; e] [c]
| spelt_hex a b c d cs : utf8_char cs -> hex4 a b c d (code_point cs) -> json_char [x5c; x75; a; b; c; d] cs
| spelt_pair a b c d a' b' c' d' r r' cs : utf8_char cs -> hex4 a b c d r -> hex4 a' b' c' d' r' ->
    55296 <= r < 56320 -> 56320 <= r' < 57344 -> code_point cs = 65536 + (r - 55296) * 1024 + (r' - 56320) ->
    json_char [x5c; x75; a; b; c; d; x5c; x75; a'; b'; c'; d'] cs.
Definition spells (raw s : list byte) : Prop :=
  exists rs cs, Forall2 json_char rs cs /\ raw = concat rs /\ s = concat cs.

(** ** Texts without white space *)
Definition dq (s : list byte) : list byte := str """" ++ s ++ str """".
Fixpoint commas (l : list (list byte)) : list byte :=
  match l with [] => [] | [x] => x | x :: l => x ++ str "," ++ commas l end.
Definition array (l : list (list byte)) : list byte := str "[" ++ commas l ++ str "]".
Definition object (l : list (string * list byte)) : list byte :=
  str "{" ++ commas (map (fun '(k, text) => dq (str k) ++ str ":" ++ text) l) ++ str "}".
(** A slice; a nil slice is printed null. *)
Definition list_json {A} (P : A -> list byte -> Prop) (l : list A) (text : list byte) : Prop :=
  (exists ts, Forall2 P l ts /\ text = array ts) \/ (l = [] /\ text = str "null").
Definition in_quotes (P : list byte -> Prop) (text : list byte) : Prop := exists s, P s /\ text = dq s.
Definition name_json (n : Z) : list byte -> Prop := in_quotes (fun s => canonical_name s /\ name_word 0 s = n).
Definition hex_json (d : list byte) : list byte -> Prop := in_quotes (fun s => hex_text s d /\ Forall lower_hex s).
Definition string_json (s : list byte) : list byte -> Prop := in_quotes (fun raw => spells raw s).
Definition second_json (t : Z) : list byte -> Prop := in_quotes (second_text t).
(** Up to 2^32 - 1 a number, above a string. *)
Definition uint64_json (v : Z) (text : list byte) : Prop :=
  exists s, numeral v s /\ text = if v <? 2 ^ 32 then s else dq s.

Definition permission_json (p : PermissionLevel) (text : list byte) : Prop :=
  exists a b, name_json (Actor p) a /\ name_json (Permission p) b
    /\ text = object [("actor", a); ("permission", b)].
Definition action_json (x : Action) (text : list byte) : Prop :=
  exists a b c d, name_json (Account x) a /\ name_json (AName x) b
    /\ list_json permission_json (Authorization x) c /\ hex_json (AData x) d
    /\ text = object [("account", a); ("name", b); ("authorization", c); ("data", d)].
Definition extension_json (x : TransactionExtension) (text : list byte) : Prop :=
  exists a b, numeral (EType x) a /\ hex_json (EData x) b /\ text = object [("type", a); ("data", b)].
Definition header_json (y : TransactionHeader) (text : list byte) : Prop :=
  exists a b c d e f,
    second_json (Expiration y) a /\ numeral (RefBlockNum y) b /\ numeral (RefBlockPrefix y) c
    /\ numeral (MaxNetUsageWords y) d /\ numeral (MaxCpuUsageMs y) e /\ numeral (DelaySec y) f
    /\ text = object [("expiration", a); ("ref_block_num", b); ("ref_block_prefix", c); ("max_net_usage_words", d);
                      ("max_cpu_usage_ms", e); ("delay_sec", f)].
Definition transaction_json (x : Transaction) (text : list byte) : Prop :=
  exists a b c d e f g h i, let y := Header x in
    second_json (Expiration y) a /\ numeral (RefBlockNum y) b /\ numeral (RefBlockPrefix y) c
    /\ numeral (MaxNetUsageWords y) d /\ numeral (MaxCpuUsageMs y) e /\ numeral (DelaySec y) f
    /\ list_json action_json (ContextFreeActions x) g /\ list_json action_json (Actions x) h /\ list_json extension_json (Extensions x) i
    /\ text = object [("expiration", a); ("ref_block_num", b); ("ref_block_prefix", c); ("max_net_usage_words", d);
                      ("max_cpu_usage_ms", e); ("delay_sec", f); ("context_free_actions", g); ("actions", h); ("transaction_extensions", i)].
Definition extended_asset_json (x : ExtendedAsset) (text : list byte) : Prop :=
  exists decimals name a b, Sym (Quantity x) = symbol_of decimals name /\ 0 <= decimals <= 18 /\ symbol_name name
    /\ in_quotes (fun s => canonical_asset s (Value (Quantity x)) decimals name) a /\ name_json (Contract x) b
    /\ text = object [("quantity", a); ("contract", b)].

(** ** ABI definitions *)
Definition type_json (x : AbiType) (text : list byte) : Prop :=
  exists a b, string_json (NewTypeName x) a /\ string_json (AType x) b /\ text = object [("new_type_name", a); ("type", b)].
Definition variant_json (x : AbiVariant) (text : list byte) : Prop :=
  exists a b, string_json (VName x) a /\ list_json string_json (VTypes x) b /\ text = object [("name", a); ("types", b)].
Definition field_json (x : AbiField) (text : list byte) : Prop :=
  exists a b, string_json (FName x) a /\ string_json (FType x) b /\ text = object [("name", a); ("type", b)].
Definition struct_json (x : AbiStruct) (text : list byte) : Prop :=
  exists a b c, string_json (SName x) a /\ string_json (SBase x) b /\ list_json field_json (SFields x) c
    /\ text = object [("name", a); ("base", b); ("fields", c)].
Definition abi_action_json (x : AbiAction) (text : list byte) : Prop :=
  exists a b c, name_json (ActName x) a /\ string_json (ActType x) b /\ string_json (RicardianContract x) c
    /\ text = object [("name", a); ("type", b); ("ricardian_contract", c)].
Definition table_json (x : AbiTable) (text : list byte) : Prop :=
  exists a b c d e, name_json (TName x) a /\ string_json (IndexType x) b /\ list_json string_json (KeyNames x) c
    /\ list_json string_json (KeyTypes x) d /\ string_json (TType x) e
    /\ text = object [("name", a); ("index_type", b); ("key_names", c); ("key_types", d); ("type", e)].
Definition clause_json (x : AbiClause) (text : list byte) : Prop :=
  exists a b, string_json (ClId x) a /\ string_json (ClBody x) b /\ text = object [("id", a); ("body", b)].
Definition abi_extension_json (o : option AbiExtension) (text : list byte) : Prop :=
  match o with
  | None => text = str "null"
  | Some x => exists a b, numeral (XType x) a /\ hex_json (XData x) b /\ text = object [("type", a); ("data", b)]
  end.
Definition error_json (x : AbiErrorMessage) (text : list byte) : Prop :=
  exists a b, uint64_json (ErrCode x) a /\ string_json (ErrText x) b /\ text = object [("error_code", a); ("error_msg", b)].
(** The last three keys are there only if the list has an element. *)
Definition optional_json {A} (P : A -> list byte -> Prop) (key : string) (l : list A) (kv : list (string * list byte)) : Prop :=
  match l with [] => kv = [] | _ => exists text, list_json P l text /\ kv = [(key, text)] end.
Definition abi_json (x : Abi) (text : list byte) : Prop :=
  exists a b c d e f g h i,
    string_json (Version x) a /\ list_json type_json (Types x) b /\ list_json struct_json (Structs x) c
    /\ list_json abi_action_json (AbiActions x) d /\ list_json table_json (Tables x) e /\ list_json clause_json (Clauses x) f
    /\ optional_json error_json "error_messages" (ErrorMessages x) g
    /\ optional_json abi_extension_json "abi_extensions" (AbiExtensions x) h
    /\ optional_json variant_json "variants" (Variants x) i
    /\ text = object ([("version", a); ("types", b); ("structs", c); ("actions", d); ("tables", e); ("ricardian_clauses", f)] ++ g ++ h ++ i).
(** Strings are UTF-8, numbers in range. *)
Definition utf8_abi (x : Abi) : Prop :=
  utf8 (Version x)
  /\ Forall (fun t => utf8 (NewTypeName t) /\ utf8 (AType t)) (Types x)
  /\ Forall (fun s => utf8 (SName s) /\ utf8 (SBase s) /\ Forall (fun f => utf8 (FName f) /\ utf8 (FType f)) (SFields s)) (Structs x)
  /\ Forall (fun a => in_u 64 (ActName a) /\ utf8 (ActType a) /\ utf8 (RicardianContract a)) (AbiActions x)
  /\ Forall (fun t => in_u 64 (TName t) /\ utf8 (IndexType t) /\ Forall utf8 (KeyNames t) /\ Forall utf8 (KeyTypes t) /\ utf8 (TType t)) (Tables x)
  /\ Forall (fun c => utf8 (ClId c) /\ utf8 (ClBody c)) (Clauses x)
  /\ Forall (fun m => in_u 64 (ErrCode m) /\ utf8 (ErrText m)) (ErrorMessages x)
  /\ Forall (fun o => forall y, o = Some y -> in_u 16 (XType y)) (AbiExtensions x)
  /\ Forall (fun v => utf8 (VName v) /\ Forall utf8 (VTypes v)) (Variants x).
(** The key of a member spells none of the names, not even up to case. *)
Definition foreign {A} (fold : list byte -> list byte -> bool) (names : list string) (member : list byte * A) : Prop :=
  exists s, spells (fst member) s /\ Forall (fun n => str n <> s /\ fold (str n) s = false) names.
