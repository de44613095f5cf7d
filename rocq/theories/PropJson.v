(** The JSON forms: json.Marshal and json.Unmarshal on the types of pkg/chain. *)
From Coq Require Import Sorting.Permutation.
From Verif Require Import Base GoStd BaseProofs SpecText SpecName SpecHex SpecBase58 SpecTime SpecSymbol SpecKeys SpecNumbers Chain AbiDyn SpecChain Json SpecJson SpecJsonText.
From Verif Require Import Name Symbol Hex Numbers Time Keys GoStdProofs PropTime PropHex JsonProofs JsonCodecs JsonStrings JsonTypes JsonOrder JsonText JsonNest.

(** [v] is printed, every text it is printed as is laid out as [layout] says, and read
    into a variable that holds [old] the text gives [v] back. *)
Definition json_round {T} (c : codec T) (old v : T) (layout : list byte -> Prop) : Prop :=
  (exists text, Marshal c v text)
  /\ forall text, Marshal c v text -> layout text /\ Unmarshal c old text = Ok v.

(** A Go release for the examples: short escapes, ASCII case ignored. *)
Definition lower (c : byte) : byte := if (65 <=? zb c) && (zb c <=? 90) then bz (zb c + 32) else c.
Definition go : jenv := {| short := true; fold := fun a b => bytes_eqb (map lower a) (map lower b) |}.

Ltac split_and := match goal with |- _ /\ _ => split end.

(** ** Strings *)
(** Every spelling that RFC 8259 allows is read, and a UTF-8 string is printed as one. *)
Theorem C71_strings : forall sh old raw s,
  (spells raw s -> Unmarshal (j_string sh) old (dq raw) = Ok s)
  /\ (utf8 s -> json_round (j_string sh) old s (string_json s)).
Proof.
  intros sh old raw s. split; [|intros U; apply full_text; [apply shallow_string; lia|now apply full_string]].
  intros Sp. destruct (spells_read _ _ Sp) as [G R]. unfold Unmarshal. change (dq raw) with (print (JStr raw)). rewrite parse_print by (now constructor || (cbn [nest]; lia)).
  cbn [j_string dec]. unfold unquote. now rewrite G.
Qed.
Print Assumptions C71_strings.
(** Backslash u escapes, one of them a pair, and a two-byte character spelt out. *)
Example C71_strings_used :
  let bs := [x5c] in
  let raw := str "a" ++ bs ++ str "u00e9" ++ bs ++ str "ud83d" ++ bs ++ str "ude00" ++ [xc3; xa9] ++ bs ++ str "n" in
  let s := str "a" ++ [xc3; xa9] ++ [xf0; x9f; x98; x80] ++ [xc3; xa9] ++ [x0a] in
  spells raw s /\ utf8 s.
Proof.
  cbv zeta. assert (E : utf8_char [xc3; xa9]) by (apply u_2; unfold bytes_in; cbn; lia).
  assert (F : utf8_char [xf0; x9f; x98; x80]) by (apply u_4; unfold bytes_in; cbn; lia).
  assert (A : utf8_char [x61]) by (apply u_1; unfold bytes_in; cbn; lia). assert (N : utf8_char [x0a]) by (apply u_1; unfold bytes_in; cbn; lia).
  split.
  - exists [[x61]; [x5c; x75; x30; x30; x65; x39]; [x5c; x75; x64; x38; x33; x64; x5c; x75; x64; x65; x30; x30]; [xc3; xa9]; [x5c; x6e]],
      [[x61]; [xc3; xa9]; [xf0; x9f; x98; x80]; [xc3; xa9]; [x0a]]. split; [|split; reflexivity].
    repeat apply Forall2_cons; [| | | | |constructor].
    + apply spelt_itself; [exact A|]. intros c [<-|[]]. cbn. repeat split; [lia|discriminate..].
    + apply spelt_hex; [exact E|]. exists 0, 0, 14, 9. repeat split; reflexivity.
    + eapply spelt_pair with (r := 55357) (r' := 56832); [exact F| | |lia|lia|reflexivity].
      * exists 13, 8, 3, 13. repeat split; reflexivity.
      * exists 13, 14, 0, 0. repeat split; reflexivity.
    + apply spelt_itself; [exact E|]. intros c [<-|[<-|[]]]; cbn; repeat split; try lia; discriminate.
    + apply spelt_short. cbn. auto 10.
  - exists [[x61]; [xc3; xa9]; [xf0; x9f; x98; x80]; [xc3; xa9]; [x0a]]. split; [|reflexivity]. repeat apply Forall_cons; try assumption. constructor.
Qed.
(** A string that is not UTF-8 does not survive: the byte comes back as U+FFFD. *)
Theorem C71_utf8_refuted : exists s text, Marshal (j_string (short go)) s text
  /\ Unmarshal (j_string (short go)) [] text = Ok [xef; xbf; xbd] /\ s = [xff].
Proof. exists [xff]. eexists. split; [eexists; split; reflexivity|]. split; vm_compute; reflexivity. Qed.
Print Assumptions C71_utf8_refuted.

(** ** Types that are text or numbers *)
Theorem C71_scalars : forall e,
  (forall old n, in_u 64 n -> json_round (j_Name e) old n (name_json n))
  /\ (forall old d, json_round (j_Bytes e) old d (hex_json d))
  /\ (forall old d n, In n [20; 32; 64]%nat -> length d = n -> json_round (j_Checksum e n) old d (hex_json d))
  /\ (forall old d, length d = 16%nat -> length old = 16%nat -> json_round (j_Float128 e) old d (hex_json d))
  /\ (forall old d, json_round (j_Blob e) old d (in_quotes (fun s => exists body p, s = body ++ pad p /\ base64_digits body d p)))
  /\ (forall old t, in_u 32 t -> json_round (j_TimePointSec e) old t (second_json t))
  /\ (forall old t, in_u 32 t -> json_round (j_BlockTimestamp e) old t (in_quotes (milli_text (946684800000 + t * 500))))
  /\ (forall old t, four_digit_years t -> t mod 1000 = 0 -> json_round (j_TimePoint e) old t (in_quotes (milli_text (t / 1000))))
  /\ (forall old v, in_u 64 v -> json_round j_Uint64 old v (uint64_json v))
  /\ (forall old v, in_u 32 v -> json_round j_BlockNum old v (numeral v))
  /\ (forall old u, u128_ok u -> json_round (j_Uint128 e) old u (in_quotes (int_numeral (u128_value u))))
  /\ (forall old u, u128_ok u -> i128_value u <> - 2 ^ 127 -> json_round (j_Int128 e) old u (in_quotes (int_numeral (i128_value u)))).
Proof.
  intros e. split; [|split; [|split; [|split; [|split; [|split; [|split; [|split; [|split; [|split; [|split]]]]]]]]]]; intros; apply full_text;
    try (apply shallow_text; lia); try apply shallow_raw.
  - now apply full_name.
  - now apply full_bytes.
  - now apply full_checksum.
  - now apply full_float128.
  - now apply full_blob.
  - now apply full_seconds.
  - now apply full_blocks.
  - now apply full_points.
  - now apply full_uint64.
  - now apply full_block_num.
  - now apply full_u128.
  - now apply full_i128.
Qed.
Print Assumptions C71_scalars.
Example C71_scalars_used :
  in_u 64 6138663577826885632 /\ Marshal (j_Name go) 6138663577826885632 (dq (str "eosio"))
  /\ Marshal j_Uint64 4294967296 (dq (str "4294967296")) /\ Marshal j_Uint64 4294967295 (str "4294967295")
  /\ Marshal (j_Bytes go) [x00; xff] (dq (str "00ff"))
  /\ Unmarshal (j_Name go) 7 (str " ""eosio"" ") = Ok 6138663577826885632.
Proof.
  split; [unfold in_u; lia|]. repeat split_and; [..|vm_compute; reflexivity].
  - exists (JStr (str "eosio")). split; [eexists; split; vm_compute; reflexivity|reflexivity].
  - exists (JStr (str "4294967296")). split; [vm_compute; reflexivity|reflexivity].
  - exists (JNum (str "4294967295")). split; [vm_compute; reflexivity|reflexivity].
  - exists (JStr (str "00ff")). split; [eexists; split; vm_compute; reflexivity|reflexivity].
Qed.
Theorem C71_symbols : forall e,
  (forall old value d name, - 2 ^ 63 < value < 2 ^ 63 -> 0 <= d <= 18 -> symbol_name name -> name <> [] ->
     json_round (j_Asset e) old {| Value := value; Sym := symbol_of d name |} (in_quotes (fun s => canonical_asset s value d name)))
  /\ (forall old d name, 0 <= d <= 18 -> symbol_name name ->
       json_round (j_Symbol e) old (symbol_of d name) (in_quotes (fun s => exists ds, numeral d ds /\ s = ds ++ str "," ++ name)))
  /\ (forall old name, symbol_name name -> json_round (j_SymbolCode e) old (name_code name) (in_quotes (eq name)))
  /\ (forall old x d name, - 2 ^ 63 < Value (Quantity x) < 2 ^ 63 -> 0 <= d <= 18 -> symbol_name name -> name <> [] ->
       Sym (Quantity x) = symbol_of d name -> in_u 64 (Contract x) -> json_round (j_ExtendedAsset e) old x (extended_asset_json x)).
Proof.
  intros e. split; [|split; [|split]]; intros; apply full_text; try (apply shallow_text; lia); try (apply shallow_asset; lia).
  - now apply full_asset.
  - now apply full_symbol.
  - now apply full_symbol_code.
  - now apply full_extended_asset with d name.
Qed.
Print Assumptions C71_symbols.
Example C71_symbols_used : symbol_name (str "EOS")
  /\ Marshal (j_ExtendedAsset go) {| Quantity := {| Value := -10500; Sym := symbol_of 4 (str "EOS") |}; Contract := 6138663577826885632 |}
       (str "{""quantity"":""-1.0500 EOS"",""contract"":""eosio""}").
Proof.
  split; [split; [cbn; lia|repeat constructor; unfold upper; cbn; lia]|].
  exists (JObj (members (ExtendedAsset_fields go) [Some (JStr (str "-1.0500 EOS")); Some (JStr (str "eosio"))])).
  split; [|reflexivity]. exists [Some (JStr (str "-1.0500 EOS")); Some (JStr (str "eosio"))].
  split; [|reflexivity]. repeat constructor; eexists; (split; [|reflexivity]); eexists; (split; [vm_compute; reflexivity|vm_compute; reflexivity]).
Qed.
(** Keys; a signature needs a pointer. *)
Theorem C71_keys : forall e sha old k, In (KType k) [0; 1; 2] ->
  json_round (j_PublicKey e sha) old k (in_quotes (fun s => key_text (str "PUB_") x5f s k))
  /\ json_round (j_SignaturePtr e) old k (in_quotes (fun s => key_text (str "SIG_") x5f s k)).
Proof. intros e sha old k H. split; apply full_text; [apply shallow_text; lia|now apply full_public_key|apply shallow_text; lia|now apply full_signature_ptr]. Qed.
Print Assumptions C71_keys.
Example C71_keys_used : exists text, Marshal (j_PublicKey go (fun d => d)) {| KType := 0; KData := repeat x02 33 |} text.
Proof.
  destruct (C71_keys go (fun d => d) {| KType := 0; KData := [] |} {| KType := 0; KData := repeat x02 33 |} (or_introl eq_refl)) as [[E _] _]. exact E.
Qed.
(** A signature given by value is printed as a struct, which is not read back. *)
Theorem C71_signature_refuted : forall e old k text, in_u 8 (KType k) -> Marshal (j_Signature e) k text ->
  exists err, Unmarshal (j_Signature e) old text = Err err.
Proof.
  intros e old k text T (j & (d & Hd & ->) & ->). exists ErrJSON. unfold Unmarshal. rewrite parse_print; [reflexivity| |].
  2:{ destruct Hd as [->|[_ ->]]; cbn; lia. }
  assert (G : good d).
  { destruct Hd as [->|[_ ->]]; [|constructor]. destruct (C26_text (KData k)) as (body & p & E & B). unfold Blob_MarshalText in E. rewrite E.
    apply base64_quiet in B. rewrite quiet_quote by exact B. constructor. now apply quiet_raw. }
  repeat constructor; cbn [fst snd]; try exact G; try (apply quiet_raw, str_quiet; reflexivity);
    apply digits_number with (KType k), FormatUint_numeral; unfold in_u in T; lia.
Qed.
Print Assumptions C71_signature_refuted.
Example C71_signature_used : Marshal (j_Signature go) {| KType := 1; KData := [x00; x01] |} (str "{""Type"":1,""Data"":""AAE=""}").
Proof.
  exists (JObj [(str "Type", JNum (str "1")); (str "Data", JStr (str "AAE="))]). split; [|reflexivity].
  exists (JStr (str "AAE=")). split; [left; vm_compute; reflexivity|vm_compute; reflexivity].
Qed.

(** ** Structs *)
Theorem C71_action : forall e old x, typed_action x -> json_round (j_Action e) old x (action_json x).
Proof. intros. apply full_text; [apply shallow_action; lia|now apply full_action]. Qed.
Print Assumptions C71_action.
Theorem C71_transaction : forall e old x, typed_transaction x -> json_round (j_Transaction e) old x (transaction_json x).
Proof. intros. apply full_text; [apply shallow_transaction; lia|now apply full_transaction]. Qed.
Print Assumptions C71_transaction.
(** Their parts. *)
Theorem C71_parts : forall e,
  (forall old x, wf_permission x -> json_round (j_PermissionLevel e) old x (permission_json x))
  /\ (forall old x, in_u 16 (EType x) -> json_round (j_TransactionExtension e) old x (extension_json x))
  /\ (forall old x, typed_header x -> json_round (j_TransactionHeader e) old x (header_json x)).
Proof.
  intros e. split; [|split]; intros old x H; apply full_text;
    [apply shallow_permission; lia|now apply full_permission|apply shallow_extension; lia|now apply full_extension|apply shallow_header; lia|now apply full_header].
Qed.
Print Assumptions C71_parts.
(** The last three lists of an ABI are left out when they are empty, so the variable has
    to hold none. *)
Theorem C71_abi : forall e old x, utf8_abi x -> ErrorMessages old = [] -> AbiExtensions old = [] -> Variants old = [] ->
  json_round (j_Abi e) old x (abi_json x).
Proof.
  intros e old x U A B C. apply full_text; [|now apply full_abi]. apply shallow_abi; [lia|]. destruct U as (_ & _ & _ & _ & _ & _ & F & _).
  eapply Forall_impl; [|exact F]. cbv beta. intros m [M _]. unfold in_u in M. lia.
Qed.
Print Assumptions C71_abi.
(** Otherwise what the variable held stays. *)
Theorem C71_stale_refuted : exists old x text, utf8_abi x /\ Marshal (j_Abi go) x text /\ Unmarshal (j_Abi go) old text = Ok old /\ Variants x = [] /\ Variants old <> [].
Proof.
  exists {| Version := []; Types := []; Structs := []; AbiActions := []; Tables := []; Clauses := []; ErrorMessages := []; AbiExtensions := [];
    Variants := [{| VName := str "v"; VTypes := [] |}] |}, zero_abi.
  exists (str "{""version"":"""",""types"":[],""structs"":[],""actions"":null,""tables"":[],""ricardian_clauses"":[]}").
  split; [unfold utf8_abi; cbn; repeat split; try constructor; exists []; now split|]. split; [|split; [vm_compute; reflexivity|split; [reflexivity|discriminate]]].
  exists (JObj (members (Abi_fields go) [Some (JStr []); Some (JArr []); Some (JArr []); Some JNull; Some (JArr []); Some (JArr []); None; None; None])).
  split; [|reflexivity]. eexists. split; [|reflexivity].
  unfold Abi_fields. repeat apply Forall2_cons; [..|apply Forall2_nil]; try reflexivity; eexists; (split; [|reflexivity]); first [reflexivity|right; now split|left; exists []; split; [constructor|reflexivity]].
Qed.
Print Assumptions C71_stale_refuted.
Definition transfer : Action := {| Account := 6138663577826885632; AName := 3617214756542218240;
  Authorization := [{| Actor := 6138663577826885632; Permission := 3617214756542218240 |}]; AData := [xca; xfe] |}.
Definition transfer_json : list byte :=
  str "{""account"":""eosio"",""name"":""active"",""authorization"":[{""actor"":""eosio"",""permission"":""active""}],""data"":""cafe""}".
Example C71_action_used : typed_action transfer /\ Marshal (j_Action go) transfer transfer_json.
Proof.
  split. { repeat split; unfold in_u; cbn; try lia. repeat constructor; unfold in_u; cbn; lia. }
  exists (JObj (members (Action_fields go) [Some (JStr (str "eosio")); Some (JStr (str "active"));
    Some (JArr [JObj [(str "actor", JStr (str "eosio")); (str "permission", JStr (str "active"))]]); Some (JStr (str "cafe"))])).
  split; [|reflexivity]. eexists. split; [|reflexivity].
  repeat apply Forall2_cons; [..|constructor]; eexists; (split; [|reflexivity]); try (eexists; split; vm_compute; reflexivity).
  left. exists [JObj [(str "actor", JStr (str "eosio")); (str "permission", JStr (str "active"))]]. split; [|reflexivity]. constructor; [|constructor].
  exists [Some (JStr (str "eosio")); Some (JStr (str "active"))]. split; [|reflexivity].
  repeat apply Forall2_cons; [..|constructor]; eexists; (split; [|reflexivity]); eexists; split; vm_compute; reflexivity.
Qed.
Definition send : Transaction := {| Header := {| Expiration := 1700000000; RefBlockNum := 65535; RefBlockPrefix := 4294967295; MaxNetUsageWords := 4294967296; MaxCpuUsageMs := 255; DelaySec := 0 |};
  ContextFreeActions := []; Actions := [transfer; transfer]; Extensions := [{| EType := 1; EData := [x00] |}] |}.
Example C71_transaction_used : typed_transaction send.
Proof.
  repeat split; unfold in_u; cbn; try lia; repeat constructor; unfold in_u; cbn; try lia; repeat constructor; unfold in_u; cbn; lia.
Qed.
Definition sample_abi : Abi := {| Version := str "eosio::abi/1.1"; Types := [{| NewTypeName := str "account"; AType := str "name" |}];
  Structs := [{| SName := str "s"; SBase := []; SFields := [{| FName := str "a"; FType := str "account" |}] |}];
  AbiActions := [{| ActName := 3617214756542218240; ActType := str "s"; RicardianContract := str "<h1>" |}]; Tables := []; Clauses := [];
  ErrorMessages := [{| ErrCode := 4294967296; ErrText := [xc3; xa9] |}]; AbiExtensions := [None; Some {| XType := 1; XData := [x00] |}]; Variants := [] |}.
Example C71_abi_used : utf8_abi sample_abi /\ ErrorMessages sample_abi <> [].
Proof.
  assert (A : forall s, forallb (fun c => zb c <? 128) s = true -> utf8 s).
  { intros s H. exists (map (fun c => [c]) s). split; [|induction s as [|c s IH]; [reflexivity|cbn [map concat app]; f_equal; apply IH; cbn [forallb] in H; now apply andb_prop in H]].
    rewrite forallb_forall in H. apply Forall_forall. intros cs I. apply in_map_iff in I as (c & <- & I). apply H in I. apply u_1. unfold bytes_in. pose proof (zb_range c). lia. }
  assert (E : utf8 [xc3; xa9]). { exists [[xc3; xa9]]. split; [|reflexivity]. constructor; [|constructor]. apply u_2; unfold bytes_in; cbn; lia. }
  split; [|discriminate]. unfold utf8_abi, sample_abi; cbn -[str utf8 in_u].
  repeat (first [split_and|apply Forall_nil|apply Forall_cons]; cbn -[str utf8 in_u]); try exact E; try (apply A; reflexivity); try (unfold in_u; lia); try discriminate.
  intros y [= <-]. unfold in_u. cbn. lia.
Qed.

(** ** Other texts *)
(** The keys of an object may come in any order, with further keys between them that are
    no field's name, not even up to case; white space is skipped. *)
Theorem C71_order : forall e,
  (forall old x text l text' l' extra, typed_action x -> Marshal (j_Action e) x text -> json_text text (JObj l) -> json_text text' (JObj l') ->
     Permutation (l ++ extra) l' -> Forall (foreign (fold e) ["account"; "name"; "authorization"; "data"]%string) extra ->
     Unmarshal (j_Action e) old text' = Ok x)
  /\ (forall old x text l text' l' extra, typed_transaction x -> Marshal (j_Transaction e) x text -> json_text text (JObj l) -> json_text text' (JObj l') ->
     Permutation (l ++ extra) l' ->
     Forall (foreign (fold e) ["expiration"; "ref_block_num"; "ref_block_prefix"; "max_net_usage_words"; "max_cpu_usage_ms"; "delay_sec";
                               "context_free_actions"; "actions"; "transaction_extensions"]%string) extra ->
     Unmarshal (j_Transaction e) old text' = Ok x)
  /\ (forall old x text l text' l' extra, utf8_abi x -> ErrorMessages old = [] -> AbiExtensions old = [] -> Variants old = [] ->
     Marshal (j_Abi e) x text -> json_text text (JObj l) -> json_text text' (JObj l') -> Permutation (l ++ extra) l' ->
     Forall (foreign (fold e) ["version"; "types"; "structs"; "actions"; "tables"; "ricardian_clauses"; "error_messages"; "abi_extensions"; "variants"]%string) extra ->
     Unmarshal (j_Abi e) old text' = Ok x).
Proof.
  intros e. split; [|split].
  - intros old x text l text' l' extra T M P P' Q F. apply parse_text in P, P'.
    eapply (full_order (fold e) (Action_fields e)); [| | | |exact M|exact P|exact P'|exact Q|exact F];
      [now apply named_b|apply independent_Action|reflexivity|now apply full_action].
  - intros old x text l text' l' extra T M P P' Q F. apply parse_text in P, P'.
    eapply (full_order (fold e) (Transaction_fields e)); [| | | |exact M|exact P|exact P'|exact Q|exact F];
      [now apply named_b|apply independent_Transaction|reflexivity|now apply full_transaction].
  - intros old x text l text' l' extra T O1 O2 O3 M P P' Q F. apply parse_text in P, P'.
    eapply (full_order (fold e) (Abi_fields e)); [| | | |exact M|exact P|exact P'|exact Q|exact F];
      [now apply named_b|apply independent_Abi|reflexivity|now apply full_abi].
Qed.
Print Assumptions C71_order.
(** And their parts, and extended assets. *)
Theorem C71_order_parts : forall e,
  (forall old x text l text' l' extra, wf_permission x -> Marshal (j_PermissionLevel e) x text -> json_text text (JObj l) -> json_text text' (JObj l') ->
     Permutation (l ++ extra) l' -> Forall (foreign (fold e) ["actor"; "permission"]%string) extra -> Unmarshal (j_PermissionLevel e) old text' = Ok x)
  /\ (forall old x text l text' l' extra, typed_header x -> Marshal (j_TransactionHeader e) x text -> json_text text (JObj l) -> json_text text' (JObj l') ->
     Permutation (l ++ extra) l' ->
     Forall (foreign (fold e) ["expiration"; "ref_block_num"; "ref_block_prefix"; "max_net_usage_words"; "max_cpu_usage_ms"; "delay_sec"]%string) extra ->
     Unmarshal (j_TransactionHeader e) old text' = Ok x)
  /\ (forall old x text l text' l' extra, in_u 16 (EType x) -> Marshal (j_TransactionExtension e) x text -> json_text text (JObj l) -> json_text text' (JObj l') ->
     Permutation (l ++ extra) l' -> Forall (foreign (fold e) ["type"; "data"]%string) extra -> Unmarshal (j_TransactionExtension e) old text' = Ok x)
  /\ (forall old x d name text l text' l' extra, - 2 ^ 63 < Value (Quantity x) < 2 ^ 63 -> 0 <= d <= 18 -> symbol_name name -> name <> [] ->
     Sym (Quantity x) = symbol_of d name -> in_u 64 (Contract x) -> Marshal (j_ExtendedAsset e) x text -> json_text text (JObj l) -> json_text text' (JObj l') ->
     Permutation (l ++ extra) l' -> Forall (foreign (fold e) ["quantity"; "contract"]%string) extra -> Unmarshal (j_ExtendedAsset e) old text' = Ok x).
Proof.
  intros e. split; [|split; [|split]].
  - intros old x text l text' l' extra T M P P' Q F. apply parse_text in P, P'.
    eapply (full_order (fold e) (PermissionLevel_fields e)); [| | | |exact M|exact P|exact P'|exact Q|exact F];
      [now apply named_b|apply independent_PermissionLevel|reflexivity|now apply full_permission].
  - intros old x text l text' l' extra T M P P' Q F. apply parse_text in P, P'.
    eapply (full_order (fold e) (TransactionHeader_fields e)); [| | | |exact M|exact P|exact P'|exact Q|exact F];
      [now apply named_b|apply independent_Header|reflexivity|now apply full_header].
  - intros old x text l text' l' extra T M P P' Q F. apply parse_text in P, P'.
    eapply (full_order (fold e) (TransactionExtension_fields e)); [| | | |exact M|exact P|exact P'|exact Q|exact F];
      [now apply named_b|apply independent_Extension|reflexivity|now apply full_extension].
  - intros old x d name text l text' l' extra V D N NE S C M P P' Q F. apply parse_text in P, P'.
    eapply (full_order (fold e) (ExtendedAsset_fields e)); [| | | |exact M|exact P|exact P'|exact Q|exact F];
      [now apply named_b|apply independent_ExtendedAsset|reflexivity|now apply full_extended_asset with d name].
Qed.
Print Assumptions C71_order_parts.
Example C71_order_used : exists l l' extra, json_text transfer_json (JObj l)
  /\ json_text (str " { ""data"" : ""cafe"", ""name"" : ""active"", ""hex_data"":[1,{}] , ""account"":""eosio"",""authorization"":[ {""actor"":""eosio"",""permission"":""active""} ] } ") (JObj l')
  /\ Permutation (l ++ extra) l' /\ extra <> [] /\ Forall (foreign (fold go) ["account"; "name"; "authorization"; "data"]%string) extra.
Proof.
  do 2 eexists. exists [(str "hex_data", JArr [JNum (str "1"); JObj []])]. split; [apply parse_text; vm_compute; reflexivity|]. split; [apply parse_text; vm_compute; reflexivity|]. split; [|split; [discriminate|]].
  - set (a := (str "account", JStr (str "eosio"))). set (b := (str "name", JStr (str "active"))).
    set (c := (str "authorization", JArr [JObj [(str "actor", JStr (str "eosio")); (str "permission", JStr (str "active"))]])).
    set (d := (str "data", JStr (str "cafe"))). set (x := (str "hex_data", JArr [JNum (str "1"); JObj []])).
    change (Permutation ([a; b; c; d] ++ [x]) [d; b; x; a; c]). cbn [app].
    apply (Permutation_cons_app [d; b; x] [c] a). apply (Permutation_cons_app [d] [x; c] b). apply (Permutation_cons_app [d; x] [] c). apply Permutation_refl.
  - constructor; [|constructor]. exists (str "hex_data"). assert (Q : Forall quiet (str "hex_data")) by (apply str_quiet; reflexivity).
    split; [cbn [fst]; rewrite <- (quiet_text true (str "hex_data") Q) at 1; apply put_spells; now apply quiet_ascii|].
    repeat constructor; try discriminate; vm_compute; discriminate.
Qed.
(** What is not a JSON text is refused, a text means one thing, and only that counts:
    white space makes no difference. *)
Theorem C71_grammar : forall T (c : codec T) old text,
  ((forall j, ~ json_text text j) -> exists err, Unmarshal c old text = Err err)
  /\ (forall j j', json_text text j -> json_text text j' -> j = j')
  /\ (forall j text', json_text text j -> json_text text' j -> Unmarshal c old text' = Unmarshal c old text).
Proof.
  intros T c old text. split; [|split].
  - intros N. unfold Unmarshal. destruct (parse text) as [j|] eqn:P; [apply parse_text in P; now elim (N j)|]. eexists. reflexivity.
  - intros j j' H H'. apply parse_text in H, H'. congruence.
  - intros j text' H H'. apply parse_text in H, H'. unfold Unmarshal. now rewrite H, H'.
Qed.
Print Assumptions C71_grammar.
(** A text that follows the grammar is refused if more than 10000 arrays and objects are
    open at once, whatever it is read into. *)
Theorem C71_nesting : forall {T} (c : codec T) old text j, grammatical text j ->
  (~ nested 10000 j -> exists err, Unmarshal c old text = Err err)
  /\ (nested 10000 j -> Unmarshal c old text = dec c old j).
Proof.
  intros T c old text j G. split; intros N.
  - unfold Unmarshal. destruct (parse text) as [k|] eqn:P; [|eexists; reflexivity]. apply parse_text in P as [G' N'].
    elim N. now rewrite (one_reading _ _ _ G G').
  - unfold Unmarshal. assert (P : parse text = Some j) by (apply parse_text; now split). now rewrite P.
Qed.
Print Assumptions C71_nesting.
(** Brackets inside each other: ten thousand are read, one more is not. *)
Definition brackets (n : N) : list byte * json := N.iter n (fun '(s, j) => (str "[" ++ s ++ str "]", JArr [j])) (str "[]", JArr []).
Example C71_nesting_used :
  (forall n, grammatical (fst (brackets n)) (snd (brackets n)) /\ (nested 10000 (snd (brackets n)) <-> (n <= 9999)%N))
  /\ grammatical (str "{""a"":[{}]}") (JObj [(str "a", JArr [JObj []])]) /\ ~ nested 2 (JObj [(str "a", JArr [JObj []])]) /\ nested 3 (JObj [(str "a", JArr [JObj []])]).
Proof.
  split; [|split; [|split]].
  - intros n. enough (H : denotes (fst (brackets n)) (snd (brackets n)) /\ nest (snd (brackets n)) = Z.of_N n + 1).
    { destruct H as [D L]. split; [exists [], (fst (brackets n)), []; rewrite app_nil_r; repeat split; try constructor; exact D|]. rewrite nested_nest, L. lia. }
    unfold brackets. induction n as [|n [D L]] using N.peano_ind; [split; [apply (d_no_elements []); constructor|reflexivity]|].
    rewrite N.iter_succ. destruct (N.iter n _ _) as [s j]. cbn [fst snd] in *. split; [|cbn [nest fold_right]; pose proof (nest_least j); lia].
    apply d_elements. rewrite <- (app_nil_r s). apply (e_last [] s []); [constructor|exact D|constructor].
  - assert (J : json_text (str "{""a"":[{}]}") (JObj [(str "a", JArr [JObj []])])) by (apply parse_text; vm_compute; reflexivity). exact (proj1 J).
  - rewrite nested_nest. vm_compute. intros H. now apply H.
  - rewrite nested_nest. vm_compute. discriminate.
Qed.
Example C71_grammar_used : json_text (str " [ 1 , -0.5e+10 ] ") (JArr [JNum (str "1"); JNum (str "-0.5e+10")])
  /\ json_text (str "[1,-0.5e+10]") (JArr [JNum (str "1"); JNum (str "-0.5e+10")])
  /\ (forall j, ~ json_text (str "[1,]") j) /\ (forall j, ~ json_text (str "01") j) /\ (forall j, ~ json_text (str "{}}") j).
Proof.
  split; [apply parse_text; vm_compute; reflexivity|]. split; [apply parse_text; vm_compute; reflexivity|].
  repeat split_and; intros j H; apply parse_text in H; vm_compute in H; discriminate H.
Qed.
(** Numbers for the fields of Go's unsigned types: in range or refused; so are fractions,
    exponents and signs. *)
Theorem C71_numbers : forall bits old text lit, 0 <= bits <= 64 -> json_text text (JNum lit) ->
  (forall v, numeral v lit -> v < 2 ^ bits -> Unmarshal (j_uint bits) old text = Ok v)
  /\ ((forall v, numeral v lit -> 2 ^ bits <= v) -> exists err, Unmarshal (j_uint bits) old text = Err err).
Proof.
  intros bits old text lit B H. assert (N : json_number lit).
  { destruct H as [(w & s & w' & _ & _ & D & _) _]. now inversion D. }
  apply parse_text in H. unfold Unmarshal. rewrite H. cbn [j_uint dec].
  assert (P : 2 ^ bits <= 2 ^ 64) by (apply Z.pow_le_mono_r; lia). split.
  - intros v V L. rewrite (ParseUint_numeral v lit V) by lia. now replace (v <? 2 ^ bits) with true by lia.
  - intros F. destruct (ParseUint lit 64) as [v [err|]] eqn:E; [eexists; reflexivity|]. apply ParseUint_ok in E as (NE & D & V & L); [|lia].
    assert (numeral v lit). { split; [exact NE|]. split; [exact D|]. split; [now symmetry|]. now apply number_leading. }
    specialize (F v H0). replace (v <? 2 ^ bits) with false by lia. eexists. reflexivity.
Qed.
Print Assumptions C71_numbers.
Example C71_numbers_used : json_text (str " 65535") (JNum (str "65535")) /\ json_text (str "65536") (JNum (str "65536"))
  /\ Unmarshal (j_uint 16) 7 (str " 65535") = Ok 65535 /\ (exists err, Unmarshal (j_uint 16) 7 (str "65536") = Err err)
  /\ (exists err, Unmarshal (j_uint 16) 7 (str "1.0") = Err err) /\ (exists err, Unmarshal (j_uint 16) 7 (str "-1") = Err err).
Proof.
  split; [apply parse_text; vm_compute; reflexivity|]. split; [apply parse_text; vm_compute; reflexivity|]. split; [vm_compute; reflexivity|].
  repeat split_and; eexists; vm_compute; reflexivity.
Qed.
(** The kind of a JSON value has to fit: strings for the text types, numbers for the
    numeric fields, arrays for slices, objects for structs; null apart. *)
Theorem C71_kinds : forall e text j, json_text text j -> j <> JNull ->
  ((forall raw, j <> JStr raw) ->
     (forall old, exists err, Unmarshal (j_Name e) old text = Err err)
     /\ (forall old, exists err, Unmarshal (j_Bytes e) old text = Err err)
     /\ (forall n old, exists err, Unmarshal (j_Checksum e n) old text = Err err)
     /\ (forall old, exists err, Unmarshal (j_TimePointSec e) old text = Err err)
     /\ (forall old, exists err, Unmarshal (j_Asset e) old text = Err err)
     /\ (forall sha old, exists err, Unmarshal (j_PublicKey e sha) old text = Err err)
     /\ (forall old, exists err, Unmarshal (j_string (short e)) old text = Err err))
  /\ ((forall lit, j <> JNum lit) -> forall bits old, exists err, Unmarshal (j_uint bits) old text = Err err)
  /\ ((forall l, j <> JArr l) -> forall T (zero : T) c old, exists err, Unmarshal (j_slice zero c) old text = Err err)
  /\ ((forall l, j <> JObj l) ->
       (forall old, exists err, Unmarshal (j_Action e) old text = Err err)
       /\ (forall old, exists err, Unmarshal (j_Transaction e) old text = Err err)
       /\ (forall old, exists err, Unmarshal (j_Abi e) old text = Err err)).
Proof.
  intros e text j H N. apply parse_text in H. unfold Unmarshal. rewrite H. split; [|split; [|split]].
  - intros F. repeat split_and; intros; exists ErrJSON; destruct j; try reflexivity; congruence.
  - intros F bits old. exists ErrJSON. destruct j; try reflexivity; try congruence.
  - intros F T zero c old. exists ErrJSON. destruct j; try reflexivity; try congruence.
  - intros F. repeat split_and; intros; exists ErrJSON; destruct j; try reflexivity; try congruence.
Qed.
Print Assumptions C71_kinds.
Example C71_kinds_used : json_text (str "[]") (JArr []) /\ JArr [] <> JNull.
Proof. split; [apply parse_text; vm_compute; reflexivity|discriminate]. Qed.
(** null: a nil slice, and otherwise the variable stays as it was, except that Uint64 and
    BlockNum refuse it. *)
Theorem C71_null : forall e,
  (forall old, Unmarshal (j_Name e) old (str "null") = Ok old)
  /\ (forall old, Unmarshal (j_TimePointSec e) old (str "null") = Ok old)
  /\ (forall old, Unmarshal (j_Asset e) old (str "null") = Ok old)
  /\ (forall n old, Unmarshal (j_Checksum e n) old (str "null") = Ok old)
  /\ (forall sha old, Unmarshal (j_PublicKey e sha) old (str "null") = Ok old)
  /\ (forall old, Unmarshal (j_Bytes e) old (str "null") = Ok [])
  /\ (forall old, Unmarshal (j_Blob e) old (str "null") = Ok [])
  /\ (forall old, Unmarshal (j_Action e) old (str "null") = Ok old)
  /\ (forall old, Unmarshal (j_Transaction e) old (str "null") = Ok old)
  /\ (forall old, Unmarshal (j_Abi e) old (str "null") = Ok old)
  /\ (forall old, Unmarshal (j_string (short e)) old (str "null") = Ok old)
  /\ (forall bits old, Unmarshal (j_uint bits) old (str "null") = Ok old)
  /\ (forall old, Unmarshal (j_Symbol e) old (str "null") = Ok old)
  /\ (forall old, Unmarshal (j_SymbolCode e) old (str "null") = Ok old)
  /\ (forall old, Unmarshal (j_TimePoint e) old (str "null") = Ok old)
  /\ (forall old, Unmarshal (j_BlockTimestamp e) old (str "null") = Ok old)
  /\ (forall old, Unmarshal (j_Uint128 e) old (str "null") = Ok old)
  /\ (forall old, Unmarshal (j_Int128 e) old (str "null") = Ok old)
  /\ (forall old, Unmarshal (j_Float128 e) old (str "null") = Ok old)
  /\ (forall old, Unmarshal (j_Signature e) old (str "null") = Ok old)
  /\ (forall old, exists err, Unmarshal j_Uint64 old (str "null") = Err err)
  /\ (forall old, exists err, Unmarshal j_BlockNum old (str "null") = Err err).
Proof. intros e. repeat split_and; intros; try reflexivity; eexists; vm_compute; reflexivity. Qed.
Print Assumptions C71_null.
Lemma foreign_members {T} fold (fs : list (jfield T)) names l : map f_name fs = map str names -> Forall (foreign fold names) l ->
  forall v, dec_members fold fs v l = Ok v.
Proof.
  intros E F v. assert (R : Forall readable l) by (eapply Forall_impl; [|exact F]; intros kj H; now apply (foreign_target fold fs names kj E) in H).
  rewrite dec_members_list by exact R. replace (flat_map (target fold fs) l) with (@nil (jfield T * json)); [reflexivity|].
  symmetry. clear R. induction F as [|kj l H _ IH]; [reflexivity|]. cbn [flat_map]. rewrite IH.
  now rewrite (proj1 (foreign_target fold fs names kj E H)).
Qed.
Lemma dec_members_app {T} fold (fs : list (jfield T)) l l' : forall v,
  dec_members fold fs v (l ++ l') = rbind (dec_members fold fs v l) (fun v => dec_members fold fs v l').
Proof.
  induction l as [|[k j] l IH]; intros v; [reflexivity|]. cbn [app dec_members]. destruct (unquote k) as [s| |]; cbn [rbind]; [|reflexivity..].
  destruct (find_field fold fs s) as [f|]; [|apply IH]. destruct (f_dec f v j); cbn [rbind]; [apply IH|reflexivity..].
Qed.
(** A key that is missing leaves its part of the variable alone, whatever other keys there are. *)
Theorem C71_missing : forall e text l, json_text text (JObj l) ->
  (Forall (foreign (fold e) ["account"; "name"; "authorization"; "data"]%string) l -> forall old, Unmarshal (j_Action e) old text = Ok old)
  /\ (Forall (foreign (fold e) ["expiration"; "ref_block_num"; "ref_block_prefix"; "max_net_usage_words"; "max_cpu_usage_ms"; "delay_sec";
                                "context_free_actions"; "actions"; "transaction_extensions"]%string) l ->
     forall old, Unmarshal (j_Transaction e) old text = Ok old)
  /\ (Forall (foreign (fold e) ["version"; "types"; "structs"; "actions"; "tables"; "ricardian_clauses"; "error_messages"; "abi_extensions"; "variants"]%string) l ->
     forall old, Unmarshal (j_Abi e) old text = Ok old).
Proof.
  intros e text l H. apply parse_text in H. unfold Unmarshal. rewrite H.
  split; [|split]; intros F old; cbn [j_Action j_Transaction j_Abi j_struct dec]; (eapply foreign_members; [|exact F]); reflexivity.
Qed.
Print Assumptions C71_missing.
(** An element of a list that is new starts with nothing in it. *)
Theorem C71_new_elements : forall e text old,
  json_text text (JObj [(str "types", JArr [JObj []]); (str "structs", JArr [JObj []; JObj [(str "fields", JArr [JObj []])]]);
    (str "actions", JArr [JObj []]); (str "tables", JArr [JObj []]); (str "ricardian_clauses", JArr [JObj []]);
    (str "error_messages", JArr [JObj []]); (str "abi_extensions", JArr [JNull; JObj []]); (str "variants", JArr [JObj []])]) ->
  Unmarshal (j_Abi e) {| Version := old; Types := []; Structs := []; AbiActions := []; Tables := []; Clauses := []; ErrorMessages := []; AbiExtensions := []; Variants := [] |} text
  = Ok {| Version := old; Types := [{| NewTypeName := []; AType := [] |}];
          Structs := [{| SName := []; SBase := []; SFields := [] |}; {| SName := []; SBase := []; SFields := [{| FName := []; FType := [] |}] |}];
          AbiActions := [{| ActName := 0; ActType := []; RicardianContract := [] |}];
          Tables := [{| TName := 0; IndexType := []; KeyNames := []; KeyTypes := []; TType := [] |}];
          Clauses := [{| ClId := []; ClBody := [] |}]; ErrorMessages := [{| ErrCode := 0; ErrText := [] |}];
          AbiExtensions := [None; Some {| XType := 0; XData := [] |}]; Variants := [{| VName := []; VTypes := [] |}] |}.
Proof. intros e text old H. apply parse_text in H. unfold Unmarshal. rewrite H. reflexivity. Qed.
Print Assumptions C71_new_elements.
Theorem C71_new_actions : forall e text hd,
  json_text text (JObj [(str "context_free_actions", JArr [JObj []]); (str "actions", JArr [JObj [(str "authorization", JArr [JObj []; JObj []])]]);
    (str "transaction_extensions", JArr [JObj []])]) ->
  Unmarshal (j_Transaction e) {| Header := hd; ContextFreeActions := []; Actions := []; Extensions := [] |} text
  = Ok {| Header := hd; ContextFreeActions := [{| Account := 0; AName := 0; Authorization := []; AData := [] |}];
          Actions := [{| Account := 0; AName := 0; Authorization := [{| Actor := 0; Permission := 0 |}; {| Actor := 0; Permission := 0 |}]; AData := [] |}];
          Extensions := [{| EType := 0; EData := [] |}] |}.
Proof. intros e text hd H. apply parse_text in H. unfold Unmarshal. rewrite H. reflexivity. Qed.
Print Assumptions C71_new_actions.
(** Of two members with the same key the last one counts, for fields that are not lists. *)
Theorem C71_last : forall e old x text text' l k raw s, json_text text (JObj l) -> json_text text' (JObj (l ++ [(k, JStr raw)])) ->
  spells k (str "account") -> spells raw s -> Unmarshal (j_Action e) old text = Ok x ->
  Unmarshal (j_Action e) old text' = Ok {| Account := NewName s; AName := AName x; Authorization := Authorization x; AData := AData x |}.
Proof.
  intros e old x text text' l k raw s H H' Sk Sr U. apply parse_text in H, H'. unfold Unmarshal in *. rewrite H in U. rewrite H'.
  cbn [j_Action j_struct dec] in *. rewrite dec_members_app, U. cbn [rbind dec_members]. destruct (spells_read _ _ Sk) as [Gk _].
  destruct (spells_read _ _ Sr) as [Gr _]. unfold unquote at 1. rewrite Gk. cbn [rbind].
  change (find_field (fold e) (Action_fields e) (str "account")) with (Some (hd (fld "account" (j_Name e) Account (fun v _ => v)) (Action_fields e))).
  cbn [hd Action_fields fld f_dec j_Name j_text dec dec_text]. unfold unquote. rewrite Gr. reflexivity.
Qed.
Print Assumptions C71_last.
Example C71_last_used : json_text (str "{}") (JObj []) /\ json_text (str "{""account"":""b""}") (JObj ([] ++ [(str "account", JStr (str "b"))]))
  /\ spells (str "account") (str "account") /\ Unmarshal (j_Action go) zero_action (str "{}") = Ok zero_action.
Proof.
  split; [apply parse_text; vm_compute; reflexivity|]. split; [apply parse_text; vm_compute; reflexivity|]. split; [|vm_compute; reflexivity].
  assert (Q : Forall quiet (str "account")) by (apply str_quiet; reflexivity).
  rewrite <- (quiet_text true (str "account") Q) at 1. apply put_spells. now apply quiet_ascii.
Qed.

(** Text that is not hex is ignored without an error. *)
Theorem C71_bad_hex : forall e old raw s, spells raw s -> ~ (exists d, hex_text s d) -> Unmarshal (j_Bytes e) old (dq raw) = Ok old.
Proof.
  intros e old raw s Sp N. destruct (spells_read _ _ Sp) as [G R]. unfold Unmarshal. change (dq raw) with (print (JStr raw)). rewrite parse_print by (now constructor || (cbn [nest]; lia)).
  unfold j_Bytes, j_text. cbn [dec dec_text]. unfold unquote. rewrite G. cbn [rbind]. unfold total. cbn [rbind].
  destruct (C25_outcome old s) as [_ B]. now rewrite B.
Qed.
Print Assumptions C71_bad_hex.
Example C71_bad_hex_used : Unmarshal (j_Action go) transfer (str "{""data"":""0xcafe""}") = Ok transfer /\ ~ exists d, hex_text (str "0xcafe") d.
Proof.
  split; [vm_compute; reflexivity|]. intros [d H]. destruct (C25_outcome [x01] (str "0xcafe")) as [A _]. destruct (C25_outcome [x02] (str "0xcafe")) as [B _].
  specialize (A d H). specialize (B d H). vm_compute in A, B. congruence.
Qed.
