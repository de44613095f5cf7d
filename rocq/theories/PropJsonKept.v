(** C83: what json.Unmarshal stores is marshalled again and read back. *)
From Verif Require Import Base GoStd BaseProofs GoStdProofs SpecText SpecName SpecHex SpecTime SpecSymbol SpecKeys SpecNumbers Chain AbiDyn SpecChain SpecJson.
From Verif Require Import Name Symbol Hex Numbers Time Keys Json JsonKept HexProofs SymbolProofs TimeProofs.
From Verif Require Import PropName PropHex PropTime PropNumbers PropSymbol PropKeys PropJson.

(** Whatever text is read into a variable that holds a [P], the variable holds a [P] after
    it; and that value is printed, laid out as [layout] says, and what is printed is read
    back as the same value by every variable that holds a [P]. *)
Definition json_settled {T} (P : T -> Prop) (c : codec T) (layout : T -> list byte -> Prop) : Prop :=
  forall old text v, P old -> Unmarshal c old text = Ok v -> P v /\ forall old', P old' -> json_round c old' v (layout v).

Lemma settle {T} (P : T -> Prop) c layout : keeps P c -> (forall old v, P old -> P v -> json_round c old v (layout v)) -> json_settled P c layout.
Proof.
  intros K R old text v O H. unfold Unmarshal in H. destruct (parse text) as [j|]; [|discriminate].
  assert (P v) by (eapply K; eauto). auto.
Qed.

(** Any text in UTF-8 or not: the string that is read is in UTF-8. *)
Theorem C83_strings : forall sh, json_settled utf8 (j_string sh) string_json.
Proof. intros sh. apply settle; [apply keeps_string|]. intros old v _ V. exact (proj2 (C71_strings sh old [] v) V). Qed.
Print Assumptions C83_strings.

Theorem C83_transactions : forall e,
  json_settled typed_transaction (j_Transaction e) transaction_json
  /\ json_settled typed_header (j_TransactionHeader e) header_json
  /\ json_settled typed_action (j_Action e) action_json
  /\ json_settled wf_permission (j_PermissionLevel e) permission_json
  /\ json_settled (fun x => in_u 16 (EType x)) (j_TransactionExtension e) extension_json.
Proof.
  intros e. destruct (C71_parts e) as (A & B & C). split; [|split; [|split; [|split]]]; (apply settle; [|intros old v _ V]).
  - apply keeps_transaction.
  - now apply C71_transaction.
  - apply keeps_header.
  - now apply C.
  - apply keeps_action.
  - now apply C71_action.
  - apply keeps_permission.
  - now apply A.
  - apply keeps_extension.
  - now apply B.
Qed.
Print Assumptions C83_transactions.

(** An ABI that is read into a variable of the right ranges has them again; it is read back
    by every variable whose last three lists are empty. *)
Theorem C83_abi : forall e old text v, utf8_abi old -> Unmarshal (j_Abi e) old text = Ok v ->
  utf8_abi v /\ forall old', ErrorMessages old' = [] -> AbiExtensions old' = [] -> Variants old' = [] -> json_round (j_Abi e) old' v (abi_json v).
Proof.
  intros e old text v O H. unfold Unmarshal in H. destruct (parse text) as [j|]; [|discriminate].
  assert (utf8_abi v) by (eapply keeps_abi; eauto). split; [assumption|]. intros. now apply C71_abi.
Qed.
Print Assumptions C83_abi.

Theorem C83_numbers : forall e,
  json_settled (in_u 64) (j_Name e) name_json
  /\ json_settled (in_u 64) j_Uint64 uint64_json
  /\ json_settled (in_u 32) j_BlockNum numeral
  /\ json_settled u128_ok (j_Uint128 e) (fun u => in_quotes (int_numeral (u128_value u))).
Proof.
  intros e. destruct (C71_scalars e) as (N & _ & _ & _ & _ & _ & _ & _ & U & B & V & _).
  split; [|split; [|split]]; (apply settle; [|intros old v _ W; auto]).
  - apply keeps_name.
  - apply keeps_uint64.
  - intros old j v O H. cbn [j_BlockNum j_raw dec] in H. destruct (BlockNum_UnmarshalJSON old (literal j)) as [w [x|]] eqn:Q; [discriminate|].
    assert (E : v = w) by congruence. rewrite E. apply C20_accepts in Q as (ds & _ & _ & D & -> & L). pose proof (dec_val_bound ds D). unfold in_u. lia.
  - apply keeps_text; [|auto]. intros old s v _ H. unfold Uint128_UnmarshalText in H. destruct (NewUint128FromString s) as [w|x|m] eqn:Q; try discriminate.
    assert (E : v = w) by (cbn in H; congruence). rewrite E. apply C17_accepts in Q as (i & _ & _ & K & _). exact K.
Qed.
Print Assumptions C83_numbers.

Theorem C83_times : forall e,
  json_settled (in_u 32) (j_TimePointSec e) second_json
  /\ json_settled (in_u 32) (j_BlockTimestamp e) (fun t => in_quotes (milli_text (946684800000 + t * 500)))
  /\ json_settled (fun t => four_digit_years t /\ t mod 1000 = 0) (j_TimePoint e) (fun t => in_quotes (milli_text (t / 1000))).
Proof.
  intros e. destruct (C71_scalars e) as (_ & _ & _ & _ & _ & S & B & P & _).
  split; [|split]; (apply settle; [|intros old v _ W]).
  - apply keeps_second.
  - exact (S old v W).
  - apply keeps_text; [|auto]. intros old s v _ H. pose proof (C22_unmarshal old s) as U.
    destruct (NewBlockTimestampFromString s) as [w|er|m] eqn:Q; try contradiction; [|congruence]. assert (E : v = w) by congruence. rewrite E.
    apply C22_accepts in Q as (body & tail & t & ms & _ & _ & _ & ->). unfold in_u. lia.
  - exact (B old v W).
  - apply keeps_text; [|auto]. intros old s v _ H. pose proof (C23_unmarshal old s) as U.
    destruct (NewTimePointFromString s) as [w|er|m] eqn:Q; try contradiction; [|congruence]. assert (E : v = w) by congruence. rewrite E.
    apply C23_accepts in Q as (body & tail & t & ms & _ & B' & M & ->). pose proof (read_seconds_range _ _ B') as R. pose proof (millis_range _ _ M).
    unfold four_digit_years, year_zero, year_10000 in *. lia.
  - exact (P old v (proj1 W) (proj2 W)).
Qed.
Print Assumptions C83_times.

(** Bytes and fixed-size values in hexadecimal; the text may be of another length. *)
Theorem C83_binary : forall e,
  json_settled (fun _ => True) (j_Bytes e) hex_json
  /\ (forall n, In n [20; 32; 64]%nat -> json_settled (fun d => length d = n) (j_Checksum e n) hex_json)
  /\ json_settled (fun d => length d = 16%nat) (j_Float128 e) hex_json.
Proof.
  intros e. destruct (C71_scalars e) as (_ & B & C & F & _).
  split; [|split]; [|intros n I|]; (apply settle; [|intros old v O W; first [exact (B old v)|exact (C old v n I W)|exact (F old v W O)]]); try apply keeps_any; apply keeps_text; auto.
  - intros old s v _ H. destruct (hex_Decode_dec s) as [[b K]|K].
    + destruct (proj1 (C24_checksum_outcome n old s) b K) as [X Y]. destruct (Nat.lt_ge_cases (length b) n) as [Q|Q].
      * destruct (X Q) as [m Z]. congruence.
      * rewrite (Y Q) in H. assert (V : v = firstn n b) by congruence. rewrite V, firstn_length. lia.
    + destruct (proj2 (C24_checksum_outcome n old s)) as [x X]; [tauto|]. congruence.
  - intros old s v O H. unfold total in H. destruct (hex_Decode_dec s) as [[b K]|K].
    + destruct (proj1 (C24_float128_outcome old s O) b K) as [X Y]. destruct (Nat.le_gt_cases 16 (length b)) as [Q|Q].
      * rewrite (X Q) in H. assert (V : v = firstn 16 b) by congruence. rewrite V, firstn_length. lia.
      * rewrite (Y ltac:(lia)) in H. assert (V : v = b ++ skipn (length b) old) by congruence. rewrite V, app_length, skipn_length. lia.
    + destruct (proj2 (C24_float128_outcome old s O)) as [x X]; [tauto|]. congruence.
Qed.
Print Assumptions C83_binary.

(** Keys; the check sum of the legacy form has 32 bytes. *)
Theorem C83_keys : forall e sha, (forall x, length (sha x) = 32%nat) ->
  json_settled (fun k => In (KType k) [0; 1; 2]) (j_PublicKey e sha) (fun k => in_quotes (fun s => key_text (str "PUB_") x5f s k))
  /\ json_settled (fun k => In (KType k) [0; 1; 2]) (j_SignaturePtr e) (fun k => in_quotes (fun s => key_text (str "SIG_") x5f s k)).
Proof.
  intros e sha L.
  assert (I : forall head sep s k, key_text head sep s k -> In (KType k) [0; 1; 2]).
  { intros head sep s k (g & u & I & _). clear -I. cbn in I |- *. intuition congruence. }
  split; (apply settle; [|intros old v _ W; destruct (C71_keys e sha old v W); assumption]); (apply keeps_text; [|auto]); intros old s v _ H.
  - unfold PublicKey_UnmarshalText in H. destruct (NewPublicKeyFromString sha s) as [w|x|m] eqn:Q; try discriminate.
    assert (E : v = w) by (cbn in H; congruence). rewrite E. clear H E. destruct (list_eq_dec Byte.byte_eq_dec (firstn 4 s) (str "PUB_")) as [E|E].
    + apply (C31_pub_parse sha s w E) in Q as (sep & H). eauto.
    + destruct (C32_parse sha s E) as (A & B & C). destruct (Nat.lt_ge_cases (length s) 7) as [X|X].
      { destruct (A X) as [x Y]. congruence. }
      destruct (Nat.lt_ge_cases (length s) 50) as [X'|X'].
      { destruct (B (conj X X')) as [x Y]. congruence. }
      apply (C (firstn (length s - 50) s) (skipn (length s - 50) s)) in Q as [-> _].
      * now left.
      * exact L.
      * now rewrite firstn_skipn.
      * rewrite skipn_length. lia.
  - unfold Signature_UnmarshalText in H. destruct (NewSignatureString s) as [w|x|m] eqn:Q; try discriminate.
    assert (E : v = w) by (cbn in H; congruence). rewrite E. apply C31_sig_parse in Q as (sep & H'). eauto.
Qed.
Print Assumptions C83_keys.

Theorem C83_symbols : forall e,
  json_settled (fun v => exists d name, 0 <= d <= 18 /\ symbol_name name /\ v = symbol_of d name) (j_Symbol e)
    (fun v => in_quotes (fun s => exists d name ds, v = symbol_of d name /\ numeral d ds /\ s = ds ++ str "," ++ name))
  /\ json_settled (fun v => exists name, symbol_name name /\ v = name_code name) (j_SymbolCode e) (fun v => in_quotes (fun s => v = name_code s)).
Proof.
  intros e. destruct (C71_symbols e) as (_ & S & C & _). split; (apply settle; [apply keeps_text; [|auto]|]).
  - intros old s v _ H. unfold Symbol_UnmarshalText in H. destruct (NewSymbolFromString s) as [w|x|m] eqn:Q; try discriminate.
    assert (E : v = w) by (cbn in H; congruence). rewrite E. apply C12_from_string in Q as (pt & name & p & _ & _ & L & N & ->). exists p, name. split; [lia|]. auto.
  - intros old v _ (d & name & D & N & ->). destruct (S old d name D N) as [A B]. split; [exact A|]. intros text T. destruct (B text T) as [Y Z].
    split; [|exact Z]. unfold in_quotes in *. destruct Y as (s & (ds & ? & ?) & ?). exists s. split; [|assumption]. exists d, name, ds. auto.
  - intros old s v _ H. assert (N : symbol_name s).
    { unfold SymbolCode_UnmarshalText in H. destruct (NewSymbolFromString (str "0," ++ s)) as [w|x|m] eqn:Q; try discriminate H. now apply symbolcode_ok in Q. }
    rewrite (proj1 (C13_parse old s) N) in H. assert (E : v = name_code s) by congruence. rewrite E. eauto.
  - intros old v _ (name & N & ->). destruct (C old name N) as [A B]. split; [exact A|]. intros text T. destruct (B text T) as [Y Z].
    split; [|exact Z]. unfold in_quotes in *. destruct Y as (s & <- & ?). exists name. auto.
Qed.
Print Assumptions C83_symbols.

(** An asset, unless the text is null or the amount the smallest. *)
Theorem C83_assets : forall e old text v, Unmarshal (j_Asset e) old text = Ok v ->
  v = old \/ Chain.Value v = - 2 ^ 63 \/ forall old', exists d name, Sym v = symbol_of d name
    /\ json_round (j_Asset e) old' v (in_quotes (fun s => canonical_asset s (Chain.Value v) d name)).
Proof.
  intros e old text v H. unfold Unmarshal in H. destruct (parse text) as [j|]; [|discriminate]. destruct j; try discriminate H.
  - left. cbn in H. congruence.
  - right. cbn [j_Asset j_text dec dec_text] in H. unfold unquote in H. destruct (get_chars 0 raw) as [s|]; [|discriminate]. cbn [rbind] in H.
    unfold Asset_UnmarshalText in H. destruct (NewAssetFromString s) as [w|x|m] eqn:Q; try discriminate. assert (E : v = w) by (cbn in H; congruence).
    rewrite E. apply C15_exact in Q as (a & d & n & T & D & NE & N & R & ->). cbn [Chain.Value Sym].
    destruct (Z.eq_dec a (- 2 ^ 63)); [now left|right]. intros old'. exists d, n. split; [reflexivity|].
    apply (proj1 (C71_symbols e) old' a d n); auto; try lia.
    destruct T as (? & _ & (? & ? & ? & fp & _ & _ & _ & _ & _ & -> & _)). unfold zlen in *. lia.
Qed.
Print Assumptions C83_assets.

(** A text with an unknown key, an upper-case name, an escape and a byte that is not UTF-8. *)
Example C83_ex :
  Unmarshal (j_PermissionLevel go) zero_level (str "{ ""x"":[1], ""Actor"":""eosio"" }") = Ok {| Actor := 6138663577826885632; Permission := 0 |}
  /\ wf_permission zero_level
  /\ Unmarshal (j_string true) [] (x22 :: xff :: str "a""") = Ok [xef; xbf; xbd; x61]
  /\ utf8_abi zero_abi /\ typed_transaction {| Header := zero_header; ContextFreeActions := []; Actions := []; Extensions := [] |}.
Proof.
  split; [vm_compute; reflexivity|]. split; [vm_compute; repeat split; congruence|]. split; [vm_compute; reflexivity|].
  split; [|repeat split; unfold in_u; cbn; try lia; constructor].
  repeat split; try exact utf8_nil; constructor.
Qed.
