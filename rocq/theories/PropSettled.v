(** C82: what is read from a text is read back from its own printed form. *)
From Verif Require Import Base Prog AbiPrim Chain GoStd Name Symbol Numbers Hex Base58 Ripemd Keys Time SpecSettled.
From Verif Require Import SpecWire SpecText SpecName SpecSymbol SpecNumbers SpecHex SpecKeys SpecTime BaseProofs GoStdProofs HexProofs SymbolProofs KeysProofs TimeProofs
  PropName PropSymbol PropNumbers PropHex PropKeys PropTime.

Theorem C82_names : settled (fun s => Ok (NewName s)) (fun n => Ok (Name_String n)).
Proof.
  intros s v H _. assert (E : v = NewName s) by congruence. eexists. split; [reflexivity|]. rewrite E. f_equal. apply C10_idempotent.
Qed.
Print Assumptions C82_names.

Theorem C82_symbols : settled NewSymbolFromString (fun v => Ok (Symbol_String v))
  /\ settled_into (fun _ => True) Symbol_UnmarshalText (fun v => Ok (Symbol_String v))
  /\ settled_into (fun _ => True) SymbolCode_UnmarshalText (fun v => Ok (SymbolCode_MarshalText v)).
Proof.
  assert (P : settled NewSymbolFromString (fun v => Ok (Symbol_String v))).
  { intros s v H _. eexists. split; [reflexivity|]. apply C12_from_string in H as (pt & name & p & _ & _ & L & N & ->).
    refine (proj1 (C12_roundtrip p name _ 0 _ _)); [lia|]. apply C12_new_symbol; [lia|]. split; [lia|]. auto. }
  split; [exact P|]. split.
  - intros old s v _ H. unfold Symbol_UnmarshalText in H. destruct (NewSymbolFromString s) as [w|e|m] eqn:Q; try discriminate.
    cbn in H. injection H as ->. destruct (P s v Q ltac:(tauto)) as (t & E & R). injection E as <-. eexists. split; [reflexivity|].
    intros old' _. unfold Symbol_UnmarshalText. now rewrite R.
  - intros old s v _ H. assert (N : symbol_name s).
    { unfold SymbolCode_UnmarshalText in H. destruct (NewSymbolFromString (str "0," ++ s)) as [w|e|m] eqn:Q; try discriminate H.
      now apply symbolcode_ok in Q. }
    rewrite (proj1 (C13_parse old s) N) in H. injection H as <-. eexists. split; [reflexivity|]. intros old' _.
    rewrite (proj2 (C13_roundtrip 0 s N)). exact (proj1 (C13_parse old' s) N).
Qed.
Print Assumptions C82_symbols.

(** Assets, except the smallest amount. *)
Theorem C82_assets : settled_unless (fun a => Chain.Value a = - 2 ^ 63) NewAssetFromString Asset_String.
Proof.
  intros s a H B. apply C15_exact in H as (v & d & n & T & D & NE & N & R & ->). cbn [Chain.Value] in B.
  assert (0 <= d) by (destruct T as (? & _ & (? & ? & ? & fp & _ & _ & _ & _ & _ & -> & _)); unfold zlen; lia).
  destruct (C14_roundtrip v d n {| Chain.Value := 0; Chain.Sym := 0 |}) as (t & E & F & _); auto; try lia. exists t. auto.
Qed.
Print Assumptions C82_assets.
Theorem C82_assets_refuted : ~ settled NewAssetFromString Asset_String.
Proof.
  intros H. destruct (H (str "-9223372036854775808 EOS") {| Chain.Value := - 2 ^ 63; Chain.Sym := 256 * name_code (str "EOS") |}) as (t & E & F);
    [vm_compute; reflexivity|tauto|]. vm_compute in E. injection E as <-. vm_compute in F. discriminate F.
Qed.
Print Assumptions C82_assets_refuted.

(** 128-bit numbers, except the smallest signed one. *)
Theorem C82_numbers : settled NewUint128FromString (fun u => Ok (Uint128_String u))
  /\ settled_unless (fun u => i128_value u = - 2 ^ 127) NewInt128FromString (fun u => Ok (Int128_String u)).
Proof.
  split; intros s u H B; (eexists; split; [reflexivity|]).
  - apply C17_accepts in H as (i & _ & _ & K & _). apply (C17_roundtrip u {| Lo := 0; Hi := 0 |} K).
  - apply C18_accepts in H as (i & _ & _ & K & _). now apply (C18_roundtrip u {| Lo := 0; Hi := 0 |} K).
Qed.
Print Assumptions C82_numbers.
Theorem C82_numbers_refuted : ~ settled NewInt128FromString (fun u => Ok (Int128_String u)).
Proof.
  intros H. destruct (H (str "170141183460469231731687303715884105728") {| Lo := 0; Hi := 2 ^ 63 |}) as (t & E & F);
    [vm_compute; reflexivity|tauto|]. vm_compute in E. injection E as <-. vm_compute in F. discriminate F.
Qed.
Print Assumptions C82_numbers_refuted.

(** 64-bit numbers and block numbers in JSON. *)
Theorem C82_json_numbers :
  settled_into (fun _ => True) (fun old s => Ok (Uint64_UnmarshalJSON old s)) (fun v => Ok (Uint64_MarshalJSON v))
  /\ settled_into (fun _ => True) (fun old s => Ok (BlockNum_UnmarshalJSON old s)) (fun v => Ok (BlockNum_MarshalJSON v)).
Proof.
  split; intros old s v _ H; injection H as H; eexists; (split; [reflexivity|]); intros old' _; f_equal.
  - apply C19_accepts in H as (ds & _ & _ & D & -> & L). pose proof (dec_val_bound ds D). apply C19_roundtrip. lia.
  - apply C20_accepts in H as (ds & _ & _ & D & -> & L). pose proof (dec_val_bound ds D). apply C20_roundtrip. lia.
Qed.
Print Assumptions C82_json_numbers.

Theorem C82_times : settled NewTimePointFromString (fun t => Ok (TimePoint_String t))
  /\ settled NewTimePointSecFromString (fun t => Ok (TimePointSec_String t))
  /\ settled NewBlockTimestampFromString (fun t => Ok (BlockTimestamp_String t)).
Proof.
  split; [|split]; intros s v H _; (eexists; split; [reflexivity|]).
  - apply C23_accepts in H as (body & tail & t & ms & _ & B & M & ->).
    pose proof (read_seconds_range _ _ B) as R. pose proof (millis_range _ _ M). unfold year_zero, year_10000 in R.
    rewrite (C23_roundtrip (t * 1000000 + ms * 1000) _ ltac:(unfold four_digit_years, year_zero, year_10000; lia) (or_introl eq_refl)).
    f_equal. lia.
  - apply C21_accepts in H as (body & tail & t & _ & B & _ & ->). apply C21_roundtrip; [lia|now left].
  - apply C22_accepts in H as (body & tail & t & ms & _ & B & _ & ->). apply C22_roundtrip; [lia|now left].
Qed.
Print Assumptions C82_times.

(** Public keys, also from the legacy form, and signatures. *)
Theorem C82_keys : forall sha, (forall x, length (sha x) = 32%nat) ->
  settled (NewPublicKeyFromString sha) PublicKey_String /\ settled NewSignatureString Signature_String.
Proof.
  intros sha L.
  assert (P : forall k, In (KType k) [0; 1; 2] -> (exists t, PublicKey_String k = Ok t /\ NewPublicKeyFromString sha t = Ok k)
     /\ (exists t, Signature_String k = Ok t /\ NewSignatureString t = Ok k)).
  { intros k I. destruct (C31_roundtrip sha k k I) as (R & _ & R' & _). split.
    - destruct (PublicKey_String k) as [t| |]; try discriminate R. exists t. auto.
    - destruct (Signature_String k) as [t| |]; try discriminate R'. exists t. auto. }
  assert (I : forall head sep s k, key_text head sep s k -> In (KType k) [0; 1; 2]).
  { intros head sep s k (g & u & I & _). clear -I. cbn in I |- *. intuition congruence. }
  split; intros s k H _.
  - apply P. destruct (list_eq_dec Byte.byte_eq_dec (firstn 4 s) (str "PUB_")) as [E|E].
    + apply (C31_pub_parse sha s k E) in H as (sep & H). eauto.
    + destruct (C32_parse sha s E) as (A & B & C). destruct (Nat.lt_ge_cases (length s) 7) as [Q|Q].
      { destruct (A Q) as [e X]. congruence. }
      destruct (Nat.lt_ge_cases (length s) 50) as [Q'|Q'].
      { destruct (B (conj Q Q')) as [e X]. congruence. }
      apply (C (firstn (length s - 50) s) (skipn (length s - 50) s)) in H as [-> _].
      * now left.
      * exact L.
      * now rewrite firstn_skipn.
      * rewrite skipn_length. lia.
  - apply P. apply C31_sig_parse in H as (sep & H). eauto.
Qed.
Print Assumptions C82_keys.

(** The hexadecimal forms, and blobs. *)
Theorem C82_binary :
  (forall n, In n [20; 32; 64]%nat -> settled_into (fun _ => True) (Checksum_UnmarshalText n) (fun v => Ok (Checksum_MarshalText v)))
  /\ settled_into (fun d => length d = 16%nat) (fun old s => Ok (Float128_UnmarshalText old s)) (fun v => Ok (Float128_MarshalText v))
  /\ settled_into (fun _ => True) (fun old s => Ok (Bytes_UnmarshalText old s)) (fun v => Ok (Bytes_MarshalText v))
  /\ settled_into (fun _ => True) (fun _ s => Ok (snd (Blob_UnmarshalText s (length s)))) (fun v => Ok (Blob_MarshalText v)).
Proof.
  split; [|split; [|split]].
  - intros n I old s v _ H. eexists. split; [reflexivity|]. intros old' _.
    assert (length v = n); [|now apply C24_checksum_roundtrip].
    destruct (hex_Decode_dec s) as [[b K]|K].
    + destruct (proj1 (C24_checksum_outcome n old s) b K) as [A B]. destruct (Nat.lt_ge_cases (length b) n) as [Q|Q].
      * destruct (A Q) as [m X]. congruence.
      * rewrite (B Q) in H. injection H as <-. rewrite firstn_length. lia.
    + destruct (proj2 (C24_checksum_outcome n old s)) as [e X]; [tauto|]. congruence.
  - intros old s v O H. injection H as H. eexists. split; [reflexivity|]. intros old' O'. f_equal.
    assert (length v = 16%nat); [|now apply C24_float128_roundtrip].
    destruct (hex_Decode_dec s) as [[b K]|K].
    + destruct (proj1 (C24_float128_outcome old s O) b K) as [A B]. destruct (Nat.le_gt_cases 16 (length b)) as [Q|Q].
      * rewrite (A Q) in H. assert (V : v = firstn 16 b) by congruence. rewrite V, firstn_length. lia.
      * rewrite (B ltac:(lia)) in H. assert (V : v = b ++ skipn (length b) old) by congruence. rewrite V, app_length, skipn_length. lia.
    + destruct (proj2 (C24_float128_outcome old s O)) as [e X]; [tauto|]. congruence.
  - intros old s v _ H. eexists. split; [reflexivity|]. intros old' _. f_equal. apply C25_roundtrip.
  - intros old s v _ H. eexists. split; [reflexivity|]. intros old' _. f_equal.
    destruct (C26_text v) as (body & p & -> & D). pose proof (C26_roundtrip v body p p [] D ltac:(lia)) as R. cbv zeta in R.
    now rewrite app_nil_r in R.
Qed.
Print Assumptions C82_binary.

(** Texts that are not their own printed form. *)
Example C82_ex : NewAssetFromString (str "01.50 EOS") = NewAssetFromString (str "1.50 EOS")
  /\ NewSymbolFromString (str "+4,EOS") = NewSymbolFromString (str "4,EOS")
  /\ (exists v, NewAssetFromString (str "01.50 EOS") = Ok v /\ Asset_String v = Ok (str "1.50 EOS"))
  /\ (exists v, NewTimePointFromString (str "2024-02-29T1:02:03.500Z") = Ok v /\ TimePoint_String v = str "2024-02-29T01:02:03.500")
  /\ (exists v, NewUint128FromString (str "+007") = Ok v /\ Uint128_String v = str "7").
Proof.
  split; [vm_compute; reflexivity|]. split; [vm_compute; reflexivity|].
  split; [|split]; eexists; (split; [vm_compute; reflexivity|vm_compute; reflexivity]).
Qed.
