(** Proofs about the JSON forms: the types of pkg/chain. *)
From Verif Require Import Base GoStd BaseProofs GoStdProofs SpecText SpecName SpecHex SpecBase58 SpecTime SpecSymbol SpecKeys SpecNumbers Chain AbiDyn SpecChain SpecJson.
From Verif Require Import Name Symbol Hex Numbers Time Keys NameProofs SymbolProofs HexProofs NumbersProofs TimeProofs KeysProofs Json JsonProofs JsonCodecs JsonStrings.
From Verif Require Import PropName PropHex PropTime PropNumbers PropSymbol PropKeys.

(** ** Quiet texts *)
Lemma name_quiet c : is_name_char c -> quiet c.
Proof. intros H. apply quiet_b. destruct c; try reflexivity; now elim H. Qed.
Lemma hex_quiet c : lower_hex c -> quiet c.
Proof. intros H. apply quiet_b. unfold lower_hex in H. destruct c; cbn in H; try lia; reflexivity. Qed.
Lemma base58_quiet c : base58_digit c <> None -> quiet c.
Proof. intros H. apply quiet_b. destruct c; try reflexivity; now elim H. Qed.
Lemma upper_quiet c : upper c -> quiet c.
Proof. intros H. apply quiet_b. unfold upper in H. destruct c; cbn in H; try lia; reflexivity. Qed.
Lemma b64_quiet c : b64_val c <> None -> quiet c.
Proof. intros H. apply quiet_b. destruct c; try reflexivity; now elim H. Qed.
Lemma str_quiet s : forallb quietb s = true -> Forall quiet s.
Proof. intros H. rewrite forallb_forall in H. apply Forall_forall. intros c I. apply quiet_b. auto. Qed.
Lemma second_quiet t s : second_text t s -> Forall quiet s.
Proof.
  intros (d & _ & ty & tm & td & th & tmin & ts & -> & (_ & A & _) & (_ & B & _) & (_ & C & _) & (_ & D & _) & (_ & E & _) & (_ & F & _)).
  rewrite !Forall_app. repeat split; try (apply digits_quiet; assumption); now apply str_quiet.
Qed.
Lemma milli_quiet t s : milli_text t s -> Forall quiet s.
Proof.
  intros (b & f & -> & B & (_ & F & _)). rewrite !Forall_app. repeat split; [now apply second_quiet in B|now apply str_quiet|now apply digits_quiet].
Qed.
Lemma asset_quiet s v d name : canonical_asset s v d name -> symbol_name name -> Forall quiet s.
Proof.
  intros (ip & fp & -> & F & _ & (_ & I & _) & _) (_ & U). rewrite !Forall_app. repeat split.
  - destruct (v <? 0); [now apply str_quiet|constructor].
  - now apply digits_quiet.
  - destruct (0 <? d); [|constructor]. constructor; [now apply quiet_b|now apply digits_quiet].
  - constructor; [now apply quiet_b|]. eapply Forall_impl; [|exact U]. apply upper_quiet.
Qed.
Lemma int_numeral_quiet n s : int_numeral n s -> Forall quiet s.
Proof.
  intros [[_ (_ & D & _)]|[_ (t & -> & (_ & D & _))]]; [now apply digits_quiet|].
  constructor; [now apply quiet_b|now apply digits_quiet].
Qed.
Lemma key_quiet head sep s k : Forall quiet head -> quiet sep -> key_text head sep s k -> Forall quiet s.
Proof.
  intros H S (tag & t & I & -> & T). rewrite !Forall_app. split; [exact H|]. split.
  - destruct I as [[= _ <-]|[[= _ <-]|[[= _ <-]|[]]]]; now apply str_quiet.
  - constructor; [exact S|]. destruct T as (k0 & s' & b' & ds & -> & _ & _ & _ & M & _). rewrite Forall_app. split.
    + apply Forall_forall. intros c C. apply repeat_spec in C. subst c. now apply quiet_b.
    + apply Forall_forall. intros c C. apply base58_quiet. apply (in_map base58_digit) in C. rewrite M in C.
      apply in_map_iff in C as (d & <- & _). discriminate.
Qed.

(** ** Scalars *)
Lemma full_name e old n : in_u 64 n -> full (j_Name e) old n (name_json n).
Proof.
  intros H. destruct (C09_canonical_text n H) as [C W]. eapply full_text_codec; [reflexivity| | |].
  - destruct C as (_ & C & _). eapply Forall_impl; [|exact C]. apply name_quiet.
  - unfold total. now rewrite C09_text_api.
  - split; assumption.
Qed.
Lemma full_bytes e old d : full (j_Bytes e) old d (hex_json d).
Proof.
  destruct (C25_roundtrip d old) as (R & T & L). eapply full_text_codec; [reflexivity| | |].
  - eapply Forall_impl; [|exact L]. apply hex_quiet.
  - unfold total. now rewrite R.
  - split; assumption.
Qed.
Lemma full_checksum e n old d : In n [20; 32; 64]%nat -> length d = n -> full (j_Checksum e n) old d (hex_json d).
Proof.
  intros I L. destruct (C24_checksum_text d) as [T Q]. eapply full_text_codec; [reflexivity| | |].
  - eapply Forall_impl; [|exact Q]. apply hex_quiet.
  - now apply C24_checksum_roundtrip.
  - split; assumption.
Qed.
Lemma full_float128 e old d : length d = 16%nat -> length old = 16%nat -> full (j_Float128 e) old d (hex_json d).
Proof.
  intros L K. destruct (C24_float128_roundtrip d old L K) as (R & T & Q). eapply full_text_codec; [reflexivity| | |].
  - eapply Forall_impl; [|exact Q]. apply hex_quiet.
  - unfold total. now rewrite R.
  - split; assumption.
Qed.
Lemma base64_quiet body b p : base64_digits body b p -> Forall quiet (body ++ pad p).
Proof.
  intros (ds & M & _). rewrite Forall_app. split.
  - apply Forall_forall. intros c C. apply b64_quiet. apply (in_map b64_val) in C. rewrite M in C. apply in_map_iff in C as (d & <- & _). discriminate.
  - apply Forall_forall. intros c C. apply repeat_spec in C. subst c. now apply quiet_b.
Qed.
Lemma full_blob e old d : full (j_Blob e) old d (in_quotes (fun s => exists body p, s = body ++ pad p /\ base64_digits body d p)).
Proof.
  destruct (C26_text d) as (body & p & E & B). eapply full_text_codec; [reflexivity| | |].
  - rewrite E. now apply base64_quiet in B.
  - pose proof (C26_roundtrip d body p p [] B (Nat.le_refl p)) as R. cbv zeta in R. rewrite app_nil_r in R. now rewrite E, R.
  - eauto.
Qed.
Lemma full_seconds e old t : in_u 32 t -> full (j_TimePointSec e) old t (second_json t).
Proof.
  intros H. pose proof (proj1 (C21_text t H _) eq_refl) as T. eapply full_text_codec; [reflexivity| | |exact T].
  - now apply second_quiet in T.
  - pose proof (C21_roundtrip t _ H (or_introl eq_refl)) as R. pose proof (C21_unmarshal old (TimePointSec_String t)) as U. now rewrite R in U.
Qed.
Lemma full_blocks e old t : in_u 32 t -> full (j_BlockTimestamp e) old t (in_quotes (milli_text (946684800000 + t * 500))).
Proof.
  intros H. pose proof (proj1 (C22_text t H _) eq_refl) as T. eapply full_text_codec; [reflexivity| | |exact T].
  - now apply milli_quiet in T.
  - pose proof (C22_roundtrip t _ H (or_introl eq_refl)) as R. pose proof (C22_unmarshal old (BlockTimestamp_String t)) as U. now rewrite R in U.
Qed.
Lemma full_points e old t : four_digit_years t -> t mod 1000 = 0 -> full (j_TimePoint e) old t (in_quotes (milli_text (t / 1000))).
Proof.
  intros H M. pose proof (proj1 (C23_text t H _) eq_refl) as T. eapply full_text_codec; [reflexivity| | |exact T].
  - now apply milli_quiet in T.
  - pose proof (proj2 (C23_exact t _ H (or_introl eq_refl)) M) as R. pose proof (C23_unmarshal old (TimePoint_String t)) as U. now rewrite R in U.
Qed.
Lemma numeral_quoted n s : numeral n s -> good (JStr s).
Proof. intros (_ & D & _). constructor. apply quiet_raw. now apply digits_quiet. Qed.
Lemma full_raw {T} (marshal : T -> list byte) unmarshal zero v j (P : list byte -> Prop) :
  marshal v = print j -> good j -> nest j = 0 -> literal j = print j -> unmarshal zero (print j) = (v, None) -> P (print j) ->
  full (j_raw marshal unmarshal) zero v P.
Proof.
  intros M G N L U H. assert (E : parse (marshal v) = Some j) by (rewrite M; apply parse_print; [exact G|lia]).
  split; [exists j; exact E|]. intros j' E'. cbn [j_raw enc] in E'. rewrite E in E'. injection E' as <-.
  split; [exact G|]. split; [|exact H]. cbn [j_raw dec]. now rewrite L, U.
Qed.
Lemma full_uint64 old v : in_u 64 v -> full j_Uint64 old v (uint64_json v).
Proof.
  intros H. assert (V : 0 <= v) by (unfold in_u in H; lia). pose proof (FormatUint_numeral v V) as N. pose proof (C19_roundtrip v old H) as R.
  unfold Uint64_MarshalJSON, writeUintJSON in R. cbv zeta in R.
  apply (full_raw _ _ _ _ (if 4294967295 <? v then JStr (FormatUint v) else JNum (FormatUint v))).
  - unfold Uint64_MarshalJSON, writeUintJSON. destruct (4294967295 <? v); reflexivity.
  - destruct (4294967295 <? v); [now apply numeral_quoted in N|now apply number_good in N].
  - destruct (4294967295 <? v); reflexivity.
  - destruct (4294967295 <? v); reflexivity.
  - destruct (4294967295 <? v); exact R.
  - exists (FormatUint v). split; [exact N|]. change (2 ^ 32) with 4294967296. destruct (Z.ltb_spec 4294967295 v), (Z.ltb_spec v 4294967296); try lia; reflexivity.
Qed.
Lemma full_block_num old v : in_u 32 v -> full j_BlockNum old v (numeral v).
Proof.
  intros H. assert (V : 0 <= v) by (unfold in_u in H; lia). pose proof (FormatUint_numeral v V) as N. pose proof (C20_roundtrip v old H) as R.
  unfold BlockNum_MarshalJSON, writeUintJSON in R. cbv zeta in R. unfold in_u in H. change (2 ^ 32) with 4294967296 in H.
  assert (L : (4294967295 <? v) = false) by lia. rewrite L in R.
  apply (full_raw _ _ _ _ (JNum (FormatUint v))); [|now apply number_good in N|reflexivity|reflexivity|exact R|exact N].
  unfold BlockNum_MarshalJSON, writeUintJSON. now rewrite L.
Qed.
Lemma full_asset e old value d name : - 2 ^ 63 < value < 2 ^ 63 -> 0 <= d <= 18 -> symbol_name name -> name <> [] ->
  full (j_Asset e) old {| Value := value; Sym := symbol_of d name |} (in_quotes (fun s => canonical_asset s value d name)).
Proof.
  intros V D N NE. destruct (C14_roundtrip value d name old V D N NE) as (s & E & _ & U & _).
  destruct (C14_text value d name V D N) as (s' & E' & C). assert (s' = s) as -> by congruence.
  eapply full_text_codec; [exact E|now apply asset_quiet in C|exact U|exact C].
Qed.
Lemma full_symbol e old d name : 0 <= d <= 18 -> symbol_name name ->
  full (j_Symbol e) old (symbol_of d name) (in_quotes (fun s => exists ds, numeral d ds /\ s = ds ++ str "," ++ name)).
Proof.
  intros D N. pose proof (Symbol_String_of d name D N) as E. pose proof (FormatUint_numeral d ltac:(lia)) as F.
  eapply full_text_codec; [reflexivity| | |].
  - rewrite E, Forall_app. destruct F as (_ & F & _). split; [now apply digits_quiet|]. constructor; [now apply quiet_b|].
    destruct N as [_ N]. eapply Forall_impl; [|exact N]. apply upper_quiet.
  - unfold Symbol_UnmarshalText. now rewrite symbol_roundtrip.
  - eauto.
Qed.
Lemma full_symbol_code e old name : symbol_name name -> full (j_SymbolCode e) old (name_code name) (in_quotes (eq name)).
Proof.
  intros N. destruct (C13_roundtrip old name N) as [U M]. eapply full_text_codec; [unfold plain_text; now rewrite M| |exact U|reflexivity].
  destruct N as [_ N]. eapply Forall_impl; [|exact N]. apply upper_quiet.
Qed.
Lemma full_u128 e old u : u128_ok u -> full (j_Uint128 e) old u (in_quotes (int_numeral (u128_value u))).
Proof.
  intros H. pose proof (C17_text u H) as T. destruct (C17_roundtrip u old H) as (_ & _ & R).
  eapply full_text_codec; [reflexivity|now apply int_numeral_quiet in T|exact R|exact T].
Qed.
Lemma full_i128 e old u : u128_ok u -> i128_value u <> - 2 ^ 127 -> full (j_Int128 e) old u (in_quotes (int_numeral (i128_value u))).
Proof.
  intros H N. assert (T : int_numeral (i128_value u) (Int128_String u)) by (unfold Int128_String; rewrite big_i128 by exact H; apply FormatInt_numeral).
  destruct (C18_roundtrip u old H N) as (_ & _ & R).
  eapply full_text_codec; [reflexivity|now apply int_numeral_quiet in T|exact R|exact T].
Qed.
Lemma full_public_key e sha old k : In (KType k) [0; 1; 2] -> full (j_PublicKey e sha) old k (in_quotes (fun s => key_text (str "PUB_") x5f s k)).
Proof.
  intros H. destruct (C31_pub_string k H) as (s & E & T). destruct (C31_roundtrip sha k old H) as (_ & R & _). rewrite E in R. cbn [rbind] in R.
  eapply full_text_codec; [exact E| |exact R|exact T]. eapply key_quiet; [| |exact T]; [now apply str_quiet|now apply quiet_b].
Qed.
Lemma full_signature_ptr e old k : In (KType k) [0; 1; 2] -> full (j_SignaturePtr e) old k (in_quotes (fun s => key_text (str "SIG_") x5f s k)).
Proof.
  intros H. destruct (C31_sig_string k H) as (s & E & T). destruct (C31_roundtrip (fun x => x) k old H) as (_ & _ & _ & R). rewrite E in R. cbn [rbind] in R.
  eapply full_text_codec; [exact E| |exact R|exact T]. eapply key_quiet; [| |exact T]; [now apply str_quiet|now apply quiet_b].
Qed.

(** ** Structs *)
Ltac tidy := match goal with |- fields_ok _ ?v _ _ => let v' := eval cbn in v in change v with v' end; cbv beta.
Lemma full_permission e old p : wf_permission p -> full (j_PermissionLevel e) old p (permission_json p).
Proof.
  intros (A & B). eapply full_weaken; [|apply full_struct with (R := fun kvs => exists a b, name_json (Actor p) a /\ name_json (Permission p) b
    /\ kvs = [("actor", a); ("permission", b)]%string); [reflexivity|]].
  - intros s (kvs & (a & b & Ha & Hb & ->) & ->). exists a, b. auto.
  - apply fields_fld with (P := name_json (Actor p)); [now apply full_name|intros a Ha].
    apply fields_fld with (P := name_json (Permission p)); [now apply full_name|intros b Hb].
    apply fields_done; [now destruct p|]. exists a, b. auto.
Qed.
Lemma full_action e old x : typed_action x -> full (j_Action e) old x (action_json x).
Proof.
  intros (A & B & C). eapply full_weaken; [|apply full_struct with (R := fun kvs => exists a b c d, name_json (Account x) a /\ name_json (AName x) b
    /\ list_json permission_json (Authorization x) c /\ hex_json (AData x) d
    /\ kvs = [("account", a); ("name", b); ("authorization", c); ("data", d)]%string); [reflexivity|]].
  - intros s (kvs & (a & b & c & d & Ha & Hb & Hc & Hd & ->) & ->). exists a, b, c, d. auto 10.
  - apply fields_fld with (P := name_json (Account x)); [now apply full_name|intros a Ha].
    apply fields_fld with (P := name_json (AName x)); [now apply full_name|intros b Hb].
    apply fields_fld with (P := list_json permission_json (Authorization x)).
    { apply full_slice. eapply Forall_impl; [|exact C]. intros p Y old'. now apply full_permission. }
    intros c Hc. apply fields_fld with (P := hex_json (AData x)); [apply full_bytes|intros d Hd].
    apply fields_done; [now destruct x|]. exists a, b, c, d. auto 10.
Qed.
Lemma full_extension e old x : in_u 16 (EType x) -> full (j_TransactionExtension e) old x (extension_json x).
Proof.
  intros A. eapply full_weaken; [|apply full_struct with (R := fun kvs => exists a b, numeral (EType x) a /\ hex_json (EData x) b
    /\ kvs = [("type", a); ("data", b)]%string); [reflexivity|]].
  - intros s (kvs & (a & b & Ha & Hb & ->) & ->). exists a, b. auto.
  - apply fields_fld with (P := numeral (EType x)); [apply full_uint; [lia|exact A]|intros a Ha].
    apply fields_fld with (P := hex_json (EData x)); [apply full_bytes|intros b Hb].
    apply fields_done; [now destruct x|]. exists a, b. auto.
Qed.
Lemma full_header e old y : typed_header y -> full (j_TransactionHeader e) old y (header_json y).
Proof.
  intros (A & B & C & D & E & F). eapply full_weaken; [|apply full_struct with (R := fun kvs => exists a b c d e f,
    second_json (Expiration y) a /\ numeral (RefBlockNum y) b /\ numeral (RefBlockPrefix y) c
    /\ numeral (MaxNetUsageWords y) d /\ numeral (MaxCpuUsageMs y) e /\ numeral (DelaySec y) f
    /\ kvs = [("expiration", a); ("ref_block_num", b); ("ref_block_prefix", c); ("max_net_usage_words", d);
              ("max_cpu_usage_ms", e); ("delay_sec", f)]%string); [reflexivity|]].
  - intros s (kvs & (a & b & c & d & e' & f & K) & ->). destruct K as (K1 & K2 & K3 & K4 & K5 & K6 & ->).
    exists a, b, c, d, e', f. auto 15.
  - apply fields_fld with (P := second_json (Expiration y)); [now apply full_seconds|intros a Ha; tidy].
    apply fields_fld with (P := numeral (RefBlockNum y)); [apply full_uint; [lia|exact B]|intros b Hb; tidy].
    apply fields_fld with (P := numeral (RefBlockPrefix y)); [apply full_uint; [lia|exact C]|intros c Hc; tidy].
    apply fields_fld with (P := numeral (MaxNetUsageWords y)); [apply full_uint; [lia|exact D]|intros d Hd; tidy].
    apply fields_fld with (P := numeral (MaxCpuUsageMs y)); [apply full_uint; [lia|exact E]|intros e' He; tidy].
    apply fields_fld with (P := numeral (DelaySec y)); [apply full_uint; [lia|exact F]|intros f Hf; tidy].
    apply fields_done; [destruct y; reflexivity|]. exists a, b, c, d, e', f. auto 15.
Qed.
Lemma fields_embedded {A} name (c : codec A) (get : TransactionHeader -> A) set (fs : list (jfield Transaction)) (v w : Transaction) (P : list byte -> Prop) (R : list (string * list byte) -> Prop) :
  full c (get (Header v)) (get (Header w)) P ->
  (forall text, P text -> fields_ok fs (set_header v (set (Header v) (get (Header w)))) w (fun kvs => R ((name, text) :: kvs))) ->
  fields_ok (embedded (fld name c get set) :: fs) v w R.
Proof.
  apply (fields_one (embedded (fld name c get set)) name c (fun v => get (Header v)) (fun v x => set_header v (set (Header v) x)) fs v w P R); [reflexivity|reflexivity|].
  intros j. cbn [embedded fld f_dec]. destruct (dec c (get (Header v)) j); reflexivity.
Qed.
Lemma full_transaction e old x : typed_transaction x -> full (j_Transaction e) old x (transaction_json x).
Proof.
  intros ((A & B & C & D & E & F) & G & H & I). eapply full_weaken; [|apply full_struct with (R := fun kvs => exists a b c d e f g h i, let y := Header x in
    second_json (Expiration y) a /\ numeral (RefBlockNum y) b /\ numeral (RefBlockPrefix y) c
    /\ numeral (MaxNetUsageWords y) d /\ numeral (MaxCpuUsageMs y) e /\ numeral (DelaySec y) f
    /\ list_json action_json (ContextFreeActions x) g /\ list_json action_json (Actions x) h /\ list_json extension_json (Extensions x) i
    /\ kvs = [("expiration", a); ("ref_block_num", b); ("ref_block_prefix", c); ("max_net_usage_words", d);
              ("max_cpu_usage_ms", e); ("delay_sec", f); ("context_free_actions", g); ("actions", h); ("transaction_extensions", i)]%string); [reflexivity|]].
  - intros s (kvs & (a & b & c & d & e' & f & g & h & i & K) & ->). cbv zeta in K. destruct K as (K1 & K2 & K3 & K4 & K5 & K6 & K7 & K8 & K9 & ->).
    exists a, b, c, d, e', f, g, h, i. cbv zeta. auto 15.
  - apply fields_embedded with (P := second_json (Expiration (Header x))); [now apply full_seconds|intros a Ha; tidy].
    apply fields_embedded with (P := numeral (RefBlockNum (Header x))); [apply full_uint; [lia|exact B]|intros b Hb; tidy].
    apply fields_embedded with (P := numeral (RefBlockPrefix (Header x))); [apply full_uint; [lia|exact C]|intros c Hc; tidy].
    apply fields_embedded with (P := numeral (MaxNetUsageWords (Header x))); [apply full_uint; [lia|exact D]|intros d Hd; tidy].
    apply fields_embedded with (P := numeral (MaxCpuUsageMs (Header x))); [apply full_uint; [lia|exact E]|intros e' He; tidy].
    apply fields_embedded with (P := numeral (DelaySec (Header x))); [apply full_uint; [lia|exact F]|intros f Hf; tidy].
    apply fields_fld with (P := list_json action_json (ContextFreeActions x)).
    { apply full_slice. eapply Forall_impl; [|exact G]. intros y Y old'. now apply full_action. }
    intros g Hg. tidy. apply fields_fld with (P := list_json action_json (Actions x)).
    { apply full_slice. eapply Forall_impl; [|exact H]. intros y Y old'. now apply full_action. }
    intros h Hh. tidy. apply fields_fld with (P := list_json extension_json (Extensions x)).
    { apply full_slice. eapply Forall_impl; [|exact I]. intros y Y old'. now apply full_extension. }
    intros i Hi. tidy. apply fields_done; [destruct x as [[] ? ? ?]; reflexivity|]. exists a, b, c, d, e', f, g, h, i. cbv zeta. auto 15.
Qed.
Lemma full_extended_asset e old x d name : - 2 ^ 63 < Value (Quantity x) < 2 ^ 63 -> 0 <= d <= 18 -> symbol_name name -> name <> [] ->
  Sym (Quantity x) = symbol_of d name -> in_u 64 (Contract x) -> full (j_ExtendedAsset e) old x (extended_asset_json x).
Proof.
  intros V D N NE S C. eapply full_weaken; [|apply full_struct with (R := fun kvs => exists a b, in_quotes (fun s => canonical_asset s (Value (Quantity x)) d name) a /\ name_json (Contract x) b
    /\ kvs = [("quantity", a); ("contract", b)]%string); [reflexivity|]].
  - intros s (kvs & (a & b & Ha & Hb & ->) & ->). exists d, name, a, b. auto 10.
  - apply fields_fld with (P := in_quotes (fun s => canonical_asset s (Value (Quantity x)) d name)).
    { destruct x as [[v s] c]. cbn [Quantity Value Sym] in *. subst s. now apply full_asset. }
    intros a Ha. apply fields_fld with (P := name_json (Contract x)); [now apply full_name|intros b Hb].
    apply fields_done; [now destruct x|]. exists a, b. auto.
Qed.

(** ** ABI definitions *)
Lemma full_type e old x : utf8 (NewTypeName x) /\ utf8 (AType x) -> full (j_AbiType e) old x (type_json x).
Proof.
  intros [A B]. eapply full_weaken; [|apply full_struct with (R := fun kvs => exists a b, string_json (NewTypeName x) a /\ string_json (AType x) b
    /\ kvs = [("new_type_name", a); ("type", b)]%string); [reflexivity|]].
  - intros s (kvs & (a & b & Ha & Hb & ->) & ->). exists a, b. auto.
  - apply fields_fld with (P := string_json (NewTypeName x)); [now apply full_string|intros a Ha].
    apply fields_fld with (P := string_json (AType x)); [now apply full_string|intros b Hb].
    apply fields_done; [now destruct x|]. exists a, b. auto.
Qed.
Lemma full_strings sh old l : Forall utf8 l -> full (j_slice [] (j_string sh)) old l (list_json string_json l).
Proof. intros F. apply full_slice. eapply Forall_impl; [|exact F]. intros s Y old'. now apply full_string. Qed.
Lemma full_variant e old x : utf8 (VName x) /\ Forall utf8 (VTypes x) -> full (j_AbiVariant e) old x (variant_json x).
Proof.
  intros [A B]. eapply full_weaken; [|apply full_struct with (R := fun kvs => exists a b, string_json (VName x) a /\ list_json string_json (VTypes x) b
    /\ kvs = [("name", a); ("types", b)]%string); [reflexivity|]].
  - intros s (kvs & (a & b & Ha & Hb & ->) & ->). exists a, b. auto.
  - apply fields_fld with (P := string_json (VName x)); [now apply full_string|intros a Ha].
    apply fields_fld with (P := list_json string_json (VTypes x)); [now apply full_strings|intros b Hb].
    apply fields_done; [now destruct x|]. exists a, b. auto.
Qed.
Lemma full_field e old x : utf8 (FName x) /\ utf8 (FType x) -> full (j_AbiField e) old x (field_json x).
Proof.
  intros [A B]. eapply full_weaken; [|apply full_struct with (R := fun kvs => exists a b, string_json (FName x) a /\ string_json (FType x) b
    /\ kvs = [("name", a); ("type", b)]%string); [reflexivity|]].
  - intros s (kvs & (a & b & Ha & Hb & ->) & ->). exists a, b. auto.
  - apply fields_fld with (P := string_json (FName x)); [now apply full_string|intros a Ha].
    apply fields_fld with (P := string_json (FType x)); [now apply full_string|intros b Hb].
    apply fields_done; [now destruct x|]. exists a, b. auto.
Qed.
Lemma full_abi_struct e old x : utf8 (SName x) /\ utf8 (SBase x) /\ Forall (fun f => utf8 (FName f) /\ utf8 (FType f)) (SFields x) ->
  full (j_AbiStruct e) old x (struct_json x).
Proof.
  intros (A & B & C). eapply full_weaken; [|apply full_struct with (R := fun kvs => exists a b c, string_json (SName x) a /\ string_json (SBase x) b
    /\ list_json field_json (SFields x) c /\ kvs = [("name", a); ("base", b); ("fields", c)]%string); [reflexivity|]].
  - intros s (kvs & (a & b & c & Ha & Hb & Hc & ->) & ->). exists a, b, c. auto.
  - apply fields_fld with (P := string_json (SName x)); [now apply full_string|intros a Ha].
    apply fields_fld with (P := string_json (SBase x)); [now apply full_string|intros b Hb].
    apply fields_fld with (P := list_json field_json (SFields x)).
    { apply full_slice. eapply Forall_impl; [|exact C]. intros y Y old'. now apply full_field. }
    intros c Hc. apply fields_done; [now destruct x|]. exists a, b, c. auto.
Qed.
Lemma full_abi_action e old x : in_u 64 (ActName x) /\ utf8 (ActType x) /\ utf8 (RicardianContract x) -> full (j_AbiAction e) old x (abi_action_json x).
Proof.
  intros (A & B & C). eapply full_weaken; [|apply full_struct with (R := fun kvs => exists a b c, name_json (ActName x) a /\ string_json (ActType x) b
    /\ string_json (RicardianContract x) c /\ kvs = [("name", a); ("type", b); ("ricardian_contract", c)]%string); [reflexivity|]].
  - intros s (kvs & (a & b & c & Ha & Hb & Hc & ->) & ->). exists a, b, c. auto.
  - apply fields_fld with (P := name_json (ActName x)); [now apply full_name|intros a Ha].
    apply fields_fld with (P := string_json (ActType x)); [now apply full_string|intros b Hb].
    apply fields_fld with (P := string_json (RicardianContract x)); [now apply full_string|intros c Hc].
    apply fields_done; [now destruct x|]. exists a, b, c. auto.
Qed.
Lemma full_table e old x : in_u 64 (TName x) /\ utf8 (IndexType x) /\ Forall utf8 (KeyNames x) /\ Forall utf8 (KeyTypes x) /\ utf8 (TType x) ->
  full (j_AbiTable e) old x (table_json x).
Proof.
  intros (A & B & C & D & E). eapply full_weaken; [|apply full_struct with (R := fun kvs => exists a b c d e, name_json (TName x) a /\ string_json (IndexType x) b
    /\ list_json string_json (KeyNames x) c /\ list_json string_json (KeyTypes x) d /\ string_json (TType x) e
    /\ kvs = [("name", a); ("index_type", b); ("key_names", c); ("key_types", d); ("type", e)]%string); [reflexivity|]].
  - intros s (kvs & (a & b & c & d & e' & Ha & Hb & Hc & Hd & He & ->) & ->). exists a, b, c, d, e'. auto 10.
  - apply fields_fld with (P := name_json (TName x)); [now apply full_name|intros a Ha].
    apply fields_fld with (P := string_json (IndexType x)); [now apply full_string|intros b Hb].
    apply fields_fld with (P := list_json string_json (KeyNames x)); [now apply full_strings|intros c Hc].
    apply fields_fld with (P := list_json string_json (KeyTypes x)); [now apply full_strings|intros d Hd].
    apply fields_fld with (P := string_json (TType x)); [now apply full_string|intros e' He].
    apply fields_done; [now destruct x|]. exists a, b, c, d, e'. auto 10.
Qed.
Lemma full_clause e old x : utf8 (ClId x) /\ utf8 (ClBody x) -> full (j_AbiClause e) old x (clause_json x).
Proof.
  intros [A B]. eapply full_weaken; [|apply full_struct with (R := fun kvs => exists a b, string_json (ClId x) a /\ string_json (ClBody x) b
    /\ kvs = [("id", a); ("body", b)]%string); [reflexivity|]].
  - intros s (kvs & (a & b & Ha & Hb & ->) & ->). exists a, b. auto.
  - apply fields_fld with (P := string_json (ClId x)); [now apply full_string|intros a Ha].
    apply fields_fld with (P := string_json (ClBody x)); [now apply full_string|intros b Hb].
    apply fields_done; [now destruct x|]. exists a, b. auto.
Qed.
Lemma full_abi_extension e old o : (forall y, o = Some y -> in_u 16 (XType y)) ->
  full (j_ptr zero_abi_extension (j_AbiExtension e)) old o (abi_extension_json o).
Proof.
  intros H. apply full_ptr. destruct o as [x|]; [|reflexivity]. split; [intros old'|apply struct_not_null]. specialize (H x eq_refl).
  eapply full_weaken; [|apply full_struct with (R := fun kvs => exists a b, numeral (XType x) a /\ hex_json (XData x) b
    /\ kvs = [("type", a); ("data", b)]%string); [reflexivity|]].
  - intros s (kvs & (a & b & Ha & Hb & ->) & ->). exists a, b. auto.
  - apply fields_fld with (P := numeral (XType x)); [apply full_uint; [lia|exact H]|intros a Ha].
    apply fields_fld with (P := hex_json (XData x)); [apply full_bytes|intros b Hb].
    apply fields_done; [now destruct x|]. exists a, b. auto.
Qed.
Lemma full_error e old x : in_u 64 (ErrCode x) /\ utf8 (ErrText x) -> full (j_AbiErrorMessage e) old x (error_json x).
Proof.
  intros [A B]. eapply full_weaken; [|apply full_struct with (R := fun kvs => exists a b, uint64_json (ErrCode x) a /\ string_json (ErrText x) b
    /\ kvs = [("error_code", a); ("error_msg", b)]%string); [reflexivity|]].
  - intros s (kvs & (a & b & Ha & Hb & ->) & ->). exists a, b. auto.
  - apply fields_fld with (P := uint64_json (ErrCode x)); [now apply full_uint64|intros a Ha].
    apply fields_fld with (P := string_json (ErrText x)); [now apply full_string|intros b Hb].
    apply fields_done; [now destruct x|]. exists a, b. auto.
Qed.
Lemma full_abi e old x : ErrorMessages old = [] -> AbiExtensions old = [] -> Variants old = [] -> utf8_abi x -> full (j_Abi e) old x (abi_json x).
Proof.
  intros O1 O2 O3 (A & B & C & D & E & F & G & H & I). eapply full_weaken; [|apply full_struct with (R := fun kvs => exists a b c d e f g h i,
    string_json (Version x) a /\ list_json type_json (Types x) b /\ list_json struct_json (Structs x) c
    /\ list_json abi_action_json (AbiActions x) d /\ list_json table_json (Tables x) e /\ list_json clause_json (Clauses x) f
    /\ optional_json error_json "error_messages" (ErrorMessages x) g
    /\ optional_json abi_extension_json "abi_extensions" (AbiExtensions x) h
    /\ optional_json variant_json "variants" (Variants x) i
    /\ kvs = [("version", a); ("types", b); ("structs", c); ("actions", d); ("tables", e); ("ricardian_clauses", f)]%string ++ g ++ h ++ i); [reflexivity|]].
  - intros s (kvs & (a & b & c & d & e' & f & g & h & i & K1 & K2 & K3 & K4 & K5 & K6 & K7 & K8 & K9 & ->) & ->). exists a, b, c, d, e', f, g, h, i. auto 15.
  - apply fields_fld with (P := string_json (Version x)); [now apply full_string|intros a Ha; tidy].
    apply fields_fld with (P := list_json type_json (Types x)).
    { apply full_slice. eapply Forall_impl; [|exact B]. intros y Y old'. now apply full_type. }
    intros b Hb. tidy. apply fields_fld with (P := list_json struct_json (Structs x)).
    { apply full_slice. eapply Forall_impl; [|exact C]. intros y Y old'. now apply full_abi_struct. }
    intros c Hc. tidy. apply fields_fld with (P := list_json abi_action_json (AbiActions x)).
    { apply full_slice. eapply Forall_impl; [|exact D]. intros y Y old'. now apply full_abi_action. }
    intros d Hd. tidy. apply fields_fld with (P := list_json table_json (Tables x)).
    { apply full_slice. eapply Forall_impl; [|exact E]. intros y Y old'. now apply full_table. }
    intros e' He. tidy. apply fields_fld with (P := list_json clause_json (Clauses x)).
    { apply full_slice. eapply Forall_impl; [|exact F]. intros y Y old'. now apply full_clause. }
    intros f Hf. tidy. apply fields_omit with (P := error_json); [|destruct old; cbn in *; now subst|].
    { apply full_slice. eapply Forall_impl; [|exact G]. intros y Y old'. now apply full_error. }
    intros g Hg. tidy. apply fields_omit with (P := abi_extension_json); [|destruct old; cbn in *; now subst|].
    { apply full_slice. eapply Forall_impl; [|exact H]. intros y Y old'. now apply full_abi_extension. }
    intros h Hh. tidy. apply fields_omit with (P := variant_json); [|destruct old; cbn in *; now subst|].
    { apply full_slice. eapply Forall_impl; [|exact I]. intros y Y old'. now apply full_variant. }
    intros i Hi. tidy. apply fields_done; [now destruct x|]. exists a, b, c, d, e', f, g, h, i. rewrite app_nil_r. auto 15.
Qed.
