{
 "claims": [
  {
   "property": "C01",
   "status": "proved",
   "theorems": [
    "C01_uint8",
    "C01_uint16",
    "C01_uint32",
    "C01_uint64",
    "C01_int8",
    "C01_int16",
    "C01_int32",
    "C01_int64",
    "C01_float32",
    "C01_float64",
    "C01_bool",
    "C01_bytes_determined"
   ],
   "note": "AbiPrim: positional little-endian value of the bytes (`le_value`); every writer writes exactly the bytes with that value and every reader reads it back, whatever follows"
  },
  {
   "property": "C02",
   "status": "proved",
   "theorems": [
    "C02_varuint",
    "C02_varint",
    "C02_minimal_unique"
   ],
   "note": "GoVarint AbiPrim: base-128 value and minimality of the digits; round trip by induction on the digits"
  },
  {
   "property": "C03",
   "status": "proved",
   "theorems": [
    "C03_varuint_panics_iff",
    "C03_varint_panics_iff",
    "C03_panic_writes_nothing"
   ],
   "note": "GoVarint AbiPrim: the writer's 4-byte buffer: panics iff the number needs five digits; nothing is written then"
  },
  {
   "property": "C04",
   "status": "proved",
   "theorems": [
    "C04_varuint_reads_total",
    "C04_nonminimal_accepted"
   ],
   "note": "GoVarint AbiPrim: the reader's outcome for every input: value, overflow, end of input"
  },
  {
   "property": "C05",
   "status": "proved",
   "theorems": [
    "C05_string",
    "C05_byte_slice",
    "C05_string_exact"
   ],
   "note": "AbiPrim: length prefix and contents; exact outcome on every input"
  },
  {
   "property": "C06",
   "status": "proved",
   "theorems": [
    "C06_fragmentation_independent"
   ],
   "note": "Prog: equality of the fragmented and the plain interpreter by induction on the program, hence for every decoder of the model"
  },
  {
   "property": "C07",
   "status": "proved",
   "theorems": [
    "C07_primitives",
    "C07_chain_scalars",
    "C07_chain_composites"
   ],
   "note": "AbiPrim Chain: `truncation_safe`: every proper prefix of what a successful decoding consumed gives an error; from an invariant on program trees (\"an I/O error is never lost\")"
  },
  {
   "property": "C08",
   "status": "proved",
   "theorems": [
    "C08_primitives",
    "C08_chain_types",
    "C08_action",
    "C08_transaction",
    "C08_action_transient_fault_refuted",
    "C08_action_lost_write"
   ],
   "note": "AbiPrim Chain: writer failing at any call; Action loses an error of a single Write that fails while later ones succeed (`_refuted`), and reports it if the writer keeps failing"
  },
  {
   "property": "C09",
   "status": "proved",
   "theorems": [
    "C09_roundtrip",
    "C09_canonical_text",
    "C09_text_api",
    "C09_injective"
   ],
   "note": "Name: base-32 digits of the 64-bit value; text determined by the value and back"
  },
  {
   "property": "C10",
   "status": "proved",
   "theorems": [
    "C10_normal_form",
    "C10_normal_form_any_length",
    "C10_always_canonical",
    "C10_unchanged_iff",
    "C10_idempotent"
   ],
   "note": "Name: normal form of arbitrary strings as a function on characters"
  },
  {
   "property": "C11",
   "status": "proved",
   "theorems": [
    "C11_order",
    "C11_order_is_total"
   ],
   "note": "Name: numeric order = lexicographic order of the padded digits = order of texts"
  },
  {
   "property": "C12",
   "status": "proved",
   "theorems": [
    "C12_new_symbol",
    "C12_new_symbol_total",
    "C12_accessors",
    "C12_from_string",
    "C12_from_string_total",
    "C12_roundtrip",
    "C12_reject_keeps"
   ],
   "note": "Symbol: packing as precision + letters in base 256; accepted texts exactly characterised"
  },
  {
   "property": "C13",
   "status": "proved",
   "theorems": [
    "C13_parse",
    "C13_roundtrip"
   ],
   "note": "Symbol: as C12"
  },
  {
   "property": "C14",
   "status": "proved",
   "theorems": [
    "C14_roundtrip",
    "C14_text",
    "C14_minimum"
   ],
   "note": "Symbol: decimal numerals; precision up to 18, every amount but the minimum, whose text is rejected"
  },
  {
   "property": "C15",
   "status": "proved",
   "theorems": [
    "C15_exact",
    "C15_symbol_parts",
    "C15_total",
    "C15_literal"
   ],
   "note": "Symbol: accepted texts and the value each denotes as an exact decimal, both directions"
  },
  {
   "property": "C16",
   "status": "proved",
   "theorems": [
    "C16_panics_iff",
    "C16_safe",
    "C16_decimals"
   ],
   "note": "Symbol: panics iff 10^precision wraps to zero (precision at least 64); the digits shown otherwise"
  },
  {
   "property": "C17",
   "status": "proved",
   "theorems": [
    "C17_bigint",
    "C17_bytes",
    "C17_roundtrip",
    "C17_text",
    "C17_accepts",
    "C17_total",
    "C17_new"
   ],
   "note": "Numbers: unsigned value `2^64*Hi+Lo`; conversions, texts, accepted texts"
  },
  {
   "property": "C18",
   "status": "proved",
   "theorems": [
    "C18_bigint",
    "C18_roundtrip",
    "C18_accepts",
    "C18_total",
    "C18_minimum_corrupted",
    "C18_new"
   ],
   "note": "Numbers: two's complement value; the minimum is the one value that does not survive"
  },
  {
   "property": "C19",
   "status": "proved",
   "theorems": [
    "C19_form",
    "C19_roundtrip",
    "C19_accepts",
    "C19_reject_keeps"
   ],
   "note": "Numbers: quoted above 2^32-1, accepted texts, target kept on error"
  },
  {
   "property": "C20",
   "status": "proved",
   "theorems": [
    "C20_roundtrip",
    "C20_accepts",
    "C20_reject_keeps",
    "C20_string",
    "C20_order"
   ],
   "note": "Numbers: as C19"
  },
  {
   "property": "C21",
   "status": "proved",
   "theorems": [
    "C21_calendar",
    "C21_every_date",
    "C21_text",
    "C21_accepts",
    "C21_roundtrip",
    "C21_time",
    "C21_unmarshal"
   ],
   "note": "Time: calendar by counting days one after another (`SpecTime`), Go's algorithms proved to compute it for every date"
  },
  {
   "property": "C22",
   "status": "proved",
   "theorems": [
    "C22_time",
    "C22_nearest",
    "C22_wraps",
    "C22_time_roundtrip",
    "C22_text",
    "C22_accepts",
    "C22_roundtrip",
    "C22_unmarshal"
   ],
   "note": "Time: rounding to the nearest half second, wrap outside the range, texts"
  },
  {
   "property": "C23",
   "status": "proved",
   "theorems": [
    "C23_time",
    "C23_text",
    "C23_roundtrip",
    "C23_exact",
    "C23_accepts",
    "C23_outside",
    "C23_unmarshal"
   ],
   "note": "Time: microseconds; texts keep milliseconds; exact accepted language"
  },
  {
   "property": "C24",
   "status": "proved",
   "theorems": [
    "C24_checksum_text",
    "C24_checksum_roundtrip",
    "C24_checksum_outcome",
    "C24_float128_roundtrip",
    "C24_float128_outcome"
   ],
   "note": "Hex: hexadecimal digits by value; outcome for every text"
  },
  {
   "property": "C25",
   "status": "proved",
   "theorems": [
    "C25_roundtrip",
    "C25_outcome"
   ],
   "note": "Hex: as C24; errors of the hex decoder are swallowed, stated as outcome"
  },
  {
   "property": "C26",
   "status": "proved",
   "theorems": [
    "C26_text",
    "C26_text_unique",
    "C26_roundtrip",
    "C26_accepts"
   ],
   "note": "Hex: base64 with and without padding; unique text"
  },
  {
   "property": "C27",
   "status": "proved",
   "theorems": [
    "C27_argument_kept",
    "C27_overwrites"
   ],
   "note": "Hex: slice with its backing array, argument kept or overwritten"
  },
  {
   "property": "C28",
   "status": "proved",
   "theorems": [
    "C28_encode",
    "C28_decode_encode",
    "C28_encode_decode",
    "C28_spec_unique",
    "C28_output_alphabet"
   ],
   "note": "Base58: positional numerals in base 58 with leading zeros"
  },
  {
   "property": "C29",
   "status": "proved",
   "theorems": [
    "C29_foreign",
    "C29_complete",
    "C29_ascii"
   ],
   "note": "Base58: range over a string (UTF-8) with foreign characters"
  },
  {
   "property": "C30",
   "status": "proved",
   "theorems": [
    "C30_encode",
    "C30_encode_eosio",
    "C30_decode",
    "C30_decode_eosio",
    "C30_roundtrip",
    "C30_genuine"
   ],
   "note": "Keys: SHA-256 is an arbitrary function returning 32 bytes; checksums compared"
  },
  {
   "property": "C31",
   "status": "proved",
   "theorems": [
    "C31_pub_string",
    "C31_sig_string",
    "C31_pub_parse",
    "C31_sig_parse",
    "C31_roundtrip",
    "C31_type_bound",
    "C31_reject_keeps"
   ],
   "note": "Keys: texts determined by type and data; accepted texts"
  },
  {
   "property": "C32",
   "status": "proved",
   "theorems": [
    "C32_roundtrip",
    "C32_parse",
    "C32_only_k1"
   ],
   "note": "Keys: legacy EOS prefix"
  },
  {
   "property": "C33",
   "status": "proved",
   "theorems": [
    "C33_public_key",
    "C33_signature",
    "C33_unknown_type",
    "C33_type_faithful"
   ],
   "note": "Chain: layouts of K1, R1 and WA keys and signatures, unknown types"
  },
  {
   "property": "C34",
   "status": "proved",
   "theorems": [
    "C34_checksum160",
    "C34_digest",
    "C34_append",
    "C34_padding",
    "C34_size"
   ],
   "note": "Ripemd: independent transcription of the paper; Go's block function proved equal"
  },
  {
   "property": "C35",
   "status": "proved",
   "theorems": [
    "C35_history",
    "C35_chunking"
   ],
   "note": "Ripemd: invariant on the digest state over operation histories (Write, Sum, Reset)"
  },
  {
   "property": "C36",
   "status": "proved",
   "theorems": [
    "C36_action",
    "C36_transaction",
    "C36_layout_determines",
    "C36_scalars"
   ],
   "note": "Chain: layouts as relations (`SpecChain`), both directions"
  },
  {
   "property": "C37",
   "status": "proved",
   "theorems": [
    "C37_action_injective",
    "C37_transaction_injective",
    "C37_encodable_iff",
    "C37_digest_is_hash_of_encoding",
    "C37_checksums",
    "C37_digest_collision"
   ],
   "note": "Chain (Checksum256Digest, Checksum512Digest with their copy into an array): injectivity; digests for an arbitrary hash function returning 32 or 64 bytes"
  },
  {
   "property": "C38",
   "status": "proved",
   "theorems": [
    "C38_action_appends",
    "C38_action_fresh_iff",
    "C38_transaction_overwrites"
   ],
   "note": "Chain: decoding into a non-empty target"
  },
  {
   "property": "C39",
   "status": "proved",
   "theorems": [
    "C39_dynamic_array",
    "C39_bytes",
    "C39_string",
    "C39_action",
    "C39_transaction",
    "C39_length_free"
   ],
   "note": "Chain: allocation limit: which lengths panic before any data arrives"
  },
  {
   "property": "C40",
   "status": "proved",
   "theorems": [
    "C40_roundtrip",
    "C40_wire_form"
   ],
   "note": "Reflect: typing and wire form as inductive relations over a deep embedding of Go types (recursive types through declared names); round trip by mutual induction on the wire form; user-defined types need methods that agree with each other (`faithful`)"
  },
  {
   "property": "C41",
   "status": "proved",
   "theorems": [
    "C41_overwrites",
    "C41_roundtrip_any_target",
    "C41_action_appends"
   ],
   "note": "Reflect: equal outcomes from any two targets; the exception (a slice field of Action) stated"
  },
  {
   "property": "C42",
   "status": "proved",
   "theorems": [
    "C42_any_order",
    "C42_not_determined",
    "C42_last_wins"
   ],
   "note": "Reflect: maps are association lists in enumeration order; any permutation; bytes that repeat a key"
  },
  {
   "property": "C43",
   "status": "proved",
   "theorems": [
    "C43_optional_encoding",
    "C43_optional_absent",
    "C43_extensions_absent",
    "C43_extension_truncated",
    "C43_variant_decoding",
    "C43_variant_out_of_range",
    "C43_variant_never_encodes",
    "C43_variant_field_never_encodes"
   ],
   "note": "Reflect: struct tags; variants decode but never encode"
  },
  {
   "property": "C44",
   "status": "proved",
   "theorems": [
    "C44_resolution",
    "C44_panics",
    "C44_malformed",
    "C44_name_unambiguous"
   ],
   "note": "AbiDyn: resolver with its memo table against an inductive reading of type names"
  },
  {
   "property": "C45",
   "status": "proved",
   "theorems": [
    "C45_layout",
    "C45_roundtrip",
    "C45_fixed_point",
    "C45_declared_fields"
   ],
   "note": "AbiDyn: wire form of schema values as an inductive relation"
  },
  {
   "property": "C46",
   "status": "proved",
   "theorems": [
    "C46_order",
    "C46_fields_unique",
    "C46_no_fields",
    "C46_rejected"
   ],
   "note": "AbiDyn: fields of the base come first"
  },
  {
   "property": "C47",
   "status": "proved",
   "theorems": [
    "C47_decode_terminates",
    "C47_decode_diverges",
    "C47_encode_terminates",
    "C47_encode_diverges",
    "C47_budget_irrelevant"
   ],
   "note": "AbiDyn: fuel: enough exists iff the type is well founded along a relation on names"
  },
  {
   "property": "C48",
   "status": "proved",
   "theorems": [
    "C48_layout",
    "C48_encode_rejects",
    "C48_index_out_of_range",
    "C48_index_in_range"
   ],
   "note": "AbiDyn: variants by index"
  },
  {
   "property": "C49",
   "status": "proved",
   "theorems": [
    "C49_nil_optional",
    "C49_nil_required",
    "C49_present_optional",
    "C49_extension_absent",
    "C49_extension_builtin",
    "C49_extension_array",
    "C49_extension_optional"
   ],
   "note": "AbiDyn: optional and extension fields"
  },
  {
   "property": "C50",
   "status": "proved",
   "theorems": [
    "C50_bytes",
    "C50_bytes_not_inverse",
    "C50_eosio_name"
   ],
   "note": "AbiDyn: outcome of encoding and decoding the builtin `bytes` and of `eosio::name`"
  },
  {
   "property": "C51",
   "status": "proved",
   "theorems": [
    "C51_lookup_struct",
    "C51_lookup_variant",
    "C51_lookup_type",
    "C51_lookup_action",
    "C51_lookup_table",
    "C51_undeclared_action",
    "C51_declared_action"
   ],
   "note": "AbiDyn: first match"
  },
  {
   "property": "C52",
   "status": "proved",
   "theorems": [
    "C52_same_bytes",
    "C52_outcomes_agree"
   ],
   "note": "AbiDyn Reflect: correspondence of schema values and Go values (`SpecTwin`)"
  },
  {
   "property": "C53",
   "status": "proved",
   "theorems": [
    "C53_roundtrip",
    "C53_without_variants",
    "C53_determined",
    "C53_nil_extension"
   ],
   "note": "AbiDyn Reflect: chain.Abi as a Go struct under the reflective codec"
  },
  {
   "property": "C54",
   "status": "proved",
   "theorems": [
    "C54_encoder_first",
    "C54_decoder_first",
    "C54_encoder_otherwise",
    "C54_decoder_otherwise",
    "C54_encoder_elements",
    "C54_decoder_elements"
   ],
   "note": "Reflect: custom functions are arbitrary programs"
  },
  {
   "property": "C55",
   "status": "proved",
   "theorems": [
    "C55_same_however_passed",
    "C55_transaction",
    "C55_composites"
   ],
   "note": "Reflect Chain: hand-written and reflective codecs write the same bytes"
  },
  {
   "property": "C56",
   "status": "proved",
   "theorems": [
    "C56_generator_panics",
    "C56_compiles",
    "C56_writes",
    "C56_reads",
    "C56_roundtrip",
    "C56_pointer_refuted",
    "C56_stale_refuted"
   ],
   "note": "Codegen: emitted statements with typing rules and an interpreter; compared with C40's codec"
  },
  {
   "property": "C57",
   "status": "proved",
   "theorems": [
    "C57_roundtrip",
    "C57_fields",
    "C57_not_a_map",
    "C57_undeclared",
    "C57_truncated",
    "C57_into",
    "C57_agree"
   ],
   "note": "ActionData: composition of the dynamic codec with Action"
  },
  {
   "property": "C58",
   "status": "proved",
   "theorems": [
    "C58_truncation",
    "C58_extension_refuted"
   ],
   "note": "AbiDyn: as C07; extensions are the exception (`_refuted`)"
  },
  {
   "property": "C59",
   "status": "proved",
   "theorems": [
    "C59_write_faults",
    "C59_optional_refuted"
   ],
   "note": "AbiDyn: as C08; presence bytes of absent optionals are the exception"
  },
  {
   "property": "C60",
   "status": "proved",
   "theorems": [
    "C60_truncation",
    "C60_prefix_free",
    "C60_extension_refuted"
   ],
   "note": "Reflect: as C07; extensions are the exception"
  },
  {
   "property": "C61",
   "status": "proved",
   "theorems": [
    "C61_faults",
    "C61_no_optionals",
    "C61_optional_refuted"
   ],
   "note": "Reflect: as C08; presence flags are the exception"
  },
  {
   "property": "C62",
   "status": "proved",
   "theorems": [
    "C62_decoded",
    "C62_reencodes",
    "C62_large",
    "C62_same_bytes_refuted",
    "C62_extension_refuted"
   ],
   "note": "Reflect: invariant of decoding on arbitrary input (`filled`), then encoding by induction on it"
  },
  {
   "property": "C63",
   "status": "proved",
   "theorems": [
    "C63_keeps",
    "C63_blind",
    "C63_zeroed",
    "C63_blob_refuted",
    "C63_silent",
    "C63_float128_refuted"
   ],
   "note": "the text models: case analysis of each method; the blob exception by induction on the groups of three bytes"
  },
  {
   "property": "C64",
   "status": "proved",
   "theorems": [
    "C64_seconds",
    "C64_blocks",
    "C64_points",
    "C64_points_refuted"
   ],
   "note": "Time: fields of fixed width compare left to right; days of a year and months in order by the calendar of C21"
  },
  {
   "property": "C65",
   "status": "proved",
   "theorems": [
    "C65_nearest",
    "C65_panics"
   ],
   "note": "Symbol, strconv.ParseFloat a parameter: the text of C14 for any symbol, split at its space"
  },
  {
   "property": "C66",
   "status": "proved",
   "theorems": [
    "C66_leaf",
    "C66_decode",
    "C66_dynamic",
    "C66_seven_refuted"
   ],
   "note": "Chain.v, Leaf.v, Reflect.v (decode), AbiDyn.v (decodeType); SpecLengths.v: LengthProofs.v: a logic of panic-free programs on inputs without long runs; a varuint then stays below 128^6 = 2^42, so every make fits; induction over the step budget for Decode and decodeType; the bound is sharp (C66_seven_refuted)"
  },
  {
   "property": "C67",
   "status": "proved",
   "theorems": [
    "C67_no_panic",
    "C67_succeeds",
    "C67_fails",
    "C67_panics",
    "C67_dynamic"
   ],
   "note": "Reflect.v (encode), Leaf.v, Chain.v, AbiDyn.v (encodeType); SpecPanics.v: PanicProofs.v: programs without a reachable panic, closed under sequencing, so the claim holds for every writer; success leaves no cause (induction over the typing of the value); values without causes end without error"
  },
  {
   "property": "C68",
   "status": "proved",
   "theorems": [
    "C68_encode",
    "C68_decode",
    "C68_errors",
    "C68_generated",
    "C68_finite"
   ],
   "note": "Reflect.v (the cases for types with methods), Codegen.v; SpecUser.v: UserProofs.v: an error logic for Encode with any writer (induction over the typing); generated methods read a determined prefix, do not depend on the step budget and on finite structs need a fixed amount of it; C68_generated builds on C56"
  },
  {
   "property": "C69",
   "status": "proved",
   "theorems": [
    "C69_fuel",
    "C69_ends",
    "C69_uniform",
    "C69_self_refuted"
   ],
   "note": "Reflect.v (decode); SpecTerm.v: TermProofs.v: more budget refines the result; well-founded induction on the types reached without reading, inside induction on the length of the input"
  },
  {
   "property": "C70",
   "status": "proved",
   "theorems": [
    "C70_panics",
    "C70_truncation",
    "C70_faults"
   ],
   "note": "UnmarshalABI, MarshalABI of Codegen.v (the code the generator emits, executed) on arbitrary targets, inputs and writers: `CodegenSafe.v`: one proof over an abstract logic of programs (ret, error, bind, read, make) by induction on the emitted statements and on struct nesting, instantiated with \"no panic\" (C66) and with \"every read checked\" (C60); writes by induction on statements, every write being inside an error check"
  },
  {
   "property": "C71",
   "status": "proved",
   "theorems": [
    "C71_html",
    "C71_strings",
    "C71_utf8_refuted",
    "C71_scalars",
    "C71_symbols",
    "C71_keys",
    "C71_signature_refuted",
    "C71_action",
    "C71_transaction",
    "C71_parts",
    "C71_abi",
    "C71_stale_refuted",
    "C71_order",
    "C71_order_parts",
    "C71_grammar",
    "C71_nesting",
    "C71_numbers",
    "C71_kinds",
    "C71_null",
    "C71_missing",
    "C71_new_elements",
    "C71_new_actions",
    "C71_last",
    "C71_bad_hex"
   ],
   "note": "Json: encoding/json as far as it matters (strings with escapes, UTF-8 and surrogates, a parser of texts, slices, pointers, structs with tags, omitempty and embedding, the choice of methods) and the struct tags and text methods of pkg/chain as codecs over it; the Go release (escapes, case folding) is a parameter: `JsonProofs`: printed values parse back, by induction over JSON values; `JsonStrings`: RFC 8259 spellings, character by character; `JsonCodecs`: round trip of slices, pointers and structs from that of their parts; `JsonTypes`: each type, its text from the C09-C31 theorems; `JsonText`: the parser accepts exactly the grammar of RFC 8259 (`SpecJsonText`); `JsonOrder`: independent fields commute, so any permutation of members decodes the same; Signature by value, invalid UTF-8 and stale ABI variants are refuted; PropHtml.v: what is never in the text of a string, by induction along the string"
  },
  {
   "property": "C72",
   "status": "proved",
   "theorems": [
    "C72_roundtrip",
    "C72_cut",
    "C72_crash",
    "C72_loop",
    "C72_eof_refuted"
   ],
   "note": "SpecStream: the user programs that write and read many records with one encoder and one decoder (no new model of repository code): round trip by induction over the list from C40 and C45; the cut from C60 and C58; breakdowns of the writer from C61 and C59; the EOF ambiguity as a concrete pair of streams"
  },
  {
   "property": "C73",
   "status": "proved",
   "theorems": [
    "C73_source",
    "C73_panics"
   ],
   "note": "the templates' text byte for byte (CodegenSource.v); a scanner for Go tokens with automatic semicolons, a syntax and an interpreter for the fragment of Go in use (GoLang.v), a recursive-descent parser for it (GoParse.v), and what the compiler checks of it (GoCheck.v): the text of every struct scans to the spelling of two syntax trees (compositional lemmas about the scanner, one for each template); the parser reads back every spelling in which precedence is respected (GoParseProofs.v), up to the nesting of sequences, which changes neither meaning nor verdict (GoNorm.v); the interpreter on those trees is simulated, statement by statement, by the code of Codegen.v; the checker's verdict on them is computed template by template and equals the condition of C56 (CodegenCheck.v)"
  },
  {
   "property": "C74",
   "status": "proved",
   "theorems": [
    "C74_same_bytes",
    "C74_roundtrip",
    "C74_wire_form",
    "C74_nil",
    "C74_nil_panics"
   ],
   "note": "Encode on values with interface variables inside (Interfaces.v): values described together with the types of their parts; Encode of Reflect.v for the parts without interfaces: equal runs with the interface-free value by mutual induction over the relation between the two; wire form both ways by induction over the value; a nil interface by induction over where it stands"
  },
  {
   "property": "C75",
   "status": "proved",
   "theorems": [
    "C75_like_static",
    "C75_roundtrip",
    "C75_no_pointer_inside",
    "C75_refused",
    "C75_slice_held",
    "C75_slice_new",
    "C75_map",
    "C75_argument",
    "C75_nil_pointer",
    "C75_variant_argument",
    "C75_variant_like_static",
    "C75_alternatives",
    "C75_same_type"
   ],
   "note": "Decode into targets with interface variables (Targets.v), the checks of the argument of Decode and DecodeVariant: simulation of the interface-free Decode by induction on the fuel, the relation between targets as invariant; round trip from it and C41; refusal by induction on the fuel; slices with the number of elements they hold by the same simulation, with any other by refusal; maps by induction on the number of entries; the alternatives of a variant by induction on its fields"
  },
  {
   "property": "C76",
   "status": "proved",
   "theorems": [
    "C76_reflective",
    "C76_interfaces",
    "C76_dynamic"
   ],
   "note": "no new model: from the round trips of C40, C74 and C45, which read an encoding back whatever follows it"
  },
  {
   "property": "C77",
   "status": "proved",
   "theorems": [
    "C77_no_longer",
    "C77_shortest",
    "C77_normal_form",
    "C77_transaction",
    "C77_action",
    "C77_one_encoding",
    "C77_conditions_refuted"
   ],
   "note": "no new model; SpecCanonical.v: CanonicalProofs.v: a logic of decoding programs (what was consumed, and which encodings of the result it bounds), closed under sequencing; a minimal varuint is the shortest of its value; induction over the step budget of Decode, maps by a budget per entry; the methods of every chain type one by one"
  },
  {
   "property": "C78",
   "status": "proved",
   "theorems": [
    "C78_no_longer",
    "C78_shortest",
    "C78_accepted",
    "C78_action",
    "C78_conditions_refuted"
   ],
   "note": "no new model; SpecReencode.v: ReencodeProofs.v: the logic of C77 on the interpreter, by induction over its step budget with the resolved table (`table_for`); every successful decoding consumes a byte, which bounds the element counts; re-encodability as a derivation of the binary form (`abi_enc`) built along the decoding, then the soundness theorem of C45"
  },
  {
   "property": "C79",
   "status": "proved",
   "theorems": [
    "C79_bounded",
    "C79_action",
    "C79_extension_refuted"
   ],
   "note": "no new model; SpecBulk.v (how big a value is): BulkProofs.v: the logic of C77/C78 on the interpreter with the predicate \"size at most (2 + L) times the bytes taken\"; every leaf takes at least a byte and keeps no more than it took, a struct without fields is not decodable, so elements are paid for; refuted for '$' types by an array of an alias of one, for every count below 2^28"
  },
  {
   "property": "C80",
   "status": "proved",
   "theorems": [
    "C80_bounded",
    "C80_transaction",
    "C80_action",
    "C80_empty_refuted"
   ],
   "note": "no new model; SpecContents.v (what a value holds, which types cost a byte): ContentsProofs.v: the logic of C77 on the reflective decoder, all three modes by induction over the nesting depth, with the predicate \"holds at most the bytes taken, and less if the type costs a byte\"; targets are zero values throughout; leaves one by one; refuted for slices of empty structs, for every count below 2^28"
  },
  {
   "property": "C81",
   "status": "proved",
   "theorems": [
    "C81_faults",
    "C81_no_optionals",
    "C81_truncation",
    "C81_no_panic",
    "C81_flag_refuted"
   ],
   "note": "Interfaces.v (encode_any), Targets.v (decode_target); SpecParts.v: PartsProofs.v: the classes of programs of C60 and C61 are closed under the steps of `encode_any` and `decode_target`, by induction on the value and on the step budget; panics through C75 and C66"
  },
  {
   "property": "C82",
   "status": "proved",
   "theorems": [
    "C82_names",
    "C82_symbols",
    "C82_assets",
    "C82_assets_refuted",
    "C82_numbers",
    "C82_numbers_refuted",
    "C82_json_numbers",
    "C82_times",
    "C82_keys",
    "C82_binary"
   ],
   "note": "Name.v, Symbol.v, Numbers.v, Time.v, Keys.v, Hex.v (parsers and printers); SpecSettled.v: PropSettled.v: what each parser accepts (C10-C32) lies in the domain on which its printer is inverted; the two values outside it are shown to be reachable (C82_assets_refuted, C82_numbers_refuted)"
  },
  {
   "property": "C83",
   "status": "proved",
   "theorems": [
    "C83_strings",
    "C83_transactions",
    "C83_abi",
    "C83_numbers",
    "C83_times",
    "C83_binary",
    "C83_keys",
    "C83_symbols",
    "C83_assets"
   ],
   "note": "Json.v (codecs, Marshal, Unmarshal); SpecJson.v, SpecChain.v: PropJsonKept.v, JsonKept.v: every codec keeps the range of its type, by induction over elements and members; decoded strings are UTF-8, by strong induction on the text; then C71 gives the way back"
  },
  {
   "property": "C84",
   "status": "proved",
   "theorems": [
    "C84_packed",
    "C84_unpacked",
    "C84_agree",
    "C84_releases",
    "C84_abi"
   ],
   "note": "Json.v, Chain.v, Reflect.v, AbiDyn.v (codecs and ABI methods of the same types); SpecJson.v, SpecChain.v, SpecAbiDef.v: PropForms.v: C36, C37, C53, C71 and C83 put together; JsonReleases.v shows that two Go releases that fold keys alike read alike, and two that escape alike print alike"
  },
  {
   "property": "C85",
   "status": "proved",
   "theorems": [
    "C85_struct",
    "C85_array",
    "C85_slice",
    "C85_map",
    "C85_pointer",
    "C85_variant",
    "C85_kept",
    "C85_zeroed",
    "C85_byte_slice",
    "C85_asset",
    "C85_key",
    "C85_header",
    "C85_extension",
    "C85_extended_asset",
    "C85_transaction",
    "C85_permission_level",
    "C85_action"
   ],
   "note": "Reflect.v decode and its parts, Leaf.v, Chain.v and AbiPrim.v UnmarshalABI and Read functions, all of which return the target together with the error; SpecFailed.v: PropFailed.v, PropFailedTypes.v: one theorem per shape of target or type, each by induction on the fields, elements or entries; whether a leaf slice left by a failure is nil or empty is not said, because the model does not keep it"
  },
  {
   "property": "C86",
   "status": "proved",
   "theorems": [
    "C86_left",
    "C86_composite",
    "C86_simple"
   ],
   "note": "AbiDyn.v decodeType, decodeInner, decodeBuiltin, Abi_Decode; SpecAbiFailed.v left_beside: PropAbiFailed.v: by induction on the budget of decodeType, with the table of resolved types read through C44's description of it; C86_left gives the value for every kind of type, C86_composite and C86_simple follow. Whether a returned Bytes value is nil or empty is not modelled"
  },
  {
   "property": "C87",
   "status": "proved",
   "theorems": [
    "C87_written",
    "C87_refused"
   ],
   "note": "AbiDyn.v encodeType, encodeInner, encodeBuiltin, Abi_Encode; SpecAbiPart.v fail_enc: PropAbiPart.v: C87_written by induction on the budget of encodeType, using the soundness and completeness of C45 for the parts that are encoded before the fault; C87_refused by induction on fail_enc. Errors are told apart by the fixed part of their message. The types bytes and eosio::name are left out because their encoder and decoder disagree (C50)"
  },
  {
   "property": "C88",
   "status": "proved",
   "theorems": [
    "C88_written",
    "C88_refused"
   ],
   "note": "Reflect.v Encode and its loops over elements, entries and fields; SpecCut.v cut_short: PropCut.v: C88_written by induction on the typed value, cutting every sequence at the first part that fails; C88_refused by induction on cut_short. A type's own MarshalABI is arbitrary, and its own writes are part of what is described"
  },
  {
   "property": "C89",
   "status": "proved",
   "theorems": [
    "C89_beginning",
    "C89_unread",
    "C89_not_ahead",
    "C89_decode",
    "C89_abi"
   ],
   "note": "Prog.v dec, run, readfull, run_chunks: the Decoder's only access to its reader is io.ReadFull; SpecAhead.v arrived, needs_only: PropAhead.v: by induction on the decoder as a tree of reads, for every decoder at once; C89_decode and C89_abi join this with the round trips of C40 and C45. When an extension field is absent at the end of the input the reader has been asked for it, so nothing is left unread and only C89_beginning applies"
  }
 ]
}