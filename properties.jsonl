{"id": "C01", "title": "Fixed-width integers, bools and floats survive the wire", "statement": "For every value v of uint8/16/32/64, int8/16/32/64, bool, float32, float64: Encoder.WriteX(v) emits exactly the little-endian two's-complement bytes of v (1/2/4/8 bytes; floats by IEEE bit pattern, bool as 0/1), and Decoder.ReadX on those bytes followed by anything returns v, no error, and leaves the following bytes unread.", "quantifier": "all values of each type, all trailing byte streams", "why_tests_cant": "2^64 values per type and unbounded trailing streams", "anchors": ["pkg/abi/encode.go: WriteUint8..WriteInt64, WriteBool, WriteFloat32/64", "pkg/abi/decode.go: ReadUint8..ReadInt64, ReadBool, ReadFloat32/64"]}
{"id": "C02", "title": "Varuint writes are minimal LEB128 and read back", "statement": "For every uint v < 2^28 WriteVaruint(v) emits the minimal base-128 little-endian encoding (no redundant trailing group) and ReadVaruint on it returns v and consumes exactly those bytes; likewise WriteVarint/ReadVarint for every int in [-2^27, 2^27) through the zigzag mapping.", "quantifier": "all integers in range, all trailing streams", "why_tests_cant": "hundreds of millions of values and unbounded suffixes", "anchors": ["pkg/abi/encode.go: WriteVaruint, WriteVarint", "pkg/abi/decode.go: ReadVaruint, ReadVarint"]}
{"id": "C03", "title": "Exact domain on which varint writes panic", "statement": "WriteVaruint panics (index out of range) exactly for v >= 2^28 and WriteVarint exactly for v outside [-2^27, 2^27); so legal EOSIO varuint32/varint32 values (up to 2^32-1) cannot all be written, and no value below the bound panics.", "quantifier": "all uint / int values", "why_tests_cant": "boundary must hold for every value, on both sides", "anchors": ["pkg/abi/encode.go: WriteVaruint, WriteVarint ([4]byte buffer)"]}
{"id": "C04", "title": "Varuint reads are total and exact", "statement": "For every byte stream ReadVaruint never panics, consumes at most 10 bytes, and returns: the base-128 value of the bytes up to and including the first byte below 0x80, when there are at most ten and the value fits 64 bits; an overflow error when the tenth byte does not terminate or exceeds 1; otherwise the reader's end error. Non-minimal encodings are accepted, so distinct inputs can decode to one value.", "quantifier": "all byte streams", "why_tests_cant": "unbounded input space", "anchors": ["pkg/abi/decode.go: ReadVaruint, ReadByte, ReadBytes"]}
{"id": "C05", "title": "Strings and byte slices survive the wire", "statement": "For every byte string of length < 2^28, WriteString (and []byte, Bytes, Blob encoding) followed by the matching read returns the same bytes and leaves the rest of the stream unread; nothing shorter is ever returned without an error.", "quantifier": "all byte strings, all trailing streams", "why_tests_cant": "unbounded lengths", "anchors": ["pkg/abi/encode.go: WriteString, Encode([]byte)", "pkg/abi/decode.go: ReadString, Decode(*[]byte)", "pkg/chain/bytes.go", "pkg/chain/blob.go"]}
{"id": "C06", "title": "Decoding does not depend on how the reader fragments the stream", "statement": "For every decoding operation of the library and every io.Reader that delivers the same bytes and the same final error, in whatever chunk sizes, with empty reads interspersed and with the final error delivered together with or after the last data, the result (value, error, panic) is the same.", "quantifier": "all decoders, all chunkings, all data, all end errors", "why_tests_cant": "the space of read schedules is infinite", "anchors": ["pkg/abi/decode.go: ReadBytes (io.ReadFull)"]}
{"id": "C07", "title": "Truncated input is always reported", "statement": "For every fixed chain type decoder (primitives, Name, Asset, ..., PublicKey, Signature, Action, Transaction): if decoding some input succeeds having consumed the bytes p, then decoding any proper prefix of p returns a non-nil error (never a value, never a panic caused by the truncation), and decoding p followed by any other suffix returns the same value and leaves that suffix unread.", "quantifier": "all inputs, all cut points, all suffixes", "why_tests_cant": "every crash point of every message", "anchors": ["pkg/chain/*.go UnmarshalABI", "pkg/abi/decode.go"]}
{"id": "C08", "title": "Writer failures are reported", "statement": "If the io.Writer fails once and keeps failing, every MarshalABI returns a non-nil error whenever any byte was not written, and the bytes that reached the writer are a prefix of the full encoding. With a writer that fails and then recovers, an Action (or PermissionLevel) can be reported as written although bytes are missing, because the errors of its first writes are discarded.", "quantifier": "all values, all failure points, all partial writes", "why_tests_cant": "all failure schedules", "anchors": ["pkg/abi/encode.go: WriteBytes", "pkg/chain/action.go: MarshalABI", "pkg/chain/transaction.go: MarshalABI", "pkg/chain/abi.go: encodeType"]}
{"id": "C09", "title": "Every 64-bit name value survives its text form", "statement": "For every uint64 n, NewName(Name(n).String()) == n; hence String is injective and JSON/text round-trips are lossless.", "quantifier": "all 2^64 values", "why_tests_cant": "2^64 values", "anchors": ["pkg/chain/name.go: nameToString, stringToName"]}
{"id": "C10", "title": "Name strings are normalised to the EOSIO alphabet", "statement": "For every byte string s, NewName(s).String() consists of at most 13 characters of .12345a-z, does not end in '.', has a 13th character at most 'j', and is a fixed point of the normalisation; and String(NewName(s)) == s exactly when s already has that form.", "quantifier": "all byte strings of any length", "why_tests_cant": "unbounded strings", "anchors": ["pkg/chain/name.go"]}
{"id": "C11", "title": "Name order is text order", "statement": "For all names a, b the numeric order of the uint64 values equals the lexicographic byte order of their String() forms.", "quantifier": "all pairs of uint64", "why_tests_cant": "2^128 pairs", "anchors": ["pkg/chain/name.go: nameToString"]}
{"id": "C12", "title": "Symbol packing and text form", "statement": "NewSymbol(p, name) succeeds exactly when p <= 18 and name is at most 7 characters all in A-Z; the resulting Symbol reports Decimals()=p, Name()=name, Precision()=10^p, Code() = the packed name, and NewSymbolFromString(String()) returns it again. NewSymbolFromString accepts exactly <int8 decimal>,<name>.", "quantifier": "all precisions and all byte strings", "why_tests_cant": "unbounded strings", "anchors": ["pkg/chain/symbol.go"]}
{"id": "C13", "title": "SymbolCode text form", "statement": "For every name of at most 7 letters A-Z, SymbolCode.UnmarshalText(name) yields the packed code and MarshalText gives the name back; any other text is rejected and leaves the target unchanged.", "quantifier": "all byte strings", "why_tests_cant": "unbounded strings", "anchors": ["pkg/chain/symbol.go: SymbolCode"]}
{"id": "C14", "title": "Asset text round-trip", "statement": "For every int64 amount except the minimum and every symbol with precision <= 18 and a non-empty A-Z name of at most 7 letters, NewAssetFromString(a.String()) returns exactly a. For the minimum int64 the text starts with \"--\" and is rejected.", "quantifier": "all int64 x all valid symbols", "why_tests_cant": "2^64 amounts x 8*10^9 names x 19 precisions", "anchors": ["pkg/chain/asset.go: String, NewAssetFromString"]}
{"id": "C15", "title": "Asset text denotes the exact decimal", "statement": "Whenever NewAssetFromString(s) succeeds with (value, symbol), s is  [-]digits[.digits] NAME  (either digit block possibly empty but not both), symbol.Decimals() is the number of digits after the point, NAME is the symbol name and value / 10^decimals is the decimal number written; conversely every such string whose scaled value fits int64, with at most 18 decimals and a valid name, is accepted.", "quantifier": "all byte strings", "why_tests_cant": "unbounded strings", "anchors": ["pkg/chain/asset.go: NewAssetFromString"]}
{"id": "C16", "title": "Asset printing is safe only for precision <= 18", "statement": "Asset.String never panics when the symbol precision is <= 18; for every decoded asset whose precision byte is >= 64 it panics with an integer division by zero.", "quantifier": "all int64 amounts, all uint64 symbols", "why_tests_cant": "2^128 combinations", "anchors": ["pkg/chain/asset.go: String", "pkg/chain/symbol.go: Precision"]}
{"id": "C17", "title": "Uint128 conversions", "statement": "For every Hi, Lo: BigInt() is Hi*2^64+Lo; NewUint128(BigInt()) and NewUint128FromString(String()) return the same value; Bytes(LittleEndian/BigEndian) are the 16-byte positional encodings; NewUint128FromString accepts exactly optionally signed decimal integers in [0, 2^128).", "quantifier": "all 2^128 values, all strings", "why_tests_cant": "2^128 values", "anchors": ["pkg/chain/numbers.go: Uint128"]}
{"id": "C18", "title": "Int128 conversions", "statement": "For every 128-bit two's-complement value, BigInt() is its signed value, and NewInt128FromString(String()) returns it again for every value except -2^127, for which the result is corrupted to -2^119; NewInt128FromString also accepts 2^127..2^128-1 and wraps them to negative numbers, and corrupts every accepted value below -2^127.", "quantifier": "all 2^128 values, all strings", "why_tests_cant": "2^128 values", "anchors": ["pkg/chain/numbers.go: Int128, NewInt128"]}
{"id": "C19", "title": "Uint64 JSON form", "statement": "For every uint64 v, the JSON form is the decimal number, quoted exactly when v > 2^32-1, and reading it gives v back; reading accepts exactly a (possibly quoted) non-empty digit string denoting a value < 2^64.", "quantifier": "all uint64 and all byte strings", "why_tests_cant": "2^64 values", "anchors": ["pkg/chain/numbers.go: readUintJSON, writeUintJSON"]}
{"id": "C20", "title": "BlockNum JSON and text form", "statement": "For every uint32 n BlockNum JSON round-trips; values above 2^32-1 are rejected leaving the target unchanged; String() is 10 characters and its lexicographic order is the numeric order.", "quantifier": "all uint32, all byte strings", "why_tests_cant": "2^64 pairs", "anchors": ["pkg/chain/numbers.go: BlockNum"]}
{"id": "C21", "title": "TimePointSec text round-trip", "statement": "For every uint32 t, TimePointSec(t).String() is the UTC civil date and time (proleptic Gregorian) of t seconds after 1970-01-01, and NewTimePointSecFromString reads it back to t, with or without a trailing Z. The texts NewTimePointSecFromString accepts are exactly the valid civil date-times (one- or two-digit hour) with an optional ignored fraction and optional Z; seconds outside 32 bits are silently reduced modulo 2^32. It never panics, and UnmarshalText changes its target only on success.", "quantifier": "all uint32", "why_tests_cant": "2^32 values and the whole calendar", "anchors": ["pkg/chain/time.go"]}
{"id": "C22", "title": "BlockTimestamp text and time round-trip", "statement": "For every uint32 b, Time() is 2000-01-01 plus b half-seconds; NewBlockTimestamp(b.Time()) == b; String() is the civil text with milliseconds and NewBlockTimestampFromString reads it back to b; NewBlockTimestamp rounds any time to the nearest half-second slot (ties to the later one), reduced modulo 2^32 outside the range of the type. The accepted texts are exactly the valid civil date-times with a three-digit fraction; rejection leaves the target of UnmarshalText alone.", "quantifier": "all uint32, all times in range", "why_tests_cant": "2^32 values", "anchors": ["pkg/chain/time.go"]}
{"id": "C23", "title": "TimePoint text precision", "statement": "For every microsecond timestamp within years 0..9999, NewTimePointFromString(String()) is the timestamp rounded down to the millisecond; it is exact exactly for whole milliseconds. For every other int64 the text is not read back (an error). NewTimePoint(tp.Time()) == tp for every int64. The accepted texts are exactly characterised.", "quantifier": "all int64 in the four-digit-year range", "why_tests_cant": "10^17 values", "anchors": ["pkg/chain/time.go"]}
{"id": "C24", "title": "Checksum and Float128 hex forms", "statement": "For every 20/32/64-byte checksum and every Float128, text unmarshalling of its text form gives it back; hex text of another length is not rejected: for checksums a shorter one panics and a longer one is truncated; for Float128 a shorter one overwrites only a prefix.", "quantifier": "all byte arrays, all texts", "why_tests_cant": "2^512 values", "anchors": ["pkg/chain/checksum.go", "pkg/chain/numbers.go: Float128"]}
{"id": "C25", "title": "Bytes hex form", "statement": "For every byte slice b, Bytes.UnmarshalText(b.MarshalText()) sets b; for every text that is not valid hex UnmarshalText returns nil error and leaves the target unchanged.", "quantifier": "all byte slices, all texts", "why_tests_cant": "unbounded", "anchors": ["pkg/chain/bytes.go"]}
{"id": "C26", "title": "Blob base64 form", "statement": "For every byte slice b, Blob.UnmarshalText accepts the standard base64 text with its padding complete, and with one or all padding characters removed (as nodeos emits), and sets b.", "quantifier": "all byte slices", "why_tests_cant": "unbounded", "anchors": ["pkg/chain/blob.go"]}
{"id": "C27", "title": "Blob.UnmarshalText and its argument's backing array", "statement": "Blob.UnmarshalText writes only to spare capacity behind its argument: the argument's own bytes are unchanged, but when the padding is missing and the slice has spare capacity, the one or two bytes behind it in the caller's buffer are overwritten with '='.", "quantifier": "all texts, all backing arrays", "why_tests_cant": "aliasing over all buffers", "anchors": ["pkg/chain/blob.go: UnmarshalText (append)"]}
{"id": "C28", "title": "Base58 is a bijection", "statement": "For every byte slice b, Decode(Encode(b)) == b, and for every string s over the base58 alphabet Encode(Decode(s)) == s; Encode(b) is the positional base-58 numeral of the big-endian number b preceded by one '1' per leading zero byte.", "quantifier": "all byte slices and all alphabet strings", "why_tests_cant": "unbounded lengths, big-integer arithmetic in 10-digit chunks", "anchors": ["pkg/base58/base58.go"]}
{"id": "C29", "title": "Base58 decoding of foreign strings", "statement": "Decode returns the empty slice for every string of code points below 256 with at least one outside the alphabet before any code point >= 256; it panics (index out of range) as soon as it meets a code point >= 256 or an invalid UTF-8 sequence (including one made by its own 10-byte chunking).", "quantifier": "all byte strings", "why_tests_cant": "unbounded strings", "anchors": ["pkg/base58/base58.go: Decode"]}
{"id": "C30", "title": "Base58Check round-trip and integrity", "statement": "For every payload, CheckDecode(CheckEncode(p)) == p and CheckDecodeEosio(CheckEncodeEosio(p, s), s) == p; and whenever a check-decode of an alphabet string succeeds with payload p, the input is exactly the check-encoding of p (so nothing that is not a genuine encoding is accepted).", "quantifier": "all payloads, suffixes and strings", "why_tests_cant": "unbounded", "anchors": ["pkg/base58/base58check.go"]}
{"id": "C31", "title": "PublicKey and Signature text round-trip", "statement": "For every key (signature) of type K1, P1 or WA and any data, parsing its String() returns the same type and data; whenever parsing a PUB_/SIG_ string succeeds, the string has a known type tag and a verified checksum over data and tag, so a string cannot be read back under another key type unless the 32-bit checksums collide.", "quantifier": "all types and data, all strings", "why_tests_cant": "unbounded", "anchors": ["pkg/chain/public_key.go", "pkg/chain/signature.go"]}
{"id": "C32", "title": "Legacy public keys", "statement": "For every 33-byte K1 key whose first byte is 2 or 3 and every prefix not beginning with PUB_, NewPublicKeyFromString(LegacyString(prefix)) returns the key; for every string of 7 to 49 bytes not beginning with PUB_ it panics (slice bounds).", "quantifier": "all keys, all prefixes, all strings", "why_tests_cant": "2^257 keys", "anchors": ["pkg/chain/public_key.go: LegacyString, NewPublicKeyFromString"]}
{"id": "C33", "title": "PublicKey and Signature binary round-trip", "statement": "For every K1/P1 key with 33 bytes (signature with 65) and every WA key/signature whose data has the EOSIO layout with lengths < 2^28, decoding the encoding returns the same type and data and leaves the rest unread; any other type byte is rejected.", "quantifier": "all keys, all trailing streams", "why_tests_cant": "unbounded", "anchors": ["pkg/chain/public_key.go: MarshalABI/UnmarshalABI", "pkg/chain/signature.go"]}
{"id": "C34", "title": "RIPEMD-160 is computed correctly", "statement": "For every message shorter than 2^61 bytes the 20 bytes returned by Sum after writing it equal RIPEMD-160 as specified by Dobbertin, Bosselaers and Preneel (padding, 5 rounds x 2 lines, combination), and the internal panic is unreachable.", "quantifier": "all messages", "why_tests_cant": "unbounded messages", "anchors": ["pkg/ripemd160/ripemd160.go", "pkg/ripemd160/ripemd160block.go"]}
{"id": "C35", "title": "RIPEMD-160 is a streaming hash", "statement": "For every sequence of Write calls, the digest depends only on the concatenation; Write reports len(p); Sum does not disturb later writes and appends to its argument; Reset makes it a fresh hash.", "quantifier": "all sequences of Write/Sum/Reset", "why_tests_cant": "unbounded operation histories", "anchors": ["pkg/ripemd160/ripemd160.go: Write, Sum, Reset"]}
{"id": "C36", "title": "Action and Transaction binary round-trip", "statement": "For every Action and Transaction with list and data lengths and varuint fields < 2^28, decoding its encoding into a fresh target returns the same value and leaves the rest of the stream unread.", "quantifier": "all transactions, all trailing streams", "why_tests_cant": "unbounded structures", "anchors": ["pkg/chain/action.go", "pkg/chain/transaction.go"]}
{"id": "C37", "title": "Transaction encoding is injective, so digests identify content", "statement": "Two encodable Actions (Transactions) with the same encoding are equal; Checksum256Digest and Checksum512Digest return the whole SHA-256 and SHA-512 hash of their input; Action.Digest is SHA-256 of that encoding, so equal digests of different actions require a SHA-256 collision.", "quantifier": "all pairs of actions", "why_tests_cant": "unbounded pairs", "anchors": ["pkg/chain/action.go: Digest, MarshalABI", "pkg/chain/checksum.go: Checksum256Digest, Checksum512Digest"]}
{"id": "C38", "title": "Decoding into a used Action appends authorizations", "statement": "UnmarshalABI into an Action that already holds authorizations keeps them and appends the decoded ones: the result equals the fresh result exactly when the target's list was empty. Transaction.UnmarshalABI overwrites every field whatever the target held.", "quantifier": "all targets, all inputs", "why_tests_cant": "all histories of the target", "anchors": ["pkg/chain/action.go: UnmarshalABI", "pkg/chain/transaction.go: UnmarshalABI"]}
{"id": "C39", "title": "Hostile lengths", "statement": "Reading a length-prefixed value with length l: l >= 2^63 makes byte reads fail with an error, is read as an empty authorization list by Action, and panics in Transaction and in dynamic arrays; 2^48 < l < 2^63 panics in byte reads. No input of a decoder for length-free types can panic.", "quantifier": "all byte streams", "why_tests_cant": "unbounded inputs", "anchors": ["pkg/abi/decode.go: ReadBytes", "pkg/chain/action.go", "pkg/chain/transaction.go", "pkg/chain/abi.go: decodeType"]}
{"id": "C40", "title": "Reflective codec round-trip", "statement": "For every Go type, recursive or not, built from the supported kinds (bool, string, sized ints, int, uint, floats, []byte, chain types, pointers, slices, arrays, maps with comparable keys that are not floats or pointers, structs with exported fields and optional/extension tags, user-defined types whose MarshalABI and UnmarshalABI agree with each other; behind a pointer held by the decode target itself or by a map entry only uint64, uint32, int64, int32, []byte, chain types and composites) and every value of it (keys and signatures of the length their type prescribes) that encodes without error, Decode of the encoding followed by any stream gives the value back (zero optional values, nil and empty slices and maps identified) and leaves the stream unread.", "quantifier": "all types, all values, all trailing streams", "why_tests_cant": "the type space is infinite", "anchors": ["pkg/abi/encode.go: Encode, EncodeValue", "pkg/abi/decode.go: Decode, DecodeValue"]}
{"id": "C41", "title": "Decode overwrites its target", "statement": "For every type not containing Action (which appends to the authorizations it holds), supported or not, the outcome of Decode (error, panic, bytes consumed and, without error, the value) does not depend on what the target held before.", "quantifier": "all types, all previous targets, all inputs", "why_tests_cant": "all histories", "anchors": ["pkg/abi/decode.go: DecodeValue"]}
{"id": "C42", "title": "Maps encode in any order", "statement": "Whatever order the runtime enumerates the maps inside a value, the encoding has the same length and decodes to the same value; but the bytes do depend on the order: enumerations of a map with different key orders never give the same bytes. Bytes that list a key more than once decode to a map with each key once, holding the value listed last.", "quantifier": "all maps, all iteration orders", "why_tests_cant": "schedule nondeterminism", "anchors": ["pkg/abi/encode.go: EncodeValue (reflect.Map)", "pkg/abi/decode.go: DecodeValue (reflect.Map)"]}
{"id": "C43", "title": "Optional, extension and variant tags", "statement": "An optional field occupies one 0 byte when zero and 1 plus its encoding otherwise; an extension field at the end of input decodes to its zero value without error (and so, silently, does one whose encoding is cut between two reads); a variant decodes byte index i into field i, clearing the others, and rejects indices out of range; the encoder has no inverse for variants: encoding a variant struct with two or more alternatives, at most one of them set, always fails.", "quantifier": "all structs and inputs", "why_tests_cant": "unbounded", "anchors": ["pkg/abi/encode.go: EncodeValue", "pkg/abi/decode.go: DecodeValue, DecodeVariant"]}
{"id": "C44", "title": "Type resolution terminates and is faithful", "statement": "For every ABI, however cyclic, resolution of a type name terminates; unless some reachable type name is empty, a lone modifier or has a one-byte base (where it panics), it yields for every reachable name the modifiers and the struct/variant/alias definition the ABI gives, shared by name.", "quantifier": "all ABIs, all names", "why_tests_cant": "all cyclic type graphs", "anchors": ["pkg/chain/abi.go: resolver.resolve"]}
{"id": "C45", "title": "Dynamic codec round-trip", "statement": "For every ABI and type and every value that Abi.Encode accepts (outside the bytes type and with distinct field names), Abi.Decode of the bytes followed by any stream returns the value (restricted to declared fields) and leaves the stream unread.", "quantifier": "all ABIs, types, values, trailing streams", "why_tests_cant": "all schemas", "anchors": ["pkg/chain/abi.go: encodeType/encodeInner, decodeType/decodeInner"]}
{"id": "C46", "title": "Inherited fields come first", "statement": "The fields of a struct are those of its base chain, root first, each in declaration order; a base chain that is circular or reaches a non-struct, and likewise a struct without any field, is treated as an unknown type and rejected on both encode and decode (unless its name is that of a builtin type).", "quantifier": "all ABIs", "why_tests_cant": "all inheritance graphs", "anchors": ["pkg/chain/abi.go: allFields"]}
{"id": "C47", "title": "Dynamic decoding terminates on well-founded ABIs", "statement": "If every cycle of the type graph passes through an array, optional or variant, decoding any input terminates with a value, an error or a panic; if following aliases and first fields leads into a cycle (an alias cycle, a struct whose first field is itself) decoding never terminates on any input. Encoding terminates unless aliases form a cycle, in which case it never terminates for a non-nil value. The outcome is a function of the input.", "quantifier": "all ABIs, all inputs", "why_tests_cant": "non-termination cannot be tested", "anchors": ["pkg/chain/abi.go: decodeType, decodeInner"]}
{"id": "C48", "title": "Dynamic variants", "statement": "A variant is written as the varuint index of the first alternative with the given name and read back as [name, value]; a wrong name, shape or an index out of range is an error, except that an index >= 2^63 panics.", "quantifier": "all variants, all inputs", "why_tests_cant": "unbounded", "anchors": ["pkg/chain/abi.go: encodeInner, decodeInner"]}
{"id": "C49", "title": "Dynamic optional and extension fields", "statement": "nil for a type marked '?' writes a single 0; nil for any other type is an error naming it, also for '$' extensions; on decoding, a '$' type at the end of input yields its zero or nil value without error.", "quantifier": "all types and inputs", "why_tests_cant": "unbounded", "anchors": ["pkg/chain/abi.go: encodeType, decodeType"]}
{"id": "C50", "title": "The ABI type bytes is asymmetric", "statement": "Abi.Encode of type bytes writes the bytes without a length prefix and rejects chain.Bytes, so decoding its output as bytes does not return the value in general; Abi.Decode of bytes returns a value Abi.Encode rejects. The alias eosio::name can be encoded but not decoded.", "quantifier": "all byte strings", "why_tests_cant": "unbounded", "anchors": ["pkg/chain/abi.go: encodeInner, decodeInner"]}
{"id": "C51", "title": "ABI lookups return the first match", "statement": "GetStruct/GetTable/GetAction/GetType/GetVariant return the first entry with the given name and nil exactly when there is none; DecodeAction/EncodeAction of an undeclared action return an error without reading or writing.", "quantifier": "all ABIs and names", "why_tests_cant": "unbounded", "anchors": ["pkg/chain/abi.go: Get*"]}
{"id": "C52", "title": "Dynamic and static codecs agree", "statement": "Encoding a value through an ABI schema and encoding the corresponding Go value of a static type through the reflective encoder produce the same bytes, and each decoder recovers its own value from them. Corresponding: structs (own and inherited fields, also as an embedded Go struct), arrays and slices, []byte for uint8[], pointers, '?' for optional, '$' for extension, aliases, builtin scalars; lengths below 2^28.", "quantifier": "all schemas without variants and bytes fields, all Go types mirroring them (also recursive), all values", "why_tests_cant": "all schemas", "anchors": ["pkg/chain/abi.go", "pkg/abi/encode.go"]}
{"id": "C53", "title": "ABI definitions survive their own binary form", "statement": "Every chain.Abi value (lengths < 2^28, no nil extension) is recovered from its binary encoding, which is the abi_def layout; an encoding that ends before the variants section decodes to the same ABI with no variants; a nil extension entry cannot be encoded.", "quantifier": "all ABI values", "why_tests_cant": "unbounded", "anchors": ["pkg/chain/abi.go: Abi", "pkg/abi/decode.go"]}
{"id": "C54", "title": "Custom codecs take precedence", "statement": "With NewCustomEncoder/NewCustomDecoder the custom function is consulted first for every value, elements of containers included; if it reports done or an error its outcome is final, and if it declines every value it is shown the behaviour is that of NewEncoder/NewDecoder.", "quantifier": "all custom functions, all values", "why_tests_cant": "all functions", "anchors": ["pkg/chain/encoding.go", "pkg/abi/encode.go: Encode", "pkg/abi/decode.go: Decode"]}
{"id": "C55", "title": "Fast path and Marshaler path agree", "statement": "For every chain type, encoding by value, by pointer and as a struct field gives the same bytes, and the hand-written Transaction codec produces the bytes the reflective encoder produces for the same fields.", "quantifier": "all values", "why_tests_cant": "unbounded", "anchors": ["pkg/chain/encoding.go", "pkg/abi/encode.go", "benchmarks/types.go"]}
{"id": "C56", "title": "Generated codecs", "statement": "GenUnmarshalFn panics exactly for a struct with an 'optional' field that is not a pointer, and its output compiles exactly for structs of scalar, []byte, codec-bearing, slice, array and pointer fields in the supported combinations. Where it compiles, the generated MarshalABI writes the bytes the reflective encoder writes and fails when that fails; if pointers point to scalars only and no tag but 'optional' is used, the generated UnmarshalABI accepts on a new struct the inputs the reflective decoder accepts, with the same value and the same bytes consumed, and reads back what MarshalABI wrote. A required pointer to a struct or chain type can never be read into a new struct, and an absent optional keeps its old value in a reused one.", "quantifier": "all struct types (recursive ones included), all values, all inputs", "why_tests_cant": "the space of struct types, values and inputs is infinite, and whether emitted code compiles is not observable from inside the package's tests", "anchors": ["pkg/codegen/codegen.go: GenUnmarshalFn and the templates", "pkg/abi/encode.go", "pkg/abi/decode.go"]}
{"id": "C57", "title": "Decoding action data", "statement": "Action.Decode looks up the first action of that name in the ABI: data written by EncodeAction for a map decodes to that map (exactly the declared fields, for a struct type), whatever follows the data and whatever the account and authorizations; an undeclared action, data cut short (without '$' types) or data of a type that is not a map give an error and no map. Action.DecodeInto recovers a Go value from its encoding whatever the target held, and both agree on corresponding ABI and Go types.", "quantifier": "all ABIs, actions, values, targets and trailing bytes", "why_tests_cant": "all schemas and values", "anchors": ["pkg/chain/action.go: Action.Decode, Action.DecodeInto", "pkg/chain/abi.go: DecodeAction, EncodeAction"]}
{"id": "C58", "title": "Dynamic decoding of truncated input", "statement": "For every ABI and type that needs no '$' extension type, a successful Abi.Decode consumes a definite prefix of the input, depends on nothing behind it, and every proper prefix of what it consumed is rejected with an error; with '$' types a shorter input can decode successfully.", "quantifier": "every ABI, type name, input and split point", "why_tests_cant": "ranges over all schemas and all inputs", "anchors": ["pkg/chain/abi.go:Abi.Decode", "pkg/chain/abi.go:decodeType"]}
{"id": "C59", "title": "Dynamic encoding into a failing writer", "statement": "For every ABI and type that needs no optional type, Abi.Encode into a writer that fails reports an error, never success with bytes missing; for an optional type a failed write of the presence flag is reported as success.", "quantifier": "every ABI, type, value and failure point of the writer", "why_tests_cant": "ranges over all schemas, values and failure points", "anchors": ["pkg/chain/abi.go:Abi.Encode", "pkg/chain/abi.go:encodeType"]}
{"id": "C60", "title": "Reflective decoding of truncated input", "statement": "For every Go type without an extension tag anywhere inside, supported or not, and every previous target, a successful Decode consumes a definite prefix of the input, depends on nothing behind it, and every proper prefix of what it consumed is rejected with an error; so no encoding of such a type is a proper prefix of another. With an extension field a shorter input can decode successfully.", "quantifier": "every type, target, input and split point", "why_tests_cant": "ranges over all types, inputs and cut points", "anchors": ["pkg/abi/decode.go: Decode, DecodeValue, DecodeVariant", "pkg/chain/encoding.go: NewDecoder"]}
{"id": "C61", "title": "Reflective encoding into a failing writer", "statement": "For every Go value, Encode into a writer that fails at any point (and keeps failing) does not panic, leaves a prefix of the encoding, and reports the error unless all that was still to be written were presence flags of optional fields; without optional fields the error is always reported. A struct ending in an absent optional field can be reported as written although its last byte is missing.", "quantifier": "every type, value and failure point of the writer", "why_tests_cant": "ranges over all types, values and failure points", "anchors": ["pkg/abi/encode.go: Encode, EncodeValue", "pkg/chain/encoding.go: NewEncoder"]}
{"id": "C62", "title": "Decoded values are complete and can be encoded again", "statement": "Whenever the reflective decoder reports no error on fewer than 2^28 bytes of input, the target is completely filled: every number is in its range, keys and signatures have the length their type asks for, pointers and maps are not nil, every map has each key once, and only fields tagged optional or extension may hold their zero value. If the type has no extension fields and no number or length in the value is 2^28 or more, the decoded value encodes without error and that encoding decodes to the same value; if one is that large the encoder panics. The bytes written need not be the bytes read, and with an absent extension of pointer type the encoder reports an error.", "quantifier": "every supported type (recursive ones included), every initial content of the target, every input and way the input ends", "why_tests_cant": "Ranges over all types and all inputs, including corrupted ones, not only over encodings of some value.", "anchors": ["pkg/abi/decode.go: Decode, DecodeValue", "pkg/abi/encode.go: Encode, EncodeValue", "pkg/chain/encoding.go: NewDecoder, NewEncoder"]}
{"id": "C63", "title": "What a text leaves in the target", "statement": "When UnmarshalText or UnmarshalJSON reports an error the target keeps its content, for Symbol, SymbolCode, Asset, the three time types, PublicKey, Signature, the checksums, Float128, Uint64 and BlockNum. The exceptions are Uint128 and Int128, which become zero, and Blob, which is overwritten by what was decoded before the error. Bytes and Name never report an error; Bytes then keeps its content. Whether a text is accepted and which value it gives does not depend on what the target held, except that a Float128 text of fewer than 16 bytes keeps the end of the old content.", "quantifier": "every text, every previous content of the target, every one of the listed types", "why_tests_cant": "Ranges over all texts, valid or not, and all previous contents.", "anchors": ["pkg/chain/numbers.go: UnmarshalText, UnmarshalJSON", "pkg/chain/blob.go: Blob.UnmarshalText", "pkg/chain/bytes.go: Bytes.UnmarshalText", "pkg/chain/name.go: Name.UnmarshalText", "pkg/chain/asset.go: Asset.UnmarshalText", "pkg/chain/symbol.go: UnmarshalText", "pkg/chain/time.go: UnmarshalText", "pkg/chain/checksum.go: UnmarshalText", "pkg/chain/public_key.go: PublicKey.UnmarshalText", "pkg/chain/signature.go: Signature.UnmarshalText"]}
{"id": "C64", "title": "Time texts sort in the order of time", "statement": "Sorting the texts of TimePointSec or BlockTimestamp values as byte strings sorts the values. For TimePoint in the years 0 to 9999 the texts sort as the milliseconds, and two time points have the same text exactly when they lie in the same millisecond; from the year 10000 on the order of the texts is no longer that of the values.", "quantifier": "every pair of values of the type", "why_tests_cant": "Ranges over all pairs of 32-bit and 64-bit values.", "anchors": ["pkg/chain/time.go: TimePoint.String, TimePointSec.String, BlockTimestamp.String"]}
{"id": "C65", "title": "FloatValue is the correctly rounded amount", "statement": "For every asset with at most 18 decimals and any symbol bytes, FloatValue is the floating-point number nearest to value / 10^decimals, the only rounding being that of strconv.ParseFloat on the exact decimal. It panics for the smallest 64-bit amount and for 64 decimals or more.", "quantifier": "every asset value and symbol in the stated ranges, every ParseFloat that reads decimals as their nearest number and rejects two signs", "why_tests_cant": "Ranges over 2^64 amounts and all symbols.", "anchors": ["pkg/chain/asset.go: Asset.FloatValue, Asset.String"]}
{"id": "C66", "title": "Only a long length prefix can make decoding panic", "statement": "If an input below 2^35 bytes does not contain six neighbouring bytes of 128 or more, then no Read method, no UnmarshalABI, no Decode into a target whose type is free of programming errors (no hidden fields, variant alternatives are exported pointers, slice elements of at most 2^48/128^6 bytes; larger elements with shorter runs), and no Abi.Decode or DecodeAction of a well-named schema panics on it, whatever the reader's final error. Six in a row are enough to make a Transaction panic.", "quantifier": "all inputs, truncated and hostile included; all types, targets, custom decode functions, schemas", "why_tests_cant": "absence of panics over all byte streams; fuzzing only samples them", "anchors": ["pkg/abi/decode.go: ReadBytes, ReadVaruint, DecodeValue", "pkg/chain/transaction.go: UnmarshalABI", "pkg/chain/abi.go: decodeType", "pkg/chain/encoding.go"]}
{"id": "C67", "title": "Encoding panics, fails or succeeds exactly when it should", "statement": "Encoding a value by reflection succeeds, writing the same bytes after whatever was written before, exactly when no part of it that is to be written (a zero optional field is not) is: a number or a length too large for the four-byte varint buffer (2^28, or 2^27 in magnitude for int), a nil pointer, an unexported struct field, a value of a kind the encoder does not handle, or a user-defined MarshalABI that panics or fails. If the only such parts are nil pointers to Go's own or to composite types, or values of unhandled kinds, it returns an error; if they are all too large numbers or lengths, nil pointers to pkg/chain's types, or unexported fields, it panics; and without one of the latter kind it does not panic, whatever the writer does. Abi.Encode and Abi.EncodeAction of a well-named schema do not panic on any writer and any value, fitting or not, whose numbers and lengths are below those bounds.", "quantifier": "all Go types (recursive ones included), all values of them, all failing or working writers; all schemas and dynamic values", "why_tests_cant": "an equivalence over all types and values; a test shows one panic or one success", "anchors": ["pkg/abi/encode.go: Encode, EncodeValue, WriteVaruint, WriteVarint", "pkg/chain/encoding.go", "pkg/chain/abi.go: Encode, EncodeAction, encodeType"]}
{"id": "C68", "title": "User-defined MarshalABI and UnmarshalABI methods", "statement": "The reflective encoder writes a value of a type with a MarshalABI method by calling that method and nothing else, also behind a pointer; the decoder calls UnmarshalABI on the target, allocating a new zero value behind a nil pointer. Every error Encode returns is one of its own two errors, an error of the writer, or an error returned by a MarshalABI method of a part of the value, unchanged. Methods generated by pkg/codegen for a struct (one that is not used as the key of a map) can be used this way: a value of the type with methods has the same encoding as the struct without them, and the methods agree with each other, so that encoding and decoding round-trip for every type built on it.", "quantifier": "all types with methods, all values, targets, inputs, readers and failing writers, and all structs the generator handles", "why_tests_cant": "Tests use one or two types with methods; the claim is about arbitrary method bodies in arbitrary positions and about all generated methods.", "anchors": ["pkg/abi/encode.go: Encode, EncodeValue, Marshaler", "pkg/abi/decode.go: Decode, DecodeValue, Unmarshaler", "pkg/codegen/codegen.go: GenUnmarshalFn and the templates"]}
{"id": "C69", "title": "Decoding by reflection comes to an end", "statement": "If every cycle in the declared types goes through a slice, a map, an optional field or a variant, then for each input length there is a recursion depth that suffices for all inputs of that length, targets and readers; for types that are not recursive one depth suffices for all inputs. A struct that starts with a pointer to itself is never decoded: no depth suffices on any input, even the empty one, so the Go program overflows its stack.", "quantifier": "all type declarations, inputs, targets and readers", "why_tests_cant": "Termination for every type declaration and every input, and non-termination for every input, are not finite checks.", "anchors": ["pkg/abi/decode.go: Decode, DecodeValue"]}
{"id": "C70", "title": "Generated methods report every failure", "statement": "The UnmarshalABI method that pkg/codegen generates for a struct reports truncated input: whenever it succeeds it has read a definite prefix of the input, the same prefix gives the same result whatever follows, and every proper prefix of it gives an error and no panic. It panics only on a long length prefix: on input without k neighbouring bytes of 128 or more (k at most 6) it never panics, whatever the struct already holds, provided slice elements have at most 2^48 / 128^k bytes. The generated MarshalABI reports every failed write, for every type and value, including failed writes of presence flags, whose errors the reflective encoder ignores.", "quantifier": "every struct type whose generated code compiles, with pointers to scalars only, and whose user-written methods behave; every prior content of the struct, every input, every prefix of it, every reader's final error and Go release; for writes every value and every writer failing at any point", "why_tests_cant": "it ranges over all struct types, all inputs and all points at which the reader or writer fails", "anchors": ["pkg/codegen/codegen.go: GenUnmarshalFn, marshalTemplate, unmarshalTemplate, readSliceTemplate, readArrayTemplate, writeOptionalTemplate, readOptionalTemplate"]}
{"id": "C71", "title": "JSON forms of the chain types", "statement": "json.Marshal succeeds on every action, transaction, extended asset and (if its strings are UTF-8) ABI definition, and on every name, byte string, checksum, time, symbol, asset, 64-bit and 128-bit number and public key of the ranges in which the text form is exact; the text has the documented keys in the documented order with the values' canonical texts (64-bit numbers above 2^32-1 in quotes, empty trailing ABI lists left out), and json.Unmarshal of it gives the value back whatever the target held before (for an ABI: provided the target's three optional lists are empty). Any RFC 8259 spelling of a string is understood; reordering the keys of an object and adding keys that are no field's name changes nothing. A text that is not JSON, or that has more than 10000 arrays and objects open at once, is refused. null makes byte strings nil and leaves the other text types alone, but Uint64 and BlockNum refuse it; text that is not hex is ignored without an error. Not so: a Signature passed by value is printed as a struct that cannot be read back, a string that is not UTF-8 comes back changed, and an ABI read into a used variable keeps its old variants. The text of any string, UTF-8 or not, has no control character, no <, > or & and no U+2028 or U+2029, so it can stand inside HTML or JavaScript.", "quantifier": "every value of each type, every prior content of the target, every spelling of a string, every order of keys and every set of extra keys, every Go release's case folding and escapes", "why_tests_cant": "it ranges over unbounded nested values, all Unicode strings and all permutations of keys", "anchors": ["pkg/chain/action.go: Action, PermissionLevel", "pkg/chain/transaction.go: Transaction, TransactionHeader, TransactionExtension", "pkg/chain/abi.go: Abi and its parts", "pkg/chain/asset.go: ExtendedAsset, Asset.MarshalText, Asset.UnmarshalText", "pkg/chain/numbers.go: Uint64.MarshalJSON, Uint64.UnmarshalJSON, BlockNum.MarshalJSON, BlockNum.UnmarshalJSON", "pkg/chain/bytes.go: Bytes.MarshalText, Bytes.UnmarshalText", "pkg/chain/name.go, checksum.go, time.go, symbol.go, blob.go, public_key.go, signature.go: MarshalText, UnmarshalText"]}
{"id": "C72", "title": "Streams of values", "statement": "Values of any supported types, and dynamic values of any plain schemas, written one after the other with one Encoder are read back one after the other with one Decoder, each as C40 and C45 say, and what follows the last is left unread. Wherever such a stream is cut, reading what is there returns exactly the records that are completely there, in order, and then an error, never a value made of pieces (types without extension fields). If the writer breaks down at any moment (types without optional fields), writing reports no success unless everything arrived, and what arrived reads as whole records followed by an error unless it is all of them. The usual loop that reads until an error returns every record. But io.EOF does not tell a complete stream from one cut between two fields of a record.", "quantifier": "all lists of records, mixed types and schemas, all cut points, all breakdowns of the writer, all ends of the reader", "why_tests_cant": "every history of writes and every crash point in it", "anchors": ["pkg/abi/encode.go: Encoder.Encode", "pkg/abi/decode.go: Decoder.Decode", "pkg/chain/abi.go: Abi.Encode, Abi.Decode"]}
{"id": "C73", "title": "The text the code generator prints is Go source that does what the generated methods are claimed to do", "statement": "For every struct for which GenUnmarshalFn returns at all (it panics exactly when an \"optional\" field is not a pointer), the text it returns splits into Go tokens, with the automatic semicolons of the language, and parses, by the grammar of the language and its precedence of operators, as exactly two methods of that struct: MarshalABI(e *abi.Encoder) error with a value receiver and UnmarshalABI(d *abi.Decoder) error with a pointer receiver. The Go compiler accepts the two methods (types, scopes and redeclarations, variables declared and not used, a final return) exactly for the structs that C56 describes. When it does, executing these methods statement by statement (declarations, assignments, if, for, return, calls, dereferences, indexing, make, blocks and their scopes) on any value of the struct writes the same bytes with the same outcome under every behaviour of the writer, and reads the same value and error and consumes the same input under every way the input arrives, as the methods that properties C56 and C57 are about.", "quantifier": "every struct name, every list of fields with distinct names (Go identifiers), every value, input, chunking of the input and failure of the writer", "why_tests_cant": "A test compiles and runs the output for the handful of structs in the test; the text is assembled from ten templates nested by field shape, so a missing parenthesis, line break or declaration shows only for a particular combination of pointer, slice, array, optional and element type.", "anchors": ["pkg/codegen/codegen.go:11-145 (templates)", "pkg/codegen/codegen.go:GenUnmarshalFn", "pkg/codegen/codegen.go:render", "pkg/codegen/codegen.go:indent"]}
{"id": "C74", "title": "What an interface variable holds is encoded as if it stood there itself", "statement": "Encoding a value some parts of which (slice or array elements, map keys or values, struct fields, what a pointer points to, nested to any depth) are held in interface variables writes the same bytes and ends in the same error or panic as encoding the value of the type without interfaces, provided no optional field holds a zero value in an interface variable (such a field counts as present). So the bytes are read back by Decode into a target of the type without interfaces. For mixtures of types that no interface-free type describes, Encode succeeds exactly for the values that have a wire form, which is the count for slices and maps followed by the wire forms of what the variables hold, and writes it. A nil interface is never taken for a value: outside an absent optional field Encode does not succeed, and panics when it comes to it, after writing what stands before.", "quantifier": "every value of every type built from slices, arrays, maps, structs, pointers and interface variables over the types of C40, and everything already written", "why_tests_cant": "Each mixture of dynamic types and nesting is its own path through the encoder's dispatch; tests try a few combinations, and nil only at the top.", "anchors": ["pkg/abi/encode.go:Encode", "pkg/abi/encode.go:EncodeValue", "pkg/chain/encoding.go:chainEncoder"]}
{"id": "C75", "title": "Decode fills what interface variables point to, and accepts nothing but pointers", "statement": "Decoding into a target in which interface variables hold non-nil pointers behaves on every input, whole or cut short, like decoding into the target without interfaces in which a variable that Decode is pointed at is that pointer, and one in a struct field or array element is a pointer to that pointer: the same error or panic, the same bytes consumed, the same values stored. So what was encoded from the type without interfaces is read back through the variables. If an interface variable in a place that has to be read is nil, or holds something that is not a non-nil pointer, decoding does not succeed on any input; given such a variable itself Decode returns an error, reads nothing and leaves it as it is. A slice with interfaces inside is decoded in place when the input has as many elements as it holds, and then like the slice without interfaces; with another number of elements decoding succeeds only if there are none, unless new elements need no interface variable to be set. A map with interfaces inside is always replaced: each key has the last value read for it, and nothing else is in it. DecodeVariant, and a field tagged as a variant, go through interface variables in the same way; of a struct with interfaces inside the field with the index read becomes a pointer to a newly decoded value and every other field becomes nil. Decode and DecodeVariant succeed only when given a pointer to a target: a value that is not a pointer, or a nil pointer to a type decoded by reflection, is refused with an error before anything is read. Through a nil pointer to any other type nothing is stored: where decoding into a variable would succeed, Decode panics. Whether decoding succeeds or fails, a struct stays one of its type: the same fields with the same tags.", "quantifier": "every target built from structs, arrays, slices, maps, pointers and interface variables over the types of Decode, every input and way of ending, every argument", "why_tests_cant": "The indirection loop has to be right for every nesting of pointers and interfaces and every point at which the input ends.", "anchors": ["pkg/abi/decode.go:Decode", "pkg/abi/decode.go:DecodeVariant", "pkg/abi/decode.go:DecodeValue", "pkg/abi/decode.go:indirect"]}
{"id": "C76", "title": "Encodings identify what was encoded and where it ends", "statement": "For two values of one type that Encode accepts (reflective codec, with or without interface variables inside) or two values encoded by an ABI under one type name: if the bytes written for one followed by any bytes equal the bytes written for the other followed by any bytes, then the values are the same (nil and empty slices or maps identified, maps unordered; by an ABI: the same in everything it declares) and what follows is the same. In particular equal encodings come from the same value, no encoding is a proper beginning of another, and encodings written one after the other can be told apart.", "quantifier": "every supported type and pair of its values, every ABI and type name and pair of values, all continuations", "why_tests_cant": "It speaks about all pairs of values; a collision between two particular values of a nested type would have to be guessed.", "anchors": ["pkg/abi/encode.go:Encode", "pkg/abi/encode.go:EncodeValue", "pkg/chain/abi.go:Abi.Encode"]}
{"id": "C77", "title": "Re-encoding decoded bytes gives the shortest form", "statement": "If bytes decode without error into a value (reflective Decode into any supported type without extension fields, from a target holding no Action with authorizations; or the UnmarshalABI methods of Transaction and of an Action without authorizations), then encoding the value gives a byte string not longer than the bytes consumed. For types without bools, optional fields and maps (Transaction and Action are such), if it is as long it is the same bytes. So the encoder writes the shortest of all the byte strings that decode to a value, and re-encoding changes received bytes only if they contained padded lengths or numbers.", "quantifier": "every supported type, every target value, every input, reader behaviour and recursion depth", "why_tests_cant": "It ranges over all byte strings, including padded lengths and numbers no encoder produces, in types nested to any depth.", "anchors": ["pkg/abi/decode.go:DecodeValue", "pkg/abi/encode.go:EncodeValue", "pkg/chain/transaction.go:Transaction.UnmarshalABI", "pkg/chain/transaction.go:Transaction.MarshalABI", "pkg/chain/action.go:Action.UnmarshalABI", "pkg/abi/decode.go:ReadVaruint"]}
{"id": "C78", "title": "What Abi.Decode returns can be encoded again", "statement": "If Abi.Decode (or Action.Decode through an ABI) returns a value without error, encoding that value with the same type gives bytes not longer than those consumed; for schemas without bools, optional types and repeated alternatives, if as long then the same bytes. For schemas without '$' types, without two fields of one name in a struct, without the type bytes and without a required name for an optional type, the encoding always succeeds when the input is below 2^28 bytes and the varuint32/varint32 values are in the encoder's range, and the new bytes decode to exactly the same value.", "quantifier": "every ABI, type name, input, reader behaviour and decoded value", "why_tests_cant": "It ranges over all schemas (with inheritance, variants, aliases, recursion through arrays) and all byte strings accepted by the decoder, including those no encoder writes.", "anchors": ["pkg/chain/abi.go:Abi.Decode", "pkg/chain/abi.go:Abi.Encode", "pkg/chain/abi.go:decodeType", "pkg/chain/abi.go:encodeType", "pkg/chain/action.go:Action.Decode", "pkg/chain/abi.go:Abi.EncodeAction"]}
{"id": "C79", "title": "A value decoded through an ABI is not bigger than its input", "statement": "If Abi.Decode (or Action.Decode through an ABI) returns a value without error for a type that needs no '$' types, the value (its leaves, slices, nils, names of chosen alternatives and all bytes kept in strings, byte strings, keys and signatures) is at most 2 + L times as big as the bytes it was read from, L being the length of the longest name of an alternative: no small input makes it return a big value. With '$' types this is false: four bytes can stand for any number of elements below 2^28.", "quantifier": "every ABI (recursive or not), type name, input, reader behaviour and decoded value", "why_tests_cant": "An adversary picks the schema, the element counts and the bytes; a test tries finitely many, and the bound must hold for every nesting of arrays, structs and variants.", "anchors": ["pkg/chain/abi.go:Abi.Decode", "pkg/chain/abi.go:decodeType", "pkg/chain/abi.go:decodeInner", "pkg/chain/action.go:Action.Decode"]}
{"id": "C80", "title": "A fresh target never holds more than was read", "statement": "If Decode into a fresh variable returns no error, then the elements of all its slices, the entries of all its maps and the bytes of all its strings, byte strings, keys and signatures, counted together at every depth, are at most as many as the bytes consumed; provided no slice or map inside the type has elements that can be read from nothing (such as empty structs), and user-defined UnmarshalABI methods set less than they read. Transaction.UnmarshalABI obeys this whatever its target held, Action.UnmarshalABI if its target has no authorizations. For slices of empty structs it is false: four bytes can stand for any number of elements below 2^28.", "quantifier": "every Go type (recursive, with optional, extension and variant fields, maps, arrays, pointers), input, reader behaviour and decoded value", "why_tests_cant": "It ranges over all types and all adversarial inputs; a test checks the size of finitely many decoded values.", "anchors": ["pkg/abi/decode.go:Decode", "pkg/abi/decode.go:DecodeValue", "pkg/abi/decode.go:DecodeVariant", "pkg/chain/encoding.go:chainDecoder", "pkg/chain/transaction.go:Transaction.UnmarshalABI", "pkg/chain/action.go:Action.UnmarshalABI"]}
{"id": "C81", "title": "Failures are reported with interface variables inside too", "statement": "Encoding a value with interface variables inside to a writer that starts to fail does not panic, what arrives is a prefix of the encoding, and a nil error means nothing is missing but presence flags of optional fields at the very end; without optional fields it means nothing is missing. Decoding into a target with interface variables inside, whatever they hold, refuses every proper prefix of what it consumes, unless there are extension fields. Input without long runs of bytes from 128 does not make it panic when the variables hold pointers.", "quantifier": "all values and targets built from interface variables, pointers, slices, arrays, maps, structs and parts of any supported type; all failing writers, inputs and prefixes", "why_tests_cant": "unboundedly many nestings, failure points and inputs", "anchors": ["pkg/abi/encode.go: Encode, EncodeValue", "pkg/abi/decode.go: Decode, DecodeValue, indirect"]}
{"id": "C82", "title": "What is read from a text is read back from its own printed form", "statement": "Whatever spelling a name, symbol, symbol code, asset, 128-bit number, time, key, signature, checksum, float128, bytes, blob or JSON number was read from, printing the value succeeds and the printed text is read as the same value. The exceptions are the smallest asset amount and the smallest Int128, both of which can be read but not read back.", "quantifier": "all texts the parsers accept, all previous contents of the variable read into", "why_tests_cant": "unboundedly many spellings per value, most of them not the printed one", "anchors": ["pkg/chain/name.go: NewName, String", "pkg/chain/symbol.go: NewSymbolFromString, String, UnmarshalText", "pkg/chain/asset.go: NewAssetFromString, String", "pkg/chain/numbers.go: NewUint128FromString, NewInt128FromString", "pkg/chain/time.go", "pkg/chain/public_key.go", "pkg/chain/signature.go", "pkg/chain/checksum.go", "pkg/chain/bytes.go", "pkg/chain/blob.go"]}
{"id": "C83", "title": "What json.Unmarshal stores is marshalled again and read back", "statement": "Whatever JSON text is read without error into a transaction, header, action, permission level, extension, ABI, string, name, number, time, checksum, float128, bytes, key, signature or symbol, the variable afterwards holds a value in the range of its type, with every string in valid UTF-8 even if the text was not; json.Marshal then succeeds, its text has the documented layout, and reading that text into any such variable gives the same value. An ABI needs a variable whose last three lists are empty, and an asset is excepted when the text is null or its amount the smallest.", "quantifier": "all texts (any key order, unknown or repeated keys, null, any escapes, invalid UTF-8), all previous contents in the range of the type, all Go releases as far as they differ in escapes and key folding", "why_tests_cant": "the texts are unbounded and most of them are not what Marshal prints; a value outside its range would show up only on the way back", "anchors": ["pkg/chain/transaction.go: Transaction, TransactionHeader, TransactionExtension", "pkg/chain/action.go: Action, PermissionLevel", "pkg/chain/abi.go: Abi", "pkg/chain/name.go: UnmarshalText", "pkg/chain/numbers.go: UnmarshalJSON, UnmarshalText", "pkg/chain/time.go: UnmarshalText", "pkg/chain/checksum.go: UnmarshalText", "pkg/chain/public_key.go: UnmarshalText", "pkg/chain/signature.go: UnmarshalText", "pkg/chain/symbol.go: UnmarshalText", "pkg/chain/asset.go: UnmarshalText"]}
{"id": "C84", "title": "The JSON form and the binary form stand for the same thing", "statement": "A transaction or action that json.Unmarshal stores is packed, whenever it can be packed, with the documented byte layout, and unpacking those bytes gives the same value back. A transaction or action that is unpacked from bytes is printed by json.Marshal with the documented layout and read back as the same value. Two transactions that can be packed have the same bytes exactly when they have a JSON text in common, and exactly when they have all their JSON texts in common. A transaction, action or ABI printed as JSON by a program built with one Go release is read as the same value by one built with another. An ABI read from JSON, if it is within the length bounds and has no null extension, is packed as documented, unpacked as the same definition, and printed as JSON and read back.", "quantifier": "all JSON texts, all packed inputs below 2^28 bytes, all transactions, actions and ABIs, all previous contents of the variables, all pairs of Go releases as far as they differ in escapes and key folding", "why_tests_cant": "the two forms are read and written by unrelated code; that they never disagree is a statement about every value and every text", "anchors": ["pkg/chain/transaction.go: Transaction, MarshalABI, UnmarshalABI", "pkg/chain/action.go: Action, MarshalABI, UnmarshalABI", "pkg/chain/abi.go: Abi", "pkg/abi/encoder.go: Encode", "pkg/abi/decoder.go: Decode"]}
{"id": "C85", "title": "What a failed Decode leaves in its target", "statement": "When chain.Decoder.Decode returns an error, the target is in a state the caller can rely on. In a struct or an array, the fields or elements before the one that failed hold what was decoded, those after it hold what they held before the call. A slice or map is unchanged if its length could not be read; otherwise the slice has the encoded length (on its own elements if there were as many, else on zero values) and the map is a new map with exactly the entries read before the failure. A pointer in a field or element is never left nil: it points to what the failed Decode left. A variant is unchanged if its index could not be read or is out of bounds; otherwise the alternative of that index keeps what it held and the others are nil. Name, Symbol, SymbolCode, Uint64, Uint128, Int128, Float128, BlockNum, the three time types, the three checksums, Bytes and Blob keep the value they held; Go's own basic types are set to zero; a []byte, an Asset, a PublicKey or a Signature holds a mixture of old value, bytes read and zeros that is stated exactly. A TransactionHeader, TransactionExtension or ExtendedAsset is left as the struct of its fields would be. A Transaction has its parts up to the one that failed, in whose list the elements behind the failure are zero, and keeps the parts behind it. A PermissionLevel keeps its permission and an Action its data; the levels an Action had read whole are put behind those it held.", "quantifier": "every type environment, every struct, array, slice, map, pointer, variant and leaf type, every previous value of the target, every input and every reader's final error", "why_tests_cant": "the point of failure ranges over every byte position of every input for every type and every earlier content of the target", "anchors": ["pkg/abi/decode.go: Decode, DecodeValue, DecodeVariant, ReadBytes", "pkg/chain/encoding.go: chainDecoder", "pkg/chain/*.go: UnmarshalABI methods"]}
{"id": "C86", "title": "What Abi.Decode returns beside an error", "statement": "When Abi.Decode returns an error, the value beside it is nil if the type is a list, a struct with fields, a variant, or unknown, and if the flag of an optional value cannot be read: nothing of a struct, list or variant read in part is ever returned. Only a type that is a builtin one, directly or through aliases, leaves a value: a value of the Go type of that builtin, and it is exactly what a Decode into a new variable of that Go type leaves when it fails with the same error on the same bytes (the zero value, or for assets and keys the parts read). The value is never a map or a slice.", "quantifier": "every ABI, type name, input, read error and place where the input ends", "why_tests_cant": "the result depends on the chain of aliases of an arbitrary schema, on the nesting of structs, lists and variants, and on where in the input decoding stops; tests check a few schemas and truncations", "anchors": ["pkg/chain/abi.go: Decode, decodeType, decodeInner"]}
{"id": "C87", "title": "What a failed Abi.Encode has written", "statement": "When Abi.Encode returns an error although the writer takes everything, what has been written is exactly the binary form of all that comes before the place that cannot be encoded, and nothing of what follows: the flag of an optional value, the length of a list and its elements before the bad one, the fields before the bad one, the index of an alternative; a value of the wrong kind for a builtin, struct, list or variant type, an unknown alternative and a nil that is not optional write nothing themselves. The error returned is that of this place: nil for a type that is not optional, not a slice, not a map, not two elements, no name of an alternative, an unknown alternative, or a value that is not of the builtin type. Conversely every value with such a place in it is refused with this error, with exactly these bytes written.", "quantifier": "every ABI whose type uses neither bytes nor eosio::name, every type name, every Go value (nested maps and slices of any depth), every content of the writer before", "why_tests_cant": "the place of the fault can be at any depth of an arbitrary schema and value; tests check the error but not what has been written before it", "anchors": ["pkg/chain/abi.go: Encode, encodeType, encodeInner"]}
{"id": "C88", "title": "What a failed Encode has written", "statement": "When encoding a Go value returns an error although the writer takes everything, what has been written is exactly the binary form of all that comes before the part that cannot be encoded, and nothing of what follows: the length of a slice or map and its elements or entries before the bad one, the fields before the bad one, the flag of an optional field that is set, and whatever a type's own MarshalABI wrote before it failed; a nil pointer and a value of a kind that is not supported write nothing themselves. The error returned is that of the bad part: the one for a nil pointer, the one for an unsupported kind, or the very error of the MarshalABI that failed. Conversely every value with such a part in it is refused with this error, with exactly these bytes written.", "quantifier": "every Go type built from the supported ones (named and recursive types, own MarshalABI methods, struct tags), every value of it of any depth, every content of the writer before", "why_tests_cant": "the bad part can be at any depth of an arbitrary type and value; tests check that an error is returned, not what has been written before it", "anchors": ["pkg/abi/encode.go: Encode, EncodeValue", "pkg/chain/encoding.go: NewEncoder, chainEncoder"]}
{"id": "C89", "title": "Decoding asks the reader for nothing beyond what it uses", "statement": "Whatever is decoded, the bytes taken from the reader are the beginning of the input. If a decoding returns, with a value or with an error, before the input is used up, then it returns the same whatever else stands in place of the unread bytes, and it has asked the reader for none of them: with the bytes it uses already arrived, in pieces of any size, it returns without another Read, so it does not wait for data that comes later and does not take bytes from whoever reads next. In particular a value written by Encode or by Abi.Encode is decoded as soon as its last byte has arrived.", "quantifier": "every decoder built on the package's Decoder (by reflection, dynamic, the chain types, UnmarshalABI methods), every input, every fragmentation, everything the reader does later; for the last sentence every supported type and plain schema and every value", "why_tests_cant": "tests decode from a buffer that holds the whole input; reading ahead shows only on a connection, for particular sizes and pieces", "anchors": ["pkg/abi/decode.go: Decoder.ReadBytes, ReadByte, ReadVaruint, Decode", "pkg/chain/encoding.go: NewDecoder", "pkg/chain/abi.go: Abi.Decode"]}
