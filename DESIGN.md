# Formal model of greymass/go-eosio in Rocq (Coq 8.16.1)

The code is read as text only; nothing here runs it.  The tie between model and
code is the citation on every definition (`file:lines` in /repo).

## Architecture

Only Coq's standard library is used.  All files are in `rocq/theories`.

| layer | model | specification | proofs | properties |
|---|---|---|---|---|
| bytes, Go integers, errors | `Base` | | `BaseProofs` | |
| I/O programs | `Prog` | `SpecWire` | `ProgProofs` | |
| wire primitives (pkg/abi Read*/Write*), varints | `GoVarint` `AbiPrim` | `SpecWire` | `AbiPrimProofs` | `PropWire` |
| binary form of the chain types | `Chain` | `SpecChain` | `ChainProofs` | `PropChain` |
| names | `Name` | `SpecName` | `NameProofs` | `PropName` |
| Go library for texts (strconv, strings, UTF-8, math/big) | `GoStd` | `SpecText` | `GoStdProofs` | |
| symbols, assets | `Symbol` | `SpecSymbol` | `SymbolProofs` | `PropSymbol` |
| 128-bit and JSON numbers, block numbers | `Numbers` | `SpecNumbers` | `NumbersProofs` | `PropNumbers` |
| checksums, bytes, blobs (hex, base64) | `Hex` | `SpecHex` | `HexProofs` | `PropHex` |
| base58, base58check, key texts | `Base58` `Keys` | `SpecBase58` `SpecKeys` | `Base58Proofs` `KeysProofs` | `PropKeys` |
| RIPEMD-160 | `Ripemd` | `SpecRipemd` | `RipemdProofs` | `PropRipemd` |
| time (pkg/chain/time.go, Go's package time) | `Time` | `SpecTime` | `TimeCalendar` `TimeProofs` | `PropTime` `PropTimeOrder` |
| types handled without recursion | `Values` `Leaf` | `SpecLeaf` | `LeafProofs` | |
| reflective codec (abi.Encode / abi.Decode) | `Reflect` | `SpecReflect` `SpecTags` `SpecCustom` `SpecMirror` `SpecStrict` `SpecDecoded` | `Reflect*` `DecodedProofs` | `PropReflect` `PropTags` `PropStrict` `PropDecoded` |
| dynamic ABI (chain.Abi) | `AbiDyn` | `SpecAbi` | `AbiResolveProofs` `AbiCodecProofs` `AbiTermProofs` `AbiStrictProofs` `AbiApiProofs` `AbiSample` | `PropAbi` |
| ABI definitions as data | `AbiDyn` | `SpecAbiDef` | `AbiDefProofs` | `PropAbiDef` |
| length prefixes, panics (reading and writing) | | `SpecLengths` `SpecPanics` | `LengthProofs` `PanicProofs` | `PropLengths` `PropPanics` |
| dynamic against static codec | | `SpecTwin` | `TwinProofs` | `PropTwin` |
| targets of rejected texts | (all of the above) | | | `PropTargets` |
| code generator | `Codegen` | `SpecCodegen` | `CodegenText` `CodegenWrite` `CodegenRead` | `PropCodegen` |
| action data | `ActionData` | | | `PropAction` |

`Spec*` files state what is wanted and do not use the model's functions (they use
its datatypes where a property is about Go values).  `Prop*` files hold the property
theorems: a short proof, `Print Assumptions`, and an `Example` showing that a
concrete non-trivial case meets the hypotheses.

### How effects are represented

* A decoder is a tree of `io.ReadFull` requests (`DRead n k`; the continuation gets
  the bytes and the error), with explicit panics (`DPanic`).  It is interpreted on an
  input, with the error `r_end` the reader gives at the end of the input (io.EOF or any
  other), and `r_strict`: whether `binary.ReadUvarint` turns an EOF in the middle
  of a varint into io.ErrUnexpectedEOF (Go does so since 1.17; the module does not
  fix the Go version, so both are covered).  A second interpreter reads from a list of
  fragments; C06 shows the two equal for every program.
* An encoder is a tree of `Write` calls, interpreted on a buffer or on a writer that
  fails at an arbitrary point.
* Recursion that Go does not bound (values of recursive types, recursive ABIs) runs
  on fuel; running out of fuel is a separate outcome, never confused with an error, and
  theorems either show that enough fuel exists or hold for every fuel.
* Panics are outcomes.  `make` panics as in Go above the allocation limit (`make_ok`).
* Methods with a pointer receiver take the old target and return the new one together with
  the error, so that what happens to the target on failure is visible.

## Properties

| id | modelled by | how it is stated and proved |
|---|---|---|
| C01 | `AbiPrim` | positional little-endian value of the bytes (`le_value`); every writer writes exactly the bytes with that value and every reader reads it back, whatever follows |
| C02 | `GoVarint` `AbiPrim` | base-128 value and minimality of the digits; round trip by induction on the digits |
| C03 | `GoVarint` `AbiPrim` | the writer's 4-byte buffer: panics iff the number needs five digits; nothing is written then |
| C04 | `GoVarint` `AbiPrim` | the reader's outcome for every input: value, overflow, end of input |
| C05 | `AbiPrim` | length prefix and contents; exact outcome on every input |
| C06 | `Prog` | equality of the fragmented and the plain interpreter by induction on the program, hence for every decoder of the model |
| C07 | `AbiPrim` `Chain` | `truncation_safe`: every proper prefix of what a successful decoding consumed gives an error; from an invariant on program trees ("an I/O error is never lost") |
| C08 | `AbiPrim` `Chain` | writer failing at any call; Action loses an error of a single Write that fails while later ones succeed (`_refuted`), and reports it if the writer keeps failing |
| C09 | `Name` | base-32 digits of the 64-bit value; text determined by the value and back |
| C10 | `Name` | normal form of arbitrary strings as a function on characters |
| C11 | `Name` | numeric order = lexicographic order of the padded digits = order of texts |
| C12 | `Symbol` | packing as precision + letters in base 256; accepted texts exactly characterised |
| C13 | `Symbol` | as C12 |
| C14 | `Symbol` | decimal numerals; precision up to 18, every amount but the minimum, whose text is rejected |
| C15 | `Symbol` | accepted texts and the value each denotes as an exact decimal, both directions |
| C16 | `Symbol` | panics iff 10^precision wraps to zero (precision at least 64); the digits shown otherwise |
| C17 | `Numbers` | unsigned value `2^64*Hi+Lo`; conversions, texts, accepted texts |
| C18 | `Numbers` | two's complement value; the minimum is the one value that does not survive |
| C19 | `Numbers` | quoted above 2^32-1, accepted texts, target kept on error |
| C20 | `Numbers` | as C19 |
| C21 | `Time` | calendar by counting days one after another (`SpecTime`), Go's algorithms proved to compute it for every date |
| C22 | `Time` | rounding to the nearest half second, wrap outside the range, texts |
| C23 | `Time` | microseconds; texts keep milliseconds; exact accepted language |
| C24 | `Hex` | hexadecimal digits by value; outcome for every text |
| C25 | `Hex` | as C24; errors of the hex decoder are swallowed, stated as outcome |
| C26 | `Hex` | base64 with and without padding; unique text |
| C27 | `Hex` | slice with its backing array, argument kept or overwritten |
| C28 | `Base58` | positional numerals in base 58 with leading zeros |
| C29 | `Base58` | range over a string (UTF-8) with foreign characters |
| C30 | `Keys` | SHA-256 is an arbitrary function returning 32 bytes; checksums compared |
| C31 | `Keys` | texts determined by type and data; accepted texts |
| C32 | `Keys` | legacy EOS prefix |
| C33 | `Chain` | layouts of K1, R1 and WA keys and signatures, unknown types |
| C34 | `Ripemd` | independent transcription of the paper; Go's block function proved equal |
| C35 | `Ripemd` | invariant on the digest state over operation histories (Write, Sum, Reset) |
| C36 | `Chain` | layouts as relations (`SpecChain`), both directions |
| C37 | `Chain` (Checksum256Digest, Checksum512Digest with their copy into an array) | injectivity; digests for an arbitrary hash function returning 32 or 64 bytes |
| C38 | `Chain` | decoding into a non-empty target |
| C39 | `Chain` | allocation limit: which lengths panic before any data arrives |
| C40 | `Reflect` | typing and wire form as inductive relations over a deep embedding of Go types (recursive types through declared names); round trip by mutual induction on the wire form; user-defined types need methods that agree with each other (`faithful`) |
| C41 | `Reflect` | equal outcomes from any two targets; the exception (a slice field of Action) stated |
| C42 | `Reflect` | maps are association lists in enumeration order; any permutation; bytes that repeat a key |
| C43 | `Reflect` | struct tags; variants decode but never encode |
| C44 | `AbiDyn` | resolver with its memo table against an inductive reading of type names |
| C45 | `AbiDyn` | wire form of schema values as an inductive relation |
| C46 | `AbiDyn` | fields of the base come first |
| C47 | `AbiDyn` | fuel: enough exists iff the type is well founded along a relation on names |
| C48 | `AbiDyn` | variants by index |
| C49 | `AbiDyn` | optional and extension fields |
| C50 | `AbiDyn` | outcome of encoding and decoding the builtin `bytes` and of `eosio::name` |
| C51 | `AbiDyn` | first match |
| C52 | `AbiDyn` `Reflect` | correspondence of schema values and Go values (`SpecTwin`) |
| C53 | `AbiDyn` `Reflect` | chain.Abi as a Go struct under the reflective codec |
| C54 | `Reflect` | custom functions are arbitrary programs |
| C55 | `Reflect` `Chain` | hand-written and reflective codecs write the same bytes |
| C56 | `Codegen` | emitted statements with typing rules and an interpreter; compared with C40's codec |
| C57 | `ActionData` | composition of the dynamic codec with Action |
| C58 | `AbiDyn` | as C07; extensions are the exception (`_refuted`) |
| C59 | `AbiDyn` | as C08; presence bytes of absent optionals are the exception |
| C60 | `Reflect` | as C07; extensions are the exception |
| C61 | `Reflect` | as C08; presence flags are the exception |
| C62 | `Reflect` | invariant of decoding on arbitrary input (`filled`), then encoding by induction on it |
| C63 | the text models | case analysis of each method; the blob exception by induction on the groups of three bytes |
| C64 | `Time` | fields of fixed width compare left to right; days of a year and months in order by the calendar of C21 |
| C65 | `Symbol`, strconv.ParseFloat a parameter | the text of C14 for any symbol, split at its space |
| C66 | Chain.v, Leaf.v, Reflect.v (decode), AbiDyn.v (decodeType); SpecLengths.v | LengthProofs.v: a logic of panic-free programs on inputs without long runs; a varuint then stays below 128^6 = 2^42, so every make fits; induction over the step budget for Decode and decodeType; the bound is sharp (C66_seven_refuted) |
| C67 | Reflect.v (encode), Leaf.v, Chain.v, AbiDyn.v (encodeType); SpecPanics.v | PanicProofs.v: programs without a reachable panic, closed under sequencing, so the claim holds for every writer; success leaves no cause (induction over the typing of the value); values without causes end without error |
| C68 | Reflect.v (the cases for types with methods), Codegen.v; SpecUser.v | UserProofs.v: an error logic for Encode with any writer (induction over the typing); generated methods read a determined prefix, do not depend on the step budget and on finite structs need a fixed amount of it; C68_generated builds on C56 |
| C69 | Reflect.v (decode); SpecTerm.v | TermProofs.v: more budget refines the result; well-founded induction on the types reached without reading, inside induction on the length of the input |
| C70 | `UnmarshalABI`, `MarshalABI` of Codegen.v (the code the generator emits, executed) on arbitrary targets, inputs and writers | `CodegenSafe.v`: one proof over an abstract logic of programs (ret, error, bind, read, make) by induction on the emitted statements and on struct nesting, instantiated with "no panic" (C66) and with "every read checked" (C60); writes by induction on statements, every write being inside an error check |
| C71 | `Json`: encoding/json as far as it matters (strings with escapes, UTF-8 and surrogates, a parser of texts, slices, pointers, structs with tags, omitempty and embedding, the choice of methods) and the struct tags and text methods of pkg/chain as codecs over it; the Go release (escapes, case folding) is a parameter | `JsonProofs`: printed values parse back, by induction over JSON values; `JsonStrings`: RFC 8259 spellings, character by character; `JsonCodecs`: round trip of slices, pointers and structs from that of their parts; `JsonTypes`: each type, its text from the C09-C31 theorems; `JsonText`: the parser accepts exactly the grammar of RFC 8259 (`SpecJsonText`); `JsonOrder`: independent fields commute, so any permutation of members decodes the same; Signature by value, invalid UTF-8 and stale ABI variants are refuted; PropHtml.v: what is never in the text of a string, by induction along the string |
| C72 | SpecStream: the user programs that write and read many records with one encoder and one decoder (no new model of repository code) | round trip by induction over the list from C40 and C45; the cut from C60 and C58; breakdowns of the writer from C61 and C59; the EOF ambiguity as a concrete pair of streams |
| C73 | the templates' text byte for byte (CodegenSource.v); a scanner for Go tokens with automatic semicolons, a syntax and an interpreter for the fragment of Go in use (GoLang.v), a recursive-descent parser for it (GoParse.v), and what the compiler checks of it (GoCheck.v) | the text of every struct scans to the spelling of two syntax trees (compositional lemmas about the scanner, one for each template); the parser reads back every spelling in which precedence is respected (GoParseProofs.v), up to the nesting of sequences, which changes neither meaning nor verdict (GoNorm.v); the interpreter on those trees is simulated, statement by statement, by the code of Codegen.v; the checker's verdict on them is computed template by template and equals the condition of C56 (CodegenCheck.v) |
| C74 | Encode on values with interface variables inside (Interfaces.v): values described together with the types of their parts; Encode of Reflect.v for the parts without interfaces | equal runs with the interface-free value by mutual induction over the relation between the two; wire form both ways by induction over the value; a nil interface by induction over where it stands |
| C75 | Decode into targets with interface variables (Targets.v), the checks of the argument of Decode and DecodeVariant | simulation of the interface-free Decode by induction on the fuel, the relation between targets as invariant; round trip from it and C41; refusal by induction on the fuel; slices with the number of elements they hold by the same simulation, with any other by refusal; maps by induction on the number of entries; the alternatives of a variant by induction on its fields |
| C76 | no new model | from the round trips of C40, C74 and C45, which read an encoding back whatever follows it |
| C77 | no new model; SpecCanonical.v | CanonicalProofs.v: a logic of decoding programs (what was consumed, and which encodings of the result it bounds), closed under sequencing; a minimal varuint is the shortest of its value; induction over the step budget of Decode, maps by a budget per entry; the methods of every chain type one by one |
| C78 | no new model; SpecReencode.v | ReencodeProofs.v: the logic of C77 on the interpreter, by induction over its step budget with the resolved table (`table_for`); every successful decoding consumes a byte, which bounds the element counts; re-encodability as a derivation of the binary form (`abi_enc`) built along the decoding, then the soundness theorem of C45 |
| C79 | no new model; SpecBulk.v (how big a value is) | BulkProofs.v: the logic of C77/C78 on the interpreter with the predicate "size at most (2 + L) times the bytes taken"; every leaf takes at least a byte and keeps no more than it took, a struct without fields is not decodable, so elements are paid for; refuted for '$' types by an array of an alias of one, for every count below 2^28 |
| C80 | no new model; SpecContents.v (what a value holds, which types cost a byte) | ContentsProofs.v: the logic of C77 on the reflective decoder, all three modes by induction over the nesting depth, with the predicate "holds at most the bytes taken, and less if the type costs a byte"; targets are zero values throughout; leaves one by one; refuted for slices of empty structs, for every count below 2^28 |
| C81 | Interfaces.v (`encode_any`), Targets.v (`decode_target`); SpecParts.v | PartsProofs.v: the classes of programs of C60 and C61 are closed under the steps of `encode_any` and `decode_target`, by induction on the value and on the step budget; panics through C75 and C66 |
| C82 | Name.v, Symbol.v, Numbers.v, Time.v, Keys.v, Hex.v (parsers and printers); SpecSettled.v | PropSettled.v: what each parser accepts (C10-C32) lies in the domain on which its printer is inverted; the two values outside it are shown to be reachable (C82_assets_refuted, C82_numbers_refuted) |
| C83 | Json.v (codecs, Marshal, Unmarshal); SpecJson.v, SpecChain.v | PropJsonKept.v, JsonKept.v: every codec keeps the range of its type, by induction over elements and members; decoded strings are UTF-8, by strong induction on the text; then C71 gives the way back |
| C84 | Json.v, Chain.v, Reflect.v, AbiDyn.v (codecs and ABI methods of the same types); SpecJson.v, SpecChain.v, SpecAbiDef.v | PropForms.v: C36, C37, C53, C71 and C83 put together; JsonReleases.v shows that two Go releases that fold keys alike read alike, and two that escape alike print alike |
| C85 | Reflect.v decode and its parts, Leaf.v, Chain.v and AbiPrim.v UnmarshalABI and Read functions, all of which return the target together with the error; SpecFailed.v | PropFailed.v, PropFailedTypes.v: one theorem per shape of target or type, each by induction on the fields, elements or entries; whether a leaf slice left by a failure is nil or empty is not said, because the model does not keep it |
| C86 | AbiDyn.v decodeType, decodeInner, decodeBuiltin, Abi_Decode; SpecAbiFailed.v left_beside | PropAbiFailed.v: by induction on the budget of decodeType, with the table of resolved types read through C44's description of it; C86_left gives the value for every kind of type, C86_composite and C86_simple follow. Whether a returned Bytes value is nil or empty is not modelled |
| C87 | AbiDyn.v encodeType, encodeInner, encodeBuiltin, Abi_Encode; SpecAbiPart.v fail_enc | PropAbiPart.v: C87_written by induction on the budget of encodeType, using the soundness and completeness of C45 for the parts that are encoded before the fault; C87_refused by induction on fail_enc. Errors are told apart by the fixed part of their message. The types bytes and eosio::name are left out because their encoder and decoder disagree (C50) |
| C88 | Reflect.v Encode and its loops over elements, entries and fields; SpecCut.v cut_short | PropCut.v: C88_written by induction on the typed value, cutting every sequence at the first part that fails; C88_refused by induction on cut_short. A type's own MarshalABI is arbitrary, and its own writes are part of what is described |
| C89 | Prog.v dec, run, readfull, run_chunks: the Decoder's only access to its reader is io.ReadFull; SpecAhead.v arrived, needs_only | PropAhead.v: by induction on the decoder as a tree of reads, for every decoder at once; C89_decode and C89_abi join this with the round trips of C40 and C45. When an extension field is absent at the end of the input the reader has been asked for it, so nothing is left unread and only C89_beginning applies |

Theorem names are `Cxx_...`; `MANIFEST.json` lists them (`tools/mkmanifest.py` collects
them).  A name ending in `_refuted` proves that a stronger statement one might expect is
false of the code.  There are no `_partial` theorems at present.

## Trusted base

* Coq's kernel, version 8.16.1, including `vm_compute` conversion.
* `Print Assumptions` says "Closed under the global context" for every theorem of
  `MANIFEST.json`: no axioms, neither our own nor the standard library's.  (Loading the
  standard library's tactics makes `coqchk` and `vcheck` list the axioms of
  `Coq.ssr.ssrunder`, which no theorem uses.)
* The reading of the Go source: each definition cites the lines it models.
* The models of library functions, written from the documented behaviour of Go's standard
  library and marked as such: `GoVarint` (encoding/binary varints), `GoStd` (strconv, strings,
  fmt of integers, UTF-8 iteration, math/big conversions), the first part of `Hex`
  (encoding/hex, encoding/base64), the first part of `Time` (package time: Date, Unix, Round,
  Format and Parse with the layouts used).
* The model of the part of the Go language that generated code is written in (`GoLang`: tokens,
  syntax, what statements do; `GoParse`: the grammar; `GoCheck`: what the compiler checks), written from the language
  specification.
* A 64-bit platform (int = int64), allocation limit 2^48 bytes for `make` (linux/amd64).
  Memory exhaustion below the limit is not modelled, nor the size of the stack: recursion
  is bounded by a budget, and C69 says when a finite budget is enough.
* SHA-256 and SHA-512 (crypto/sha256, crypto/sha512) are arbitrary function parameters; theorems
  that need them assume only that they return 32 and 64 bytes.  strconv.ParseFloat is a parameter of C65 in the same way.

## What is modelled

pkg/abi: all of encode.go and decode.go.  pkg/chain: all types and methods listed below.
pkg/base58, pkg/ripemd160: everything.  pkg/codegen: GenUnmarshalFn, both
the text it returns and what that text does as a Go program.

Simplifications, stated again where they are made:

* A nil and an empty slice are identified in the hand-written codecs (`Chain`), not in
  the reflective one (`Reflect` keeps nil apart and records reflect's IsZero).
* Values are trees: two pointers or slices sharing storage are not represented, except where
  a property is about that (C27).
* Map keys are compared structurally, so float, pointer and interface keys are excluded.
* A user-defined type with methods of its own (`TUser`) has MarshalABI with a value receiver and
  UnmarshalABI with a pointer receiver, both arbitrary programs (`marshals`, `unmarshals`); what
  a theorem assumes of them is a hypothesis (`faithful`, `predictable`, ...).  Custom functions
  given to NewCustomEncoder/NewCustomDecoder are arbitrary programs as well.
* Interface variables: Encode is modelled on any value with them inside (C74); Decode on targets built
  from structs, arrays, slices, maps, pointers and interfaces (C75), with interfaces in the values of a map
  but not in its keys; DecodeVariant likewise. Types with interfaces inside have no methods of their own.
* In the dynamic codec a `*resolvedType` is the name it was created for; cyclic
  `map[string]interface{}` values are not represented.
* The texts of errors are modelled where they are constant; errors carrying formatted
  values are represented by a constant text.

Not modelled: benchmarks, internal/assert, tests, text/template as such (the templates are
transcribed as functions giving the text they render), goroutines (the code has none).  Of encoding/json (a library) `Json` models what the types of
pkg/chain use; floats, maps and interfaces, and what a failed
Unmarshal leaves in its target are not modelled.

## Testing the theorems

`tools/seed.py` applies an edit to a scratch copy of the model, rebuilds, admits what fails, and
reports the property theorems that then rest on an admitted lemma; `seeded/LOG.jsonl` has one line
per edit.  Edits that no theorem noticed led to new or stronger theorems (field `tightened`).
