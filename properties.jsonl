{"id": "C01", "title": "Binary round trip", "statement": "For every value v of every type T that implements SerBin and DeBin through nanoserde (primitives, String, Option, Box, Vec, LinkedList, sets, maps, arrays, tuples, Duration, SystemTime at or after the epoch, derived structs and enums, including recursive ones), T::deserialize_bin(&v.serialize_bin()) returns Ok(v).", "quantifier": "all types built from the provided impls and the derives, all values of the type", "why_tests_cant": "The set of types and values is infinite; a test samples a handful of concrete structs.", "anchors": ["src/serde_bin.rs: SerBin, DeBin impls", "derive/src/serde_bin.rs: derive_ser_bin_struct, derive_de_bin_struct, derive_ser_bin_enum, derive_de_bin_enum"]}
{"id": "C02", "title": "Binary decoding is self-delimiting and position independent", "statement": "If bytes = prefix ++ v.serialize_bin() ++ suffix and *offset = prefix.len(), then T::de_bin(&mut offset, bytes) returns Ok(v) and leaves *offset = prefix.len() + v.serialize_bin().len(), whatever prefix and suffix are.", "quantifier": "all values, all prefixes, all suffixes", "why_tests_cant": "A test fixes one prefix and one suffix.", "anchors": ["src/serde_bin.rs: DeBin::de_bin"]}
{"id": "C03", "title": "ser_bin only appends, and records written one after another are read back in order", "statement": "v.ser_bin(&mut out) leaves the bytes already in out untouched and appends exactly v.serialize_bin(); a stream of values (of possibly different types) written to the same Vec is read back by successive de_bin calls on one offset, which ends at the end of the stream.", "quantifier": "all initial buffers, all finite sequences of typed values", "why_tests_cant": "Sequences and buffers are unbounded.", "anchors": ["src/serde_bin.rs: SerBin::ser_bin, SerBin::serialize_bin"]}
{"id": "C04", "title": "Binary wire layout", "statement": "The bytes are the documented fixed layout: integers and float bit patterns little-endian in their natural width, usize as 8 bytes on every platform, bool one byte 0/1, Option one tag byte 0/1, String/Vec/LinkedList/sets/maps an 8-byte length followed by the items, arrays/tuples/structs the plain concatenation of their parts, enums a 2-byte variant index followed by the fields, Duration 8+4 bytes.", "quantifier": "all values of all types", "why_tests_cant": "Tests compare a few literals.", "anchors": ["src/serde_bin.rs", "derive/src/serde_bin.rs"]}
{"id": "C05", "title": "Binary decoding stays inside the input and depends only on the bytes it consumes", "statement": "Whenever de_bin succeeds, old offset <= new offset <= bytes.len(), and changing or appending bytes outside [old offset, new offset) does not change the result or the new offset.", "quantifier": "all types, all byte strings, all offsets", "why_tests_cant": "All byte strings and all modifications cannot be enumerated.", "anchors": ["src/serde_bin.rs: DeBin::de_bin"]}
{"id": "C06", "title": "Truncated binary data is rejected", "statement": "Deserializing any strict prefix of v.serialize_bin() returns an error, never Ok.", "quantifier": "all types, all values, all strict prefixes", "why_tests_cant": "All values and all cut points.", "anchors": ["src/serde_bin.rs: DeBin::deserialize_bin"]}
{"id": "C07", "title": "Binary encodings are prefix free", "statement": "For two values of one type, if v1.serialize_bin() ++ x = v2.serialize_bin() ++ y then v1 = v2 and x = y; in particular distinct values have distinct encodings.", "quantifier": "all types, all pairs of values, all continuations", "why_tests_cant": "Needs all pairs of values.", "anchors": ["src/serde_bin.rs: SerBin"]}
{"id": "C08", "title": "Binary decoding of arbitrary bytes does not panic", "statement": "deserialize_bin on untrusted bytes returns Ok or Err; it does not panic, whatever the bytes are.", "quantifier": "all types, all byte strings", "why_tests_cant": "Fuzzing samples byte strings only.", "anchors": ["src/serde_bin.rs: DeBin for String, Vec, HashSet, HashMap, Duration, SystemTime"]}
{"id": "C09", "title": "Binary length errors are accurate", "statement": "When a fixed-width read fails, the error carries the offset at which the read started, the width that was wanted and the total length of the input, and the offset has not moved.", "quantifier": "all fixed-width types, all inputs, all offsets", "why_tests_cant": "All inputs and offsets.", "anchors": ["src/serde_bin.rs: impl_ser_de_bin_for, DeBinErr"]}
{"id": "C10", "title": "Decoding then re-encoding is stable", "statement": "If bytes decode to v, then encoding v and decoding again gives v back (so re-encoding normalises in one step); for types without bool, Option, sets, maps or Duration the re-encoded bytes are the consumed bytes themselves.", "quantifier": "all types, all byte strings that decode", "why_tests_cant": "All byte strings.", "anchors": ["src/serde_bin.rs"]}
{"id": "C11", "title": "Decoded values are valid values of the type", "statement": "Whatever the bytes, a value returned by deserialize_bin satisfies the type's invariants: integers in range, strings made of Unicode scalar values, BTree sets and maps strictly sorted, Hash sets and maps without duplicates, arrays of the declared length, Duration nanoseconds below 10^9, an existing enum variant.", "quantifier": "all types, all byte strings", "why_tests_cant": "All byte strings.", "anchors": ["src/serde_bin.rs", "derive/src/serde_bin.rs"]}
{"id": "C12", "title": "Duplicate keys in encoded maps and sets", "statement": "Decoding a map entry sequence with repeated keys keeps exactly one entry per key, the last one written; decoding a set collapses repeated elements; both in binary, JSON and RON.", "quantifier": "all entry sequences", "why_tests_cant": "All sequences, all duplicate patterns.", "anchors": ["src/serde_bin.rs: DeBin for HashMap, BTreeMap, HashSet, BTreeSet", "src/serde_json.rs", "src/serde_ron.rs"]}
{"id": "C13", "title": "Unknown enum discriminants are rejected in binary", "statement": "An enum with k variants decodes a 2-byte tag i to variant i if i < k and returns an UnknownDiscriminant(i) error otherwise; never another variant.", "quantifier": "all enums, all tags, all remaining bytes", "why_tests_cant": "All enums and all tags.", "anchors": ["derive/src/serde_bin.rs: derive_de_bin_enum"]}
{"id": "C14", "title": "Skipped fields", "statement": "A field marked #[nserde(skip)] in a struct never influences the serialized output (binary, JSON, RON) and deserializes to its default.", "quantifier": "all structs, all field values, all three formats", "why_tests_cant": "All structs and values.", "anchors": ["derive/src/serde_bin.rs", "derive/src/serde_json.rs", "derive/src/serde_ron.rs", "derive/src/shared.rs: attrs_skip"]}
{"id": "C15", "title": "usize is portable between 32-bit and 64-bit targets when it fits", "statement": "A usize (and any collection length) written on a 64-bit machine decodes to the same number on a 32-bit machine when it is below 2^32; a value that does not fit must not silently decode to something else.", "quantifier": "all usize values, both pointer widths", "why_tests_cant": "Tests run on one width.", "anchors": ["src/serde_bin.rs: DeBin for usize"]}
{"id": "C16", "title": "Proxies", "statement": "For a type or field with #[nserde(proxy = \"P\")] the output is exactly that of the converted proxy value, and decoding converts back; if the user's conversions are inverse to each other the round trip is exact.", "quantifier": "all proxy conversions, all values", "why_tests_cant": "Conversions are arbitrary user functions.", "anchors": ["derive/src/serde_bin.rs: derive_ser_bin_proxy, derive_de_bin_proxy", "derive/src/serde_json.rs: derive_ser_json_proxy"]}
{"id": "C17", "title": "JSON round trip", "statement": "For every value v of every type T that implements SerJson and DeJson (integers up to 64 bits, finite floats, bool, String, unit, Option not directly wrapping a value that itself prints null, Box, Vec, LinkedList, sets, maps, non-empty arrays, tuples, Duration, SystemTime from the epoch on, derived structs and enums, recursive ones too), T::deserialize_json(&v.serialize_json()) returns Ok(v).", "quantifier": "all types built from the provided impls and derives, all values", "why_tests_cant": "The set of types and values is infinite; a test samples a handful of concrete structs.", "anchors": ["src/serde_json.rs", "derive/src/serde_json.rs"]}
{"id": "C18", "title": "JSON string round trip and escaping", "statement": "For every Rust string s, String::deserialize_json(&s.serialize_json()) == Ok(s), and the serialized text contains no raw control character and no quote other than the two delimiters and escaped ones.", "quantifier": "all strings of Unicode scalar values", "why_tests_cant": "All strings.", "anchors": ["src/serde_json.rs: impl_ser_json_string, DeJsonState::next_tok, hex_unescape_char"]}
{"id": "C19", "title": "JSON integers outside the target range are rejected", "statement": "Deserializing a decimal integer literal into an integer type yields Ok(n) with the exact value if it is in the range of the type, and an error otherwise; it never yields a different number.", "quantifier": "all integer literals, all integer types", "why_tests_cant": "All literals, all widths.", "anchors": ["src/serde_json.rs: u64_range, i64_range, impl_ser_de_json_unsigned, impl_ser_de_json_signed"]}
{"id": "C20", "title": "serialize_json emits valid JSON", "statement": "For values whose map keys are strings, whose floats are finite and whose field and variant names need no escaping, the output of serialize_json is a JSON text in the sense of RFC 8259.", "quantifier": "all such types and values", "why_tests_cant": "All values.", "anchors": ["src/serde_json.rs", "derive/src/serde_json.rs"]}
{"id": "C21", "title": "JSON whitespace and comments between tokens do not matter", "statement": "Inserting spaces, tabs, newlines or comments between tokens changes neither the value nor whether parsing succeeds; the result depends only on the token sequence.", "quantifier": "all types, all pairs of inputs with the same tokens", "why_tests_cant": "All inputs and all insertion points.", "anchors": ["src/serde_json.rs: DeJsonState::next_tok"]}
{"id": "C22", "title": "JSON unicode escapes", "statement": "\\uXXXX decodes to that code point when it is a scalar value, a high surrogate followed by \\u and a low surrogate decodes to the supplementary character, and every unpaired surrogate or malformed escape is an error.", "quantifier": "all 2^16 code units and all pairs, any surrounding text", "why_tests_cant": "Tests cover pairs in isolation.", "anchors": ["src/serde_json.rs: hex_unescape_char", "src/serde_ron.rs: hex_unescape_char"]}
{"id": "C23", "title": "Unknown JSON fields are skipped", "statement": "A member of a JSON object that no field of a derived struct is named after is ignored whatever well-formed JSON value it holds, and the other members are read as if it were absent.", "quantifier": "all structs, all member values nested to any depth, all positions", "why_tests_cant": "Unbounded nesting.", "anchors": ["src/serde_json.rs: whole_field", "derive/src/serde_json.rs: derive_de_json_named"]}
{"id": "C24", "title": "JSON and RON struct fields may come in any order; the last duplicate wins", "statement": "Permuting the members of the object does not change the deserialized struct; if a member is repeated, the last occurrence counts.", "quantifier": "all structs, all permutations, all values", "why_tests_cant": "All permutations.", "anchors": ["derive/src/serde_json.rs: derive_de_json_named", "derive/src/serde_ron.rs: derive_de_ron_named"]}
{"id": "C25", "title": "Missing fields", "statement": "A member missing from the text gives None for an Option field, the declared default for a field (or container) with a default attribute, and otherwise an error naming that field; it never yields a value by accident.", "quantifier": "all structs, all subsets of missing fields", "why_tests_cant": "All subsets.", "anchors": ["derive/src/serde_json.rs: derive_de_json_named", "derive/src/serde_ron.rs: derive_de_ron_named"]}
{"id": "C26", "title": "JSON parsing of arbitrary text does not panic", "statement": "deserialize_json on untrusted text returns Ok or Err for every type; it does not panic.", "quantifier": "all types, all strings", "why_tests_cant": "All strings.", "anchors": ["src/serde_json.rs: whole_field, DeJson impls", "derive/src/serde_json.rs"]}
{"id": "C27", "title": "JSON parsing of arbitrary text terminates", "statement": "deserialize_json returns on every input.", "quantifier": "all types, all strings", "why_tests_cant": "Non-termination cannot be observed by a test.", "anchors": ["src/serde_json.rs: next_tok, whole_field"]}
{"id": "C28", "title": "Arrays and tuples require the exact number of items", "statement": "[T; N] and tuples deserialize from JSON/RON only sequences with exactly N items (a single trailing comma is tolerated); shorter or longer sequences are errors.", "quantifier": "all N, all item counts, all contents", "why_tests_cant": "All lengths.", "anchors": ["src/serde_json.rs: DeJson for [T; N], tuples", "src/serde_ron.rs"]}
{"id": "C29", "title": "deserialize_json consumes the whole text", "statement": "Ok is returned only if nothing but whitespace and comments follows the value.", "quantifier": "all inputs", "why_tests_cant": "All suffixes.", "anchors": ["src/serde_json.rs: deserialize_json"]}
{"id": "C30", "title": "Error positions", "statement": "The line reported by a text parser is the number of newlines it has consumed and the column is the distance from the last newline, for JSON, RON and TOML.", "quantifier": "all inputs, all error points", "why_tests_cant": "All inputs.", "anchors": ["src/serde_json.rs: DeJsonState::next", "src/serde_ron.rs: DeRonState::next", "src/toml.rs: TomlParser::next"]}
{"id": "C31", "title": "Nested Option values survive text round trips", "statement": "Some(None) and None of Option<Option<T>> (and Some(()) of Option<()>) are distinguished by serialize/deserialize in JSON and RON.", "quantifier": "all nested option values", "why_tests_cant": "Ranges over all types.", "anchors": ["src/serde_json.rs: Option", "src/serde_ron.rs: Option"]}
{"id": "C32", "title": "Enum representation in JSON", "statement": "A unit variant is its name as a string, a variant with data is an object with exactly one member named after the variant; decoding accepts exactly declared names and rejects others with an error; a value is never decoded as another variant.", "quantifier": "all enums, all variants, all names", "why_tests_cant": "All enums.", "anchors": ["derive/src/serde_json.rs: derive_ser_json_enum, derive_de_json_enum"]}
{"id": "C33", "title": "Every RFC 8259 string and number literal is accepted with its meaning", "statement": "A String field reads any valid JSON string literal as the string RFC 8259 says it denotes; a number field reads any valid JSON number.", "quantifier": "all JSON string and number literals", "why_tests_cant": "All literals.", "anchors": ["src/serde_json.rs: next_tok"]}
{"id": "C34", "title": "Values read from text are valid values of the type", "statement": "Whatever the text, a value returned by deserialize_json or deserialize_ron satisfies the invariants of its type (ranges, sortedness, lengths, existing variants).", "quantifier": "all types, all strings", "why_tests_cant": "All strings.", "anchors": ["src/serde_json.rs", "src/serde_ron.rs"]}
{"id": "C35", "title": "RON round trip", "statement": "For every value v of every type T implementing SerRon and DeRon (same universe as JSON, Option not directly wrapping something printed as None), T::deserialize_ron(&v.serialize_ron()) returns Ok(v).", "quantifier": "all types built from the provided impls and derives, all values", "why_tests_cant": "The set of types and values is infinite; a test samples a handful of concrete structs.", "anchors": ["src/serde_ron.rs", "derive/src/serde_ron.rs"]}
{"id": "C36", "title": "RON string round trip", "statement": "For every Rust string s, String::deserialize_ron(&s.serialize_ron()) == Ok(s).", "quantifier": "all strings of Unicode scalar values", "why_tests_cant": "All strings.", "anchors": ["src/serde_ron.rs: SerRon for String, DeRonState::next_tok"]}
{"id": "C37", "title": "RON parsing of arbitrary text terminates and does not panic", "statement": "deserialize_ron on untrusted text returns Ok or Err for every type.", "quantifier": "all types, all strings", "why_tests_cant": "All strings.", "anchors": ["src/serde_ron.rs: next_tok, DeRon impls", "derive/src/serde_ron.rs"]}
{"id": "C38", "title": "RON rejects unknown fields", "statement": "A struct member with a name that is not a field is an UnexpectedKey error carrying that name.", "quantifier": "all structs, all names, all positions", "why_tests_cant": "All names.", "anchors": ["derive/src/serde_ron.rs: derive_de_ron_named"]}
{"id": "C39", "title": "RON whitespace and comments between tokens do not matter", "statement": "Inserting whitespace or comments between tokens changes neither the value nor success.", "quantifier": "all types, all pairs of inputs with the same tokens", "why_tests_cant": "All inputs.", "anchors": ["src/serde_ron.rs: DeRonState::next_tok"]}
{"id": "C40", "title": "RON does not silently drop input", "statement": "Every token of the text is either used for the value or makes parsing fail; in particular character literals are not skipped and an unterminated comment is an error.", "quantifier": "all inputs", "why_tests_cant": "All inputs.", "anchors": ["src/serde_ron.rs: DeRonState::next_tok"]}
{"id": "C41", "title": "TOML parsing terminates on every input", "statement": "TomlParser::parse returns on every string.", "quantifier": "all strings", "why_tests_cant": "Non-termination cannot be observed by a test.", "anchors": ["src/toml.rs: parse, parse_line, next_tok, to_val"]}
{"id": "C42", "title": "TOML parsing does not panic", "statement": "TomlParser::parse returns Ok or Err on every string.", "quantifier": "all strings", "why_tests_cant": "All strings.", "anchors": ["src/toml.rs: Out::start_array, Out::out"]}
{"id": "C43", "title": "TOML key/value documents", "statement": "For a document of [table] headers and key = value lines the resulting map holds, for every dotted key, the last value assigned to it, and no other key.", "quantifier": "all such documents", "why_tests_cant": "All documents.", "anchors": ["src/toml.rs: parse_line, parse_key_value"]}
{"id": "C44", "title": "TOML arrays of tables", "statement": "After n headers [[k]], the map holds under k an array of exactly n tables, the i-th holding the assignments between the i-th header and the next header.", "quantifier": "all documents of array-of-table sections", "why_tests_cant": "All documents.", "anchors": ["src/toml.rs: Out::start_array, Out::out"]}
{"id": "C45", "title": "TOML string values", "statement": "A basic string literal denotes its content: every non-empty string without quotes, backslashes and NUL reads back verbatim, the empty string reads as empty and escapes follow the TOML specification.", "quantifier": "all strings", "why_tests_cant": "All strings.", "anchors": ["src/toml.rs: next_tok"]}
{"id": "C46", "title": "TOML comments and blank space", "statement": "Comments and blank lines between the entries of a document do not change the result.", "quantifier": "all documents, all comment texts", "why_tests_cant": "All documents.", "anchors": ["src/toml.rs: next_tok"]}
{"id": "C47", "title": "TOML arrays of values", "statement": "A bracketed list of values reads as the list of those values in order, for values of every kind, nested to any depth.", "quantifier": "all value lists", "why_tests_cant": "All lists.", "anchors": ["src/toml.rs: to_val, parse_ident"]}
{"id": "C48", "title": "TOML numbers", "statement": "An integer literal with optional sign and underscores reads as that integer (as f64); integers that do not fit i64 are rejected.", "quantifier": "all integer literals", "why_tests_cant": "All literals.", "anchors": ["src/toml.rs: parse_num"]}
{"id": "C49", "title": "Serialization never panics", "statement": "serialize_bin, serialize_json and serialize_ron return for every value, in debug and release builds.", "quantifier": "all types, all values", "why_tests_cant": "All values.", "anchors": ["src/serde_bin.rs", "src/serde_json.rs: SerJson for [T]", "src/serde_ron.rs: SerRon for [T]"]}
{"id": "C50", "title": "Partially read arrays are released exactly once", "statement": "When deserializing [T; N] fails after k items, exactly the k items read are dropped, each once, and no uninitialised slot is touched; on success every item is moved out once.", "quantifier": "all N, all failure points k", "why_tests_cant": "All N and k; leaks and double drops are invisible to value tests.", "anchors": ["src/serde_bin.rs: DeBin for [T; N]", "src/serde_json.rs: DeJson for [T; N]", "src/serde_ron.rs: DeRon for [T; N]"]}
{"id": "C51", "title": "Container attributes are honoured on structs and enums alike", "statement": "The derive macros apply #[nserde(crate = ..)] and #[nserde(proxy = ..)] wherever the documentation allows them, including on enums.", "quantifier": "all container definitions and attribute lists", "why_tests_cant": "All definitions.", "anchors": ["derive/src/parse.rs: parse_data, next_attribute", "derive/src/lib.rs"]}
{"id": "C52", "title": "Reading, writing and reading again gives the same value", "statement": "For every text that deserialize_json (deserialize_ron) accepts, serializing the value it returns and deserializing the result gives the same value, whatever the layout, order, repetition or omissions of the original text.", "quantifier": "all types and attribute combinations, all accepted texts, both formats", "why_tests_cant": "All accepted texts.", "anchors": ["src/serde_json.rs", "src/serde_ron.rs", "derive/src/serde_json.rs", "derive/src/serde_ron.rs"]}
{"id": "C53", "title": "Derive macros read every definition as written", "statement": "For every struct or enum definition of the supported syntax, the derive macros accept it and see exactly its name, shape, fields or variants, their types, their own #[nserde(..)] items and its generic parameters with all bounds (including those of where clauses); other attributes, visibility, discriminants and trailing commas change nothing.", "quantifier": "all definitions: any number of attributes, generic parameters, where clauses, fields and variants, types of any depth", "why_tests_cant": "Definitions are unbounded trees of tokens; the reader's lookahead interacts with everything that may follow a type.", "anchors": ["derive/src/parse.rs: parse_data, next_struct, next_enum, next_fields, next_type, get_all_bounds, next_attribute"]}
{"id": "C54", "title": "Attributes act on exactly the item they are written on", "statement": "The declaration the generated code implements (names on the wire, skipped fields, defaults, proxies, null handling, transparency) is the one described by the #[nserde(..)] items of each field, variant and container; items on one field never influence another.", "quantifier": "all definitions, formats and attribute lists, any number and order of items", "why_tests_cant": "All attribute lists on all definitions.", "anchors": ["derive/src/shared.rs: attrs_*", "derive/src/serde_json.rs: derive_de_json_named, derive_ser_json_struct", "derive/src/serde_ron.rs: derive_de_ron_named", "derive/src/lib.rs"]}
{"id": "C55", "title": "Generated impls are generic exactly as the type is", "statement": "The impl header repeats every generic parameter once, in order, with all bounds from the parameter list and the where clause, adds the derived trait to each type parameter and to nothing else, and applies the type to the same parameters.", "quantifier": "all generic parameter lists and where clauses", "why_tests_cant": "All parameter lists.", "anchors": ["derive/src/shared.rs: struct_bounds_strings, enum_bounds_strings", "derive/src/parse.rs: Generic::full_with_const"]}
{"id": "C56", "title": "Appending enum variants keeps old data readable", "statement": "If a later version of a program only appends variants to its enums (and adds new types), then every input the earlier version accepted is accepted by the later one with the same value (binary, JSON, RON, whatever the bytes or text); values of the earlier version are written identically by the later; and the earlier version reads whatever the later one writes as long as the value uses no new variant, which it otherwise reports (in the binary format) as an unknown discriminant.", "quantifier": "all programs and later versions of them, all types, values, inputs", "why_tests_cant": "All pairs of schema versions and all old inputs, including ones no serializer wrote.", "anchors": ["derive/src/serde_bin.rs: derive_de_bin_enum, derive_ser_bin_enum", "derive/src/serde_json.rs: derive_de_json_enum", "derive/src/serde_ron.rs: derive_de_ron_enum"]}
{"id": "C57", "title": "Types without variable parts have a fixed binary size", "statement": "A type made of scalars, arrays, tuples, structs and enums with equally large payloads takes the same number of bytes for every value: each successful read advances the offset by exactly that number, no read succeeds with fewer bytes left, and each value is written with exactly that number.", "quantifier": "all such types, values, byte strings and offsets", "why_tests_cant": "All types and inputs.", "anchors": ["src/serde_bin.rs: impl_ser_de_bin_for, DeBin for [T; N]", "derive/src/serde_bin.rs"]}
{"id": "C58", "title": "Printed errors say what and where", "statement": "The text of a JSON, RON or TOML error ends with the line (and for JSON the column), counted from 1, at which reading stopped, and that position can be read back from the text; missing fields, unknown RON fields and binary length errors are reported with the field name or the offset, wanted size and input size; an unknown variant is reported with its offset.", "quantifier": "all inputs, types and errors", "why_tests_cant": "All failing inputs.", "anchors": ["src/serde_bin.rs: Debug for DeBinErr", "src/serde_json.rs: Debug for DeJsonErr, DeJsonErrReason", "src/serde_ron.rs: Debug for DeRonErr", "src/toml.rs: Debug for TomlErr"]}
{"id": "C59", "title": "TOML accessors", "statement": "Each of num, str, boolean, date, arr and simple_arr returns the content for values of its kind and panics for all others; after parsing, indexing by a key gives the last value assigned to it, and indexing an array of tables by i gives the table under the i-th header, panicking from the number of headers on.", "quantifier": "all documents, keys, indices and values", "why_tests_cant": "All documents and indices.", "anchors": ["src/toml.rs: impl Toml, Index<usize> for Toml"]}
{"id": "C60", "title": "JSON texts are read as the document they denote", "statement": "For a JSON text, T::deserialize_json(text) is Ok(v) exactly if v is what the JSON document means for T: numbers by value and range, arrays element by element, objects by member names (last one wins, unknown ignored, defaults for missing), enums by representation, Option by null. Spacing, comments and the spelling of strings have no influence.", "quantifier": "all JSON documents, all their texts (any spacing, escapes), all types built from the supported constructors and declarations with distinct names, all values", "why_tests_cant": "Infinitely many documents, texts and types; an equivalence both ways.", "anchors": ["src/serde_json.rs: DeJson, DeJsonState", "derive/src/serde_json.rs"]}
{"id": "C61", "title": "serialize_json writes the document that represents the value", "statement": "What serialize_json writes is a text of exactly one JSON document, determined by the type and value: numbers in decimal, Option as the contents or null or left out, structs and maps as objects with members in order, enums as strings or one-member objects, SystemTime before the epoch as null.", "quantifier": "all types (string-written map keys), all values whose document exists (finite floats, printable names), all declarations", "why_tests_cant": "Infinitely many types and values.", "anchors": ["src/serde_json.rs: SerJson, SerJsonState", "derive/src/serde_json.rs"]}
{"id": "C62", "title": "JSON written by one program, read by another", "statement": "Data written by a program with one set of declarations is read by a program with other declarations exactly as the document carries over: fields may be added with defaults, removed, reordered, retyped; integers change width if they fit; T becomes Option<T>; Vec, sets and arrays interchange; enum variants are matched by name.", "quantifier": "all pairs of programs (declarations, targets), all types and values", "why_tests_cant": "Two versions of a program and all data between them.", "anchors": ["src/serde_json.rs", "derive/src/serde_json.rs: derive_de_json_named, derive_de_json_enum"]}
{"id": "C63", "title": "deserialize_ron reads the document a text denotes", "statement": "Whether and what deserialize_ron::<T>(text) returns is determined by the document the text denotes (names, numbers, strings after unescaping, [..], (..), {..}, Name(..)) and the type: spacing, comments, trailing commas and the way strings are escaped have no influence; the value is the one the document means for T; a document without meaning for T is an error. (Exception, proved: at the top level brackets after a name are ignored if the name alone is a value.)", "quantifier": "all RON texts (with numbers the lexer has a token for), all types and declarations with distinct names, all values", "why_tests_cant": "Infinitely many texts, documents, types and values; an equivalence in both directions.", "anchors": ["src/serde_ron.rs: DeRonState, DeRon", "derive/src/serde_ron.rs: derive_de_ron_named, derive_de_ron_enum"]}
{"id": "C64", "title": "serialize_ron writes the document that represents the value", "statement": "What serialize_ron writes is a text of exactly one RON document, determined by the type and value: numbers in decimal, strings, [..] for sequences, (..) for tuples and arrays, (name: value, ..) for structs with None fields left out, {..} for maps, Name or Name(..) for enums, None for an absent Option and for a SystemTime before the epoch. Every value with a round trip has such a document.", "quantifier": "all types, declarations, targets, and all values that are shown as a document (in particular all that satisfy C35's hypothesis)", "why_tests_cant": "Infinitely many types and values.", "anchors": ["src/serde_ron.rs: SerRon, SerRonState", "derive/src/serde_ron.rs: derive_ser_ron_named, derive_ser_ron_enum"]}
{"id": "C65", "title": "RON written by one program, read by another", "statement": "Data written as RON by a program with one set of declarations is read by a program with other declarations exactly as the document carries over: fields may be added with defaults, reordered, retyped, but a field that was written must still exist (otherwise no value is read); integers change width if they fit; T becomes Option<T>; Vec, LinkedList and sets interchange, arrays interchange with tuples; enum variants are matched by name; at the top level a variant that has lost its contents is read with the contents dropped silently.", "quantifier": "all pairs of programs (declarations, targets), all types and values", "why_tests_cant": "Two versions of a program and all data between them.", "anchors": ["src/serde_ron.rs", "derive/src/serde_ron.rs: derive_de_ron_named, derive_de_ron_enum"]}
{"id": "C66", "title": "Exactly which texts deserialize_json accepts, and as what", "statement": "deserialize_json::<T>(text) returns Ok(v) if and only if the text begins with a sequence of tokens that represents v for T, and what follows is the end of the text or begins with another token. A sequence of tokens represents v for an integer type when it is one number literal in range (a plus sign allowed), for a String when it is one string literal, for a Vec when it is [..] with elements separated by commas (one more comma allowed), for a struct when it is {..} whose members give the fields (the last member of a name counts, unknown ones are skipped by counting brackets, missing ones defaulted), for an enum when it is a name or {name: contents}, and so on for every type. A string literal behind the value replaces the name of a unit variant. Two texts with the same tokens (differing in white space, comments, escapes) have the same result, in JSON and in RON.", "quantifier": "all texts, types, declarations (with distinct names), targets and values", "why_tests_cant": "An equivalence over all texts: acceptance of some and rejection of all others.", "anchors": ["src/serde_json.rs: DeJsonState, DeJson", "derive/src/serde_json.rs: derive_de_json_named, derive_de_json_enum, derive_de_json_struct_unnamed"]}
{"id": "C67", "title": "Exactly which texts deserialize_ron accepts, and as what", "statement": "deserialize_ron::<T>(text) returns Ok(v) if and only if the text begins with a sequence of tokens that represents v for T, and what follows is the end of the text or begins with another token. A sequence of tokens represents v for an integer type when it is one number literal in range, for a bool when it is true, false or a natural number (nonzero is true), for a String when it is one string literal, for a Vec when it is [..] with elements separated by commas (one more comma allowed), for tuples and arrays when it is (..) with exactly the right number of elements, for a struct when it is (..) whose members name fields (no unknown name; the last member of a name counts; missing ones defaulted), for an enum when it is the name of a variant followed by its contents, and so on for every type. A word behind a variant without contents replaces its name. For types without SystemTime every other text is rejected with an error (no panic, no hang).", "quantifier": "all texts, types, declarations (with distinct names), targets and values", "why_tests_cant": "An equivalence over all texts: acceptance of some and rejection of all others.", "anchors": ["src/serde_ron.rs: DeRonState, DeRon", "derive/src/serde_ron.rs: derive_de_ron_named, derive_de_ron_enum, derive_de_ron_struct_unnamed"]}
{"id": "C68", "title": "The code written by derive(SerBin) and derive(DeBin) does what the definition says", "statement": "For every struct or enum definition, the impl that #[derive(SerBin)] prints writes the fields in the order of the definition (for an enum: the position of the variant as a u16, then its fields), leaving out fields with #[nserde(skip)] and writing fields with a proxy through the proxy; the impl that #[derive(DeBin)] prints reads exactly the same fields in the same order, gives skipped fields Default::default(), converts proxied fields back, and rejects unknown discriminants. So the two impls are inverse to each other for every value of the type.", "quantifier": "all definitions (any number of fields, variants, generic parameters, attributes), values, output buffers, inputs and offsets", "why_tests_cant": "The macro writes a different program for each definition; tests only look at a few definitions.", "anchors": ["derive/src/serde_bin.rs: derive_ser_bin_struct, derive_ser_bin_struct_unnamed, derive_ser_bin_enum, derive_de_bin_struct, derive_de_bin_struct_unnamed, derive_de_bin_enum, derive_ser_bin_proxy, derive_de_bin_proxy", "derive/src/lib.rs: derive_ser_bin, derive_de_bin"]}
{"id": "C69", "title": "The code written by derive(SerJson) and derive(DeJson) does what the definition says", "statement": "For every struct or enum definition, the impl that #[derive(SerJson)] prints writes an object with the fields in the order of the definition under their (re)names, leaves out skipped fields and None unless serialize_none_as_null asks for null, puts commas exactly between the fields that were written, writes proxied fields through the proxy, tuple structs as arrays (or, transparent, as the one field) and variants as a string or as an object with one member; the impl that #[derive(DeJson)] prints accepts the members in any order under the same names, skips unknown ones, gives missing fields their default or an error, and restores skipped and proxied fields. The two impls are inverse to each other.", "quantifier": "all definitions (any number of fields, variants, generic parameters, attributes), all values, all texts", "why_tests_cant": "The macro writes a different program for each definition; tests only look at a few definitions.", "anchors": ["derive/src/serde_json.rs: derive_ser_json_struct, derive_ser_json_enum, derive_ser_json_struct_unnamed, derive_de_json_named, derive_de_json_struct, derive_de_json_enum, derive_de_json_struct_unnamed, derive_ser_json_proxy, derive_de_json_proxy, ser_proxy_guard", "derive/src/lib.rs: derive_ser_json, derive_de_json"]}
{"id": "C70", "title": "The code written by derive(SerRon) and derive(DeRon) does what the definition says", "statement": "For every struct or enum definition, the impl that #[derive(SerRon)] prints writes the fields in the order of the definition under their (re)names, each followed by a comma, leaves out skipped fields and None, writes tuple structs and variants in parentheses; the impl that #[derive(DeRon)] prints accepts the fields in any order under the same names, rejects unknown ones, gives missing fields their default or an error and restores skipped fields. Proxies are honoured. The two impls are inverse to each other.", "quantifier": "all definitions (any number of fields, variants, generic parameters, attributes), all values, all texts", "why_tests_cant": "The macro writes a different program for each definition; tests only look at a few definitions.", "anchors": ["derive/src/serde_ron.rs: derive_ser_ron_struct, derive_ser_ron_enum, derive_ser_ron_struct_unnamed, derive_de_ron_named, derive_de_ron_struct, derive_de_ron_enum, derive_de_ron_struct_unnamed, derive_ser_ron_proxy, derive_de_ron_proxy", "derive/src/lib.rs: derive_ser_ron, derive_de_ron"]}
{"id": "C71", "title": "What is read is no larger than the input pays for", "statement": "Decoding never builds more than the input pays for. Binary: every number, character, variant and present option of a decoded value has at least one byte of the input of its own; a collection whose elements take at least a byte has at most as many elements as bytes were read after its length prefix; and for programs without proxies whose collections have such elements the whole value (scalars, characters, containers) is at most K * (bytes read + 1) for a constant K of the program, whatever lengths the input claims. (Collections of zero-sized elements are the exception: eight bytes give a Vec<()> of any length.) JSON and RON: the size of the value is at most (D + 1) * the number of characters of the text, D being what the defaults of the fields of one struct amount to. TOML: the values of the document, with the characters of its strings and dates, are at most as many as the text has characters.", "quantifier": "all types and programs as described, all byte strings / texts, all offsets, targets and build profiles", "why_tests_cant": "A hostile length prefix, nesting or repetition that makes the value larger than the input can sit anywhere in an input of any length.", "anchors": ["src/serde_bin.rs: DeBin for Vec, LinkedList, HashSet, BTreeSet, HashMap, BTreeMap, String, Option, [T; N], tuples", "src/serde_json.rs: DeJson impls, DeJsonState::next_tok", "src/serde_ron.rs: DeRon impls", "derive/src/serde_bin.rs: derive_de_bin_struct, derive_de_bin_enum", "src/toml.rs: TomlParser::parse"]}
{"id": "C72", "title": "Nested calls and nesting are bounded by the input, and by nothing else", "statement": "Reading binary input of n bytes never takes more than K * (n + 1) nested calls of the readers (K a constant of the program), for every type whose recursion goes through Option, a collection or an enum, on any input, valid or not; every level of nesting of the value read takes a call; and the values read from text of n characters are nested at most (D + 1) * n deep (D as in C71). There is no fixed limit on the depth in any of the three formats: for struct T(Vec<T>) and every n, an input of 8(n+1) bytes (4(n+1) characters) is accepted and read as a value nested 2n+2 deep, and any smaller number of nested calls does not suffice. Writing binary takes nested calls in proportion to the nesting of the value, whatever its size.", "quantifier": "all programs as described, all byte strings, texts and offsets, all values, all targets and build profiles; all n", "why_tests_cant": "Stack use is a maximum over all inputs of every length; a test tries particular inputs, and an input needing more may be longer than any tried.", "anchors": ["src/serde_bin.rs: DeBin and SerBin impls", "src/serde_json.rs: DeJson impls", "src/serde_ron.rs: DeRon impls", "derive/src/serde_bin.rs: derive_de_bin_struct, derive_de_bin_enum"]}
{"id": "C73", "title": "Exactly which TOML texts are accepted, and which panic", "statement": "TomlParser::parse returns a map exactly for the texts that are a sequence of entries (key = value, [table], [[table]]) of the parser's grammar in which no [[k]] header names a key assigned before; the map is then the one those entries describe. It panics exactly for the texts that begin with entries in which a [[k]] header names an assigned key, whatever follows. It reports an error for every other text. A text has at most one reading as a sequence of entries, and texts with the same entries give the same map. The grammar states what the parser really takes: line breaks are not required between entries, arrays may lack commas and the closing bracket at the end of the text, strings opened by two quotes, what ends a word, which characters a triple-quoted string swallows, and so on.", "quantifier": "all texts (sequences of characters of any length), any behaviour of the standard library's float parsing and printing", "why_tests_cant": "Both directions are about every text: that nothing outside the grammar is accepted cannot be tested.", "anchors": ["src/toml.rs: TomlParser::parse, parse_line, parse_key_value, to_val, next_tok, parse_ident, parse_num, Out::start_array, Out::out"]}
{"id": "C74", "title": "Portable types: a value survives any sequence of formats", "statement": "Take types that meet conditions visible in their declarations: no 128-bit integers, no proxy, no option of something that is itself written like an absent option (unit, an option, a transparent wrapper of these, an enum with a variant called None), no array of length 0, tuples of 2 to 4 elements, distinct field and variant names that are identifiers, optional fields restored as None when they are missing, skipped fields without their own default, no skipped field or rename in enum variants. Then every value of such a type whose floats are finite can be written in binary, read, written in JSON, read, written in RON, read, and so on in any order and any number of times: every step succeeds and the value at the end is the one at the start. The same holds for whatever value was decoded from arbitrary bytes or parsed from arbitrary JSON or RON text. Two different values never have the same document. The condition on floats is necessary.", "quantifier": "all declarations and types that meet the conditions, all their values, all byte strings and texts that decode, all finite sequences of formats", "why_tests_cant": "Tests convert a few values of a few types between formats; the claim is about every type a user may declare within the conditions, and every value and route.", "anchors": ["src/serde_bin.rs", "src/serde_json.rs", "src/serde_ron.rs", "derive/src/serde_bin.rs", "derive/src/serde_json.rs", "derive/src/serde_ron.rs"]}
{"id": "C75", "title": "A whole program: derived types that use each other round-trip end to end", "statement": "Take any set of struct and enum definitions that refer to each other and to built-in types in any way (also recursively), each within the limits of C68 (binary), C69 (JSON) or C70 (RON). The macros accept all of them, and the code they print for them, calling the code printed for the others and the library's impls for the built-in types, serializes every well-typed value of every type of the program and reads it back: in binary at any place of a buffer, appending to the output and leaving the offset behind the last byte; in JSON and RON from the text it wrote. More: on arbitrary bytes or texts this code ends with the value, error or panic (and, in binary, the offset) that the definitions call for, and runs on only where that does.", "quantifier": "all finite sets of definitions within the limits, all meanings of the type names in them, all types, values, byte strings, offsets and texts", "why_tests_cant": "The test suite compiles a few dozen definitions; the claim is about every set of definitions and every value, with the printed code of all of them calling each other.", "anchors": ["derive/src/lib.rs: derive_*", "derive/src/parse.rs", "derive/src/serde_bin.rs", "derive/src/serde_json.rs", "derive/src/serde_ron.rs", "src/serde_bin.rs", "src/serde_json.rs", "src/serde_ron.rs"]}
{"id": "C76", "title": "What deserialize_json does with a text, exactly", "statement": "For every text and type one of four things happens: a value, an error, a panic, or the call never ends, and each happens exactly when the text says so. A value: as in C66. A panic with 'not implemented': some part of the value being read as a struct (or struct-like variant) has, after members that read well, a member with a name that is no field's, followed by a comma, colon or closing bracket, or by the end of the text. No end: such a member is followed by an opening bracket that is not closed before the end of the text. A panic in Duration or SystemTime: the tokens of a Duration of 2^64-1 seconds and 1000000000 nanoseconds, or of a time later than the platform has. An error in all other cases. A text does not do two of these. RON, for types without Duration and SystemTime: every text that is not accepted is an error.", "quantifier": "all texts, all types (also recursive) the derive macros accept with distinct field and variant names", "why_tests_cant": "Claims about every text that is not accepted, for every type, including texts on which the call does not return.", "anchors": ["src/serde_json.rs: whole_field, DeJson impls", "derive/src/serde_json.rs: derive_de_json_*"]}
{"id": "C77", "title": "What a binary read does with any bytes, exactly", "statement": "For every byte string, offset and type the result of de_bin is determined by a layout table. It returns a value exactly if the bytes at the offset begin with a spelling of that value, and then the offset ends just behind the spelling. Spellings are the encodings of C04 with these liberties: any non-zero byte is true, any Option or SystemTime tag but 1 is None or the epoch, items may repeat or come in any order in sets and maps (the last value of a key wins), exactly 10^9 nanoseconds count as one more second, and a 32-bit machine keeps the low half of a 64-bit count. In every other case it returns one definite error, with given message and offset, or one definite panic: the first bytes of some part are missing (length error with the width wanted, the total input length and the offset of that part), a string runs past the input (length error 1, offset behind its count) or past the address space (panic), is not UTF-8 (length error with the string's length), nanoseconds above 10^9 (range error), an unknown variant tag (discriminant error, offset 0), a count too large to reserve (panic), a duration or time out of range (panic). deserialize_bin ignores what follows the spelling. No input has two results.", "quantifier": "all byte strings, offsets, types (also recursive), 32/64 bit machines, debug and release builds", "why_tests_cant": "An equivalence over all inputs, including those that are not accepted, for every type.", "anchors": ["src/serde_bin.rs: DeBin impls, DeBinErr, DeBinErrReason", "derive/src/serde_bin.rs: derive_de_bin_*"]}
{"id": "C78", "title": "Every error of the TOML parser, exactly", "statement": "TomlParser::parse returns an error exactly if the text, after entries that do not clash with each other, goes on with something that is neither an entry nor the end. The error names what is there: the unexpected token (where a key, a bracket, an equals sign, a name or a value is wanted), or the kind of thing that is no token ('string' for a string that is not closed before the end or a NUL, 'number' for a fraction the standard library does not take, 'tokenizer' for a stray character, a bare word that runs into a character that does not end it, a sign or nan/inf cut short, or an integer beyond 64 bits). Its line is the number of line breaks before the place where the reader gave up, counting that place itself if it is a line break (so an unexpected token at the end of its line is reported one line too far). Nothing after that place has influence. Every text is a document, or begins with clashing entries (panic, C42), or has exactly one error.", "quantifier": "all texts, any behaviour of the standard library's float parsing", "why_tests_cant": "An equivalence over all texts that are not documents.", "anchors": ["src/toml.rs: TomlParser::parse, parse_line, parse_key_value, to_val, next_tok, parse_ident, parse_num, err_token, err_parse"]}
{"id": "C79", "title": "Every JSON and RON error message is true", "statement": "If deserialize_json or deserialize_ron returns an error, then what its message says is so. The text begins with a list of tokens behind which the error points (line and column of the character after the last of them; RON always column 0), and: 'unexpected token k' names that last token (or the end of the text), which is none the type wants there; 'key not found' names a field of a struct inside the type that has no default and is not optional; 'unexpected key' (RON only) is the last word and no field of a struct inside the type; 'enum not defined' is the last name and no variant of an enum inside the type; 'value out of range' prints the last number and the bound of an integer type inside the type, and the number is beyond it; 'could not parse' names a second, unknown or missing member of a Duration. Otherwise what follows the tokens is no token at all, and the message tells by its first character what kind (open string, bad number, unknown word, comment, other), except that a tuple may complain about a comma instead.", "quantifier": "all texts, types (also recursive) and declarations, both formats, 32/64 bit machines, debug and release builds, any float parsing", "why_tests_cant": "A statement about all failing parses of all types.", "anchors": ["src/serde_json.rs: DeJsonState::err_*, next_tok, DeJson impls", "src/serde_ron.rs: DeRonState::err_*, next_tok, DeRon impls", "derive/src/serde_json.rs: derive_de_json_*", "derive/src/serde_ron.rs: derive_de_ron_*"]}
{"id": "C80", "title": "Reading JSON and RON is linear work", "statement": "If deserialize_json or deserialize_ron ends, with a value, an error or a panic, it has called the tokenizer and moved over characters at most 4*n+3 times together on a text of n characters, and at most 2*n+1 times if it returns a value (a bound that is met): no part of the text is read twice, whatever the type, however the text is nested, and also while members of an unknown name are passed over. RON always ends within that bound; JSON does unless the value of an unknown member opens a bracket that is never closed.", "quantifier": "all texts, types (also recursive) and declarations, both formats, any machine, build and float parsing", "why_tests_cant": "A bound on the work for every type and text; tests measure single texts.", "anchors": ["src/serde_json.rs: DeJsonState::next, next_tok, whole_field, DeJson impls", "src/serde_ron.rs: DeRonState::next, next_tok, DeRon impls", "derive/src/serde_json.rs: derive_de_json_*", "derive/src/serde_ron.rs: derive_de_ron_*"]}
{"id": "C81", "title": "TOML documents join and reorder", "statement": "TomlParser::parse depends only on what a document assigns: two texts whose entries assign the same values to the same full keys (table header, dot, key), and the same under each [[k]] header in order, are read as the same map or end with the same panic, whatever the order of entries with different keys, of tables, and whether a key is written under a header or dotted. Appending a second document to one that ends with finished lines gives the entries of both: the values of the second go before those of the first (if there was no header before it or it begins with one); an error in the second part is the same error with the lines of the first part added.", "quantifier": "all texts, entries, keys, values and float conversions", "why_tests_cant": "Ranges over all pairs of documents and all permutations of their entries.", "anchors": ["src/toml.rs: TomlParser::parse, parse_line, parse_key_value, start_array, out, next_tok"]}
{"id": "C82", "title": "What is written is one line (JSON Lines)", "statement": "If the names in the type definitions (field names, variant names, renames) contain no ASCII control characters and floats print as printable ASCII, then every text written by serialize_json contains no ASCII control character at all (nothing below 32 and no 127), whatever the value; and every text written by serialize_ron contains no NUL, tab, line feed or carriage return. So several values, each written and followed by a line feed, split at line feeds into exactly the texts written, and each line is read back as its value.", "quantifier": "all type definitions with such names, all types, values (strings with any characters), lists of values, and float printers as described", "why_tests_cant": "Ranges over every string inside every value of every type.", "anchors": ["src/serde_json.rs: SerJson impls, String::ser_json", "src/serde_ron.rs: SerRon impls, SerRonState", "derive/src/serde_json.rs: derive_ser_json_struct, derive_ser_json_enum, derive_ser_json_struct_unnamed", "derive/src/serde_ron.rs: derive_ser_ron_struct, derive_ser_ron_enum, derive_ser_ron_struct_unnamed"]}
{"id": "C83", "title": "A newer version of a program reads every text the old one read", "statement": "Let the declarations of a program change like this: fields of structs and struct variants are removed (not all of them), reordered, retyped, renamed in Rust but not in the text, and added with a default; variants are added and moved; types change to wider integer types, from integers to f64, from T to Option<T> (T not itself read from null), to and from Box, between Vec and LinkedList, from arrays to these; likewise inside containers, tuples and map values. Then every JSON text that the old version reads - whatever its spacing, order and unknown or repeated members, and whoever wrote it - is read by the new version, and field by field the value is the old one, widened, or the default. Conditions on the text: it does not contain the names of new fields as strings, and, if signed integers are widened or become floats, no integer from 2^63 on; both are necessary.", "quantifier": "all pairs of declarations and types related by such changes, all texts, all values", "why_tests_cant": "Ranges over all texts, including those no version of the program would write, and all pairs of versions.", "anchors": ["src/serde_json.rs: DeJson, DeJsonState", "derive/src/serde_json.rs: derive_de_json_named, derive_de_json_enum, derive_de_json_struct_unnamed"]}
{"id": "C84", "title": "A newer version of a program reads every RON text the old one read", "statement": "As C83 for RON, where it holds with fewer conditions: if fields of structs and struct variants are only reordered, retyped, renamed in Rust but not in the text, or added with a default and a name of their own, variants added and moved, and types change to wider unsigned integers, from unsigned integers to f64, from T to Option<T> (T not itself read from a word None), to and from Box, between Vec and LinkedList, likewise inside containers, then every RON text that the old version reads is read by the new one, and field by field the value is the old one, widened, or the default: with no condition on the text. If signed integers are widened, the text must not contain integers from 2^63 on. Removing a field is not safe in RON.", "quantifier": "all pairs of declarations and types related by such changes, all texts, all values", "why_tests_cant": "Ranges over all texts, including those no version of the program would write, and all pairs of versions.", "anchors": ["src/serde_ron.rs: DeRon, DeRonState", "derive/src/serde_ron.rs: derive_de_ron_named, derive_de_ron_enum"]}
{"id": "C85", "title": "Types with the same binary layout are interchangeable", "statement": "Two types, of one program or of two, have the same binary layout if they open to the same things: Box, tuples, arrays, structs (without their skipped fields), tuple structs and proxies add no bytes of their own, so a newtype is its content, [T; 2] is (T, T) and a struct is the tuple of its fields; Vec, LinkedList, HashSet and BTreeSet of items of the same layout agree, and HashMap and BTreeMap agree with collections of pairs; u64 and usize agree on a 64 bit machine; a String may be read as a collection of its bytes, a float as its bits, a Duration as (u64, u32), a SystemTime as Option<Duration>, an enum without contents as u16; enums agree if their variants do by position, whatever names and kinds they have, and the second may have more at its end; recursive types are included. Then whatever bytes are read as one, at any offset, are read as the other: the same bytes are used and the content (position by position, an item or entry at a time) is the same; the only other outcome is that a collection of the second type asks for more room than there is. Conversely what is an error for the second type is no value of the first. In particular what is written as one type is read back as the other.", "quantifier": "all pairs of types and declarations with the same layout, all inputs, offsets, values, both word sizes and builds", "why_tests_cant": "Ranges over all pairs of types, including recursive ones, and all inputs, not only those that serialize_bin writes.", "anchors": ["src/serde_bin.rs: SerBin, DeBin", "derive/src/serde_bin.rs: derive_ser_bin_struct, derive_de_bin_struct, derive_de_bin_enum, derive_de_bin_struct_unnamed"]}
{"id": "C86", "title": "Reading binary data is linear work", "statement": "Reading a binary value, whether it ends with a value, an error or a panic, calls de_bin at most K times for each byte passed over (plus K), where K depends on the type and the declarations alone, not on the input, the offset or the machine -- provided that in every collection the items (or the keys, or the values of a map) take at least a byte. Without that condition it is false: 8 bytes that claim a LinkedList<()> of n items take n + 1 calls, for every n a usize can hold.", "quantifier": "all types and declarations that recurse through Option, collections or enums, all inputs, offsets, machines and outcomes", "why_tests_cant": "Ranges over all inputs, among them ones that lie about their lengths, and over all declarations; a test can only time some.", "anchors": ["src/serde_bin.rs: DeBin", "derive/src/serde_bin.rs: derive_de_bin_struct, derive_de_bin_enum"]}
{"id": "C87", "title": "Reading TOML is linear work", "statement": "TomlParser::parse, whether it ends with a value, an error or a panic, calls the tokenizer and moves over characters at most 3*n+1 times together on a text of n characters (and it always ends): no part of the text is read twice, however deep arrays are nested and also when they are never closed. (Copying names and inserting into the maps is not counted: every key below a scope holds a copy of the scope.)", "quantifier": "all texts, any float parsing and printing, any outcome", "why_tests_cant": "A bound on the work for every text; tests measure single texts.", "anchors": ["src/toml.rs: TomlParser::parse, parse_line, parse_key_value, to_val, next_tok, next"]}
