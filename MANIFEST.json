{
 "claims": [
  {
   "property": "C01",
   "status": "proved",
   "theorems": [
    "C01_bin_roundtrip"
   ],
   "note": "All types, all values; SystemTime at or after the epoch; proxies inverse on the value; encoded length below isize::MAX."
  },
  {
   "property": "C02",
   "status": "proved",
   "theorems": [
    "C02_self_delimiting"
   ],
   "note": ""
  },
  {
   "property": "C03",
   "status": "proved",
   "theorems": [
    "C03_append_only",
    "C03_streams"
   ],
   "note": ""
  },
  {
   "property": "C04",
   "status": "proved",
   "theorems": [
    "C04_wire_layout"
   ],
   "note": "Specification: SpecBin.v, relation wire."
  },
  {
   "property": "C05",
   "status": "proved",
   "theorems": [
    "C05_bounds_and_locality"
   ],
   "note": ""
  },
  {
   "property": "C06",
   "status": "proved",
   "theorems": [
    "C06_truncation_rejected"
   ],
   "note": ""
  },
  {
   "property": "C07",
   "status": "proved",
   "theorems": [
    "C07_prefix_free",
    "C07_injective"
   ],
   "note": ""
  },
  {
   "property": "C08",
   "status": "partial",
   "theorems": [
    "C08_panics_classified_partial",
    "C08_no_panic_partial",
    "C08_refuted_string",
    "C08_refuted_capacity_any",
    "C08_refuted_duration"
   ],
   "note": "False of the code as stated: hostile lengths panic in String, Vec, HashSet, HashMap, and Duration overflows. Proved: panics come only from those nodes; all other types never panic and always return. Exactly which inputs panic: C77_panics."
  },
  {
   "property": "C09",
   "status": "proved",
   "theorems": [
    "C09_fixed_width",
    "C09_length_errors"
   ],
   "note": "Exactly which input gives which error: C77_rejects."
  },
  {
   "property": "C10",
   "status": "proved",
   "theorems": [
    "C10_reencode_stable",
    "C10_canonical"
   ],
   "note": ""
  },
  {
   "property": "C11",
   "status": "proved",
   "theorems": [
    "C11_decoded_valid"
   ],
   "note": ""
  },
  {
   "property": "C12",
   "status": "proved",
   "theorems": [
    "C12_bin_map",
    "C12_bin_set",
    "C12_text_seq",
    "C12_text_set",
    "C12_text_map",
    "C12_text_last"
   ],
   "note": "Binary, JSON and RON."
  },
  {
   "property": "C13",
   "status": "proved",
   "theorems": [
    "C13_discriminants",
    "C13_option_tag",
    "C13_bool"
   ],
   "note": ""
  },
  {
   "property": "C14",
   "status": "partial",
   "theorems": [
    "C14_bin_skip",
    "C14_text_skip_output",
    "C14_text_skip_input",
    "C14_refuted_tuple_struct"
   ],
   "note": "False of the code for tuple structs in JSON and RON."
  },
  {
   "property": "C15",
   "status": "partial",
   "theorems": [
    "C15_portable",
    "C15_usize_portable",
    "C15_refuted_silent_truncation"
   ],
   "note": "Second half is false: a usize >= 2^32 silently decodes to its low 32 bits on a 32-bit target."
  },
  {
   "property": "C16",
   "status": "proved",
   "theorems": [
    "C16_bin_proxy",
    "C16_bin_container_proxy",
    "C16_json_proxy",
    "C16_json_container_proxy"
   ],
   "note": ""
  },
  {
   "property": "C17",
   "status": "proved",
   "theorems": [
    "C17_json_roundtrip"
   ],
   "note": "For values in text_value (SpecText.v); the float assumption flt_ok is a hypothesis."
  },
  {
   "property": "C18",
   "status": "proved",
   "theorems": [
    "C18_json_strings"
   ],
   "note": ""
  },
  {
   "property": "C19",
   "status": "partial",
   "theorems": [
    "C19_int_partial",
    "C19_refuted_signed",
    "C19_refuted_minus_zero",
    "C19_refuted_usize32"
   ],
   "note": "False as stated: i64 range wraps, usize truncates on 32-bit targets, -0 rejected."
  },
  {
   "property": "C20",
   "status": "partial",
   "theorems": [
    "C20_valid_json",
    "C20_refuted_trailing_comma",
    "C20_refuted_integer_keys",
    "C20_refuted_rename",
    "C20_refuted_nan"
   ],
   "note": "Proved for all values of types with string map keys, printable names and no Option as last field of a struct-like variant; without each condition false of the code."
  },
  {
   "property": "C21",
   "status": "proved",
   "theorems": [
    "C21_space_irrelevant"
   ],
   "note": ""
  },
  {
   "property": "C22",
   "status": "proved",
   "theorems": [
    "C22_string_literal",
    "C22_bad_escape"
   ],
   "note": ""
  },
  {
   "property": "C29",
   "status": "partial",
   "theorems": [
    "C29_refuted",
    "C29_rest_ignored"
   ],
   "note": "False of the code: anything may follow the value, as long as the next token is one. What is true, exactly: C66."
  },
  {
   "property": "C30",
   "status": "partial",
   "theorems": [
    "C30_json",
    "C30_ron_line",
    "C30_toml_line",
    "C30_ron_column_refuted"
   ],
   "note": "Full for JSON (line, column, and that nothing after the place has influence) and for the lines of RON and TOML; false for columns in RON and TOML, which are always 0. A TOML error is reported one line too far when the unexpected token is the last of its line (C78); the exact positions of JSON and RON errors are in C79."
  },
  {
   "property": "C33",
   "status": "partial",
   "theorems": [
    "C33_string",
    "C33_number_partial",
    "C33_refuted_big_integer",
    "C33_refuted_plus"
   ],
   "note": "Strings in full; numbers for which the lexer has tokens; false for exponents with a plus sign and integers >= 2^64."
  },
  {
   "property": "C40",
   "status": "partial",
   "theorems": [
    "C40_refuted_char",
    "C40_refuted_comment"
   ],
   "note": "False of the code: character literals and unterminated comments are dropped silently."
  },
  {
   "property": "C39",
   "status": "proved",
   "theorems": [
    "C39_space_irrelevant"
   ],
   "note": ""
  },
  {
   "property": "C23",
   "status": "partial",
   "theorems": [
    "C23_unknown_ignored",
    "C23_refuted_plus_exponent",
    "C23_refuted_big_integer"
   ],
   "note": "For object texts whose literals the lexer has tokens for (number_ok); false of the code for exponents with a plus sign and integers >= 2^64."
  },
  {
   "property": "C24",
   "status": "proved",
   "theorems": [
    "C24_object_value",
    "C24_member_order",
    "C24_last_member_wins"
   ],
   "note": "JSON and RON; object_text gives the members of the text, named_value the struct they make."
  },
  {
   "property": "C25",
   "status": "proved",
   "theorems": [
    "C25_missing_field",
    "C25_absent_default"
   ],
   "note": "JSON and RON. For every text, not only written ones: C66, C67; for pairs of versions: C83, C84."
  },
  {
   "property": "C26",
   "status": "partial",
   "theorems": [
    "C26_no_members",
    "C26_valid_json_partial",
    "C26_rfc_json_partial",
    "C26_panics_partial",
    "C26_refuted"
   ],
   "note": "False as stated: an unknown member without a value panics (unimplemented!). Proved: no panic on any input for types without named members, no panic on any JSON text for all types, and only three panics exist. Exactly which texts panic, for which types: C76."
  },
  {
   "property": "C27",
   "status": "partial",
   "theorems": [
    "C27_balanced_partial",
    "C27_no_members_partial",
    "C27_refuted",
    "C27_refuted_transparent"
   ],
   "note": "False as stated: an unknown member whose bracket is never closed loops forever. Proved for texts with matching brackets and for types without named members. Exactly which texts never end, for which types: C76."
  },
  {
   "property": "C37",
   "status": "partial",
   "theorems": [
    "C37_ron_terminates",
    "C37_ron_no_panic",
    "C37_refuted_clock"
   ],
   "note": "Terminates on every input for every guarded type; panics only in Duration and SystemTime, which do overflow."
  },
  {
   "property": "C28",
   "status": "proved",
   "theorems": [
    "C28_tuple",
    "C28_array",
    "C28_wrong_length",
    "C28_wrong_length_error"
   ],
   "note": "Exact length both ways; the wrong length is an error, in JSON for types without named members (otherwise at least never accepted: C26)."
  },
  {
   "property": "C32",
   "status": "partial",
   "theorems": [
    "C32_tuple_variant",
    "C32_struct_variant",
    "C32_unit_variant",
    "C32_unknown_word",
    "C32_unknown_variant",
    "C32_fields_required",
    "C32_refuted_ron_payload",
    "C32_refuted_next_string"
   ],
   "note": "JSON and RON. False of the code as stated in two corners: RON A(1) reads as the unit variant A, and a unit variant is matched against the NEXT string when one follows."
  },
  {
   "property": "C31",
   "status": "partial",
   "theorems": [
    "C31_option_partial",
    "C31_refuted",
    "C31_refuted_unit"
   ],
   "note": "False as stated: Some(None) reads back None, Some(()) may too."
  },
  {
   "property": "C49",
   "status": "partial",
   "theorems": [
    "C49_bin_returns",
    "C49_text_returns",
    "C49_refuted_empty_array"
   ],
   "note": "False of the code for arrays of length zero in a build with overflow checks (JSON, RON); proved for everything else."
  },
  {
   "property": "C34",
   "status": "proved",
   "theorems": [
    "C34_text_valid"
   ],
   "note": "JSON and RON; assumes only that the std float functions return 64/32 bit patterns."
  },
  {
   "property": "C52",
   "status": "partial",
   "theorems": [
    "C52_read_write_read",
    "C52_refuted_option_default",
    "C52_refuted_ron_none"
   ],
   "note": "JSON and RON. Proved for declarations whose defaults survive (stable_env); false of the code for an option whose default is not None and, in RON, for variants named None inside an option."
  },
  {
   "property": "C35",
   "status": "proved",
   "theorems": [
    "C35_ron_roundtrip"
   ],
   "note": "As C17."
  },
  {
   "property": "C36",
   "status": "proved",
   "theorems": [
    "C36_ron_strings"
   ],
   "note": ""
  },
  {
   "property": "C38",
   "status": "proved",
   "theorems": [
    "C38_unknown_rejected"
   ],
   "note": ""
  },
  {
   "property": "C41",
   "status": "proved",
   "theorems": [
    "C41_terminates",
    "C41_scan"
   ],
   "note": ""
  },
  {
   "property": "C42",
   "status": "partial",
   "theorems": [
    "C42_refuted",
    "C42_panics_partial",
    "C42_documents_partial",
    "C73_panics"
   ],
   "note": "False of the code: a header [[k]] for a key that was assigned panics. Proved: no other panic exists, and (C73_panics) exactly which texts panic."
  },
  {
   "property": "C43",
   "status": "proved",
   "theorems": [
    "C43_key_values",
    "C43_unique"
   ],
   "note": "Documents of the grammar in SpecToml.v."
  },
  {
   "property": "C44",
   "status": "proved",
   "theorems": [
    "C44_tables",
    "C44_count"
   ],
   "note": "Documents of the grammar in SpecToml.v without a header for an assigned key (those panic: C42)."
  },
  {
   "property": "C45",
   "status": "partial",
   "theorems": [
    "C45_string_partial",
    "C45_verbatim_partial",
    "C45_triple_partial",
    "C45_refuted_empty",
    "C45_refuted_escape",
    "C45_refuted_triple"
   ],
   "note": "False of the code for the empty string, for escapes other than quotes and backslashes, and for what follows a triple-quoted string."
  },
  {
   "property": "C46",
   "status": "partial",
   "theorems": [
    "C46_space_partial",
    "C46_prefix",
    "C46_refuted"
   ],
   "note": "False of the code for a comment right after a word."
  },
  {
   "property": "C47",
   "status": "partial",
   "theorems": [
    "C47_array_partial",
    "C47_refuted"
   ],
   "note": "False of the code for true, false, nan and inf right before a comma."
  },
  {
   "property": "C48",
   "status": "proved",
   "theorems": [
    "C48_integer",
    "C48_overflow",
    "C48_float"
   ],
   "note": ""
  },
  {
   "property": "C50",
   "status": "proved",
   "theorems": [
    "C50_array_owning",
    "C50_bin_arrays",
    "C50_text_arrays",
    "C50_history",
    "C50_bin_same",
    "C50_text_same"
   ],
   "note": "Binary, JSON and RON, any nesting of arrays. The slots of the arrays are modelled (ArrayDrop.v) and the runs proved equal to those of the readers used everywhere else. C50_panic_leaks: a panic, as opposed to an error, leaks the items read so far."
  },
  {
   "property": "C51",
   "status": "partial",
   "theorems": [
    "C51_struct_container_partial",
    "C51_refuted_enum"
   ],
   "note": "False of the code: for every enum the crate and proxy attributes are dropped. Proved for structs."
  },
  {
   "property": "C53",
   "status": "partial",
   "theorems": [
    "C53_read_as_written_partial",
    "C53_refuted_trailing",
    "C53_refuted_ref",
    "C53_refuted_pub_tuple",
    "C53_refuted_pub_crate",
    "C53_refuted_fn_args",
    "C53_refuted_length",
    "C53_refuted_length_sum",
    "C53_refuted_bound_args",
    "C53_refuted_assoc",
    "C53_refuted_pointer",
    "C53_refuted_attribute_comma",
    "C53_refuted_negative",
    "C53_refuted_maybe_sized",
    "C53_refuted_where",
    "C53_refuted_payload_attribute"
   ],
   "note": "For the definitions of SpecDerive.v (def_ok): paths, tuples, arrays (literal or named length), slices, references, lifetimes, never, fn/Fn/FnMut/FnOnce with at most one argument, dyn/impl, <T as Trait>::Name, Iterator<Item = T>. False of the code (each refuted): a trailing comma in a tuple variant, references and parenthesised types first in a tuple struct field, pub(crate) items, functions of two arguments (the second is lost), lengths with a base, suffix or sum (lost), two arguments before an associated bound, <Vec<T> as Tr>::X, &mut, && and raw pointers, a comma at the end of #[nserde(..)], negative discriminants, ?Sized, where clauses after a tuple struct or without generics, attributes inside a tuple variant. Not covered: paths that begin with ::, higher-ranked for<..>."
  },
  {
   "property": "C54",
   "status": "partial",
   "theorems": [
    "C54_attributes_partial",
    "C54_program_partial",
    "C54_refuted_vec_string",
    "C54_refuted_ron_option",
    "C54_refuted_ron_default_with",
    "C54_refuted_raw"
   ],
   "note": "For def_ok definitions; false of the code for defaults of Vec<String> (JSON) and Option<String> (RON), container default_with in RON and proxies on enums (C51), and raw-string values."
  },
  {
   "property": "C55",
   "status": "partial",
   "theorems": [
    "C55_header_partial",
    "C55_refuted_const"
   ],
   "note": "False of the code for const parameters: the trait is added to their type."
  },
  {
   "property": "C56",
   "status": "proved",
   "theorems": [
    "C56_bin_old_data",
    "C56_bin_same_bytes",
    "C56_bin_new_to_old",
    "C56_bin_unknown",
    "C56_text_old_data",
    "C56_text_same",
    "C56_text_new_to_old"
   ],
   "note": "Binary, JSON and RON."
  },
  {
   "property": "C57",
   "status": "proved",
   "theorems": [
    "C57_read_size",
    "C57_short",
    "C57_write_size"
   ],
   "note": ""
  },
  {
   "property": "C58",
   "status": "partial",
   "theorems": [
    "C58_json_position",
    "C58_ron_position",
    "C58_toml_position",
    "C58_missing_named",
    "C58_unknown_named",
    "C58_position_readable",
    "C58_bin",
    "C58_bin_length",
    "C58_refuted_variant_offset"
   ],
   "note": "False of the code for the offset of an unknown variant, which is always printed as 0; RON and TOML always print column 1."
  },
  {
   "property": "C59",
   "status": "proved",
   "theorems": [
    "C59_accessors",
    "C59_tables",
    "C59_lookup"
   ],
   "note": ""
  },
  {
   "property": "C60",
   "status": "proved",
   "theorems": [
    "C60_json_document",
    "C60_same_document",
    "C60_one_meaning",
    "C60_otherwise_ends",
    "C60_otherwise_error"
   ],
   "note": "the meaning of numbers includes two defects of the library, spelled out in int_means (also C19)"
  },
  {
   "property": "C61",
   "status": "proved",
   "theorems": [
    "C61_written",
    "C61_values",
    "C61_one_document"
   ],
   "note": "Specification: shows (SpecShow.v)."
  },
  {
   "property": "C62",
   "status": "proved",
   "theorems": [
    "C62_between_programs",
    "C62_carries",
    "C62_same",
    "C62_integer",
    "C62_integer_float",
    "C62_to_option",
    "C62_from_option",
    "C62_none",
    "C62_sequence",
    "C62_to_array",
    "C62_from_array",
    "C62_tuple",
    "C62_map",
    "C62_box",
    "C62_newtype",
    "C62_to_newtype",
    "C62_struct",
    "C62_unit_variant",
    "C62_tuple_variant",
    "C62_struct_variant"
   ],
   "note": "For every text the old version reads, not only for those it writes: C83."
  },
  {
   "property": "C63",
   "status": "proved",
   "theorems": [
    "C63_ron_document",
    "C63_ron_part",
    "C63_same_document",
    "C63_one_meaning",
    "C63_otherwise_error",
    "C63_all_refuted"
   ],
   "note": "exact, in both directions; the exception for a name with brackets after it at the top level is stated in the theorem and shown real by C63_all_refuted"
  },
  {
   "property": "C64",
   "status": "proved",
   "theorems": [
    "C64_written",
    "C64_values",
    "C64_one_document"
   ],
   "note": "Specification: rshows (SpecRonShow.v)."
  },
  {
   "property": "C65",
   "status": "proved",
   "theorems": [
    "C65_between_programs",
    "C65_carries",
    "C65_same",
    "C65_integer",
    "C65_to_option",
    "C65_from_option",
    "C65_none",
    "C65_sequence",
    "C65_tuple",
    "C65_array_tuple",
    "C65_map",
    "C65_box",
    "C65_struct",
    "C65_field_gone",
    "C65_unit_variant",
    "C65_tuple_variant",
    "C65_struct_variant",
    "C65_contents_dropped"
   ],
   "note": "For every text the old version reads, not only for those it writes: C84."
  },
  {
   "property": "C66",
   "status": "proved",
   "theorems": [
    "C66_accepted",
    "C66_one_value",
    "C66_integer",
    "C66_string",
    "C66_same_tokens"
   ],
   "note": "Field and variant names of each declaration must be distinct."
  },
  {
   "property": "C67",
   "status": "proved",
   "theorems": [
    "C67_accepted",
    "C67_one_value",
    "C67_integer",
    "C67_string",
    "C67_bool",
    "C67_rest_ignored",
    "C67_rejected"
   ],
   "note": "Field and variant names of each declaration must be distinct; C67_rejected is for types without SystemTime (its addition can panic)."
  },
  {
   "property": "C68",
   "status": "partial",
   "theorems": [
    "C68_ser_partial",
    "C68_de_partial",
    "C68_roundtrip_partial",
    "C68_refuted_variant_attributes",
    "C68_refuted_s",
    "C68_refuted_tuple_skip"
   ],
   "note": "The text the macro prints is the printing of a program in a small fragment of Rust with its own semantics (SpecGen), and that program behaves as the interpreter of the other theorems does on the declaration the definition describes. False of the code for attributes on fields of struct-like variants (ignored), fields called s there (does not compile), skipped fields of tuple structs (DeBin macro panics), proxies on generic items or enums; const parameters see C55. For whole programs of printed impls calling each other: C75."
  },
  {
   "property": "C69",
   "status": "partial",
   "theorems": [
    "C69_ser_partial",
    "C69_de_partial",
    "C69_roundtrip_partial",
    "C69_refuted_tuple_proxy",
    "C69_refuted_variant_proxy",
    "C69_refuted_s"
   ],
   "note": "The text the macro prints is the printing of a program in a small fragment of Rust with its own semantics (SpecGenText), and that program behaves as the interpreter of the other theorems does on the declaration the definition describes: same text, value, error or panic, and it ends iff that ends. False of the code for attributes of the fields of tuple structs (ignored), proxies of non-Option fields of struct-like variants and fields called s or d there (does not compile); names with quotes or backslashes, proxies on generic items or enums, and defaults outside default_ok (C54) are outside. For whole programs of printed impls calling each other: C75."
  },
  {
   "property": "C70",
   "status": "partial",
   "theorems": [
    "C70_ser_partial",
    "C70_de_partial",
    "C70_roundtrip_partial",
    "C70_refuted_proxy",
    "C70_refuted_container_proxy",
    "C70_refuted_unit",
    "C70_refuted_s"
   ],
   "note": "As C69 for RON. False of the code for proxies (ignored on fields; on containers the impl calls deserialize_ron with a Chars, which does not compile), unit structs and tuple structs without fields (the SerRon macro panics), fields called s or d in struct-like variants (does not compile), container default_with (C51). For whole programs of printed impls calling each other: C75."
  },
  {
   "property": "C71",
   "status": "proved",
   "theorems": [
    "C71_bin_contents",
    "C71_bin_elements",
    "C71_bin_entries",
    "C71_bin_linear",
    "C71_bin_units",
    "C71_json",
    "C71_ron",
    "C71_spare_exists",
    "C71_json_plain",
    "C71_elements_counted",
    "C71_entries_counted",
    "C71_toml"
   ],
   "note": "Sizes (cells, contents) and the conditions on types are in SpecMem.v. C71_bin_units is the exception (zero-sized elements). Proxies are user code and excluded."
  },
  {
   "property": "C72",
   "status": "proved",
   "theorems": [
    "C72_bin_stack",
    "C72_bin_calls",
    "C72_bin_nesting",
    "C72_json_nesting",
    "C72_ron_nesting",
    "C72_bin_no_limit",
    "C72_text_no_limit",
    "C72_write_stack"
   ],
   "note": "The fuel of the model of de_bin/ser_bin is the number of nested calls (loops do not use it), so C72_bin_stack bounds the depth of the stack. For the text formats, whose model also spends fuel on loops, the depth is that of the value read."
  },
  {
   "property": "C73",
   "status": "proved",
   "theorems": [
    "C73_accepted",
    "C73_panics",
    "C73_rejected",
    "C73_unique",
    "C73_same"
   ],
   "note": "The grammar is SpecTomlAcc.v; what a list of entries means is SpecToml.v (means, clash), as for C43 and C44."
  },
  {
   "property": "C74",
   "status": "proved",
   "theorems": [
    "C74_any_route",
    "C74_from_binary",
    "C74_from_text",
    "C74_distinct",
    "C74_finite_needed",
    "C74_memory_needed"
   ],
   "note": "The conditions on declarations are SpecRoute.v (portable); they are static. in_memory and slice_fits say that collections and buffers fit the machine."
  },
  {
   "property": "C75",
   "status": "proved",
   "theorems": [
    "C75_binary",
    "C75_text"
   ],
   "note": "Programs are SpecProg.v: one step of the library for each built-in type, and the printed code (in the fragments of Rust of SpecGen.v and SpecGenText.v) for the definitions; calls go to the program itself, not to the model. The limits are those of C68-C70, which say what fails outside them."
  },
  {
   "property": "C76",
   "status": "proved",
   "theorems": [
    "C76_panics",
    "C76_hangs",
    "C76_rejects",
    "C76_outcome",
    "C76_one_way",
    "C76_not_both",
    "C76_ron_rejects"
   ],
   "note": "Where reading breaks down is defined in SpecCrash.v over tokens: an inductive definition over the type, with the tokens read before (SpecAcc.v, C66) and the value of the unknown member (or the Duration) at which it happens; proved equivalent to the outcome of the model of deserialize_json for every text, for all types the derive macro accepts with distinct names (the hypotheses of C26, C27 and C66; recursion through a transparent tuple only is excluded, see C27_refuted_transparent). RON: for types without Duration and SystemTime, every text that is not accepted (C67) is an error."
  },
  {
   "property": "C77",
   "status": "proved",
   "theorems": [
    "C77_accepts",
    "C77_rejects",
    "C77_panics",
    "C77_whole",
    "C77_outcome",
    "C77_one_way",
    "C77_encodings"
   ],
   "note": "SpecBinAcc.v: two inductive relations, spells (which bytes are which value) and stops (which error or panic, at which offset, on all the input from an offset on), without mention of the reader. Equivalences for every input whose bytes are below 256 and whose length fits a slice; a name without a declaration and a tuple struct with a skipped field (both not programs) are in stops as PNotCompiled."
  },
  {
   "property": "C78",
   "status": "proved",
   "theorems": [
    "C78_error",
    "C78_reports",
    "C78_outcome",
    "C78_unique",
    "C78_local",
    "C78_no_value",
    "C78_open_string"
   ],
   "note": "SpecTomlErr.v: texts that begin with no token, and places where a token of a given kind is wanted and not found, on top of the grammar of C73. The message is the token or the word the code puts into it; how it is printed is C58. The column is always 0 (C30)."
  },
  {
   "property": "C79",
   "status": "proved",
   "theorems": [
    "C79_true",
    "C79_unexpected_token",
    "C79_missing_key",
    "C79_unexpected_key",
    "C79_no_such_enum",
    "C79_out_of_range",
    "C79_cannot_parse"
   ],
   "note": "SpecSay.v: for every message, what it claims about the tokens read so far (grammar of C66/C67), the type read and the place it points to; proved of every error of deserialize_json and deserialize_ron, for every type, text and build. One exception in the code, kept in the statement: in a tuple, a failure to read a token may be replaced by a complaint about a comma (C79_ex_hidden). How messages are printed is C58; whether there is an error at all is C66, C67 and C76."
  },
  {
   "property": "C80",
   "status": "proved",
   "theorems": [
    "C80_linear",
    "C80_ron",
    "C80_json",
    "C80_steps_one",
    "counted_same"
   ],
   "note": "Work.v gives the tokenizer a counter (one per call of next_tok, one per character moved over) that no reader looks at; counted_same: the counting reader has the same outcome as the model of C17-C40. The bound 2n+1 is met (C80_ex). What is counted is the reading of the text, not the work done on a token (comparison with field names, allocation)."
  },
  {
   "property": "C81",
   "status": "proved",
   "theorems": [
    "C81_order",
    "C81_permuted",
    "C81_dotted",
    "C81_join",
    "C81_error",
    "C81_override",
    "C81_documents",
    "C81_documents_order"
   ],
   "note": "SpecTomlJoin.v: alike (the same assignments with full keys before the first [[k]] header, and the same under each [[k]] in order) and lines (entries followed by at least a blank, so that no value, array or comment is open), over the entries of C43, C44 and C73. The key of an assignment behind a header depends on it, so a second part without header is read under the last header of the first (C81_ex_scope; fresh in C81_override); an open array swallows what follows (C81_ex_open)."
  },
  {
   "property": "C82",
   "status": "proved",
   "theorems": [
    "C82_json",
    "C82_ron",
    "C82_lines"
   ],
   "note": "SpecLine.v: visible / in_line characters, names of declarations, lines_of splits at line feeds. Cases: C82_ex (names of the example declarations), C82_ex_string (escapes; RON writes some control characters raw), C82_ex_name (a rename with a line feed gives a text with a line feed)."
  },
  {
   "property": "C83",
   "status": "proved",
   "theorems": [
    "C83_newer",
    "C83_only",
    "C83_unsigned"
   ],
   "note": "SpecNewer.v: ty_newer, decl_newer (the changes), becomes (what values become), plain_text. Cases: C83_ex (a struct and an enum, a text with a removed member); the conditions are needed: C83_ex_fresh, C83_ex_wrap, C83_ex_last."
  },
  {
   "property": "C84",
   "status": "proved",
   "theorems": [
    "C84_newer",
    "C84_only",
    "C84_any_text"
   ],
   "note": "SpecNewer.v with fm = Ron. Cases: C84_ex_newer, C84_ex; C84_ex_removed and C84_ex_none show why removing a field and making a unit enum optional are excluded."
  },
  {
   "property": "C85",
   "status": "proved",
   "theorems": [
    "C85_reads",
    "C85_written",
    "C85_rejects",
    "C85_box",
    "C85_newtype",
    "C85_option",
    "C85_collection",
    "C85_basic",
    "C85_stored",
    "C85_u8_u16"
   ],
   "note": "SpecLayout.v: flat/opens (types without bytes of their own), agree, same_layout (a pairing of types closed under opening, so that recursive types are included) and same (equal content; collections hold what inserting the same items in turn gives). From the acceptance relation of C77. Cases: C85_ex, C85_ex_same (a map against a Vec of pairs, a struct with a skipped field against a tuple struct, a recursive enum against another with renamed and added variants); C85_u8_u16 shows that the notion excludes something."
  },
  {
   "property": "C86",
   "status": "proved",
   "theorems": [
    "C86_counted",
    "C86_linear",
    "C86_whole",
    "C86_zero_refuted"
   ],
   "note": "WorkBin.v: the model of de_bin with a counter, one per call; C86_counted: otherwise it is the model. SpecWorkBin.v: takes_byte, pays (the condition on collections); guarded as in C08/C77 (types with values). C86_zero_refuted is the statement with the condition left out, refuted on 32 and 64 bit machines. Not counted: the work inside a call (copying a string, inserting into a set). Cases: C86_ex_hyps, C86_ex."
  },
  {
   "property": "C87",
   "status": "proved",
   "theorems": [
    "C87_counted",
    "C87_linear",
    "C87_always",
    "C87_tight"
   ],
   "note": "WorkToml.v: the model of TomlParser with a counter, one for a call of next_tok and one for each character moved over; C87_counted: otherwise it is the model. C87_tight: for every n from 3 on a text of n characters takes 3n-1. Not counted: copying names, insertion into the maps (C87_ex_keys: keys may be longer together than the text). Cases: C87_ex_deep (3n-1 on unclosed brackets), C87_ex_empty (the bound is met), C87_ex_err, C87_ex_panic."
  }
 ]
}