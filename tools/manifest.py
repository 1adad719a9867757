#!/usr/bin/env python3
"""Writes MANIFEST.json; one entry per property."""
import json, os
C = []
def claim(pid, status, theorems, note):
    C.append({"property": pid, "status": status, "theorems": theorems.split(), "note": note})

claim("C01", "proved", "C01_bin_roundtrip", "All types, all values; SystemTime at or after the epoch; proxies inverse on the value; encoded length below isize::MAX.")
claim("C02", "proved", "C02_self_delimiting", "")
claim("C03", "proved", "C03_append_only C03_streams", "")
claim("C04", "proved", "C04_wire_layout", "Specification: SpecBin.v, relation wire.")
claim("C05", "proved", "C05_bounds_and_locality", "")
claim("C06", "proved", "C06_truncation_rejected", "")
claim("C07", "proved", "C07_prefix_free C07_injective", "")
claim("C08", "partial", "C08_panics_classified_partial C08_no_panic_partial C08_refuted_string C08_refuted_capacity_any C08_refuted_duration", "False of the code as stated: hostile lengths panic in String, Vec, HashSet, HashMap, and Duration overflows. Proved: panics come only from those nodes; all other types never panic and always return. Exactly which inputs panic: C77_panics.")
claim("C09", "proved", "C09_fixed_width C09_length_errors", "Exactly which input gives which error: C77_rejects.")
claim("C10", "proved", "C10_reencode_stable C10_canonical", "")
claim("C11", "proved", "C11_decoded_valid", "")
claim("C12", "proved", "C12_bin_map C12_bin_set C12_text_seq C12_text_set C12_text_map C12_text_last", "Binary, JSON and RON.")
claim("C13", "proved", "C13_discriminants C13_option_tag C13_bool", "")
claim("C14", "partial", "C14_bin_skip C14_text_skip_output C14_text_skip_input C14_refuted_tuple_struct", "False of the code for tuple structs in JSON and RON.")
claim("C15", "partial", "C15_portable C15_usize_portable C15_refuted_silent_truncation", "Second half is false: a usize >= 2^32 silently decodes to its low 32 bits on a 32-bit target.")
claim("C16", "proved", "C16_bin_proxy C16_bin_container_proxy C16_json_proxy C16_json_container_proxy", "")
claim("C17", "proved", "C17_json_roundtrip", "For values in text_value (SpecText.v); the float assumption flt_ok is a hypothesis.")
claim("C18", "proved", "C18_json_strings", "")
claim("C19", "partial", "C19_int_partial C19_refuted_signed C19_refuted_minus_zero C19_refuted_usize32", "False as stated: i64 range wraps, usize truncates on 32-bit targets, -0 rejected.")
claim("C20", "partial", "C20_valid_json C20_refuted_trailing_comma C20_refuted_integer_keys C20_refuted_rename C20_refuted_nan", "Proved for all values of types with string map keys, printable names and no Option as last field of a struct-like variant; without each condition false of the code.")
claim("C21", "proved", "C21_space_irrelevant", "")
claim("C22", "proved", "C22_string_literal C22_bad_escape", "")
claim("C29", "partial", "C29_refuted C29_rest_ignored", "False of the code: anything may follow the value, as long as the next token is one. What is true, exactly: C66.")
claim("C30", "partial", "C30_json C30_ron_line C30_toml_line C30_ron_column_refuted", "Full for JSON (line, column, and that nothing after the place has influence) and for the lines of RON and TOML; false for columns in RON and TOML, which are always 0. A TOML error is reported one line too far when the unexpected token is the last of its line (C78); the exact positions of JSON and RON errors are in C79.")
claim("C33", "partial", "C33_string C33_number_partial C33_refuted_big_integer C33_refuted_plus", "Strings in full; numbers for which the lexer has tokens; false for exponents with a plus sign and integers >= 2^64.")
claim("C40", "partial", "C40_refuted_char C40_refuted_comment", "False of the code: character literals and unterminated comments are dropped silently.")
claim("C39", "proved", "C39_space_irrelevant", "")
claim("C23", "partial", "C23_unknown_ignored C23_refuted_plus_exponent C23_refuted_big_integer", "For object texts whose literals the lexer has tokens for (number_ok); false of the code for exponents with a plus sign and integers >= 2^64.")
claim("C24", "proved", "C24_object_value C24_member_order C24_last_member_wins", "JSON and RON; object_text gives the members of the text, named_value the struct they make.")
claim("C25", "proved", "C25_missing_field C25_absent_default", "JSON and RON. For every text, not only written ones: C66, C67; for pairs of versions: C83, C84.")
claim("C26", "partial", "C26_no_members C26_valid_json_partial C26_rfc_json_partial C26_panics_partial C26_refuted", "False as stated: an unknown member without a value panics (unimplemented!). Proved: no panic on any input for types without named members, no panic on any JSON text for all types, and only three panics exist. Exactly which texts panic, for which types: C76.")
claim("C27", "partial", "C27_balanced_partial C27_no_members_partial C27_refuted C27_refuted_transparent", "False as stated: an unknown member whose bracket is never closed loops forever. Proved for texts with matching brackets and for types without named members. Exactly which texts never end, for which types: C76.")
claim("C37", "partial", "C37_ron_terminates C37_ron_no_panic C37_refuted_clock", "Terminates on every input for every guarded type; panics only in Duration and SystemTime, which do overflow.")
claim("C28", "proved", "C28_tuple C28_array C28_wrong_length C28_wrong_length_error", "Exact length both ways; the wrong length is an error, in JSON for types without named members (otherwise at least never accepted: C26).")
claim("C32", "partial", "C32_tuple_variant C32_struct_variant C32_unit_variant C32_unknown_word C32_unknown_variant C32_fields_required C32_refuted_ron_payload C32_refuted_next_string", "JSON and RON. False of the code as stated in two corners: RON A(1) reads as the unit variant A, and a unit variant is matched against the NEXT string when one follows.")
claim("C31", "partial", "C31_option_partial C31_refuted C31_refuted_unit", "False as stated: Some(None) reads back None, Some(()) may too.")
claim("C49", "partial", "C49_bin_returns C49_text_returns C49_refuted_empty_array", "False of the code for arrays of length zero in a build with overflow checks (JSON, RON); proved for everything else.")
claim("C34", "proved", "C34_text_valid", "JSON and RON; assumes only that the std float functions return 64/32 bit patterns.")
claim("C52", "partial", "C52_read_write_read C52_refuted_option_default C52_refuted_ron_none", "JSON and RON. Proved for declarations whose defaults survive (stable_env); false of the code for an option whose default is not None and, in RON, for variants named None inside an option.")
claim("C35", "proved", "C35_ron_roundtrip", "As C17.")
claim("C36", "proved", "C36_ron_strings", "")
claim("C38", "proved", "C38_unknown_rejected", "")
claim("C41", "proved", "C41_terminates C41_scan", "")
claim("C42", "partial", "C42_refuted C42_panics_partial C42_documents_partial C73_panics", "False of the code: a header [[k]] for a key that was assigned panics. Proved: no other panic exists, and (C73_panics) exactly which texts panic.")
claim("C43", "proved", "C43_key_values C43_unique", "Documents of the grammar in SpecToml.v.")
claim("C44", "proved", "C44_tables C44_count", "Documents of the grammar in SpecToml.v without a header for an assigned key (those panic: C42).")
claim("C45", "partial", "C45_string_partial C45_verbatim_partial C45_triple_partial C45_refuted_empty C45_refuted_escape C45_refuted_triple", "False of the code for the empty string, for escapes other than quotes and backslashes, and for what follows a triple-quoted string.")
claim("C46", "partial", "C46_space_partial C46_prefix C46_refuted", "False of the code for a comment right after a word.")
claim("C47", "partial", "C47_array_partial C47_refuted", "False of the code for true, false, nan and inf right before a comma.")
claim("C48", "proved", "C48_integer C48_overflow C48_float", "")
claim("C50", "proved", "C50_array_owning C50_bin_arrays C50_text_arrays C50_history C50_bin_same C50_text_same", "Binary, JSON and RON, any nesting of arrays. The slots of the arrays are modelled (ArrayDrop.v) and the runs proved equal to those of the readers used everywhere else. C50_panic_leaks: a panic, as opposed to an error, leaks the items read so far.")
claim("C51", "partial", "C51_struct_container_partial C51_refuted_enum", "False of the code: for every enum the crate and proxy attributes are dropped. Proved for structs.")
claim("C53", "partial", "C53_read_as_written_partial C53_refuted_trailing C53_refuted_ref C53_refuted_pub_tuple C53_refuted_pub_crate C53_refuted_fn_args C53_refuted_length C53_refuted_length_sum C53_refuted_bound_args C53_refuted_assoc C53_refuted_pointer C53_refuted_attribute_comma C53_refuted_negative C53_refuted_maybe_sized C53_refuted_where C53_refuted_payload_attribute", "For the definitions of SpecDerive.v (def_ok): paths, tuples, arrays (literal or named length), slices, references, lifetimes, never, fn/Fn/FnMut/FnOnce with at most one argument, dyn/impl, <T as Trait>::Name, Iterator<Item = T>. False of the code (each refuted): a trailing comma in a tuple variant, references and parenthesised types first in a tuple struct field, pub(crate) items, functions of two arguments (the second is lost), lengths with a base, suffix or sum (lost), two arguments before an associated bound, <Vec<T> as Tr>::X, &mut, && and raw pointers, a comma at the end of #[nserde(..)], negative discriminants, ?Sized, where clauses after a tuple struct or without generics, attributes inside a tuple variant. Not covered: paths that begin with ::, higher-ranked for<..>.")
claim("C54", "partial", "C54_attributes_partial C54_program_partial C54_refuted_vec_string C54_refuted_ron_option C54_refuted_ron_default_with C54_refuted_raw", "For def_ok definitions; false of the code for defaults of Vec<String> (JSON) and Option<String> (RON), container default_with in RON and proxies on enums (C51), and raw-string values.")
claim("C55", "partial", "C55_header_partial C55_refuted_const", "False of the code for const parameters: the trait is added to their type.")
claim("C56", "proved", "C56_bin_old_data C56_bin_same_bytes C56_bin_new_to_old C56_bin_unknown C56_text_old_data C56_text_same C56_text_new_to_old", "Binary, JSON and RON.")
claim("C57", "proved", "C57_read_size C57_short C57_write_size", "")
claim("C58", "partial", "C58_json_position C58_ron_position C58_toml_position C58_missing_named C58_unknown_named C58_position_readable C58_bin C58_bin_length C58_refuted_variant_offset", "False of the code for the offset of an unknown variant, which is always printed as 0; RON and TOML always print column 1.")
claim("C59", "proved", "C59_accessors C59_tables C59_lookup", "")
claim("C60", "proved", "C60_json_document C60_same_document C60_one_meaning C60_otherwise_ends C60_otherwise_error", "the meaning of numbers includes two defects of the library, spelled out in int_means (also C19)")
claim("C61", "proved", "C61_written C61_values C61_one_document", "Specification: shows (SpecShow.v).")
claim("C62", "proved", "C62_between_programs C62_carries C62_same C62_integer C62_integer_float C62_to_option C62_from_option C62_none C62_sequence C62_to_array C62_from_array C62_tuple C62_map C62_box C62_newtype C62_to_newtype C62_struct C62_unit_variant C62_tuple_variant C62_struct_variant", "For every text the old version reads, not only for those it writes: C83.")
claim("C63", "proved", "C63_ron_document C63_ron_part C63_same_document C63_one_meaning C63_otherwise_error C63_all_refuted", "exact, in both directions; the exception for a name with brackets after it at the top level is stated in the theorem and shown real by C63_all_refuted")
claim("C64", "proved", "C64_written C64_values C64_one_document", "Specification: rshows (SpecRonShow.v).")
claim("C65", "proved", "C65_between_programs C65_carries C65_same C65_integer C65_to_option C65_from_option C65_none C65_sequence C65_tuple C65_array_tuple C65_map C65_box C65_struct C65_field_gone C65_unit_variant C65_tuple_variant C65_struct_variant C65_contents_dropped", "For every text the old version reads, not only for those it writes: C84.")
claim("C66", "proved", "C66_accepted C66_one_value C66_integer C66_string C66_same_tokens", "Field and variant names of each declaration must be distinct.")
claim("C67", "proved", "C67_accepted C67_one_value C67_integer C67_string C67_bool C67_rest_ignored C67_rejected", "Field and variant names of each declaration must be distinct; C67_rejected is for types without SystemTime (its addition can panic).")
claim("C68", "partial", "C68_ser_partial C68_de_partial C68_roundtrip_partial C68_refuted_variant_attributes C68_refuted_s C68_refuted_tuple_skip", "The text the macro prints is the printing of a program in a small fragment of Rust with its own semantics (SpecGen), and that program behaves as the interpreter of the other theorems does on the declaration the definition describes. False of the code for attributes on fields of struct-like variants (ignored), fields called s there (does not compile), skipped fields of tuple structs (DeBin macro panics), proxies on generic items or enums; const parameters see C55. For whole programs of printed impls calling each other: C75.")
claim("C69", "partial", "C69_ser_partial C69_de_partial C69_roundtrip_partial C69_refuted_tuple_proxy C69_refuted_variant_proxy C69_refuted_s", "The text the macro prints is the printing of a program in a small fragment of Rust with its own semantics (SpecGenText), and that program behaves as the interpreter of the other theorems does on the declaration the definition describes: same text, value, error or panic, and it ends iff that ends. False of the code for attributes of the fields of tuple structs (ignored), proxies of non-Option fields of struct-like variants and fields called s or d there (does not compile); names with quotes or backslashes, proxies on generic items or enums, and defaults outside default_ok (C54) are outside. For whole programs of printed impls calling each other: C75.")
claim("C70", "partial", "C70_ser_partial C70_de_partial C70_roundtrip_partial C70_refuted_proxy C70_refuted_container_proxy C70_refuted_unit C70_refuted_s", "As C69 for RON. False of the code for proxies (ignored on fields; on containers the impl calls deserialize_ron with a Chars, which does not compile), unit structs and tuple structs without fields (the SerRon macro panics), fields called s or d in struct-like variants (does not compile), container default_with (C51). For whole programs of printed impls calling each other: C75.")
claim("C71", "proved", "C71_bin_contents C71_bin_elements C71_bin_entries C71_bin_linear C71_bin_units C71_json C71_ron C71_spare_exists C71_json_plain C71_elements_counted C71_entries_counted C71_toml", "Sizes (cells, contents) and the conditions on types are in SpecMem.v. C71_bin_units is the exception (zero-sized elements). Proxies are user code and excluded.")
claim("C72", "proved", "C72_bin_stack C72_bin_calls C72_bin_nesting C72_json_nesting C72_ron_nesting C72_bin_no_limit C72_text_no_limit C72_write_stack", "The fuel of the model of de_bin/ser_bin is the number of nested calls (loops do not use it), so C72_bin_stack bounds the depth of the stack. For the text formats, whose model also spends fuel on loops, the depth is that of the value read.")
claim("C73", "proved", "C73_accepted C73_panics C73_rejected C73_unique C73_same", "The grammar is SpecTomlAcc.v; what a list of entries means is SpecToml.v (means, clash), as for C43 and C44.")
claim("C74", "proved", "C74_any_route C74_from_binary C74_from_text C74_distinct C74_finite_needed C74_memory_needed", "The conditions on declarations are SpecRoute.v (portable); they are static. in_memory and slice_fits say that collections and buffers fit the machine.")
claim("C75", "proved", "C75_binary C75_text", "Programs are SpecProg.v: one step of the library for each built-in type, and the printed code (in the fragments of Rust of SpecGen.v and SpecGenText.v) for the definitions; calls go to the program itself, not to the model. The limits are those of C68-C70, which say what fails outside them.")
claim("C76", "proved", "C76_panics C76_hangs C76_rejects C76_outcome C76_one_way C76_not_both C76_ron_rejects", "Where reading breaks down is defined in SpecCrash.v over tokens: an inductive definition over the type, with the tokens read before (SpecAcc.v, C66) and the value of the unknown member (or the Duration) at which it happens; proved equivalent to the outcome of the model of deserialize_json for every text, for all types the derive macro accepts with distinct names (the hypotheses of C26, C27 and C66; recursion through a transparent tuple only is excluded, see C27_refuted_transparent). RON: for types without Duration and SystemTime, every text that is not accepted (C67) is an error.")
claim("C77", "proved", "C77_accepts C77_rejects C77_panics C77_whole C77_outcome C77_one_way C77_encodings", "SpecBinAcc.v: two inductive relations, spells (which bytes are which value) and stops (which error or panic, at which offset, on all the input from an offset on), without mention of the reader. Equivalences for every input whose bytes are below 256 and whose length fits a slice; a name without a declaration and a tuple struct with a skipped field (both not programs) are in stops as PNotCompiled.")
claim("C78", "proved", "C78_error C78_reports C78_outcome C78_unique C78_local C78_no_value C78_open_string", "SpecTomlErr.v: texts that begin with no token, and places where a token of a given kind is wanted and not found, on top of the grammar of C73. The message is the token or the word the code puts into it; how it is printed is C58. The column is always 0 (C30).")
claim("C79", "proved", "C79_true C79_unexpected_token C79_missing_key C79_unexpected_key C79_no_such_enum C79_out_of_range C79_cannot_parse", "SpecSay.v: for every message, what it claims about the tokens read so far (grammar of C66/C67), the type read and the place it points to; proved of every error of deserialize_json and deserialize_ron, for every type, text and build. One exception in the code, kept in the statement: in a tuple, a failure to read a token may be replaced by a complaint about a comma (C79_ex_hidden). How messages are printed is C58; whether there is an error at all is C66, C67 and C76.")
claim("C80", "proved", "C80_linear C80_ron C80_json C80_steps_one counted_same", "Work.v gives the tokenizer a counter (one per call of next_tok, one per character moved over) that no reader looks at; counted_same: the counting reader has the same outcome as the model of C17-C40. The bound 2n+1 is met (C80_ex). What is counted is the reading of the text, not the work done on a token (comparison with field names, allocation).")
claim("C81", "proved", "C81_order C81_permuted C81_dotted C81_join C81_error C81_override C81_documents C81_documents_order", "SpecTomlJoin.v: alike (the same assignments with full keys before the first [[k]] header, and the same under each [[k]] in order) and lines (entries followed by at least a blank, so that no value, array or comment is open), over the entries of C43, C44 and C73. The key of an assignment behind a header depends on it, so a second part without header is read under the last header of the first (C81_ex_scope; fresh in C81_override); an open array swallows what follows (C81_ex_open).")
claim("C82", "proved", "C82_json C82_ron C82_lines", "SpecLine.v: visible / in_line characters, names of declarations, lines_of splits at line feeds. Cases: C82_ex (names of the example declarations), C82_ex_string (escapes; RON writes some control characters raw), C82_ex_name (a rename with a line feed gives a text with a line feed).")
claim("C83", "proved", "C83_newer C83_only C83_unsigned", "SpecNewer.v: ty_newer, decl_newer (the changes), becomes (what values become), plain_text. Cases: C83_ex (a struct and an enum, a text with a removed member); the conditions are needed: C83_ex_fresh, C83_ex_wrap, C83_ex_last.")
claim("C84", "proved", "C84_newer C84_only C84_any_text", "SpecNewer.v with fm = Ron. Cases: C84_ex_newer, C84_ex; C84_ex_removed and C84_ex_none show why removing a field and making a unit enum optional are excluded.")
claim("C85", "proved", "C85_reads C85_written C85_rejects C85_box C85_newtype C85_option C85_collection C85_basic C85_stored C85_u8_u16", "SpecLayout.v: flat/opens (types without bytes of their own), agree, same_layout (a pairing of types closed under opening, so that recursive types are included) and same (equal content; collections hold what inserting the same items in turn gives). From the acceptance relation of C77. Cases: C85_ex, C85_ex_same (a map against a Vec of pairs, a struct with a skipped field against a tuple struct, a recursive enum against another with renamed and added variants); C85_u8_u16 shows that the notion excludes something.")
claim("C86", "proved", "C86_counted C86_linear C86_whole C86_zero_refuted", "WorkBin.v: the model of de_bin with a counter, one per call; C86_counted: otherwise it is the model. SpecWorkBin.v: takes_byte, pays (the condition on collections); guarded as in C08/C77 (types with values). C86_zero_refuted is the statement with the condition left out, refuted on 32 and 64 bit machines. Not counted: the work inside a call (copying a string, inserting into a set). Cases: C86_ex_hyps, C86_ex.")
claim("C87", "proved", "C87_counted C87_linear C87_always C87_tight", "WorkToml.v: the model of TomlParser with a counter, one for a call of next_tok and one for each character moved over; C87_counted: otherwise it is the model. C87_tight: for every n from 3 on a text of n characters takes 3n-1. Not counted: copying names, insertion into the maps (C87_ex_keys: keys may be longer together than the text). Cases: C87_ex_deep (3n-1 on unclosed brackets), C87_ex_empty (the bound is met), C87_ex_err, C87_ex_panic.")
json.dump({"claims": C}, open(os.path.join(os.path.dirname(__file__), "..", "MANIFEST.json"), "w"), indent=1)
