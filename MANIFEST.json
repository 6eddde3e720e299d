{
 "claims": [
  {
   "property": "C01",
   "status": "proved",
   "theorems": [
    "C01_string_round_trip",
    "C01_string_any_suffix",
    "C01_string_literals"
   ],
   "note": "to_string then from_str for every string, options and valid configuration, with layout around the document; any following text at parser level; every spelling of the string grammar"
  },
  {
   "property": "C02",
   "status": "proved",
   "theorems": [
    "C02_bytes_round_trip",
    "C02_bytes_any_suffix"
   ],
   "note": "every byte sequence, both escape modes"
  },
  {
   "property": "C03",
   "status": "proved",
   "theorems": [
    "C03_char_round_trip",
    "C03_char_any_suffix",
    "C03_char_literals"
   ],
   "note": "every character, and every escape of the character grammar"
  },
  {
   "property": "C04",
   "status": "proved",
   "theorems": [
    "C04_int_round_trip",
    "C04_int_any_suffix"
   ],
   "note": "all ten types, with and without suffix"
  },
  {
   "property": "C05",
   "status": "proved",
   "theorems": [
    "C05_int_literals",
    "C05_int_suffix",
    "C05_int_number_value"
   ],
   "note": "every literal of the integer grammar at every type, also with type suffixes"
  },
  {
   "property": "C06",
   "status": "proved",
   "theorems": [
    "C06_identifier_round_trip",
    "C06_identifier_refused",
    "C06_refused_unreadable"
   ],
   "note": "unicode_ident is an oracle constrained by XidOk"
  },
  {
   "property": "C07",
   "status": "proved",
   "theorems": [
    "C07_layout_skipped",
    "C07_final_layout_skipped",
    "C07_only_layout_skipped",
    "C07_whitespace"
   ],
   "note": "skip_ws skips exactly the layout defined in Layout.v (whitespace, line comments, nested block comments)."
  },
  {
   "property": "C08",
   "status": "proved",
   "theorems": [
    "C08_unclosed_before_value",
    "C08_unclosed_after_value",
    "C08_unclosed_anywhere"
   ],
   "note": "Before the value, after the value, and wherever the parser skips whitespace."
  },
  {
   "property": "C09",
   "status": "proved",
   "theorems": [
    "C09_compact_round_trip",
    "C09_writes"
   ],
   "note": "Every value of every type, every set of default extensions, recursion limit disabled; NaN payloads are identified (float_val). The exception of the statement is the boolean clash; see C40_refuted."
  },
  {
   "property": "C10",
   "status": "proved",
   "theorems": [
    "C10_pretty_round_trip",
    "C09_writes"
   ],
   "note": "As C09, for every PrettyConfig; with compact_ranges the ranges in the value must meet ranges_ok (see C36, C37). C09_writes gives success of serialization whenever names are identifiers."
  },
  {
   "property": "C11",
   "status": "proved",
   "theorems": [
    "C11_reads_every_layout",
    "C11_layout_independent",
    "C11_tuple_struct_gap_refuted",
    "C11_unit_gap_refuted"
   ],
   "note": "The grammar repr (Repr.v) lists every layout of a value; each text of it is read to that value. The two refuted theorems show the two exceptions of the statement."
  },
  {
   "property": "C12",
   "status": "proved",
   "theorems": [
    "C12_headers_round_trip",
    "C12_headers_minimal"
   ],
   "note": "stated on the state the deserializer starts from; the body must not itself begin with layout or an attribute (raw values can, see C28)"
  },
  {
   "property": "C13",
   "status": "proved",
   "theorems": [
    "C13_attributes",
    "C13_unknown_extension",
    "C13_union"
   ],
   "note": "every sequence of attributes with any layout"
  },
  {
   "property": "C14",
   "status": "partial",
   "theorems": [
    "C14_value_round_trip_partial",
    "C14_implicit_some_refuted"
   ],
   "note": "Every Value tree in the ranges of its types with sorted maps, every pretty layout and every extension, with number suffixes. The only exception: it is false with implicit_some when the Value holds a Some (refuted)."
  },
  {
   "property": "C15",
   "status": "partial",
   "theorems": [
    "C15_value_round_trip_partial",
    "C15_same_number",
    "C15_f32_refuted",
    "C15_keys_refuted"
   ],
   "note": "The same shape before maps are sorted, every integer and f64 read back as the same number in the smallest type, for every extension. The exceptions are false: f32 (0.1f32 comes back as another f64), maps whose keys collide once shrunk, and a Some under implicit_some (C14_implicit_some_refuted)."
  },
  {
   "property": "C16",
   "status": "proved",
   "theorems": [
    "C16_no_panic_str",
    "C16_no_panic_untyped",
    "C16_no_panic_bytes",
    "C16_no_panic_reader",
    "C16_no_panic_buffered",
    "C16_no_panic_tagged",
    "C17_untagged_terminates",
    "C17_tagged_enum_terminates",
    "C17_adjacent_terminates",
    "C17_flatten_terminates"
   ],
   "note": "For every text, type table, type, fuel and options, under XidOk (facts on unicode_ident). Panics modelled: slicing, indexing, unwrap on slices and the subtraction of whitespace tracking. Untagged, internally and adjacently tagged enums as a whole: C17_untagged_terminates, C17_tagged_enum_terminates and C17_adjacent_terminates exclude both panics and divergence, at types that are not recursive. Structs with flattened fields: C17_flatten_terminates."
  },
  {
   "property": "C17",
   "status": "partial",
   "theorems": [
    "C17_untyped_terminates",
    "C17_limited_terminates",
    "C17_guarded_terminates",
    "C17_ranked_terminates",
    "C17_fuel_irrelevant",
    "C17_unlimited_refuted",
    "C17_buffered_terminates",
    "C17_tagged_terminates",
    "C17_untagged_terminates",
    "C17_tagged_enum_terminates",
    "C17_adjacent_terminates",
    "C17_flatten_terminates"
   ],
   "note": "Holds for untyped values, for every type with a recursion limit, and for every guarded type without limit (fuel linear in the text). False in general without a limit: struct A(Box<A>) with unwrap_newtypes enabled by the document recurses forever (C17_unlimited_refuted). Untagged, internally and adjacently tagged enums as a whole: C17_untagged_terminates, C17_tagged_enum_terminates and C17_adjacent_terminates exclude both panics and divergence, at types that are not recursive. Structs with flattened fields: C17_flatten_terminates."
  },
  {
   "property": "C18",
   "status": "proved",
   "theorems": [
    "C18_whole_document",
    "C18_trailing_rejected"
   ],
   "note": "The text after the value must be layout; anything else is rejected."
  },
  {
   "property": "C19",
   "status": "proved",
   "theorems": [
    "C19_limit_only_fails",
    "C19_limit_only_fails_untyped",
    "C19_monotone",
    "C19_nesting",
    "C19_too_deep",
    "C19_budget",
    "C19_documents"
   ],
   "note": "A limit changes results only into ExceededRecursionLimit; what is accepted has a parse and a value nesting within the limit; documents of values nesting deeper (least) fail with that error; the budget is restored after each value. C19_documents needs FloatOk as the typed round trip does."
  },
  {
   "property": "C20",
   "status": "partial",
   "theorems": [
    "C20_exact",
    "C20_enforced_partial",
    "C20_no_false_alarm",
    "C20_bound",
    "C20_same_text",
    "C20_limit_refuted",
    "C20_unbounded_refuted"
   ],
   "note": "The property is false: every compound that closes raises the limit by one (Compound::drop), so earlier siblings let deeper values through. C20_exact gives the exact condition; C20_enforced_partial proves the property for values not preceded by a closed compound; C20_same_text: the limit never changes what is written."
  },
  {
   "property": "C21",
   "status": "partial",
   "theorems": [
    "C21_span_inside",
    "C21_span_inside_untyped",
    "C21_span_order_refuted"
   ],
   "note": "Both ends lie inside the document; the ordering part is false: the span of the error for _5i8 ends before it starts."
  },
  {
   "property": "C22",
   "status": "proved",
   "theorems": [
    "C22_position_walk",
    "C22_position_closed",
    "C22_position_unique",
    "C22_position_monotone"
   ],
   "note": "Line and column are the walk over the consumed prefix; strictly monotone, hence injective."
  },
  {
   "property": "C23",
   "status": "proved",
   "theorems": [
    "C23_bytes_agree",
    "C23_invalid_rejected",
    "C23_every_input",
    "C23_split_unique",
    "C23_undecodable",
    "C23_failing_reader"
   ],
   "note": "Byte and reader entry points agree with the text entry point on valid UTF-8, report the longest valid prefix otherwise."
  },
  {
   "property": "C24",
   "status": "proved",
   "theorems": [
    "C24_well_typed",
    "C24_valid_text",
    "C24_non_scalar_in_string",
    "C24_non_scalar_char"
   ],
   "note": "Every value obtained from a wf document through any target type belongs to that type (has_ty, spec in Typing.v): all text made of scalar values, bytes <256, integers in range. Code point escapes that are no scalar value are refused in strings and chars."
  },
  {
   "property": "C25",
   "status": "proved",
   "theorems": [
    "C25_base64_hint",
    "base64_decoder"
   ],
   "note": "For every plain or raw string literal read as bytes; b64_text is an independent relation in B64.v."
  },
  {
   "property": "C26",
   "status": "proved",
   "theorems": [
    "C26_document",
    "C26_inside",
    "C26_read_pieces",
    "C26_written_pieces",
    "C26_written",
    "C26_round_trip",
    "C26_from_ron"
   ],
   "note": "A raw value is the stretch of the document from the end of the token before it to the beginning of the token after it (C26_inside, C26_read_pieces; C26_document for a whole document, where leading attributes do not belong to it), and is written as it is wherever it stands, whatever the options and configuration (C26_written_pieces, C26_written). C26_round_trip composes the two for a document without attributes."
  },
  {
   "property": "C27",
   "status": "partial",
   "theorems": [
    "C27_from_ron",
    "C27_trim",
    "C27_read",
    "C27_trim_attribute_refuted",
    "C27_trim_panic_refuted"
   ],
   "note": "For every raw value that a document holds, and every text without attributes that reads as a value, trimming succeeds, removes exactly leading and trailing layout, keeps the value and is idempotent (C27_trim, C27_read). A text accepted by from_ron loses in addition only attributes that enable nothing (C27_from_ron). False as stated beyond that: trimming drops a type or schema attribute (C27_trim_attribute_refuted), and panics on a raw value made by from_rust out of a deeply nested value (C27_trim_panic_refuted)."
  },
  {
   "property": "C28",
   "status": "partial",
   "theorems": [
    "C28_embedded",
    "C28_from_ron",
    "C28_read",
    "C28_attribute_refuted",
    "C28_unwrapped_refuted"
   ],
   "note": "For every typed value with raw values at any depth, any readable pretty layout and enough recursion levels: if the raw texts are accepted by from_ron and have no attributes (or were read out of such a document), the serialized document is read back to the same value, but for layout around the raw values (C28_embedded, C28_from_ron, C28_read). False as stated beyond that: a raw value with a type or schema attribute makes the larger document unreadable (C28_attribute_refuted), and so may a comment in a raw value when the larger document is read with unwrap_variant_newtypes (C28_unwrapped_refuted). With compact_ranges the ranges must meet ranges_ok (see C36, C37). Holds with implicit_some and unwrap_newtypes as well."
  },
  {
   "property": "C29",
   "status": "proved",
   "theorems": [
    "C29_equal_iff_same",
    "C29_antisymmetric",
    "C29_transitive",
    "C29_equal_hash",
    "C29_integers",
    "C29_floats",
    "C29_nans"
   ],
   "note": "Total order on all numbers, equality is identity of width and bits, floats compare by denoted number."
  },
  {
   "property": "C30",
   "status": "proved",
   "theorems": [
    "C30_equal_iff_same",
    "C30_antisymmetric",
    "C30_transitive",
    "C30_eq_operator",
    "C30_equal_hash",
    "C30_text_order"
   ],
   "note": "Feature indexmap off."
  },
  {
   "property": "C31",
   "status": "proved",
   "theorems": [
    "C31_lookup",
    "C31_insert_previous",
    "C31_remove_previous",
    "C31_ascending",
    "C31_keys_once",
    "C31_iteration",
    "C31_extensional"
   ],
   "note": "std's BTreeMap is represented by its sorted entry list; retain with predicates that do not modify the value."
  },
  {
   "property": "C32",
   "status": "proved",
   "theorems": [
    "C32_last_binding",
    "C32_last_wins",
    "C32_document"
   ],
   "note": "For documents read as Value."
  },
  {
   "property": "C33",
   "status": "partial",
   "theorems": [
    "C33_made",
    "C33_made_converse",
    "C33_tuple_length",
    "C33_tuple_longer",
    "C33_tuple_shorter",
    "C33_denied",
    "C33_seq_visitor",
    "C33_seq_early",
    "C33_map_visitor_partial",
    "C33_map_early",
    "C33_values_refuted"
   ],
   "note": "For every standard or derived type the result of into_rust is exactly what the relation made allows, which gives every element and entry a place (fields unknown to a struct without deny_unknown_fields excepted). For every handwritten visitor, returning before the last element or key is the error ExpectedDifferentLength. The claim fails for map values: a visitor that asks for a key but not for its value is not stopped (C33_values_refuted)."
  },
  {
   "property": "C34",
   "status": "partial",
   "theorems": [
    "C34_through",
    "C34_written",
    "C34_empty_struct_refuted",
    "C34_all_optional_refuted",
    "C34_empty_array_refuted",
    "C34_implicit_some_refuted",
    "C34_unwrap_newtypes_refuted",
    "C34_large_float_refuted",
    "C34_range_end_refuted",
    "C34_laxer"
   ],
   "note": "Proved, up to the order of map entries, for every text of a typed enum-free value with tuples and structs that are not empty, in any layout, with range syntax, with the extensions implicit_some, unwrap_newtypes and unwrap_variant_newtypes off, and floats whose text means the same without its type (neutral); and for everything the serializer writes, with or without compact_ranges. The end of a half-open range in range syntax must not be inf or NaN. The other cases are false: see the refutations. Missing: empty tuple structs written with their name."
  },
  {
   "property": "C35",
   "status": "proved",
   "theorems": [
    "C35_failing_writer",
    "C35_failing_both",
    "C35_prefix"
   ],
   "note": "For every value, configuration and number of bytes the writer accepts; the writer model is byte-granular."
  },
  {
   "property": "C36",
   "status": "partial",
   "theorems": [
    "C36_written",
    "C36_round_trip",
    "C36_inf_refuted",
    "C36_f32_refuted"
   ],
   "note": "Written in range syntax: all ranges of numbers. Round trip: all integers, all f64 and (with number suffixes, or when the shortest decimal survives f64) all f32 bounds, when a float before the dots is not written inf or NaN; nested ranges are covered by C10. Refuted: inf..1.0 is not readable, and the f32 7.038531e-26 comes back as its neighbour without suffixes (hypotheses on the float oracle, shown satisfiable)."
  },
  {
   "property": "C37",
   "status": "partial",
   "theorems": [
    "C37_written",
    "C37_round_trip",
    "C37_explicit_refuted",
    "C37_variant_refuted"
   ],
   "note": "The same text as any struct with those fields and another name; round trip unless explicit_struct_names is on or the range is directly inside a newtype variant under unwrap_variant_newtypes. Both exceptions are refuted."
  },
  {
   "property": "C38",
   "status": "proved",
   "theorems": [
    "C38_docs_by_path",
    "C38_harmless"
   ],
   "note": "ser_at is a serializer without metadata state that looks documentation up by path; the real one writes the same bytes and ends with the same metadata. With compact_ranges the ranges must meet ranges_ok (see C36, C37)."
  },
  {
   "property": "C39",
   "status": "proved",
   "theorems": [
    "C39_reads",
    "C39_duplicate",
    "C39_missing",
    "C39_unknown_denied"
   ],
   "note": "For structs and struct variants that are the whole document. Unknown fields hold any text of the untyped grammar (vrepr) and are skipped when unwrap_variant_newtypes is off; missing options give None. That nothing else is accepted is C50 (acc, struct_of)."
  },
  {
   "property": "C40",
   "status": "partial",
   "theorems": [
    "C40_round_trip",
    "C40_unambiguous",
    "C40_none_text",
    "C40_refuted",
    "C40_unreadable_refuted"
   ],
   "note": "True unless unwrap_variant_newtypes is also enabled (C40_round_trip); with both, true outside of the boolean clash (C40_unambiguous). False in general: A(Some((None,))) is written A(None) and read back as A(None). With compact_ranges the ranges must meet ranges_ok (see C36, C37)."
  },
  {
   "property": "C41",
   "status": "proved",
   "theorems": [
    "C41_invalid_layout_refused",
    "C41_valid_layout_accepted",
    "C41_whitespace"
   ],
   "note": "on any writer"
  },
  {
   "property": "C42",
   "status": "proved",
   "theorems": [
    "C42_builder_history",
    "C42_algebra"
   ],
   "note": "every chain of builder calls"
  },
  {
   "property": "C43",
   "status": "partial",
   "theorems": [
    "C43_shallow_partial",
    "C43_depth_refuted"
   ],
   "note": "The property is false: the deserializer takes up to three levels of the limit per nested value and the serializer one; 65 nested sequences serialize but do not deserialize. Proved for up to 41 nested values. With compact_ranges the ranges must meet ranges_ok (see C36, C37)."
  },
  {
   "property": "C44",
   "status": "partial",
   "theorems": [
    "C44_option_partial",
    "C44_option_inside_partial",
    "C44_option_explicit",
    "C44_some_without_parentheses_refuted"
   ],
   "note": "Proved without implicit_some. With implicit_some the statement is false: `Some 5` (no parentheses) is accepted as Some(5); the theorems say this is the only exception."
  },
  {
   "property": "C45",
   "status": "partial",
   "theorems": [
    "C45_struct_names_partial",
    "C45_struct_names_inside_partial",
    "C45_explicit_partial",
    "C45_explicit_refuted"
   ],
   "note": "A name that is given must match. With explicit_struct_names the name may still be left out in the argument of a newtype variant under unwrap_variant_newtypes, for unwrapped newtypes and in range syntax (refuted with witnesses); the theorem lists these exceptions."
  },
  {
   "property": "C46",
   "status": "partial",
   "theorems": [
    "C46_innermost",
    "C46_label",
    "C46_variant",
    "C46_refuted"
   ],
   "note": "Without unwrap_variant_newtypes: a mistake in the fields of a struct or struct variant at any depth is reported with the innermost struct's or variant's name (C46_innermost), and whatever the text, any such error names a struct or variant of the type asked for that has (or, for unknown fields, lacks) that field (C46_label, for types whose structs have nonempty names). With or without it, any unknown variant error names an enum of the type that lacks the variant (C46_variant). With unwrap_variant_newtypes the claim about fields is false: the fields of a struct directly inside Some(..) are reported under the struct around the option (C46_refuted)."
  },
  {
   "property": "C47",
   "status": "proved",
   "theorems": [
    "C47_float_round_trip",
    "C47_canon"
   ],
   "note": "given FloatOk, the stated facts about Rust float formatting and parsing; the payload of a NaN is not written"
  },
  {
   "property": "C48",
   "status": "proved",
   "theorems": [
    "C48_left_to_right",
    "C48_tokens_left_to_right"
   ],
   "note": "For every typed read and every token function."
  },
  {
   "property": "C49",
   "status": "proved",
   "theorems": [
    "C49_no_panic"
   ],
   "note": ""
  },
  {
   "property": "C50",
   "status": "proved",
   "theorems": [
    "C50_accepted_documents",
    "C50_accepted_inside",
    "document_sound"
   ],
   "note": "The grammar is the relation acc in Accept.v. What a float numeral means is left to Rust's own parser (f_read)."
  },
  {
   "property": "C51",
   "status": "proved",
   "theorems": [
    "C51_literals",
    "C51_strings",
    "C51_chars",
    "C51_integers",
    "C51_bytes"
   ],
   "note": "Literals are specified in Lit.v."
  },
  {
   "property": "C52",
   "status": "partial",
   "theorems": [
    "C52_index",
    "C52_selects",
    "C52_errors",
    "C52_panic_refuted",
    "C52_cluster_refuted"
   ],
   "note": "Every boundary between clusters is found again and an ordered span selects exactly the text between its ends, for every text whose clusters are single characters or CR LF (the segmentation is an argument). False beyond that: a span that ends before it starts panics (C52_panic_refuted, see C21), and since columns count characters, a cluster of several characters shifts the selection (C52_cluster_refuted)."
  },
  {
   "property": "C53",
   "status": "partial",
   "theorems": [
    "C53_round_trip_partial",
    "C53_drawn",
    "C53_struct_names_refuted",
    "C53_newtype_refuted",
    "C53_empty_refuted",
    "C53_one_field_variant_refuted",
    "C53_one_element_refuted",
    "C53_implicit_unit_refuted",
    "C53_wide_integer_refuted",
    "C53_range_end_refuted"
   ],
   "note": "Proved for all values within README.md's restrictions, all options and all valid pretty configurations without struct names: the buffer read from the text holds the value, and the enum comes back as the first variant that accepts. With compact_ranges the end of a half-open range may not be inf or NaN. Missing: untagged enums and any/raw values inside the value. The _refuted theorems are witnesses that each restriction is needed. C53_drawn: whatever text is accepted, the result is made of everything the buffer holds and the variant is the first that accepts it."
  },
  {
   "property": "C54",
   "status": "partial",
   "theorems": [
    "C54_unbounded_refuted",
    "C54_direct_partial",
    "C54_counted_partial",
    "C16_no_panic_buffered",
    "C17_buffered_terminates"
   ],
   "note": "False: an enum variant inside an untagged enum is read without counting, so A(A(..(B)..)) is accepted at every depth under every limit (C54_unbounded_refuted, for every limit and depth), although the same value read directly exceeds the limit (C54_direct_partial). What does hold: sequences, options and maps that cannot be variants or ranges are counted (C54_counted_partial). Missing: variants, where it is false. Reading into the buffer neither panics nor diverges."
  },
  {
   "property": "C55",
   "status": "partial",
   "theorems": [
    "C55_read",
    "C55_round_trip_partial",
    "C55_tag_key_refuted",
    "C55_struct_names_refuted",
    "C55_newtype_refuted",
    "C55_empty_refuted",
    "C55_wide_integer_refuted",
    "C16_no_panic_tagged",
    "C17_tagged_terminates"
   ],
   "note": "Reading is proved for every text with the tag once, anywhere among the fields of a struct or the keys of a map. The round trip is proved for all variants serde can tag, all options and all valid pretty configurations without struct names; with compact_ranges under the restriction of C53. Missing: untagged or tagged enums and any/raw values inside the value. The _refuted theorems are witnesses that the restrictions are needed."
  },
  {
   "property": "C56",
   "status": "proved",
   "theorems": [
    "C56_names",
    "C56_invalid",
    "C56_mentions",
    "C56_reported"
   ],
   "note": "Message.v is error.rs:116-120, 218-270, 310-334 and 457-505; core's {:?} of a string is a parameter, of which C56_invalid assumes that it starts with a double quote. Messages without names or lists are not modelled."
  },
  {
   "property": "C57",
   "status": "partial",
   "theorems": [
    "C57_read_partial",
    "C57_inside_partial",
    "C57_word_end_refuted",
    "C57_byte_end_refuted",
    "C57_spaces_refuted"
   ],
   "note": "Proved for all six forms with every number literal as start, and as end every number literal except inf and NaN after .. (after ..= these too), at the top of a document under all options and anywhere inside one without unwrap_variant_newtypes. False for inf, NaN and byte literals after .., and for the white space docs/grammar.md allows."
  },
  {
   "property": "C58",
   "status": "proved",
   "theorems": [
    "C58_round_trip",
    "C58_read",
    "C58_empty_refuted",
    "C58_content_first_refuted"
   ],
   "note": "The round trip holds under the conditions of the typed round trip (valid configuration, ranges_ok, no clash) and shown, which says that a struct variant has a field and is no range of numbers under compact_ranges. C58_read: every spelling with the tag first. C58_empty_refuted shows that shown is needed; C58_content_first_refuted that with the content first struct names are lost (tests/502_known_bugs.rs)."
  },
  {
   "property": "C59",
   "status": "partial",
   "theorems": [
    "C59_read",
    "C59_duplicate",
    "C59_missing",
    "C59_denied",
    "C59_round_trip_partial",
    "C59_names_refuted",
    "C59_map_first_refuted",
    "C59_same_key_refuted",
    "C59_deny_map_refuted",
    "C17_flatten_terminates"
   ],
   "note": "Reading is proved for every order of the entries, spelling and layout; the round trip for all options and valid pretty configurations without struct names, with the conditions of C20 for the fields of the struct itself and those of C53 for the values in flattened fields. Missing: flattened enums and options, flattening inside flattened structs, and enums with tags or any/raw values inside flattened fields. The _refuted theorems are witnesses that the conditions are needed: struct names inside a flattened struct, a flattened map before a flattened struct, a map with the name of a field as a key, and a flattened map in a struct that denies unknown fields."
  },
  {
   "property": "C60",
   "status": "proved",
   "theorems": [
    "C60_typed",
    "C60_untyped",
    "C60_untagged",
    "C60_tagged",
    "C60_adjacent",
    "C60_flat",
    "C60_unwrap_newtypes_refuted",
    "C60_unwrap_variant_newtypes_refuted"
   ],
   "note": "The two refuted theorems show that the statement cannot be extended to unwrap_newtypes and unwrap_variant_newtypes: enabling these makes readable documents unreadable."
  },
  {
   "property": "C61",
   "status": "proved",
   "theorems": [
    "C61_read",
    "C61_saved",
    "C61_ignored_refuted",
    "C61_optional_refuted",
    "C61_widened_refuted",
    "C61_wrapped_refuted"
   ],
   "note": "Types of the typed deserializer (not derived untagged, tagged or flattened ones). Structs named like the standard ranges may not change."
  },
  {
   "property": "C62",
   "status": "proved",
   "theorems": [
    "C62_preserves",
    "C62_idempotent",
    "C62_keys_refuted",
    "C62_some_refuted"
   ],
   "note": "For every document: preserved and idempotent, with number suffixes and without implicit_some in the writer; without these restrictions the claim is false, with witnesses."
  },
  {
   "property": "C63",
   "status": "proved",
   "theorems": [
    "C63_one_line",
    "C63_char_refuted",
    "C63_docs_refuted"
   ],
   "note": "For the compact form and every pretty configuration with depth limit 0; chars and docs are the exceptions, with witnesses."
  },
  {
   "property": "C64",
   "status": "proved",
   "theorems": [
    "C64_typed",
    "C64_value",
    "C20_same_text",
    "C64_clash_refuted",
    "C64_width_refuted"
   ],
   "note": "For every type and pair of configurations; the two exceptions in the statement have witnesses."
  },
  {
   "property": "C65",
   "status": "proved",
   "theorems": [
    "C65_calls",
    "C65_queries",
    "C65_output",
    "C65_no_docs",
    "C65_build_refuted"
   ],
   "note": "builder calls refine their meaning by path; the text depends only on the docs by path; build_fields twice loses docs (refuted companion)"
  },
  {
   "property": "C66",
   "status": "proved",
   "theorems": [
    "C66_last_call",
    "C66_about"
   ],
   "note": "the setting extensions is about every value; new_line also ends the extension headers"
  },
  {
   "property": "C67",
   "status": "proved",
   "theorems": [
    "C67_depth",
    "C67_less_refuted"
   ],
   "note": "limits at least as large as the nesting all act like none; one less may show"
  }
 ]
}
