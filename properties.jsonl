{"id": "C01", "title": "String round trip", "statement": "Serializing any string and deserializing the produced text as a string gives back exactly the same string, both when strings are written escaped and when they are written unescaped or as raw strings with hashes.", "quantifier": "every string of Unicode scalar values (any length, any mix of quotes, backslashes, hash runs, control and non-printable characters), both settings of escape_strings, any text that follows the string in the document", "why_tests_cant": "There are infinitely many strings; the number of hashes needed by a raw string and the escape chosen for each character depend on the whole string.", "anchors": ["src/ser/mod.rs: serialize_escaped_str, serialize_unescaped_or_raw_str, Serializer::serialize_str", "src/parse.rs: Parser::string, escaped_byte_buf, raw_byte_buf, parse_escape, ParsedStr::try_from_bytes"]}
{"id": "C02", "title": "Byte string round trip", "statement": "Serializing any byte sequence as bytes and deserializing the text as bytes gives back exactly the same bytes, for both settings of escape_strings, including bytes that are not valid UTF-8.", "quantifier": "every finite sequence of bytes, both settings of escape_strings, any text that follows", "why_tests_cant": "The fallback between raw and escaped output depends on UTF-8 validity of the whole sequence; the space of byte strings is infinite.", "anchors": ["src/ser/mod.rs: serialize_escaped_byte_str, serialize_unescaped_or_raw_byte_str, Serializer::serialize_bytes", "src/parse.rs: Parser::byte_string, byte_string_no_base64, escaped_byte_buf, raw_byte_buf"]}
{"id": "C03", "title": "Character round trip", "statement": "Serializing any char and deserializing the text as a char gives the same char.", "quantifier": "every Unicode scalar value, any text that follows", "why_tests_cant": "1.1 million characters each in arbitrary context; the quote, the backslash and control characters take separate paths.", "anchors": ["src/ser/mod.rs: Serializer::serialize_char", "src/parse.rs: Parser::char, parse_escape"]}
{"id": "C04", "title": "Integer round trip", "statement": "Serializing any integer of any of the ten integer types, with or without a type suffix, and deserializing it at the same type gives the same integer.", "quantifier": "every value of i8..i128 and u8..u128, both settings of number_suffixes, any text that follows which cannot continue a number", "why_tests_cant": "The 64- and 128-bit ranges cannot be enumerated; minimum values, leading signs and suffix handling interact.", "anchors": ["src/ser/mod.rs: serialize_sint, serialize_uint", "src/parse.rs: Parser::integer, parse_integer, parse_integer_digits, impl_num, impl_integer"]}
{"id": "C05", "title": "Integer literals are exact or rejected", "statement": "A binary, octal, decimal or hexadecimal integer literal with an optional sign and underscores, deserialized at an integer type, yields exactly the mathematical value of its digits when that value fits the type, and an out-of-bounds error when it does not. The value is never wrapped, truncated or saturated.", "quantifier": "every base, sign, digit sequence (any length, with underscores anywhere but first) and every integer type", "why_tests_cant": "The claim is about arbitrarily long digit strings and about every overflow point of ten types.", "anchors": ["src/parse.rs: parse_integer_digits, parse_integer, Parser::integer, checked_mul_ext, checked_add_ext, checked_sub_ext, decode_hex"]}
{"id": "C06", "title": "Identifier round trip and validation", "statement": "Every struct, field or variant name that the serializer accepts is written so that reading an identifier gives back exactly that name, and is never read as a keyword such as true, None or inf. A name that cannot be written as an identifier is refused with an error before it is written.", "quantifier": "every string used as a name, and any following text that cannot continue an identifier", "why_tests_cant": "Names are arbitrary Unicode strings; raw and plain identifiers, reserved words and string prefixes (r, b, br) collide.", "anchors": ["src/ser/mod.rs: write_identifier, validate_identifier", "src/parse.rs: Parser::identifier, skip_identifier, check_ident, is_ident_first_char, is_ident_raw_char"]}
{"id": "C07", "title": "Whitespace and comments are skipped completely", "statement": "Any sequence of whitespace characters, line comments ended by a newline, and properly nested block comments placed between two tokens is skipped entirely and nothing else is skipped.", "quantifier": "every whitespace sequence of any length and any nesting depth of block comments, and every following token", "why_tests_cant": "Comment bodies and nesting are unbounded and can contain comment openers, quotes and brackets.", "anchors": ["src/parse.rs: skip_ws, skip_comment, is_whitespace_char"]}
{"id": "C08", "title": "Unclosed block comments are always an error", "statement": "A block comment whose nesting is not closed before the end of the document is reported as an error; it is never silently ignored.", "quantifier": "every comment body, any nesting", "why_tests_cant": "Comment bodies are unbounded.", "anchors": ["src/parse.rs: skip_comment"]}
{"id": "C09", "title": "Compact typed round trip", "statement": "For every Rust type describable in the serde data model (booleans, integers, chars, strings, bytes, options, units, tuples, sequences, maps, structs, newtype structs and externally tagged enums) and every value of it, if compact serialization succeeds then deserializing the text at that type succeeds and gives the same value (recursion limit disabled). The one exception is described with C40: under implicit_some together with unwrap_variant_newtypes, a newtype variant around Some of a tuple that begins with a None.", "quantifier": "every type shape, every value of that shape, every set of default extensions", "why_tests_cant": "Types and values are unbounded trees; the extensions change how options, newtypes and variants nest in one another.", "anchors": ["src/ser/mod.rs: impl ser::Serializer for Serializer, Compound", "src/de/mod.rs: impl de::Deserializer for Deserializer, CommaSeparated, Enum"]}
{"id": "C10", "title": "Pretty typed round trip", "statement": "The typed round trip holds for every pretty-printing configuration: any depth limit, any whitespace-only new line, indentor and separator strings, struct names, tuple separation, array enumeration, compact arrays, structs and maps, escape mode, number suffixes, documentation comments and extensions. The one exception is described with C40: under implicit_some together with unwrap_variant_newtypes, a newtype variant around Some of a tuple that begins with a None.", "quantifier": "every PrettyConfig (compact_ranges excluded, see the range property), type and value", "why_tests_cant": "The configuration space multiplied by the value space is infinite.", "anchors": ["src/ser/mod.rs: PrettyConfig, Serializer::with_options, start_indent, end_indent, indent, Compound", "src/de/mod.rs"]}
{"id": "C11", "title": "Layout independence of deserialization", "statement": "Deserialization at a type does not depend on layout: inserting whitespace or comments between tokens, adding or dropping trailing commas, or adding or dropping the optional struct name never changes the resulting value. Two places admit no layout: between the name of a tuple struct and its parenthesis, and inside of the unit `()`.", "quantifier": "every type, value, and every textual layout of that value", "why_tests_cant": "There are infinitely many layouts of every document.", "anchors": ["src/parse.rs: skip_ws, comma, consume_struct_name", "src/de/mod.rs: CommaSeparated::has_element, next_element_seed, next_key_seed, next_value_seed"]}
{"id": "C12", "title": "Extension headers round trip", "statement": "When a pretty configuration enables extensions that the options do not enable by default, the produced document starts with attributes that make any reader with the same options enable exactly the union of the two sets.", "quantifier": "every pair of extension sets and every whitespace-only new line string, followed by any document body", "why_tests_cant": "The header interacts with arbitrary layout strings and bodies.", "anchors": ["src/ser/mod.rs: Serializer::with_options", "src/parse.rs: Parser::new, attribute, extension_list", "src/extensions.rs: Extensions::from_ident"]}
{"id": "C13", "title": "Attribute semantics", "statement": "A document prefix made of enable, type and schema attributes enables exactly the union of the named extensions, independent of order, repetition, grouping and layout; an unknown extension name is always rejected.", "quantifier": "every sequence of attributes with any layout", "why_tests_cant": "Attribute sequences are unbounded.", "anchors": ["src/parse.rs: Parser::new, attribute, extension_list", "src/extensions.rs: from_ident"]}
{"id": "C14", "title": "Untyped values round trip exactly with number suffixes", "statement": "Serializing any Value with number suffixes switched on and deserializing the text as a Value gives an equal Value.", "quantifier": "every Value tree whose floats are not NaNs with a payload, every pretty layout", "why_tests_cant": "Value trees are unbounded.", "anchors": ["src/ser/value.rs", "src/de/value.rs: ValueVisitor", "src/de/mod.rs: deserialize_any", "src/parse.rs: any_number"]}
{"id": "C15", "title": "Untyped values round trip up to number width without suffixes", "statement": "Serializing any Value without number suffixes and deserializing the text as a Value gives a Value of the same shape in which every number denotes the same mathematical number, stored in the smallest type.", "quantifier": "every Value tree", "why_tests_cant": "Value trees are unbounded and every integer width boundary matters.", "anchors": ["src/parse.rs: any_number, ParsedInteger, ParsedFloat", "src/de/mod.rs: deserialize_any"]}
{"id": "C16", "title": "No input makes the parser panic", "statement": "Deserializing any text at any supported type or as an untyped value never panics: no slice is taken off a character boundary, no index is out of range and no arithmetic overflows.", "quantifier": "every text, every type shape, every set of options", "why_tests_cant": "Requires reasoning over all byte offsets of all inputs.", "anchors": ["src/parse.rs: src, advance_bytes, next_chars_while_from_len, check_ident_other_char, escaped_byte_buf, raw_byte_buf, float, integer", "src/de/mod.rs"]}
{"id": "C17", "title": "Deserialization terminates", "statement": "Deserializing any text as an untyped value or at any supported type terminates, with a number of parsing steps bounded by the length of the text even without a recursion limit.", "quantifier": "every text, type shape, and options", "why_tests_cant": "Non-termination cannot be observed by finitely many tests.", "anchors": ["src/parse.rs", "src/de/mod.rs: deserialize_any"]}
{"id": "C18", "title": "The whole document is consumed", "statement": "A successful deserialization has consumed the whole document except for trailing whitespace and comments; a document with anything else after the value is rejected.", "quantifier": "every document and type", "why_tests_cant": "Documents and trailing texts are unbounded.", "anchors": ["src/options.rs: from_str_seed", "src/de/mod.rs: Deserializer::end"]}
{"id": "C19", "title": "The deserialization recursion limit is enforced", "statement": "With a recursion limit of n, no deserialization ever nests more than n guarded calls: any document nested deeper than the limit fails with ExceededRecursionLimit, and after every successfully read sub-value the remaining budget is exactly what it was before.", "quantifier": "every document, type, limit, and history of earlier siblings", "why_tests_cant": "The budget is mutable state threaded through every history of successes.", "anchors": ["src/de/mod.rs: guard_recursion", "src/options.rs: recursion_limit"]}
{"id": "C20", "title": "The serialization recursion limit is enforced", "statement": "With a recursion limit of n, a value nested deeper than n always fails to serialize with ExceededRecursionLimit, whatever was serialized before it in the same document.", "quantifier": "every value, limit and history of earlier siblings", "why_tests_cant": "The budget is mutable state threaded through every history of siblings.", "anchors": ["src/ser/mod.rs: guard_recursion, impl Drop for Compound", "src/options.rs: recursion_limit"]}
{"id": "C21", "title": "Error spans lie inside the document and are ordered", "statement": "The span attached to any deserialization error starts and ends at character positions of the document, with the start not after the end.", "quantifier": "every failing document and type", "why_tests_cant": "Every failure point of every input must be considered; the parser backtracks.", "anchors": ["src/parse.rs: span_error, set_cursor, advance_bytes, check_struct_type", "src/error.rs: Span, Position::from_src_end"]}
{"id": "C22", "title": "Line and column numbers are correct", "statement": "The reported position of an offset is the one-based line, counting newlines before the offset, and the one-based column, counting characters since the last newline; it identifies the offset uniquely within the document.", "quantifier": "every document and offset", "why_tests_cant": "Documents are unbounded.", "anchors": ["src/error.rs: Position::from_src_end"]}
{"id": "C23", "title": "Bytes, strings and readers agree", "statement": "Deserializing bytes that are valid UTF-8 behaves exactly like deserializing the corresponding string; bytes that are not valid UTF-8 always fail with a UTF-8 error positioned at the end of the longest valid prefix.", "quantifier": "every byte sequence", "why_tests_cant": "All byte sequences, including every kind of malformed UTF-8.", "anchors": ["src/de/mod.rs: from_bytes_with_options", "src/options.rs: from_bytes_seed, from_reader_seed"]}
{"id": "C24", "title": "Decoded strings and characters are valid Unicode", "statement": "Every string or character produced by the parser, including those built from byte and Unicode escapes, consists of Unicode scalar values; surrogates and out-of-range code points are rejected.", "quantifier": "every text", "why_tests_cant": "Escape sequences can be mixed in infinitely many ways.", "anchors": ["src/parse.rs: parse_escape, decode_ascii_escape, escaped_string, ParsedStr::try_from_bytes"]}
{"id": "C25", "title": "Plain strings are never accepted as byte strings and the base64 hint is right", "statement": "Reading bytes from a plain or raw string literal always fails; the error shows decoded bytes exactly when the string is canonical padded base64 or ends in non-zero unused bits, and the shown bytes are the base64 decoding.", "quantifier": "every string", "why_tests_cant": "Strings and their base64 decodings are unbounded.", "anchors": ["src/parse.rs: byte_string, ParsedByteStr::try_from_base64"]}
{"id": "C26", "title": "Raw values are preserved verbatim", "statement": "Reading a raw value and writing it again reproduces the original text of the value, including its inner layout and comments, byte for byte.", "quantifier": "every document that contains a value where a raw value is expected", "why_tests_cant": "Texts are unbounded.", "anchors": ["src/de/mod.rs: deserialize_newtype_struct", "src/ser/mod.rs: serialize_newtype_struct", "src/ser/raw.rs", "src/value/raw.rs"]}
{"id": "C27", "title": "Trimming a raw value", "statement": "Trimming any raw value removes exactly the leading and trailing whitespace and comments, never panics, leaves the denoted value unchanged, and is idempotent.", "quantifier": "every raw value that can be constructed through the public API", "why_tests_cant": "Raw values hold arbitrary text.", "anchors": ["src/value/raw.rs: trim_range, trim, trim_boxed, from_rust, from_ron"]}
{"id": "C28", "title": "A validated raw value can be used everywhere", "statement": "A raw value accepted by RawValue::from_ron can be embedded in a larger serialized value, and the larger document can be read back.", "quantifier": "every accepted raw text and every embedding position", "why_tests_cant": "Accepted texts are unbounded.", "anchors": ["src/value/raw.rs: from_ron", "src/parse.rs: attribute"]}
{"id": "C29", "title": "Numbers are lawfully ordered", "statement": "Comparison of F32, F64 and Number is a total order (reflexive, antisymmetric up to equality, transitive, total); equality is an equivalence consistent with it, also for NaNs and signed zeros; equal numbers hash equally.", "quantifier": "all triples of numbers of all widths, including every NaN bit pattern", "why_tests_cant": "2^64 bit patterns cubed.", "anchors": ["src/value/number.rs: float_ty, Number"]}
{"id": "C30", "title": "Values and maps are lawfully ordered", "statement": "Comparison of Value and Map is a total order consistent with equality, so that they can be used as map keys.", "quantifier": "all triples of value trees", "why_tests_cant": "Value trees are unbounded.", "anchors": ["src/value/mod.rs: Value", "src/value/map.rs: impl Ord for Map"]}
{"id": "C31", "title": "Map behaves as a finite map", "statement": "After any sequence of insertions and removals, looking up a key gives the value most recently inserted for it and not removed; insert and remove return the previous value; iteration yields each present key once, in ascending order.", "quantifier": "every history of map operations", "why_tests_cant": "Histories are unbounded.", "anchors": ["src/value/map.rs: insert, remove, get, iter, retain"]}
{"id": "C32", "title": "Duplicate map keys: the last one wins", "statement": "When a document contains the same key several times in a map, the untyped value holds the last value for it, whatever the spelling of the keys.", "quantifier": "every document map", "why_tests_cant": "Documents are unbounded.", "anchors": ["src/de/value.rs: visit_map", "src/value/map.rs: insert"]}
{"id": "C33", "title": "No silent loss of elements when converting a Value", "statement": "Converting a Value holding a sequence or map into a Rust type that consumes only part of it is an error; nothing is silently dropped.", "quantifier": "every Value and every visitor that stops early", "why_tests_cant": "All visitors and lengths.", "anchors": ["src/value/mod.rs: Deserializer for Value, SeqAccessor, MapAccessor"]}
{"id": "C34", "title": "Converting through Value agrees with direct deserialization", "statement": "For data without enums, deserializing a document as a Value and then converting it to a type gives the same result as deserializing the document at that type directly.", "quantifier": "every document produced from a value of every enum-free type", "why_tests_cant": "Types and documents are unbounded.", "anchors": ["src/value/mod.rs: into_rust", "src/de/value.rs", "src/de/mod.rs"]}
{"id": "C35", "title": "Failing writers are reported and never lose the prefix", "statement": "If the underlying writer fails at any point, serializing to an io writer returns an I/O error, and the chunks accepted before the failure form a prefix of the text that a successful serialization would write.", "quantifier": "every value, configuration and failure point", "why_tests_cant": "Failure points are unbounded.", "anchors": ["src/options.rs: to_io_writer, Adapter", "src/ser/mod.rs"]}
{"id": "C36", "title": "Compact ranges round trip", "statement": "With compact_ranges switched on, any Range, RangeInclusive, RangeFrom, RangeTo, RangeToInclusive or RangeFull with numeric bounds is written in range syntax and reads back to the same range at the same type.", "quantifier": "every range kind, bound type and bound value", "why_tests_cant": "Bounds range over all integers and floats including infinities and NaN.", "anchors": ["src/ser/mod.rs: serialize_struct, RangeCompound, SerializeStruct::end", "src/de/mod.rs: deserialize_struct, RangeMapAccess", "src/parse.rs: any_number, is_number_start"]}
{"id": "C37", "title": "Compact ranges fall back without breaking the document", "statement": "With compact_ranges switched on, ranges with non-numeric bounds are written as ordinary structs and still round trip under every extension set.", "quantifier": "every non-numeric range and extension set", "why_tests_cant": "Bounds are arbitrary values.", "anchors": ["src/ser/mod.rs: SerializeStruct::serialize_field"]}
{"id": "C38", "title": "Documentation metadata is path-exact and harmless", "statement": "Path-based documentation is written as comments in front of exactly the fields on its path, for every sibling and repetition; it never changes the value read back, and the metadata is unchanged after serialization.", "quantifier": "every metadata tree, value and history of fields", "why_tests_cant": "The metadata is mutable state moved in and out on every field.", "anchors": ["src/ser/mod.rs: SerializeStruct::serialize_field", "src/ser/path_meta.rs"]}
{"id": "C39", "title": "Struct field semantics", "statement": "Struct fields may come in any order; unknown fields are skipped whatever their value; a field given twice is an error; a missing field is an error unless its type is an option, in which case it is None.", "quantifier": "every struct type and every document of that struct", "why_tests_cant": "All field permutations and unknown values.", "anchors": ["src/de/mod.rs: handle_struct_after_name, MapAccess for CommaSeparated", "src/error.rs: missing_field, duplicate_field"]}
{"id": "C40", "title": "Implicit Some is unambiguous", "statement": "With the implicit_some extension, every nesting of options round trips: Some(None) and None, to any depth, are never confused.", "quantifier": "every nesting depth and payload type, combined with the newtype extensions", "why_tests_cant": "Nesting is unbounded.", "anchors": ["src/ser/mod.rs: serialize_none, serialize_some, implicit_some_depth", "src/de/mod.rs: deserialize_option"]}
{"id": "C41", "title": "Invalid layout strings are refused", "statement": "A pretty configuration whose new line, indentor or separator contains a non-whitespace character is refused before anything is written.", "quantifier": "every configuration", "why_tests_cant": "All strings.", "anchors": ["src/ser/mod.rs: Serializer::with_options"]}
{"id": "C42", "title": "Options form the documented algebra", "statement": "Enabling and disabling default extensions are idempotent set union and difference; the last recursion limit setting wins; unrelated settings are left alone.", "quantifier": "every sequence of builder calls", "why_tests_cant": "Sequences of calls are unbounded.", "anchors": ["src/options.rs: with_default_extension, without_default_extension, with_recursion_limit, without_recursion_limit"]}
{"id": "C43", "title": "What can be serialized can be deserialized under default options", "statement": "With default options, if serializing a value succeeds then deserializing the text at the same type succeeds.", "quantifier": "every value, in particular every nesting depth", "why_tests_cant": "Depends on the nesting depth of arbitrary values on both sides.", "anchors": ["src/options.rs: Default for Options", "src/ser/mod.rs: guard_recursion", "src/de/mod.rs: guard_recursion"]}
{"id": "C44", "title": "Optional values are only written as None, Some(..) or, with implicit_some, the bare value", "statement": "A document is accepted as an option only if it is None, Some followed by a parenthesised value, or (only with implicit_some) a bare value.", "quantifier": "every document", "why_tests_cant": "Documents are unbounded.", "anchors": ["src/de/mod.rs: deserialize_option"]}
{"id": "C45", "title": "Struct names are checked", "statement": "If a document names a struct, the name must be the expected one, in plain or raw spelling; with explicit_struct_names a missing name is always an error.", "quantifier": "every struct type, name and document", "why_tests_cant": "All names.", "anchors": ["src/parse.rs: consume_struct_name", "src/de/mod.rs: deserialize_struct, deserialize_unit_struct, deserialize_newtype_struct, deserialize_tuple_struct"]}
{"id": "C46", "title": "Errors name the innermost enclosing struct or variant", "statement": "A missing, duplicate or unknown field error is labelled once, with the innermost struct or variant that encloses it; outer layers never overwrite the label. An unknown variant error is labelled with the enum that lacks it.", "quantifier": "every nesting of structs and variants", "why_tests_cant": "Nesting is unbounded.", "anchors": ["src/de/mod.rs: struct_error_name, handle_struct_after_name, newtype_variant_seed, struct_variant"]}
{"id": "C47", "title": "Float round trip", "statement": "Serializing any float, with or without suffix, gives text that reads back to the same float at the same type, given that Rust's own float formatting and parsing round trip.", "quantifier": "every f32 and f64 including infinities, signed zeros and NaN sign, both suffix settings", "why_tests_cant": "2^64 floats in arbitrary context.", "anchors": ["src/ser/mod.rs: serialize_f32, serialize_f64", "src/parse.rs: Parser::float"]}
{"id": "C48", "title": "A document is read left to right", "statement": "The text remaining after any successful parsing step is a suffix of the text before it: the parser never moves backwards past input it has already accepted and never invents input.", "quantifier": "every text, type and parsing step", "why_tests_cant": "All inputs and all backtracking points.", "anchors": ["src/parse.rs: set_cursor, advance_bytes", "src/de/mod.rs: remainder"]}
{"id": "C49", "title": "Serialization never panics", "statement": "Serializing any value with any options, pretty configuration and writer, including writers that fail at any byte, returns a result and never panics; in particular the indentation counter never underflows.", "quantifier": "every value, configuration, recursion limit and failure point of the writer", "why_tests_cant": "The indentation counter is mutable state changed by every open and close along unboundedly nested values.", "anchors": ["src/ser/mod.rs: start_indent, end_indent, Compound", "src/options.rs: to_writer, to_io_writer"]}
{"id": "C50", "title": "Nothing outside the grammar is accepted", "statement": "Whatever the target type and options, a text is only accepted if it is layout, attributes, a value in the documented grammar for that type (names, brackets, keys, commas and literals as documented, under the extensions in force) and layout; and that value nests no deeper than the recursion limit.", "quantifier": "every text, target type, set of extensions and recursion limit", "why_tests_cant": "Tests sample invalid texts; this bounds the accepted language from above for all texts at once.", "anchors": ["src/de/mod.rs: Deserializer", "src/parse.rs: Parser", "docs/grammar.md"]}
{"id": "C51", "title": "Only well-formed literals are accepted", "statement": "A string, character, byte string, integer or float is only read from a well-formed literal: escapes are complete and denote the value returned, raw strings are closed by their own number of hashes, digits belong to the radix, and integers lie in the range of the target type.", "quantifier": "every text and every primitive target type, anywhere in a document", "why_tests_cant": "The set of malformed literals is infinite, and each kind is scanned by hand-written code with its own look-ahead.", "anchors": ["src/parse.rs: string, byte_string, char, integer, float, parse_escape"]}
{"id": "C52", "title": "The text of an error span can be selected", "statement": "Selecting the substring of an error's span from the document yields exactly the text between the two cursors of the error, and never fails.", "quantifier": "every document, every type, every error, every segmentation of the document into clusters", "why_tests_cant": "The tests select substrings of a few ASCII documents; positions depend on every line break and cluster before them.", "anchors": ["src/util/span_substring.rs: grapheme_index, substring_exclusive, substring_inclusive", "src/parse.rs: span_error"]}
{"id": "C53", "title": "Untagged enums round trip within the documented restrictions", "statement": "A value that README.md does not exclude (no struct names, newtypes, empty tuples or structs, one-field tuple variants, and so on), written with to_string or to_string_pretty and read back as an untagged enum that has a variant for it, comes back as that variant with that value, provided no earlier variant accepts the document. Whatever is read from any document, nothing that stands in it is dropped but the fields a struct variant does not know.", "quantifier": "every untagged enum, every value of one of its variants within the restrictions, every options and pretty configuration within the restrictions", "why_tests_cant": "Whether a text read without knowing its type still tells apart the shapes of the data model depends on every nesting of shapes and on each extension; fuzzing finds counterexamples one by one, and the list in the README grew that way.", "anchors": ["README.md: Limitations", "src/de/mod.rs: deserialize_any, handle_any_struct, NewtypeMode, is_serde_content", "src/ser/mod.rs"]}
{"id": "C54", "title": "The recursion limit also holds inside untagged enums", "statement": "With a recursion limit of n, a document whose values nest deeper than n is refused also when it is read into an untagged enum, that is through serde's buffer, so that no document can exhaust the stack.", "quantifier": "every document, every recursion limit, every untagged enum", "why_tests_cant": "The limit is counted in each recursive path of the parser separately; a test sees the depths and shapes it tries, and one path without a guard is enough.", "anchors": ["src/de/mod.rs: handle_any_struct, deserialize_any, guard_recursion", "src/options.rs: recursion_limit", "README.md: limitations of untagged enums"]}
{"id": "C55", "title": "Internally tagged enums round trip", "statement": "A value of an enum with #[serde(tag = \"...\")] that is written by to_string or to_string_pretty is read back unchanged by from_str with the same options, provided its variant keeps to the restrictions README.md lists for such enums and no key beside the tag reads as the tag. When reading, the tag may stand anywhere among the fields or keys, must occur once, and its value is a string that names the variant.", "quantifier": "every internally tagged enum, every value within the restrictions, all options and pretty configurations without struct names; every layout and position of the tag", "why_tests_cant": "The text is read without its type into a buffer, then converted; whether a nested value survives depends on the combination of its shape, its neighbours and the extensions, and README.md only lists the failures found so far.", "anchors": ["src/de/tag.rs", "src/de/mod.rs: deserialize_any, handle_any_struct, MapAccess for CommaSeparated", "src/ser/mod.rs: serialize_struct, serialize_map", "README.md: limitations"]}
{"id": "C56", "title": "Error messages name what they are about", "statement": "A name in an error message stands between back quotes exactly as it would be written in a document, where it reads as that name again; a name that cannot be written is shown as a quoted string marked invalid instead. The messages for an unknown variant or field, and for a missing or duplicate field, show the offending name, then the enclosing type if it is known, then every alternative once and in order. A displayed SpannedError determines both positions of its span and its message.", "quantifier": "all names, all lists of alternatives, all spans and messages", "why_tests_cant": "The tests show one message of each kind, with at most three alternatives and a handful of names; the claim is about every name, every number of alternatives and every pair of positions.", "anchors": ["src/error.rs: Display for Error, OneOf, Identifier, Position, Span, SpannedError"]}
{"id": "C57", "title": "Ranges are read without their type", "statement": "A range of numbers in the range syntax, such as 1..5, ..=5 or 5.., is also read where no type is asked for, as by from_str::<Value>: as a map with the keys \"start\" and \"end\" that the range has, whatever number literals its bounds are; .. is read as a unit.", "quantifier": "all six forms of range, all number literals as bounds, every place in a document, all layouts and options", "why_tests_cant": "Whether a bound follows the dots is decided by looking at the next character, and whether the word or number before them belongs to a range by looking past it; the tests try a few integers and floats.", "anchors": ["src/de/mod.rs: deserialize_any, any_number_or_bytes", "src/parse.rs: is_number_start, range helpers", "docs/grammar.md: Range"]}
{"id": "C58", "title": "Adjacently tagged enums round trip", "statement": "A value of an enum with #[serde(tag = \"...\", content = \"...\")] that is written by to_string or to_string_pretty is read back unchanged by from_str with the same options, struct names included, whatever its variant holds, provided a struct variant has at least one field and is not named and shaped like a range of numbers that compact_ranges shortens. The enum is read as a struct with the tag, whose value is the variant's name, and the content; with the tag first, the content may be spelled in every way the variant's type allows.", "quantifier": "every adjacently tagged enum and every value of it, all options and pretty configurations (with the exceptions of C10 and C15); every spelling and layout with the tag first", "why_tests_cant": "The fields of a struct variant are read through deserialize_any, where struct names, options and layout are handled by other code than for structs; the tests try one enum with one variant.", "anchors": ["src/de/mod.rs: deserialize_struct, deserialize_any, handle_any_struct, deserialize_enum", "src/ser/mod.rs: serialize_struct, serialize_unit_variant", "README.md: limitations", "tests/502_known_bugs.rs"]}
{"id": "C59", "title": "Structs with flattened fields round trip", "statement": "A value of a struct with #[serde(flatten)] on some of its fields - structs, or maps with strings as keys - that is written by to_string or to_string_pretty, as a map whose keys are the names of the fields and the keys of the maps as strings, is read back unchanged by from_str with the same options, provided struct names are not written, all keys are different, and no flattened field is declared after a flattened map. Reading takes the entries in any order, spelling and layout; entries that no field takes are skipped unless the struct denies unknown fields, and then refused; a field of the struct itself that is given twice, or left out though it is not an option, is refused.", "quantifier": "every struct with own fields, flattened structs and flattened maps, every value of it whose flattened fields hold what an untagged enum could hold (C53), all options and pretty configurations; every order of the entries, spelling and layout", "why_tests_cant": "The fields of the struct itself are read as usual while everything flattened goes through serde's buffer, so order, option and number handling differ from field to field; the tests try a few fixed structs.", "anchors": ["src/de/mod.rs: deserialize_map, CommaSeparated::next_key_seed", "src/de/id.rs", "src/ser/mod.rs: serialize_map", "tests/115_minimal_flattening.rs", "tests/502_known_bugs.rs"]}
{"id": "C60", "title": "Extensions that only widen or only narrow what is accepted", "statement": "Whatever document from_str reads with some options, it reads to the same value after Extensions::IMPLICIT_SOME has been added to the default extensions, and after Extensions::EXPLICIT_STRUCT_NAMES has been removed from them; this holds for every type, for Value, and for derived untagged, internally and adjacently tagged enums and structs with flattened fields. In particular no document changes its meaning when implicit_some is enabled.", "quantifier": "every document, type, recursion limit and pair of extension sets with the same unwrapping extensions", "why_tests_cant": "The claim compares two runs of the parser on every accepted text; implicit_some takes part in every option at every depth, and a test can only compare single documents.", "anchors": ["src/de/mod.rs: deserialize_option", "src/parse.rs: consume_struct_name", "src/extensions.rs", "src/options.rs: with_default_extension, without_default_extension"]}
{"id": "C61", "title": "Later versions of a type read what earlier versions could", "statement": "If from_str reads a document at a type, it also reads it at any later version of that type, and the value is the same except that new fields are None. Later versions may add Option fields to structs and struct variants that denied unknown fields, reorder fields, stop denying unknown fields, add enum variants and reorder them, at any depth and in recursive types. Hence what an earlier version wrote with to_string or a PrettyConfig, the later version reads. Other changes break this: adding a field where unknown fields were ignored, making a field optional without implicit_some, widening an integer type, wrapping a type in a newtype.", "quantifier": "every document, pair of type versions, set of extensions and recursion limit", "why_tests_cant": "The claim relates two deserializers on every accepted text for every way of changing a type; compatibility tests fix one pair of versions and a few saved files.", "anchors": ["src/de/mod.rs: deserialize_struct, handle_struct_after_name, deserialize_enum, deserialize_option", "src/de/id.rs", "src/options.rs: from_str"]}
{"id": "C62", "title": "Reformatting a document is idempotent and keeps its value", "statement": "If from_str::<Value> reads a document and to_string or to_string_pretty writes the Value with number_suffixes, then reading the written text with the same options gives the same Value, and reformatting it again gives the same text. This holds for every document that can be read, with any layout, comments, number spellings, repeated map keys and extension attributes, while implicit_some is off in the writer and the Value fits the recursion limit. Without number suffixes it is false: two keys 1u8 and 1u16 are both written as 1 and one of the entries is lost by the next run. With implicit_some it is false: Some(true) is written as true.", "quantifier": "every document text, all options and every valid pretty configuration with number suffixes", "why_tests_cant": "The claim starts from every accepted text, not from a chosen value, so it depends on everything that the untyped reader can produce; a formatter's tests can only try a few files.", "anchors": ["src/options.rs: from_str, to_string, to_string_pretty", "src/value/mod.rs", "src/de/value.rs", "src/ser/value.rs", "src/ser/mod.rs"]}
{"id": "C63", "title": "to_string writes a single line", "statement": "to_string writes no line feed and no carriage return, whatever strings, byte strings, names and numbers the value holds, as its documentation says; the same goes for to_string_pretty with depth_limit 0, escaped strings, a separator without line breaks, no docs and no extensions beyond those of the options, whatever new_line, indentor and the other settings are. The exceptions are line breaks that the value brings along as a char or in a RawValue, and in strings if escaping is turned off. For a char the documented claim is false: to_string(&'\\n') contains a line feed. Docs of PathMeta are followed by a line feed at every depth, even with depth_limit 0.", "quantifier": "every value of every type, all options, the compact form and every pretty configuration with depth limit 0", "why_tests_cant": "A line break could come from any of the writer's branches in any state of the indentation, or from any character of a string; tests compare whole outputs of a few values.", "anchors": ["src/options.rs: to_string, to_string_pretty", "src/ser/mod.rs: PrettyConfig::depth_limit, start_indent, end_indent, serialize_escaped_str, serialize_char, serialize_field"]}
{"id": "C64", "title": "Different values are written differently", "statement": "Two values of one type that to_string or to_string_pretty write as the same text, with the same options and any two pretty configurations, are equal; so are two Values written with number suffixes. Exceptions: a newtype variant around an option, with implicit_some and unwrap_variant_newtypes together, where A(Some((None,))) and A(None) are both written A(None); Values without number suffixes, where 1u8 and 1u16 are both written 1. The recursion limit has no part in this: what is written under a limit is what is written without one.", "quantifier": "every type, every pair of its values, all options and pairs of valid pretty configurations", "why_tests_cant": "The claim compares the outputs for every pair of values; a test can only show that some chosen values have different outputs.", "anchors": ["src/options.rs: to_string, to_string_pretty", "src/ser/mod.rs", "src/ser/value.rs"]}
{"id": "C65", "title": "Docs belong to paths", "statement": "After any sequence of calls of the path_meta API (Field::empty, new, with_doc, with_fields, build_fields, fields_mut; Fields::insert, remove, field, get_mut, from_iter, nested in any way), the doc, the field and the inner fields at each path are those that the calls say, and doc, has_fields, contains and is_empty answer accordingly. What to_string_pretty writes depends on the tree only through the docs at the paths: not on the order of its maps, not on fields with empty docs; a tree without docs is as good as none. build_fields starts from an empty map: a second call drops the docs of the first.", "quantifier": "every program of calls, every value, all options and pretty configurations", "why_tests_cant": "The claim is about all nestings of calls and all pairs of trees with the same docs; the tests build a few trees and compare the text.", "anchors": ["src/ser/path_meta.rs", "src/ser/mod.rs: SerializeStruct::serialize_field", "src/options.rs: to_string_pretty"]}
{"id": "C66", "title": "A setting changes only what it is about", "statement": "A PrettyConfig made by new() and any sequence of its methods has the settings of the last call of each method and the documented defaults for the rest. Changing one setting changes the text only of values that contain what it is about: compact_arrays and enumerate_arrays sequences; compact_maps maps; compact_structs structs and struct variants; separate_tuple_members tuples, tuple structs and tuple variants; struct_names structs; escape_strings strings and bytes; number_suffixes numbers and ranges; compact_ranges the range types; depth_limit, new_line, indentor and separator these compounds (new_line also ends the lines that enable extensions). extensions is about every value.", "quantifier": "every sequence of calls, every setting, value, options and valid configuration", "why_tests_cant": "The claim compares all configurations that differ in one setting on all values; tests fix a configuration and compare one text.", "anchors": ["src/ser/mod.rs: PrettyConfig", "src/options.rs: to_string_pretty"]}
{"id": "C67", "title": "A depth limit beyond the nesting has no effect", "statement": "If the sequences, tuples, maps and structs of a value are nested n deep, to_string_pretty writes the same text, or fails with the same error, for every depth_limit of at least n, including the default usize::MAX. A limit of n - 1 may show.", "quantifier": "every value, all options and pretty configurations, all pairs of sufficient limits", "why_tests_cant": "The claim compares infinitely many limits on all values; the tests of depth_limit use one limit on one value.", "anchors": ["src/ser/mod.rs: PrettyConfig::depth_limit, start_indent, indent, end_indent", "src/options.rs: to_string_pretty"]}
