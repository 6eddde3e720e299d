# Formal model of ron

The code in `/repo` is a serializer and a deserializer for RON. The model in
`rocq/theories` follows it function by function; every definition cites the
lines it models (`parse.rs:12-34` means `/repo/src/parse.rs`). This file states
the plan per property, what was found, the trusted base and the boundary of the
model. `MANIFEST.json` says what is proved of each property in
`properties.jsonl`, and `seeded/LOG.jsonl` which wrong programs the theorems
were tried against.

## Approach

* Text is a list of Unicode scalar values (`list N`); byte offsets are
  recovered by a UTF-8 length function, so slicing off a character boundary is
  a real, visible `Panic` outcome in the model.
* Parser functions are total Gallina functions on a cursor state returning
  `Ok`, `Err`, `Panic` or `OutOfFuel`. Errors keep the state, as in the code.
* The serializer is a total function in a writer monad: a list of chunks
  written, the state of the serializer, and an outcome.
* Types are a first-order universe (`ty`) of the serde data model, and values
  a tree (`val`). The derived serde visitors are modelled from serde's
  documented behaviour.
* Standard-library or third-party functions whose definition is outside the
  repository (Unicode XID tables, `escape_debug` tables, float printing and
  parsing) are parameters (`Env`); what is needed of them appears as an explicit
  hypothesis of each theorem, together with an instance that satisfies it.
* Two inductive specifications stand in the middle. `repr` (Repr.v) relates a
  value to all its texts; whatever is serialized is in it, and every text in it
  is read to its value. `acc`/`vacc` (Accept.v) bounds from above what any text
  may be read as. Neither mentions the parser.

## Files

Model, no proofs:

| file | models |
|---|---|
| Base | text, UTF-8, outcomes, parser state, `Env` |
| Parse, Base64 | parse.rs: layout, attributes, identifiers, literals, `check_struct_type`, base64 hint |
| Value | value/mod.rs, value/number.rs, value/map.rs: `Value`, its orders, hashes and map |
| Data | the universe of types and values; ser/value.rs |
| De | de/mod.rs, de/id.rs, de/value.rs, options.rs: the deserializer and the entry points |
| Content | de/mod.rs: reading into serde's buffer, for untagged enums; serde's conversion from it |
| Tagged | de/mod.rs, de/tag.rs: reading internally tagged enums; serde's way of writing them |
| Adjacent | de/mod.rs: reading adjacently tagged enums; serde's way of writing them |
| Flatten | de/mod.rs, de/id.rs, ser/mod.rs: structs with flattened fields, read and written as maps |
| Message | error.rs: how names, lists of alternatives, positions and spans are displayed |
| IntoRust | value/mod.rs: `Value` as a deserializer (`into_rust`) |
| Span | error.rs: positions and spans |
| Ser | ser/mod.rs, ser/path_meta.rs, ser/raw.rs, options.rs: the serializer, its configuration, `to_string`, `to_writer` |
| Conf | ser/mod.rs: the methods of `PrettyConfig` |
| Meta | ser/path_meta.rs: the API that builds the docs |
| Raw | value/raw.rs: `RawValue` |
| Opt | options.rs: the builder |
| Substr | util/span_substring.rs |

Specifications, independent of the model's functions:

| file | says |
|---|---|
| Layout, Attr | which texts are layout and attributes |
| Lit | which texts are integers, floats, strings, byte strings, characters, identifiers, and what they mean |
| Repr, VRepr | which texts represent a typed value; which `Value` a text denotes |
| ContentRead | which buffer a text denotes (`crepr`) |
| Buffered | which buffer holds a value (`buffers`); README.md's restrictions on untagged enums (`restricted`) |
| TaggedRead | which texts are those of an internally tagged enum (`tagged_text`) |
| Accept | an upper bound of what may be read from a text |
| Typing | which values belong to a type |
| StructSpec | structs with fields in any order, and mistakes in fields |
| RangeSpec | which ranges survive `compact_ranges` |
| Made, Drawn, Through, RawSpec | converting a `Value`; converting serde's buffer; equality up to maps; values with raw values inside |
| Evolve | later versions of a type (`evolves`), values with None fields added (`grown`) |
| B64 | RFC 4648 |
| EnvOk | hypotheses on the library functions |

`Thm*.v` hold the property theorems (their names start with the property's id),
each followed by `Print Assumptions` and by examples that meet its hypotheses.
All other files hold lemmas.

## Plan per property

* **C01 String round trip.** Model both string writers and the string reader over lists of scalar values; prove read(write s ++ rest) = (s, rest) by induction on s with an explicit invariant for the hash count.
* **C02 Byte string round trip.** As C01 over lists of bytes, with UTF-8 validity decided by a concrete decoder.
* **C03 Character round trip.** Case analysis on the character over the model of the escape decoder.
* **C04 Integer round trip.** Decimal printer modelled by recursion on the value; digit accumulation loop proved exact by induction; checked arithmetic proved not to fail in range.
* **C05 Integer literals are exact or rejected.** Independent positional-value function on digit lists; induction with the overflow invariant.
* **C06 Identifier round trip and validation.** Model write_identifier / validate_identifier / identifier; the Unicode XID tables are a parameter with a few explicit hypotheses (ASCII behaviour, disjoint from whitespace).
* **C07 Whitespace and comments are skipped completely.** Inductive grammar of layout (whitespace, line comments, nested block comments), proof by induction that skip_ws consumes exactly a layout word.
* **C08 Unclosed block comments are always an error.** Independent nesting counter on the comment body; induction.
* **C09 Compact typed round trip.** Serde data-model universe `ty` / `val`, serializer and deserializer as total functions on them; an inductive relation `repr` of all texts of a value mediates: every output is in `repr`, every text in `repr` parses to its value.
* **C10 Pretty typed round trip.** Same mediation; the pretty printer is modelled with its full configuration and its outputs shown to be in `repr`.
* **C11 Layout independence of deserialization.** Second half of the mediation: every text in `repr` (free layout, optional commas and names) parses to the same value.
* **C12 Extension headers round trip.** Model with_options and the attribute reader, compose.
* **C13 Attribute semantics.** Inductive grammar of attribute prefixes, union computed independently.
* **C14 Untyped values round trip exactly with number suffixes.** Value tree, deserialize_any, and the same mediation with an untyped `repr`.
* **C15 Untyped values round trip up to number width without suffixes.** As C14, with an independent `smallest type` specification of numbers.
* **C16 No input makes the parser panic.** Slicing and indexing in the model return an explicit Panic outcome; theorem: Panic is unreachable.
* **C17 Deserialization terminates.** Loops carry fuel; theorem: OutOfFuel is unreachable with fuel linear in the text length.
* **C18 The whole document is consumed.** Invert `end`: Ok implies the remainder is a layout word.
* **C19 The deserialization recursion limit is enforced.** Explicit limit in the deserializer state; invariant over all calls; independent depth function.
* **C20 The serialization recursion limit is enforced.** Explicit limit in the serializer state. Expected to be refuted: dropping a compound gives back budget that was never taken. Prove the refutation and the part that does hold.
* **C21 Error spans lie inside the document and are ordered.** Error outcomes carry the parser state. In-bounds part proved; ordering expected to be refuted because struct look-ahead rewinds one of the two cursors only.
* **C22 Line and column numbers are correct.** Model Position::from_src_end; separate specification by counting newlines.
* **C23 Bytes, strings and readers agree.** Concrete UTF-8 codec; from_bytes modelled over it.
* **C24 Decoded strings and characters are valid Unicode.** Invariant over the string reader.
* **C25 Plain strings are never accepted as byte strings and the base64 hint is right.** Independent base64 encoder; decoder model; inverse theorems.
* **C26 Raw values are preserved verbatim.** Raw values in the typed universe; the captured text is the consumed slice.
* **C27 Trimming a raw value.** Model trim_range. Panic-freedom expected to be refuted for from_rust.
* **C28 A validated raw value can be used everywhere.** Expected to be refuted with a type attribute; prove the attribute-free part.
* **C29 Numbers are lawfully ordered.** total_cmp modelled on bit patterns as in the standard library; order laws by arithmetic on Z.
* **C30 Values and maps are lawfully ordered.** Derived lexicographic orders modelled structurally; laws by nested induction.
* **C31 Map behaves as a finite map.** Sorted association list model of BTreeMap; finite-map specification as a function from histories.
* **C32 Duplicate map keys: the last one wins.** Fold of inserts over the document entries; corollary of the finite-map specification.
* **C33 No silent loss of elements when converting a Value.** Model of the Value accessors with an arbitrary early-stopping visitor.
* **C34 Converting through Value agrees with direct deserialization.** Model Value::deserialize_any on the enum-free part of the typed universe; compose with C09.
* **C35 Failing writers are reported and never lose the prefix.** Serializer output as a list of write chunks; adapter with failure point.
* **C36 Compact ranges round trip.** Range serialization and range syntax in both models. Expected partially refuted (inf / NaN start).
* **C37 Compact ranges fall back without breaking the document.** Fallback path in the model. Expected to be refuted under explicit_struct_names and unwrap_variant_newtypes.
* **C38 Documentation metadata is path-exact and harmless.** Path metadata tree in the serializer state.
* **C39 Struct field semantics.** Independent specification of the field-list semantics on top of `repr`.
* **C40 Implicit Some is unambiguous.** Part of the universe (nested TOption) under implicit_some; dedicated corollary.
* **C41 Invalid layout strings are refused.** Model with_options checks.
* **C42 Options form the documented algebra.** Extensions as bit sets; builder as functions.
* **C43 What can be serialized can be deserialized under default options.** Expected to be refuted (writer charges one unit per level, reader two).
* **C44 Optional values are only written as None, Some(..) or, with implicit_some, the bare value.** Expected to be refuted (`Some 5` under implicit_some).
* **C45 Struct names are checked.** Model consume_struct_name; inversion theorem.
* **C46 Errors name the innermost enclosing struct or variant.** Error labels in the deserializer model.
* **C47 Float round trip.** Float formatting/parsing of the standard library as a parameter with explicit round-trip and shape hypotheses, shown satisfiable by an instance.
* **C48 A document is read left to right.** Suffix invariant over all parser functions.
* **C49 Serialization never panics.** The serializer model has explicit panics (unwraps, the limit arithmetic); induction over values.
* **C50 Nothing outside the grammar is accepted.** `acc` of Accept.v; inversion of every parser function (Sound.v).
* **C51 Only well-formed literals are accepted.** Inversion of the literal readers (LexSound.v) against Lit.v.
* **C52 Selecting the text of an error span.** Graphemes as an argument; the walk over clusters against the walk over characters of C22.
* **C53 Untagged enums round trip.** `restricted` states README.md's restrictions on a value. Mediate as in C09: what is written for a restricted value is a text of a buffer (`crepr`) that holds the value (`buffers`); the buffer converts back. The variant found is the first one that accepts; conversely, what is read from any text is made of the whole buffer (`drawn`). Show by witnesses that the restrictions are needed.
* **C55 Internally tagged enums round trip.** Model the visitor that takes the tag out of a map or sequence (`Tagged.v`). Read: any text with the tag once, anywhere among the fields (`tagged_text`), gives its variant and a buffer of the rest. Write: as C53, with the tag in front. Show by witnesses that the restrictions are needed.
* **C56 Error messages name what they are about.** Model the display of identifiers, alternatives, positions and spans (`Message.v`), with core's `{:?}` of a string as a parameter. Relate a shown name to the grammar of identifiers (`ident_lit`) and to `identifier`; say which names a message shows (`mentions`); show that a report determines its span and message.
* **C57 Ranges are read without their type.** The texts of ranges (`range_lit`) as values of `VRepr.v`; the reader looks past the number or word before the dots. Expected refuted where the end is a word or a byte literal.
* **C58 Adjacently tagged enums round trip.** Model serde's visitor for the tag and the content, and `deserialize_any` with the visitor of a struct variant (`Adjacent.v`). Read: reuse the typed representations of C09 for the content, and show that `deserialize_any` reads a representation of the fields as a struct does. Write: the fields in their order. Expected refuted for a struct variant without fields, and with the content first.
* **C59 Structs with flattened fields round trip.** Model serde's visitor, which reads the struct's own fields at their types and buffers the rest, and what flattened structs and maps take of the buffer (`Flatten.v`). Read: any order of the entries. Write: own fields as in C20, flattened ones as in C53, `Owned.v` relates the two conversions of the buffer. Expected refuted with struct names and with a flattened map before a flattened struct. Documents with a repeated, a missing or a left over entry are refused (`FlatFail.v`).
* **C60 Extensions that only widen or only narrow.** Run the parser twice, on states that differ in their extensions only: the lexer does not look at them (`deaf`), and where the deserializer does, success with the narrower set implies the same success with the wider one (`sm`, `Wider.v`), for every reader that is modelled. Expected refuted for the two unwrapping extensions.
* **C61 Later versions of a type.** `Evolve.v` says what a later version of a type is and when a value is another with None fields added, without mentioning the deserializer. The two readers run side by side on the same state (`sv`, `ThmEvolve.v`): where the earlier succeeds, the later succeeds, ends in the same state and returns a grown value. The struct loop keeps the two field tables related, and an unknown key gets through only where there are no new fields. `C61_saved` combines this with the round trip of C09 and C10. The changes that are not compatible are refuted.
* **C62 Reformatting.** `ThmFormat.v`: what the untyped reader returns is a Value in the sense of C14 (numbers in range by the typing theorem behind C24, maps sorted because `norm` builds them by insertion), whatever the text. The round trip of C14 then applies to it. The hypothesis on floats (`FloatIn float_val`: the library functions return no NaN with a payload) is met by `Vals`, the toy floats with integers kept out of the NaNs.
* **C63 One line.** `ThmLine.v`: the serializer as a writer of lines (`ln i j`: from indentation `i` to `j`, only characters other than line breaks), by induction on the value. With depth limit 0 everything that could write a line break happens at indentation 1 or more (`inner`); in range compounds the indentation depends on whether numbers are still buffered (`lnp`). Characters and docs are refuted.
* **C64 Different values are written differently.** `SerBlind.v` runs the serializer with and without its recursion limit (`bl`): where the former succeeds, the latter writes the same. So the round trips of C09, C10 and C14 apply without the limit, and the text determines the value (`ThmInject.v`).
* **C65 Docs belong to paths.** `Meta.v` models the builder API as programs of its calls. Their meaning is a function from paths to what is there, and running them on trees refines it (`ThmMeta.v`). `SerDocs.v` runs the serializer with two trees whose docs agree at each path (`sd`): entering and leaving a field keeps that, so the texts are the same.
* **C66 A setting changes only what it is about.** `Conf.v` models the methods of `PrettyConfig`. The serializer's program for a value without what the setting is about is the same program (`ThmConf.v`, `ser_about`).
* **C67 A depth limit beyond the nesting has no effect.** `SerDepth.v` runs the serializer with two limits that agree up to a level (`tw`), with the indentation after each step; a value nested n deep never reaches further than level n.
* **C16, C17 for enums as a whole.** `ConvFuel.v`: converting the buffer ends at types that are not recursive, by induction on the fuel. `AdjacentSafe.v`: the reader of an adjacently tagged enum keeps the invariant of C16. `ThmEnums.v` puts the three kinds of enums together; the variant an internally tagged enum finds is one of its own.
* **C54 The recursion limit inside untagged enums.** Model reading into serde's buffer (`Content.v`). Expected to be refuted: variants recurse without a guard. Bound the result by a depth that leaves them out.

## What was found

Statements that the faithful model refutes. Each has a theorem `.._refuted`
with a witness, and a positive theorem that delimits the exception.

| property | finding | theorem |
|---|---|---|
| C11 | layout is refused between the name of a tuple struct and `(`, and inside `()` of a unit | C11_tuple_struct_gap_refuted, C11_unit_gap_refuted |
| C14 | with `implicit_some` a `Value` holding `Some` loses it | C14_implicit_some_refuted |
| C15 | without suffixes an f32 comes back as another number; map keys may collide | C15_f32_refuted, C15_keys_refuted |
| C17 | without recursion limit, `struct A(Box<A>)` and `unwrap_newtypes` in the document, reading does not end | C17_unlimited_refuted |
| C20 | every compound that closes raises the limit of the serializer | C20_limit_refuted, C20_unbounded_refuted |
| C21 | the span of some errors ends before it starts (`_5i8`) | C21_span_order_refuted |
| C27 | `trim` drops attributes, and panics on deeply nested values made by `from_rust` | C27_trim_attribute_refuted, C27_trim_panic_refuted |
| C28 | raw values with attributes make the larger document unreadable; so may a comment under `unwrap_variant_newtypes` | C28_attribute_refuted, C28_unwrapped_refuted |
| C33 | a map visitor may skip values unnoticed | C33_values_refuted |
| C34 | reading through a `Value` differs for empty structs, structs of optional fields, empty arrays, large floats, ranges up to `inf`, `implicit_some`, `unwrap_newtypes` | C34_.._refuted |
| C36 | `inf..1.0` is written but not read; f32 bounds without suffix may change | C36_inf_refuted, C36_f32_refuted |
| C37 | the fallback of compact ranges is not readable under `explicit_struct_names`, nor in a newtype variant under `unwrap_variant_newtypes` | C37_explicit_refuted, C37_variant_refuted |
| C40 | `implicit_some` with `unwrap_variant_newtypes` is ambiguous | C40_refuted, C40_unreadable_refuted |
| C43 | the deserializer takes more levels than the serializer, so deep values are written but not read | C43_depth_refuted |
| C44 | `Some 5` is accepted as `Some(5)` under `implicit_some` | C44_some_without_parentheses_refuted |
| C45 | `explicit_struct_names` lets names be left out in three places | C45_explicit_refuted |
| C46 | under `unwrap_variant_newtypes` errors name the wrong struct | C46_refuted |
| C52 | selecting the substring of an error span panics when it is not ordered, and is off after clusters of several characters | C52_panic_refuted, C52_cluster_refuted |
| C53 | the restrictions README.md lists are needed: without each of them an untagged enum is lost | C53_struct_names_refuted, C53_newtype_refuted, C53_empty_refuted, C53_one_field_variant_refuted, C53_one_element_refuted, C53_implicit_unit_refuted, C53_wide_integer_refuted |
| C53 | with `compact_ranges` a half-open range that ends at infinity or a NaN is written but lost in an untagged enum (not in README.md) | C53_range_end_refuted |
| C55 | the same for internally tagged enums; besides, a map with the tag as a key is lost | C55_tag_key_refuted, C55_struct_names_refuted, C55_newtype_refuted, C55_empty_refuted, C55_wide_integer_refuted |
| C58 | an adjacently tagged struct variant without fields is lost; with the content before the tag, struct names are taken for variants | C58_empty_refuted, C58_content_first_refuted |
| C59 | a flattened struct is lost with struct names or after a flattened map, a key equal to a field's name makes the text unreadable, and a flattened map in a struct that denies unknown fields is refused | C59_names_refuted, C59_map_first_refuted, C59_same_key_refuted, C59_deny_map_refuted |
| C57 | without a type `1.0..inf` and `..b'a'` are refused, though typed reading takes them; no reader takes the white space that docs/grammar.md allows around the dots | C57_word_end_refuted, C57_byte_end_refuted, C57_spaces_refuted |
| C54 | inside an untagged enum, `A(A(A(..)))` is read at any depth under any recursion limit | C54_unbounded_refuted |
| C60 | `unwrap_newtypes` and `unwrap_variant_newtypes` make readable documents unreadable | C60_unwrap_newtypes_refuted, C60_unwrap_variant_newtypes_refuted |
| C61 | a new field where unknown fields were ignored, `T` to `Option<T>`, a wider integer type, and a newtype around a type each make readable documents unreadable | C61_ignored_refuted, C61_optional_refuted, C61_widened_refuted, C61_wrapped_refuted |
| C62 | reading a document as a Value and writing it back is not idempotent without number suffixes (`{1u8:true,1u16:false}` loses an entry on the second run), and loses Somes with `implicit_some` | C62_keys_refuted, C62_some_refuted |
| C63 | `to_string` is documented not to generate newlines, but a line feed char is written as it is; docs are followed by a line feed even with `depth_limit` 0 | C63_char_refuted, C63_docs_refuted |
| C64 | with `implicit_some` and `unwrap_variant_newtypes`, `A(Some((None,)))` and `A(None)` are written alike; so are `Value`s that differ in the width of a number, without suffixes | C64_clash_refuted, C64_width_refuted |
| C65 | a second `build_fields` drops the docs that the first one set for other names | C65_build_refuted |
| C67 | a limit one less than the nesting changes the layout of `[{(): ()}]` | C67_less_refuted |

Smaller oddities that contradict no property: `( )` read as a `Value` is an
empty sequence while `()` is a unit; the look-ahead that tells tuples from
structs mis-lexes byte literals; `A(1,2,,)` is accepted under
`unwrap_variant_newtypes`.

## Boundary of the model

Modelled: parse.rs (all but the `Debug`/ordering impls), de/mod.rs, de/id.rs,
de/value.rs, options.rs, extensions.rs, ser/mod.rs, ser/value.rs,
ser/path_meta.rs (all but what `insert` and `remove` return), ser/raw.rs (the newtype protocol of `RawValue` is one
constructor), value/*.rs, and the positions of error.rs.

Simplified:

* The text is a list of characters; the `ParserCursor` is the suffix it leaves.
* `usize` overflow of lengths, line and column counters is not modelled.
* The type and field names that serde passes as `&'static str` are part of `ty`
  and `val`.
* Errors keep the fields that say what was found and where (`err` in Base.v).
  The texts of `Message` and `InvalidValueForType`, and lists of expected
  alternatives, are dropped.
* `from_reader` is a list of bytes and an optional failure. `io::Write` is an
  oracle that says when it fails.
* `std::mem::swap` style moves of path metadata are modelled as state.
* Feature flags: `integer128` is the boolean `int128` of `Env`; `indexmap` is off
  (a map is a `BTreeMap`); `std` is on.

Not modelled:

* Flattened enums and options, and flattening inside flattened structs. Structs
  with flattened fields, untagged, internally and adjacently tagged enums are modelled at
  the top of a document; serde's conversion from its `Content` buffer
  (`of_content`, `of_owned`), its visitors for the tag and the content and its
  way of writing them follow serde's documentation and source, which is not in the repository.
* `Display` of errors other than the names, alternatives, positions and spans of `Message.v`; `Debug` of errors, and conversions between error types.
* Handwritten `Deserialize` implementations, except where a property speaks of
  every visitor (C33).
* Memory exhaustion and native stack overflow.
* Borrowed against owned results (`visit_borrowed_str`): they are the same text.
* The crate's tests, and doc comments.

## Trusted base

* The Coq 8.16.1 kernel, and `vm_compute` in examples and in finite checks.
* `Print Assumptions` says "Closed under the global context" for every theorem
  named in `MANIFEST.json`: no axiom is used, neither of the standard library
  nor our own.
* `coqchk -o` lists, among the libraries loaded, the seven parameters of
  `Coq.ssr.ssrunder.Under_rel` (loaded by `Zify`). They belong to the standard
  library and no theorem depends on them.
* The faithfulness of the hand translation from Rust, which the citations make
  reviewable.
* Hypotheses about library functions, always explicit in the theorem:
  * `XidOk`: the ASCII part of the XID tables, XID_Start within XID_Continue,
    and no whitespace in XID_Continue. No other fact of Unicode is used.
  * `FloatOk`: finite floats are printed positionally, with a fraction exactly
    when they are not integral; printing then parsing is the identity; the
    special values are printed and parsed as `inf`, `-inf`, `NaN`, `-NaN`.
  * `FloatIn fok`: the float functions return floats in `fok` (for instance: of
    the right width).
  * `widens`, `narrows`: the casts between `f32` and `f64` keep infinities and
    canonical NaNs.
  * C36/C15/C34 name further conditions on single floats where needed
    (the shortest decimal of an f32 read as f64 and narrowed is that f32).
  * `Toy.v`, `ThmText.v` and `ThmAny.v` build instances that meet all of them.
