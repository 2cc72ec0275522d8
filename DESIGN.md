# Formal model of miniserde in Rocq (Coq 8.16.1)

The code in /repo is read as text only. Everything below is about a Gallina model in
`rocq/theories/`, written function by function with file/line citations.

## Architecture

**Model** (executable, no proofs inside):

| file | models |
|---|---|
| `Base.v` | outcomes: `Ok`, `Err`, `Fault` (panic, undefined behaviour, loop fuel, native depth); machine integers; checked indexing |
| `Utf8.v` | `char::from_u32`, `encode_utf8`, `str` validity |
| `F64.v` | the f64/f32 operations used (stdlib `SpecFloat`: `as f64`, `*`, `/`, negation, `as f32`), `POW10` |
| `Lexer.v` | `json/de.rs` `Deserializer` methods: positions, checked indexing, overflow as `Fault`; `oc` says whether overflow checks are on |
| `Driver.v` | `json/de.rs` `from_str_impl` over an arbitrary `Visitor`/`Seq`/`Map` implementation (record of methods over an arbitrary state) |
| `Types.v` | the universe of Rust types and values (`()`..derived structs/enums, recursive through names) |
| `Impls.v` | `de/impls.rs`, `json/{value,number,array,object}.rs`, `ignore.rs`, derive(Deserialize), on a heap of builder allocations with raw places, explicit free, explicit uninitialised slots |
| `Ser.v` | `json/ser.rs` over arbitrary `Serialize` implementations, `ser/impls.rs`, derive(Serialize) |
| `LexCost.v`, `DriverCost.v` | `json/de.rs` and `json/ser.rs` again, with a step counter |
| `JsonValue.v` | `json/drop.rs`, `Drop`/`Clone` of Value/Array/Object, `Display` of Number |
| `DebugFmt.v` | `Debug` of Value/Array/Object (`json/{value,array,object}.rs`) over any `fmt::Write`, with the parts of core::fmt it is built from |
| `Derive.v` | `derive/src/attr.rs`, `derive/src/{ser,de}.rs`: which items are accepted, the arms of the generated matches, what the generated code does |

**Specification** (independent of the model's functions; small, to be read on its own):

| file | content |
|---|---|
| `Grammar.v` | RFC 8259 as an inductive relation text <-> document; meaning of string literals; number literals |
| `NumValue.v`, `DocSpec.v` | the real number a literal denotes, accuracy, `nearest64`/`nearest32`, the literals of a document |
| `Reading.v` | what a type reads from a document (`Reads`) |
| `ParseSpec.v` | the successful walk of a document by a visitor (`Visit`), legal arguments, bracketed calls, whitespace variants |
| `PanicSpec.v` | outcomes of calls, what may follow a failure or a panic |
| `ClientSpec.v` | safe clients of the `Deserialize` impls: operations, the stack discipline of the borrow checker |
| `ArrSpec.v` | which elements a trace of calls keeps, which calls may lose elements |
| `BoxSpec.v` | what is left after a run of calls on a `Box<T>` builder with a user-defined T |
| `JsonOwnSpec.v` | client programs over plain JSON values, where dropping does nothing; only clone can overflow |
| `UserSpec.v` | what a container reads, in terms of what its type parameters read (`read_vec`, ..., `from_str_each`, `from_str_struct`) |
| `OpenSerSpec.v` | what `to_string` of a container writes, in terms of `to_string` of its parts (`each`, `each_entry`) and of the calls of any iterator (`drained`, `drained_map`) |
| `ClosedSerSpec.v` | how a value of the closed universe is seen in the open world (`Embeds`) |
| `OpenNumSpec.v` | that the numbers which user-defined `Serialize` impls hand out are those of Rust's types (`numbers_are`, `floats_are`) |
| `RoundSpec.v` | what it means that a value comes back (`comes_back`), over user-defined impls on both sides |
| `EvolveSpec.v` | which values a reading struct gets from the members that were written (`fields_from`) |
| `SizeSpec.v` | builders alive after a sequence of calls (`alive`), nesting of brackets outside string literals (`nested_within`) and of documents (`dheight`), sizes of values and trees (`jsize`, `vsize`, `strbytes`) |
| `BorrowSpec.v` | calls with the handles they are made on, the rules of the borrow checker for them (`borrow_rules`, `borrows`) |
| `GenericsSpec.v` | what Rust makes of generic headers: instances of an item (`instance`), for which arguments an impl is available (`available`), well-formed field types (`h_ok`) |
| `SerPanicSpec.v` | the same for `Serialize`: numbered iterators, nesting of calls and drops, what may follow a panic |
| `SerSpec.v` | the tree a `Serialize` object describes (`Describes`), its JSON text (`render`), what a value of a type writes (`Writes`), what comes back (`Back`, `JBack`), the assumption about ryu (`ryu_ok`) |
| `DebugSpec.v` | the text `{:?}` and `{:#?}` print (`shown`), values that are the same up to the type of integers (`same_value`) |
| `ThroughSpec.v` | types and documents that do not notice a detour through json::Value |
| `NormSpec.v` | when two documents say the same (`same_doc`), documents whose numbers are integers (`integers_only`) |
| `PrintSpec.v` | values and trees that differ only in what JSON cannot express (`Alike`, `TAlike`), values without such parts (`distinct`) |
| `TemplateSpec.v` | documents with a hole (`template`, `fill`), the probe, texts in lines (`lines`) |
| `WideSpec.v` | when a type accepts everything another one accepts (`Wide`), what a result becomes (`Conv`), declarations that keep to it (`declared`) |
| `ReorderSpec.v` | documents equal up to the order of differently named members (`Reordered`), and steps that keep every type's reading (`Shuffled`) |
| `DeriveSpec.v` | wire names, supported items |

**Proofs**: `RunFacts`, `RunText`, `RenderRuns` (runs of digits), `LexFacts`, `LexNumFacts` (lexer methods compute `LexSpec`'s functions on the remaining input, no
fault), `DriverFacts` (the loop with its explicit stack walks the event tree `Tree.feed`, for every visitor),
`GrammarFacts`, `Unambiguous`, `TokenFacts` (recursive descent = grammar), `Heap*` (the heap implementation computes
`Denote.de`, with memory safety on every path), `ReadFacts`, `ReadMain` (`de` = `Reads`), `Float*` (`FloatMono`, `FloatOrder`: order), `NumFacts` (error
analysis with Flocq), `EscFacts`, `SerFacts`, `RenderFacts`, `WriteFacts`, `RoundTrip`, `OrderFacts`, `OrderAll`.

**Claims**: `Claims*.v` hold the property theorems, named after the property, each with concrete examples that meet
the hypotheses.

**Validation**: `Conformance.v` runs the repository's own tests (test_derive, test_number, test_impls, regression, the ui
tests' accept/reject decisions, the README examples) on the executable model; they are tests of the model, not claims.

## Per property

- C01, C05-C08, C10: lexer lemmas on suffixes + recursive-descent characterisation, then grammar equivalence.
- C02, C44: generic driver theorem, any record of visitor methods. C04: a logging wrapper around any visitor.
- C48, C49: unwinding is modelled in the driver (`unwind`, `fail`); invariants of the loops over a log of calls and outcomes
  (`PanicSpec.v`, `PanicFacts.v`, `FailFast.v`).
- C50, C51: the same for the serializer (`sunwind`); iterators are numbered as `begin` hands them out and an invariant relates the
  log to the stack (`SerPanicSpec.v`, `SerPanic.v`).
- C52: a client is a list of operations on the innermost handle (what the borrow checker accepts is the stack discipline in
  `ClientSpec.v`). Invariant: every handle on the stack owns a segment of the heap, a place is a heap predicate transformer (`WP`:
  writing any typed value re-establishes the invariant below), a builder behind n boxes is an inductive predicate (`SI`)
  (`ClientFacts.v` generic in seq/map, `ClientInst.v`, `ClientVis.v`, `ClientMain.v`). Threads and clients that implement the
  traits themselves (user-defined element types) are not part of this model; see C53 for arrays of them.
- C53: `ArrOwn.v` models ArrayBuilder over opaque elements whose drop may panic (element = number in order of creation); a
  state invariant accounts for every element (`ArrFacts.v`).
- C54: `BoxOwn.v` models the `Box<T>` code over a heap of cells with a borrow stack each (simplified Stacked Borrows: unique
  references only, no protectors, no shared references); user code is an arbitrary script per call. Invariant `chain`: the
  nested builders own disjoint live cells and each holds a valid reference to its place (`BoxFacts.v`).
- C55: `JsonOwn.v` models Drop, `take`, into_iter, FromIterator, Clone and clone_from of `json::{Value, Array, Object}` on values
  in which every resource (scalar, Vec buffer, BTreeMap nodes, key String) has a label; releasing or using a released label
  is a fault. The client is an arbitrary program over handles and paths. Proof: each operation refines the same operation on
  plain values (`JsonOwnSpec.v`) and conserves labels (triples `Tr` in `JsonOwnFacts.v`, `JsonOwnMain.v`, `JsonOwnExec.v`).
  Simplified: Vec and BTreeMap are modelled by their contracts (one label for all nodes of a map, no reallocation); user
  iterators that panic, and running out of memory, are not modelled.
- C56: `UserTypes.v` models the generic impls (Vec, [T; N], Option, Box, pairs, HashMap/BTreeMap, derived structs and enums) over
  *arbitrary* Deserialize impls of the type parameters: a type is a record of methods over a shared world G, the place and its
  own builders, which may fail, panic and have effects. `UserSpec.v` says what each container reads in terms of what its
  parameters read (on parse trees and on texts); proof by a simulation (`UserFacts.v`, `UserMain.v`) and by taking texts apart
  (`UserText.v`). `ClaimsClosed.v` shows that this model and the heap model of the closed universe of types, written
  independently, agree wherever both apply. Simplified: dropping a value has no effect (see C53-C55), and drops of the parameter's builders do not panic
  (`quiet`; see C48-C49 for those that do); the map type is any type with `empty` and `insert`.
- C57: `OpenSer.v` models the Serialize impls and iterators over values in which objects of user-defined types (any methods
  over any state, panics included, handing out further values or the crate's own iterators) may stand anywhere. The loop of
  json/ser.rs is the one of `Ser.v`. A frame lemma (`OpenSerFacts.v`) shows that a value is written in the same way whatever
  surrounds it; the theorems are equivalences that give `to_string` of each type by `to_string` of its parts.
  `ClosedSerSpec.v`/`ClaimsOpenClosed.v` connect this open-world model with the closed universe of types: every text of the closed model is the text of an embedding of the value, and without HashMaps the texts are equal. With HashMaps, `C57_agrees_with_closed_model_hash`: an embedding fixes an order of iteration and for that order the
  texts are equal. `OrderAll.v` shows that the specification `Writes` is exact: every tree it allows is written for some order of the HashMaps (`C27_texts_are_exactly_these`).
- C58: composition of C56 and C57; the leaves are user-defined types or the crate's scalars (`C58_scalars`).
- C59: `Generics.v` models `bound.rs`, `fallback.rs` and the headers of the generated items over syn's generics (user-written bounds and
  predicates are copied, hence opaque); the statements quantify over a world of types, lifetimes and impls and over every instantiation.
- C60: the same composition with different types on the two sides; the text written by a struct or a map is taken apart member by member
  against the reader's list of fields. Derived enums in the open world are in `ClaimsEnum.v`.
- C61: the log of the walk peaks at the depth of the event tree (also when a method panics, since only drops are reordered then), the depth of the tree of any text is at most the nesting of its brackets; sizes by induction over the grammar, the reading relation (a map or struct uses every member at most once) and the rendered tree. The length of ryu's output is a parameter (`short_floats`)
- C62: every handle gets a number when it is handed out, every call is recorded with the handle it is made on, and a borrow stack (`borrows`) decides; `borrow_rules` says the same rule by rule and follows from it. Invariant of the loops: the open layers are the builders on the borrow stack, in order (`BorrowFacts.v`). Strings returned by `begin` and `next` are data in the model: that they are written before the next call is not part of this claim.
- C63: the lexer, the driver and the serializer are written a second time with a step counter (`LexCost.v`, `DriverCost.v`); erasing the counter gives back the model (the `counting_does_not_disturb` theorems), so the bounds are about the same programs. A step is one access to the input, one byte appended to the string buffer or the output, one byte looked at by `escape_str`, one iteration of the `f64_from_parts` loop, or one call of a user-supplied method or drop. Potential argument: 12 steps per byte consumed by an event, each open layer paid for by the bracket that opened it; `f64_from_parts` needs at most 3 iterations because a finite f64 divided twice by 1e308 is zero. Lower bounds show that no byte, no write and no call goes uncounted. Excluded: what the callees do, the amortised cost of growing a Vec, itoa/ryu.
- C64: `DebugFmt.v` models the Debug impls together with `debug_list`/`debug_map`, the `PadAdapter` behind `#` and Debug for str over an arbitrary, possibly failing writer (core's tables of printable characters are a parameter). Proof: every action feeds its writer a fixed list of pieces (`feeds`), also through nested adapters; their text is the specification `shown`, where indentation is explicit; `shown` is a prefix code (`DebugInj.v`). Like clone, Debug recurses natively: overflow on deep values is a theorem. derive(Debug) of Number (std's float formatting) is not modelled.
- C65: `NormSpec.v` says when two documents say the same (`same_doc`: order of members, superseded members, escapes, whitespace and the spelling of integers do not matter). Proof: `same_doc d d'` iff the values read from d and d' are the same (`same_doc_value`; sorted maps with the same keys), values are the same iff their texts are (the grammar is unambiguous and a text denotes one float), and the canonical texts of strings and integers are the shortest ones (`render_wlen`, `text_wlen`). Idempotence is claimed for documents without floats only: f64 does not round-trip exactly (C33).
- C66: `ThroughSpec.v` says which types and documents do not notice. Proof: a relation `cleaned` between a document and its reprint (superseded members gone, members sorted, integers canonical; for types that contain no floats, floats may differ) is preserved by `Reads` at every type; it is symmetric for documents without repeated names and -0. The exceptions are theorems (`C66_detour_refuted`).
- C67: `FloatMono` runs `f64_from_parts`'s loop on two significands side by side: the states stay ordered because every step is a multiplication or division by the same constant followed by (monotone) rounding, and the larger one overflows first. `FloatOrder`: the saturating exponent counter never shows (what it clamps is 0 or an overflow anyway), so a literal is read as `f64_from_parts(mantissa, scale)`, integer literals included. The three counterexamples are theorems (`C67_*_refuted`).
- C68: The event tree of p is a cut of that of p ++ x (`Cut` in `CutFacts.v`: every lexer function returns the same on a longer input, unless a number runs into the end), and the walk of a cut tree makes the first calls of the walk of the whole (`CutFeed.v`), whatever the visitor does. That a number may grow and that `[` asks for an element are theorems (`C68_*_refuted`).
- C69: Equal texts are one document (C47's uniqueness of readings: `JText_unique`), and two trees that denote one document differ only as `TAlike` (`PrintSpec.v`) says: a decimal that rounds to f determines the finite f with its sign. Typed: `alike_values` by induction on the value, with map entries matched through the permutations; key texts are injective. Conversely `alike_back` and `every_tree` (C27). The exceptions are theorems (`C69_*_refuted`); `distinct` excludes them.
- C70: `[""]` distinguishes the places where a value stands: an automaton over quotes and escapes (`mrun` in `TemplateFacts.v`) dies on `[""]` inside a string literal, and outside of literals an opening bracket begins a value (`bracket_opens`, induction on the grammar, which also yields the context `template`). The value is `[""]` itself, and the rest of the derivation does not look at it. Line breaks: printed bytes are at least 32 (C28). That weaker probes do not suffice and that `</script>` is printed as it is are theorems.
- C71: pieces of texts: `EText`/`MText`/`StrBody` are closed under concatenation (`ChunkFacts.v`), the bindings of two member lists in a row are an overlay (`last_binding_app`), and C16/C21 carry that over to `from_str`; on the writing side by the rendering of trees. The statements in `ClaimsChunk.v` speak of the calls on the pieces put into brackets. `env_no_hash` is needed for `C71_written_vec` only (a HashMap inside prints in any order).
- C72: induction on documents (children first), inside it on the derivation of `Wide`; named types refer to each other through a relation R that the declarations must respect (`declared`), so recursive types need no coinduction. `MapOf` is a fold of insertions, which preserves pointwise related entries (`fold_rel`).
- C73: `Reordered` says that for every name the lists of the values under that name are related; so last occurrences correspond. Induction on documents (children first), inside it on the derivation of `Reads`; the entries of a map are determined because reading is a function. `Reordered` is shown to be an equivalence that contains permutations of distinct names and swaps of differently named neighbours. `Shuffled` consists of single steps, each of which keeps `Reads` at every type (induction on the step, then on `Reads`): the list of entries of a map stays, or two entries with different keys change places.
- C03, C24-C26: refinement of the heap implementation to the function `de`; every fault is an explicit outcome and is
  excluded. Native recursion is a depth budget (`Fault FDeep`); C26, C39, C45 say a type-dependent / constant budget suffices.
- C09, C11-C15, C46, C47: number-literal semantics; Flocq for the real-number statements.
- C16-C23: `from_str` = `Reads`, and corollaries.
- C27-C31, C34-C38, C43: serializer theorem for any `Serialize`, printer/grammar, round trips by composition with C16.
- C32, C33: error analysis; ryu is a parameter with the specification `ryu_ok` (prints a number literal with fraction
  or exponent that rounds to its argument, of bounded length; `ExactPrint.v` exhibits an instance).
- C39, C40: instrumented drop/clone. C41, C42: the derive macros as functions on a small syntax, connected to the positional
  model by `C41_*_refines`.

Claims found false of the code in their naive form, stated as theorems: exact f64 round trip
(`C33_exact_round_trip_refuted`), order independence with integer keys (`C37_integer_keys_refuted`), i32 counters beyond
2^31 digits (`C15_overflow_beyond`), clone of deep values (`C40_clone_overflows_on_parsed_values`), order of drops when a drop panics
(`C48_panicking_drop_loses_order`). f32 overflow yields infinity (C14).

## Trusted base

1. Coq 8.16.1's kernel (with `vm_compute` in some examples and in computed case analyses).
2. The axioms listed below by `Print Assumptions`; all are the standard library's (classical reals, functional
   extensionality, excluded middle), used by Flocq and by the real-number statements. (The `ssrunder` module fields that a
   whole-library scan shows belong to Coq's own `ssreflect` files and are used by no theorem.)
   No axioms, `Variable`/`Hypothesis` outside sections, admitted proofs, functors, plugins or disabled checks of our own.
3. The faithfulness of the model to the Rust source, as documented in the comments, and these modelling decisions:
   - A `str`/`String` is its list of bytes with the validity invariant as hypothesis (`Utf8`, `str_ok`); texts handed to
     from_str have no run of more than `i32::MAX` consecutive digits outside string literals (`text_ok`, `digit_runs`; true
     of every text under 2 GiB; `digit_limit` = 2147483200 digits for the accuracy statements). `C15_overflow_beyond` shows
     why. What to_string writes always satisfies it, so the round-trip claims have no such hypothesis.
   - A panic (`Fault FPanic`) unwinds: locals and then the fields of `Deserializer` (or `Serializer`) are dropped as Rust prescribes; a panic in a
     drop during unwinding aborts (`FAbort`). Other faults (undefined behaviour, stack overflow) end the run at once.
   - f64/f32 arithmetic is IEEE 754 binary64/binary32, round to nearest even, as in the standard library's `SpecFloat`;
     NaN payloads are not distinguished.
   - `ryu` (dependency) is a parameter satisfying `ryu_ok`; `itoa` (dependency) and core's integer `FromStr`/`ToString` are modelled concretely.
   - HashMap/BTreeMap are finite maps (key-sorted entry lists); a HashMap iterates in an arbitrary permutation which may
     change from call to call (`hm`, `orders`).
   - Key types of maps are String, the integer types and bool (Rust allows any FromStr/ToString key). Integer types have 8,
     16, 32 or 64 bits; usize/isize are the 64- (or 32-) bit ones.
   - Native stack frames are counted (budget `k`), not measured in bytes.
   - The derive macros see the part of syn's syntax tree that they inspect; generic structs are modelled by
     their instances, the generic headers in C59 (syn's `split_for_impl` is described, not modelled from its source).

### Not modelled

Allocation failure and capacity overflow, aliasing rules finer than "live allocation / initialised slot" (Stacked
Borrows), syn/quote/rustc internals, spans and texts of compile errors, hashing, `Debug` of Number and Error, the
algorithms inside ryu, `no_std` configuration, rustc's trait solving beyond the matching of headers (`available`), `Deref`/`FromIterator`/`Extend`-style convenience impls that delegate to Vec/BTreeMap.

### Print Assumptions

*Closed under the global context* (no axioms):

`C01_value_accepts_exactly_json`, `C01_only_json_accepted`, `C02_visitor_sees_the_document`, `C03_from_str_total`, `C03_any_visitor_total`, `C06_string_decoding`, `C07_whitespace_is_irrelevant`, `C07_whitespace_any_visitor`, `C07_insert_whitespace`, `C08_trailing_data_rejected`, `C08_truncation_rejected`, `C09_integers_exact`, `C10_integer_targets`, `C10_integer_result`, `C11_f64_needs_number`, `C15_no_counter_overflow`, `C15_overflow_beyond`, `C16_from_str_denotation`, `C16_reading_is_functional`, `C17_missing_field_is_an_error`, `C17_missing_option_is_none`, `C17_last_occurrence_wins`, `C17_unknown_keys_are_skipped`, `C17_key_order_is_irrelevant`, `C18_enum_reads_exactly_its_names`, `C19_array_length`, `C19_pair`, `C20_vec`, `C20_json_array`, `C20_vec_elementwise`, `C21_maps_keep_the_last`, `C21_object_keeps_the_last`, `C22_option`, `C22_box`, `C22_option_writes`, `C22_box_writes`, `C23_ignored_values_must_be_well_formed`, `C24_no_undefined_behaviour`, `C25_everything_released`, `C26_depth_bounded_by_the_type`, `C27_any_serialize`, `C27_only_what_was_described`, `C27_no_panic`, `C30_only_specials_are_escaped`, `C37_integer_keys_refuted`, `C38_calls_are_the_walk`, `C38_call_counts`, `C38_pending_bounded_by_nesting`, `C39_drop_is_complete_and_shallow`, `C40_clone_is_equal`, `C40_clone_needs_depth`, `C40_clone_overflows_on_parsed_values`, `C41_wire_name`, `C41_wire_name_unique`, `C41_struct_code`, `C41_enum_code`, `C41_struct_refines`, `C41_enum_refines`, `C42_supported_items`, `C42_error_otherwise`, `C42_container_is_irrelevant`, `C43_integer_display_reads_back`, `C45_depth_bounded_by_the_type`, `C48_each_builder_dropped_once`, `C48_panicking_drop_loses_order`, `C49_first_failure_decides`, `C49_nothing_after_an_error`, `C49_result_of_a_failure`, `C50_recording_is_transparent`, `C50_nested`, `C50_each_iterator_dropped_once`, `C51_first_panic_decides`, `C51_only_drops_after_a_panic`, `C51_no_panic_of_its_own`, `C53_no_undefined_behaviour`, `C53_out_is_owned`, `C53_nothing_lost`, `C53_finish_returns_the_elements`, `C54_no_undefined_behaviour`, `C54_out_is_owned`, `C54_nothing_lost`, `C54_only_unwrap_panics`, `C54_user_errors_come_back`, `C55_behaves_like_plain_data`, `C55_no_undefined_behaviour`, `C55_released_exactly_once`, `C55_nothing_leaks`, `C56_scalars_model_closed`, `C56_vec_models_closed`, `C56_array_models_closed`, `C56_option_models_closed`, `C56_box_models_closed`, `C56_map_models_closed`, `C56_pair_models_closed`, `C56_struct_models_closed`, `C56_agrees_with_closed_model`, `C56_enum_models_closed`, `C56_enum`, `C56_containers_are_regular`, `C56_from_str`, `C56_vec`, `C56_array`, `C56_option`, `C56_box`, `C56_pair`, `C56_map`, `C56_struct`, `C56_vec_text`, `C56_array_text`, `C56_option_text`, `C56_box_text`, `C56_pair_text`, `C56_pair_arity`, `C56_map_text`, `C56_struct_text`, `C56_missing_option`, `C56_required_types`, `C56_missing_required`, `C57_one_outcome`, `C57_scalars`, `C57_reference`, `C57_option`, `C57_slice`, `C57_pair`, `C57_map`, `C57_struct`, `C57_user_panics`, `C57_user_delegates`, `C57_user_sequence`, `C57_user_map`, `C58_enum`, `C58_vec`, `C58_array`, `C58_pair`, `C58_box`, `C58_none`, `C58_some`, `C58_map`, `C58_struct`, `C59_serialize`, `C59_deserialize`, `C59_fallback`, `C59_helpers`, `C59_helper_structs`, `C59_headers`, `C59_helper_field_names`, `C60_string_as_variant`, `C60_struct`, `C60_map_as_struct`, `C60_struct_as_map`, `C60_as_option`, `C60_as_box`, `C60_pairs_and_slices`, `C61_open_builders`, `C61_nesting_of_json`, `C61_open_builders_of_json`, `C61_value_no_larger_than_text`, `C61_text_is_linear`, `C62_numbering_is_transparent_from_str`, `C62_numbering_is_transparent_to_string`, `C62_from_str`, `C62_to_string`, `C62_panicking_drop_refuted`, `C63_counting_does_not_disturb_parsing`, `C63_counting_does_not_disturb_printing`, `C63_printing_is_linear`, `C63_every_byte_takes_a_step`, `C63_every_call_is_a_step`, `C63_every_byte_written_and_every_call_is_a_step`, `C63_print_calls_are_linear`, `C68_first_calls`, `C68_no_lookahead`, `C68_numbers_refuted`, `C68_open_list_refuted`, `C69_options_refuted`, `C69_integers_refuted`, `C69_variants_refuted`, `C70_template`, `C70_accepted`, `C70_weaker_probes_refuted`, `C70_script_refuted`, `C71_arrays`, `C71_two_arrays`, `C71_maps`, `C71_objects`, `C71_patch`, `C71_strings`, `C71_empty_pieces_refuted`, `C71_cuts_elsewhere_refuted`, `C71_patch_null_refuted`, `C71_user_arrays`, `C71_user_maps`, `C72_widening`, `C72_narrowing`, `C72_everything_is_a_value`, `C72_new_field_refuted`, `C72_boxed_option_refuted`, `C72_string_keys_refuted`, `C73_reordered`, `C73_permutation`, `C73_swap`, `C73_equivalence`, `C73_every_type`, `C73_identifiers`, `C73_integer_names`, `C73_order_matters_refuted`.

Exactly `ClassicalDedekindReals.sig_forall_dec`, `FunctionalExtensionality.functional_extensionality_dep`:

`C47_equal_literals_different_floats`, `C67_scales_refuted`, `C67_long_digits_refuted`, `C67_f32_kinds_refuted`.

Exactly `ClassicalDedekindReals.sig_forall_dec`, `ClassicalDedekindReals.sig_not_dec`, `Classical_Prop.classic`, `FunctionalExtensionality.functional_extensionality_dep`:

`C01_accepts_representable`, `C01_rejects_overflow`, `C04_linear_number_of_calls`, `C04_logging_is_transparent`, `C05_arguments_are_legal`, `C11_float_accuracy`, `C11_float_event_accuracy`, `C12_integers_correctly_rounded`, `C12_short_decimals_correctly_rounded`, `C13_f64_always_finite`, `C13_overflow_is_an_error`, `C14_f32_rounds_the_f64`, `C16_result_is_well_typed`, `C18_enum_writes_its_name`, `C27_texts_are_exactly_these`, `C27_text_is_json`, `C27_typed`, `C28_output_is_printable`, `C28_typed`, `C29_f64`, `C29_f32`, `C30_strings_round_trip`, `C31_integers_round_trip`, `C32_f32_round_trip`, `C33_f64_round_trip`, `C33_short_decimals_round_trip`, `C33_exact_round_trip_refuted`, `C34_value_round_trip`, `C34_without_floats`, `C34_plain_unchanged`, `C35_round_trip`, `C35_plain_values_unchanged`, `C35_exact_types`, `C36_value_keys_sorted`, `C36_object_keys_sorted`, `C36_btreemap_string_keys`, `C36_btreemap_int_keys`, `C36_struct_declaration_order`, `C36_btreemap_bool_keys`, `C37_hash_order_is_irrelevant`, `C37_any_target_type`, `C43_display_agrees`, `C43_display_of_nonfinite`, `C44_builders_are_bracketed`, `C45_deep_values_are_written`, `C46_float_sign`, `C46_zero_literals`, `C47_spellings_are_close`, `C48_panic_safe`, `C52_no_undefined_behaviour`, `C52_out_well_typed`, `C52_all_released`, `C52_can_always_close`, `C57_covers_closed_texts`, `C57_agrees_with_closed_model`, `C57_open_texts_are_specified`, `C57_agrees_with_closed_model_hash`, `C57_output_is_json`, `C57_output_is_read`, `C58_scalars`, `C60_integers`, `C60_variant_as_string`, `C60_skippable`, `C60_missing_required`, `C60_missing_key`, `C61_text_of_a_value`, `C61_read_and_print`, `C63_parsing_is_linear`, `C63_calls_are_linear`, `C64_any_writer`, `C64_format`, `C64_debug_is_faithful`, `C64_where_it_ends`, `C64_debug_determines_json`, `C64_no_control_characters`, `C64_debug_overflows_on_parsed_values`, `C65_exactly_one`, `C65_same_iff_same_document`, `C65_text_determines_value`, `C65_normal_form`, `C65_shortest`, `C66_through_a_value`, `C66_integers_through_a_value`, `C66_same_outcome`, `C66_same_document_same_outcome`, `C66_detour_refuted`, `C67_f64_order`, `C67_f64_order_reflected`, `C67_f64_same_digits`, `C67_f64_accepts_below`, `C67_f64_far_apart`, `C67_f32_order`, `C69_any_serialize`, `C69_same_text`, `C69_text_identifies_the_value`, `C69_alike_values`, `C70_written_value`, `C70_lines`, `C71_written_vec`, `C71_written_string`.

