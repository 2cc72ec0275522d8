{"id": "C01", "title": "from_str accepts exactly RFC 8259 JSON", "statement": "json::from_str::<Value>(s) returns Ok if and only if s is a JSON text in the sense of RFC 8259 (value surrounded by optional whitespace) in which every \\u escape sequence denotes a Unicode scalar value (surrogates properly paired) and every number literal with a value outside the u64/i64 range has a finite f64 conversion. In every other case it returns Err.", "quantifier": "every UTF-8 string s (shorter than 2 GiB), any nesting depth, any amount of whitespace", "why_tests_cant": "the set of accepted strings and the set of rejected strings are both infinite; a test only samples either", "anchors": ["src/json/de.rs: from_str, from_str_impl, Deserializer::event, parse_str, parse_integer, parse_whitespace, parse_ident"]}
{"id": "C02", "title": "Visitor calls are the in-order walk of the document, for any user-defined Visitor", "statement": "from_str_impl succeeds on a visitor exactly when the text is a JSON document and calling the visitor methods in document order (null/boolean/string/negative/nonnegative/float for scalars; seq, then element + value per item, then finish for arrays; map, then key + value per member, then finish for objects) succeeds; the final state is the one produced by exactly that call sequence.", "quantifier": "every input text and every implementation of Visitor/Seq/Map (any state, any error behaviour)", "why_tests_cant": "quantifies over all user implementations of the traits and all documents", "anchors": ["src/json/de.rs: from_str_impl", "src/de/mod.rs: Visitor, Seq, Map"]}
{"id": "C03", "title": "from_str never panics and always terminates", "statement": "For every input string without a run of more than 2^31-1 digits (in particular every one shorter than 2^31 bytes) and every target type built from the crate's impls and derives, from_str returns Ok or Err: no slice index is out of bounds, no arithmetic overflows, no unwrap fails, no loop runs forever.", "quantifier": "every UTF-8 string of any length whose runs of digits outside string literals have at most 2^31-1 digits, every supported target type including recursive ones, overflow checks on or off", "why_tests_cant": "a crash input can be any string; fuzzing only samples", "anchors": ["src/json/de.rs: Deserializer, overflow!, f64_from_parts, parse_str", "src/de/impls.rs: Box<T> visitor unwraps"]}
{"id": "C04", "title": "Parsing makes a linear number of visitor calls", "statement": "The number of Visitor/Seq/Map method calls made by from_str_impl on an input of n bytes is at most 2n (whatever the visitor and whether or not parsing succeeds).", "quantifier": "every input and every visitor", "why_tests_cant": "an upper bound over all inputs cannot be sampled", "anchors": ["src/json/de.rs: from_str_impl"]}
{"id": "C05", "title": "Arguments handed to visitors are legal", "statement": "If the input is valid UTF-8, every &str that the deserializer hands to a visitor (string values and map keys, with or without escapes) is valid UTF-8, so the from_utf8_unchecked in parse_str is sound; negative(n) gets i64::MIN <= n <= 0, nonnegative(n) a u64, float(x) a finite x.", "quantifier": "every UTF-8 input, every mix of raw characters and escapes", "why_tests_cant": "unsoundness would come from one particular byte mix; needs all inputs", "anchors": ["src/json/de.rs: parse_str, parse_escape, decode_hex_escape"]}
{"id": "C06", "title": "String literals decode exactly as RFC 8259 prescribes", "statement": "from_str::<String> of a string literal yields the literal's raw bytes with each two-character escape replaced by its character, each \\uXXXX (hex digits of either case) by the UTF-8 of that code point, each high+low surrogate pair by the UTF-8 of the supplementary code point; unpaired or reversed surrogates, unknown escapes, raw control characters and unterminated literals are rejected.", "quantifier": "every string literal", "why_tests_cant": "infinitely many literals; 2^16 escapes times positions", "anchors": ["src/json/de.rs: parse_str, parse_escape, decode_hex_escape, ESCAPE"]}
{"id": "C07", "title": "Insignificant whitespace never changes the outcome", "statement": "Two texts that differ only in RFC 8259 insignificant whitespace (before/after values and structural characters) give the same result for every target type.", "quantifier": "every pair of texts with the same token structure, every target type", "why_tests_cant": "infinitely many placements", "anchors": ["src/json/de.rs: parse_whitespace, from_str_impl"]}
{"id": "C08", "title": "Truncated documents and trailing data are rejected", "statement": "If from_str accepts s whose top-level value is a string, array or object, then every prefix of s that loses at least one non-whitespace byte is rejected, and s followed by anything containing a non-whitespace byte is rejected, for every target type.", "quantifier": "every accepted text, every cut point, every suffix, every target type", "why_tests_cant": "every cut point of every document", "anchors": ["src/json/de.rs: from_str_impl, parse_str"]}
{"id": "C09", "title": "Integer literals are read exactly", "statement": "A literal without fraction or exponent whose value is in 0..=u64::MAX is reported to the visitor as nonnegative(n) with exactly that n; with a minus sign and value >= i64::MIN it is reported as negative(n) exactly (including -0 as negative(0)); it is never rounded. negative(n) is never called with n > 0. All other accepted literals go to float.", "quantifier": "every integer literal of any length", "why_tests_cant": "boundary behaviour at u64::MAX, i64::MIN and for every digit count", "anchors": ["src/json/de.rs: parse_integer, parse_number, overflow!"]}
{"id": "C10", "title": "Integer targets are range checked, never wrapped", "statement": "from_str::<iN/uN>(s) is Ok(n) iff s is (whitespace around) an integer literal without fraction/exponent whose mathematical value n lies in the type's range, and then n is that value (-0 is accepted by signed types only); otherwise Err.", "quantifier": "every text, every integer type width 8..64 signed or unsigned", "why_tests_cant": "all texts times all types", "anchors": ["src/de/impls.rs: signed!, unsigned!", "src/json/de.rs: parse_number"]}
{"id": "C11", "title": "Float parsing accuracy", "statement": "Whenever a number literal is read as an f64, the result differs from the exact decimal value v by at most 2^-50*|v| + 2^-1072.", "quantifier": "every number literal, any number of digits, any exponent", "why_tests_cant": "a bound over all decimals", "anchors": ["src/json/de.rs: parse_decimal, parse_exponent, parse_long_integer, f64_from_parts, POW10"]}
{"id": "C12", "title": "Short decimals are correctly rounded", "statement": "A literal whose digits (without leading zeros and point) form an integer at most 2^53 and whose decimal exponent has absolute value at most 22 is read as the f64 nearest to its exact value (ties to even).", "quantifier": "every such literal", "why_tests_cant": "about 10^17 literals", "anchors": ["src/json/de.rs: f64_from_parts"]}
{"id": "C13", "title": "f64 results are always finite; overflow is an error", "statement": "from_str::<f64> never returns an infinity or NaN. A literal of absolute value at most (1-2^-50)*f64::MAX is accepted and one of absolute value at least (1+2^-50)*2^1024 is rejected.", "quantifier": "every text", "why_tests_cant": "all literals around and beyond the threshold", "anchors": ["src/json/de.rs: f64_from_parts, parse_exponent_overflow"]}
{"id": "C14", "title": "f32 targets", "statement": "from_str::<f32> accepts exactly the texts from_str::<f64> accepts. An integer literal in the u64/i64 range is rounded to f32 once, directly; every other literal yields the f64 reading rounded to the nearest f32. In particular it can silently return infinity for literals beyond f32::MAX (contrary to f64, where overflow is an error).", "quantifier": "every number literal", "why_tests_cant": "all literals; the double rounding must be exact for each", "anchors": ["src/de/impls.rs: float!"]}
{"id": "C15", "title": "Decimal exponent counters do not overflow below 2^31 digits", "statement": "For inputs without a run of more than 2^31-1 consecutive digits outside string literals the i32 decimal exponent counters never overflow, however long the input is; there are inputs with longer runs on which they do (a panic when overflow checks are enabled).", "quantifier": "every input length", "why_tests_cant": "needs multi-gigabyte inputs", "anchors": ["src/json/de.rs: parse_long_integer, parse_decimal"]}
{"id": "C16", "title": "from_str computes the denotation of the type", "statement": "For every type built from (), bool, String, integers, floats, Box, Option, pairs, Vec, arrays, HashMap/BTreeMap, Value, Number, Array, Object and derived structs and enums (including mutually recursive ones), from_str::<T>(s) is Ok(v) exactly when s is a JSON document whose content the type's reading rules map to v; v is always a well-formed value of T (integers in range, strings valid UTF-8, arrays of length N, map keys unique).", "quantifier": "every type of the universe and every input", "why_tests_cant": "infinitely many types times inputs", "anchors": ["src/de/impls.rs", "derive/src/de.rs: derive_struct, derive_enum", "src/json/value.rs", "src/place.rs"]}
{"id": "C17", "title": "Struct fields: missing, unknown, duplicate, reordered", "statement": "For a derived struct: a missing field is an error unless its type is Option<_> (then None); keys that are not field names are skipped whatever their (well-formed) value; of duplicate keys the last one wins (earlier ones must still be readable at the field's type); the order of distinct keys does not matter.", "quantifier": "every derived struct with distinct field names, every object", "why_tests_cant": "all key orders, multiplicities and extra members", "anchors": ["derive/src/de.rs: derive_struct", "src/de/impls.rs: Option<T>::default", "src/ignore.rs"]}
{"id": "C18", "title": "Derived enums read and write exactly their variant names", "statement": "A derived enum is read only from a JSON string equal to one of the (renamed) variant names, giving that variant; every other document is an error; a variant is written as exactly its name.", "quantifier": "every derived enum, every document", "why_tests_cant": "all strings", "anchors": ["derive/src/de.rs: derive_enum", "derive/src/ser.rs: derive_enum"]}
{"id": "C19", "title": "Fixed-length targets need exactly that many elements", "statement": "[T; N] is read only from arrays of exactly N elements and (A, B) only from arrays of exactly 2, each element read at its position's type; shorter and longer arrays are errors.", "quantifier": "every N (including 0), every array", "why_tests_cant": "every length", "anchors": ["src/de/impls.rs: ArrayBuilder, TupleBuilder"]}
{"id": "C20", "title": "Sequences preserve order and length", "statement": "Vec<T> and json::Array read from an array of k elements have exactly k elements, the i-th being the i-th array element read at type T; one unreadable element makes the whole an error.", "quantifier": "every array", "why_tests_cant": "every length", "anchors": ["src/de/impls.rs: VecBuilder", "src/json/array.rs", "src/json/value.rs: ArrayBuilder"]}
{"id": "C21", "title": "Maps keep the last of duplicate keys", "statement": "HashMap<K,V>, BTreeMap<K,V> and json::Object read from an object contain exactly the keys that occur (parsed by K::from_str), each bound to the value of its last occurrence; an unparsable key or value is an error.", "quantifier": "every object, any multiplicity and order of keys", "why_tests_cant": "all histories of insertions", "anchors": ["src/de/impls.rs: MapBuilder", "src/json/object.rs", "src/json/value.rs: ObjectBuilder"]}
{"id": "C22", "title": "Option and Box", "statement": "Option<T> reads null as None and any other document as Some of the T reading; Box<T> reads exactly as T does. They serialize as null / as the content.", "quantifier": "every type T and document", "why_tests_cant": "all types", "anchors": ["src/de/impls.rs: Option<T>, Box<T>", "src/ser/impls.rs"]}
{"id": "C23", "title": "Ignored members accept any well-formed value", "statement": "The value of an unknown key is accepted iff it is well-formed (as for Value) and has no influence on the result.", "quantifier": "every document", "why_tests_cant": "all values of all depths", "anchors": ["src/ignore.rs", "derive/src/de.rs"]}
{"id": "C24", "title": "Places: no dangling or uninitialised access", "statement": "During from_str no builder reads or writes a place after the allocation that contains it has been released, no place is reached through an Option that is None, and no uninitialised array slot is read or dropped - on success and on every error path.", "quantifier": "every input (valid or not), every type, every error point", "why_tests_cant": "memory errors depend on the exact interleaving of finish/drop/error", "anchors": ["src/careful.rs", "src/ptr.rs", "src/place.rs", "src/de/impls.rs: BoxSeq, BoxMap, ArrayBuilder", "src/json/de.rs: Deserializer::drop"]}
{"id": "C25", "title": "Builders are released exactly once", "statement": "Every builder allocated during from_str is released exactly once, whether from_str succeeds or fails; nothing but the result survives.", "quantifier": "every input, every type, every error point", "why_tests_cant": "needs every error point", "anchors": ["src/json/de.rs: Deserializer::drop", "src/ptr.rs: NonuniqueBox", "src/de/impls.rs: BoxSeq, BoxMap"]}
{"id": "C26", "title": "Native recursion depth does not depend on input nesting (deserialize)", "statement": "The depth of nested visitor calls during from_str is bounded by a number that depends only on the target type's Box/Option wrapping, not on the input.", "quantifier": "every input nesting depth, every type", "why_tests_cant": "unbounded nesting", "anchors": ["src/json/de.rs: from_str_impl", "src/de/impls.rs: BoxSeq, BoxMap"]}
{"id": "C27", "title": "to_string writes the JSON rendering of the value, for any Serialize", "statement": "For every Serialize object that unfolds to a finite tree of fragments, to_string terminates and returns the canonical JSON text of that tree: members/elements in iteration order, ',' and ':' separators, no whitespace; this text is an RFC 8259 JSON text denoting that tree. For a value containing HashMaps, the possible results are exactly the texts in which each HashMap lists its entries in some order.", "quantifier": "every value of every Serialize type, any depth", "why_tests_cant": "all trees", "anchors": ["src/json/ser.rs: to_string_impl, escape_str", "src/ser/mod.rs"]}
{"id": "C28", "title": "to_string output is valid UTF-8 without control characters", "statement": "Serialization never slices a string off a character boundary (no panic), the output is valid UTF-8, and contains no byte below 0x20.", "quantifier": "every value containing valid UTF-8 strings", "why_tests_cant": "all strings", "anchors": ["src/json/ser.rs: escape_str, ESCAPE"]}
{"id": "C29", "title": "Non-finite floats serialize as null", "statement": "to_string(x) for an f32/f64 is \"null\" exactly when x is NaN or infinite, otherwise a JSON number literal.", "quantifier": "every f32/f64", "why_tests_cant": "2^64 values", "anchors": ["src/json/ser.rs: to_string_impl"]}
{"id": "C30", "title": "Strings round-trip", "statement": "from_str::<String>(to_string(s)) = Ok(s); each character is written either raw or in the unique short escape of the table, and only '\"', '\\' and control characters are escaped.", "quantifier": "every valid UTF-8 string", "why_tests_cant": "all strings", "anchors": ["src/json/ser.rs: escape_str", "src/json/de.rs: parse_str"]}
{"id": "C31", "title": "Integers round-trip", "statement": "from_str::<T>(to_string(n)) = Ok(n) for every value n of every integer type T.", "quantifier": "every integer type and value", "why_tests_cant": "2^64 values", "anchors": ["src/ser/impls.rs: unsigned!, signed!", "src/de/impls.rs: signed!, unsigned!"]}
{"id": "C32", "title": "Finite f32 round-trip exactly", "statement": "from_str::<f32>(to_string(x)) = Ok(x) for every finite f32 x (including -0.0 and subnormals), given that ryu prints a decimal that rounds to its argument.", "quantifier": "every finite f32", "why_tests_cant": "2^32 values times every admissible printer", "anchors": ["src/de/impls.rs: float!", "src/ser/impls.rs: float!", "src/json/de.rs: f64_from_parts"]}
{"id": "C33", "title": "f64 round-trip error bound", "statement": "For every finite f64 x of magnitude below (1-2^-49)*f64::MAX, from_str::<f64>(to_string(x)) is Ok(y) with |y-x| <= 2^-49*|x| + 2^-1071; exact round-trip does not hold in general (there is a finite x with y <> x).", "quantifier": "every finite f64", "why_tests_cant": "2^64 values", "anchors": ["src/json/de.rs: f64_from_parts", "src/json/ser.rs"]}
{"id": "C34", "title": "Value round-trips", "statement": "from_str::<Value>(to_string(&v)) = Ok(v') where v' is v with every I64(n>=0) replaced by U64(n), non-finite floats by Null, and finite floats re-read; in particular values without floats round-trip up to that integer normalisation, at any depth, and to_string(v') = to_string(v) for them.", "quantifier": "every json::Value", "why_tests_cant": "all trees", "anchors": ["src/json/value.rs", "src/json/number.rs", "src/json/object.rs"]}
{"id": "C35", "title": "Typed round-trip", "statement": "from_str::<T>(to_string(&v)) = Ok(v) for every T and well-formed v whose type contains no f64/Value/Number, no Option around a type that can print null, and no struct with repeated field names.", "quantifier": "every type of the universe satisfying the condition, every value", "why_tests_cant": "all types times values", "anchors": ["src/ser/impls.rs", "src/de/impls.rs", "derive/src/ser.rs", "derive/src/de.rs"]}
{"id": "C36", "title": "Object and BTreeMap output is key-sorted and duplicate free", "statement": "The members of a serialized json::Object or BTreeMap<String,_> appear in strictly increasing byte order of their keys; struct members appear in declaration order.", "quantifier": "every map", "why_tests_cant": "all maps", "anchors": ["src/json/object.rs", "src/ser/impls.rs: stream_btree_map", "derive/src/ser.rs: derive_struct"]}
{"id": "C37", "title": "HashMap iteration order is irrelevant", "statement": "Whatever order a HashMap iterates in, reading the serialized text back gives the same result, at the same type and at every other type that has no map with integer keys; for the latter the result may depend on the order, because two string keys can parse to the same integer.", "quantifier": "every HashMap and every iteration order", "why_tests_cant": "all permutations", "anchors": ["src/ser/impls.rs: HashMapStream", "src/de/impls.rs: HashMap"]}
{"id": "C38", "title": "Serialization terminates with work linear in the tree", "statement": "to_string_impl performs exactly one begin() per node and one next() per child plus one per container, with its pending state on an explicit stack no deeper than the value's nesting.", "quantifier": "every finite value", "why_tests_cant": "all trees and depths", "anchors": ["src/json/ser.rs: to_string_impl"]}
{"id": "C39", "title": "Dropping a Value is not recursive and drops everything once", "statement": "Dropping an Array, Object or Value releases every contained value exactly once, with a native call depth bounded by a constant independent of nesting, and as many loop iterations as there are contained values.", "quantifier": "every Value of any depth and width", "why_tests_cant": "unbounded nesting", "anchors": ["src/json/drop.rs: safely", "src/json/array.rs: Drop, take", "src/json/object.rs: Drop, take"]}
{"id": "C40", "title": "Cloning a Value is recursive", "statement": "The native call depth of Value::clone grows with nesting: for every bound there is a Value that from_str builds and that cannot be cloned within it (the documented 'safely nest arbitrarily' does not extend to Clone).", "quantifier": "every bound", "why_tests_cant": "needs unbounded nesting", "anchors": ["src/json/value.rs: derive(Clone)", "src/json/array.rs: Clone"]}
{"id": "C41", "title": "Derive naming", "statement": "The name used for a field or variant is its rename attribute if present, else its identifier without the r# prefix; the same name is used for reading and writing; more than one rename, or any other serde attribute, is a compile error.", "quantifier": "every attribute list and identifier", "why_tests_cant": "all attribute lists", "anchors": ["derive/src/attr.rs", "derive/src/ser.rs", "derive/src/de.rs"]}
{"id": "C42", "title": "Derive applicability", "statement": "derive(Serialize)/derive(Deserialize) succeed exactly on structs with named fields and on non-generic enums with only unit variants, all of whose fields/variants have well-formed serde attributes (attributes of the item itself are ignored); everything else is a compile error, never a macro panic.", "quantifier": "every DeriveInput shape", "why_tests_cant": "all shapes", "anchors": ["derive/src/ser.rs: try_expand", "derive/src/de.rs: try_expand"]}
{"id": "C43", "title": "Number Display agrees with serialization", "statement": "Formatting a json::Number with Display gives the same text as to_string for every finite number, and an integer Number's text reads back to the same mathematical integer.", "quantifier": "every Number", "why_tests_cant": "2^64 values", "anchors": ["src/json/number.rs"]}
{"id": "C44", "title": "Builders handed out are bracketed", "statement": "Every Seq and Map that a visitor hands to the deserializer is dropped exactly once, in last-in first-out order, and no method of it is called after its drop - for every user-defined visitor, whether parsing succeeds or fails, whichever method returns Err.", "quantifier": "all texts, all Visitor/Seq/Map implementations (arbitrary state machines)", "why_tests_cant": "every error position of every document and every visitor behaviour would have to be tried", "anchors": ["src/json/de.rs: from_str_impl, Layer", "src/de/mod.rs: Visitor, Seq, Map"]}
{"id": "C45", "title": "Native recursion depth does not depend on nesting (serialize)", "statement": "The depth of nested begin() calls during to_string is bounded by a number that depends only on the type's Box/Option wrapping, not on the value: arbitrarily deep values are written with the same native stack.", "quantifier": "all types, all values, all stack budgets", "why_tests_cant": "a test exhausts the stack only for the depths and types it tries", "anchors": ["src/json/ser.rs: to_string_impl", "src/ser/impls.rs"]}
{"id": "C46", "title": "Signs and zeros of floats", "statement": "The f64 read from a number with a fraction or an exponent has its sign bit set exactly when the literal starts with '-'; a literal all of whose digits are zero is read as a zero of that sign whatever its exponent (never an overflow). The integer literal -0 is the exception: it is read as +0.0.", "quantifier": "all texts and number literals", "why_tests_cant": "infinitely many literals, including ones with huge exponents of zero", "anchors": ["src/json/de.rs: f64_from_parts, parse_number, parse_exponent_overflow, event", "src/de/impls.rs: f64"]}
{"id": "C47", "title": "Spelling of a number", "statement": "Two literals denoting the same real number are read as f64s that differ by no more than twice the accuracy bound, but not always as the same f64 (6e23 and 600000000000000000000000 differ): which double is produced may depend on how the number is spelled.", "quantifier": "all pairs of number literals with equal value", "why_tests_cant": "infinitely many pairs of spellings", "anchors": ["src/json/de.rs: parse_integer, parse_long_integer, f64_from_parts"]}
{"id": "C48", "title": "Panic safety of from_str for user-defined visitors", "statement": "Whatever method of a user-defined Visitor/Seq/Map panics, and at whatever point of whatever text, from_str unwinds and never aborts or continues, and every Seq and Map handed out is dropped exactly once, after its last use, inner ones before the outer ones they may borrow from - provided dropping them does not itself panic. If a drop panics too, each is still dropped exactly once (unless the process aborts), but no longer in order: the remaining ones may be dropped outermost first.", "quantifier": "every text, every implementation of Visitor/Seq/Map, every point at which any of its methods panics", "why_tests_cant": "quantifies over all user implementations and all points of failure; ordering of drops under unwinding is what memory safety of the extended lifetimes rests on", "anchors": ["src/json/de.rs: from_str_impl, Deserializer::drop", "src/de/mod.rs: Visitor, Seq, Map"]}
{"id": "C49", "title": "The first failing call decides", "statement": "As soon as a method of a Visitor/Seq/Map returns an error or panics, no other method is called, only the open Seqs and Maps are dropped, and from_str returns that error, or unwinds with that panic. If no method fails, from_str returns Ok or (because of the text) an error; it does not panic.", "quantifier": "every text, every implementation of Visitor/Seq/Map, including ones that fail at any call", "why_tests_cant": "all implementations, all texts, all points of failure", "anchors": ["src/json/de.rs: from_str_impl", "src/de/mod.rs: Visitor, Seq, Map"]}
{"id": "C50", "title": "Panic safety of to_string for user-defined Serialize impls", "statement": "Whatever method of a user-defined Serialize/Seq/Map panics, even a drop, and at whatever point: to_string calls next() on, and drops, only the innermost open iterator, so it never touches an iterator that was dropped or that an open one may borrow from; and if it returns or unwinds (rather than aborting), every Seq and Map handed out by begin() has been dropped exactly once.", "quantifier": "every implementation of Serialize/Seq/Map, every point at which any of its methods or drops panics", "why_tests_cant": "quantifies over all user implementations and all points of failure; the order of drops under unwinding is what memory safety of the extended lifetimes rests on", "anchors": ["src/json/ser.rs: to_string_impl, Serializer::drop", "src/ser/mod.rs: Serialize, Seq, Map"]}
{"id": "C51", "title": "The first panic ends to_string", "statement": "As soon as begin(), next() or the drop of an iterator panics, to_string calls neither begin() nor next() again, only drops the open iterators, and unwinds with that panic (or the process aborts if one of those drops panics, too). If no user code panics, to_string does not panic either.", "quantifier": "every implementation of Serialize/Seq/Map, every point at which any of its methods or drops panics", "why_tests_cant": "all implementations, all points of failure", "anchors": ["src/json/ser.rs: to_string_impl, Serializer::drop", "src/ser/mod.rs: Serialize, Seq, Map"]}
{"id": "C52", "title": "Memory safety of the Deserialize builders for every safe caller", "statement": "miniserde::de is public: safe code other than from_str may call T::begin(&mut out) and drive the visitors, Seq and Map builders in any order the borrow checker accepts - visiting a place twice, abandoning or mem::forgetting builders half-way, calling finish() early or repeatedly, catching panics and carrying on. For every such client and every type T built from the crate's impls and derives: no operation has undefined behaviour (use after free, double free, reading uninitialised array elements, type confusion); every operation succeeds or returns Error, except that finish() on a builder that has already been finished may panic (Box); handles can always be dropped; whenever nothing borrows from `out`, it is empty or holds a value of type T; and a client that forgets nothing leaks nothing.", "quantifier": "every client program of the public deserialization traits, every type composed of the crate's impls and derived structs/enums", "why_tests_cant": "soundness of the unsafe code (NonuniqueBox, ManuallyDrop, MaybeUninit, extended lifetimes) is a claim about all safe callers, not about from_str", "anchors": ["src/de/mod.rs: Deserialize, Visitor, Seq, Map", "src/de/impls.rs: BoxSeq, BoxMap, ArrayBuilder, OptionVisitor", "src/ptr.rs: NonuniqueBox", "derive/src/de.rs"]}
{"id": "C53", "title": "Array elements are owned by exactly one place, even when drops panic", "statement": "Deserializing [T; N] for any user-defined T: whatever the caller and the user's visitor for T do with the builder (any order of element/finish, leaving the element place empty, taking an element back, finishing again, abandoning or forgetting the builder, a Some(array) already in the place, catching panics of T's drop and carrying on), no element is dropped twice, no uninitialised element is used, an array in `out` always consists of N initialised elements in the order they were produced, and it consists of exactly the elements that were in the element place at each element()/finish() call. Every element ever produced is dropped exactly once, handed to the caller, or still in `out`, unless the builder itself is forgotten or its own drop panics.", "quantifier": "all N, all element types including those with panicking drops, all sequences of calls", "why_tests_cant": "the unsafe MaybeUninit code must be sound for every interleaving of calls and every panic point", "anchors": ["src/de/impls.rs: ArrayBuilder, shift, element, finish, Drop"]}
{"id": "C54", "title": "Box<T> is sound for every user-defined T, at every panic point", "statement": "Deserializing Box<T>, Box<Box<T>>, ... for any user-defined T: whatever the user's visitor and builder for T do with their place in any call including the builder's Drop (write, overwrite, take the value back, return Ok with the place empty, return Error, panic), wherever the drop of a T panics, and in whatever order safe code calls element/key, finish (early, repeatedly), drops or forgets the builder, or carries on after a caught panic: user code never runs with a dangling or invalidated reference (simplified Stacked Borrows), a user builder is never used or dropped after it was dropped, and no value is dropped twice. Unless a builder is forgotten, when nothing is open every value made was dropped exactly once, was handed out, or is in `out`; every user builder was dropped exactly once; and every temporary allocation was released. If no user code and no drop panics, the only panic is in finish() or a scalar method, when user code reported success without leaving a value or finish() was called again; an Error returned by user code comes back from the call and leaves `out` as it was.", "quantifier": "every user implementation of Deserialize (as arbitrary behaviour per call), every number of nested boxes, every sequence of calls, every panic point", "why_tests_cant": "the unsafe lifetime extension and ManuallyDrop must be sound against arbitrary safe user code, including panics during unwinding", "anchors": ["src/de/impls.rs: Deserialize for Box<T>, BoxSeq, BoxMap", "src/ptr.rs: NonuniqueBox", "src/de/impls.rs: extend_lifetime!"]}
{"id": "C55", "title": "json::Value, Array and Object own their contents: no double free, no leak, no stack overflow, whatever safe code does", "statement": "For every program of safe operations on json::Value, Array and Object (create, push, pop/remove, truncate, clear, insert, overwrite, mem::replace at any depth, into_iter, partially consume an iterator from either end, collect, clone, clone_from, drop, mem::forget, in any order): nothing is released twice or used after release, and nothing panics; every value, buffer and key ever made is at each moment released exactly once, or owned by exactly one live handle, or was given to mem::forget, so nothing leaks when all handles are gone; a constant native stack suffices for every operation but clone and clone_from, however deep the values; and what the program sees is exactly what it would see if the values were plain immutable data (into_iter yields the elements in order, replaced values come back intact, clones equal the original and share nothing with it).", "quantifier": "every finite program of the listed operations, on values of any size and depth", "why_tests_cant": "the hand-written Drop impls and the unsafe ManuallyDrop/ptr::read move must be right for every sequence of safe operations and every nesting depth", "anchors": ["src/json/drop.rs: safely", "src/json/array.rs: Drop, take, IntoIterator, FromIterator, Clone", "src/json/object.rs: Drop, take, IntoIterator, FromIterator, Clone", "src/json/value.rs: Clone"]}
{"id": "C56", "title": "Generic containers of user-defined types read exactly what their type parameters read", "statement": "For any user-defined T: Deserialize (with side effects, errors and panics of its own): from_str::<Vec<T>> of '[s1,...,sn]' is from_str::<T> of s1, ..., sn one after the other, in that order and with the same side effects, collected, and stops with the first error or panic; [T; N] likewise, failing unless n = N and not reading past element N+1; Option<T> is None for null and Some(from_str::<T>) otherwise; Box<T> is T; (A, B) is A then B; a map is K::from_str of the key and from_str::<T> of the value for each member, inserted in document order; a derived struct starts with each field type's default(), reads each member with the first field type of that name, skips members of unknown names, the last duplicate counts, and fails if a field has no value in the end. Types that report success without filling the place, or that look at the place, are covered by the exact semantics on parse trees.", "quantifier": "every Deserialize impl of the type parameters (arbitrary methods over arbitrary state), every container nesting, every text", "why_tests_cant": "user impls are unboundedly many; tests only instantiate the impls with a few types", "anchors": ["src/de/impls.rs: Box, Option, (A, B), Vec, [T; N], HashMap, BTreeMap", "derive/src/de.rs: derive_struct", "src/json/de.rs: from_str", "src/de/mod.rs: Deserialize"]}
{"id": "C57", "title": "to_string is compositional, whatever user-defined Serialize impls do", "statement": "For any user-defined Serialize impls (with side effects and panics of their own, infinite iterators, handing out values and iterators of the crate or their own): to_string of a reference, Box, Cow or Some(t) is to_string of t; of None and () is null; of a slice, array, Vec or pair is '[' + the texts of the elements, as to_string writes them one after the other with the same side effects, separated by ',' + ']'; of a HashMap or BTreeMap is '{' + quoted key.to_string() + ':' + text of the value for each entry + '}'; of a derived struct its fields' texts under their names in order of declaration; it stops at the first panic. A user-defined sequence or map is driven by next() until None, each value being written before the following next(), and the iterator is dropped once, at its end or by the panic; a panic in that drop during unwinding aborts. to_string has at most one outcome: a text, a panic or an abort, never an error. Whatever to_string returns is the text of exactly one JSON document, and from_str::<Value> accepts it unless a float within 2^-49 of overflow is in it.", "quantifier": "every Serialize impl of the type parameters (arbitrary methods over arbitrary state), every nesting of containers, derived types and user-defined objects, every value", "why_tests_cant": "user impls are unboundedly many and a value's text must not depend on what surrounds it", "anchors": ["src/ser/impls.rs: all impls, TupleStream, SliceStream, HashMapStream, BTreeMapStream", "derive/src/ser.rs: derive_struct, derive_enum", "src/json/ser.rs: to_string, to_string_impl", "src/ser/mod.rs: Serialize, Fragment, Seq, Map"]}
{"id": "C58", "title": "Round trips lift through containers and derived structs", "statement": "If to_string(&t) succeeds and from_str::<T> of it gives back a for each part, whatever the state of the world (user-defined impls on both sides, with side effects), then the same holds for Vec<T>, [T; N], (A, B), Box<T>, None, Some(t) unless t is written as null, maps (keys by ToString and FromStr; the entries come back inserted in the order of writing) and derived structs with distinct field names whose defaults do not panic. Unit, bool, strings, integers and finite f32 come back.", "quantifier": "every pair of user-defined Serialize and Deserialize impls over arbitrary state, every nesting of containers and derived structs", "why_tests_cant": "user impls and nestings are unboundedly many", "anchors": ["src/ser/impls.rs", "src/de/impls.rs", "derive/src/ser.rs: derive_struct", "derive/src/de.rs: derive_struct", "src/json/ser.rs: to_string", "src/json/de.rs: from_str"]}
{"id": "C59", "title": "Derived impls of generic items: available for exactly the instances whose type arguments implement the trait", "statement": "For a generic struct that the derives accept, S<args>: Serialize (Deserialize) holds exactly for the instances of S (arguments meeting S's own bounds and where clause) all of whose type arguments are Serialize (Deserialize); lifetime and const arguments add no requirement. The hidden iterator and builder behind begin exist exactly for the instances that additionally live as long as the borrow; the hidden visitor exactly for the instances that are Deserialize. All hidden types are well-formed, the generated headers have distinct names, lifetimes first and no defaults (unless the item itself uses the lifetime '__a), and hidden fields are distinct exactly if no field is called __out. For an item the derives reject there is a compile error, and the trait counts as implemented for all instances.", "quantifier": "every list of generic parameters (lifetimes, types, consts, with any bounds and defaults), every where clause, every instantiation, every world of types and impls", "why_tests_cant": "generic parameter lists, bounds and instantiations are unboundedly many; trybuild tests check a few compile-fail cases", "anchors": ["derive/src/bound.rs: with_lifetime_bound, where_clause_with_bound", "derive/src/fallback.rs: ser, de", "derive/src/ser.rs: derive_struct, derive_enum", "derive/src/de.rs: derive_struct, derive_enum"]}
{"id": "C60", "title": "Schema evolution: values read back as another type than they were written as", "statement": "A derived struct or a map (with distinct key texts) that was written can be read as another derived struct: fields may be in another order, members that the reader does not know are skipped, and fields that were not written take their default (None for Option<T>). A struct can be read as a map. A value can be read as Option<T> (unless it is written as null) or Box<T>; a pair as a Vec or a [T; 2] and a slice of two as a pair; an integer as any integer type that contains it; a unit variant as a String and a string as the first variant of that name. If a field without default was not written, reading never succeeds.", "quantifier": "every pair of user-defined Serialize and Deserialize impls for the parts, every list of written members, every list of fields of the reader, every state of the world", "why_tests_cant": "pairs of schemas, orders of fields and user impls are unboundedly many", "anchors": ["derive/src/ser.rs: derive_struct, derive_enum", "derive/src/de.rs: derive_struct, derive_enum", "src/de/impls.rs", "src/ser/impls.rs", "src/ignore.rs"]}
{"id": "C61", "title": "No amplification: memory and output are linear", "statement": "At every moment of from_str, for every Visitor and every text, JSON or not, the Seq and Map builders handed out and not yet dropped are at most as many as the brackets nested in the text outside string literals (for a JSON text: the nesting of the document). The value that from_str returns, counted with one for every node and one for every byte of a string or key (None for an absent field counts 0), is no larger than the text. What to_string returns is at most 6 bytes for every byte of a string plus a constant (the longest float text plus 4) for every node, so reading a text as a json::Value and printing it again grows it by at most that constant factor.", "quantifier": "every text, every Visitor, Seq and Map implementation and every prefix of its calls; every type of the modelled universe; every Serialize implementation", "why_tests_cant": "a bound for every document, every moment of a parse and every implementation; tests only sample documents", "anchors": ["src/json/de.rs: from_str_impl, Layer", "src/json/ser.rs: to_string_impl", "src/de/impls.rs", "src/json/value.rs"]}
{"id": "C62", "title": "Erasing lifetimes is sound: the borrow rules hold at run time", "statement": "from_str and to_string keep references and boxes beyond the lifetimes their types would allow (extend_lifetime!, raw pointers). For every implementation of Visitor/Seq/Map and every input the calls they make keep the rules that the borrow checker would have imposed: a Seq or Map is not touched after it was dropped; a visitor obtained from a Seq or Map is not used once that Seq or Map is used again or dropped, and by then every Seq or Map obtained from that visitor has been dropped; a visitor is not used while a Seq or Map obtained from it is alive. The same holds for to_string, with every Serialize impl (values for visitors, iterators for builders). This holds also when methods return errors or panic (for to_string: also when drops panic); afterwards nothing but the caller's reference is alive. For from_str it does not hold if the drop of a user-defined Seq or Map panics.", "quantifier": "every input, every Visitor/Seq/Map implementation whose drops do not panic, every Serialize/Seq/Map implementation, every point at which a method fails or panics", "why_tests_cant": "undefined behaviour from a dangling reference may go unnoticed, and the calls depend on the input, the implementations and the point of failure", "anchors": ["src/careful.rs: extend_lifetime", "src/json/de.rs: from_str_impl, Layer, Deserializer::drop", "src/json/ser.rs: to_string_impl, Layer, Serializer::drop", "src/ptr.rs: NonuniqueBox"]}
{"id": "C63", "title": "from_str and to_string run in linear time", "statement": "For every text (JSON or not), every Visitor/Seq/Map implementation and every outcome, from_str takes at most 45 n + 33 elementary steps for a text of n bytes, where a step is one access to the input, one byte copied, one iteration of the float scaling loop, or one call of a method or drop of the user's implementations; in particular it makes at most that many calls. No string is rescanned, no exponent, however large, costs more than its digits, no depth of nesting and no error costs extra. to_string takes at most 3 steps per byte of the string it returns and makes at most 2 calls per byte. The counts leave nothing out: accepting a text takes at least a step per byte, every call and every byte written is a step.", "quantifier": "every byte sequence, every implementation of Visitor/Seq/Map and Serialize, every outcome", "why_tests_cant": "a bound for every document: worst cases (long exponents, deep nesting, escapes, errors at any point) are unboundedly many, and timing tests only sample", "anchors": ["src/json/de.rs: from_str_impl, parse_str, event, parse_integer, parse_decimal, parse_exponent, f64_from_parts", "src/json/ser.rs: to_string_impl, escape_str"]}
{"id": "C64", "title": "Debug output of json::Value is faithful, injection-free and propagates writer errors", "statement": "For every Value, `{:?}` and `{:#?}` hand any fmt::Write the pieces of one determined text in order, stop at its first error and return that error. Two values print the same text exactly when they are the same (integers may differ in being held as u64 or i64), in both formats, so nothing inside a string, key or number can be mistaken for structure, and no output is the beginning of another one; values with equal Debug output are written as equal JSON. The output is valid UTF-8 without control characters: one line without `#`, with `#` the only control characters are the line breaks between items, each indented by four spaces per level. Formatting recurses natively: it succeeds exactly if the stack has more frames than the value is deep, and so overflows on deep values that from_str accepts.", "quantifier": "every Value, every writer (failing at any call), both formats, every stack budget", "why_tests_cant": "tests compare a few literal outputs; injectivity and the absence of control characters are statements about all pairs of values and all strings, indentation about every nesting depth", "anchors": ["src/json/value.rs: Debug for Value", "src/json/array.rs: Debug for Array", "src/json/object.rs: Debug for Object", "src/json/number.rs: Display for Number"]}
{"id": "C65", "title": "Reading as json::Value and printing is a normal form of JSON documents", "statement": "Call the result of to_string(&from_str::<Value>(s)?) the normal form of s. Every text that is JSON and whose numbers are in range has exactly one. Two texts have the same normal form if and only if their documents say the same: whitespace, the order of object members, members superseded by a later one with the same key, the spelling of strings (escapes) and of integers do not matter, everything else does. Equivalently, two Values with finite floats print the same text iff they are equal (up to integers held as u64 or i64). If all numbers of the document are integers, the normal form says the same as the text, has sorted and distinct keys, is its own normal form (idempotence), and no JSON text that says the same is shorter.", "quantifier": "all JSON texts and pairs of texts, all Values", "why_tests_cant": "an equivalence over all pairs of documents, and a minimum over all texts of a document", "anchors": ["src/json/de.rs: from_str", "src/json/ser.rs: to_string", "src/json/value.rs: Value", "src/json/object.rs: Object", "src/de/impls.rs"]}
{"id": "C66", "title": "A detour through json::Value changes nothing for typed readers", "statement": "If from_str::<T>(s) is Ok(v), and u is the text obtained by reading s as a json::Value and printing it, then from_str::<T>(u) is Ok(v) too, for every type T built from (), bool, String, integers, Box, Option, pairs, Vec, arrays, maps keyed by String or bool and derived types (provided u can be read back as a Value). If all numbers of s are integers within i64/u64 other than -0, this holds for floating point and json::Value targets as well; and if moreover no object repeats a name, from_str::<T>(u) and from_str::<T>(s) agree in every case, errors included, so that any two texts that say the same thing are read in the same way by every type. Without these conditions it is false: a superseded member of the wrong type, -0 for unsigned types, integer-keyed maps with keys \"1\" and \"01\".", "quantifier": "every text, every such type, every environment of derived types", "why_tests_cant": "relates two different readers on all documents", "anchors": ["src/json/de.rs: from_str", "src/json/value.rs", "src/json/ser.rs: to_string", "src/de/impls.rs", "derive/src/de.rs"]}
{"id": "C67", "title": "Reading numbers preserves their order", "statement": "If two number texts have the same power of ten (counting fraction digits and exponent) and digits that fit u64 when read as one integer, the smaller number is never read as the larger f64 (so sorting, comparing or bounding what was read agrees with the text), equal numbers are read as equal doubles, and a number is accepted whenever one of larger magnitude is. Any two literals further apart than the error bounds are read in strict order. For f32 (infinities included) the same holds when both or neither are integer literals. Each condition is needed: 599999999999999999999999 is read as a larger double than 6e23; 18446744073709551615e44 as a larger one than 18446744073709551616e44; 1152921573326323713 as a larger f32 than 1152921573326323714e0.", "quantifier": "all pairs of number literals, signs, magnitudes and spellings included", "why_tests_cant": "pairs of inputs over an infinite domain; order violations sit in single ulps", "anchors": ["src/json/de.rs: f64_from_parts", "src/json/de.rs: parse_exponent", "src/json/de.rs: POW10", "src/de/impls.rs: impl Deserialize for f32/f64"]}
{"id": "C68", "title": "A text is seen from left to right", "statement": "For every user-defined visitor (failing and panicking ones included) the sequence of Visitor/Seq/Map method calls made on a text p is the beginning of the sequence made on every continuation p ++ x, as long as x does not continue a number that ends p; so nothing later in a document influences, delays or suppresses what a visitor was told earlier, and before an error exactly the text before it has been reported. One exception: a text that ends inside a list just opened ('[') asks for an element that '[]' does not ask for.", "quantifier": "all texts, all continuations, all visitors and states", "why_tests_cant": "pairs of texts with a common prefix, for every visitor", "anchors": ["src/json/de.rs: from_str_impl", "src/json/de.rs: Deserializer::event", "src/de/mod.rs: Visitor, Seq, Map"]}
{"id": "C69", "title": "The printed text identifies the value", "statement": "Two values of one type that to_string prints the same are the same value, except for what JSON cannot express: a Some whose content prints null looks like None, non-finite floats look alike (and like null in a json::Value), a nonnegative I64 in a json::Value looks like the U64, and enum variants that share a name look alike. This holds whatever the iteration orders of the HashMaps were, so texts can serve as keys or be compared instead of the values (distinct finite floats, strings, keys, lengths and nestings never collide). Conversely values that differ only in that way print the same texts. For user-defined Serialize impls: equal texts exactly for described trees that differ only in that way.", "quantifier": "all types, all pairs of values, all iteration orders, all user-defined Serialize objects", "why_tests_cant": "pairs of values of every type; a collision can hide in any pair", "anchors": ["src/json/ser.rs: to_string, escape_str", "src/ser/impls.rs", "src/json/value.rs: Serialize for Value", "derive/src/ser.rs"]}
{"id": "C70", "title": "Printed values can be spliced into JSON texts without injection", "statement": "If p ++ [\"\"] ++ q is accepted by from_str::<Value>, then for every JSON text t, in particular for everything to_string prints for any value of any type, p ++ t ++ q is a JSON text too, its only reading is the document of the template with t's document in that one place, and every reader sees exactly that; no string, key or number inside the value can end the literal it stands in, add members or swallow the rest of the template. Texts that to_string printed, one per line, are found again by splitting at line breaks. (A place where only [] or only a string was tried need not accept values, and JSON is not HTML: </script> is printed as it is.)", "quantifier": "all templates (pairs of byte strings), all types, values and texts, all readers", "why_tests_cant": "attacker-controlled values in arbitrary surroundings", "anchors": ["src/json/ser.rs: to_string, escape_str", "src/json/de.rs: from_str, Deserializer::parse_str"]}
{"id": "C71", "title": "Texts can be assembled from, and read in, pieces", "statement": "If an array text is cut at commas between its elements, from_str::<Vec<T>> of the whole succeeds exactly when it succeeds on every piece put into brackets, and returns the results in a row. The members of two object texts written one after the other read, as a map or json::Object, as the first overlaid by the second; appended to the text of a struct, the members of a patch (the same struct with optional fields) replace exactly the fields the patch mentions. The contents of two string literals in a row decode to the two strings in a row. to_string agrees: the text of a ++ b is the text of a and the text of b with a comma between (string contents: with nothing between). Empty pieces, cuts elsewhere and explicit nulls in a patch are excluded, with counterexamples. For user-defined element types, with whatever effects, failures and panics: reading the whole makes the calls of reading the first piece and then, in the state that leaves, those of reading the second.", "quantifier": "all types, all texts and all ways of cutting them, all values", "why_tests_cant": "arbitrary many pieces, arbitrary types and texts, whitespace, duplicate and unknown members, escapes next to the cut", "anchors": ["src/json/de.rs: from_str_impl, parse_str", "src/de/impls.rs: VecBuilder, MapBuilder", "derive/src/de.rs: deserialize_struct", "src/json/ser.rs: to_string_impl, escape_str"]}
{"id": "C72", "title": "Widening the target type never breaks reading", "statement": "If T' is wider than T, from_str::<T'> succeeds on every text on which from_str::<T> does, with the converted result. Wider are: integer types of larger range, f64/f32/Number for integers, Number for f64 and back, Option<T> for a T that is never null, Box added or removed, Vec for arrays and tuples, tuples for [T; 2] and back, maps with wider keys and values, String for an enum, an enum with more variants in any order, a struct with some of the fields in any order, each of a wider type; recursively and through recursive types. Fields and variants are matched by name, map keys and element order are kept. Whatever any type reads is read as json::Value. Not widenings, with counterexamples: adding an optional field (old texts may carry anything under its name), boxing an optional field, string keys for integer keys.", "quantifier": "all pairs of types in the relation, all declarations that respect it, all texts", "why_tests_cant": "all texts and all nestings of the rules, recursive types, duplicate and unknown members", "anchors": ["src/de/impls.rs: impls for integers, floats, Option, Box, tuples, arrays, Vec, maps", "derive/src/de.rs: deserialize_struct, deserialize_enum", "src/json/value.rs, src/json/number.rs: Deserialize"]}
{"id": "C73", "title": "The members of a JSON object are unordered", "statement": "If two texts contain the same document up to white space, the spelling of strings and the order of the members of objects at every depth (members with equal names keep their relative order), then from_str gives the same outcome on both, value or error, for every target type in which no map has integer keys: structs, maps, json::Value, Object, ignored members, Box, Option, sequences of these. In particular any permutation of members with distinct names, and any exchange of neighbours with different names. For every type, maps with integer keys included, members may change places whose names no key type reads as the same key: names that do not begin with a digit or a sign, names of different integers. Not so, with counterexamples: members with equal names exchanged, keys of an integer-keyed map that spell the same integer, elements of arrays.", "quantifier": "all pairs of reordered texts, all types and declarations (for the first part without integer-keyed maps)", "why_tests_cant": "all documents, nestings and permutations, with duplicates, unknown members and any numbers; both acceptance and refusal", "anchors": ["src/de/impls.rs: maps, Vec, Box, Option", "derive/src/de.rs: deserialize_struct", "src/json/value.rs, src/json/object.rs: Deserialize", "src/json/de.rs: from_str"]}
