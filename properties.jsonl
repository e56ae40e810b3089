{"id": "C01", "title": "Whitespace normalization computes the XML Schema result", "statement": "normalize(s, Preserve) returns s; normalize(s, Replace) returns s with every tab, LF, CR and space turned into one space and nothing else changed; normalize(s, Collapse) returns the maximal whitespace-free words of s, in order, joined by single spaces.", "quantifier": "every string and every WhiteSpace mode", "why_tests_cant": "the in-place buffer algorithm has data-dependent index arithmetic (copy ranges, output cursor); a few literals cannot cover every layout of whitespace runs", "anchors": ["static-xml/src/de/mod.rs::normalize", "static-xml/src/de/mod.rs::WhiteSpace"]}
{"id": "C02", "title": "Whitespace normalization never produces invalid UTF-8", "statement": "When the input is the UTF-8 encoding of a sequence of Unicode scalar values, the bytes handed to String::from_utf8_unchecked are the UTF-8 encoding of the character-level normalization of that sequence, and no index used by the algorithm is out of bounds.", "quantifier": "every sequence of Unicode scalar values and every WhiteSpace mode", "why_tests_cant": "soundness of an unsafe call for all inputs, including multi-byte characters next to every kind of whitespace run", "anchors": ["static-xml/src/de/mod.rs::normalize"]}
{"id": "C03", "title": "Normalization is idempotent and its output is in normal form", "statement": "Normalizing twice with the same mode equals normalizing once; collapse after replace equals collapse; a collapsed string has no tab/LF/CR, no leading or trailing space and no two adjacent spaces, and is never longer than the input.", "quantifier": "every string", "why_tests_cant": "an algebraic law over all strings", "anchors": ["static-xml/src/de/mod.rs::normalize"]}
{"id": "C04", "title": "Boolean text follows XML Schema and round-trips", "statement": "bool::parse accepts exactly the strings that are, after removing leading and trailing tab/LF/CR/space, 'true','1' (giving true) or 'false','0' (giving false) and returns an error for every other string; bool::parse(b.to_text()) is b.", "quantifier": "every string and both booleans", "why_tests_cant": "exactness (nothing else is accepted) ranges over all strings", "anchors": ["static-xml/src/de/mod.rs::impl ParseText for bool", "static-xml/src/ser/mod.rs::text_from_display"]}
{"id": "C05", "title": "Integer text: exact range checks and round-trip", "statement": "For each of i8,u8,i16,u16,i32,u32,i64,u64,i128,u128: parse accepts a string iff, after trimming XML whitespace, it is an optional sign ('-' only for signed types) followed by one or more decimal digits whose value lies in the type's range, and then returns precisely that value; it never wraps. parse(to_text(z)) is z for every z in range. to_text writes the usual numeral: no leading zeros, no plus sign.", "quantifier": "every string, every integer type, every value of the type", "why_tests_cant": "2^128 values and infinitely many strings; boundary overflow behaviour", "anchors": ["static-xml/src/de/mod.rs::text_for_num", "static-xml/src/ser/mod.rs::text_from_display"]}
{"id": "C06", "title": "Restriction enums: exact language and round-trip", "statement": "For a derived restriction enum, parse(text) normalizes text and returns the first known variant whose fixed string equals the result, else the unknown variant holding the normalized text, else an error. to_text then parse returns the same value whenever fixed strings are distinct and fixed by the normalization and an unknown payload is normalized and not a fixed string.", "quantifier": "every restriction enum description, every text, every value", "why_tests_cant": "must hold for every enum a user may derive and every input", "anchors": ["static-xml-derive/src/parse.rs::do_restriction", "static-xml-derive/src/to_text.rs::do_restriction", "static-xml-derive/src/common.rs::TextEnum::parse_restriction_fields"]}
{"id": "C07", "title": "Union enums: first variant that parses wins; failure only when all fail", "statement": "For a derived union enum, parse(text) returns the first variant, in declaration order, whose type parses the normalized text, and an error iff every variant rejects it, in which case the message carries every variant's error in order. A value round-trips iff no earlier variant accepts its text (and the payload's own text round-trips).", "quantifier": "every union description (nested to any depth), every text, every value", "why_tests_cant": "quantifies over all derivable unions and texts", "anchors": ["static-xml-derive/src/parse.rs::do_union", "static-xml-derive/src/to_text.rs::do_union", "static-xml/src/de/mod.rs::union_error"]}
{"id": "C08", "title": "Text types read through an element and through an attribute agree", "statement": "Deserializing a text type from an element whose text content is s, and from an attribute whose value is s, both yield parse(s): same value or an error with the same message.", "quantifier": "every text type, every s, every way the content is split into text, CDATA, comments and processing instructions", "why_tests_cant": "all texts and all splittings", "anchors": ["static-xml/src/de/mod.rs::impl Deserialize for T: ParseText", "static-xml/src/de/mod.rs::impl DeserializeAttrField for T", "static-xml/src/de/mod.rs::ElementReader::read_string"]}
{"id": "C09", "title": "Name lookup finds a name iff it is in the table", "statement": "find(name, table) on a table that is strictly sorted by (namespace, local name) returns Some(i) exactly when table[i] is name, and None exactly when name is absent.", "quantifier": "every name and every sorted table of any length, for both the old and the current std binary-search algorithm", "why_tests_cant": "all table sizes and positions", "anchors": ["static-xml/src/de/mod.rs::find", "static-xml/src/lib.rs::ExpandedNameRef (derived Ord)"]}
{"id": "C10", "title": "The tables the derive macro generates are sorted, so every declared name is reachable", "statement": "For every struct (with distinct field names) the generated ELEMENTS and ATTRIBUTES tables are strictly sorted in the order find uses and index back to the field with that name; the same holds for the generated ELEMENTS table of every enum.", "quantifier": "every struct and enum description", "why_tests_cant": "all derivable types; depends on two different sort keys agreeing", "anchors": ["static-xml-derive/src/common.rs::ElementStruct::new", "static-xml-derive/src/common.rs::ElementEnum::new", "static-xml-derive/src/deserialize.rs::do_struct", "static-xml-derive/src/deserialize.rs::do_enum", "static-xml/src/de/mod.rs::find"]}
{"id": "C11", "title": "The event reader implements the document tree: the stream never gets out of sync", "statement": "Reading a document with any visitor gives the same result as walking the document tree: every visitor is offered exactly the attributes of its own element and then its direct children (text and elements) in document order, no matter whether nested readers were consumed, partly consumed, failed or dropped.", "quantifier": "every document (any depth and width), every user-written or derived visitor and every Deserialize impl", "why_tests_cant": "quantifies over all documents and all visitor programs", "anchors": ["static-xml/src/de/mod.rs::ElementReader::read_to", "static-xml/src/de/mod.rs::Reader::next", "static-xml/src/de/mod.rs::Reader::return_to_depth", "static-xml/src/de/mod.rs::read"]}
{"id": "C12", "title": "A child reader that is dropped or abandoned is skipped completely", "statement": "If a visitor ignores a child element, or stops after reading only part of it, the next thing its parent's visitor sees is the child's next sibling; nothing inside the child leaks into the parent.", "quantifier": "every subtree and every point at which reading the child is abandoned", "why_tests_cant": "all subtrees and all abandonment points", "anchors": ["static-xml/src/de/mod.rs::Reader::return_to_depth", "static-xml/src/de/mod.rs::ElementReader::read_to"]}
{"id": "C13", "title": "Reading always terminates with Ok or Err", "statement": "On every event stream xml-rs can deliver (a complete document, or any prefix of one followed by an error) read() returns Ok or Err: no infinite loop, no arithmetic underflow, no index out of bounds, no failed debug assertion.", "quantifier": "every document, every truncation or corruption point, every visitor", "why_tests_cant": "all crash points of the input stream and all visitors", "anchors": ["static-xml/src/de/mod.rs::read", "static-xml/src/de/mod.rs::Reader::next", "static-xml/src/de/mod.rs::Reader::return_to_depth", "static-xml/src/de/mod.rs::Reader::end"]}
{"id": "C14", "title": "A visitor may recover from an error in a child in release builds, not in debug builds", "statement": "In release builds a visitor that handles an Err from reading a child (for instance to skip malformed entries) and returns Ok can go on: the parent continues with the next sibling. In debug builds this is not so: there is a visitor and a document for which the release build returns Ok and the debug build panics in the reader's own assertion.", "quantifier": "every document and every visitor that swallows errors", "why_tests_cant": "depends on the position at which the nested reader stopped", "anchors": ["static-xml/src/de/mod.rs::Reader::next (debug_assert_eq)", "static-xml/src/de/mod.rs::Reader::return_to_depth"]}
{"id": "C15", "title": "Ok means the whole document was read and well-formed", "statement": "read() returns Ok only if the stream delivered the complete document up to EndDocument with nothing but comments and processing instructions after the root; a truncated or corrupt tail, or a second root element or text after the root, yields Err whatever the deserializer does.", "quantifier": "every event stream and every deserializer", "why_tests_cant": "all truncation points, all deserializers (including ones that ignore their input)", "anchors": ["static-xml/src/de/mod.rs::read", "static-xml/src/de/mod.rs::Reader::end"]}
{"id": "C16", "title": "Errors carry the exact element path", "statement": "When a deserializer error is wrapped, Error::stack() is the list of elements from the root down to the element being processed (including one whose end tag was just read, as for missing-field errors), with their names and start positions, and the reported position is the one of that element's start (or of the text that failed; errors of the root's own deserializer are reported at its end tag once it was read). Errors of the XML parser carry the elements open at that point.", "quantifier": "every document and every derived type", "why_tests_cant": "all documents, all failure points", "anchors": ["static-xml/src/de/mod.rs::VisitorError::wrap", "static-xml/src/de/mod.rs::ElementReader::read_to", "static-xml/src/de/mod.rs::Error::stack"]}
{"id": "C17", "title": "Comments, processing instructions, whitespace-only runs and CDATA boundaries are invisible", "statement": "Inserting or removing comments, processing instructions or whitespace-only text anywhere, and re-delivering text as CDATA, does not change the value read (nor the error kind and element names in its path) by any visitor that ignores positions. (Insertions between events; a comment inside a text splits it, see C08 for text types.)", "quantifier": "every document, every set of insertions", "why_tests_cant": "all placements", "anchors": ["static-xml/src/de/mod.rs::Reader::next", "static-xml/src/de/mod.rs::Reader::root"]}
{"id": "C18", "title": "Text elements: all text is concatenated, attributes are ignored, child elements are rejected", "statement": "Reading a String from an element returns the concatenation, in order, of all its text and CDATA, whatever its attributes; if it contains any child element the result is an error (the documentation says child elements are ignored; they are not).", "quantifier": "every element content", "why_tests_cant": "all contents", "anchors": ["static-xml/src/de/mod.rs::ElementReader::read_string"]}
{"id": "C19", "title": "Names are compared by namespace URL and local name, never by prefix", "statement": "The value a derived type reads from a document does not depend on the prefixes used in it, only on the (namespace URL, local name) of each element and attribute; the xml prefix always means the XML namespace; the root element's own name is not checked.", "quantifier": "every derived type, every document and every renaming of prefixes", "why_tests_cant": "all documents and prefix assignments", "anchors": ["static-xml/src/lib.rs::ExpandedNameRef::from_xml_name", "static-xml/src/de/mod.rs::find", "static-xml/src/de/mod.rs::read"]}
{"id": "C20", "title": "The printed form of an expanded name determines it", "statement": "Display of an expanded name is the local name when the namespace is empty and {namespace}local otherwise; two names that print the same are equal (names being XML names, i.e. local names without '{' and namespaces without '}').", "quantifier": "all pairs of names", "why_tests_cant": "all pairs of strings", "anchors": ["static-xml/src/lib.rs::ExpandedNameRef::fmt"]}
{"id": "C21", "title": "Derived deserializers never touch uninitialized memory and never overwrite a live value", "statement": "While reading any document, generated code reads or updates a field only after that field was initialized, writes it only while it is uninitialized, and returns Ok only when every field of the struct (or the enum) has been initialized, so assume_init is sound.", "quantifier": "every derived type (any nesting, recursion, flattening, even with clashing names), every document", "why_tests_cant": "soundness over all inputs and all types", "anchors": ["static-xml-derive/src/deserialize.rs::do_struct", "static-xml-derive/src/deserialize.rs::do_enum", "static-xml/src/de/mod.rs::RawDeserializeVisitor", "static-xml/src/de/mod.rs::impl_deserialize_via_raw"]}
{"id": "C22", "title": "Values are leaked when deserialization fails, and only then", "statement": "When a derived deserializer returns Ok no value it constructed was leaked. It is not so on Err: there are a struct and a document for which the fields already read are leaked (the generated visitors store them in MaybeUninit and have no Drop).", "quantifier": "every derived type and every event stream", "why_tests_cant": "all failure points", "anchors": ["static-xml-derive/src/deserialize.rs::do_struct", "static-xml-derive/src/deserialize.rs::finalize_visitor_fields", "static-xml/src/de/mod.rs::impl_deserialize_via_raw"]}
{"id": "C23", "title": "Derived structs: each field is exactly determined by the document", "statement": "Reading a derived struct succeeds iff each field can be filled: a plain element field has exactly one child of its name (or none and a default), an Option at most one, a Vec any number, an attribute field its attribute (or none if optional or defaulted), each of which itself reads; and then each field holds exactly those values, Vec items in document order.", "quantifier": "every struct type (recursive, nested), every document", "why_tests_cant": "all types and documents; both directions", "anchors": ["static-xml-derive/src/deserialize.rs::do_struct", "static-xml/src/de/mod.rs::impl DeserializeElementField", "static-xml/src/de/mod.rs::impl DeserializeAttrField"]}
{"id": "C24", "title": "Unknown attributes, elements and text are ignored", "statement": "Adding or removing attributes, child elements or text that no field of a derived struct claims does not change the value read.", "quantifier": "every struct type (also with flattened fields) and every enum type, every document, every set of unknown children, at every depth", "why_tests_cant": "all insertions", "anchors": ["static-xml-derive/src/deserialize.rs::do_struct (fallthrough)", "static-xml/src/de/mod.rs::ElementVisitor"]}
{"id": "C25", "title": "Order of children of different names does not matter", "statement": "Two documents whose root children, restricted to each declared name, form the same sequence read as the same struct value.", "quantifier": "every struct type and every interleaving of its children", "why_tests_cant": "all permutations", "anchors": ["static-xml-derive/src/deserialize.rs::element_match_branches"]}
{"id": "C26", "title": "Duplicates of singleton fields and missing required fields are errors", "statement": "A second occurrence of an attribute or of a plain/Option element field, or the absence of a required one, always makes deserialization fail; the value is never silently overwritten.", "quantifier": "every struct type and document", "why_tests_cant": "all positions of the duplicate", "anchors": ["static-xml-derive/src/deserialize.rs::attribute_match_branches", "static-xml/src/de/mod.rs::VisitorError::duplicate_element", "static-xml/src/de/mod.rs::VisitorError::missing_element"]}
{"id": "C27", "title": "Derived enums hold exactly one variant", "statement": "Reading a derived enum succeeds iff some child names a variant, every child naming a variant names the same one, and that variant's field accepts those children; it then returns that variant. A mix of variants or no variant is an error.", "quantifier": "every enum type and document", "why_tests_cant": "all documents", "anchors": ["static-xml-derive/src/deserialize.rs::do_enum"]}
{"id": "C28", "title": "Flattened fields are offered unclaimed children in declaration order, until one has its variant", "statement": "A child element no own field claims is offered to the flattened fields in declaration order; a flattened enum that already has a variant takes every child offered to it, so later flattened fields only see the children before the first one an earlier field recognised. (Hence the documented rule, that unknown children are offered to each flattened field, fails: two flattened enums read <b/><a/> but not <a/><b/>.)", "quantifier": "every struct with flattened fields and every document", "why_tests_cant": "all interleavings of children of several flattened fields", "anchors": ["static-xml-derive/src/deserialize.rs::do_enum", "static-xml/src/de/mod.rs::delegate_element", "static-xml/src/lib.rs (docs on flatten)"]}
{"id": "C29", "title": "Serialization succeeds only with a well-formed document that says what the program asked for", "statement": "For any Serialize implementation, whatever it does with builders and writers and whatever results it ignores, if Serializer::to returns Ok then the events written form exactly one balanced element tree: the elements, attributes and text the implementation asked for, in order, and every write succeeded.", "quantifier": "every Serialize implementation (arbitrary program over the API), every sink and I/O failure pattern", "why_tests_cant": "all programs and all failure schedules", "anchors": ["static-xml/src/ser/mod.rs::Serializer::to", "static-xml/src/ser/mod.rs::ElementBuilder", "static-xml/src/ser/mod.rs::ElementWriter", "static-xml/src/ser/mod.rs::WrappedWriter"]}
{"id": "C30", "title": "Dropped builders or writers and failed writes poison the output", "statement": "If any ElementBuilder is dropped before start, any ElementWriter is dropped before finish, or any write fails, Serializer::to returns Err even if the program ignores the error; if such a drop is the first failure its error says which of the two was dropped; after the first failure nothing more is written; the error reported is the first failure, unless the program itself returns an error (then that one is reported, even if it came later).", "quantifier": "every Serialize implementation and every I/O failure point", "why_tests_cant": "all crash points and programs", "anchors": ["static-xml/src/ser/mod.rs::impl Drop for ElementBuilder", "static-xml/src/ser/mod.rs::impl Drop for ElementWriter", "static-xml/src/ser/mod.rs::WrappedWriter::write"]}
{"id": "C31", "title": "Serialized names resolve to the names requested", "statement": "Reading the written tags by the XML Namespaces rules gives back exactly the (namespace, local name) of every element and attribute the program asked for, provided the mappings are legal XML, an element that asks for a default namespace is in a namespace itself, as are all elements in it, and each prefix means the same URL wherever it is mapped, ns1 included where it is generated for an attribute in a default namespace (the last is only needed because the event writer omits a declaration that any enclosing element has made). Without these conditions names can silently change their namespace.", "quantifier": "every Serialize implementation, any nesting and any (re)declaration of prefixes", "why_tests_cant": "all nestings of namespace declarations", "anchors": ["static-xml/src/ser/mod.rs::NamespacesBuilder::finalize", "static-xml/src/ser/mod.rs::Namespaces::child", "static-xml/src/ser/mod.rs::Namespaces::resolve_element", "static-xml/src/ser/mod.rs::Namespaces::resolve_attribute"]}
{"id": "C32", "title": "Prefix assignment terminates, is one-to-one and covers everything needed", "statement": "finalize terminates; no two namespaces get one prefix and none gets two; every namespace declared or used on the element gets a prefix; names are written with these prefixes, and an attribute in a namespace always with a non-empty one.", "quantifier": "every set of requested mappings", "why_tests_cant": "all collision patterns", "anchors": ["static-xml/src/ser/mod.rs::NamespacesBuilder::finalize", "static-xml/src/ser/mod.rs::NamespacesBuilder::insert", "static-xml/src/ser/mod.rs::NamespacesBuilder::attribute"]}
{"id": "C33", "title": "Attributes of one element are distinct; the first value wins", "statement": "A start tag never carries two attributes with the same expanded name; a second attribute() call with the same name returns an error naming the attribute and leaves the first value in place.", "quantifier": "every sequence of builder calls", "why_tests_cant": "all call sequences", "anchors": ["static-xml/src/ser/mod.rs::ElementBuilder::attribute"]}
{"id": "C34", "title": "Which prefixes are chosen", "statement": "Whenever the prefixes wanted on an element do not clash, each namespace gets the prefix it wants: the parent's for the element's own namespace if the parent maps it, otherwise the first one given on the builder, or the parent's if an attribute came first. In general the mappings on each start tag are exactly these: in the order of their URLs, each needed namespace takes the prefix it wants if no earlier one took it and it is not the empty prefix needed by an attribute, otherwise the first free one of p2, p3, ... (ns1, ns2, ... for the empty prefix); then the parent's other mappings are kept whose prefix was not taken. The three documented exceptions do not hold as documented: the parent's prefix is not used for other namespaces, a flattened field's mapping can win over its container's, and a namespace mapped both as default and with a prefix gets a generated prefix when an attribute uses it.", "quantifier": "every nesting of namespace declarations", "why_tests_cant": "all declarations", "anchors": ["static-xml/src/lib.rs (docs on namespace)", "static-xml/src/ser/mod.rs::NamespacesBuilder::insert", "static-xml-derive/src/serialize.rs::write_struct_attributes"]}
{"id": "C35", "title": "Serializing a derived value never panics, unless a default namespace meets an un-namespaced element or the caller's name is undeclared", "statement": "Serializer::to on any value of a derived type returns Ok or Err whatever the writer does, provided each name's namespace is declared on its own type, no declared prefix begins with xml, the XML namespace is not made a default namespace, and default namespaces are not combined with element names without namespace; with distinct attribute names and a writer that does not fail it returns Ok. Without the last condition it panics: a struct with default_namespace and a plain field panics for every value. serialize_with_name panics on a name whose namespace the value's type does not declare.", "quantifier": "every derived type and value, every failure pattern of the writer", "why_tests_cant": "all types, values and namespace layouts", "anchors": ["static-xml/src/ser/mod.rs::Namespaces::resolve_element", "static-xml/src/ser/mod.rs::Namespaces::resolve_attribute", "static-xml-derive/src/serialize.rs::do_struct"]}
{"id": "C36", "title": "A derived value serializes to exactly its attribute, element and flattened fields; text fields are lost", "statement": "The document written for a derived value has exactly its attribute fields as attributes (in declaration order) and then one child per element-field occurrence (none for None, one per Vec item) in declaration order followed by flattened fields' children, recursively, both as events and as namespace-resolved names. Documented text fields are not written: all values of such a field give the same document.", "quantifier": "every derived type and value", "why_tests_cant": "all types and values", "anchors": ["static-xml-derive/src/serialize.rs::write_struct_attributes", "static-xml-derive/src/serialize.rs::write_struct_elements", "static-xml/src/ser/mod.rs::impl SerializeField"]}
{"id": "C37", "title": "Serializing a skipped enum variant silently succeeds and writes nothing, although documented to be an error", "statement": "The documentation says that serializing a value whose variant is marked skip produces an error. In fact such a value has the enum's namespace mappings and no children, for every enum, and serialization of the value, or of a struct flattening it, returns Ok.", "quantifier": "every enum with skipped variants and every such value", "why_tests_cant": "all enums", "anchors": ["static-xml-derive/src/serialize.rs::do_enum", "static-xml/src/lib.rs (docs on skip)"]}
{"id": "C38", "title": "Round trip: reading what was written returns the same value", "statement": "Reading the document produced by serializing a value v of a derived type yields v exactly when v survives: its text leaves parse back (blank element text being lost), absent Option/Vec fields have matching defaults, at most one field is flattened and its variant is not shadowed, and enums hold a non-skipped variant with a non-empty payload. For types built from lossless leaves, with at most one flattened enum and enum variants holding plain types, every value is read back unchanged. Different surviving values are written differently, and stay different however the documents are indented. (Names of a type must not clash, and its namespaces must be declared as C31 and C35 ask.)", "quantifier": "every derived type (nested, recursive, with attributes, Option, Vec, enums, namespaces, flattened enums) and every value", "why_tests_cant": "all types and values", "anchors": ["static-xml/src/ser/mod.rs::Serializer::to", "static-xml/src/de/mod.rs::read", "static-xml-derive/src/deserialize.rs", "static-xml-derive/src/serialize.rs"]}
{"id": "C39", "title": "Round trip fails for blank strings, empty enum payloads, skipped variants and several flattened fields", "statement": "A string element consisting of whitespace only is read back as the empty string; the document written for an enum variant holding an empty Vec or None, for a skipped variant, or for any value of a struct with two or more flattened enums, is always refused with an error when read as the same type.", "quantifier": "every such value", "why_tests_cant": "corner cases that example tests rarely include", "anchors": ["static-xml/src/de/mod.rs::Reader::next (Whitespace)", "static-xml-derive/src/deserialize.rs::do_enum"]}
{"id": "C40", "title": "Indentation and the document declaration do not affect what is read back", "statement": "perform_indent (whitespace inserted between the tags of element-only content) and write_document_declaration do not change the value read back.", "quantifier": "every derived type, value and placement of indentation", "why_tests_cant": "all placements", "anchors": ["static-xml/src/ser/mod.rs::Serializer::perform_indent", "static-xml/src/ser/mod.rs::Serializer::write_document_declaration"]}
{"id": "C41", "title": "Prefixes used in derive attributes must be declared and mean the declared URL", "statement": "The derive macros accept a declaration without errors exactly if its attributes have a meaning, and then each prefixed field, variant or type name carries exactly the URL its type-level namespace attribute maps that prefix to (xml being predefined), an unprefixed name has no namespace, and an undeclared prefix, a prefix declared twice, or two prefixes on a field or variant are compile errors. The macro panics exactly for namespace items whose prefix begins with xml. (Two prefixes on a type are silently accepted, and xml can be redefined by writing a space before it: both are exhibited.)", "quantifier": "every declaration: attribute lists, field and variant lists", "why_tests_cant": "all attribute lists, item orders and strings", "anchors": ["static-xml-derive/src/common.rs::Namespaces::process_prefix", "static-xml-derive/src/common.rs::Namespaces::add_namespace", "static-xml-derive/src/common.rs::ElementAttr::new", "static-xml-derive/src/common.rs::ElementField::new", "static-xml-derive/src/common.rs::ElementEnum::new"]}
{"id": "C42", "title": "Field modes are mutually exclusive and misuse is reported", "statement": "A field accepted without errors is exactly one of element, attribute, flatten or text; combining two of them, flatten with default, two text fields, an unknown item or a non-string literal, an unsupported shape of struct or variant always yields a compile error. (Exceptions, exhibited: items after skip on a variant, and a non-string prefix literal on a type that is followed by another prefix, are not reported; text fields cannot be deserialized at all.)", "quantifier": "every declaration", "why_tests_cant": "all combinations of items", "anchors": ["static-xml-derive/src/common.rs::ElementField::new", "static-xml-derive/src/common.rs::ElementStruct::new", "static-xml-derive/src/common.rs::ElementEnum::new", "static-xml-derive/src/common.rs::get_meta_items", "static-xml-derive/src/common.rs::with_lit_str"]}
{"id": "C43", "title": "The printed error lists the whole element stack, innermost first", "statement": "Display of a deserialization error prints its message (that of the XML parser or of the code that reported it, or the reader's own, where element names are printed with their namespace) and position and then, for a non-empty stack, one line per stack element from the innermost to the root, each with its index, qualified name and position.", "quantifier": "every error", "why_tests_cant": "all stack depths", "anchors": ["static-xml/src/de/mod.rs::impl Display for Error"]}
{"id": "C44", "title": "Text type declarations mean what their attributes say, or are rejected", "statement": "derive(ParseText) and derive(ToText) accept a declaration exactly if it names one mode once (std, restriction, union), whitespace is one of the three policies (the last one counts), restriction variants are either unit variants with at most a rename or marked unknown with a single field, at most one being unknown, and union variants have a single unnamed field and no attributes; they never panic. (Two variants with the same text are accepted: exhibited.)", "quantifier": "every declaration of a text type", "why_tests_cant": "all attribute lists and variant lists", "anchors": ["static-xml-derive/src/common.rs::TextAttr::new", "static-xml-derive/src/common.rs::TextEnum::parse_restriction_fields", "static-xml-derive/src/common.rs::TextEnum::parse_union_fields", "static-xml-derive/src/parse.rs::derive", "static-xml-derive/src/to_text.rs::derive"]}
{"id": "C45", "title": "From source to document: accepted programs serialize without panic and read back", "statement": "The type a declaration means (name, namespaces, fields and variants in order with names, kinds, defaults) is exactly what its attributes and field types say, and nothing is generated otherwise. For every program whose declarations the derive macros accept, every name the generated code writes is in a namespace the type declares; if no type declares a prefix beginning with xml, and either no type declares a default namespace or all names of types, element fields and variants are in some namespace (other than that of XML), serializing any value of a derived type never panics; if moreover all types agree about legal URLs for prefixes (and about ns1, where it is generated for attributes in a default namespace), names do not clash and types are lossless, the document is read back as the same value.", "quantifier": "every program (set of derive inputs) and every value", "why_tests_cant": "all programs, values and writer failures", "anchors": ["static-xml-derive/src/lib.rs", "static-xml-derive/src/common.rs::ElementStruct::new", "static-xml-derive/src/common.rs::ElementEnum::new", "static-xml-derive/src/serialize.rs", "static-xml-derive/src/deserialize.rs"]}
{"id": "C46", "title": "The error reported is the first fault in document order, with a definite message, stack and position", "statement": "Deserializing a document as a derived type fails with error e exactly if e describes the first fault of the document: within an element, attributes come first (a second attribute for the same field, or a value that does not parse, reported at the start tag), then children in order (a child that may not be there - a second element for a field that is neither Vec nor flattened, or a child naming another variant than the one already chosen - or the first fault inside a child that is read), and last what is missing at the end (the first field in declaration order that is neither present nor optional nor defaulted, or a flattened or enum type without any variant). A fault of a child element as a whole is reported at the start of the child with the stack ending in it; one of the root element at its end. Text elements fail at their first child element or with the text parser's message. Each document has at most one first fault, and has one exactly if it does not read as a value.", "quantifier": "every derived type (nested, recursive, flattened enums, defaults) and every document", "why_tests_cant": "all documents, sibling orders, depths and types", "anchors": ["static-xml/src/de/mod.rs::ElementReader::read_to", "static-xml/src/de/mod.rs::VisitorError", "static-xml-derive/src/deserialize.rs::do_struct", "static-xml-derive/src/deserialize.rs::do_enum"]}
{"id": "C47", "title": "Load, save, load: a value that was read survives being written and read again", "statement": "If a document reads as v for a derived type, then serializing v succeeds and the document written (indented or not) reads as v again, provided each leaf type parses what it prints for a parsed value (true for strings, booleans, integers and every restriction enum; for floats, std types and unions under stated conditions), no element holds only blank CDATA, the default values survive themselves, and no struct has two flattened fields. Unlike C38, variants may hold Option or Vec and may be skipped, and restriction texts need not be distinct or normalized. Without the conditions on unions, what was read as one variant may come back as another; with two flattened fields what was read and written may be refused: both are exhibited.", "quantifier": "every derived type and every document that reads as a value of it", "why_tests_cant": "all types and documents", "anchors": ["static-xml/src/de/mod.rs::read", "static-xml/src/ser/mod.rs::Serializer::to", "static-xml-derive/src/deserialize.rs", "static-xml-derive/src/serialize.rs", "static-xml-derive/src/parse.rs", "static-xml-derive/src/to_text.rs"]}
{"id": "C48", "title": "Truncated or malformed input: the fault that came first is reported, at once", "statement": "When the XML parser fails part-way (malformed or truncated input, I/O error), reading returns that error with the elements open at that point and the parser's position, unless an error about the content was found before; such an error is the same for every way the input could have gone on. An error about an element is reported before anything after that element's end tag is looked at. For derived types: a document cut off anywhere gives the parser's error or the document's first fault, and a valid document cut off anywhere always gives exactly the parser's error.", "quantifier": "all event sequences, all points of failure, all user code that hands on reading errors; all derived types and documents", "why_tests_cant": "every prefix of every document, and every continuation of it", "anchors": ["static-xml/src/de/mod.rs::read", "static-xml/src/de/mod.rs::Reader::next", "static-xml/src/de/mod.rs::ElementReader::read_to", "static-xml/src/de/mod.rs::ElementReader::read_string", "static-xml-derive/src/deserialize.rs"]}
{"id": "C49", "title": "Documents and the XML schema a derived type stands for", "statement": "A struct stands for a sequence of its element fields in the order of their declaration (once for T, at most once for Option<T>, any number for Vec<T>, possibly absent if marked default) with its attributes; an enum stands for a choice between its variants' elements; a flattened enum is a choice inside the sequence. If flattened fields are declared last and no enum holds a skipped variant, None or an empty Vec, what is written is valid for this schema (names must not clash, and namespaces must be declared as C31 and C35 ask). Every document that is valid for it is read successfully, whatever its root element is called, with or without white space between elements, provided no struct has two flattened fields or a flattened variant called like one of its element fields. Reading and writing again makes a valid document of every readable one, with the same value (conditions as in C47; defaults must be writable as valid elements).", "quantifier": "all derived types (recursive), all values, all valid documents", "why_tests_cant": "infinitely many documents for each schema", "anchors": ["static-xml/src/lib.rs", "static-xml-derive/src/deserialize.rs", "static-xml-derive/src/serialize.rs"]}
{"id": "C50", "title": "Derived code next to hand-written implementations", "statement": "A derived type may have fields whose Deserialize implementation is written by hand, and hand-written implementations may deserialize derived types. Whatever safe hand-written code does (swallow errors, skip elements, panic), and whatever events the parser reports, derived code never reads uninitialized memory, never overwrites a live value and never loses track of a field; reading fails to return only by a panic of the hand-written code or one of the reader's own assertions. If hand-written code neither panics nor (in debug builds) swallows errors, reading always returns a value or an error. Types that use no hand-written code are read as if there were none. Hand-written code that uses no derived type is run as if there were none, and hand-written code that calls another type's deserialize sees exactly the value or error that it returns.", "quantifier": "all derived types, all hand-written code (any state, any callbacks), all event streams, debug and release", "why_tests_cant": "hand-written code is unbounded; a test fixes one program", "anchors": ["static-xml/src/de/mod.rs", "static-xml-derive/src/deserialize.rs"]}
{"id": "C51", "title": "Values read when fields have hand-written implementations", "statement": "For a derived type some of whose fields have hand-written Deserialize implementations: if the hand-written implementations return, for every element, what a given relation says, then reading any document as any type of the program gives a value exactly if that relation, extended to derived types field by field (attributes by name, each child element to the field of its name, optional, repeated, flattened and default fields as for derived types), relates the root element to the value. The derived code thus calls the hand-written code on exactly the elements of that field, in document order, and uses its results unchanged.", "quantifier": "all derived types, all hand-written code, all documents of any depth, debug and release", "why_tests_cant": "hand-written code and documents are unbounded; a test fixes one program and one document", "anchors": ["static-xml/src/de/mod.rs", "static-xml-derive/src/deserialize.rs"]}
{"id": "C52", "title": "Declared namespaces suffice, undeclared ones panic", "statement": "Any Serialize implementation (whatever sequence of calls it makes) that finishes everything it starts, gives no attribute twice and returns Ok, is serialized successfully if no write fails and every name is declared: its namespace is that of xml:, or is asked for or used by the parent's start tag, or is asked for by the same start tag (before the attribute, if it is an attribute's), or the name is an element's in no namespace with no default namespace around it, or an attribute's in no namespace; and no prefix beginning with xml is asked for. If some name is in a namespace asked for neither by its own start tag nor by an enclosing one, serialization panics. Nothing worse than a panic ever happens. In between both can happen: a namespace of a grandparent is lost when the parent maps its prefix otherwise, and a default namespace must be declared before the attribute that uses it.", "quantifier": "all programs calling the API, all trees they ask for, debug and release", "why_tests_cant": "programs and trees are unbounded", "anchors": ["static-xml/src/ser/mod.rs::ElementBuilder::start", "static-xml/src/ser/mod.rs::NamespacesBuilder", "static-xml/src/ser/mod.rs::Namespaces", "static-xml/src/ser/mod.rs::Serializer::to"]}
{"id": "C53", "title": "Hand-written Serialize implementations inside derived types are written where they belong", "statement": "Let fields of derived types have types with hand-written Serialize implementations (arbitrary code), and let those in flattened fields hand on the error of a repeated attribute. If serializing a value succeeds, the document is its tree: derived parts as declared, and for every value of a hand-written type exactly the attributes and children its implementation writes on an element of its own (or, flattened, on the element of the struct after the struct's own attributes and children). So if a hand-written implementation returns an error, panics or drops a writer anywhere in the value, serialization does not return Ok. Conversely, if there is such a tree, no element has an attribute twice, its namespaces are declared, and no write fails, serialization succeeds. A flattened implementation that ignores the error of a repeated attribute can make serialization succeed with its attribute missing.", "quantifier": "all types, hand-written implementations, values and writers", "why_tests_cant": "implementations, types and values are unbounded", "anchors": ["static-xml-derive/src/serialize.rs::write_struct_attributes", "static-xml-derive/src/serialize.rs::write_struct_elements", "static-xml/src/ser/mod.rs::impl SerializeField"]}
{"id": "C54", "title": "Values with hand-written parts are read back exactly if their parts survive", "statement": "Let fields of derived types have types with hand-written Serialize and Deserialize implementations (arbitrary code); flattened fields are derived enums. Suppose each hand-written pair reads back what it wrote exactly for the values that are said to survive, provided that the types it uses do. If serializing a value succeeds (and the namespace mappings requested are legal and unambiguous), the document written, indented or not, is read back as this value exactly if the value survives: text types and derived types by the rules of C38 applied to their fields, hand-written parts as said. So derived code neither spoils a faithful hand-written implementation nor repairs an unfaithful one.", "quantifier": "all types, hand-written implementations, values, writers and indentations", "why_tests_cant": "implementations, types and values are unbounded", "anchors": ["static-xml-derive/src/deserialize.rs::do_struct", "static-xml-derive/src/serialize.rs::do_struct", "static-xml/src/de/mod.rs::read", "static-xml/src/ser/mod.rs::Serializer"]}
{"id": "C55", "title": "A failed deserialization leaks exactly what the elements open at the fault had already stored", "statement": "When deserializing a document as a derived type fails, the values leaked are exactly these, from the root down to the element in which the first fault (C46) lies: for each open element of a derived type, the values its fields hold from the attributes and children before the fault - a Vec with the items read so far, an enum with the variant chosen so far, nothing for fields not met yet; and if the fault is that something is missing at the element's end, the fields declared before the missing one hold what they would hold in the struct, defaults included. Text elements leak nothing. This determines the leaked values uniquely, and they exist exactly for documents that do not read as a value. If instead the XML parser fails part-way, leaked is exactly what the elements open at that point had stored, down to the innermost one that is being read; nothing, if the root element has not started or was read to its end. Whatever is decided before the parser fails is leaked the same however the input goes on.", "quantifier": "every derived type (nested, recursive, flattened enums, defaults) and every document", "why_tests_cant": "all types, documents and places of the fault", "anchors": ["static-xml-derive/src/deserialize.rs::do_struct", "static-xml-derive/src/deserialize.rs::do_enum", "static-xml-derive/src/deserialize.rs::finalize_visitor_fields", "static-xml/src/de/mod.rs::impl_deserialize_via_raw"]}
{"id": "C56", "title": "The events written, exactly, for every Serialize implementation", "statement": "For any Serialize implementation that finishes what it starts, gives no attribute twice and returns Ok, and a writer that does not fail, the events written are exactly those determined by the tree of calls it makes: each start tag has the mappings of C34, the element's name has the prefix its namespace is mapped to there (none for the default one; xml for the namespace of xml: if that is not mapped; none for no namespace if there is no default mapping), each attribute the non-empty prefix its namespace is mapped to (none if in no namespace, or xml), then come the children's events and the end tag. If no such events exist, in particular if a prefix beginning with xml is asked for while debug assertions are enabled, serialization panics; and only then. For derived types the tree is the value's (C36).", "quantifier": "every Serialize implementation and derived value, with and without debug assertions", "why_tests_cant": "all programs and namespace layouts", "anchors": ["static-xml/src/ser/mod.rs::Serializer::to", "static-xml/src/ser/mod.rs::NamespacesBuilder::finalize", "static-xml/src/ser/mod.rs::Namespaces::resolve_element", "static-xml/src/ser/mod.rs::Namespaces::resolve_attribute", "static-xml/src/ser/mod.rs::Namespaces::child"]}
{"id": "C57", "title": "How deeply reading recurses is bounded by the type, not by the document", "statement": "Calls of ElementReader::read_to, the only recursion of reading, are never nested deeper than elements are open in the document, whatever the user code. For a derived type they are never nested deeper than the longest chain of types, each of which has a child element (field or variant, also flattened) of the next type - for any input, also malformed and however deeply nested: unknown elements are skipped, and text elements read, without recursion. If no names clash this bound is reached by some document; so a document can exhaust the stack exactly if the type is recursive, and then some document needs more levels than any given number.", "quantifier": "every user code, derived type and event stream", "why_tests_cant": "all depths of documents and types", "anchors": ["static-xml/src/de/mod.rs::ElementReader::read_to", "static-xml/src/de/mod.rs::Reader::return_to_depth", "static-xml/src/de/mod.rs::ElementReader::read_string", "static-xml-derive/src/deserialize.rs::do_struct", "static-xml-derive/src/deserialize.rs::do_enum"]}
{"id": "C58", "title": "Errors of hand-written text types are returned, and only what comes before them is written", "statement": "Let some text types have hand-written ParseText and ToText implementations, which may return errors. Reading an element of such a type gives ParseText the element's whole text, unchanged; what it returns is the value, and its error is reported at that element. The text ToText returns is what is written. Serializing a value of a derived type does not panic because of such types. If all its texts can be printed (and no write fails), it succeeds and writes the value's tree (C36). Otherwise one of them is the first that cannot, where the attributes of an element come before its children, element fields come in declaration order, and flattened fields after them: its error is returned, and what was written is exactly the part of the tree before it - the start tags still open there and the complete elements before it; nothing of an element one of whose attributes fails. Whatever the writer does, the result is not Ok.", "quantifier": "all types, hand-written text types, values, places of the error and writers", "why_tests_cant": "types, values and places of the error are unbounded", "anchors": ["static-xml/src/ser/mod.rs::impl SerializeAttr", "static-xml/src/ser/mod.rs::impl Serialize for T", "static-xml/src/ser/mod.rs::impl SerializeField", "static-xml-derive/src/serialize.rs::write_struct_attributes", "static-xml-derive/src/serialize.rs::write_struct_elements", "static-xml/src/ser/mod.rs::Serializer::to"]}
{"id": "C59", "title": "What is written is made of XML names and characters", "statement": "If a program asks only for elements and attributes whose local names are NCNames (Namespaces in XML), for namespace prefixes that are empty or NCNames, and for texts, attribute values and URLs made of XML characters (XML 1.0, production Char), whatever its calls return, then every event handed to the writer satisfies the same, also if the run ends with an error: in particular the prefixes the library makes up are NCNames. For derived types it is enough that the names and namespaces in the source (renames, or else identifiers; prefixes; URLs) and the texts in the value are so. ASCII identifiers other than raw ones are NCNames; booleans, integers, and restrictions and unions made of such print as XML characters. Every text in a value that was read was parsed from the content of an element or an attribute of the document, or belongs to a default; so what was read from a document of XML characters is written back as such. Nothing of this is checked by the library: rename = \"a b\", raw identifiers (r#type) and control characters in strings are accepted and written.", "quantifier": "all programs, writers, types, values and documents", "why_tests_cant": "programs, values and made-up prefixes are unbounded", "anchors": ["static-xml/src/ser/mod.rs::NamespacesBuilder::finalize", "static-xml/src/ser/mod.rs::Serializer::to", "static-xml-derive/src/serialize.rs::write_namespaces", "static-xml-derive/src/common.rs::Name::from_ident", "static-xml-derive/src/common.rs::ElementStruct::new"]}
{"id": "C60", "title": "Compatible changes of types", "statement": "Let the types of a program change so that every type keeps its fields and variants (same expanded names and content types; T may become Option<T> or Vec<T>, Option<T> may become Vec<T>, a required attribute may become optional), and gains fields that may be absent and variants, all under new names that no old field or variant has. Then (1) a document without elements or attributes of new names that the old program reads is read by the new one as the same value, with the new fields absent; in particular what the old program writes and reads back, the new one reads; (2) a document that the new program reads as a value which the old types can express is read by the old program as that value, whatever the new fields hold; in particular what the new program writes. Fields with defaults must keep what they hold when absent. The conditions are needed: a new optional field with the name of a variant of a flattened enum makes old documents errors, as do elements of the new name that the old program ignored; and the old program refuses documents without a required field that gained a default.", "quantifier": "all pairs of type environments, documents, values and writers", "why_tests_cant": "types, values and documents are unbounded and recursive", "anchors": ["static-xml-derive/src/deserialize.rs::do_struct", "static-xml-derive/src/deserialize.rs::do_enum", "static-xml-derive/src/deserialize.rs::finalize_visitor_fields", "static-xml-derive/src/serialize.rs::do_struct", "static-xml/src/de/mod.rs::find"]}
{"id": "C61", "title": "Flattened fields with hand-written visitors", "statement": "Let a derived struct have flattened fields whose types have hand-written RawDeserialize visitors (the README's unknown_fields). A document is read as the struct exactly if it is read as the struct without these fields, and their visitors, in declaration order, accept the attributes, texts and child elements (attributes first, then in document order) that are for no other field of the struct and that the visitors before them handed back; the value consists of what both make of it. A visitor so sees what it would see when reading the element alone, without what others take; after one that takes everything, the rest see nothing; a derived enum leaves attributes, text, and the elements before the first that is called like a variant. Whatever these visitors do and whatever the parser reports, the derived struct neither uses uninitialized memory nor overwrites a live value.", "quantifier": "all structs, all hand-written visitors (arbitrary functions over arbitrary states), all documents", "why_tests_cant": "visitors are arbitrary code; any number of flattened fields, attributes and children", "anchors": ["static-xml-derive/src/deserialize.rs::do_struct", "static-xml/src/de/mod.rs::delegate_element", "static-xml/src/de/mod.rs::delegate_attribute", "static-xml/src/de/mod.rs::delegate_characters", "static-xml/src/de/mod.rs::RawDeserializeVisitor"]}
{"id": "C62", "title": "The derive macros report every mistake, in order, and nothing else", "statement": "For an input that syn parses, a derive macro either panics, exactly for a namespace item whose prefix begins with xml or (deserialization) for a struct with one text field, or expands to one compile error for each mistake of the declaration, in this order: those of the type's attributes (malformed attributes, then items, then the type's prefix), then those of each field or variant in source order (malformed attributes, items, then the combination of modes or the shape), then two text fields; followed by the generated code. Each item is judged by itself and by the items before it; what is wrong with one field does not hide what is wrong with another. Without errors there is always code. (If syn cannot parse the input, the macro panics instead of reporting the parse error: exhibited.)", "quantifier": "every declaration: attribute lists, items, fields, variants", "why_tests_cant": "all combinations of mistakes and their order", "anchors": ["static-xml-derive/src/lib.rs::derive", "static-xml-derive/src/common.rs::Errors", "static-xml-derive/src/common.rs::get_meta_items", "static-xml-derive/src/common.rs::ElementField::new", "static-xml-derive/src/common.rs::ElementEnum::new", "static-xml-derive/src/common.rs::TextEnum::parse_restriction_fields"]}
{"id": "C63", "title": "The generated code does what the declarations mean, whatever the identifiers", "statement": "The code that the derive macros emit refers to fields, flags, visitors, variants and table positions by names and numbers it makes up itself. For every program the macros and rustc accept, running that code, with everything found by name, gives exactly what the declarations mean: reading gives the same value, error or abort; writing gives the same events and errors; parse and to_text of text enums and wrappers give the variant of the same name, the same text and the same errors. In particular the made-up fields of a visitor never collide with each other or with its fixed fields, and each is initialized exactly once, also when fields are called out, _phantom or x_present or are written as raw identifiers (r#type), which are used without their r#.", "quantifier": "every program of derived types, every identifier, every document and value", "why_tests_cant": "hygiene failures need unfortunate identifiers; positions are wrong only for some orders of names", "anchors": ["static-xml-derive/src/deserialize.rs::do_struct", "static-xml-derive/src/deserialize.rs::do_enum", "static-xml-derive/src/serialize.rs::do_struct", "static-xml-derive/src/serialize.rs::do_enum", "static-xml-derive/src/parse.rs::do_restriction", "static-xml-derive/src/to_text.rs::do_union"]}
{"id": "C64", "title": "Forgotten builders and writers, and caught panics", "statement": "A Serialize implementation may leak a builder or writer (mem::forget is safe) or catch a panic of the API. If serialization reports success, the document has exactly as many unclosed elements as writers were forgotten, so it is never well-formed if one was (a check at the end is missing: exhibited). If no writer is forgotten, the result is that of the same program without the elements whose builder was forgotten or whose start() panicked and without the namespace() calls that panicked; in particular success still means a well-formed document, with exactly the remaining elements - an element whose start() panicked and was caught is missing without any error (exhibited), unlike one whose builder was dropped.", "quantifier": "every program that calls the serialization API, every failure pattern of the writer", "why_tests_cant": "programs that leak or catch are not what tests contain", "anchors": ["static-xml/src/ser/mod.rs::ElementBuilder::start", "static-xml/src/ser/mod.rs::ElementBuilder::drop", "static-xml/src/ser/mod.rs::ElementWriter::drop", "static-xml/src/ser/mod.rs::ElementWriter::finish", "static-xml/src/ser/mod.rs::Serializer::to"]}
{"id": "C65", "title": "Recovering from panics and errors while reading", "statement": "Deserialize implementations and visitors may catch panics of the reads they start (catch_unwind) and go on. In release builds every such program is driven exactly by the document's tree: once the callback for a child returned Ok, the reader is at the child's next sibling. In any build, Ok still means that the whole document was read, input that breaks off never gives Ok, and reading returns or panics but does not loop; in release builds it does not panic if the implementation at the root catches what is left. In debug builds a panic caught after an element was read to its end can run into the reader's own assertions (exhibited). In release builds the stack reported for malformed input can, after a recovery, name an element that is already closed instead of the open one (exhibited).", "quantifier": "all user code (arbitrary functions over arbitrary states, panicking and catching anywhere), all documents and event streams", "why_tests_cant": "user code and the places of panics are unbounded", "anchors": ["static-xml/src/de/mod.rs::ElementReader::read_to", "static-xml/src/de/mod.rs::ElementReader::read_string", "static-xml/src/de/mod.rs::Reader::return_to_depth", "static-xml/src/de/mod.rs::Reader::next", "static-xml/src/de/mod.rs::read"]}
{"id": "C66", "title": "What is leaked next to hand-written Deserialize code", "statement": "In a program of derived types and hand-written Deserialize implementations: if the hand-written code hands on the errors of reading, a read that succeeds has leaked nothing, for every event stream. Derived types that use no hand-written one leak what C55 says. Hand-written code that calls T::deserialize leaks exactly what that leaks, also when it swallows the error and returns a value. A hand-written list that reads every child as T and may pass over errors has leaked, when it succeeds, exactly what each child that could not be read leaked. Without the condition on hand-written code, a successful read can leak (exhibited), and without bound (proved).", "quantifier": "all derived types, all hand-written code (arbitrary functions over arbitrary states), all event streams resp. documents", "why_tests_cant": "leaks are invisible to tests without instrumentation; programs and documents are unbounded", "anchors": ["static-xml/src/de/mod.rs::impl_deserialize_via_raw", "static-xml-derive/src/deserialize.rs::do_struct", "static-xml-derive/src/deserialize.rs::do_enum", "static-xml-derive/src/deserialize.rs::finalize_visitor_fields", "static-xml/src/de/mod.rs::ElementReader::read_to"]}
{"id": "C67", "title": "Derived visitors keep their promise whatever is done with them", "statement": "The visitor of a derived type (made with RawDeserializeVisitor::new) can be called by any safe code, in any order, with any names, values and children, also after errors and caught panics. Its methods then have no undefined behaviour, overwrite no live value and panic only if hand-written code they call panics (ParseText for attributes, T::deserialize for children, the function given to finalize as the default). A call that fails or panics leaves no trace: all later calls return what they would without it. finalize succeeds exactly if the calls before have given every field a value (or a field may be missing), with exactly these values; an enum without a value takes the default. So in whole programs, where hand-written code reads into derived visitors, forwards children to them, ignores errors and catches panics, reading aborts only with panics of hand-written code and of the reader. Structs do not use the default of finalize (exhibited).", "quantifier": "all derived types, all sequences of calls, all hand-written code (arbitrary functions over arbitrary states), all event streams", "why_tests_cant": "the sequences of calls that unsafe code must withstand are unbounded, and undefined behaviour may go unnoticed in tests", "anchors": ["static-xml/src/de/mod.rs::RawDeserializeVisitor", "static-xml/src/de/mod.rs::impl_deserialize_via_raw", "static-xml-derive/src/deserialize.rs::do_struct", "static-xml-derive/src/deserialize.rs::do_enum", "static-xml-derive/src/deserialize.rs::finalize_visitor_fields"]}
{"id": "C68", "title": "The source of an error is the error that caused it", "statement": "std::error::Error::source of an error from reading is: for errors of the XML parser, the I/O or UTF-8 error below it if there is one and the parser's error otherwise, namely the one with which the document's events ended; the boxed error that user code (ParseText, hand-written visitors) or derived code made, unchanged; nothing for the reader's own messages. Neither the reader nor derived code looks at the errors of user code or drops or replaces them: two programs whose user code differs in the errors it makes only come to the same values, or to errors with corresponding sources and the same element stack and position. This holds whatever hand-written code does with the errors it gets (swallow them, keep them for later, return others instead).", "quantifier": "all derived types, all hand-written code (arbitrary functions over arbitrary states), all event streams, all parser errors", "why_tests_cant": "the ways in which errors can pass through nested readers and user code are unbounded, and that nobody looks at errors is a statement about two programs", "anchors": ["static-xml/src/de/mod.rs::Error", "static-xml/src/de/mod.rs::ErrorKind", "static-xml/src/de/mod.rs::VisitorError"]}
{"id": "C69", "title": "Counters do not overflow", "statement": "The reader counts open elements in a usize (Reader's depth, ElementReader's stack position and depth()), and the search for a free prefix counts in an i32. Neither overflows, so neither panics (debug builds) nor wraps around (release builds): reading with usize counters does what reading with unlimited counters does, for all user code, all streams the XML parser delivers (cut off or not) and all builds, if at most usize::MAX elements are open at once (their names are kept in memory); assigning prefixes with an i32 does what it does with unlimited counters for fewer than 2^31 - 3 namespaces in scope of one element. The first bound is exact: on every document in which more elements are open at once, a debug build panics and a release build reports an error, even if user code looks at nothing.", "quantifier": "all user code, all event streams, all values of usize::MAX, all sets of namespaces, debug and release builds", "why_tests_cant": "documents this deep and prefix sets this large cannot be built in tests", "anchors": ["static-xml/src/de/mod.rs::Reader", "static-xml/src/de/mod.rs::ElementReader::depth", "static-xml/src/de/mod.rs::ElementReader::read_to", "static-xml/src/de/mod.rs::ElementReader::read_string", "static-xml/src/ser/mod.rs::NamespacesBuilder::finalize"]}
{"id": "C70", "title": "Reading and writing do not multiply", "statement": "Deserializing a derived type yields a value no larger than K * (number of elements) + (bytes of text and attribute values), where the size of a value counts one for every number, field, variant, option and list in it and the length of every string, and K is the largest cost of one type (its fields with their defaults; the nesting of unions within unions for texts): every piece of the input ends up in the value at most once. For all types, all streams the XML parser delivers and both builds. The values leaked when reading fails (a document with a fault, or one cut off anywhere) obey the same bound. Serializing a derived value successfully writes at most 2 * size elements, attributes and texts.", "quantifier": "all derived types, all event streams, all documents and all places where they can be cut off", "why_tests_cant": "the bound is about documents of every size", "anchors": ["static-xml/src/de/mod.rs::read", "static-xml-derive/src/deserialize.rs::do_struct", "static-xml-derive/src/deserialize.rs::do_enum", "static-xml-derive/src/deserialize.rs::finalize_visitor_fields", "static-xml-derive/src/serialize.rs::do_struct", "static-xml-derive/src/serialize.rs::do_enum"]}
{"id": "C71", "title": "The API suffices for whole documents", "statement": "A type that holds any XML element (as the README plans for xmltree::Element) can be written against the public traits without loss. A Deserialize whose visitor collects what it is told, with a child of the same type for every child element, reads every document, in all builds, to the tree of all its elements and attributes with their expanded names and all its text, in document order. A Serialize that declares a prefix for the namespaces each element uses writes every tree with distinct attribute names and no name in the namespace of xmlns:, the document written has that tree, and reading it back gives the tree but for blank text and the merging of adjacent text, even if it was indented: exactly the trees without blank or adjacent text come back as they were.", "quantifier": "all documents, all trees, all injective choices of prefixes, debug and release builds", "why_tests_cant": "no such type exists in the repository, and tests would cover single documents", "anchors": ["README.md", "static-xml/src/de/mod.rs::Deserialize", "static-xml/src/de/mod.rs::ElementVisitor", "static-xml/src/de/mod.rs::ElementReader::read_to", "static-xml/src/ser/mod.rs::Serialize", "static-xml/src/ser/mod.rs::ElementBuilder", "static-xml/src/ser/mod.rs::ElementWriter"]}
{"id": "C72", "title": "What no field is for can be kept", "statement": "A type that keeps the parts of an element that no field is for can be written against the public traits and flattened into a derived struct, as the README plans. Reading a document as the struct succeeds iff reading it without that field does, the other fields have the same values, and the field holds exactly the attributes (with expanded names and values), child elements (with all they contain) and text that no other field is for, in document order. Writing the value yields the element that the struct without the field would write, followed by all unknown attributes and children; if that is an error, so is this. Reading what was written again, even if it was indented, finds the same unknown parts but for blank text and the merging of adjacent text.", "quantifier": "all structs with one such field, all documents, all implementations of the other fields' types, both search algorithms, debug and release builds", "why_tests_cant": "no such type exists in the repository; unknown parts of any shape and depth must be kept", "anchors": ["README.md", "static-xml-derive/src/deserialize.rs::do_struct", "static-xml/src/de/mod.rs::delegate_element", "static-xml/src/de/mod.rs::delegate_attribute", "static-xml/src/de/mod.rs::delegate_characters", "static-xml-derive/src/serialize.rs::do_struct", "static-xml/src/de/mod.rs::RawDeserialize", "static-xml/src/ser/mod.rs::Serialize"]}
{"id": "C73", "title": "A choice made any number of times can be flattened", "statement": "The documentation says that a schema with a choice that may repeat cannot be represented with the derive macros. A list of choices written against the public traits and flattened into a derived struct represents it. Reading a document as the struct succeeds iff reading it without that field does and every child element that is called like a choice and that no field is for is read as the type of that choice; the field then holds one item for each of them, in document order, and the other fields have the same values as without it. Writing the value yields the element that the struct without the field would write, followed by one element for each item, in order, and succeeds iff all of them can be written. Reading from what was written, even if it was indented, yields the same value if the other fields are read back from it and each item is read back from its own element, as it is if it holds a text that survives the loss of blank text.", "quantifier": "all structs with one such field, all lists of choices with distinct names, all documents, all numbers of items, all implementations of the types of the items, both search algorithms, debug and release builds", "why_tests_cant": "no such type exists in the repository; any number and order of items must be covered", "anchors": ["static-xml/src/lib.rs", "static-xml-derive/src/deserialize.rs::do_struct", "static-xml/src/de/mod.rs::delegate_element", "static-xml-derive/src/serialize.rs::do_struct", "static-xml/src/de/mod.rs::RawDeserialize", "static-xml/src/ser/mod.rs::Serialize"]}
{"id": "C74", "title": "What is leaked next to flattened fields with hand-written visitors", "statement": "A derived struct with flattened fields whose visitors are hand-written reads into memory that is dropped only if it is read to the end. When a document cannot be read as the struct, the leaked values are determined by the document and exactly these: the values the struct's fields have got from what comes before the first fault; what the visitors of the flattened fields have put into their fields by then; what was leaked below (by the child that could not be read, or by these visitors' own reads). If the fault is a missing field, or a flattened field whose visitor gives no value, the fields declared before it have their final values, defaults included, and these are leaked too. When the document can be read, only what those visitors' own reads leaked is leaked. Where a flattened field is declared decides whether its value is leaked when another field is missing (exhibited). The assumption on the types of fields (leaking only when they fail) holds of structs nested to any depth.", "quantifier": "all structs, all hand-written visitors (arbitrary functions over arbitrary states), all documents, both search algorithms, debug and release builds", "why_tests_cant": "leaks are invisible to tests without instrumentation; visitors, documents and the place of the fault are unbounded", "anchors": ["static-xml/src/de/mod.rs::impl_deserialize_via_raw", "static-xml/src/de/mod.rs::RawDeserialize", "static-xml-derive/src/deserialize.rs::do_struct", "static-xml-derive/src/deserialize.rs::finalize_visitor_fields", "static-xml/src/de/mod.rs::delegate_element", "static-xml/src/de/mod.rs::delegate_attribute", "static-xml/src/de/mod.rs::delegate_characters"]}
{"id": "C75", "title": "A write that fails is the last one, and its error is returned", "statement": "If the output fails for the first time at the n-th write, then serializing a derived value (also with hand-written implementations inside that follow each writing call with ?) returns exactly that error; exactly the first n writes of the undisturbed run have reached the output; no further write is attempted, not even one that would be refused; the writers of the elements open at that point are dropped, and no others. If the undisturbed run makes at most n writes, the failure is never noticed and the outcome is the same, for every implementation. A failing output never makes such code panic where it would not have otherwise. An implementation that ignores the error of a write can go on to panic (exhibited).", "quantifier": "all values of all derived types, all Serialize implementations that return their errors, all failure points and messages", "why_tests_cant": "all crash points of all programs; tests can only sample them", "anchors": ["static-xml/src/ser/mod.rs::WrappedWriter::write", "static-xml/src/ser/mod.rs::SerializeField::write", "static-xml/src/ser/mod.rs::Serializer::to", "static-xml/src/ser/mod.rs::impl Drop for ElementWriter"]}
{"id": "C76", "title": "The order in which fields and variants are declared does not matter", "statement": "Declare the fields of derived structs and the variants of derived enums in another order, keeping only the order of flattened fields among themselves, and perhaps change Rust identifiers, prefixes, root names and whether there are skipped variants. Then exactly the same documents are read, as the same values (values correspond one to one, and the change can be undone); what could be written still can, and the documents written are the same up to the order of attributes and the order of elements with different names; and each program reads what the other wrote and would itself read back. The order of two flattened fields does matter, even if their enums have no name in common (exhibited).", "quantifier": "all type environments, all rearrangements, all documents and values", "why_tests_cant": "quantifies over pairs of programs", "anchors": ["static-xml-derive/src/common.rs::ElementStruct::new (sort_by_key)", "static-xml-derive/src/common.rs::ElementEnum::new", "static-xml-derive/src/deserialize.rs::do_struct", "static-xml-derive/src/serialize.rs"]}
{"id": "C77", "title": "A value is read and written like its parts on their own", "statement": "A document is read as a derived struct exactly if each field is what the children with its name are read as when each is the root of a document of its own (with whatever around it), each attribute field what its text parses as, and flattened enums what the remaining children, on their own, make of them; likewise for derived enums. This also holds if some of the types have hand-written Deserialize implementations. A derived struct is written as an element whose children are those that the fields' items are written as on their own under the field's name, in order, followed by the children that the flattened fields' values are written with as documents, whose attributes are added to those of the attribute fields; likewise for enums. (Names in a namespace that only the outer type declares cannot be written on their own; C52.)", "quantifier": "all derived types, documents and values", "why_tests_cant": "relates reading and writing in every context to doing so at top level", "anchors": ["static-xml/src/de/mod.rs::ElementReader::read_to", "static-xml-derive/src/deserialize.rs::do_struct", "static-xml-derive/src/serialize.rs::do_struct"]}
{"id": "C78", "title": "Documents are read as the same value exactly if they agree in what it holds", "statement": "Let a document be read as a value of a derived type. If no field has a default and no struct has several flattened fields, another document is read as the same value exactly if both agree, at every depth, in what the value holds: for every element field the same number of children of its name, agreeing one by one in order; for every attribute field attributes whose texts parse alike; for every enum the children of the names of its variants, where of variants without data it only matters that there are any; for text what it parses as. So nothing that the types have a place for is lost or mixed up, and nothing else matters. The same holds with hand-written Deserialize implementations in it, whatever they do, for which elements agree that they read as the same value. In particular, under the conditions of C47, a document that was loaded and saved again agrees with the original in all of this. With defaults an explicit default is not told from an absent one; with several flattened fields elements can be lost, and the order of elements of different names matters.", "quantifier": "all derived types and pairs of documents", "why_tests_cant": "for all pairs of documents, both directions", "anchors": ["static-xml/src/de/mod.rs::ElementReader::read_to", "static-xml-derive/src/deserialize.rs::do_struct", "static-xml-derive/src/deserialize.rs::do_enum"]}
{"id": "C79", "title": "How the program is built does not matter", "statement": "Reading any stream of events of xml-rs, complete or ending in an error, as a value of a derived type whose field and variant names are distinct gives the same result - the same value or the same error - with and without debug assertions and with either implementation of binary search the standard library has had. Next to hand-written Deserialize implementations the search makes no difference either, and debug assertions can only panic. For every hand-written Serialize implementation and every destination, debug assertions only add a panic, on declaring a prefix that starts with xml; if there is none, the same events are written and the same result returned; and for values of derived types whose declared prefixes are allowed they make no difference. With fields of the same name it depends on the standard library which field an element is read into.", "quantifier": "all derived types, streams, values, Serialize implementations and destinations", "why_tests_cant": "tests run one build with one version of std", "anchors": ["static-xml/src/de/mod.rs::find", "static-xml-derive/src/deserialize.rs::do_struct", "static-xml/src/ser/mod.rs::NamespacesBuilder::insert", "static-xml/src/ser/mod.rs::Serializer::to"]}
{"id": "C80", "title": "Pointers kept by generated visitors under Rust's aliasing models", "statement": "Under Tree Borrows nothing that the generated visitors of structs and enums do with their pointers is undefined behaviour, for any number, order and nesting of fields and any use of them, provided that no new of a flattened field's visitor writes to the field (generated ones do not). Under Stacked Borrows, for a struct with flattened fields it is undefined behaviour to use any field but the flattened one declared last (at every level), and otherwise nothing is. So with two flattened fields it is undefined behaviour to move the visitor, if that reborrows the references inside it. Visitors that obtained the raw pointer to the struct only once would be fine under both without conditions.", "quantifier": "all structs, orders of fields, uses of fields, both aliasing models", "why_tests_cant": "Miri checks single executions and one aliasing model at a time", "anchors": ["static-xml-derive/src/deserialize.rs::do_struct", "static-xml-derive/src/deserialize.rs::visitor_initializers", "static-xml-derive/src/deserialize.rs::do_enum", "static-xml/src/de/mod.rs::impl_deserialize_via_raw"]}
{"id": "C81", "title": "What the names in the generated code refer to", "statement": "If a module redefines none of the thirteen names that generated code takes from the standard prelude or the crates (Result, Option, String, bool, Vec, Box, str, static_xml, Ok, Err, Some, None, stringify) and has no constants, statics, unit or tuple structs named like one of its variables, then every name in the code generated by any of the four derives refers to what it should, exactly if no field of a struct with Deserialize has a type that mentions a type called like the struct with Visitor appended, and the identifiers of fields and variants are not arguments of a macro_rules macro that contains the derive. Functions named like variables, and constants named like the generated tables, do no harm. Each of the names, and each of the variables, is needed: for each there is a declaration whose generated code goes wrong.", "quantifier": "all modules, all structs, enums, unions and restrictions, any origin of their identifiers", "why_tests_cant": "tests derive in a few modules that redefine nothing", "anchors": ["static-xml-derive/src/lib.rs::derive", "static-xml-derive/src/deserialize.rs::do_struct", "static-xml-derive/src/deserialize.rs::do_enum", "static-xml-derive/src/serialize.rs::do_struct", "static-xml-derive/src/parse.rs::do_union", "static-xml-derive/src/to_text.rs::do_restriction", "static-xml/src/de/mod.rs::impl_deserialize_via_raw"]}
{"id": "C82", "title": "How much work is done", "statement": "Looking a name up among n names takes at most 1 + log2 n (rounded up) comparisons, and none if there are no names. No other names of the table are looked at. Normalizing the white space of a text of n bytes looks at, writes and moves at most 4n + 2 bytes in total, and at least n unless white space is preserved; exactly, where white space is replaced, n plus its number of white-space bytes, and where it collapses, n plus two for each word plus, unless nothing but white space at the end is dropped, the length of the result. Choosing prefixes for n namespaces tries at most n(n+1)/2 prefixes, and exactly so many whenever all of them ask for the same non-empty prefix. Reading a document, with any visitors, makes no more calls of element, attribute and characters than the stream has elements below the root, attributes and pieces of text. The result depends on nothing else the visitors do. With derived visitors, the comparisons of names of all visitors together are at most W per element below the root and A per attribute, where W and A bound, over the types of the program, the comparisons for a type's own elements plus those of each flattened enum, and for its attributes.", "quantifier": "all names, texts, sets of namespaces, visitors, types and streams, well-formed or not; both search algorithms of the standard library", "why_tests_cant": "tests measure no work, and only on small inputs", "anchors": ["static-xml/src/de/mod.rs::find", "static-xml/src/de/mod.rs::normalize", "static-xml/src/de/mod.rs::read_to", "static-xml/src/de/mod.rs::delegate_element", "static-xml/src/ser/mod.rs::finalize", "static-xml-derive/src/deserialize.rs::do_struct", "static-xml-derive/src/deserialize.rs::do_enum"]}
{"id": "C83", "title": "Visitors are called as the document comes in", "statement": "When input stops part-way with an error of the parser, the calls of element, attribute and characters made by then, with all their arguments, are exactly those that reading any continuation of the input starts with: what visitors are told never depends on input that comes later, in any build and also if visitors recover from errors. Nothing is put off either: visitors that read all elements they are given and refuse nothing have been told, in order, about every element below the root (with its name, namespaces and depth), every attribute and every piece of text in the part of a document that has come.", "quantifier": "all visitors, all streams and their continuations; all documents cut anywhere", "why_tests_cant": "tests read documents that are complete, and look at the value at the end only", "anchors": ["static-xml/src/de/mod.rs::read_to", "static-xml/src/de/mod.rs::next", "static-xml/src/de/mod.rs::return_to_depth", "static-xml/src/de/mod.rs::read_string"]}
{"id": "C84", "title": "What is asked for is written at once", "statement": "At any time, for any Serialize implementation and any failures of the output, also when the implementation or the API panics: the output consists exactly of the events of the calls of start, text and finish that have returned Ok, in their order, with the attributes accepted before the start. An implementation that panics after some calls leaves the output with which the undisturbed run begins, event by event including prefixes; before write_attributes has returned there is nothing. If an implementation asks for a tree, the output is a beginning of it whatever happens; if the API panics although the output works (a namespace that is not declared, for example), it is all of the tree up to some start tag.", "quantifier": "all implementations, stopped anywhere; all patterns of failing writes", "why_tests_cant": "tests look at the output of runs that succeed; nothing is looked at after a panic", "anchors": ["static-xml/src/ser/mod.rs::start", "static-xml/src/ser/mod.rs::text", "static-xml/src/ser/mod.rs::finish", "static-xml/src/ser/mod.rs::write", "static-xml/src/ser/mod.rs::to"]}
{"id": "C85", "title": "Floating-point text", "statement": "f32 and f64 read as text, with white space around it: every literal of xs:double and xs:float is accepted, and besides only inf, infinity and nan in any case and with a sign; all else is rejected with a message. A number is read as the nearest float, the even one of two, infinity if it is too large, and its sign is kept; so only the number matters and not how it is written (exponents below 655360). In particular numbers that are floats are read as they are, and reading keeps the order. What is written for a float is a decimal number without exponent and without needless zeros, that is read back as the very same bits; no number with fewer digits is read as this float, and none with as many digits that is read as it is nearer. Infinities are written inf and -inf, which are not literals of XML Schema (INF); NaN is written NaN and loses its sign and payload. So all other floats survive in documents (C38), in elements and attributes.", "quantifier": "all texts of any length, all 2^32 and 2^64 floats", "why_tests_cant": "tests read and write a few numbers; there are 2^64 floats and infinitely many texts", "anchors": ["static-xml/src/de/mod.rs::text_for_num", "static-xml/src/ser/mod.rs::text_from_display"]}
