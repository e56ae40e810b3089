# static-xml: a machine-checked model in Coq 8.16

This is the plan (written before the proofs) and, further down, the state of the trusted base.

## Layers of the model (`rocq/theories/`)

| file | models | from |
|------|--------|------|
| `Base.v` | strings, expanded names and their order, `BTreeMap`, results/aborts | `lib.rs` 466-528, std |
| `Normalize.v` | `normalize` as an in-place buffer algorithm with indices | `de/mod.rs` 822-891 |
| `Text.v` | `ParseText`/`ToText` of bool, integers, String, restriction, union, std, hand-written ones (arbitrary functions) | `de/mod.rs` 1022-1072, `ser/mod.rs` 586-626, `parse.rs`, `to_text.rs` |
| `Find.v` | `find`: both binary searches std has used | `de/mod.rs` 948-956 |
| `Types.v` | descriptions of derived types, sorted tables | `common.rs` 414-667 |
| `Reader.v` | `Reader`, `next`, `return_to_depth`, `root`, `end`, `read_to`, `read_string`, `read`, generic in the visitor | `de/mod.rs` 86-98, 154-186, 260-639 |
| `DeriveDe.v` | generated `Deserialize` code as visitors over partly initialized memory | `deserialize.rs`, `de/mod.rs` 672-757, 893-1072 |
| `DeriveMixed.v` | hand-written `Deserialize` code (arbitrary) next to derived code | `de/mod.rs` 641-670, 777-820 |
| `DeriveFlat.v` | derived structs with hand-written `RawDeserialize` visitors of flattened fields | `de/mod.rs` 709-730, 777-820, 893-946; `deserialize.rs` 237-263, 284-330 |
| `DeriveMixedSer.v` | hand-written `Serialize` code (arbitrary) next to derived code | `ser/mod.rs` 473-502, 533-544; `serialize.rs` 26-104 |
| `Display.v` | printed names and errors | `de/mod.rs` 188-241, `lib.rs` 493-501 |
| `Ser.v` | `ElementBuilder`, `ElementWriter`, namespaces, poison, `Serializer::to`, generic in the program calling the API | `ser/mod.rs` |
| `DeriveSer.v` | generated `Serialize` code | `serialize.rs`, `ser/mod.rs` 473-662 |
| `DeriveAttr.v` | reading of `#[static_xml(...)]` items, errors of the macro, the description it generates code from | `common.rs`, entry points of the five derives |
| `DeriveEntry.v` | collecting and emitting the macro's errors | `static-xml-derive/src/lib.rs`, `common.rs` 14-45 |
| `Forget.v` | programs that leak builders and writers or catch panics | `ser/mod.rs` 120-254, 694-717 |
| `Catch.v` | visitors and `Deserialize` code that catch panics | `de/mod.rs` 260-269, 511-639 |
| `FlatLeak.v` | `DeriveFlat.v` with the record of what is leaked | `de/mod.rs` 709-720, 743-755; `deserialize.rs` 32-54, 320-330 |
| `MixedLeak.v` | `DeriveMixed.v` with the record of what is leaked below hand-written code | `de/mod.rs` 641-670, 743-755 |
| `Visitor.v` | visitors of derived types in the hands of safe code: any calls, any order, errors ignored, panics caught | `de/mod.rs` 709-755, `static-xml-derive/src/deserialize.rs` 196-512 |
| `Source.v` | `std::error::Error::source` of the reader's errors | `de/mod.rs` 208-212, 243-258 |
| `Word.v` | the reader and the search for free prefixes once more, with counters that overflow | `de/mod.rs` 260-481, 537-638, `ser/mod.rs` 307-351 |
| `Dom.v` | user code: a type for whole documents, as planned in the README | `README.md` 96-98, `de/mod.rs` 667-669, 777-818, `ser/mod.rs` 494-501 |
| `Rest.v` | user code: a type for what no field is for, to be flattened, as planned in the README | `README.md` 96-106, `de/mod.rs` 709-730, 777-818, `ser/mod.rs` 494-501 |
| `Float.v` | `FromStr` and `Display` of `f32` and `f64` in std, as far as documented: nearest float, shortest digits | `de/mod.rs` 1037-1046, 1058-1059; `ser/mod.rs` 586-594, 607-608 |
| `Live.v` | running Serialize implementations once more, with the calls that have returned and the output also when there is a panic | `ser/mod.rs` 120-255, 694-717 |
| `Steps.v` | look-ups, normalization, the choice of prefixes and the calls of visitors once more, with counts of steps | `de/mod.rs` 540-638, 838-910, 948-956, `ser/mod.rs` 307-351, `deserialize.rs` 289-303, 415 |
| `Many.v` | user code: a list of choices, to be flattened | `static-xml/src/lib.rs` 413-447, `de/mod.rs` 709-730, 777-818, `ser/mod.rs` 494-501 |
| `Alias.v` | pointers of generated visitors under Stacked and Tree Borrows | `deserialize.rs` 56-88, 264-318; `de/mod.rs` 743-755 |
| `Resolve.v` | the names in generated code that rustc looks up | `static-xml-derive/src/*.rs`, `de/mod.rs` 733-757 |
| `GenCode.v` | the code the macros emit, as syntax | `deserialize.rs`, `serialize.rs`, `parse.rs`, `to_text.rs` |
| `GenRun.v`, `GenSer.v` | running that code, everything found by name | the same |

Each layer has, next to it,

* a specification (`NormalizeSpec`, `TextSpec`, `ReaderSpec`, `DeSpec`, `ErrSpec`, `LeakSpec`, `LeakCutSpec`, `DepthSpec`, `DisplaySpec`, `SerSpec`,
  `NsSpec`, `NsExactSpec`, `ScopeSpec`, `DSerSpec`, `RTSpec`, `RTStableSpec`, `SchemaSpec`, `MixedSpec`, `MixedReads`, `MixedSerSpec`, `MixedRTSpec`, `HandTextSpec`, `NamesSpec`, `EvolveSpec`, `FlatSpec`, `DASpec`, `MistakeSpec`, `ForgetSpec`, `CatchSpec`), written from XML Schema,
  XML Namespaces and the docs, not from the code;
* proofs (`NormalizeProofs`, `NormalizeWords`, `TextProofs`, `TextCanon`, `FindProofs`, `Reader{Proofs,Total,Ok,More,Xml,Props,Cut,Stop,Rel}`,
  `De{Proofs,Main,Det,Like,Total,Props,Cut}`, `ErrProofs`, `LeakProofs`, `LeakCut`, `DepthProofs`, `DepthDe`, `DisplayProofs`, `BMap`, `Ser{Proofs,Tree,Poison}`,
  `Ns{Proofs,Main,Meaning,Choice,Exact,Scope,Writes}`, `DSer{Proofs,Panic,Props}`, `RT{Proofs,Props,Stable,Inj}`, `Schema{Proofs,Stable}`, `MixedProofs`, `MixedUser`, `MixedDe`, `MixedSer`, `MixedRT`, `HandText`, `HandParse`, `Names`, `Names{Derived,Source,Reads}`, `Evolve`, `EvolveDoc`, `Flat{Proofs,Safe,Enum}`, `MistakeProofs`, `Gen{Names,Proofs,SerProofs,Link}`, `ForgetProofs`, `CatchProofs`, `CatchOk`, `CatchRel`, `VisitorSpec`, `VisitorSafe`, `VisitorHolds`, `VisitorSame`, `SourceSpec`, `SourceProofs`, `WordSpec`, `WordProofs`, `WordExact`, `SizeSpec`, `SizeProofs`, `SizeLeak`, `SizeSer`, `DomSpec`, `DomProofs`, `RestSpec`, `RestProofs`, `ManySpec`, `ManyProofs`, `FlatLeak{Spec,Proofs,Det}`, `Fail{Spec,Proofs}`, `Reorder{Spec,,Ser}`, `Part{Spec,Proofs}`, `Loss{Spec,Proofs,Saved}`, `MixedLoss`, `MixedPart`, `BuildProofs`, `Alias{,Spec,Proofs}`, `Resolve{,Spec,Proofs}`, `Steps{,Spec,Proofs}`, `NormSteps`, `Stream{Spec,Proofs}`, `Live{Spec,Proofs}`, `Float{Spec,Proofs,Text,Short,Laws,Use}`, `MixedLeakProofs`,
  `DA{Proofs,Type,Trim,Props}`, `DALink`);
* the property theorems, in files that hold nothing else but examples: `PropText` (C01-C07, C09, C10),
  `PropReader` (C08, C11-C18), `PropDe` (C19, C21-C28), `PropErr` (C46), `PropLeak` (C55), `PropDepth` (C57), `PropCut` (C48), `PropDisplay` (C20, C43), `PropSer` (C29, C30),
  `PropNs` (C31-C34), `PropScope` (C52), `PropWrites` (C56), `PropDeriveSer` (C35-C37), `PropHandText` (C58), `PropNames` (C59), `PropEvolve` (C60), `PropFlat` (C61), `PropMistakes` (C62), `PropGen` (C63), `PropForget` (C64), `PropCatch` (C65), `PropMixedLeak` (C66), `PropVisitor` (C67), `PropSource` (C68), `PropWord` (C69), `PropSize` (C70), `PropDom` (C71), `PropRest` (C72), `PropMany` (C73), `PropFlatLeak` (C74), `PropFail` (C75), `PropReorder` (C76), `PropPart` (C77), `PropLoss` (C78), `PropBuild` (C79), `PropAlias` (C80), `PropResolve` (C81), `PropSteps` (C82), `PropStream` (C83), `PropLive` (C84), `PropFloat` (C85), `PropMixedSer` (C53), `PropMixedRT` (C54), `PropRoundTrip` (C38-C40), `PropStable` (C47), `PropSchema` (C49),
  `PropMixed` (C50), `PropMixedReads` (C51),
  `PropAttr` (C41, C42, C44, C45). Each theorem is closed by `exact` and followed by `Print Assumptions`.

`Conformance.v` runs the project's own tests on the model (every assertion in `test-suite/`, in
`ser/mod.rs`'s tests, and in the commented-out tests of `de/mod.rs`). These are tests of the model, not
proofs about the code.

Panics, undefined behaviour (reading uninitialized memory) and infinite loops are explicit
outcomes (`Abort`), never totalised away.

## Plan per property

* C01-C03: `normalize` modelled on a byte buffer; refinement to word-splitting / per-character
  map; invariant over the main loop. UTF-8 encoder as spec for C02.
* C04, C05: byte-level model of `trim_matches`, of std's `from_str` (checked mul/add per digit) and
  of `Display`; iff against a declarative grammar with unbounded integers.
* C06, C07: descriptors of restriction/union enums; induction over the nested descriptor.
* C08, C18: corollaries of the reader refinement (C11) and of `read_string`'s tree semantics.
* C09, C10: both std binary search algorithms; stable sort; lexicographic order.
* C11-C17: event-stream machine (depth, stack) against structural recursion over document trees,
  for an arbitrary visitor system (any state type, any callbacks, may swallow errors). C13/C15 also
  over truncated streams. C14 is expected to be *refuted* in debug builds.
* C19-C28: descriptors of derived types in a (recursive) type environment; the generated visitor
  over slots of possibly uninitialized memory; declarative relation between tree and value; iff
  theorem; C24-C26 are corollaries. C22 and C28 are expected to be refuted.
* C29-C35: serialization API as an interpreter of arbitrary programs (free monad with results
  visible to the program); XML Namespaces as separate spec. C31, C34, C35 are expected to hold only
  under conditions; the unconditional forms get `_refuted` witnesses.
* C36-C40: derived serializers as such programs; composition with C31 and C23 through the xml-rs
  model. C37 and C39 are expected to be refuted.
* C41, C42: attribute lists to descriptors plus a list of compile errors.
* C43: string-level model of `Display`.
* C46 (added later): the first fault of a document as an inductive relation over the tree; what a child has
  to satisfy depends on the siblings before it; iff with the visitors, by the invariants of C23.
* C47 (added later): every value related to a document by the specification of C23 survives in the sense of
  C38, by induction over the document.
* C48 (added later): simulation between a stream that ends in an error and every longer stream; the events
  read determine the outcome; the reader's stack is that of the open elements.
* C49 (added later): the content model of XML Schema over trees; written trees (C36) satisfy it, trees that
  satisfy it are related to a value by the specification of C23. Three expected facts are refuted.

* C50 (added later): derived code generic in how fields are deserialized; a relation between two runs of the
  reader with corresponding user code carries the invariants of C21 past arbitrary hand-written code.
* C51 (added later): the relation a program denotes is a parameter; hand-written types are black boxes assumed to
  compute it. Induction over the document: each known type computes its clause if its children do.
* C52 (added later): the layout of the tree asked for decides whether a run succeeds; a run is followed with the
  way its open elements are completed later, so that what is being written is part of the final tree.
* C53 (added later): running a hand-written program on a borrowed writer (`graft`) adds to the caller's tree what it
  writes on its own, or makes the caller fail; then induction over values as for C36.
* C54 (added later): induction over the element read; each child was written for an item of the value. Derived types
  as for C38, hand-written ones by their contract.
* C55 (added later): the induction of C46 also carries the state of the visitor at the fault; uniqueness of the
  specification from that of C23. Streams cut off by the parser: the complete children are read as in a
  complete document, then induction over the chain of open elements.
* C56 (added later): the loops of `finalize` pick, in order, what the declarative choice of C34 picks; that choice is
  unique by induction on the number of lesser URLs; then induction over the tree.
* C57 (added later): a program is compared with itself limited to `b` levels (the visitor counts); simulation over the
  fuel of `read_loop` with the invariant that the depth is the stack position plus one; a document for each chain.
* C58 (added later): no panic by running next to an oracle that prints every text (`prints`); the error by induction
  over `fails`, the successful part before it by C36's lemmas.
* C59 (added later): an invariant of builders, namespace maps and the sink through every API call (`Names`); derived code
  asks properly by induction over values (`NamesDerived`); the origin of texts by induction over `holds` from C23's
  specification.
* C60 (added later): induction over elements on C23's specification, once per direction (`Evolve`); for flattened fields
  the children offered to the old and the new enum agree up to new names; writers by C38 (`EvolveDoc`).
* C61 (added later): by induction over attributes and children, on C11's tree semantics; one part at a time changes
  either the own fields or the flattened ones (`FlatProofs`).  Memory safety by `ReaderRel`, as C50 (`FlatSafe`).
* C62 (added later): the fold over the items satisfies an invariant that relates its state to the items read so far
  (`MistakeProofs`).
* C63 (added later): a relation between memory by name and slots by position is kept by every visitor call
  (`GenProofs`); for writing, equality of programs up to what they write (`GenSerProofs`).
* C64 (added later): a counting invariant for open elements; a translation to programs of `Ser.v` that evaluates the
  builder calls (`ForgetProofs`).
* C65 (added later): a panic that may be caught is an error with a note in the visitor's state; C11's tree semantics of
  that encoding (`CatchProofs`). Any stream: the depth walked so far is enough, no matter what the stack says (`CatchOk`).
* C66 (added later): recording is erased by relating runs (`ReaderRel`); no leak by the invariant of C21 over an
  arbitrary `T::deserialize`; collections by the tree semantics of related programs and C55 (`MixedLeakProofs`).
* C67 (added later): an invariant on the memory behind a visitor that every call keeps, whatever it returns
  (`VisitorSafe`); what is in it, by induction on the calls from the end (`VisitorHolds`); programs by relating runs of
  the reader that catches panics (`CatchRel`).
* C68 (added later): two runs related step by step; that one program makes only certain errors is the case where both
  programs are the same.
* C69 (added later): an invariant on depth, stack and the nesting of what is still to come, along every run of the reader.
* C70 (added later): by induction on the specification of reading (C23) and of leaks (C55); the children of an element
  are divided among its fields, so their weights add up. Writing: by induction on the size of the value, with the tree C36 says is written.
* C71 (added later): reading by C11's tree semantics; writing by C52 and C31, with the conditions shown for the requests of
  the program.
* C72 (added later): reading by C61, where the visitor takes everything; writing by C53.
* C73 (added later): like C72; the visitor takes the elements called like choices.
* C85 (added later): floating-point text.  `Float.v` puts the methods of std in place of the oracles for floats; all other theorems
  hold for any oracles, so also for these.  How std computes the nearest float and the shortest digits is not modelled, only the outcome.
* C84 (added later): what is asked for is written at once.  `Live.v` runs implementations like `Ser.v`, but keeps the output and the
  calls that returned also if there is a panic.
* C83 (added later): visitors are called as the document comes in.  By running the reader of `Steps.v` on a stream and on its
  continuation side by side: once the shorter stream is used up, the elements still open keep the reader from going on, whatever visitors
  make of the error.
* C82 (added later): how much work is done.  `Steps.v` has the algorithms of `Find.v`, `Normalize.v`, `Ser.v` and the loops of
  `Reader.v` once more, with counts of their steps or lists of their calls; that they do the same, and that nothing else they are
  given matters, is part of the theorems.  Which steps
  count is a choice (comparisons of names, bytes, prefixes tried, calls of visitors); time and allocations are not modelled.
* C81 (added later): what the names in generated code refer to.  `Resolve.v` has, for each derivation, the names in the
  code in the scopes they are in: items without a leading `::`, local variables with the place their span comes from,
  and types taken from the declaration.  Trusted: that Rust looks names up as `refers`, `constant` and `fits` say (items of the block,
  then the module, then crates, then the prelude; variables only by names from the same place).
* C80 (added later): which uses of the pointers in generated visitors are undefined behaviour under Stacked Borrows and
  under Tree Borrows.  `Alias.v` models both per memory location (each field that is not a flattened struct is one) and
  the order in which generated code makes and uses pointers.  Moving a visitor can
  reborrow the references inside it.  Simplified: those inside the visitor of a flattened derived struct are not yet
  reborrowed when that visitor is returned to the `new` of the outer one (derived structs can be flattened only with a
  hand-written `RawDeserialize`); no two-phase borrows, shared references or interior mutability.
* C79 (added later): the same results with and without debug assertions and with both of std's binary searches.
* C78 (added later): the converse of C24 (documents that differ in what a value holds are read differently).
* C77 (added later): one level of C23 and C36 with the recursion replaced by whole programs run on the parts; with
  hand-written `Deserialize` implementations, one level of C51.
* C76 (added later): the relation between values is defined from the type environments alone; reading goes through the
  declarative `reads` (DeSpec.v), writing through `content` (DSerSpec.v), both by induction over the document or value.
* C75 (added later): the run on the failing output is compared with the one on an output that never fails, by induction over
  programs; before the failure both are in the same state.
* C74 (added later): the state before the first fault, by induction over attributes and children; `flat_leaks` is shown to
  be a function of the document (`FlatLeakDet`).

## Trusted base

**Coq 8.16.1's kernel**, including its virtual machine (`vm_compute` is used in examples and a few
refutations; `native_compute` is not used).

**Axioms**: none. `Print Assumptions` beneath every property theorem answers `Closed under the global
context`. (The library files loaded contain the fields of a module type in `Coq.ssr.ssrunder`; no theorem
uses them.)

**That the model is the code.** The definitions in the model files of the table above were written by
reading the Rust source; each carries the file and lines it stands for. Nothing checks this but reading,
`Conformance.v`, and the seeded errors in `seeded/LOG.jsonl` (which test the theorems, not the model).

**The specifications**: the `*Spec.v` files and the statements in `Prop*.v` say what they should.

### Assumed of code outside the repository

* *std*: `String`, `Vec`, `BTreeMap` (ordered iteration, insert, get), `binary_search` (two known
  algorithms; theorems hold for both), `slice::copy_within`, `str::trim_matches`, integer `from_str` and
  `Display`, and the messages of integer parse errors are modelled. Floats, the types a user gives to
  `mode = "std"` and `{:?}` of strings are *oracles*: arbitrary functions in the record `oracles`
  (`Text.v`), over which theorems quantify; the value of `Default::default()` is part of a field's
  description. Where a theorem needs something of them
  (for instance that reading back a printed value gives the value), it is a hypothesis in the statement.
  `Float.v` models `from_str` and `Display` of `f32` and `f64` for C85: which texts are accepted, rounding to the nearest, the
  fewest digits.  That std does this is assumed.
* *xml-rs 0.8.4, reading*: a finite list of events with positions, then a final result returned forever
  after (end of document or an error). The theorems about arbitrary input (C12, C13, C15, C16) assume
  nothing about the list; those over documents (C11, C17-C19, C21-C28, C46) assume that the events are those of
  a tree.
* *xml-rs 0.8.4, writing*: every event may fail, at any time, with any error (`Ser.v`, the writer's
  failure pattern). What the writer makes of `xmlns` declarations is a parameter `policy` (`NsSpec.v`):
  all are written, or those already in scope are left out, and so on.
* *xml-rs between the two* (C38-C40): `shows` in `RTSpec.v`. Names are resolved, attributes reported with
  their values, adjacent text merged, text that is all white space reported as such (or dropped), comments
  and the like may appear.
* *rustc*: type checking as far as `compiles` (`DeSpec.v`), `typed` (`DSerSpec.v`) and `field_of`
  (`DeriveAttr.v`) state it; borrow checking (builders and writers are used in a nested fashion; in `Ser.v`
  this is the shape of programs).
* *syn*: `DeriveAttr.v` starts from parsed items and attributes.

### Not modelled

* spans other than as the places names come from (`Resolve.v`), and the text `quote!` puts around what the macros choose
  (names, positions, arms and statements are in `GenCode.v`, names that rustc looks up in `Resolve.v`);
* logging, the constructors of `ser::Error` that nothing calls;
* `unsafe` in hand-written code;
* `mem::forget` and caught panics outside `Forget.v`, `Catch.v` and `Visitor.v` (`mem::swap` on builders or writers is ruled out by borrowing: no
  two of the same lifetime can be had at once);
* memory exhaustion and stack overflow by deep recursion;
* `Read`/`Write` of the underlying stream (they are inside xml-rs).

### Simplifications

Each is stated where it is made. The main ones:

* boxed errors are the text they display;
* `usize` is `nat`, and the `i32` that numbers prefixes is too (C69: they do not overflow);
* a derived type's recursion through `Box` is recursion through the type environment `tenv`;
* a `ptr::write` over a live value (which would leak it silently) is an explicit abort in
  `DeriveDe.v`, and shown not to occur (C21).
