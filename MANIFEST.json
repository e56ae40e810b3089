{
 "claims": [
  {
   "property": "C01",
   "status": "proved",
   "theorems": [
    "C01_normalize_preserve",
    "C01_normalize_replace",
    "C01_normalize_collapse",
    "C01_words_maximal",
    "C01_words_are_words",
    "C01_words_complete"
   ],
   "note": ""
  },
  {
   "property": "C02",
   "status": "proved",
   "theorems": [
    "C02_normalize_utf8"
   ],
   "note": ""
  },
  {
   "property": "C03",
   "status": "proved",
   "theorems": [
    "C03_normalize_idempotent",
    "C03_collapse_after_replace",
    "C03_collapse_normal_form"
   ],
   "note": ""
  },
  {
   "property": "C04",
   "status": "proved",
   "theorems": [
    "C04_bool_parse",
    "C04_bool_error",
    "C04_bool_roundtrip"
   ],
   "note": ""
  },
  {
   "property": "C05",
   "status": "proved",
   "theorems": [
    "C05_int_parse",
    "C05_int_error",
    "C05_int_total",
    "C05_int_roundtrip",
    "C05_int_text"
   ],
   "note": ""
  },
  {
   "property": "C06",
   "status": "proved",
   "theorems": [
    "C06_restriction_known",
    "C06_restriction_unknown",
    "C06_restriction_error",
    "C06_restriction_roundtrip",
    "C06_restriction_roundtrip_unknown"
   ],
   "note": ""
  },
  {
   "property": "C07",
   "status": "proved",
   "theorems": [
    "C07_union_ok",
    "C07_union_error",
    "C07_union_roundtrip",
    "C07_parse_total"
   ],
   "note": ""
  },
  {
   "property": "C08",
   "status": "proved",
   "theorems": [
    "C08_element_like_attribute"
   ],
   "note": ""
  },
  {
   "property": "C09",
   "status": "proved",
   "theorems": [
    "C09_find",
    "C09_find_none"
   ],
   "note": ""
  },
  {
   "property": "C10",
   "status": "proved",
   "theorems": [
    "C10_struct_table",
    "C10_struct_lookup",
    "C10_enum_table",
    "C10_enum_lookup",
    "C10_enum_table_refuted"
   ],
   "note": "Holds for structs with distinct field names and for enums without an explicitly empty namespace; C10_enum_table_refuted shows the enum condition is needed (variants are sorted by Option<String> but searched by string)."
  },
  {
   "property": "C11",
   "status": "proved",
   "theorems": [
    "C11_reader_is_tree"
   ],
   "note": "In debug builds user code must not swallow errors of nested reads (C14)."
  },
  {
   "property": "C12",
   "status": "proved",
   "theorems": [
    "C12_resume_at_sibling",
    "C12_ignored_content"
   ],
   "note": ""
  },
  {
   "property": "C13",
   "status": "proved",
   "theorems": [
    "C13_read_total",
    "C13_documents_deliverable",
    "C13_release_agrees"
   ],
   "note": "User code must not panic itself; in debug builds it must not swallow errors of nested reads (C14)."
  },
  {
   "property": "C14",
   "status": "proved",
   "theorems": [
    "C14_recover_release",
    "C14_recover_debug_refuted"
   ],
   "note": "C14_recover_debug_refuted: recovery, which the API invites, trips debug_assert_eq!(stack.len(), depth) in debug builds."
  },
  {
   "property": "C15",
   "status": "proved",
   "theorems": [
    "C15_ok_means_complete",
    "C15_ok_means_document",
    "C15_cut_off_never_ok"
   ],
   "note": ""
  },
  {
   "property": "C16",
   "status": "proved",
   "theorems": [
    "C16_deserializer_error_path",
    "C16_xml_error_path"
   ],
   "note": ""
  },
  {
   "property": "C17",
   "status": "proved",
   "theorems": [
    "C17_invisible_content"
   ],
   "note": ""
  },
  {
   "property": "C18",
   "status": "proved",
   "theorems": [
    "C18_text_concatenated",
    "C18_child_element_rejected",
    "C18_children_ignored_refuted"
   ],
   "note": ""
  },
  {
   "property": "C19",
   "status": "proved",
   "theorems": [
    "C19_prefixes_irrelevant",
    "C19_root_name_unchecked",
    "C19_namespace_of_name"
   ],
   "note": "Names within a type must not clash (names_ok); positions in the document may change too."
  },
  {
   "property": "C20",
   "status": "proved",
   "theorems": [
    "C20_display_form",
    "C20_display_injective"
   ],
   "note": ""
  },
  {
   "property": "C21",
   "status": "proved",
   "theorems": [
    "C21_derived_total",
    "C21_derived_well_behaved"
   ],
   "note": "Needs only that the program compiles (compiles env) and that the user's FromStr does not panic; names may clash."
  },
  {
   "property": "C22",
   "status": "proved",
   "theorems": [
    "C22_ok_no_leak",
    "C22_leak_on_error_refuted"
   ],
   "note": "No leak on Ok; C22_leak_on_error_refuted exhibits the leak on Err."
  },
  {
   "property": "C23",
   "status": "proved",
   "theorems": [
    "C23_reads_iff",
    "C23_reads_functional"
   ],
   "note": "Names within a type must not clash (names_ok); the derive macro does not check this."
  },
  {
   "property": "C24",
   "status": "proved",
   "theorems": [
    "C24_unknown_ignored",
    "C24_alike",
    "C24_unknown_ignored_enum"
   ],
   "note": "Names within a type must not clash (names_ok)."
  },
  {
   "property": "C25",
   "status": "proved",
   "theorems": [
    "C25_order_irrelevant",
    "C25_attributes_permuted"
   ],
   "note": "Struct without flattened fields (C28 shows order matters with them); C24_alike extends it to every depth."
  },
  {
   "property": "C26",
   "status": "proved",
   "theorems": [
    "C26_duplicate_or_missing_is_error",
    "C26_duplicate_or_missing_nested"
   ],
   "note": ""
  },
  {
   "property": "C27",
   "status": "proved",
   "theorems": [
    "C27_enum_iff",
    "C27_mixed_variants_error",
    "C27_no_variant_error"
   ],
   "note": ""
  },
  {
   "property": "C28",
   "status": "proved",
   "theorems": [
    "C28_flatten_order",
    "C28_offered_to_each_refuted"
   ],
   "note": "C28_offered_to_each_refuted: the documented rule (lib.rs 262-263) fails."
  },
  {
   "property": "C29",
   "status": "proved",
   "theorems": [
    "C29_success_writes_what_was_asked",
    "C29_proper_use_succeeds"
   ],
   "note": "mem::forget and mem::swap on builders and writers are not modelled; the converse (proper use succeeds) is conditional on not panicking (C35)."
  },
  {
   "property": "C30",
   "status": "proved",
   "theorems": [
    "C30_first_failure_is_final",
    "C30_dropped_writer",
    "C30_dropped_builder",
    "C30_first_error_reported_refuted"
   ],
   "note": "C30_first_error_reported_refuted: the first failure is not what is reported if the program returns an error of its own."
  },
  {
   "property": "C31",
   "status": "proved",
   "theorems": [
    "C31_names_keep_their_meaning",
    "C31_remapped_prefix_refuted",
    "C31_generated_prefix_refuted",
    "C31_default_namespace_refuted"
   ],
   "note": "Under the stated conditions; C31_remapped_prefix_refuted and C31_default_namespace_refuted show they are needed. The omission policy of the event writer (xml-rs) is modelled from its source, which is not in the repository; the theorem is proved for three policies."
  },
  {
   "property": "C32",
   "status": "proved",
   "theorems": [
    "C32_terminates",
    "C32_tags"
   ],
   "note": ""
  },
  {
   "property": "C33",
   "status": "proved",
   "theorems": [
    "C33_attributes_distinct",
    "C33_second_attribute_refused"
   ],
   "note": ""
  },
  {
   "property": "C34",
   "status": "proved",
   "theorems": [
    "C34_choice",
    "C34_exact",
    "C34_determined",
    "C34_parents_prefix_refuted",
    "C34_containers_prefix_refuted",
    "C34_prefixed_form_refuted"
   ],
   "note": "C34_parents_prefix_refuted, C34_containers_prefix_refuted, C34_prefixed_form_refuted: the documented rules (lib.rs 230-239) fail."
  },
  {
   "property": "C35",
   "status": "proved",
   "theorems": [
    "C35_root_never_panics",
    "C35_root_succeeds",
    "C35_default_namespace_refuted",
    "C35_with_name_never_panics",
    "C35_undeclared_name_refuted"
   ],
   "note": "Conditions: names_declared, prefixes_ok, no_default; C35_default_namespace_refuted and C35_undeclared_name_refuted show they are needed."
  },
  {
   "property": "C36",
   "status": "proved",
   "theorems": [
    "C36_content_unique",
    "C36_content_exists",
    "C36_tree_written",
    "C36_document",
    "C36_text_field_refuted"
   ],
   "note": "C36_text_field_refuted: documented text fields are not written."
  },
  {
   "property": "C37",
   "status": "proved",
   "theorems": [
    "C37_skipped_content",
    "C37_skipped_variant_refuted"
   ],
   "note": "C37_skipped_variant_refuted: the documented error does not happen."
  },
  {
   "property": "C38",
   "status": "proved",
   "theorems": [
    "C38_round_trip_iff",
    "C38_lossless_types",
    "C38_every_tree_shown",
    "C38_lossless_text",
    "C38_injective"
   ],
   "note": "The parser is trusted to deliver the tree that was written (shows, RTSpec.v); names within a type must not clash."
  },
  {
   "property": "C39",
   "status": "proved",
   "theorems": [
    "C39_strings",
    "C39_blank_string_refuted",
    "C39_lost_is_error",
    "C39_empty_payload_lost",
    "C39_skipped_lost",
    "C39_two_flattened_lost"
   ],
   "note": "C39_blank_string_refuted: a blank string does not survive; the others are universal theorems."
  },
  {
   "property": "C40",
   "status": "proved",
   "theorems": [
    "C40_indentation_invisible",
    "C40_indented_shows"
   ],
   "note": "Indentation: white space in elements without text, as xml-rs does. The XML declaration is not part of the root element."
  },
  {
   "property": "C41",
   "status": "proved",
   "theorems": [
    "C41_serialize_accepts",
    "C41_deserialize_accepts",
    "C41_trim",
    "C41_field_names",
    "C41_variant_names",
    "C41_type_name",
    "C41_undeclared_rejected",
    "C41_two_prefixes_rejected",
    "C41_redeclared_rejected",
    "C41_two_type_prefixes_refuted",
    "C41_xml_redefined_refuted",
    "C41_panics_iff"
   ],
   "note": "C41_two_type_prefixes_refuted and C41_xml_redefined_refuted: where the macro does not reject. Parsing of attributes by syn is not modelled."
  },
  {
   "property": "C42",
   "status": "proved",
   "theorems": [
    "C42_exclusive_rejected",
    "C42_default_flatten_rejected",
    "C42_two_texts_rejected",
    "C42_misplaced_rejected",
    "C42_shape_rejected",
    "C42_literal_refuted",
    "C42_after_skip_refuted",
    "C42_text_refuted"
   ],
   "note": "C42_literal_refuted, C42_after_skip_refuted and C42_text_refuted exhibit the exceptions."
  },
  {
   "property": "C43",
   "status": "proved",
   "theorems": [
    "C43_display_shape",
    "C43_message",
    "C43_stack_recoverable"
   ],
   "note": ""
  },
  {
   "property": "C44",
   "status": "proved",
   "theorems": [
    "C44_text_accepts",
    "C44_never_panics",
    "C44_restriction",
    "C44_same_text_refuted"
   ],
   "note": "C44_same_text_refuted: duplicate texts are not reported."
  },
  {
   "property": "C45",
   "status": "proved",
   "theorems": [
    "C45_description",
    "C45_names_declared",
    "C45_never_panics",
    "C45_round_trip",
    "C45_empty_url_refuted"
   ],
   "note": "rustc's checks (types exist, flattened types are enums: compiles) and distinct names (names_ok) are hypotheses; C45_empty_url_refuted: an empty URL is accepted and breaks reading."
  },
  {
   "property": "C46",
   "status": "proved",
   "theorems": [
    "C46_first_fault",
    "C46_fault_unique",
    "C46_fault_or_value"
   ],
   "note": "Text parsers are parameters where the standard library does the parsing (oracles); names_ok and compiles as in C23."
  },
  {
   "property": "C47",
   "status": "proved",
   "theorems": [
    "C47_load_save_load",
    "C47_read_survives",
    "C47_settled_text",
    "C47_settled_std",
    "C47_settled_union",
    "C47_union_refuted",
    "C47_two_flattened_refuted"
   ],
   "note": "Conditions on the types are those listed in the statement (settled_env) plus those of C38 for serialization to succeed; C47_union_refuted and C47_two_flattened_refuted show that two of them are needed; that blank CDATA is lost is C39."
  },
  {
   "property": "C48",
   "status": "proved",
   "theorems": [
    "C48_parser_error",
    "C48_decided",
    "C48_fail_fast",
    "C48_fault_fail_fast",
    "C48_cut_document",
    "C48_cut_valid"
   ],
   "note": "For user code that hands on the errors of reading (transparent; derived code is). The parser's failure is an arbitrary error value at the end of an arbitrary event sequence; C48_cut_document and C48_cut_valid are about prefixes of the event sequence of a document. Text parsers are parameters (oracles)."
  },
  {
   "property": "C49",
   "status": "proved",
   "theorems": [
    "C49_written_valid",
    "C49_valid_read",
    "C49_made_valid",
    "C49_order_refuted",
    "C49_empty_choice_refuted",
    "C49_two_choices_refuted"
   ],
   "note": "Sequence, choice, minOccurs/maxOccurs and attribute use of XML Schema, as the tables in lib.rs relate them to structs and enums. C49_written_valid: flattened fields declared last, no enum holding a skipped variant or an empty Vec (both conditions are necessary: C49_order_refuted, C49_empty_choice_refuted). C49_valid_read: at most one flattened field per struct, with variants not named like the struct's element fields (without: C49_two_choices_refuted). Lexical spaces are what the text types print, or parse."
  },
  {
   "property": "C50",
   "status": "proved",
   "theorems": [
    "C50_memory_safe",
    "C50_only_own_panics",
    "C50_total",
    "C50_conservative",
    "C50_hand_written_alone",
    "C50_delegation"
   ],
   "note": "Hand-written code is an arbitrary function from its state and what an ElementReader shows to one of: drop it, read_string, read_to with its own visitor, T::deserialize of a text or derived type. C50_memory_safe holds for any event stream, also ill-formed ones. C50_total needs a stream xml-rs can deliver and, in debug builds, code that hands on errors (C14 shows why). Flattened fields are derived enums."
  },
  {
   "property": "C51",
   "status": "proved",
   "theorems": [
    "C51_reads",
    "C51_everywhere",
    "C51_unique"
   ],
   "note": "The relation R is a parameter: `denotes` gives its equations for text and derived types (the same clauses as C23), `hand_written_ok` says what is assumed of hand-written code, under the assumption that what it calls behaves as R says. The example proves that assumption for a hand-written collection type. In debug builds hand-written code must hand on errors (C14 shows why). Names must not clash, as in C23."
  },
  {
   "property": "C52",
   "status": "proved",
   "theorems": [
    "C52_declared_succeeds",
    "C52_undeclared_panics",
    "C52_returns_or_panics",
    "C52_grandparent_refuted",
    "C52_order_refuted"
   ],
   "note": "`asked` (SerSpec) is what a program asks for when every call works; None if it returns an error, panics, or drops a builder or writer. Between `declared` and `undeclared_name` lie the two cases C52_grandparent_refuted and C52_order_refuted exhibit. That the written names then mean what was asked for is C31."
  },
  {
   "property": "C53",
   "status": "proved",
   "theorems": [
    "C53_tree",
    "C53_content_unique",
    "C53_written",
    "C53_no_content_no_success",
    "C53_succeeds",
    "C53_all_derived",
    "C53_ignored_error_refuted"
   ],
   "note": "Hand-written code is an arbitrary program for the serialization API, one per value. `hands_on` is required of flattened hand-written types only; C53_ignored_error_refuted shows it is needed."
  },
  {
   "property": "C54",
   "status": "proved",
   "theorems": [
    "C54_round_trip_iff",
    "C54_everywhere",
    "C54_all_derived"
   ],
   "note": "The hand-written implementations are described by what they read (R, as in C51) and which values survive (M); `hand_written_faithful` is the contract between the two. Conditions on namespaces as in C31/C38."
  },
  {
   "property": "C55",
   "status": "proved",
   "theorems": [
    "C55_what_leaks",
    "C55_leak_or_value",
    "C55_cut",
    "C55_decided",
    "C55_cut_anywhere"
   ],
   "note": "Complements C22 (nothing leaks on Ok). Parser failures: C55_cut (within the root element), C55_cut_anywhere (every prefix of a document)."
  },
  {
   "property": "C56",
   "status": "proved",
   "theorems": [
    "C56_events",
    "C56_panics",
    "C56_determined",
    "C56_success",
    "C56_derived"
   ],
   "note": "Strengthens C31, C34, C52 to an exact description. Events are what is passed to xml-rs."
  },
  {
   "property": "C57",
   "status": "proved",
   "theorems": [
    "C57_open_elements",
    "C57_bounded",
    "C57_text",
    "C57_exact",
    "C57_recursive",
    "C57_exclusive"
   ],
   "note": "Levels are nested calls of read_to (each level is a bounded number of stack frames of library and derived code; the size of a frame is not modelled). The exact bound needs distinct names, also among flattened variants (unshadowed); the upper bounds need nothing."
  },
  {
   "property": "C58",
   "status": "proved",
   "theorems": [
    "C58_parse",
    "C58_print",
    "C58_decided",
    "C58_unique",
    "C58_typed",
    "C58_never_panics",
    "C58_with_name_never_panics",
    "C58_never_ok",
    "C58_error",
    "C58_success"
   ],
   "note": "Hand-written ParseText/ToText are arbitrary functions (o_hand_parse, o_hand_show in Text.v). Flattened types are enums in C58_decided (as the derives demand, C45); C58_error has the conditions of C35 (names declared, prefixes, attribute names apart)."
  },
  {
   "property": "C59",
   "status": "proved",
   "theorems": [
    "C59_programs",
    "C59_derived",
    "C59_with_name",
    "C59_any_value",
    "C59_text_types",
    "C59_source",
    "C59_identifiers",
    "C59_origin",
    "C59_read_back",
    "C59_kept",
    "C59_rename_refuted",
    "C59_control_character_refuted"
   ],
   "note": "The productions of XML 1.0 (fifth edition) and Namespaces in XML are in NamesSpec.v. Floats, std and hand-written text types are arbitrary functions: C59_read_back assumes that they keep XML characters. The *_refuted theorems show that the conditions on names and values are needed."
  },
  {
   "property": "C60",
   "status": "proved",
   "theorems": [
    "C60_old_documents",
    "C60_new_documents",
    "C60_old_writer",
    "C60_new_writer",
    "C60_no_defaults",
    "C60_variant_name_refuted",
    "C60_ignored_before_refuted",
    "C60_new_default_refuted"
   ],
   "note": "The root element is named by the caller or the type; its name is not checked when reading (C19), so it may change. Variants are matched by name: their number in the model is the position in the sorted table. The *_refuted theorems show that the conditions are needed."
  },
  {
   "property": "C61",
   "status": "proved",
   "theorems": [
    "C61_struct",
    "C61_element",
    "C61_alone",
    "C61_greedy",
    "C61_enum",
    "C61_memory_safe",
    "C61_only_own_panics"
   ],
   "note": "The visitors are arbitrary functions over an arbitrary state; a child is handed back only unread, because reading it consumes the ElementReader. Their finalize returns the value that the trait promises to be in out. Types of element fields are arbitrary Deserialize implementations, including structs of the same kind."
  },
  {
   "property": "C62",
   "status": "proved",
   "theorems": [
    "C62_entry",
    "C62_serialize",
    "C62_deserialize",
    "C62_text",
    "C62_code",
    "C62_text_code",
    "C62_fields",
    "C62_unparsable_refuted"
   ],
   "note": "Errors are identified by their kind and the strings in their message, not by their spans. That the errors of an input syn cannot parse are reported is refuted (C62_unparsable_refuted)."
  },
  {
   "property": "C63",
   "status": "proved",
   "theorems": [
    "C63_deserialize",
    "C63_serialize",
    "C63_serialize_only",
    "C63_visitor_fields",
    "C63_parse",
    "C63_to_text"
   ],
   "note": "The syntax of the generated code covers what the macros choose: names, positions, arms, statements and their order; the fixed text around it and the resolution of type names are not modelled. rustc is taken to guarantee distinct field and variant identifiers."
  },
  {
   "property": "C64",
   "status": "proved",
   "theorems": [
    "C64_open_at_end",
    "C64_forgotten_not_well_formed",
    "C64_without",
    "C64_success",
    "C64_well_formed_refuted",
    "C64_unstarted_refuted"
   ],
   "note": "That success means a well-formed document for all safe programs is refuted (C64_well_formed_refuted), and that a builder that is not started poisons the output (C64_unstarted_refuted)."
  },
  {
   "property": "C65",
   "status": "proved",
   "theorems": [
    "C65_release",
    "C65_ok_means_complete",
    "C65_cut_off_never_ok",
    "C65_terminates",
    "C65_release_returns",
    "C65_nothing_caught",
    "C65_debug_refuted",
    "C65_stack_refuted"
   ],
   "note": "That recovery works in debug builds is refuted (C65_debug_refuted), and that the stack of an XML error names the open elements after a recovery (C65_stack_refuted)."
  },
  {
   "property": "C66",
   "status": "proved",
   "theorems": [
    "C66_recording",
    "C66_success",
    "C66_conservative",
    "C66_delegation",
    "C66_collection",
    "C66_success_refuted",
    "C66_unbounded"
   ],
   "note": "That a successful read leaks nothing when hand-written code swallows errors is refuted (C66_success_refuted); such leaks are unbounded (C66_unbounded)."
  },
  {
   "property": "C67",
   "status": "proved",
   "theorems": [
    "C67_safe",
    "C67_finalize",
    "C67_no_trace",
    "C67_programs",
    "C67_memory_safe",
    "C67_conservative",
    "C67_default_refuted"
   ],
   "note": "That a struct takes the default given to finalize is refuted (C67_default_refuted; the generated code says it is unsupported)."
  },
  {
   "property": "C68",
   "status": "proved",
   "theorems": [
    "C68_source",
    "C68_opaque"
   ],
   "note": "Boxed errors are represented by strings, which stand for their identities: C68_opaque shows that nothing depends on them."
  },
  {
   "property": "C69",
   "status": "proved",
   "theorems": [
    "C69_usize",
    "C69_exact",
    "C69_i32"
   ],
   "note": "The other integers are indices into slices and strings, below their lengths."
  },
  {
   "property": "C70",
   "status": "proved",
   "theorems": [
    "C70_value_size",
    "C70_leak_size",
    "C70_cut_leak_size",
    "C70_write_size"
   ],
   "note": "Sizes of values, not of memory: capacities and allocation headers are not modelled. Oracles for numbers and hand-written text parsers yield values of size one."
  },
  {
   "property": "C71",
   "status": "proved",
   "theorems": [
    "C71_reads_everything",
    "C71_round_trip",
    "C71_unchanged_iff",
    "C71_prefixes"
   ],
   "note": "About user code written for the proof (Dom.v), run by the models of the reader and the writer."
  },
  {
   "property": "C72",
   "status": "proved",
   "theorems": [
    "C72_kept",
    "C72_survives",
    "C72_values",
    "C72_hands_on"
   ],
   "note": "About user code written for the proof (Rest.v), flattened into structs whose derived code is that of C61 and C53."
  },
  {
   "property": "C73",
   "status": "proved",
   "theorems": [
    "C73_read",
    "C73_written",
    "C73_survives",
    "C73_text",
    "C73_hands_on"
   ],
   "note": "About user code written for the proof (Many.v), flattened into structs whose derived code is that of C61 and C53."
  },
  {
   "property": "C74",
   "status": "proved",
   "theorems": [
    "C74_recording",
    "C74_exact",
    "C74_success",
    "C74_tidy",
    "C74_order_refuted"
   ],
   "note": "What a hand-written visitor holds in its `out` is given with the program (FlatLeak.v). C74_order_refuted: that the order of declaration does not matter is false."
  },
  {
   "property": "C75",
   "status": "proved",
   "theorems": [
    "C75_stops",
    "C75_not_reached",
    "C75_no_new_panic",
    "C75_derived",
    "C75_serialize",
    "C75_ignored_refuted"
   ],
   "note": "C75_serialize states all of it for derived types; C75_derived makes C75_stops apply next to hand-written code. C75_ignored_refuted: without the condition on hand-written code the statement is false."
  },
  {
   "property": "C76",
   "status": "proved",
   "theorems": [
    "C76_reads",
    "C76_reads_iff",
    "C76_symmetric",
    "C76_unique",
    "C76_writes",
    "C76_written",
    "C76_exchange",
    "C76_flattened_refuted"
   ],
   "note": "Reading: C76_reads, C76_reads_iff; the correspondence of values: C76_symmetric, C76_unique; writing: C76_writes, C76_written; C76_exchange puts them together. C76_flattened_refuted: the condition on flattened fields is needed."
  },
  {
   "property": "C77",
   "status": "proved",
   "theorems": [
    "C77_alone",
    "C77_struct",
    "C77_enum",
    "C77_mixed_alone",
    "C77_mixed_struct",
    "C77_mixed_enum",
    "C77_struct_written",
    "C77_enum_written"
   ],
   "note": "Reading: C77_alone, C77_struct, C77_enum, where the relation between a child and its value is read_alone, i.e. the whole reader on a document of its own; C77_mixed_alone, C77_mixed_struct and C77_mixed_enum with hand-written implementations, which have to behave as in C51. Writing: C77_struct_written, C77_enum_written (derived types)."
  },
  {
   "property": "C78",
   "status": "proved",
   "theorems": [
    "C78_exact",
    "C78_saved",
    "C78_mixed",
    "C78_default_refuted",
    "C78_flattened_refuted"
   ],
   "note": "C78_exact (both directions); C78_mixed (with hand-written parts); C78_saved (load and save). C78_default_refuted and C78_flattened_refuted show that the two conditions are needed."
  },
  {
   "property": "C79",
   "status": "proved",
   "theorems": [
    "C79_reading",
    "C79_search",
    "C79_mixed",
    "C79_writing",
    "C79_writing_derived",
    "C79_same_names_refuted",
    "C79_xml_prefix_refuted"
   ],
   "note": "C79_reading, C79_search, C79_mixed, C79_writing, C79_writing_derived. C79_same_names_refuted and C79_xml_prefix_refuted show that the conditions are needed."
  },
  {
   "property": "C80",
   "status": "proved",
   "theorems": [
    "C80_tree",
    "C80_stacked",
    "C80_moved",
    "C80_once",
    "C80_flatten_refuted",
    "C80_writing_new_refuted"
   ],
   "note": "C80_tree, C80_stacked (if and only if), C80_moved, C80_once. C80_flatten_refuted: a struct with an own field and a flattened one is read with undefined behaviour under Stacked Borrows. C80_writing_new_refuted: the condition on new is needed."
  },
  {
   "property": "C81",
   "status": "proved",
   "theorems": [
    "C81_names",
    "C81_reserved_needed",
    "C81_variables_needed",
    "C81_visitor_refuted",
    "C81_macro_refuted"
   ],
   "note": "C81_names, and C81_reserved_needed, C81_variables_needed for the last sentence. C81_visitor_refuted and C81_macro_refuted: without the two conditions names are not found or mean something else. Names after :: or . are not part of it (C63)."
  },
  {
   "property": "C82",
   "status": "proved",
   "theorems": [
    "C82_lookup",
    "C82_lookup_only",
    "C82_normalize",
    "C82_normalize_exact",
    "C82_prefixes",
    "C82_prefixes_reached",
    "C82_calls",
    "C82_calls_only",
    "C82_reading",
    "C82_reading_only",
    "C82_flattened"
   ],
   "note": "C82_lookup, C82_lookup_only, C82_normalize, C82_normalize_exact, C82_prefixes, C82_prefixes_reached, C82_calls, C82_calls_only, C82_reading, C82_reading_only; C82_flattened ties the count for flattened fields to the visitors. The theorems ending in _only say that nothing used is left out of the lists of positions, calls and tables; for bytes there is the exact number, for prefixes a lower bound. Steps are comparisons, bytes, prefixes tried and calls; the time each takes, allocations and xml-rs are not modelled."
  },
  {
   "property": "C83",
   "status": "proved",
   "theorems": [
    "C83_calls",
    "C83_at_once"
   ],
   "note": "C83_calls for any visitors, C83_at_once for visitors that read everything. Calls are those of Steps.v, which reads like Reader.v (C82_calls). Panics that are caught (C65) are not covered here."
  },
  {
   "property": "C84",
   "status": "proved",
   "theorems": [
    "C84_same",
    "C84_returned",
    "C84_stopped",
    "C84_stopped_attributes",
    "C84_beginning"
   ],
   "note": "Live.v repeats the functions of Ser.v that run implementations, with the calls that have returned and the output at a panic; C84_same shows that results are the same. Output is what is given to xml-rs, which may buffer it. Panics caught inside an implementation are C64."
  },
  {
   "property": "C85",
   "status": "proved",
   "theorems": [
    "C85_accepted",
    "C85_rejected",
    "C85_number",
    "C85_nearest",
    "C85_number_refuted",
    "C85_word",
    "C85_same",
    "C85_exact",
    "C85_monotone",
    "C85_written",
    "C85_xsd",
    "C85_infinity_refuted",
    "C85_read_back",
    "C85_nan",
    "C85_nan_refuted",
    "C85_survives",
    "C85_survives_attribute",
    "C85_characters"
   ],
   "note": "Float.v gives the oracles for floats the methods of std (FromStr, Display as of Rust 1.58): rounding and shortest digits as documented, not the algorithms of std. C85_number_refuted: std ignores digits of exponents from 65536 on, so the bound is needed. C85_infinity_refuted and C85_nan_refuted show the exceptions for infinity and NaN."
  }
 ]
}