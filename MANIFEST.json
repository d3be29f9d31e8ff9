{
 "claims": [
  {
   "property": "C01",
   "status": "proved",
   "theorems": [
    "C01_keyword_text_bijection",
    "C01_keyword_like"
   ],
   "note": ""
  },
  {
   "property": "C02",
   "status": "partial",
   "theorems": [
    "C02_enum_text_roundtrip_partial",
    "C02_enum_texts",
    "C02_enum_text_roundtrip_refuted"
   ],
   "note": "Every enumeration except one error code: the text of ErrorCode::DuplicateKey is not parsed back (refuted)."
  },
  {
   "property": "C03",
   "status": "proved",
   "theorems": [
    "C03_langtag_eq",
    "C03_langtag_ord",
    "C03_langtag_hash"
   ],
   "note": ""
  },
  {
   "property": "C04",
   "status": "proved",
   "theorems": [
    "C04_json_compare",
    "C04_json_compare_equivalence",
    "C04_duplicate_keys_panic_refuted"
   ],
   "note": "Compare panics on duplicate keys, which the property excludes."
  },
  {
   "property": "C05",
   "status": "partial",
   "theorems": [
    "C05_container_kinds_partial",
    "C05_container_order_partial",
    "C05_container_contains",
    "C05_container_syntax_roundtrip",
    "C05_container_kinds_refuted"
   ],
   "note": "Exact except when @index is listed after both @graph and @set: Container::with maps GraphSet + Index to GraphIdSet (refuted)."
  },
  {
   "property": "C06",
   "status": "proved",
   "theorems": [
    "C06_parse_print_parse",
    "C06_print_parse"
   ],
   "note": ""
  },
  {
   "property": "C07",
   "status": "partial",
   "theorems": [
    "C07_simplify_partial",
    "C07_prefix_only_partial",
    "C07_refuted_empty",
    "C07_refuted_prefix"
   ],
   "note": "Holds for every definition except two refuted cases: a definition without entries (simplified to null), and a definition with only an @id for a term usable as a prefix (the simple form creates a prefix)."
  },
  {
   "property": "C08",
   "status": "proved",
   "theorems": [
    "C08_push_exact",
    "C08_push_in_history"
   ],
   "note": ""
  },
  {
   "property": "C09",
   "status": "partial",
   "theorems": [
    "C09_terminates_partial",
    "C09_result_unique",
    "C09_chain_not_loaded",
    "C09_refuted"
   ],
   "note": "Terminates whenever no document reached through @import carries a scoped context that imports again; refuted without that condition (import loop through a scoped context)."
  },
  {
   "property": "C10",
   "status": "partial",
   "theorems": [
    "C10_terminates_partial",
    "C10_terminates_local",
    "C10_cycle_never_succeeds",
    "C10_cycle_error",
    "C10_refuted"
   ],
   "note": "Cyclic dependencies never succeed and are reported as a cyclic IRI mapping; unconditional termination is refuted by the same import loop as C09."
  },
  {
   "property": "C11",
   "status": "partial",
   "theorems": [
    "C11_protected_partial",
    "C11_protected_type",
    "C11_refuted_reverse",
    "C11_refuted_keyword_like"
   ],
   "note": "Holds when the redefinition is neither a reverse property nor has a keyword-like @id; both exceptions are refuted with witnesses."
  },
  {
   "property": "C12",
   "status": "proved",
   "theorems": [
    "C12_null",
    "C12_null_last"
   ],
   "note": "With propagate = false the previous context is kept, as the statement allows."
  },
  {
   "property": "C13",
   "status": "partial",
   "theorems": [
    "C13_definition_entries_partial",
    "C13_refuted"
   ],
   "note": "Proved for the keywords that are context definition entries; refuted for other keywords: {\"@id\": \"http://x/\"} binds @id."
  },
  {
   "property": "C14",
   "status": "proved",
   "theorems": [
    "C14_expansion",
    "C14_total",
    "C14_keyword",
    "C14_absolute_fixed",
    "C14_context_unchanged"
   ],
   "note": ""
  },
  {
   "property": "C15",
   "status": "proved",
   "theorems": [
    "C15_import",
    "C15_not_importable"
   ],
   "note": ""
  },
  {
   "property": "C16",
   "status": "proved",
   "theorems": [
    "C16_selected",
    "C16_nothing",
    "C16_order",
    "C16_maps"
   ],
   "note": ""
  },
  {
   "property": "C17",
   "status": "proved",
   "theorems": [
    "C17_never_stale",
    "C17_current"
   ],
   "note": ""
  },
  {
   "property": "C18",
   "status": "partial",
   "theorems": [
    "C18_partial",
    "C18_refuted",
    "C18_keyword_refuted",
    "C18_slashes_refuted",
    "C18_null_refuted"
   ],
   "note": "False as stated: C18_refuted (a suffix of the vocabulary mapping that contains a colon), C18_keyword_refuted (a suffix that is a keyword), C18_slashes_refuted (a compact IRI whose suffix starts with //), C18_null_refuted (an IRI that is a term defined as null). C18_partial proves the round trip for all contexts, values and modes when none of these applies to the IRI."
  },
  {
   "property": "C19",
   "status": "partial",
   "theorems": [
    "C19_exactly_partial",
    "C19_shortest_partial",
    "C19_order_partial",
    "C19_possible_partial",
    "C19_refuted"
   ],
   "note": "False as stated: C19_refuted (the candidate must be both no longer and lexicographically smaller to replace the current one, so the result depends on the iteration order and may not be the shortest). C19_possible_partial: exactly the candidates that no other beats can be returned; C19_exactly_partial: the result is independent of the order iff one candidate beats all the others; C19_shortest_partial: then it is the shortest; C19_order_partial: with terms, vocabulary and values."
  },
  {
   "property": "C20",
   "status": "proved",
   "theorems": [
    "C20_add_value",
    "C20_add_value_shape",
    "C20_nested_array_flattened_refuted"
   ],
   "note": "Values are the leaves of the argument: nested arrays (JSON literals) are flattened, shown by the refuted theorem."
  },
  {
   "property": "C21",
   "status": "partial",
   "theorems": [
    "C21_partial",
    "C21_item_partial",
    "C21_fails_partial",
    "C21_null_refuted",
    "C21_direction_refuted",
    "C21_type_refuted",
    "C21_json_refuted",
    "C21_none_refuted"
   ],
   "note": "Holds for contexts whose keyword aliases and datatypes read back and properties without local context, given the stated conditions on the value; refuted without them: null values, strings with only a direction or only a language under a default for the other, tagged strings of a typed property, literals of an @json property, the language @none."
  },
  {
   "property": "C22",
   "status": "proved",
   "theorems": [
    "C22_lang_string_always_tagged",
    "C22_lang_string_update",
    "C22_lang_string_new"
   ],
   "note": ""
  },
  {
   "property": "C23",
   "status": "proved",
   "theorems": [
    "C23_multiset",
    "C23_objects",
    "C23_object",
    "C23_parsed"
   ],
   "note": ""
  },
  {
   "property": "C24",
   "status": "partial",
   "theorems": [
    "C24_partial",
    "C24_node_partial",
    "C24_any_depth",
    "C24_refuted",
    "C24_types_refuted"
   ],
   "note": "Exact for objects without included nodes and empty type lists whose identifiers and keys read back as themselves; refuted for included nodes (written under @include) and for an empty type list. C53 gives the condition for documents obtained by parsing."
  },
  {
   "property": "C25",
   "status": "partial",
   "theorems": [
    "C25_partial",
    "C25_blank_partial",
    "C25_deterministic",
    "C25_without_lists",
    "C25_refuted"
   ],
   "note": "Exact description of what is visited: everything outside lists, each object once, and every identifier except those in lists and names of reverse properties. Refuted in general: items of lists are not visited (the list fragment has no sub-fragment) and reverse property names are not reported."
  },
  {
   "property": "C26",
   "status": "partial",
   "theorems": [
    "C26_partial",
    "C26_refuted"
   ],
   "note": "Node identifiers and types at any depth, for generators that give no IRI of the document; refuted for blank node identifiers used as properties, which are not relabelled."
  },
  {
   "property": "C27",
   "status": "proved",
   "theorems": [
    "C27_flat"
   ],
   "note": ""
  },
  {
   "property": "C28",
   "status": "partial",
   "theorems": [
    "C28_partial",
    "C28_refuted"
   ],
   "note": "Properties: proved for every graph, up to equality of objects. Types: proved sound; complete for nodes of the default graph, or with an index or a property, whose typed occurrences agree. Refuted otherwise: types of an earlier occurrence are overwritten, and nodes of named graphs with only types are dropped."
  },
  {
   "property": "C29",
   "status": "proved",
   "theorems": [
    "C29_conflicts"
   ],
   "note": ""
  },
  {
   "property": "C30",
   "status": "partial",
   "theorems": [
    "C30_partial",
    "C30_refuted"
   ],
   "note": "Proved for lists all of whose items, at every level, have an RDF value (C30_partial): collection, one fresh node per item, exactly one rdf:first and rdf:rest each. Refuted otherwise: an item without an RDF value (a node without an identifier, an ill-formed language tag) leaves the previous node without rdf:rest (C30_refuted)."
  },
  {
   "property": "C31",
   "status": "proved",
   "theorems": [
    "C31_well_formed"
   ],
   "note": "Subject and graph are IRIs or blank nodes by type, in the code and in the model; the theorem adds the predicate, the language tags and termination. C55 relates the terms to the identifiers of the document."
  },
  {
   "property": "C32",
   "status": "partial",
   "theorems": [
    "C32_seen_partial",
    "C32_partial",
    "C32_refuted"
   ],
   "note": "Proved for nodes that are not inside a node without an identifier, so for every document where all nodes have one (relabelled or flattened). Refuted otherwise: nothing inside an anonymous node reaches the output (C32_refuted)."
  },
  {
   "property": "C33",
   "status": "partial",
   "theorems": [
    "C33_partial",
    "C33_refuted",
    "C33_tag_refuted"
   ],
   "note": "Proved for the i18n datatype encoding with a well-formed or no language (C33_partial). Refuted for compound literals, which are blank nodes without any triple (C33_refuted), and for ill-formed language tags, whose string is dropped (C33_tag_refuted)."
  },
  {
   "property": "C34",
   "status": "partial",
   "theorems": [
    "C34_exactly_partial",
    "C34_partial",
    "C34_lists_refuted",
    "C34_refuted"
   ],
   "note": "Proved: for every dataset whose literals are in canonical form, whose predicates are allowed and where no rdf:type quad follows the last rdf:first quad, building ends and the statements read back are exactly those with a rooted subject and graph name (C34_exactly_partial); hence all of them when every subject is rooted (C34_partial). Missing: the unconditional claim is false (C34_refuted: cycles, classes with a single instance, rdf:first rendered as rdf:type, lexical forms of booleans), and no list is ever rebuilt, for any dataset (C34_lists_refuted)."
  },
  {
   "property": "C35",
   "status": "proved",
   "theorems": [
    "C35_link_iff",
    "C35_link_last_value_wins"
   ],
   "note": ""
  },
  {
   "property": "C36",
   "status": "proved",
   "theorems": [
    "C36_content_type_iff"
   ],
   "note": ""
  },
  {
   "property": "C37",
   "status": "proved",
   "theorems": [
    "C37_load_bounded_and_exact"
   ],
   "note": ""
  },
  {
   "property": "C38",
   "status": "proved",
   "theorems": [
    "C38_chain_first_success"
   ],
   "note": ""
  },
  {
   "property": "C39",
   "status": "partial",
   "theorems": [
    "C39_partial",
    "C39_contexts_partial",
    "C39_keys_partial",
    "C39_refuted"
   ],
   "note": "Everything is proved except that properties are never keywords, which is refuted (a property-valued index whose key expands to \"@type\" in a nested context); it is proved when no reached context has a property-valued index. The contexts started from are those given by context processing (C39_contexts_partial). id_laws are assumed about the external IRI crate."
  },
  {
   "property": "C40",
   "status": "partial",
   "theorems": [
    "C40_accepted_partial",
    "C40_error_partial",
    "C40_rules_partial",
    "C40_null_partial",
    "C40_null_refuted",
    "C40_alias_refuted",
    "C40_context_refuted"
   ],
   "note": "Exact characterisation of the accepted value objects, of the values given, and of the errors, on the expanded entries. The grammar itself is refuted in three cases: a null value is accepted with both a type and a language (C40_null_refuted), repeated entries through keyword aliases are not detected (C40_alias_refuted), and an entry @context is refused (C40_context_refuted)."
  },
  {
   "property": "C41",
   "status": "partial",
   "theorems": [
    "C41_safe_partial",
    "C41_object_safe_partial",
    "C41_kept_partial",
    "C41_item_kept_partial",
    "C41_lists_refuted",
    "C41_json_refuted",
    "C41_index_refuted",
    "C41_graph_refuted"
   ],
   "note": "Proved where no context met has a nest value or a map or list container (C41_safe needs no condition on list containers): no panic, and each item of each property gives its values to one key in order, none lost. The content of compacted graph objects is not specified. Refuted in general: a list container keeps only the last list; JSON literals of a @json property are merged or lost; index and graph-index maps absorb list objects and named graphs, or panic."
  },
  {
   "property": "C42",
   "status": "partial",
   "theorems": [
    "C42_definitions_kept_partial",
    "C42_refuted_base",
    "C42_refuted_vocab"
   ],
   "note": "Term definitions are kept; base and vocabulary are not when they are relative (refuted)."
  },
  {
   "property": "C43",
   "status": "proved",
   "theorems": [
    "C43_terminates"
   ],
   "note": ""
  },
  {
   "property": "C44",
   "status": "proved",
   "theorems": [
    "C44_no_panic",
    "C44_prefix_refuted",
    "C44_drop_refuted"
   ],
   "note": ""
  },
  {
   "property": "C45",
   "status": "proved",
   "theorems": [
    "C45_sequence",
    "C45_singleton",
    "C45_remote_refuted"
   ],
   "note": ""
  },
  {
   "property": "C46",
   "status": "proved",
   "theorems": [
    "C46_original_base",
    "C46_remote_base"
   ],
   "note": ""
  },
  {
   "property": "C47",
   "status": "proved",
   "theorems": [
    "C47_terms",
    "C47_language",
    "C47_direction",
    "C47_vocabulary",
    "C47_set",
    "C47_base",
    "C47_vocab"
   ],
   "note": ""
  },
  {
   "property": "C48",
   "status": "proved",
   "theorems": [
    "C48_created",
    "C48_type"
   ],
   "note": ""
  },
  {
   "property": "C49",
   "status": "proved",
   "theorems": [
    "C49_context_grammar"
   ],
   "note": ""
  },
  {
   "property": "C50",
   "status": "proved",
   "theorems": [
    "C50_mode_10",
    "C50_mode_10_propagate",
    "C50_array_propagate_refuted",
    "C50_errors"
   ],
   "note": "C50_array_propagate_refuted shows that in an array @propagate is neither refused in mode 1.0 nor applied in mode 1.1."
  },
  {
   "property": "C51",
   "status": "proved",
   "theorems": [
    "C51_previous",
    "C51_null"
   ],
   "note": ""
  },
  {
   "property": "C52",
   "status": "proved",
   "theorems": [
    "C52_relative_references",
    "C52_repeated"
   ],
   "note": ""
  },
  {
   "property": "C53",
   "status": "proved",
   "theorems": [
    "C53_reserialize"
   ],
   "note": ""
  },
  {
   "property": "C54",
   "status": "proved",
   "theorems": [
    "C54_identify"
   ],
   "note": ""
  },
  {
   "property": "C55",
   "status": "proved",
   "theorems": [
    "C55_only_the_document"
   ],
   "note": ""
  },
  {
   "property": "C56",
   "status": "proved",
   "theorems": [
    "C56_node_map"
   ],
   "note": ""
  },
  {
   "property": "C57",
   "status": "partial",
   "theorems": [
    "C57_partial",
    "C57_refuted",
    "C57_alias_refuted"
   ],
   "note": "False as stated: C57_refuted (a relative reference that is a keyword is not protected), C57_alias_refuted (a relative reference that is a keyword alias). C57_partial proves the round trip otherwise, for any function that makes IRIs relative to the base in such a way that they resolve back."
  },
  {
   "property": "C58",
   "status": "partial",
   "theorems": [
    "C58_partial",
    "C58_refuted"
   ],
   "note": "False as stated: C58_refuted (an IRI with an authority, and a term that is not a prefix). C58_partial: never panics, gives a string unless the scheme of the IRI or of the identifier of the value is a term."
  },
  {
   "property": "C59",
   "status": "proved",
   "theorems": [
    "C59_reread",
    "C59_plain",
    "C59_keyword_needed",
    "C59_included_needed"
   ],
   "note": "The two conditions (no included nodes, no reserved property) are each shown to be needed."
  },
  {
   "property": "C60",
   "status": "partial",
   "theorems": [
    "C60_suits_partial",
    "C60_preferred_partial",
    "C60_refuted",
    "C60_type_refuted"
   ],
   "note": "False as stated: C60_refuted and C60_type_refuted (the IRI of the property is itself a term with a list container or with a type mapping, and is returned as the last resort). C60_suits_partial and C60_preferred_partial: true for every term other than the IRI itself, for values whose tagged strings have a language or a direction."
  },
  {
   "property": "C61",
   "status": "proved",
   "theorems": [
    "C61_round_trip",
    "C61_nested_refuted",
    "C61_index_refuted",
    "C61_empty_refuted",
    "C61_graph_refuted",
    "C61_lists_refuted",
    "C61_index_map_refuted",
    "C61_language_map_refuted",
    "C61_graph_map_refuted"
   ],
   "note": "Equal is the set-like equality of C23 (same_i); the theorems C61_..._refuted show documents that need the conditions."
  },
  {
   "property": "C62",
   "status": "proved",
   "theorems": [
    "C62_ends"
   ],
   "note": "Stuck outcomes are out of fuel, XPanic and LPanic; errors of context processing are reported as such (its own recursion is bounded by pf)."
  },
  {
   "property": "C63",
   "status": "proved",
   "theorems": [
    "C63_parts"
   ],
   "note": "alike: the same outcome, value or error, for every fuel greater than both sizes."
  },
  {
   "property": "C64",
   "status": "proved",
   "theorems": [
    "C64_language_maps"
   ],
   "note": ""
  },
  {
   "property": "C65",
   "status": "proved",
   "theorems": [
    "C65_index_maps",
    "C65_type_scoped_refuted"
   ],
   "note": "C65_type_scoped_refuted shows why type-scoped contexts are excluded (as the standard has it)."
  },
  {
   "property": "C66",
   "status": "proved",
   "theorems": [
    "C66_id_maps",
    "C66_context_refuted"
   ],
   "note": "C66_context_refuted: the key is read outside of the context of the member."
  },
  {
   "property": "C67",
   "status": "proved",
   "theorems": [
    "C67_type_maps",
    "C67_relative_refuted",
    "C67_type_scoped_refuted"
   ],
   "note": "C67_relative_refuted and C67_type_scoped_refuted show why relative keys and keys with a local context are excluded."
  },
  {
   "property": "C68",
   "status": "proved",
   "theorems": [
    "C68_list_containers",
    "C68_type_scoped_refuted"
   ],
   "note": "C68_type_scoped_refuted: in a list object the context of the type of the node is not in effect (also in the specification)."
  },
  {
   "property": "C69",
   "status": "proved",
   "theorems": [
    "C69_sets",
    "C69_others",
    "C69_context_refuted"
   ],
   "note": "C69_context_refuted: set and list objects with a context of their own are rejected."
  },
  {
   "property": "C70",
   "status": "proved",
   "theorems": [
    "C70_terms"
   ],
   "note": ""
  },
  {
   "property": "C71",
   "status": "proved",
   "theorems": [
    "C71_aliases",
    "C71_nest_refuted",
    "C71_types_refuted"
   ],
   "note": "C71_nest_refuted and C71_types_refuted show why @nest and several names for @type are excluded."
  },
  {
   "property": "C72",
   "status": "proved",
   "theorems": [
    "C72_contexts"
   ],
   "note": ""
  },
  {
   "property": "C73",
   "status": "proved",
   "theorems": [
    "C73_nest",
    "C73_type_refuted"
   ],
   "note": "C73_type_refuted: the context of a nested type is not used (as in the specification)."
  },
  {
   "property": "C74",
   "status": "proved",
   "theorems": [
    "C74_nothing",
    "C74_container_refuted"
   ],
   "note": "C74_container_refuted: null gives an empty list or an empty property with a list or graph container."
  },
  {
   "property": "C75",
   "status": "proved",
   "theorems": [
    "C75_compare",
    "C75_equivalence",
    "C75_same_expansion_refuted",
    "C75_repeated_keys_refuted"
   ],
   "note": "Documents whose objects repeat a key are excluded: the comparison of JSON then panics (C04, C75_repeated_keys_refuted). Two documents with the same expansion may compare as different (C75_same_expansion_refuted)."
  },
  {
   "property": "C76",
   "status": "proved",
   "theorems": [
    "C76_to_rdf"
   ],
   "note": ""
  },
  {
   "property": "C77",
   "status": "partial",
   "theorems": [
    "C77_partial",
    "C77_refuted"
   ],
   "note": "Proved for documents without graphs and without included nodes; C77_refuted shows that the canonical form does not visit these, so 1 and 1.0 get different datatypes there."
  },
  {
   "property": "C78",
   "status": "proved",
   "theorems": [
    "C78_documents",
    "C78_contexts",
    "C78_failures"
   ],
   "note": ""
  },
  {
   "property": "C79",
   "status": "proved",
   "theorems": [
    "C79_expand_context",
    "C79_context_url",
    "C79_expand_context_iri_refuted"
   ],
   "note": "Proved under the stated condition; C79_expand_context_iri_refuted shows that expandContext given by an IRI resolves relative references against the base IRI of the document."
  },
  {
   "property": "C80",
   "status": "proved",
   "theorems": [
    "C80_base",
    "C80_no_url",
    "C80_compact_url",
    "C80_compact_base",
    "C80_embedded_refuted",
    "C80_relative_base_refuted"
   ],
   "note": "Proved under the stated conditions; C80_embedded_refuted: embedded contexts are resolved against the URL, not the base option; C80_relative_base_refuted: contexts with a relative base IRI cannot be used to compact."
  },
  {
   "property": "C81",
   "status": "proved",
   "theorems": [
    "C81_round_trip",
    "C81_base_refuted",
    "C81_null_base_refuted"
   ],
   "note": "Proved when the two contexts agree; C81_base_refuted and C81_null_base_refuted show what happens when they do not."
  },
  {
   "property": "C82",
   "status": "proved",
   "theorems": [
    "C82_flatten",
    "C82_compacted",
    "C82_failures"
   ],
   "note": "Types are kept as in C28 (see C28_refuted for those that are lost). Without a context, no property may be called like an entry of node objects (C39_refuted)."
  },
  {
   "property": "C83",
   "status": "partial",
   "theorems": [
    "C83_partial",
    "C83_node_partial",
    "C83_document_partial",
    "C83_copy",
    "C83_untyped",
    "C83_types_refuted"
   ],
   "note": "Exact apart from the types of nodes, which are ignored (C83_types_refuted); exact for objects without types (C83_untyped), and renamed copies are always found equal (C83_copy)."
  },
  {
   "property": "C84",
   "status": "proved",
   "theorems": [
    "C84_reads_back",
    "C84_expands",
    "C84_no_panic",
    "C84_panics",
    "C84_prefix_refuted",
    "C84_null_refuted",
    "C84_scheme_refuted",
    "C84_language_refuted",
    "C84_order_refuted"
   ],
   "note": "Conditions (convertible) are stated in Reify.v; each is needed: C84_prefix_refuted, C84_null_refuted, C84_scheme_refuted, C84_language_refuted, C84_order_refuted."
  },
  {
   "property": "C85",
   "status": "proved",
   "theorems": [
    "C85_fixed",
    "C85_twice",
    "C85_graph_refuted",
    "C85_included_refuted",
    "C85_values_refuted",
    "C85_none_refuted",
    "C85_base_refuted"
   ],
   "note": ""
  },
  {
   "property": "C86",
   "status": "proved",
   "theorems": [
    "C86_exact",
    "C86_round_trip",
    "C86_proper",
    "C86_errors",
    "C86_never_a_list",
    "C86_predicates",
    "C86_first",
    "C86_rest_errors",
    "C86_list_refuted",
    "C86_lost_refuted",
    "C86_type_refuted",
    "C86_rest_refuted"
   ],
   "note": "The conditions (ordinary, kept) are stated in LinkedData.v; what is lost otherwise: C86_list_refuted, C86_lost_refuted, C86_type_refuted, C86_rest_refuted. C86_predicates, C86_first, C86_rest_errors: data that is not from a document."
  },
  {
   "property": "C87",
   "status": "proved",
   "theorems": [
    "C87_placed",
    "C87_unscoped",
    "C87_item",
    "C87_list",
    "C87_document",
    "C87_first_refuted",
    "C87_index_refuted"
   ],
   "note": "C87_placed: node_parts lists the parts (identifier, types, reverse, index, graph, properties, included), placed says that the object holds them and nothing else. C87_unscoped: without local contexts it is the given context that is used throughout. C87_item: the value of an item is at its path. Conditions: clear (no path in the way of another one), without which values are lost or merged (C41_index_refuted, C41_lists_refuted). For nodes under a language map, the value and key are unspecified. C87_first_refuted, C87_index_refuted: property-valued indexes."
  },
  {
   "property": "C88",
   "status": "partial",
   "theorems": [
    "C88_document",
    "C88_node",
    "C88_context",
    "C88_context_read",
    "C88_read_partial",
    "C88_read_node_partial",
    "C88_index_refuted",
    "C88_node_index_refuted"
   ],
   "note": "C88_document, C88_node, C88_context: no panic, the sizes are used exactly, and the text is that of the JSON value with the entries. C88_context_read: well-formed contexts are printed as into_json gives them and read again. C88_read_partial, C88_read_node_partial: documents without indexes on objects are read again; missing: identifiers whose text reads as something else. Refuted for objects with an index, printed under @value."
  },
  {
   "property": "C89",
   "status": "proved",
   "theorems": [
    "C89_well_formed",
    "C89_renamed",
    "C89_identity",
    "C89_same",
    "C89_compose",
    "C89_undone",
    "C89_kept",
    "C89_only",
    "C89_order_refuted"
   ],
   "note": "Proved up to the order of values; when identifiers are merged the values of the merged properties may come in another order than after two mappings (C89_order_refuted)."
  },
  {
   "property": "C90",
   "status": "proved",
   "theorems": [
    "C90_lately",
    "C90_values",
    "C90_determined",
    "C90_plain",
    "C90_unique",
    "C90_contains",
    "C90_views",
    "C90_order",
    "C90_removed_order",
    "C90_equivalent",
    "C90_equivalent_node",
    "C90_equal",
    "C90_contains_refuted"
   ],
   "note": "Proved for every history of edits. Beside it: contains is also true of a property mentioned without any value (C90_contains_refuted), against the documentation of contains."
  },
  {
   "property": "C91",
   "status": "proved",
   "theorems": [
    "C91_same_rdf",
    "C91_types_refuted"
   ],
   "note": "C91_same_rdf: quads of the flattened document against those of the document with its nodes named (apart from the generated nodes), both ways, and the lists given to properties. C91_types_refuted: the types that flattening loses (C28) are lost in RDF."
  },
  {
   "property": "C92",
   "status": "proved",
   "theorems": [
    "C92_entries",
    "C92_get",
    "C92_traverse",
    "C92_kinds",
    "C92_kinds_refuted",
    "C92_subs",
    "C92_capacity",
    "C92_scoped_refuted"
   ],
   "note": "C92_entries: entries, their order and the size hints; C92_get: access by key; C92_traverse: what is visited; C92_subs: the fragments right below another; C92_kinds, C92_capacity: arrays and objects. C92_scoped_refuted: contexts scoped to terms are not visited nor counted. C92_kinds_refuted: a scoped context made of an array says that it is not an array (not visited)."
  },
  {
   "property": "C93",
   "status": "proved",
   "theorems": [
    "C93_stricter",
    "C93_valid",
    "C93_undefined",
    "C93_rejected",
    "C93_vocab",
    "C93_type_map_refuted",
    "C93_index_refuted",
    "C93_vocab_refuted"
   ],
   "note": "C93_stricter relates two runs of expansion whose options differ by stricter policies; C93_valid says that no invalid name gets through unless kept; C93_undefined, C93_rejected and C93_vocab say what is refused. Index properties and type maps are not checked by the code: C93_type_map_refuted and C93_index_refuted are witnesses, and the condition of C93_valid excludes them. C93_vocab_refuted: keys are checked in the context around the object."
  },
  {
   "property": "C94",
   "status": "proved",
   "theorems": [
    "C94_merged",
    "C94_order",
    "C94_once",
    "C94_generated",
    "C94_graph_refuted",
    "C94_index_refuted"
   ],
   "note": "C94_generated shows that the condition of C94_merged and C94_once holds of the node map of every document. C94_graph_refuted (a node's graph is overridden by the absence of one in a later graph, as the comment on merge_node says) and C94_index_refuted (the index kept depends on the order of the hash map) are witnesses of what merging does not keep."
  },
  {
   "property": "C95",
   "status": "proved",
   "theorems": [
    "C95_order",
    "C95_reverse_refuted",
    "C95_alias_refuted",
    "C95_nest_refuted",
    "C95_json_refuted"
   ],
   "note": ""
  },
  {
   "property": "C96",
   "status": "proved",
   "theorems": [
    "C96_order",
    "C96_accepted_refuted",
    "C96_protected_refuted",
    "C96_url_refuted",
    "C96_override_refuted"
   ],
   "note": ""
  },
  {
   "property": "C97",
   "status": "proved",
   "theorems": [
    "C97_process",
    "C97_expand",
    "C97_compact",
    "C97_once",
    "C97_terms",
    "C97_compact_refuted"
   ],
   "note": ""
  },
  {
   "property": "C98",
   "status": "proved",
   "theorems": [
    "C98_inside",
    "C98_answer",
    "C98_mount",
    "C98_apart",
    "C98_longest_refuted",
    "C98_unchecked_refuted"
   ],
   "note": ""
  },
  {
   "property": "C99",
   "status": "proved",
   "theorems": [
    "C99_only",
    "C99_found",
    "C99_relabel",
    "C99_identify",
    "C99_map_ids",
    "C99_canonicalize",
    "C99_appears_refuted"
   ],
   "note": ""
  },
  {
   "property": "C100",
   "status": "proved",
   "theorems": [
    "C100_contexts",
    "C100_finite",
    "C100_preloaded",
    "C100_more",
    "C100_none",
    "C100_failures_refuted"
   ],
   "note": ""
  },
  {
   "property": "C101",
   "status": "partial",
   "theorems": [
    "C101_settings",
    "C101_equivalence",
    "C101_alike",
    "C101_expand_partial",
    "C101_definitions_refuted"
   ],
   "note": "Context::eq does not compare the term definitions (nor the definition of @type): contexts may compare equal and expand a document differently (C101_definitions_refuted). C101_expand_partial adds the missing comparison as a hypothesis; the exact meaning of equality is C101_settings."
  },
  {
   "property": "C102",
   "status": "proved",
   "theorems": [
    "C102_mapped",
    "C102_only",
    "C102_term",
    "C102_protected",
    "C102_select",
    "C102_undone",
    "C102_select_refuted",
    "C102_expand_refuted"
   ],
   "note": "Expansion in the mapped context is not the mapped expansion, since IRIs are made of the vocabulary and prefixes (C102_expand_refuted); with a function that identifies two identifiers another term may be selected (C102_select_refuted)."
  },
  {
   "property": "C103",
   "status": "proved",
   "theorems": [
    "C103_entries",
    "C103_ends",
    "C103_json",
    "C103_keyword",
    "C103_has_key",
    "C103_included_refuted",
    "C103_index_refuted"
   ],
   "note": "Included nodes have the key @included among the entries and @include in JSON (C103_included_refuted). IntoRefWithContext gives the key of the index as @value (C103_index_refuted); into_str gives @index."
  },
  {
   "property": "C104",
   "status": "proved",
   "theorems": [
    "C104_results",
    "C104_warned",
    "C104_invalid",
    "C104_keys",
    "C104_invalid_refuted"
   ],
   "note": "Warnings of expand_iri_simple and of the loop over the keys of an element. Not covered: KeywordLikeValue and MalformedLanguageTag. C104_invalid_refuted: a key made invalid by the vocabulary mapping is lost without a warning."
  },
  {
   "property": "C105",
   "status": "proved",
   "theorems": [
    "C105_cause",
    "C105_never",
    "C105_ranked",
    "C105_skipped_refuted"
   ],
   "note": "Converse of C10. C105_skipped_refuted: a cycle alone is not the cause; a term whose @id has the form of a keyword stays pending after it was skipped, so that a term using it is reported as cyclic."
  },
  {
   "property": "C106",
   "status": "proved",
   "theorems": [
    "C106_cause",
    "C106_plain"
   ],
   "note": "The cause of an error is necessary, not sufficient: it says which entries can give which error code, in which mode and under which vocabulary policy. The out-of-fuel error is excepted; C105 and C107 say more about cycles and protection."
  },
  {
   "property": "C107",
   "status": "proved",
   "theorems": [
    "C107_no_error",
    "C107_result",
    "C107_chain"
   ],
   "note": "Contexts scoped to terms may be marked: their errors are reported as invalid scoped contexts."
  },
  {
   "property": "C108",
   "status": "proved",
   "theorems": [
    "C108_accepted",
    "C108_again",
    "C108_expansion"
   ],
   "note": "The values must be recognised as IRIs by the (abstract) IRI parser and not as blank nodes. Of the entries of expanded term definitions only @id, @type (@id or @vocab), @language, @direction and @container (list, set, index, language) are allowed; keyword entries of the definition are not."
  },
  {
   "property": "C109",
   "status": "proved",
   "theorems": [
    "C109_expands",
    "C109_determined",
    "C109_scalars",
    "C109_same"
   ],
   "note": "The entries are the context, at most one @id and one @type, and terms of the context; strings of link terms, identifiers and types must be absolute or compact IRIs, or terms in the case of types; nested objects have no context of their own and are not values of index or language containers; no arrays in arrays, and no null for list containers."
  }
 ]
}