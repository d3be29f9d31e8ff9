{
 "C02": {
  "note": "Every enumeration except one error code: the text of ErrorCode::DuplicateKey is not parsed back (refuted)."
 },
 "C04": {
  "note": "Compare panics on duplicate keys, which the property excludes."
 },
 "C05": {
  "note": "Exact except when @index is listed after both @graph and @set: Container::with maps GraphSet + Index to GraphIdSet (refuted)."
 },
 "C20": {
  "note": "Values are the leaves of the argument: nested arrays (JSON literals) are flattened, shown by the refuted theorem."
 },
 "C07": {
  "note": "Holds for every definition except two refuted cases: a definition without entries (simplified to null), and a definition with only an @id for a term usable as a prefix (the simple form creates a prefix)."
 },
 "C09": {
  "note": "Terminates whenever no document reached through @import carries a scoped context that imports again; refuted without that condition (import loop through a scoped context)."
 },
 "C10": {
  "note": "Cyclic dependencies never succeed and are reported as a cyclic IRI mapping; unconditional termination is refuted by the same import loop as C09."
 },
 "C11": {
  "note": "Holds when the redefinition is neither a reverse property nor has a keyword-like @id; both exceptions are refuted with witnesses."
 },
 "C12": {
  "note": "With propagate = false the previous context is kept, as the statement allows."
 },
 "C13": {
  "note": "Proved for the keywords that are context definition entries; refuted for other keywords: {\"@id\": \"http://x/\"} binds @id."
 },
 "C42": {
  "note": "Term definitions are kept; base and vocabulary are not when they are relative (refuted)."
 },
 "C50": {
  "note": "C50_array_propagate_refuted shows that in an array @propagate is neither refused in mode 1.0 nor applied in mode 1.1."
 },
 "C24": {
  "note": "Exact for objects without included nodes and empty type lists whose identifiers and keys read back as themselves; refuted for included nodes (written under @include) and for an empty type list. C53 gives the condition for documents obtained by parsing."
 },
 "C25": {
  "note": "Exact description of what is visited: everything outside lists, each object once, and every identifier except those in lists and names of reverse properties. Refuted in general: items of lists are not visited (the list fragment has no sub-fragment) and reverse property names are not reported."
 },
 "C26": {
  "note": "Node identifiers and types at any depth, for generators that give no IRI of the document; refuted for blank node identifiers used as properties, which are not relabelled."
 },
 "C28": {
  "note": "Properties: proved for every graph, up to equality of objects. Types: proved sound; complete for nodes of the default graph, or with an index or a property, whose typed occurrences agree. Refuted otherwise: types of an earlier occurrence are overwritten, and nodes of named graphs with only types are dropped."
 },
 "C30": {
  "note": "Proved for lists all of whose items, at every level, have an RDF value (C30_partial): collection, one fresh node per item, exactly one rdf:first and rdf:rest each. Refuted otherwise: an item without an RDF value (a node without an identifier, an ill-formed language tag) leaves the previous node without rdf:rest (C30_refuted)."
 },
 "C31": {
  "note": "Subject and graph are IRIs or blank nodes by type, in the code and in the model; the theorem adds the predicate, the language tags and termination. C55 relates the terms to the identifiers of the document."
 },
 "C32": {
  "note": "Proved for nodes that are not inside a node without an identifier, so for every document where all nodes have one (relabelled or flattened). Refuted otherwise: nothing inside an anonymous node reaches the output (C32_refuted)."
 },
 "C33": {
  "note": "Proved for the i18n datatype encoding with a well-formed or no language (C33_partial). Refuted for compound literals, which are blank nodes without any triple (C33_refuted), and for ill-formed language tags, whose string is dropped (C33_tag_refuted)."
 },
 "C34": {
  "note": "Proved: for every dataset whose literals are in canonical form, whose predicates are allowed and where no rdf:type quad follows the last rdf:first quad, building ends and the statements read back are exactly those with a rooted subject and graph name (C34_exactly_partial); hence all of them when every subject is rooted (C34_partial). Missing: the unconditional claim is false (C34_refuted: cycles, classes with a single instance, rdf:first rendered as rdf:type, lexical forms of booleans), and no list is ever rebuilt, for any dataset (C34_lists_refuted)."
 },
 "C18": {
  "note": "False as stated: C18_refuted (a suffix of the vocabulary mapping that contains a colon), C18_keyword_refuted (a suffix that is a keyword), C18_slashes_refuted (a compact IRI whose suffix starts with //), C18_null_refuted (an IRI that is a term defined as null). C18_partial proves the round trip for all contexts, values and modes when none of these applies to the IRI."
 },
 "C19": {
  "note": "False as stated: C19_refuted (the candidate must be both no longer and lexicographically smaller to replace the current one, so the result depends on the iteration order and may not be the shortest). C19_possible_partial: exactly the candidates that no other beats can be returned; C19_exactly_partial: the result is independent of the order iff one candidate beats all the others; C19_shortest_partial: then it is the shortest; C19_order_partial: with terms, vocabulary and values."
 },
 "C57": {
  "note": "False as stated: C57_refuted (a relative reference that is a keyword is not protected), C57_alias_refuted (a relative reference that is a keyword alias). C57_partial proves the round trip otherwise, for any function that makes IRIs relative to the base in such a way that they resolve back."
 },
 "C58": {
  "note": "False as stated: C58_refuted (an IRI with an authority, and a term that is not a prefix). C58_partial: never panics, gives a string unless the scheme of the IRI or of the identifier of the value is a term."
 },
 "C40": {
  "note": "Exact characterisation of the accepted value objects, of the values given, and of the errors, on the expanded entries. The grammar itself is refuted in three cases: a null value is accepted with both a type and a language (C40_null_refuted), repeated entries through keyword aliases are not detected (C40_alias_refuted), and an entry @context is refused (C40_context_refuted).",
  "status": "partial"
 },
 "C21": {
  "note": "Holds for contexts whose keyword aliases and datatypes read back and properties without local context, given the stated conditions on the value; refuted without them: null values, strings with only a direction or only a language under a default for the other, tagged strings of a typed property, literals of an @json property, the language @none.",
  "status": "partial"
 },
 "C41": {
  "note": "Proved where no context met has a nest value or a map or list container (C41_safe needs no condition on list containers): no panic, and each item of each property gives its values to one key in order, none lost. The content of compacted graph objects is not specified. Refuted in general: a list container keeps only the last list; JSON literals of a @json property are merged or lost; index and graph-index maps absorb list objects and named graphs, or panic.",
  "status": "partial"
 },
 "C39": {
  "note": "Everything is proved except that properties are never keywords, which is refuted (a property-valued index whose key expands to \"@type\" in a nested context); it is proved when no reached context has a property-valued index. The contexts started from are those given by context processing (C39_contexts_partial). id_laws are assumed about the external IRI crate."
 },
 "C59": {
  "note": "The two conditions (no included nodes, no reserved property) are each shown to be needed."
 },
 "C60": {
  "note": "False as stated: C60_refuted and C60_type_refuted (the IRI of the property is itself a term with a list container or with a type mapping, and is returned as the last resort). C60_suits_partial and C60_preferred_partial: true for every term other than the IRI itself, for values whose tagged strings have a language or a direction.",
  "status": "partial"
 },
 "C61": {
  "note": "Equal is the set-like equality of C23 (same_i); the theorems C61_..._refuted show documents that need the conditions."
 },
 "C62": {
  "note": "Stuck outcomes are out of fuel, XPanic and LPanic; errors of context processing are reported as such (its own recursion is bounded by pf)."
 },
 "C63": {
  "note": "alike: the same outcome, value or error, for every fuel greater than both sizes."
 },
 "C65": {
  "note": "C65_type_scoped_refuted shows why type-scoped contexts are excluded (as the standard has it)."
 },
 "C66": {
  "note": "C66_context_refuted: the key is read outside of the context of the member."
 },
 "C67": {
  "note": "C67_relative_refuted and C67_type_scoped_refuted show why relative keys and keys with a local context are excluded."
 },
 "C68": {
  "note": "C68_type_scoped_refuted: in a list object the context of the type of the node is not in effect (also in the specification)."
 },
 "C69": {
  "note": "C69_context_refuted: set and list objects with a context of their own are rejected."
 },
 "C71": {
  "note": "C71_nest_refuted and C71_types_refuted show why @nest and several names for @type are excluded."
 },
 "C73": {
  "note": "C73_type_refuted: the context of a nested type is not used (as in the specification)."
 },
 "C74": {
  "note": "C74_container_refuted: null gives an empty list or an empty property with a list or graph container."
 },
 "C75": {
  "note": "Documents whose objects repeat a key are excluded: the comparison of JSON then panics (C04, C75_repeated_keys_refuted). Two documents with the same expansion may compare as different (C75_same_expansion_refuted)."
 },
 "C77": {
  "note": "Proved for documents without graphs and without included nodes; C77_refuted shows that the canonical form does not visit these, so 1 and 1.0 get different datatypes there.",
  "status": "partial"
 },
 "C79": {
  "note": "Proved under the stated condition; C79_expand_context_iri_refuted shows that expandContext given by an IRI resolves relative references against the base IRI of the document."
 },
 "C80": {
  "note": "Proved under the stated conditions; C80_embedded_refuted: embedded contexts are resolved against the URL, not the base option; C80_relative_base_refuted: contexts with a relative base IRI cannot be used to compact."
 },
 "C81": {
  "note": "Proved when the two contexts agree; C81_base_refuted and C81_null_base_refuted show what happens when they do not."
 },
 "C82": {
  "note": "Types are kept as in C28 (see C28_refuted for those that are lost). Without a context, no property may be called like an entry of node objects (C39_refuted)."
 },
 "C83": {
  "note": "Exact apart from the types of nodes, which are ignored (C83_types_refuted); exact for objects without types (C83_untyped), and renamed copies are always found equal (C83_copy).",
  "status": "partial"
 },
 "C84": {
  "note": "Conditions (convertible) are stated in Reify.v; each is needed: C84_prefix_refuted, C84_null_refuted, C84_scheme_refuted, C84_language_refuted, C84_order_refuted."
 },
 "C86": {
  "note": "The conditions (ordinary, kept) are stated in LinkedData.v; what is lost otherwise: C86_list_refuted, C86_lost_refuted, C86_type_refuted, C86_rest_refuted. C86_predicates, C86_first, C86_rest_errors: data that is not from a document."
 },
 "C87": {
  "note": "C87_placed: node_parts lists the parts (identifier, types, reverse, index, graph, properties, included), placed says that the object holds them and nothing else. C87_unscoped: without local contexts it is the given context that is used throughout. C87_item: the value of an item is at its path. Conditions: clear (no path in the way of another one), without which values are lost or merged (C41_index_refuted, C41_lists_refuted). For nodes under a language map, the value and key are unspecified. C87_first_refuted, C87_index_refuted: property-valued indexes."
 },
 "C88": {
  "note": "C88_document, C88_node, C88_context: no panic, the sizes are used exactly, and the text is that of the JSON value with the entries. C88_context_read: well-formed contexts are printed as into_json gives them and read again. C88_read_partial, C88_read_node_partial: documents without indexes on objects are read again; missing: identifiers whose text reads as something else. Refuted for objects with an index, printed under @value.",
  "status": "partial"
 },
 "C90": {
  "note": "Proved for every history of edits. Beside it: contains is also true of a property mentioned without any value (C90_contains_refuted), against the documentation of contains.",
  "status": "proved"
 },
 "C89": {
  "note": "Proved up to the order of values; when identifiers are merged the values of the merged properties may come in another order than after two mappings (C89_order_refuted).",
  "status": "proved"
 },
 "C91": {
  "note": "C91_same_rdf: quads of the flattened document against those of the document with its nodes named (apart from the generated nodes), both ways, and the lists given to properties. C91_types_refuted: the types that flattening loses (C28) are lost in RDF."
 },
 "C92": {
  "note": "C92_entries: entries, their order and the size hints; C92_get: access by key; C92_traverse: what is visited; C92_subs: the fragments right below another; C92_kinds, C92_capacity: arrays and objects. C92_scoped_refuted: contexts scoped to terms are not visited nor counted. C92_kinds_refuted: a scoped context made of an array says that it is not an array (not visited)."
 },
 "C93": {
  "note": "C93_stricter relates two runs of expansion whose options differ by stricter policies; C93_valid says that no invalid name gets through unless kept; C93_undefined, C93_rejected and C93_vocab say what is refused. Index properties and type maps are not checked by the code: C93_type_map_refuted and C93_index_refuted are witnesses, and the condition of C93_valid excludes them. C93_vocab_refuted: keys are checked in the context around the object."
 },
 "C94": {
  "note": "C94_generated shows that the condition of C94_merged and C94_once holds of the node map of every document. C94_graph_refuted (a node's graph is overridden by the absence of one in a later graph, as the comment on merge_node says) and C94_index_refuted (the index kept depends on the order of the hash map) are witnesses of what merging does not keep."
 },
 "C101": {
  "note": "Context::eq does not compare the term definitions (nor the definition of @type): contexts may compare equal and expand a document differently (C101_definitions_refuted). C101_expand_partial adds the missing comparison as a hypothesis; the exact meaning of equality is C101_settings.",
  "status": "partial"
 },
 "C102": {
  "note": "Expansion in the mapped context is not the mapped expansion, since IRIs are made of the vocabulary and prefixes (C102_expand_refuted); with a function that identifies two identifiers another term may be selected (C102_select_refuted)."
 },
 "C103": {
  "note": "Included nodes have the key @included among the entries and @include in JSON (C103_included_refuted). IntoRefWithContext gives the key of the index as @value (C103_index_refuted); into_str gives @index."
 },
 "C104": {
  "note": "Warnings of expand_iri_simple and of the loop over the keys of an element. Not covered: KeywordLikeValue and MalformedLanguageTag. C104_invalid_refuted: a key made invalid by the vocabulary mapping is lost without a warning.",
  "status": "proved"
 },
 "C105": {
  "note": "Converse of C10. C105_skipped_refuted: a cycle alone is not the cause; a term whose @id has the form of a keyword stays pending after it was skipped, so that a term using it is reported as cyclic.",
  "status": "proved"
 },
 "C106": {
  "note": "The cause of an error is necessary, not sufficient: it says which entries can give which error code, in which mode and under which vocabulary policy. The out-of-fuel error is excepted; C105 and C107 say more about cycles and protection.",
  "status": "proved"
 },
 "C107": {
  "note": "Contexts scoped to terms may be marked: their errors are reported as invalid scoped contexts.",
  "status": "proved"
 },
 "C108": {
  "note": "The values must be recognised as IRIs by the (abstract) IRI parser and not as blank nodes. Of the entries of expanded term definitions only @id, @type (@id or @vocab), @language, @direction and @container (list, set, index, language) are allowed; keyword entries of the definition are not.",
  "status": "proved"
 },
 "C109": {
  "note": "The entries are the context, at most one @id and one @type, and terms of the context; strings of link terms, identifiers and types must be absolute or compact IRIs, or terms in the case of types; nested objects have no context of their own and are not values of index or language containers; no arrays in arrays, and no null for list containers.",
  "status": "proved"
 }
}